(** The primal-dual iteration of Chambolle and Pock with equal steps, exact arithmetic. *)
From Verif Require Import Base Model_Prep Proofs_Prep Proofs_Morph Proofs_Solver Proofs_Subsets Proofs_Bart Proofs_Lsq.
From Coq Require Import Reals Lra Psatz.
Local Open Scope R_scope.

Section Pdhg.
  Context {A : Type}.
  Variable N : Z.
  Variable L : list A.
  Variable w : A -> Z -> R.
  Variable c : R.
  Let fw := fwd N w.
  Let bw := bwd L w.
  (** A saddle point: u, and y with K^T y = 0. *)
  Variable us : Z -> R.
  Variable ys : A -> R.
  Hypothesis Hys : forall j, (0 <= j < N)%Z -> bw ys j = 0.
  Definition metric (a : Z -> R) (b : A -> R) : R := prod N a a - 2 * c * lprod L (fw a) b + lprod L b b.
  Definition lyap (u : Z -> R) (y : A -> R) : R := metric (fun j => u j - us j) (fun i => y i - ys i).

  Lemma fwd_sub x y a : fwd N w (fun j => x j - y j) a = fwd N w x a - fwd N w y a.
  Proof. rewrite (fwd_ext N w _ (fun j => 1 * x j + (-1) * y j)) by (intros; ring). rewrite fwd_lin. ring. Qed.
  Lemma prod_sub_sq x y : prod N (fun j => x j - y j) (fun j => x j - y j) = prod N x x - 2 * prod N x y + prod N y y.
  Proof. rewrite (prod_ext N _ _ (fun j => 1 * x j + (-1) * y j) (fun j => 1 * x j + (-1) * y j)) by (intros; ring). rewrite prod_sq. ring. Qed.
  Lemma lprod_sub_sq x y : lprod L (fun j => x j - y j) (fun j => x j - y j) = lprod L x x - 2 * lprod L x y + lprod L y y.
  Proof. rewrite (lprod_ext L _ _ (fun j => 1 * x j + (-1) * y j) (fun j => 1 * x j + (-1) * y j)) by (intros; ring). rewrite lprod_sq. ring. Qed.
  Lemma lprod_sub_l x y z : lprod L (fun j => x j - y j) z = lprod L x z - lprod L y z.
  Proof. rewrite (lprod_ext L _ z (fun j => 1 * x j + (-1) * y j) z) by (intros; ring). rewrite lprod_lin_l. ring. Qed.
  Lemma lprod_sub_r x y z : lprod L z (fun j => x j - y j) = lprod L z x - lprod L z y.
  Proof. rewrite !(lprod_comm L z). apply lprod_sub_l. Qed.
  Lemma prod_sub_r x y z : prod N z (fun j => x j - y j) = prod N z x - prod N z y.
  Proof. rewrite !(prod_comm N z). rewrite (prod_ext N _ z (fun j => 1 * x j + (-1) * y j) z) by (intros; ring). rewrite prod_lin_l. ring. Qed.
  Lemma metric_ext a b a' b' : (forall j, (0 <= j < N)%Z -> a j = a' j) -> (forall i, In i L -> b i = b' i) -> metric a b = metric a' b'.
  Proof.
    intros Ha Hb. unfold metric. rewrite (prod_ext N a a a' a'), (lprod_ext L b b b' b'), (lprod_ext L (fw a) b (fw a') b') by (auto; intros; apply fwd_ext; auto). reflexivity.
  Qed.
  (** One step: the primal step u0 -> u1 with the dual variable y1, then the dual step y1 -> y2 at 2 u1 - u0. *)
  Lemma lyap_step u0 u1 y1 y2 :
    (forall j, (0 <= j < N)%Z -> u1 j = u0 j - c * bw y1 j) ->
    lprod L (fun i => y2 i - y1 i - c * (fw (fun j => 2 * u1 j - u0 j) i - fw us i)) (fun i => y2 i - ys i) <= 0 ->
    lyap u1 y2 + metric (fun j => u1 j - u0 j) (fun i => y2 i - y1 i) <= lyap u0 y1.
  Proof.
    intros Hu Hm.
    set (a := fun j => u1 j - u0 j) in *. set (e := fun j => u1 j - us j). set (f := fun i => y2 i - ys i) in *. set (h := fun i => y2 i - y1 i) in *.
    assert (E0 : lyap u0 y1 = metric (fun j => e j - a j) (fun i => f i - h i)) by (apply metric_ext; intros; unfold e, a, f, h; ring).
    assert (E1 : lyap u1 y2 = metric e f) by reflexivity.
    assert (Ea : prod N e a = - c * lprod L (fw e) (fun i => f i - h i)).
    { unfold fw. rewrite fwd_bwd. fold bw. rewrite <- prod_scal_r. apply prod_ext; auto. intros j Hj. unfold a. rewrite Hu by auto.
      assert (Eb : bw (fun i => f i - h i) j = bw y1 j - bw ys j).
      { unfold bw, bwd. rewrite (lsum_ext _ (fun a0 => 1 * (y1 a0 * w a0 j) + (-1) * (ys a0 * w a0 j))) by (intros; unfold f, h; ring). rewrite lsum_plus, !lsum_scal. ring. }
      rewrite Eb, Hys by auto. ring. }
    assert (Em : lprod L (fun i => y2 i - y1 i - c * (fw (fun j => 2 * u1 j - u0 j) i - fw us i)) f = lprod L h f - c * (lprod L (fw e) f + lprod L (fw a) f)).
    { rewrite (lprod_ext L _ f (fun i => 1 * h i + (- c) * (fw e i + fw a i)) f); auto.
      - rewrite lprod_lin_l. rewrite (lprod_ext L (fun i => fw e i + fw a i) f (fun i => 1 * fw e i + 1 * fw a i) f) by (intros; ring). rewrite lprod_lin_l. ring.
      - intros i _. unfold fw. rewrite (fwd_ext N w (fun j => 2 * u1 j - u0 j) (fun j => (1 * e j + 1 * a j) - ((-1) * us j + 0 * us j))) by (intros; unfold e, a; ring). rewrite fwd_sub, !fwd_lin. unfold h. fold fw. ring. }
    rewrite Em in Hm. rewrite E0, E1. unfold metric. rewrite prod_sub_sq, lprod_sub_sq.
    rewrite (lprod_ext L (fw (fun j => e j - a j)) (fun i => f i - h i) (fun i => fw e i - fw a i) (fun i => f i - h i)) by (auto; intros; apply fwd_sub).
    rewrite lprod_sub_l, !lprod_sub_r. rewrite Ea, lprod_sub_r. rewrite (lprod_comm L f h). lra.
  Qed.
  (** Positivity *)
  Variable th : R.
  Hypothesis Hth : 0 < th < 1.
  Hypothesis Hc : 0 <= c.
  Hypothesis HK : forall v, c * c * lprod L (fw v) (fw v) <= th * th * prod N v v.
  Lemma metric_pos a b : (1 - th) * (prod N a a + lprod L b b) <= metric a b.
  Proof.
    unfold metric. pose proof (HK a) as B. pose proof (lprod_pos L (fun i => c * fw a i - th * b i)) as P.
    rewrite (lprod_ext L _ _ (fun i => c * fw a i + (- th) * b i) (fun i => c * fw a i + (- th) * b i)) in P by (intros; ring). rewrite lprod_sq in P.
    assert (th * (2 * c * lprod L (fw a) b) <= th * (th * prod N a a + th * lprod L b b)) by nra.
    apply Rmult_le_reg_l in H; [|lra]. lra.
  Qed.
  Lemma metric_nonneg a b : 0 <= metric a b.
  Proof. pose proof (metric_pos a b). pose proof (prod_pos N a). pose proof (lprod_pos L b). nra. Qed.

  (** A whole run: u n, y n with u (n+1) = u n - c K^T y (n+1) and the dual step monotone. *)
  Variable u : nat -> Z -> R.
  Variable y : nat -> A -> R.
  Definition before (n : nat) : Z -> R := match n with 0%nat => u 0%nat | S n => u n end.
  Definition extra (n : nat) (j : Z) : R := 2 * u n j - before n j.
  Hypothesis Hstart : forall i, In i L -> y 0%nat i = 0.
  Hypothesis Hprimal : forall n j, (0 <= j < N)%Z -> u (S n) j = u n j - c * bw (y (S n)) j.
  Hypothesis Hdual : forall n, lprod L (fun i => y (S n) i - y n i - c * (fw (extra n) i - fw us i)) (fun i => y (S n) i - ys i) <= 0.
  Definition start_energy : R := prod N (fun j => u 0%nat j - us j) (fun j => u 0%nat j - us j) + lprod L ys ys.
  Lemma lyap_0 : lyap (before 0) (y 0%nat) = start_energy.
  Proof.
    unfold lyap, metric, start_energy. cbn [before].
    rewrite (lprod_ext L (fun i => y 0%nat i - ys i) (fun i => y 0%nat i - ys i) (fun i => (-1) * ys i + 0 * ys i) (fun i => (-1) * ys i + 0 * ys i)) by (intros i Hi; rewrite Hstart by auto; ring).
    rewrite lprod_sq. rewrite (lprod_ext L _ (fun i => y 0%nat i - ys i) (fw (fun j => u 0%nat j - us j)) (fun i => 0 - ys i)) by (auto; intros i Hi; rewrite Hstart by auto; reflexivity).
    rewrite (lprod_sub_r (fun _ => 0) ys). unfold fw. rewrite !fwd_bwd. fold bw.
    assert (E : prod N (fun j => u 0%nat j - us j) (bw ys) = 0).
    { unfold prod. apply zsum_zero. intros j Hj. rewrite Hys by auto. ring. }
    assert (E' : prod N (fun j => u 0%nat j - us j) (bw (fun _ => 0)) = 0).
    { unfold prod. apply zsum_zero. intros j Hj. unfold bw, bwd. rewrite lsum_scal. ring. }
    rewrite E, E'. ring.
  Qed.
  Lemma lyap_run n : lyap (before (S n)) (y (S n)) + metric (fun j => before (S n) j - before n j) (fun i => y (S n) i - y n i) <= lyap (before n) (y n).
  Proof.
    apply lyap_step; [|apply Hdual]. intros j Hj. cbn [before]. destruct n as [|n]; cbn [before]; [|now apply Hprimal].
    unfold bw, bwd. rewrite (lsum_ext _ (fun a => 0 * w a j)) by (intros i Hi; rewrite Hstart by auto; ring). rewrite lsum_scal. ring.
  Qed.
  Lemma lyap_bound n : lyap (before n) (y n) <= start_energy.
  Proof. induction n; [rewrite lyap_0; lra|]. pose proof (lyap_run n). pose proof (metric_nonneg (fun j => before (S n) j - before n j) (fun i => y (S n) i - y n i)). lra. Qed.
  Lemma primal_bound n : (1 - th) * prod N (fun j => before n j - us j) (fun j => before n j - us j) <= start_energy.
  Proof.
    pose proof (lyap_bound n). pose proof (metric_pos (fun j => before n j - us j) (fun i => y n i - ys i)). pose proof (lprod_pos L (fun i => y n i - ys i)).
    unfold lyap in *. nra.
  Qed.
  Lemma two_one x v : prod N (fun j => 2 * x j - v j) (fun j => 2 * x j - v j) <= 5 * (prod N x x + prod N v v).
  Proof.
    pose proof (prod_pos N (fun j => 1 * x j + 2 * v j)) as P. rewrite prod_sq in P.
    rewrite (prod_ext N _ _ (fun j => 2 * x j + (-1) * v j) (fun j => 2 * x j + (-1) * v j)) by (intros; ring). rewrite prod_sq. lra.
  Qed.
  Lemma extra_bound n : (1 - th) * prod N (fun j => extra n j - us j) (fun j => extra n j - us j) <= 10 * start_energy.
  Proof.
    pose proof (primal_bound n) as B0. pose proof (primal_bound (S n)) as B1. cbn [before] in B1. pose proof (two_one (fun j => u n j - us j) (fun j => before n j - us j)) as T.
    rewrite (prod_ext N (fun j => extra n j - us j) (fun j => extra n j - us j) (fun j => 2 * (u n j - us j) - (before n j - us j)) (fun j => 2 * (u n j - us j) - (before n j - us j))) by (intros; unfold extra; ring).
    apply Rle_trans with ((1 - th) * (5 * (prod N (fun j => u n j - us j) (fun j => u n j - us j) + prod N (fun j => before n j - us j) (fun j => before n j - us j)))); [apply Rmult_le_compat_l; lra|lra].
  Qed.
  (** The steps are square summable. *)
  Definition moved (n : nat) : R := prod N (fun j => before (S n) j - before n j) (fun j => before (S n) j - before n j).
  Lemma moves n : (1 - th) * fold_right Rplus 0 (map moved (seq 0 n)) + lyap (before n) (y n) <= start_energy.
  Proof.
    induction n as [|n IH]; [rewrite lyap_0; cbn [map seq fold_right]; lra|]. rewrite seq_S, map_app. cbn [map plus].
    assert (F : forall l x, fold_right Rplus 0 (l ++ [x]) = fold_right Rplus 0 l + x) by (induction l as [|z l IHl]; intros x; cbn; [lra|rewrite IHl; lra]).
    rewrite F. pose proof (lyap_run n). pose proof (metric_pos (fun j => before (S n) j - before n j) (fun i => y (S n) i - y n i)) as M. pose proof (lprod_pos L (fun i => y (S n) i - y n i)) as Q.
    fold (moved n) in M. nra.
  Qed.
  Lemma extra_moves n : (1 - th) * fold_right Rplus 0 (map (fun k => prod N (fun j => extra (S k) j - extra k j) (fun j => extra (S k) j - extra k j)) (seq 0 n)) <= 10 * start_energy.
  Proof.
    assert (G : fold_right Rplus 0 (map (fun k => prod N (fun j => extra (S k) j - extra k j) (fun j => extra (S k) j - extra k j)) (seq 0 n))
      <= 5 * (fold_right Rplus 0 (map (fun k => moved (S k)) (seq 0 n)) + fold_right Rplus 0 (map moved (seq 0 n)))).
    { induction (seq 0 n) as [|k l IH]; cbn [map fold_right]; [lra|].
      pose proof (two_one (fun j => before (S (S k)) j - before (S k) j) (fun j => before (S k) j - before k j)) as T. fold (moved (S k)) (moved k) in T.
      rewrite (prod_ext N (fun j => extra (S k) j - extra k j) (fun j => extra (S k) j - extra k j) (fun j => 2 * (before (S (S k)) j - before (S k) j) - (before (S k) j - before k j)) (fun j => 2 * (before (S (S k)) j - before (S k) j) - (before (S k) j - before k j))) by (intros; unfold extra; cbn [before]; ring).
      lra. }
    pose proof (moves n) as M1. pose proof (moves (S n)) as M2.
    assert (Nn : forall k, 0 <= lyap (before k) (y k)) by (intros; apply metric_nonneg). pose proof (Nn n). pose proof (Nn (S n)).
    rewrite <- cons_seq in M2. cbn [map fold_right] in M2. rewrite <- seq_shift, map_map in M2. assert (0 <= moved 0) by apply prod_pos.
    assert ((1 - th) * fold_right Rplus 0 (map (fun k => moved (S k)) (seq 0 n)) <= start_energy) by nra.
    apply Rle_trans with ((1 - th) * (5 * (fold_right Rplus 0 (map (fun k => moved (S k)) (seq 0 n)) + fold_right Rplus 0 (map moved (seq 0 n))))); [apply Rmult_le_compat_l; lra|lra].
  Qed.
End Pdhg.
(** Projection onto a disc. *)
Lemma disc_projection lam vx vy px py qx qy : 0 < lam -> qx * qx + qy * qy <= lam * lam ->
  let m := Rmax 1 (sqrt (vx * vx + vy * vy) / lam) in px = vx / m -> py = vy / m ->
  (px - vx) * (px - qx) + (py - vy) * (py - qy) <= 0 /\ px * px + py * py <= lam * lam.
Proof.
  intros Hl Hq m -> ->. set (t := sqrt (vx * vx + vy * vy)) in *. assert (T0 : 0 <= t) by apply sqrt_pos. assert (TT : t * t = vx * vx + vy * vy) by (apply sqrt_sqrt; nra).
  assert (M1 : 1 <= m) by apply Rmax_l. unfold m in *. destruct (Rle_dec (t / lam) 1) as [C|C].
  - rewrite Rmax_left in * by auto. replace (vx / 1) with vx by field. replace (vy / 1) with vy by field. split; [lra|]. rewrite <- TT.
    assert (t <= lam) by (apply (Rmult_le_reg_r (/ lam)); [now apply Rinv_0_lt_compat|]; rewrite Rinv_r by lra; exact C). nra.
  - rewrite Rmax_right in * by lra. assert (lam < t) by (apply (Rmult_lt_reg_r (/ lam)); [now apply Rinv_0_lt_compat|]; rewrite Rinv_r by lra; unfold Rdiv in C; lra).
    set (k := lam / t). assert (K1 : 0 < k < 1) by (unfold k; split; [apply Rdiv_lt_0_compat; lra|apply (Rmult_lt_reg_r t); [lra|]; unfold Rdiv; rewrite Rmult_assoc, Rinv_l by lra; lra]).
    replace (vx / (t / lam)) with (k * vx) by (unfold k; field; lra). replace (vy / (t / lam)) with (k * vy) by (unfold k; field; lra).
    assert (KT : k * t = lam) by (unfold k; field; lra). split.
    + assert (CS : vx * qx + vy * qy <= t * lam).
      { assert ((vx * qx + vy * qy) * (vx * qx + vy * qy) <= (t * lam) * (t * lam)).
        { replace ((t * lam) * (t * lam)) with ((t * t) * (lam * lam)) by ring. rewrite TT. assert (0 <= (vx * qy - vy * qx) * (vx * qy - vy * qx)) by apply Rle_0_sqr. nra. }
        destruct (Rle_dec 0 (vx * qx + vy * qy)); [apply Rsqr_incr_0_var; [exact H0|nra]|nra]. }
      replace ((k * vx - vx) * (k * vx - qx) + (k * vy - vy) * (k * vy - qy)) with (- (1 - k) * (k * (vx * vx + vy * vy) - (vx * qx + vy * qy))) by ring. rewrite <- TT.
      assert (0 <= k * (t * t) - (vx * qx + vy * qy)) by (replace (k * (t * t)) with ((k * t) * t) by ring; rewrite KT; lra). nra.
    + replace (k * vx * (k * vx) + k * vy * (k * vy)) with (k * k * (vx * vx + vy * vy)) by ring. rewrite <- TT. replace (k * k * (t * t)) with ((k * t) * (k * t)) by ring. rewrite KT. lra.
Qed.
