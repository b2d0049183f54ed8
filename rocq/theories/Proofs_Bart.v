From Verif Require Import Base CLoop Model_Prep Model_Ray Model_Solver Proofs_Prep Proofs_Morph Proofs_Ray Properties_Ray Proofs_Solver Proofs_Art Proofs_Subsets.
From Coq Require Import Reals Lra Psatz.
Local Open Scope R_scope.

Definition bart_v (b s s2 : R) : R := (b - s) / s2.
Definition bart_c (x u sd : R) : R := x + u / sd.
Lemma bart_Hv b s s2 : s2 <> 0 -> True -> value bart_rule b (Some s) s2 = Some (bart_v b s s2).
Proof. intros H _. cbn. destruct (Req_EM_T s2 0); [lra|reflexivity]. Qed.
Lemma bart_Hc x u sd : sd <> 0 -> correct bart_rule (Some x) (Some u) sd = Some (bart_c x u sd).
Proof. intros H. cbn. destruct (Req_EM_T sd 0); [lra|reflexivity]. Qed.

(** (sum a y)^2 <= (sum a) (sum a y^2) *)
Lemma cauchy {A} (a y : A -> R) l : (forall i, In i l -> 0 <= a i) ->
  lsum (fun i => a i * y i) l * lsum (fun i => a i * y i) l <= lsum a l * lsum (fun i => a i * (y i * y i)) l.
Proof.
  induction l as [|i l IH]; intros H; [unfold lsum; cbn; lra|]. rewrite !lsum_cons.
  assert (Ha : 0 <= a i) by (apply H; now left). specialize (IH (fun j Hj => H j (or_intror Hj))).
  assert (H1 : 0 <= lsum a l) by (apply lsum_nonneg; intros; apply H; now right).
  assert (H2 : 0 <= lsum (fun i => a i * (y i * y i)) l).
  { apply lsum_nonneg. intros j Hj. apply Rmult_le_pos; [apply H; now right|apply Rle_0_sqr]. }
  set (p := lsum (fun i => a i * y i) l) in *. set (q := lsum (fun i => a i * (y i * y i)) l) in *. set (t := lsum a l) in *.
  (* a y (2 p) <= a q + a t y^2, from p^2 <= t q *)
  assert (2 * y i * p <= q + t * (y i * y i)).
  { destruct (Req_EM_T t 0) as [E|E].
    - assert (Hpp : p * p <= 0) by (rewrite E in IH; lra). assert (Hp : p = 0) by nra. rewrite E, Hp. lra.
    - assert (0 < t) by lra. assert (0 <= (p - t * y i) * (p - t * y i)) by apply Rle_0_sqr.
      assert (0 <= t * (q + t * (y i * y i) - 2 * y i * p)) by nra.
      assert (0 <= q + t * (y i * y i) - 2 * y i * p) by (apply (Rmult_le_reg_l t); lra). lra. }
  assert (a i * (2 * y i * p) <= a i * (q + t * (y i * y i))) by (apply Rmult_le_compat_l; auto). lra.
Qed.

Section Bart.
  Variable g : geom.
  Hypothesis Hgx : (1 <= ngridx g)%Z.
  Hypothesis Hgy : (1 <= ngridy g)%Z.
  Variable data : arr R.
  Let N := npix g.
  Variable s : Z.
  Variable L : list (Z * Z).
  Let st := step g data bart_v bart_c s L.
  Let a (pd : Z * Z) (j : Z) := wt (rays g s (fst pd) (snd pd)) j.
  Let c j := hits_sum g s L j.
  Let s2 (pd : Z * Z) := sum_dist2 (rays g s (fst pd) (snd pd)).
  Let b (pd : Z * Z) := data (ind_data g s (fst pd) (snd pd)).
  Let ax (pd : Z * Z) m := dot (rays g s (fst pd) (snd pd)) m.

  Lemma a_nonneg pd j : 0 <= a pd j.
  Proof. unfold a. apply wt_nonneg. intros i w. now apply rays_nonneg. Qed.
  Lemma c_eq j : c j = lsum (fun pd => a pd j) L.
  Proof. unfold c, hits_sum. apply lsum_ext. intros [p d] _. reflexivity. Qed.
  Lemma c_nonneg j : 0 <= c j. Proof. rewrite c_eq. apply lsum_nonneg. intros. apply a_nonneg. Qed.
  Lemma s2_zero pd j : s2 pd = 0 -> a pd j = 0.
  Proof. intros E. apply wt_not_in. intros i w Hi _. apply (proj1 (sum_dist2_zero _) E i w Hi). Qed.
  Lemma dot_zero pd m : s2 pd = 0 -> ax pd m = 0.
  Proof.
    intros E. unfold ax. rewrite (dot_wt N) by now apply rays_grid. apply zsum_zero. intros j Hj.
    change (wt _ j) with (a pd j). rewrite s2_zero by auto. lra.
  Qed.

  (** A sweep never moves away from a solution, in the norm weighted with the column sums, if every ray
      satisfies sum w <= 2 sum w^2. *)
  Definition wssd (m z : Z -> R) : R := zsum N (fun j => c j * ((m j - z j) * (m j - z j))).
  Lemma sweep_closer m z :
    (forall pd, In pd L -> ax pd z = b pd) ->
    (forall pd, In pd L -> rsum (map snd (rays g s (fst pd) (snd pd))) <= 2 * s2 pd) ->
    wssd (st m) z <= wssd m z.
  Proof.
    intros Hz Hw.
    pose (e j := m j - z j).
    pose (y pd := if Req_EM_T (s2 pd) 0 then 0 else - ax pd e / s2 pd).
    pose (u j := lsum (fun pd => a pd j * y pd) L).
    assert (Hu : forall j, upd_sum g data bart_v s L m j = u j).
    { intros j. unfold upd_sum, u. apply lsum_ext. intros [p d] Hin. cbv zeta. unfold y, a, s2, ax, e. cbn [fst snd].
      destruct (Req_EM_T (sum_dist2 (rays g s p d)) 0); [lra|]. unfold bart_v.
      specialize (Hz (p, d) Hin). unfold ax, b in Hz. cbn [fst snd] in Hz. rewrite <- Hz, dot_minus. unfold Rdiv. ring. }
    (* per pixel *)
    assert (Hj : forall j, c j * ((st m j - z j) * (st m j - z j))
               <= c j * (e j * e j) + 2 * (e j * u j) + lsum (fun pd => a pd j * (y pd * y pd)) L).
    { intros j. unfold st, step. fold (c j). rewrite Hu. unfold bart_c.
      pose proof (cauchy (fun pd => a pd j) y L (fun pd _ => a_nonneg pd j)) as Cs.
      fold (u j) in Cs. rewrite <- c_eq in Cs. pose proof (c_nonneg j).
      set (q := lsum (fun pd => a pd j * (y pd * y pd)) L) in *.
      destruct (Req_EM_T (c j) 0) as [E|E].
      - assert (u j = 0) as ->.
        { unfold u. rewrite (lsum_ext _ (fun _ => 0)); [unfold lsum, rsum; clear; induction L; cbn in *; lra|].
          intros pd Hin. rewrite (lsum_zero (fun pd => a pd j) L (fun pd _ => a_nonneg pd j)); auto; [lra|]. now rewrite <- c_eq. }
        assert (0 <= q) by (apply lsum_nonneg; intros; apply Rmult_le_pos; [apply a_nonneg|apply Rle_0_sqr]).
        unfold e. nra.
      - assert (0 < c j) by lra.
        replace (c j * ((m j + u j / c j - z j) * (m j + u j / c j - z j))) with (c j * (e j * e j) + 2 * (e j * u j) + u j * u j / c j)
          by (unfold e; field; auto).
        apply Rplus_le_compat_l. apply (Rmult_le_reg_l (c j)); auto.
        replace (c j * (u j * u j / c j)) with (u j * u j) by (field; auto). exact Cs. }
    unfold wssd. apply Rle_trans with (zsum N (fun j => c j * (e j * e j) + 2 * (e j * u j) + lsum (fun pd => a pd j * (y pd * y pd)) L)).
    { assert (forall f h, (forall j, f j <= h j) -> zsum N f <= zsum N h) as G.
      { intros f h Hfh. unfold zsum, rsum. induction (zrange 0 N); cbn; [lra|]. specialize (Hfh a0). lra. }
      now apply G. }
    rewrite !zsum_plus, zsum_scal.
    assert (E1 : zsum N (fun j => e j * u j) = lsum (fun pd => y pd * ax pd e) L).
    { unfold u. rewrite (zsum_ext N _ (fun j => lsum (fun pd => y pd * (e j * a pd j)) L)).
      - rewrite lsum_zsum. apply lsum_ext. intros pd Hin. rewrite zsum_scal. f_equal.
        unfold ax. rewrite (dot_wt N) by now apply rays_grid. reflexivity.
      - intros j Hj'. rewrite <- lsum_scal. apply lsum_ext. intros. ring. }
    assert (E2 : zsum N (fun j => lsum (fun pd => a pd j * (y pd * y pd)) L)
                 = lsum (fun pd => y pd * y pd * rsum (map snd (rays g s (fst pd) (snd pd)))) L).
    { rewrite lsum_zsum. apply lsum_ext. intros pd Hin.
      rewrite (zsum_ext N _ (fun j => y pd * y pd * (1 * wt (rays g s (fst pd) (snd pd)) j))) by (intros; unfold a; ring).
      rewrite zsum_scal. f_equal. rewrite <- (dot_wt N _ (fun _ => 1)) by now apply rays_grid. unfold dot. f_equal.
      apply map_ext. intros [i w]. cbn. lra. }
    rewrite E1, E2.
    enough (2 * lsum (fun pd => y pd * ax pd e) L + lsum (fun pd => y pd * y pd * rsum (map snd (rays g s (fst pd) (snd pd)))) L <= 0).
    { change (zsum N (fun j => c j * ((m j - z j) * (m j - z j)))) with (zsum N (fun j => c j * (e j * e j))). lra. }
    assert (forall l, incl l L -> lsum (fun pd => 2 * (y pd * ax pd e)) l + lsum (fun pd => y pd * y pd * rsum (map snd (rays g s (fst pd) (snd pd)))) l <= 0) as G.
    { induction l as [|pd l IH]; intros Hl; [unfold lsum; cbn; lra|]. rewrite !lsum_cons.
      specialize (IH ltac:(intros x Hx; apply Hl; now right)).
      enough (2 * (y pd * ax pd e) + y pd * y pd * rsum (map snd (rays g s (fst pd) (snd pd))) <= 0) by lra.
      specialize (Hw pd ltac:(apply Hl; now left)).
      unfold y. destruct (Req_EM_T (s2 pd) 0) as [E|E]; [lra|].
      set (t := ax pd e) in *. set (w := rsum _) in *. set (v := s2 pd) in *.
      assert (0 < v) by (unfold v, s2; pose proof (sum_dist2_nonneg (rays g s (fst pd) (snd pd))); unfold v, s2 in E; lra).
      replace (2 * (- t / v * t) + - t / v * (- t / v) * w) with ((t / v) * (t / v) * (w - 2 * v)) by (field; auto).
      assert (0 <= (t / v) * (t / v)) by apply Rle_0_sqr. nra. }
    rewrite <- lsum_scal. apply G. apply incl_refl.
  Qed.
End Bart.
