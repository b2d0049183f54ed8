(** Least squares and total variation in exact arithmetic: one gradient step, one primal-dual step. *)
From Verif Require Import Base Model_Prep Proofs_Prep Proofs_Morph Proofs_Solver Proofs_Subsets Proofs_Bart.
From Coq Require Import Reals Lra Psatz.
Local Open Scope R_scope.

Lemma lsum_plus {A} (f h : A -> R) l : lsum (fun a => f a + h a) l = lsum f l + lsum h l.
Proof. induction l as [|x l IH]; [unfold lsum; cbn; lra|]. rewrite !lsum_cons, IH. lra. Qed.
Lemma lsum_le {A} (f h : A -> R) l : (forall x, In x l -> f x <= h x) -> lsum f l <= lsum h l.
Proof.
  induction l as [|x l IH]; intros H; [unfold lsum; cbn; lra|]. rewrite !lsum_cons.
  pose proof (H x ltac:(now left)). pose proof (IH ltac:(intros; apply H; now right)). lra.
Qed.
Lemma zsum_lsum n f : zsum n f = lsum f (zrange 0 n). Proof. reflexivity. Qed.
Lemma zsum_le n f h : (forall i, (0 <= i < n)%Z -> f i <= h i) -> zsum n f <= zsum n h.
Proof. intros H. rewrite !zsum_lsum. apply lsum_le. intros i Hi. apply in_zrange in Hi. auto. Qed.
(** (a . b)^2 <= (a . a) (b . b) *)
Lemma cauchy_schwarz {A} (x y : A -> R) l :
  lsum (fun i => x i * y i) l * lsum (fun i => x i * y i) l <= lsum (fun i => x i * x i) l * lsum (fun i => y i * y i) l.
Proof.
  induction l as [|i l IH]; [unfold lsum; cbn; lra|]. rewrite !lsum_cons.
  set (p := lsum (fun i => x i * y i) l) in *. set (q := lsum (fun i => x i * x i) l) in *. set (t := lsum (fun i => y i * y i) l) in *.
  assert (Hq : 0 <= q) by (apply lsum_nonneg; intros; apply Rle_0_sqr). assert (Ht : 0 <= t) by (apply lsum_nonneg; intros; apply Rle_0_sqr).
  assert (H : 2 * (x i * y i) * p <= x i * x i * t + y i * y i * q).
  { set (a := x i) in *. set (b := y i) in *.
    destruct (Req_EM_T q 0) as [Eq|Eq].
    - assert (p = 0) as -> by (rewrite Eq in IH; nra). assert (0 <= a * a * t) by (apply Rmult_le_pos; [apply Rle_0_sqr|auto]). assert (0 <= b * b * q) by (apply Rmult_le_pos; [apply Rle_0_sqr|auto]). lra.
    - assert (0 < q) by lra. assert (0 <= q * (a * a * t + b * b * q - 2 * (a * b) * p)).
      { assert (a * a * (p * p) <= a * a * (q * t)) by (apply Rmult_le_compat_l; [apply Rle_0_sqr|auto]). assert (0 <= (a * p - b * q) * (a * p - b * q)) by apply Rle_0_sqr. nra. }
      assert (0 <= a * a * t + b * b * q - 2 * (a * b) * p) by (apply (Rmult_le_reg_l q); lra). lra. }
  nra.
Qed.

Section Lsq.
  Context {A : Type}.
  Variable N : Z.
  Variable L : list A.
  Variable w : A -> Z -> R.
  Definition prod (x y : Z -> R) : R := zsum N (fun j => x j * y j).
  Definition lprod (x y : A -> R) : R := lsum (fun a => x a * y a) L.
  Definition fwd (x : Z -> R) (a : A) : R := zsum N (fun j => x j * w a j).
  Definition bwd (y : A -> R) (j : Z) : R := lsum (fun a => y a * w a j) L.
  Lemma fwd_bwd x y : lprod (fwd x) y = prod x (bwd y).
  Proof.
    unfold lprod, fwd, prod, bwd.
    rewrite (zsum_ext N _ (fun j => lsum (fun a => x j * (y a * w a j)) L)) by (intros j _; now rewrite lsum_scal).
    rewrite (lsum_zsum N (fun a j => x j * (y a * w a j))). apply lsum_ext. intros a _.
    rewrite Rmult_comm, <- zsum_scal. apply zsum_ext. intros. ring.
  Qed.
  Lemma fwd_lin x y p q a : fwd (fun j => p * x j + q * y j) a = p * fwd x a + q * fwd y a.
  Proof. unfold fwd. rewrite <- !zsum_scal, <- zsum_plus. apply zsum_ext. intros. ring. Qed.
  Lemma fwd_ext x y a : (forall j, (0 <= j < N)%Z -> x j = y j) -> fwd x a = fwd y a.
  Proof. intros H. apply zsum_ext. intros j Hj. now rewrite H. Qed.
  Lemma prod_ext x y x' y' : (forall j, (0 <= j < N)%Z -> x j = x' j) -> (forall j, (0 <= j < N)%Z -> y j = y' j) -> prod x y = prod x' y'.
  Proof. intros H H'. apply zsum_ext. intros j Hj. now rewrite H, H'. Qed.
  Lemma prod_lin_l x y z p q : prod (fun j => p * x j + q * y j) z = p * prod x z + q * prod y z.
  Proof. unfold prod. rewrite <- !zsum_scal, <- zsum_plus. apply zsum_ext. intros. ring. Qed.
  Lemma prod_comm x y : prod x y = prod y x. Proof. apply zsum_ext. intros. ring. Qed.
  Lemma prod_scal_l k x y : prod (fun j => k * x j) y = k * prod x y.
  Proof. unfold prod. rewrite <- zsum_scal. apply zsum_ext. intros. ring. Qed.
  Lemma prod_scal_r k x y : prod x (fun j => k * y j) = k * prod x y.
  Proof. unfold prod. rewrite <- zsum_scal. apply zsum_ext. intros. ring. Qed.
  Lemma prod_sq p q x y : prod (fun j => p * x j + q * y j) (fun j => p * x j + q * y j) = p * p * prod x x + 2 * p * q * prod x y + q * q * prod y y.
  Proof. unfold prod. rewrite <- !zsum_scal, <- !zsum_plus. apply zsum_ext. intros. ring. Qed.
  Lemma prod_pos x : 0 <= prod x x. Proof. apply zsum_nonneg. intros. apply Rle_0_sqr. Qed.
  Lemma lprod_comm x y : lprod x y = lprod y x. Proof. apply lsum_ext. intros. ring. Qed.
  Lemma lprod_ext x y x' y' : (forall a, In a L -> x a = x' a) -> (forall a, In a L -> y a = y' a) -> lprod x y = lprod x' y'.
  Proof. intros H H'. apply lsum_ext. intros a Ha. now rewrite H, H'. Qed.
  Lemma lprod_lin_l x y z p q : lprod (fun a => p * x a + q * y a) z = p * lprod x z + q * lprod y z.
  Proof. unfold lprod. rewrite <- !lsum_scal, <- lsum_plus. apply lsum_ext. intros. ring. Qed.
  Lemma lprod_sq p q x y : lprod (fun j => p * x j + q * y j) (fun j => p * x j + q * y j) = p * p * lprod x x + 2 * p * q * lprod x y + q * q * lprod y y.
  Proof. unfold lprod. rewrite <- !lsum_scal, <- !lsum_plus. apply lsum_ext. intros. ring. Qed.
  Lemma lprod_pos x : 0 <= lprod x x. Proof. apply lsum_nonneg. intros. apply Rle_0_sqr. Qed.
  Lemma bwd_lin x y p q j : bwd (fun a => p * x a + q * y a) j = p * bwd x j + q * bwd y j.
  Proof. unfold bwd. rewrite <- !lsum_scal, <- lsum_plus. apply lsum_ext. intros. ring. Qed.

  (** |R v|^2 <= K |v|^2 for all v gives |R^T y|^2 <= K |y|^2. *)
  Variable K : R.
  Hypothesis HK : forall v, lprod (fwd v) (fwd v) <= K * prod v v.
  Lemma bwd_bound y : 0 <= K -> prod (bwd y) (bwd y) <= K * lprod y y.
  Proof.
    intros K0. set (v := bwd y). assert (E : prod v v = lprod (fwd v) y) by (unfold v at 1 2; rewrite fwd_bwd; reflexivity).
    pose proof (cauchy_schwarz (fwd v) y L) as C. fold (lprod (fwd v) y) (lprod (fwd v) (fwd v)) (lprod y y) in C. rewrite <- E in C.
    pose proof (HK v) as B. pose proof (prod_pos v) as P. pose proof (lprod_pos y) as Q.
    destruct (Req_EM_T (prod v v) 0) as [Z0|Z0]; [rewrite Z0; now apply Rmult_le_pos|].
    assert (prod v v * prod v v <= K * prod v v * lprod y y) by (eapply Rle_trans; [exact C|]; now apply Rmult_le_compat_r).
    apply (Rmult_le_reg_l (prod v v)); [lra|]. lra.
  Qed.

  Variable b : A -> R.
  Definition residual (x : Z -> R) (a : A) : R := fwd x a - b a.
  Definition objective (x : Z -> R) : R := lprod (residual x) (residual x).
  Definition slope (x : Z -> R) (j : Z) : R := 2 * bwd (residual x) j.
  Definition descend (mu : R) (x : Z -> R) (j : Z) : R := x j - mu * slope x j.
  Lemma objective_step mu x : objective (descend mu x) = objective x - mu * prod (slope x) (slope x) + mu * mu * lprod (fwd (slope x)) (fwd (slope x)).
  Proof.
    set (s := slope x). unfold objective.
    rewrite (lprod_ext (residual (descend mu x)) (residual (descend mu x)) (fun a => 1 * residual x a + (- mu) * fwd s a) (fun a => 1 * residual x a + (- mu) * fwd s a)).
    2,3: intros a _; unfold residual; rewrite (fwd_ext (descend mu x) (fun j => 1 * x j + (- mu) * s j)) by (intros; unfold descend, s; ring); rewrite fwd_lin; ring.
    rewrite lprod_sq. assert (E : 2 * lprod (fwd s) (residual x) = prod s s) by (rewrite fwd_bwd, <- prod_scal_r; reflexivity).
    rewrite (lprod_comm (residual x) (fwd s)), <- E. ring.
  Qed.
  Lemma descent mu x : 0 <= mu -> mu * K <= 1 -> objective (descend mu x) <= objective x.
  Proof.
    intros H0 H1. rewrite objective_step. pose proof (HK (slope x)) as B. pose proof (prod_pos (slope x)) as P.
    assert (mu * mu * lprod (fwd (slope x)) (fwd (slope x)) <= mu * (mu * K) * prod (slope x) (slope x)).
    { replace (mu * (mu * K) * prod (slope x) (slope x)) with (mu * mu * (K * prod (slope x) (slope x))) by ring. apply Rmult_le_compat_l; auto. nra. }
    assert (mu * (mu * K) * prod (slope x) (slope x) <= mu * prod (slope x) (slope x)).
    { apply Rmult_le_compat_r; auto. pose proof (Rmult_le_compat_l mu _ _ H0 H1). lra. }
    lra.
  Qed.
  (** Second order expansion: [slope] is the gradient. *)
  Lemma objective_expand x e h : objective (fun j => x j + h * e j) = objective x + h * prod (slope x) e + h * h * lprod (fwd e) (fwd e).
  Proof.
    unfold objective.
    rewrite (lprod_ext (residual (fun j => x j + h * e j)) (residual (fun j => x j + h * e j)) (fun a => 1 * residual x a + h * fwd e a) (fun a => 1 * residual x a + h * fwd e a)).
    2,3: intros a _; unfold residual; rewrite (fwd_ext (fun j => x j + h * e j) (fun j => 1 * x j + h * e j)) by (intros; ring); rewrite fwd_lin; ring.
    rewrite lprod_sq. assert (E : 2 * lprod (fwd e) (residual x) = prod (slope x) e) by (rewrite fwd_bwd, prod_comm, <- prod_scal_l; reflexivity).
    rewrite (lprod_comm (residual x) (fwd e)), <- E. ring.
  Qed.
  (** One step with a step length of at most 1 / 2K: how much the objective exceeds that of any z is paid for by coming closer to z. *)
  Lemma rate_step mu x z : 0 <= mu -> 2 * mu * K <= 1 ->
    2 * mu * (objective (descend mu x) - objective z) <=
    prod (fun j => x j - z j) (fun j => x j - z j) - prod (fun j => descend mu x j - z j) (fun j => descend mu x j - z j).
  Proof.
    intros H0 H1. set (e := fun j => x j - z j). set (s := slope x).
    rewrite (prod_ext (fun j => descend mu x j - z j) (fun j => descend mu x j - z j) (fun j => 1 * e j + (- mu) * s j) (fun j => 1 * e j + (- mu) * s j)) by (intros; unfold descend, e, s; ring).
    rewrite prod_sq. rewrite objective_step. fold s.
    assert (Ez : objective z = objective x + (-1) * prod s e + (-1) * (-1) * lprod (fwd e) (fwd e)).
    { rewrite <- objective_expand. unfold objective. apply lprod_ext; intros a _; unfold residual; f_equal; apply fwd_ext; intros; unfold e; ring. }
    rewrite Ez. rewrite (prod_comm e s). pose proof (HK s) as B. pose proof (prod_pos s) as P. pose proof (lprod_pos (fwd e)) as Q.
    assert (2 * mu * mu * (mu * lprod (fwd s) (fwd s)) <= mu * mu * prod s s).
    { replace (2 * mu * mu * (mu * lprod (fwd s) (fwd s))) with (mu * mu * (2 * mu * lprod (fwd s) (fwd s))) by ring. apply Rmult_le_compat_l; [nra|].
      apply Rle_trans with (2 * mu * (K * prod s s)); [apply Rmult_le_compat_l; lra|]. replace (2 * mu * (K * prod s s)) with (2 * mu * K * prod s s) by ring.
      pose proof (Rmult_le_compat_r (prod s s) _ _ P H1). lra. }
    assert (0 <= mu * lprod (fwd e) (fwd e)) by now apply Rmult_le_pos. nra.
  Qed.
  Lemma closer mu x z : 0 <= K -> 0 <= mu -> mu * K <= 1 -> (forall a, In a L -> fwd z a = b a) ->
    prod (fun j => descend mu x j - z j) (fun j => descend mu x j - z j) <= prod (fun j => x j - z j) (fun j => x j - z j).
  Proof.
    intros K0 H0 H1 Hz. set (e := fun j => x j - z j). set (s := slope x).
    rewrite (prod_ext (fun j => descend mu x j - z j) (fun j => descend mu x j - z j) (fun j => 1 * e j + (- mu) * s j) (fun j => 1 * e j + (- mu) * s j)) by (intros; unfold descend, e, s; ring).
    rewrite prod_sq.
    assert (R : forall a, In a L -> residual x a = fwd e a).
    { intros a Ha. unfold residual. rewrite <- (Hz a Ha). rewrite (fwd_ext e (fun j => 1 * x j + (-1) * z j)) by (intros; unfold e; ring). rewrite fwd_lin. ring. }
    assert (Es : prod s e = 2 * lprod (fwd e) (fwd e)).
    { rewrite prod_comm. unfold s, slope. rewrite prod_scal_r, <- fwd_bwd. now rewrite (lprod_ext (fwd e) (residual x) (fwd e) (fwd e)) by auto. }
    assert (Ess : prod s s <= 4 * (K * lprod (fwd e) (fwd e))).
    { unfold s, slope. rewrite prod_scal_l, prod_scal_r. pose proof (bwd_bound (residual x) K0) as B.
      rewrite (lprod_ext (residual x) (residual x) (fwd e) (fwd e)) in B by auto. lra. }
    rewrite (prod_comm e s), Es. pose proof (lprod_pos (fwd e)) as P.
    assert (mu * mu * prod s s <= 4 * mu * lprod (fwd e) (fwd e)).
    { apply Rle_trans with (mu * mu * (4 * (K * lprod (fwd e) (fwd e)))); [apply Rmult_le_compat_l; nra|].
      replace (mu * mu * (4 * (K * lprod (fwd e) (fwd e)))) with (4 * lprod (fwd e) (fwd e) * mu * (mu * K)) by ring.
      replace (4 * mu * lprod (fwd e) (fwd e)) with (4 * lprod (fwd e) (fwd e) * mu * 1) by ring. apply Rmult_le_compat_l; auto. nra. }
    lra.
  Qed.
End Lsq.
(** Schur's bound: rows of sum at most p and columns of sum at most q. *)
Lemma schur {A} N (L : list A) (w : A -> Z -> R) p q : 0 <= p -> (forall a j, In a L -> 0 <= w a j) ->
  (forall a, In a L -> zsum N (w a) <= p) -> (forall j, (0 <= j < N)%Z -> lsum (fun a => w a j) L <= q) ->
  forall v, lprod L (fwd N w v) (fwd N w v) <= p * q * prod N v v.
Proof.
  intros Hp Hw Hr Hc v. unfold lprod. apply Rle_trans with (lsum (fun a => p * zsum N (fun j => w a j * (v j * v j))) L).
  - apply lsum_le. intros a Ha. unfold fwd. rewrite (zsum_ext N _ (fun j => w a j * v j)) by (intros; ring). rewrite !zsum_lsum.
    eapply Rle_trans; [apply cauchy; intros; now apply Hw|]. apply Rmult_le_compat_r; [|now apply Hr].
    apply lsum_nonneg. intros j _. apply Rmult_le_pos; [now apply Hw|apply Rle_0_sqr].
  - rewrite lsum_scal, Rmult_assoc. apply Rmult_le_compat_l; auto. rewrite <- (lsum_zsum N (fun a j => w a j * (v j * v j))).
    unfold prod. rewrite <- zsum_scal. apply zsum_le. intros j Hj. rewrite (lsum_ext _ (fun a => v j * v j * w a j)) by (intros; ring). rewrite lsum_scal.
    rewrite (Rmult_comm q). apply Rmult_le_compat_l; [apply Rle_0_sqr|auto].
Qed.

(** ** A quadratic penalty: rows of a scaled identity below the matrix *)
Section Stack.
  Context {A : Type}.
  Variable N : Z.
  Variable L : list A.
  Variable w : A -> Z -> R.
  Variable b : A -> R.
  Variable gamma : R.
  Variable c : Z -> R.
  Hypothesis Hgamma : 0 <= gamma.
  Let q := sqrt gamma.
  Definition stack : list (A + Z) := map inl L ++ map inr (zrange 0 N).
  Definition ws (a : A + Z) (j : Z) : R := match a with inl a => w a j | inr i => if (j =? i)%Z then q else 0 end.
  Definition bs (a : A + Z) : R := match a with inl a => b a | inr i => q * c i end.
  Lemma lsum_stack f : lsum f stack = lsum (fun a => f (inl a)) L + zsum N (fun i => f (inr i)).
  Proof.
    unfold stack, lsum, zsum. rewrite map_app, !map_map. generalize (map (fun x => f (inr x)) (zrange 0 N)). intros l'.
    unfold rsum. induction (map (fun x => f (inl x)) L) as [|x l IH]; cbn; [lra|rewrite IH; lra].
  Qed.
  Lemma fwd_inl x a : fwd N ws x (inl a) = fwd N w x a. Proof. reflexivity. Qed.
  Lemma fwd_inr x i : (0 <= i < N)%Z -> fwd N ws x (inr i) = q * x i.
  Proof. intros Hi. unfold fwd, ws. rewrite (zsum_ext N _ (fun j => if (j =? i)%Z then q * x i else 0)) by (intros j _; destruct (Z.eqb_spec j i) as [->|]; ring). now apply zsum_single. Qed.
  Lemma qq : q * q = gamma. Proof. now apply sqrt_sqrt. Qed.
  Lemma stack_objective x : objective N stack ws bs x = objective N L w b x + gamma * prod N (fun j => x j - c j) (fun j => x j - c j).
  Proof.
    unfold objective, lprod. rewrite lsum_stack. f_equal. unfold prod. rewrite <- zsum_scal. apply zsum_ext. intros i Hi. unfold residual. rewrite fwd_inr by auto. cbn [bs]. rewrite <- qq. ring.
  Qed.
  Lemma stack_slope x j : (0 <= j < N)%Z -> slope N stack ws bs x j = slope N L w b x j + 2 * gamma * (x j - c j).
  Proof.
    intros Hj. unfold slope, bwd. rewrite lsum_stack. unfold residual.
    rewrite (zsum_ext N _ (fun i => if (i =? j)%Z then gamma * (x j - c j) else 0)).
    - rewrite zsum_single by auto. cbn [ws bs]. unfold fwd. cbn [ws]. ring.
    - intros i Hi. rewrite fwd_inr by auto. cbn [ws bs]. destruct (Z.eqb_spec j i) as [->|Hn].
      + rewrite Z.eqb_refl. rewrite <- qq. ring.
      + destruct (Z.eqb_spec i j); [congruence|ring].
  Qed.
  Lemma stack_bound K : (forall v, lprod L (fwd N w v) (fwd N w v) <= K * prod N v v) ->
    forall v, lprod stack (fwd N ws v) (fwd N ws v) <= (K + gamma) * prod N v v.
  Proof.
    intros H v. unfold lprod. rewrite lsum_stack. rewrite Rmult_plus_distr_r. apply Rplus_le_compat; [apply H|].
    apply Req_le. unfold prod. rewrite <- zsum_scal. apply zsum_ext. intros i Hi. rewrite fwd_inr by auto. rewrite <- qq. ring.
  Qed.
End Stack.
