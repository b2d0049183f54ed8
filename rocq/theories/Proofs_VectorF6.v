From Verif Require Import Base Order CLoop Model_Ray Proofs_Ray Model_RayF Model_SolverF Spec_SolverF Model_PmlF Proofs_FloatB Proofs_RayF Proofs_RayF2 Proofs_RayF3 Proofs_RayF4.
From Verif Require Import Proofs_SolverF Proofs_SolverF2 Proofs_SolverF4 Proofs_SolverF6 Proofs_SolverF7 Proofs_PmlF5 Proofs_PrepF2 Model_VectorF.
From Coq Require Import Reals Lra Psatz.
From Flocq Require Import Core BinarySingleNaN.
Local Open Scope R_scope.

(** ** The direction of a ray *)
Lemma dmul_ok (x y : b64) k : is_finite x = true -> is_finite y = true -> rep64 k -> Rabs (B2R x * B2R y) <= k -> k < bpow radix2 1024 ->
  is_finite (dmul x y) = true /\ B2R (dmul x y) = rd64 (B2R x * B2R y).
Proof.
  intros Fx Fy G B L. pose proof (Bmult_correct 53 1024 p64 e64 mode_NE x y) as C. fold (dmul x y) in C.
  pose proof (r64_abs _ _ G B) as Br. rewrite Rlt_bool_true in C by lra. destruct C as (C1 & C2 & _). rewrite C1, C2, Fx, Fy. auto.
Qed.
Lemma abs2 x e : Rabs x <= e -> - e <= x <= e. Proof. unfold Rabs. destruct (Rcase_abs x); lra. Qed.
Lemma square_near x e : Rabs x <= 2097152 -> Rabs (e - x) <= / 16777216 * Rabs x + / 1073741824 * / 1073741824 * / 1024 -> Rabs (e * e - x * x) <= 2.001 * / 16777216 * (x * x) + / 10000000000.
Proof.
  intros Hx H. set (t := / 1073741824 * / 1073741824 * / 1024) in *. assert (Ht : 0 <= t <= / 100000000000000000000) by (unfold t; lra). clearbody t. set (a := Rabs x) in *. assert (Ha : 0 <= a) by (unfold a; apply Rabs_pos). assert (Hq : x * x = a * a) by (unfold a; rewrite <- Rabs_mult; symmetry; apply Rabs_pos_eq; nra).
  replace (e * e - x * x) with ((e - x) * (2 * x + (e - x))) by ring. rewrite Rabs_mult. set (m := Rabs (e - x)) in *. assert (Hm : 0 <= m) by (unfold m; apply Rabs_pos).
  assert (T : Rabs (2 * x + (e - x)) <= 2 * a + m). { eapply Rle_trans; [apply Rabs_triang|]. rewrite Rabs_mult, (Rabs_pos_eq 2) by lra. unfold a, m. lra. }
  rewrite Hq. set (M := / 16777216 * a + t) in *. apply (Rle_trans _ (M * (2 * a + M))).
  - apply Rmult_le_compat; auto; [apply Rabs_pos|lra].
  - assert (t * a <= / 100000000000000000000 * 2097152) by (apply Rmult_le_compat; lra). assert (t * t <= / 100000000000000000000 * 1) by (apply Rmult_le_compat; lra). assert (0 <= a * a) by nra. unfold M. ring_simplify. lra.
Qed.
Lemma dsqrt_ok (b : b64) : is_finite b = true -> 0 < B2R b -> is_finite (dsqrt b) = true /\ B2R (dsqrt b) = rd64 (sqrt (B2R b)).
Proof.
  intros F P. pose proof (Bsqrt_correct 53 1024 p64 e64 mode_NE b) as (C1 & C2 & _). fold (dsqrt b) in C1, C2. split; [|exact C1]. rewrite C2. destruct b as [?|?| |sb m e H]; try discriminate; auto. destruct sb; auto. exfalso. cbn in P. unfold F2R in P. cbn in P. pose proof (bpow_gt_0 radix2 e). assert (0 < IZR (Z.pos m)) by (apply IZR_lt; lia). change (IZR (Z.neg m)) with (- IZR (Z.pos m)) in P. nra.
Qed.
Lemma to32_big (x : b64) : is_finite x = true -> Rabs (B2R x) <= 8388608 -> fin (to32 x) = true /\ V (to32 x) = rd (B2R x).
Proof.
  intros F B. destruct x as [s|s| |s m e Hb]; try discriminate; [cbn; now rewrite rd_0|]. set (x := B754_finite s m e Hb) in *. cbn [to32 x].
  pose proof (binary_normalize_correct 24 128 p32 e32 mode_NE (cond_Zopp s (Z.pos m)) e s) as C. cbv zeta in C. assert (Ev : F2R (Float radix2 (cond_Zopp s (Z.pos m)) e) = B2R x) by reflexivity. rewrite Ev in C.
  change (round radix2 (SpecFloat.fexp 24 128) (round_mode mode_NE) (B2R x)) with (rd (B2R x)) in C. rewrite (small_bool _ 8388608) in C; [|apply (rep_IZR 8388608); lia|exact B|apply (huge_big 8388608); lia]. destruct C as (C1 & C2 & _). auto.
Qed.
Theorem direction_near xs ys xd yd : fin xs = true -> fin ys = true -> fin xd = true -> fin yd = true ->
  Rabs (V xs) <= 1048576 -> Rabs (V ys) <= 1048576 -> Rabs (V xd) <= 1048576 -> Rabs (V yd) <= 1048576 ->
  let X := V xs - V xd in let Y := V ys - V yd in let D := sqrt (X * X + Y * Y) in 1 <= D ->
  let v := directionF (mkLineF xs ys xd yd) in
  fin (fst v) = true /\ fin (snd v) = true /\ Rabs (V (fst v) - X / D) <= 5 / 16777216 /\ Rabs (V (snd v) - Y / D) <= 5 / 16777216.
Proof.
  intros F1 F2 F3 F4 B1 B2 B3 B4 X Y D HD v. apply abs2 in B1, B2, B3, B4. unfold v, directionF. cbn [fsrcx fsrcy fdetx fdety]. clear v.
  assert (BX : Rabs X <= 2097152) by (unfold X; apply Rabs_le; lra). assert (BY : Rabs Y <= 2097152) by (unfold Y; apply Rabs_le; lra).
  assert (R21 : rep 2097152) by (apply (rep_IZR 2097152); lia). assert (H21 : 2097152 < huge) by (apply (huge_big 2097152); lia).
  destruct (fsub_ok xs xd _ F1 F3 R21 BX H21) as (Fx & Vx). destruct (fsub_ok ys yd _ F2 F4 R21 BY H21) as (Fy & Vy). fold X in Vx. fold Y in Vy.
  set (ex := fsub xs xd) in *. set (ey := fsub ys yd) in *. clearbody ex ey.
  assert (Bx : Rabs (V ex) <= 2097152) by (rewrite Vx; now apply rd_abs_le). assert (By : Rabs (V ey) <= 2097152) by (rewrite Vy; now apply rd_abs_le).
  pose proof tiny32 as T32. pose proof tiny64 as T64. pose proof (rd_rel X) as EX. pose proof (rd_rel Y) as EY. rewrite <- Vx in EX. rewrite <- Vy in EY.
  pose proof (square_near X (V ex) BX ltac:(lra)) as SX. pose proof (square_near Y (V ey) BY ltac:(lra)) as SY.
  assert (DD : D * D = X * X + Y * Y) by (apply sqrt_sqrt; nra). assert (D1 : 1 <= D * D) by nra.
  assert (QX : 0 <= X * X) by nra. assert (QY : 0 <= Y * Y) by nra.
  assert (AX : Rabs X <= D) by (apply Rsqr_incr_0_var; [unfold Rsqr; rewrite <- Rabs_mult, Rabs_pos_eq by nra; lra|lra]). assert (AY : Rabs Y <= D) by (apply Rsqr_incr_0_var; [unfold Rsqr; rewrite <- Rabs_mult, Rabs_pos_eq by nra; lra|lra]).
  assert (DU : D <= 4194304). { apply Rsqr_incr_0_var; [|lra]. unfold Rsqr. apply abs2 in BX, BY. assert (X * X <= 2097152 * 2097152) by nra. assert (Y * Y <= 2097152 * 2097152) by nra. lra. }
  destruct (to64_val ex Fx) as (Gx & Wx). destruct (to64_val ey Fy) as (Gy & Wy).
  assert (M1 : Rabs (V ex * V ex) <= 4398046511104). { rewrite Rabs_mult. replace 4398046511104 with (2097152 * 2097152) by ring. apply Rmult_le_compat; auto using Rabs_pos. }
  assert (M2 : Rabs (V ey * V ey) <= 4398046511104). { rewrite Rabs_mult. replace 4398046511104 with (2097152 * 2097152) by ring. apply Rmult_le_compat; auto using Rabs_pos. }
  assert (K1 : rep64 4398046511104) by (apply (rep64_IZR 4398046511104); lia). assert (K2 : 4398046511104 < bpow radix2 1024) by (apply (big1024 4398046511104); lia).
  destruct (dmul_ok (to64 ex) (to64 ex) _ Gx Gx K1 ltac:(now rewrite Wx) K2) as (Fa & Va). destruct (dmul_ok (to64 ey) (to64 ey) _ Gy Gy K1 ltac:(now rewrite Wy) K2) as (Fb & Vb). rewrite Wx in Va. rewrite Wy in Vb.
  set (a := dmul (to64 ex) (to64 ex)) in *. set (b := dmul (to64 ey) (to64 ey)) in *. clearbody a b.
  pose proof (rd64_rel (V ex * V ex)) as Ea. pose proof (rd64_rel (V ey * V ey)) as Eb. rewrite <- Va in Ea. rewrite <- Vb in Eb.
  assert (P1 : 0 <= V ex * V ex) by nra. assert (P2 : 0 <= V ey * V ey) by nra. rewrite (Rabs_pos_eq (V ex * V ex)) in Ea, M1 by lra. rewrite (Rabs_pos_eq (V ey * V ey)) in Eb, M2 by lra.
  apply abs2 in SX, SY, Ea, Eb.
  assert (K3 : rep64 17592186044416) by (apply (rep64_IZR 17592186044416); lia). assert (K4 : 17592186044416 < bpow radix2 1024) by (apply (big1024 17592186044416); lia).
  destruct (dadd_ok a b _ Fa Fb K3 ltac:(apply Rabs_le; lra) K4) as (Fs & _ & Vs). set (s := dadd a b) in *. clearbody s. change (B2R s = rd64 (B2R a + B2R b)) in Vs.
  pose proof (rd64_rel (B2R a + B2R b)) as Es. rewrite <- Vs in Es. rewrite (Rabs_pos_eq (B2R a + B2R b)) in Es by lra. apply abs2 in Es.
  assert (NS : - (2.05 * / 16777216 * (D * D)) <= B2R s - D * D <= 2.05 * / 16777216 * (D * D)) by (rewrite DD in *; lra).
  destruct (dsqrt_ok s Fs ltac:(lra)) as (Fc & Vc). set (c := dsqrt s) in *. clearbody c.
  assert (NR : D * (1 - 1.04 * / 16777216) <= sqrt (B2R s) <= D * (1 + 1.04 * / 16777216)).
  { split; (apply Rsqr_incr_0_var; [|]); try apply sqrt_pos; try (apply Rmult_le_pos; lra); rewrite Rsqr_sqrt by lra; unfold Rsqr.
    - replace (D * (1 - 1.04 * / 16777216) * (D * (1 - 1.04 * / 16777216))) with ((D * D) * ((1 - 1.04 * / 16777216) * (1 - 1.04 * / 16777216))) by ring. assert ((1 - 1.04 * / 16777216) * (1 - 1.04 * / 16777216) <= 1 - 2.05 * / 16777216) by lra. nra.
    - replace (D * (1 + 1.04 * / 16777216) * (D * (1 + 1.04 * / 16777216))) with ((D * D) * ((1 + 1.04 * / 16777216) * (1 + 1.04 * / 16777216))) by ring. assert (1 + 2.05 * / 16777216 <= (1 + 1.04 * / 16777216) * (1 + 1.04 * / 16777216)) by lra. nra. }
  pose proof (rd64_rel (sqrt (B2R s))) as Ec. rewrite <- Vc in Ec. rewrite (Rabs_pos_eq (sqrt (B2R s))) in Ec by apply sqrt_pos. apply abs2 in Ec.
  assert (NC : D * (1 - 1.06 * / 16777216) <= B2R c <= D * (1 + 1.06 * / 16777216)) by lra.
  destruct (to32_big c Fc ltac:(apply Rabs_le; lra)) as (Fd & Vd). set (dv := to32 c) in *. clearbody dv. pose proof (rd_rel (B2R c)) as Ed. rewrite <- Vd in Ed. rewrite (Rabs_pos_eq (B2R c)) in Ed by lra. apply abs2 in Ed.
  assert (ND : - (2.07 * / 16777216 * D) <= V dv - D <= 2.07 * / 16777216 * D) by lra.
  assert (DV : 0 < V dv) by lra.
  assert (Fin : forall e Z0, fin e = true -> Rabs Z0 <= D -> Rabs (V e - Z0) <= / 16777216 * Rabs Z0 + bpow radix2 (-150) -> fin (fdiv e dv) = true /\ Rabs (V (fdiv e dv) - Z0 / D) <= 5 / 16777216).
  { intros e Z0 Fe AZ EZ. assert (Q : Rabs (V e / V dv - Z0 / D) <= 3.09 / 16777216).
    { replace (V e / V dv - Z0 / D) with (((V e - Z0) * D - Z0 * (V dv - D)) / (D * V dv)) by (field; lra). unfold Rdiv. rewrite Rabs_mult, (Rabs_pos_eq (/ (D * V dv))) by (left; apply Rinv_0_lt_compat; nra).
      apply (Rmult_le_reg_r (D * V dv)); [nra|]. rewrite Rmult_assoc, Rinv_l, Rmult_1_r by nra. 
      assert (U1 : Rabs ((V e - Z0) * D) <= 1.001 * / 16777216 * (D * D)). { rewrite Rabs_mult, (Rabs_pos_eq D) by lra. assert (Rabs (V e - Z0) <= 1.001 * / 16777216 * D) by lra. nra. }
      assert (U2 : Rabs (Z0 * (V dv - D)) <= 2.07 * / 16777216 * (D * D)). { rewrite Rabs_mult. replace (2.07 * / 16777216 * (D * D)) with (D * (2.07 * / 16777216 * D)) by ring. apply Rmult_le_compat; auto using Rabs_pos. apply Rabs_le. lra. }
      eapply Rle_trans; [apply Rabs_triang|]. rewrite Rabs_Ropp. assert (U3 : D * (- (2.07 * / 16777216 * D)) <= D * (V dv - D)) by (apply Rmult_le_compat_l; lra). clear - U1 U2 U3 D1. set (dd := D * D) in *. replace (D * (- (2.07 * / 16777216 * D))) with (- (2.07 * / 16777216 * dd)) in U3 by (unfold dd; ring). replace (D * (V dv - D)) with (D * V dv - dd) in U3 by (unfold dd; ring). lra. }
    assert (AQ : Rabs (Z0 / D) <= 1). { unfold Rdiv. rewrite Rabs_mult, (Rabs_pos_eq (/ D)) by (left; apply Rinv_0_lt_compat; lra). apply (Rmult_le_reg_r D); [lra|]. rewrite Rmult_assoc, Rinv_l by lra. lra. }
    assert (B : Rabs (V e / V dv) <= 1 + 4 / 16777216). { replace (V e / V dv) with (V e / V dv - Z0 / D + Z0 / D) by ring. eapply Rle_trans; [apply Rabs_triang|]. lra. }
    destruct (fdiv_ok e dv 2 Fe ltac:(lra) (rep_IZR 2 ltac:(lia)) ltac:(lra) (huge_big 2 ltac:(lia))) as (Fq & Vq). split; auto. rewrite Vq. pose proof (rd_rel (V e / V dv)) as Eq.
    replace (rd (V e / V dv) - Z0 / D) with (rd (V e / V dv) - V e / V dv + (V e / V dv - Z0 / D)) by ring. eapply Rle_trans; [apply Rabs_triang|]. lra. }
  destruct (Fin ex X Fx AX EX). destruct (Fin ey Y Fy AY EY). auto.
Qed.
