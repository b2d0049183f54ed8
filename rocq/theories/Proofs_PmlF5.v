From Verif Require Import Base Order CLoop Model_Ray Proofs_Ray Model_RayF Model_SolverF Spec_SolverF Model_PmlF Proofs_FloatB Proofs_RayF Proofs_RayF2 Proofs_RayF3 Proofs_RayF4 Proofs_SolverF Proofs_SolverF2 Proofs_SolverF3 Proofs_SolverF6 Proofs_PmlF Spec_PmlF Proofs_PmlF3 Proofs_PmlF4.
From Coq Require Import Reals Lra Psatz.
From Flocq Require Import Core BinarySingleNaN Mult_error.
Local Open Scope R_scope.

(** ** Doubles *)
Definition rd64 (x : R) : R := round radix2 (SpecFloat.fexp 53 1024) ZnearestE x.
Lemma rd64_le x y : x <= y -> rd64 x <= rd64 y. Proof. intros H. apply round_le; auto with typeclass_instances. apply (fexp_correct 53 1024 p64). Qed.
Lemma rd64_0 : rd64 0 = 0. Proof. apply round_0; auto with typeclass_instances. Qed.
Lemma rd64_rep x : rep64 x -> rd64 x = x. Proof. intros H. apply round_generic; auto with typeclass_instances. Qed.
Lemma fexp64 k : SpecFloat.fexp 53 1024 k = FLT_exp (-1074) 53 k.
Proof. reflexivity. Qed.
Lemma rd64_rel x : Rabs (rd64 x - x) <= / 1024 * (/ 1048576 * Rabs x) + bpow radix2 (-1074).
Proof.
  eapply Rle_trans; [apply error_le_half_ulp; [apply (fexp_correct 53 1024 p64)]|].
  pose proof (bpow_ge_0 radix2 (-1074)). destruct (Req_dec x 0) as [->|Nx].
  - change (SpecFloat.fexp 53 1024) with (FLT_exp (-1074) 53); rewrite ulp_FLT_0; [|exact p64]. rewrite Rabs_R0. lra.
  - rewrite ulp_neq_0 by auto. unfold cexp. rewrite fexp64. unfold FLT_exp.
    assert (bpow radix2 (mag radix2 x - 1) <= Rabs x) as M by (apply bpow_mag_le; auto). pose proof (Rabs_pos x).
    destruct (Z.max_spec (mag radix2 x - 53) (-1074)) as [(_ & ->)|(_ & ->)]; [lra|].
    replace (mag radix2 x - 53)%Z with (-52 + (mag radix2 x - 1))%Z by lia. rewrite bpow_plus. pose proof (bpow_ge_0 radix2 (mag radix2 x - 1)).
    assert (bpow radix2 (-52) <= / 1024 * / 1048576). { change (/ 1024) with (bpow radix2 (-10)). change (/ 1048576) with (bpow radix2 (-20)). rewrite <- bpow_plus. apply bpow_le. lia. }
    assert (0 <= bpow radix2 (-52)) by apply bpow_ge_0. nra.
Qed.
Lemma rep_64 x : rep x -> rep64 x.
Proof.
  intros H. unfold rep64. change (SpecFloat.fexp 53 1024) with (FLT_exp (-1074) 53). unfold rep in H. change (SpecFloat.fexp 24 128) with (FLT_exp (-149) 24) in H.
  apply (generic_inclusion_mag radix2 (FLT_exp (-149) 24)); auto. intros _. unfold FLT_exp. lia.
Qed.
Lemma V_small (x : b32) : Rabs (V x) < bpow radix2 128. Proof. apply abs_B2R_lt_emax. Qed.
Lemma to64_val (x : b32) : fin x = true -> is_finite (to64 x) = true /\ B2R (to64 x) = V x.
Proof.
  destruct x as [s|?| |s m e B]; try discriminate; intros _; [split; reflexivity|]. set (x := B754_finite s m e B).
  assert (Ev : F2R (Float radix2 (cond_Zopp s (Z.pos m)) e) = V x) by reflexivity. cbn [to64 x].
  pose proof (binary_normalize_correct 53 1024 p64 e64 mode_NE (cond_Zopp s (Z.pos m)) e s) as C. cbv zeta in C. rewrite Ev in C.
  change (round radix2 (SpecFloat.fexp 53 1024) (round_mode mode_NE) (V x)) with (rd64 (V x)) in C. rewrite (rd64_rep (V x)) in C by (apply rep_64, rep_V).
  rewrite Rlt_bool_true in C; [destruct C as (C1 & C2 & _); auto|]. eapply Rlt_le_trans; [apply V_small|]. apply bpow_le. lia.
Qed.

(** ** Lower bounds *)
Lemma lb_weaken {prec emax} a b (x : binary_float prec emax) : a <= b -> lb b x -> lb a x.
Proof. intros H. destruct x; cbn; auto; intros; lra. Qed.
Lemma npos_V x : fin x = true -> V x <= 0 -> npos x.
Proof. destruct x as [s|s| |s m e H]; cbn; auto; try discriminate. intros _ L. destruct s; auto. exfalso. unfold F2R in L. cbn in L. pose proof (bpow_gt_0 radix2 e). assert (0 < IZR (Z.pos m)) by (apply IZR_lt; lia). nra. Qed.
Lemma V_npos x : npos x -> V x <= 0.
Proof. destruct x as [s|s| |s m e H]; cbn; try lra. intros ->. unfold F2R. cbn. pose proof (bpow_gt_0 radix2 e). assert (0 < IZR (Z.pos m)) by (apply IZR_lt; lia). change (IZR (Z.neg m)) with (- IZR (Z.pos m)). nra. Qed.
Lemma npos_overflow (z : b32) : B2SF z = binary_overflow 24 128 mode_NE true -> npos z.
Proof. destruct z as [s|s| |s m e H]; cbn; intros E; try discriminate. now injection E as ->. Qed.
Lemma npos_sub v m : npos v -> nn m -> npos (fsub v m).
Proof.
  intros Hv Hm. destruct (fin v) eqn:Fv; [destruct (fin m) eqn:Fm|].
  - pose proof (Bminus_correct 24 128 p32 e32 mode_NE v m Fv Fm) as C. fold (fsub v m) in C. destruct (Rlt_bool _ _).
    + destruct C as (C1 & C2 & _). apply npos_V; auto. rewrite C1. change (rd (V v - V m) <= 0). rewrite <- rd_0. apply rd_le. pose proof (V_npos v Hv). pose proof (nn_V m Hm). lra.
    + destruct C as (C & S). rewrite Hm in S. cbn in S. rewrite S in C. now apply npos_overflow.
  - destruct m as [s|s| |s m e H]; try discriminate; unfold nn in Hm; cbn in Hm; [subst s|]; destruct v as [s'|s'| |s' m' e' H']; try discriminate; cbn; auto.
  - destruct v as [s|s| |s m' e H]; try discriminate; cbn in Hv; [subst s|]; destruct m as [s'|s'| |s' m' e' H']; unfold nn in Hm; cbn in Hm; try subst s'; cbn; auto.
Qed.
Lemma sign_mul_neg x y : xorb (Bsign x) (Bsign y) = true -> npos (fmul x y).
Proof.
  intros E. pose proof (Bmult_correct 24 128 p32 e32 mode_NE x y) as C. fold (fmul x y) in C. destruct (Rlt_bool _ _).
  - destruct C as (_ & _ & C). destruct (fmul x y) as [s|s| |s m e H] eqn:Q; cbn; auto; rewrite <- E; symmetry; now rewrite <- C.
  - rewrite E in C. apply npos_overflow. exact C.
Qed.
Lemma npos_mul x y : npos x -> nn y -> npos (fmul x y).
Proof.
  intros Hx Hy. destruct x as [s|s| |s m e H]; cbn in Hx; try subst s; try (apply sign_mul_neg; rewrite Hy; reflexivity).
  - destruct y as [s'|s'| |s' m' e' H']; cbn; auto.
  - destruct y as [s'|s'| |s' m' e' H']; cbn; auto.
Qed.
Lemma nn_zero_npos : npos zeroF. Proof. exact I. Qed.
Lemma npos_pmul x y : nn x -> npos y -> npos (fmul x y).
Proof.
  intros Hx Hy. destruct y as [s|s| |s m e H]; cbn in Hy; try subst s; try (apply sign_mul_neg; rewrite Hx; reflexivity).
  - destruct x as [s'|s'| |s' m' e' H']; cbn; auto.
  - destruct x as [s'|s'| |s' m' e' H']; cbn; auto.
Qed.
(** The discriminant is never negative *)
Lemma sub_cases a m : nn a -> npos m -> let x := fsub a m in x = B754_nan \/ x = B754_infinity false \/ (fin x = true /\ fin a = true /\ V a <= V x).
Proof.
  intros Ha Hm. cbv zeta. destruct (fin a) eqn:Fa; [destruct (fin m) eqn:Fm|].
  - pose proof (Bminus_correct 24 128 p32 e32 mode_NE a m Fa Fm) as C. fold (fsub a m) in C. destruct (Rlt_bool _ _).
    + right. right. destruct C as (C1 & C2 & _). split; auto. split; auto. rewrite C1. change (V a <= rd (V a - V m)). apply rd_ge_rep; [apply rep_V|]. pose proof (V_npos m Hm). lra.
    + right. left. destruct C as (C & _). rewrite Ha in C. destruct (fsub a m) as [s|s| |s m' e H]; cbn in C; try discriminate. now injection C as ->.
  - destruct m as [s|s| |s m e H]; try discriminate; cbn in Hm; [subst s|]; destruct a as [s'|s'| |s' m' e' H']; try discriminate; cbn; auto.
  - destruct a as [s|s| |s m' e H]; try discriminate; unfold nn in Ha; cbn in Ha; [subst s|]; destruct m as [s'|s'| |s' m' e' H']; cbn in Hm; try subst s'; cbn; auto.
Qed.
(** sqrt(G * G) in float and double: at most G / 2^23 below G *)
Lemma sqrt_lower gR r : 0 < gR -> 0 <= r -> gR * gR * (1 - / 16777216) - bpow radix2 (-150) <= r -> gR * (1 - / 16777216) - bpow radix2 (-75) <= sqrt r.
Proof.
  intros HG H0 Hr. assert (E : bpow radix2 (-150) = bpow radix2 (-75) * bpow radix2 (-75)) by (rewrite <- bpow_plus; reflexivity). rewrite E in Hr. assert (P : 0 < bpow radix2 (-75)) by apply bpow_gt_0.
  set (t := bpow radix2 (-75)) in *. clearbody t. set (y := gR * (1 - / 16777216) - t). destruct (Rle_lt_dec y 0) as [|Y]; [pose proof (sqrt_pos r); lra|].
  apply Rsqr_incr_0_var; [|apply sqrt_pos]. rewrite Rsqr_sqrt by auto. unfold Rsqr. eapply Rle_trans; [|exact Hr]. unfold y in *. set (k := 1 - / 16777216) in *. assert (0 < k < 1) by (unfold k; lra). clearbody k.
  assert (t < gR * k) by lra. assert (gR * gR * (k * k) <= gR * gR * k) by (apply Rmult_le_compat_l; nra). nra.
Qed.
Lemma root_num gg m : npos m -> fin gg = true -> let x := dadd (to64 (fopp gg)) (dsqrt (to64 (fsub (fmul gg gg) m))) in
  x = B754_nan \/ x = B754_infinity false \/ (is_finite x = true /\ - (3 / 2) * (Rmax 0 (V gg) * / 8388608 + 2 * bpow radix2 (-75)) <= B2R x /\ Rabs (B2R x) <= bpow radix2 131).
Proof.
  intros Hm Fg. cbv zeta. destruct (sub_cases (fmul gg gg) m (nn_sqr gg) Hm) as [->|[->|(F1 & F2 & L)]].
  - left. destruct (to64 (fopp gg)) as [[]|[]| |[]]; reflexivity.
  - assert (Fo : fin (fopp gg) = true) by (destruct gg; auto). destruct (to64_val _ Fo) as (F & _). right. left. change (dsqrt (to64 (B754_infinity false))) with (@B754_infinity 53 1024 false). destruct (to64 (fopp gg)); try discriminate F; reflexivity.
  - right. right. set (D := fsub (fmul gg gg) m) in *. assert (Fo : fin (fopp gg) = true) by (destruct gg; auto). destruct (to64_val _ Fo) as (Fa & Va). destruct (to64_val _ F1) as (Fb & Vb).
    assert (Vo : V (fopp gg) = - V gg) by apply B2R_Bopp. rewrite Vo in Va.
    assert (P0 : 0 <= V D). { eapply Rle_trans; [|exact L]. apply nn_V, nn_sqr. }
    pose proof (Bsqrt_correct 53 1024 p64 e64 mode_NE (to64 D)) as (S1 & S2 & _). fold (dsqrt (to64 D)) in S1, S2. rewrite Vb in S1.
    assert (Nd : nn D \/ V D = 0). { destruct D as [s|s| |s m' e H]; try discriminate F1; cbn; auto. destruct s; [|left; reflexivity]. exfalso. cbn in P0. unfold F2R in P0. cbn in P0. change (IZR (Z.neg m')) with (- IZR (Z.pos m')) in P0. pose proof (bpow_gt_0 radix2 e). assert (0 < IZR (Z.pos m')) by (apply IZR_lt; lia). nra. }
    assert (Fs : is_finite (dsqrt (to64 D)) = true).
    { rewrite S2. destruct (to64 D) as [s|s| |s m' e H] eqn:Q; try discriminate Fb; auto. destruct s; auto. exfalso. cbn in Vb. unfold F2R in Vb. cbn in Vb. change (IZR (Z.neg m')) with (- IZR (Z.pos m')) in Vb. pose proof (bpow_gt_0 radix2 e). assert (0 < IZR (Z.pos m')) by (apply IZR_lt; lia). nra. }
    set (b := dsqrt (to64 D)) in *. change (B2R b = rd64 (sqrt (V D))) in S1. clear S2 Nd.
    assert (Bm : V (fmul gg gg) = rd (V gg * V gg)). { pose proof (Bmult_correct 24 128 p32 e32 mode_NE gg gg) as C. fold (fmul gg gg) in C. destruct (Rlt_bool _ _); [apply C|]. exfalso. apply overflow_not in C. congruence. }
    pose proof (rd_rel (V gg * V gg)) as Er. rewrite <- Bm in Er. rewrite (Rabs_pos_eq (V gg * V gg)) in Er by nra. apply abs_inv in Er.
    assert (Lb : V gg * V gg * (1 - / 16777216) - bpow radix2 (-150) <= V D) by lra.
    assert (B0 : 0 <= B2R b). { rewrite S1, <- rd64_0. apply rd64_le, sqrt_pos. }
    assert (T : bpow radix2 (-1074) <= / 1024 * bpow radix2 (-75)). { change (/ 1024) with (bpow radix2 (-10)). rewrite <- bpow_plus. apply bpow_le. lia. }
    assert (P75 : 0 < bpow radix2 (-75)) by apply bpow_gt_0. pose proof (bpow_ge_0 radix2 (-1074)) as P1074.
    pose proof (rd64_rel (sqrt (V D))) as E1. rewrite <- S1 in E1. rewrite (Rabs_pos_eq (sqrt (V D))) in E1 by apply sqrt_pos. apply abs_inv in E1.
    assert (Sum : - (Rmax 0 (V gg) * / 8388608 + 2 * bpow radix2 (-75)) <= - V gg + B2R b).
    { destruct (Rle_lt_dec (V gg) 0) as [N|N]; [rewrite Rmax_left by auto; lra|]. rewrite Rmax_right by lra. pose proof (sqrt_lower (V gg) (V D) N P0 Lb) as Ls. pose proof (sqrt_pos (V D)).
      destruct (Rle_lt_dec (V gg * (1 - / 16777216)) (bpow radix2 (-75))); lra. }
    assert (Up : B2R b <= bpow radix2 128). { rewrite S1. rewrite <- (rd64_rep (bpow radix2 128)) by (apply generic_format_bpow; cbn; lia). apply rd64_le. pose proof (V_small D) as Vs. rewrite Rabs_pos_eq in Vs by auto.
      rewrite <- (sqrt_square (bpow radix2 128)) by apply bpow_ge_0. apply sqrt_le_1_alt. assert (1 <= bpow radix2 128) by (change 1 with (bpow radix2 0); apply bpow_le; lia). nra. }
    pose proof (V_small gg) as Vg. assert (E129 : bpow radix2 129 = 2 * bpow radix2 128) by (change 129%Z with (1 + 128)%Z; rewrite bpow_plus; reflexivity).
    assert (Ab : Rabs (B2R (to64 (fopp gg)) + B2R b) <= bpow radix2 129). { rewrite Va, E129. apply Rabs_def2 in Vg. apply Rabs_le. lra. }
    pose proof (Bplus_correct 53 1024 p64 e64 mode_NE _ _ Fa Fs) as C. fold (dadd (to64 (fopp gg)) b) in C. change (round radix2 (SpecFloat.fexp 53 1024) (round_mode mode_NE) (B2R (to64 (fopp gg)) + B2R b)) with (rd64 (B2R (to64 (fopp gg)) + B2R b)) in C.
    assert (G129 : rep64 (bpow radix2 129)) by (apply generic_format_bpow; cbn; lia). pose proof (r64_abs _ _ G129 Ab) as Br. change (Rabs (rd64 (B2R (to64 (fopp gg)) + B2R b)) <= bpow radix2 129) in Br.
    rewrite Rlt_bool_true in C by (eapply Rle_lt_trans; [exact Br|apply bpow_lt; lia]). destruct C as (C1 & C2 & _). split; auto. rewrite C1. split; [|eapply Rle_trans; [exact Br|apply bpow_le; lia]].
    rewrite Va. set (B := Rmax 0 (V gg) * / 8388608 + 2 * bpow radix2 (-75)) in *. apply Rle_trans with (rd64 (- B)); [|now apply rd64_le]. pose proof (rd64_rel (- B)) as E2. rewrite Rabs_Ropp in E2. pose proof (Rmax_l 0 (V gg)).
    assert (B1 : 2 * bpow radix2 (-75) <= B) by (unfold B; lra). rewrite (Rabs_pos_eq B) in E2 by lra. apply abs_inv in E2. lra.
Qed.
Lemma to32_lb x b : - (2) <= b -> b <= 0 -> lb b x -> lb (rd b) (to32 x).
Proof.
  intros H1 H2 Hx. destruct x as [s|s| |s m e B]; cbn [to32 lb] in *; auto; [cbn; rewrite <- rd_0; now apply rd_le|].
  pose proof (binary_normalize_correct 24 128 p32 e32 mode_NE (cond_Zopp s (Z.pos m)) e s) as C. cbv zeta in C. set (v := F2R (Float radix2 (cond_Zopp s (Z.pos m)) e)) in *. change (b <= v) in Hx.
  change (round radix2 (SpecFloat.fexp 24 128) (round_mode mode_NE) v) with (rd v) in C. destruct (Rlt_bool_spec (Rabs (rd v)) (bpow radix2 128)) as [L|L].
  - destruct C as (C1 & C2 & _). set (z := binary_normalize 24 128 p32 e32 mode_NE (cond_Zopp s (Z.pos m)) e s) in *. pose proof (rd_le _ _ Hx). destruct z as [s'|s'| |s' m' e' B']; cbn [is_finite] in C2; try discriminate C2; cbn [lb]; rewrite C1; exact H.
  - destruct (Rlt_bool_spec v 0) as [N|N].
    + exfalso. assert (A : Rabs (rd v) <= 2). { apply rd_abs_le; [apply (rep_IZR 2); lia|]. rewrite Rabs_left by auto. lra. } assert (bpow radix2 2 <= bpow radix2 128) by (apply bpow_le; lia). change (bpow radix2 2) with 4 in *. lra.
    + destruct (binary_normalize 24 128 p32 e32 mode_NE (cond_Zopp s (Z.pos m)) e s) as [s'|s'| |s' m' e' B']; cbn in C; try discriminate C. injection C as ->. reflexivity.
Qed.
Theorem root_lb e f gg tol : npos e -> nn f -> 0 <= tol <= 1 -> Rmax 0 (V gg) * / 4194304 + bpow radix2 (-73) <= tol * V (fmul (of_int 4) f) -> lb (- (tol + bpow radix2 (-148))) (rootF e f gg).
Proof.
  intros He Hf Ht H. unfold rootF, discF. assert (P73 : 0 < bpow radix2 (-73)) by apply bpow_gt_0. assert (E73 : bpow radix2 (-73) = 4 * bpow radix2 (-75)) by (change (-73)%Z with (2 + -75)%Z; rewrite bpow_plus; reflexivity).
  pose proof (Rmax_l 0 (V gg)) as Pg. set (d := fmul (of_int 4) f) in *.
  assert (Nd : nn d) by (apply nn_mul; auto; reflexivity). pose proof (nn_V d Nd) as Vd. assert (Vp : 0 < V d) by (destruct (Rle_lt_dec (V d) 0) as [Q|]; auto; replace (V d) with 0 in H by lra; lra). assert (Fd : fin d = true) by (destruct d; auto; cbn in Vp; lra).
  destruct (to64_val d Fd) as (F4 & V4).
  set (m := fmul (fmul (of_int 8) e) f). assert (Hm : npos m) by (apply npos_mul; auto; apply npos_pmul; auto; reflexivity).
  assert (Z64 : exists q q' q'', to64 d = B754_finite false q q' q''). { rewrite <- V4 in Vp. clear - Vp F4. destruct (to64 d) as [s|s| |s q q' q'']; try discriminate F4; [cbn in Vp; lra|]. destruct s; [|eauto]. exfalso. cbn in Vp. unfold F2R in Vp. cbn in Vp. change (IZR (Z.neg q)) with (- IZR (Z.pos q)) in Vp. pose proof (bpow_gt_0 radix2 q'). assert (0 < IZR (Z.pos q)) by (apply IZR_lt; lia). nra. }
  destruct (fin gg) eqn:Fg.
  2:{ destruct Z64 as (q & q' & q'' & ->). destruct gg as [s|s| |s mm ee B]; try discriminate Fg; [|exact I]. pose proof Hm as Hm'. destruct s; destruct m as [s'|s'| |s' m' e' H']; cbn in Hm'; try subst s'; cbn; auto. }
  destruct (root_num gg m Hm Fg) as [->|[->|(Fx & Lx & Ux)]]; [destruct (to64 d); exact I|destruct Z64 as (q & q' & q'' & ->); reflexivity|].
  set (x := dadd (to64 (fopp gg)) (dsqrt (to64 (fsub (fmul gg gg) m)))) in *.
  pose proof (Bdiv_correct 53 1024 p64 e64 mode_NE x (to64 d) ltac:(rewrite V4; lra)) as C. fold (ddiv x (to64 d)) in C. rewrite V4 in C.
  change (round radix2 (SpecFloat.fexp 53 1024) (round_mode mode_NE) (B2R x / V d)) with (rd64 (B2R x / V d)) in C.
  assert (Ld : bpow radix2 (-149) <= V d). { pose proof (rep_V d) as Rd. apply (generic_format_ge_bpow radix2 (SpecFloat.fexp 24 128) (-149)) in Rd; auto. intros k. rewrite fexp_is. unfold FLT_exp. lia. }
  assert (Bq : Rabs (B2R x / V d) <= bpow radix2 280). { unfold Rdiv. rewrite Rabs_mult, Rabs_inv, (Rabs_pos_eq (V d)) by lra. change 280%Z with (131 + 149)%Z. rewrite bpow_plus. apply Rmult_le_compat; auto; [apply Rabs_pos|left; now apply Rinv_0_lt_compat|].
    replace (bpow radix2 149) with (/ bpow radix2 (-149)) by (rewrite <- bpow_opp; reflexivity). apply Rinv_le; auto. apply bpow_gt_0. }
  assert (G280 : rep64 (bpow radix2 280)) by (apply generic_format_bpow; cbn; lia). pose proof (r64_abs _ _ G280 Bq) as Br. change (Rabs (rd64 (B2R x / V d)) <= bpow radix2 280) in Br.
  rewrite Rlt_bool_true in C by (eapply Rle_lt_trans; [exact Br|apply bpow_lt; lia]). destruct C as (C1 & C2 & _). rewrite Fx in C2.
  set (y := ddiv x (to64 d)) in *.
  assert (Lq : - (3 / 4 * tol) <= B2R x / V d). { apply Rmult_le_reg_r with (V d); auto. replace (B2R x / V d * V d) with (B2R x) by (field; lra). lra. }
  assert (T : bpow radix2 (-1074) <= bpow radix2 (-150)) by (apply bpow_le; lia). pose proof (bpow_ge_0 radix2 (-1074)).
  assert (S150 : bpow radix2 (-150) <= / 1024). { change (/ 1024) with (bpow radix2 (-10)). apply bpow_le. lia. }
  assert (Ly : - (4 / 5 * tol + bpow radix2 (-150)) <= B2R y). { rewrite C1. apply Rle_trans with (rd64 (- (3 / 4 * tol))); [|now apply rd64_le]. pose proof (rd64_rel (- (3 / 4 * tol))) as E2. rewrite Rabs_Ropp, (Rabs_pos_eq (3 / 4 * tol)) in E2 by lra. apply abs_inv in E2. lra. }
  set (bb := - (4 / 5 * tol + bpow radix2 (-150))) in *. assert (0 <= bpow radix2 (-150)) by apply bpow_ge_0.
  assert (Hy : lb bb y). { destruct y as [s|s| |s q q' q'']; try discriminate C2; exact Ly. }
  apply lb_weaken with (rd bb).
  - pose proof (rd_rel bb) as E3. unfold bb in *. rewrite Rabs_Ropp, (Rabs_pos_eq (4 / 5 * tol + bpow radix2 (-150))) in E3 by lra. apply abs_inv in E3. assert (E148 : bpow radix2 (-148) = 4 * bpow radix2 (-150)) by (change (-148)%Z with (2 + -150)%Z; rewrite bpow_plus; reflexivity). lra.
  - apply to32_lb; auto; unfold bb; lra.
Qed.

(** ** Signs *)
Definition nn64 (x : b64) : Prop := Bsign x = false.
Lemma nn64_V x : nn64 x -> 0 <= B2R x.
Proof. destruct x as [s|s| |s m e H]; unfold nn64; cbn; intros E; try lra. subst. apply F2R_ge_0. cbn. lia. Qed.
Lemma nn64_overflow (z : b64) : B2SF z = binary_overflow 53 1024 mode_NE false -> nn64 z.
Proof. destruct z as [s|s| |s m e H]; cbn; intros E; try discriminate. injection E as ->. reflexivity. Qed.
Lemma nn64_add x y : nn64 x -> nn64 y -> nn64 (dadd x y).
Proof.
  intros Hx Hy. destruct (is_finite x) eqn:Fx; [destruct (is_finite y) eqn:Fy|].
  - pose proof (Bplus_correct 53 1024 p64 e64 mode_NE x y Fx Fy) as C. fold (dadd x y) in C. destruct (Rlt_bool _ _).
    + destruct C as (_ & _ & C). unfold nn64. rewrite C. pose proof (nn64_V x Hx). pose proof (nn64_V y Hy). destruct (Rcompare_spec (B2R x + B2R y) 0); [lra| |reflexivity]. rewrite Hx. reflexivity.
    + destruct C as (C & _). rewrite Hx in C. apply nn64_overflow. exact C.
  - destruct y as [s|s| |s m e H]; try discriminate; unfold nn64 in *; destruct x as [s'|s'| |s' m' e' H']; cbn in *; subst; try reflexivity; discriminate.
  - destruct x as [s|s| |s m e H]; try discriminate; unfold nn64 in *; destruct y as [s'|s'| |s' m' e' H']; cbn in *; subst; try reflexivity; discriminate.
Qed.
Lemma nn64_div x y : nn64 x -> nn64 y -> nn64 (ddiv x y).
Proof.
  intros Hx Hy. destruct (Req_dec (B2R y) 0) as [Z0|N0].
  - destruct y as [s|s| |s m e H]; unfold nn64 in *; cbn in Hy; try subst s.
    + destruct x as [s'|s'| |s' m' e' H']; cbn in *; subst; reflexivity.
    + destruct x as [s'|s'| |s' m' e' H']; cbn in *; subst; reflexivity.
    + destruct x as [s'|s'| |s' m' e' H']; cbn in *; subst; reflexivity.
    + exfalso. apply eq_0_F2R in Z0. cbn in Z0. discriminate.
  - pose proof (Bdiv_correct 53 1024 p64 e64 mode_NE x y N0) as C. fold (ddiv x y) in C. destruct (Rlt_bool _ _).
    + destruct C as (_ & _ & C). unfold nn64. destruct (is_nan (ddiv x y)) eqn:N; [destruct (ddiv x y); try discriminate; reflexivity|]. rewrite C by auto. rewrite Hx, Hy. reflexivity.
    + rewrite Hx, Hy in C. apply nn64_overflow. exact C.
Qed.
Lemma nn_to32 x : nn64 x -> nn (to32 x).
Proof.
  destruct x as [s|s| |s m e B]; unfold nn64, nn; cbn [Bsign to32]; auto. intros ->. cbn [cond_Zopp]. pose proof (binary_normalize_correct 24 128 p32 e32 mode_NE (Z.pos m) e false) as C. cbv zeta in C.
  assert (P : 0 < F2R (Float radix2 (Z.pos m) e)) by (apply F2R_gt_0; cbn; lia). destruct (Rlt_bool (Rabs _) _).
  - destruct C as (_ & _ & C). rewrite C. destruct (Rcompare_spec (F2R (Float radix2 (Z.pos m) e)) 0); auto; lra.
  - rewrite Rlt_bool_false in C by lra. apply (nn_overflow _ C).
Qed.
Lemma nn_gamma delta x y : nn (gammaF delta x y).
Proof. unfold gammaF. apply nn_to32, nn64_div; [reflexivity|]. apply nn64_add; [reflexivity|]. unfold nn64, dabs. destruct (to64 _); reflexivity. Qed.
Lemma nn_weight gx gy n m a b : nn (weight gx gy n m a b).
Proof. unfold weight, total. destruct (length _) as [|[|[|[|[|[|[|[|[|?]]]]]]]]]; destruct (_ || _)%bool; vm_compute; reflexivity. Qed.
Lemma nn_coef hybrid beta delta w x y : nn beta -> nn w -> nn (coef hybrid beta delta w x y).
Proof. intros Hb Hw. unfold coef. assert (nn (fmul (fmul (of_int 2) beta) w)) by (apply nn_mul; auto; apply nn_mul; auto; reflexivity). destruct hybrid; auto. apply nn_mul; auto. apply nn_gamma. Qed.
Lemma nn_pix_f gx gy hybrid beta delta img n m : nn beta -> nn (fst (pix_fg gx gy hybrid beta delta img n m)).
Proof.
  intros Hb. unfold pix_fg. cbv zeta. assert (H : nn (fst (zeroF, zeroF))) by reflexivity. revert H. generalize (zeroF, zeroF). generalize (offsets gx gy n m).
  intros l. induction l as [|(a & b) l IH]; cbn [fold_left]; auto. intros (f & gg) H. apply IH. cbn [fst] in *. apply nn_add; auto. apply nn_coef; auto. apply nn_weight.
Qed.
Lemma npos_pix_e segs dt dx data img i : (forall p d j w, In (j, w) (segs p d) -> nn w /\ nn (img j)) -> (forall p d, (0 <= p < dt)%Z -> (0 <= d < dx)%Z -> nn (data p d)) -> nn (img i) ->
  npos (pix_e segs dt dx data img i).
Proof.
  intros Hs Hd Hi. unfold pix_e, rays. match goal with |- npos (fold_left _ ?l _) => assert (A : forall u w, In (u, w) l -> nn u /\ nn w) end.
  - intros u w H. apply in_flat_map in H. destruct H as (p & Hp & H). apply in_flat_map in H. destruct H as (d & Hd' & H). apply in_zrange in Hp, Hd'. destruct (nez _); [|destruct H]. apply in_map_iff in H. destruct H as (w' & E & H). injection E as <- <-.
    unfold lengths in H. apply in_map_iff in H. destruct H as ((j & w'') & E & H). cbn in E. subst w''. apply filter_In in H. destruct H as (H & _). split; [|apply (Hs _ _ _ _ H)].
    apply nn_div; [apply Hd; lia|]. unfold simulated, dotF. assert (S : forall x y, In (x, y) (map (fun '(j, w) => (img j, w)) (segs p d)) -> nn x /\ nn y). { intros x y Q. apply in_map_iff in Q. destruct Q as ((j' & w0) & E & Q). injection E as <- <-. destruct (Hs _ _ _ _ Q). auto. }
    assert (Z0 : nn zeroF) by reflexivity. revert S Z0. generalize zeroF. generalize (map (fun '(j, w) => (img j, w)) (segs p d)). clear. intros l. induction l as [|(x & y) l IH]; cbn [fold_left]; auto. intros a S Z0. apply IH; [intros; apply S; now right|]. destruct (S x y (or_introl eq_refl)). apply nn_add; auto. apply nn_mul; auto.
  - revert A. assert (Z0 : npos zeroF) by exact I. revert Z0. generalize zeroF. match goal with |- forall b, npos b -> (forall u w, In (u, w) ?l -> _) -> _ => generalize l end. clear - Hi. intros l. induction l as [|(x & y) l IH]; cbn [fold_left]; auto. intros a Z0 A. apply IH; [|intros; apply A; now right].
    destruct (A x y (or_introl eq_refl)). apply npos_sub; auto. apply nn_mul; auto. apply nn_mul; auto.
Qed.

(** One pass *)
Section Bound.
  Variables (fmodf sinf cosf : b32 -> b32) (junk : arr pointF * arr pointF * arr pointF) (g : geomF).
  Variables (hybrid : bool) (nreg : Z) (reg : arr b32) (data : arr b32) (ind_block : arr Z).
  Hypothesis Hx : (2 <= gxF g <= 2 ^ 15)%Z.
  Hypothesis Hy : (2 <= gyF g <= 2 ^ 15)%Z.
  Hypothesis Hd : (0 <= dxF g)%Z.
  Hypothesis Ht : (0 <= dtF g)%Z.
  Theorem pml_bound recon r s i tol : emptyF g = false -> pmlF fmodf sinf cosf junk g hybrid nreg reg data 1 ind_block 1 recon = Some r -> inP nn (nrec g) recon -> inP nn (ndata g) data -> nn (reg 0%Z) ->
    (0 <= s < dyF g)%Z -> (0 <= i < npixF g)%Z -> 0 <= tol <= 1 ->
    (let '(f, gg) := pix_fg (gxF g) (gyF g) hybrid (reg 0%Z) (reg 1%Z) (fun i => recon (i + s * gxF g * gyF g)%Z) (i / gyF g) (i mod gyF g) in
     Rmax 0 (B2R (fadd gg (pix_length (segs_of fmodf sinf cosf junk g (centerF g s)) (dtF g) (dxF g) i))) * / 4194304 + bpow radix2 (-73) <= tol * B2R (fmul (of_int 4) f)) ->
    lb (- (tol + bpow radix2 (-148))) (r (i + s * gxF g * gyF g)%Z).
  Proof.
    intros Em E Hr Hdt Hb Hs Hi Htol H. rewrite (pml_value fmodf sinf cosf junk g hybrid nreg reg data ind_block Hx Hy Hd Ht 1 recon r s i Em ltac:(lia) E Hs Hi). change (Z.to_nat 1) with 1%nat. cbn [passes]. unfold pix_new.
    set (img := fun i => recon (i + s * gxF g * gyF g)%Z) in *. pose proof (nn_pix_f (gxF g) (gyF g) hybrid (reg 0%Z) (reg 1%Z) img (i / gyF g) (i mod gyF g) Hb) as Nf.
    assert (Ni : forall j, (0 <= j < npixF g)%Z -> nn (img j)). { intros j Hj. apply Hr. now apply rec_ok. }
    destruct (pix_fg _ _ _ _ _ _ _ _) as (f & gg). cbn [fst] in Nf. destruct (nez f).
    - apply root_lb; auto. apply npos_pix_e; auto.
      + intros p d j w Hj. pose proof (segs_of_in fmodf sinf cosf junk g Hx Hy (centerF g s) p d j w Hj) as Hj'. split; [|now apply Ni]. unfold segs_of in Hj. destruct (segsF fmodf sinf cosf junk g (centerF g s) p d) eqn:Q; [|destruct Hj]. eapply nn_segs; eauto.
      + intros p d Hp Hd'. apply Hdt. unfold ndata. assert (0 <= d + p * dxF g < dtF g * dxF g)%Z by nia. assert (0 <= s * (dtF g * dxF g) <= (dyF g - 1) * (dtF g * dxF g))%Z by nia. lia.
    - pose proof (Ni i Hi) as N. unfold img in N. revert N. generalize (recon (i + s * gxF g * gyF g)%Z). intros x N. pose proof (nn_V x N). pose proof (bpow_ge_0 radix2 (-148)). destruct x as [s'|s'| |s' m e B]; cbn [lb]; auto; try exact N; lra.
  Qed.
End Bound.

(** ospml_quad: 4 F is at least beta *)
Lemma weight_range gx gy n m a b : 0 <= V (weight gx gy n m a b) <= 1 /\ fin (weight gx gy n m a b) = true /\ ((a = 0)%Z -> / 8 <= V (weight gx gy n m a b)).
Proof.
  unfold weight, total.
  assert (A : forall w : b32, match B2SF w with SpecFloat.S754_finite false q e => (Z.leb (2 ^ 23) (Z.pos q) && Z.ltb (Z.pos q) (2 ^ 24) && Z.leb (-27) e && Z.leb e (-24))%bool | _ => false end = true -> 0 <= V w <= 1 /\ fin w = true /\ (match B2SF w with SpecFloat.S754_finite false q e => Z.leb (-26) e | _ => false end = true -> / 8 <= V w)).
  { intros [s|s| |s q e H]; cbn [B2SF]; try discriminate. destruct s; [discriminate|]. intros Q. cbn [B2R cond_Zopp]. unfold F2R. cbn [Fnum Fexp].
    assert (bpow radix2 e <= bpow radix2 (-24)) as B2 by (apply bpow_le; lia). pose proof (bpow_gt_0 radix2 e) as B0. assert (IZR (2 ^ 23) <= IZR (Z.pos q) <= IZR (2 ^ 24)) as (C1 & C2) by (split; apply IZR_le; lia).
    change (bpow radix2 (-24)) with (/ IZR (2 ^ 24)) in B2. cbn in B2, C1, C2. split; [split|split; [reflexivity|]].
    - apply Rmult_le_pos; lra.
    - apply Rle_trans with (16777216 * / 16777216); [|lra]. apply Rmult_le_compat; lra.
    - intros Q2. assert (bpow radix2 (-26) <= bpow radix2 e) as B1 by (apply bpow_le; lia). change (bpow radix2 (-26)) with (/ IZR (2 ^ 26)) in B1. cbn in B1. apply Rle_trans with (8388608 * / 67108864); [lra|]. apply Rmult_le_compat; lra. }
  destruct (a =? 0)%Z eqn:Ea; cbn [orb]; [|destruct (b =? 0)%Z];
    destruct (length _) as [|[|[|[|[|[|[|[|[|?]]]]]]]]];
    (match goal with |- context [V ?w] => destruct (A w) as (A1 & A2 & A3); [vm_compute; reflexivity|] end; split; [exact A1|split; [exact A2|intros ->; first [discriminate Ea|apply A3; vm_compute; reflexivity]]]).
Qed.
Lemma offsets_one gx gy n m : (2 <= gx)%Z -> (2 <= gy)%Z -> (0 <= n < gx)%Z -> (0 <= m < gy)%Z -> exists b l, offsets gx gy n m = (0%Z, b) :: l.
Proof.
  intros Hx Hy Hn Hm. unfold offsets. cbn [filter]. destruct (Z.eq_dec m (gy - 1)) as [E|E].
  - replace ((0 <=? n + 0) && (n + 0 <? gx) && (0 <=? m + 1) && (m + 1 <? gy))%Z%bool with false by lia. replace ((0 <=? n + 0) && (n + 0 <? gx) && (0 <=? m + -1) && (m + -1 <? gy))%Z%bool with true by lia. eauto.
  - replace ((0 <=? n + 0) && (n + 0 <? gx) && (0 <=? m + 1) && (m + 1 <? gy))%Z%bool with true by lia. eauto.
Qed.
Lemma offsets_8 gx gy n m : (length (offsets gx gy n m) <= 8)%nat.
Proof.
  unfold offsets. match goal with |- (length (filter ?p ?l0) <= _)%nat => assert (G : forall l, (length (filter p l) <= length l)%nat) end; [|apply G].
  induction l as [|x l IH]; cbn [filter length]; auto. destruct x as (a & b). destruct (_ && _)%bool; cbn [length]; lia.
Qed.
Lemma huge60 k : (k <= 127)%Z -> bpow radix2 k < huge. Proof. intros H. apply bpow_lt. lia. Qed.
Lemma coef_quad beta delta w x y : fin beta = true -> bpow radix2 (-60) <= V beta <= bpow radix2 60 -> 0 <= V w <= 1 -> fin w = true ->
  let k := coef false beta delta w x y in fin k = true /\ 0 <= V k <= bpow radix2 61 /\ (/ 8 <= V w -> V beta / 4 <= V k).
Proof.
  intros Fb (L & U) (L1 & U1) Fw. cbv zeta. unfold coef. destruct (of_int_ok 2 ltac:(lia)) as (F2 & V2).
  assert (E61 : bpow radix2 61 = 2 * bpow radix2 60) by (change 61%Z with (1 + 60)%Z; rewrite bpow_plus; reflexivity). assert (P60 : 0 < bpow radix2 (-60)) by apply bpow_gt_0.
  assert (R61 : rep (bpow radix2 61)) by (apply generic_format_bpow; cbn; lia).
  destruct (fmul_ok (of_int 2) beta (bpow radix2 61) F2 Fb R61) as (F1 & E1); [rewrite V2, Rabs_pos_eq by lra; lra|apply huge60; lia|]. rewrite V2 in E1.
  assert (R2b : rep (2 * V beta)). { rewrite Rmult_comm. change 2 with (bpow radix2 1). unfold rep. change (SpecFloat.fexp 24 128) with (FLT_exp (-149) 24). apply mult_bpow_pos_exact_FLT; [exact (rep_V beta)|lia]. }
  rewrite (rd_rep _ R2b) in E1.
  destruct (fmul_ok (fmul (of_int 2) beta) w (bpow radix2 61) F1 Fw R61) as (F3 & E3); [rewrite E1, Rabs_pos_eq by nra; nra|apply huge60; lia|]. split; auto. rewrite E3, E1. split; [split|].
  - apply rd_ge_rep; [rewrite <- rd_0; apply rep_rd|nra].
  - apply rd_le_rep; auto. nra.
  - intros L8. apply rd_ge_rep; [|nra]. unfold Rdiv. change (/ 4) with (bpow radix2 (-2)). unfold rep. change (SpecFloat.fexp 24 128) with (FLT_exp (-149) 24). apply mult_bpow_exact_FLT; [exact (rep_V beta)|].
    assert (-60 + 1 <= mag radix2 (V beta))%Z; [|lia]. apply mag_ge_bpow. rewrite Rabs_pos_eq by lra. replace (-60 + 1 - 1)%Z with (-60)%Z by lia. exact L.
Qed.
Lemma rep_n61 n : (0 <= n <= 8)%Z -> rep (IZR n * bpow radix2 61).
Proof. intros H. apply rep_dyadic; lia. Qed.
Lemma huge_n61 n : (0 <= n <= 8)%Z -> IZR n * bpow radix2 61 < huge.
Proof. intros H. apply Rle_lt_trans with (bpow radix2 64); [|apply huge60; lia]. change (bpow radix2 64) with (bpow radix2 (3 + 61)). rewrite bpow_plus. apply Rmult_le_compat_r; [apply bpow_ge_0|]. change (bpow radix2 3) with 8. apply IZR_le. lia. Qed.
Lemma pix_f_quad gx gy beta delta img n m : (2 <= gx)%Z -> (2 <= gy)%Z -> (0 <= n < gx)%Z -> (0 <= m < gy)%Z -> fin beta = true -> bpow radix2 (-60) <= V beta <= bpow radix2 60 ->
  let f := fst (pix_fg gx gy false beta delta img n m) in fin f = true /\ V beta / 4 <= V f <= 8 * bpow radix2 61.
Proof.
  intros Hx Hy Hn Hm Fb Bb. cbv zeta. unfold pix_fg. cbv zeta. set (x := img (m + n * gy)%Z).
  set (step := fun '(f, gg) '(a, b) => _). assert (P61 : 0 < bpow radix2 61) by apply bpow_gt_0. assert (Pb : 0 < V beta) by (pose proof (bpow_gt_0 radix2 (-60)); lra).
  assert (K : forall fg a b k, (0 <= k < 8)%Z -> fin (fst fg) = true -> 0 <= V (fst fg) <= IZR k * bpow radix2 61 ->
    fin (fst (step fg (a, b))) = true /\ V (fst fg) <= V (fst (step fg (a, b))) /\ V (fst (step fg (a, b))) <= IZR (k + 1) * bpow radix2 61 /\ ((a = 0)%Z -> V beta / 4 <= V (fst (step fg (a, b))))).
  { intros (f & gg) a b k Hk Ff Bf. unfold step. cbn [fst] in *. destruct (weight_range gx gy n m a b) as (Wr & Fw & W8). destruct (coef_quad beta delta (weight gx gy n m a b) x (img (m + b + (n + a) * gy)%Z) Fb Bb Wr Fw) as (Fk & Bk & K8). set (c := coef _ _ _ _ _ _) in *.
    destruct (fadd_ok f c (IZR (k + 1) * bpow radix2 61) Ff Fk (rep_n61 (k + 1) ltac:(lia))) as (Fs & Es); [rewrite Rabs_pos_eq by lra; rewrite plus_IZR; lra|apply huge_n61; lia|].
    split; auto. rewrite Es. split; [apply rd_ge_rep; [apply rep_V|lra]|]. split; [apply rd_le_rep; [apply rep_n61; lia|rewrite plus_IZR; lra]|].
    intros A0. specialize (K8 (W8 A0)). apply Rle_trans with (V c); [lra|]. apply rd_ge_rep; [apply rep_V|lra]. }
  assert (M : forall l fg k, (0 <= k)%Z -> (k + Z.of_nat (length l) <= 8)%Z -> fin (fst fg) = true -> 0 <= V (fst fg) <= IZR k * bpow radix2 61 ->
    fin (fst (fold_left step l fg)) = true /\ V (fst fg) <= V (fst (fold_left step l fg)) <= IZR (k + Z.of_nat (length l)) * bpow radix2 61).
  { induction l as [|(a & b) l IH]; intros fg k Hk Hl Ff Bf; cbn [fold_left length] in *; [rewrite Z.add_0_r; split; auto; lra|].
    destruct (K fg a b k ltac:(lia) Ff Bf) as (F1 & L1 & B1 & _). destruct (IH (step fg (a, b)) (k + 1)%Z ltac:(lia) ltac:(lia) F1 ltac:(lra)) as (F2 & L2 & B2). split; auto. replace (k + Z.of_nat (S (length l)))%Z with (k + 1 + Z.of_nat (length l))%Z by lia. lra. }
  pose proof (offsets_one gx gy n m Hx Hy Hn Hm) as (b & l & Eo). pose proof (offsets_8 gx gy n m) as L8. rewrite Eo in *. cbn [fold_left length] in *.
  destruct (K (zeroF, zeroF) 0%Z b 0%Z ltac:(lia) eq_refl ltac:(cbn; lra)) as (F1 & _ & B1 & C1). specialize (C1 eq_refl). destruct (M l (step (zeroF, zeroF) (0%Z, b)) 1%Z ltac:(lia) ltac:(lia) F1 ltac:(change (0 + 1)%Z with 1%Z in B1; lra)) as (F2 & L2 & B2).
  split; auto. split; [lra|]. eapply Rle_trans; [exact B2|]. apply Rmult_le_compat_r; [lra|]. apply IZR_le. lia.
Qed.
Lemma npos_pix_g gx gy hybrid beta delta img n m : nn beta -> (0 <= n < gx)%Z -> (0 <= m < gy)%Z -> (forall j, (0 <= j < gx * gy)%Z -> nn (img j)) -> npos (snd (pix_fg gx gy hybrid beta delta img n m)).
Proof.
  intros Hb Hn Hm Hi. unfold pix_fg. cbv zeta. assert (H : npos (snd (zeroF, zeroF))) by exact I. revert H. generalize (zeroF, zeroF).
  assert (O : forall a b, In (a, b) (offsets gx gy n m) -> nn (img (m + b + (n + a) * gy)%Z)). { unfold offsets. intros a b Q. apply filter_In in Q. destruct Q as (_ & Q). apply Hi. nia. }
  revert O. generalize (offsets gx gy n m). intros l. induction l as [|(a & b) l IH]; cbn [fold_left]; auto. intros O (f & gg) H. apply IH; [intros; apply O; now right|]. cbn [snd] in *. apply npos_sub; auto. apply nn_mul; [apply nn_coef; auto; apply nn_weight|].
  apply nn_add; [apply Hi; nia|]. apply O. now left.
Qed.
Lemma add_npos_le a b : npos a -> V (fadd a b) <= Rmax 0 (V b).
Proof.
  intros Ha. destruct (fin (fadd a b)) eqn:F; [|destruct (fadd a b); try discriminate F; apply Rmax_l]. apply fadd_fin in F. destruct F as (Fa & Fb & ->). pose proof (V_npos a Ha).
  eapply Rle_trans; [|apply Rmax_r]. apply rd_le_rep; [apply rep_V|lra].
Qed.
(** One pass of ospml_quad: not below - (L / 2^22 + 2^-73) / beta *)
Section Quad.
  Variables (fmodf sinf cosf : b32 -> b32) (junk : arr pointF * arr pointF * arr pointF) (g : geomF).
  Variables (nreg : Z) (reg : arr b32) (data : arr b32) (ind_block : arr Z).
  Hypothesis Hx : (2 <= gxF g <= 2 ^ 15)%Z.
  Hypothesis Hy : (2 <= gyF g <= 2 ^ 15)%Z.
  Hypothesis Hd : (0 <= dxF g)%Z.
  Hypothesis Ht : (0 <= dtF g)%Z.
  Theorem pml_quad_bound recon r s i : emptyF g = false -> pmlF fmodf sinf cosf junk g false nreg reg data 1 ind_block 1 recon = Some r -> inP nn (nrec g) recon -> inP nn (ndata g) data ->
    is_finite (reg 0%Z) = true -> bpow radix2 (-60) <= B2R (reg 0%Z) <= bpow radix2 60 -> (0 <= s < dyF g)%Z -> (0 <= i < npixF g)%Z ->
    let len := pix_length (segs_of fmodf sinf cosf junk g (centerF g s)) (dtF g) (dxF g) i in
    let tol := (B2R len * / 4194304 + bpow radix2 (-73)) / B2R (reg 0%Z) in
    tol <= 1 -> lb (- (tol + bpow radix2 (-148))) (r (i + s * gxF g * gyF g)%Z).
  Proof.
    intros Em E Hr Hdt Fb Bb Hs Hi len tol Ht1. assert (P : 0 < B2R (reg 0%Z)) by (pose proof (bpow_gt_0 radix2 (-60)); lra).
    assert (Nb : nn (reg 0%Z)). { clear - P Fb. unfold nn. destruct (reg 0%Z) as [s|s| |s m e H]; try discriminate Fb; cbn in P; [lra|]. cbn. destruct s; auto. exfalso. unfold F2R in P. cbn in P. change (IZR (Z.neg m)) with (- IZR (Z.pos m)) in P. pose proof (bpow_gt_0 radix2 e). assert (0 < IZR (Z.pos m)) by (apply IZR_lt; lia). nra. }
    assert (Nl : nn len). { unfold len, pix_length, rays. match goal with |- nn (fold_left _ ?l _) => assert (A : forall w, In w l -> nn w) end.
      - intros w H. apply in_flat_map in H. destruct H as (p & Hp & H). apply in_flat_map in H. destruct H as (d & Hd' & H). unfold lengths in H. apply in_map_iff in H. destruct H as ((j & w') & Q & H). cbn in Q. subst w'. apply filter_In in H. destruct H as (H & _).
        unfold segs_of in H. destruct (segsF fmodf sinf cosf junk g (centerF g s) p d) eqn:Es; [|destruct H]. eapply nn_segs; eauto.
      - revert A. assert (Z0 : nn zeroF) by reflexivity. revert Z0. generalize zeroF. match goal with |- forall b, nn b -> (forall w, In w ?l -> _) -> _ => generalize l end. clear. intros l. induction l as [|y l IH]; cbn [fold_left]; auto. intros a Z0 A. apply IH; [|intros; apply A; now right]. apply nn_add; auto. apply A. now left. }
    pose proof (nn_V len Nl) as Pl. pose proof (bpow_gt_0 radix2 (-73)) as P73. assert (Pt : 0 <= tol). { unfold tol. apply Rmult_le_pos; [lra|]. left. now apply Rinv_0_lt_compat. }
    assert (Hn : (0 <= i / gyF g < gxF g)%Z). { unfold npixF in Hi. split; [apply Z.div_pos; lia|]. apply Z.div_lt_upper_bound; lia. } pose proof (Z.mod_pos_bound i (gyF g) ltac:(lia)) as Hm.
    apply (pml_bound fmodf sinf cosf junk g false nreg reg data ind_block Hx Hy Hd Ht recon r s i tol Em E Hr Hdt Nb Hs Hi); auto. fold len. set (img := fun i => recon (i + s * gxF g * gyF g)%Z).
    pose proof (pix_f_quad (gxF g) (gyF g) (reg 0%Z) (reg 1%Z) img _ _ ltac:(lia) ltac:(lia) Hn Hm Fb Bb) as Qf. cbv zeta in Qf.
    assert (Qg : npos (snd (pix_fg (gxF g) (gyF g) false (reg 0%Z) (reg 1%Z) img (i / gyF g) (i mod gyF g)))). { apply npos_pix_g; auto. intros j Hj. apply Hr. apply rec_ok; auto. }
    destruct (pix_fg (gxF g) (gyF g) false (reg 0%Z) (reg 1%Z) img (i / gyF g) (i mod gyF g)) as (f & gg). cbn [fst snd] in Qf, Qg. destruct Qf as (Ff & Lf & Uf).
    pose proof (add_npos_le gg len Qg) as Lg. rewrite Rmax_right in Lg by auto. destruct (of_int_ok 4 ltac:(lia)) as (F4 & V4).
    assert (E66 : bpow radix2 66 = 32 * bpow radix2 61) by (change 66%Z with (5 + 61)%Z; rewrite bpow_plus; reflexivity).
    destruct (fmul_ok (of_int 4) f (bpow radix2 66) F4 Ff) as (_ & Em4); [apply generic_format_bpow; cbn; lia|rewrite V4, Rabs_pos_eq; lra|apply huge60; lia|]. rewrite V4 in Em4.
    assert (Lm : B2R (reg 0%Z) <= V (fmul (of_int 4) f)) by (rewrite Em4; apply rd_ge_rep; [apply rep_V|lra]).
    apply Rle_trans with (tol * B2R (reg 0%Z)); [|apply Rmult_le_compat_l; auto]. unfold tol, Rdiv. rewrite Rmult_assoc, Rinv_l, Rmult_1_r by lra. apply Rplus_le_compat_r. apply Rmult_le_compat_r; [lra|]. apply Rmax_lub; auto.
  Qed.
End Quad.

(** ** gamma *)
Lemma to32_val (x : b64) : is_finite x = true -> Rabs (B2R x) <= 2 -> fin (to32 x) = true /\ V (to32 x) = rd (B2R x).
Proof.
  intros F B. destruct x as [s|s| |s m e Hb]; try discriminate; [cbn; now rewrite rd_0|]. set (x := B754_finite s m e Hb) in *. cbn [to32 x].
  pose proof (binary_normalize_correct 24 128 p32 e32 mode_NE (cond_Zopp s (Z.pos m)) e s) as C. cbv zeta in C. assert (Ev : F2R (Float radix2 (cond_Zopp s (Z.pos m)) e) = B2R x) by reflexivity. rewrite Ev in C.
  change (round radix2 (SpecFloat.fexp 24 128) (round_mode mode_NE) (B2R x)) with (rd (B2R x)) in C. rewrite (small_bool (B2R x) 2) in C; [destruct C as (C1 & C2 & _); auto|apply (rep_IZR 2); lia|exact B|apply (huge_big 2); lia].
Qed.
Lemma tiny64 : bpow radix2 (-1074) <= / 1073741824 * / 1073741824 * / 1024.
Proof. replace (/ 1073741824 * / 1073741824 * / 1024) with (bpow radix2 (-70)) by (cbn; lra). apply bpow_le. lia. Qed.
Lemma tiny32 : bpow radix2 (-150) <= / 1073741824 * / 1073741824 * / 1024.
Proof. replace (/ 1073741824 * / 1073741824 * / 1024) with (bpow radix2 (-70)) by (cbn; lra). apply bpow_le. lia. Qed.
Lemma gamma_val delta x y : fin (fdiv (fsub x y) delta) = true ->
  fin (gammaF delta x y) = true /\ Rabs (V (gammaF delta x y) - / (1 + Rabs (V (fdiv (fsub x y) delta)))) <= / 8388608.
Proof.
  intros F. unfold gammaF. set (t := fdiv _ _) in *. destruct (to64_val t F) as (F6 & V6). destruct (of_int64_ok 1 ltac:(lia)) as (F1 & V1).
  assert (Fa : is_finite (dabs (to64 t)) = true /\ B2R (dabs (to64 t)) = Rabs (V t)). { unfold dabs. rewrite is_finite_Babs, B2R_Babs, V6. auto. } destruct Fa as (Fa & Va). set (a := dabs (to64 t)) in *. clearbody a.
  pose proof (V_small t) as Ht. pose proof (Rabs_pos (V t)) as Pt. set (u := Rabs (V t)) in *.
  assert (Fc : is_finite (dadd (of_int64 1) a) = true /\ B2R (dadd (of_int64 1) a) = rd64 (1 + u)).
  { pose proof (Bplus_correct 53 1024 p64 e64 mode_NE (of_int64 1) a F1 Fa) as C. fold (dadd (of_int64 1) a) in C. rewrite V1, Va in C. change (round radix2 (SpecFloat.fexp 53 1024) (round_mode mode_NE) (1 + u)) with (rd64 (1 + u)) in C.
    rewrite Rlt_bool_true in C; [destruct C as (C1 & C2 & _); auto|]. assert (L : 1 + u <= bpow radix2 129). { replace 129%Z with (128 + 1)%Z by lia. rewrite bpow_plus. assert (1 <= bpow radix2 128) by (apply (bpow_le radix2 0 128); lia). change (bpow radix2 1) with 2. lra. }
    apply rd64_le in L. rewrite (rd64_rep (bpow radix2 129)) in L by (apply generic_format_bpow; cbn; lia). assert (0 <= rd64 (1 + u)) by (rewrite <- rd64_0; apply rd64_le; lra). rewrite Rabs_pos_eq by auto. eapply Rle_lt_trans; [exact L|]. apply bpow_lt. lia. }
  destruct Fc as (Fc & Vc). set (c := dadd (of_int64 1) a) in *. clearbody c.
  assert (R1 : rd64 1 = 1) by (apply rd64_rep, (rep64_IZR 1); lia).
  assert (Lc : 1 <= B2R c). { rewrite Vc. rewrite <- R1 at 1. apply rd64_le. lra. }
  pose proof (rd64_rel (1 + u)) as E1. rewrite <- Vc in E1. rewrite (Rabs_pos_eq (1 + u)) in E1 by lra. pose proof tiny64 as T64.
  assert (E1' : - (/ 536870912 * (1 + u)) <= B2R c - (1 + u) <= / 536870912 * (1 + u)) by (unfold Rabs in E1; destruct (Rcase_abs _); lra).
  assert (Q : 0 < / B2R c <= 1). { split; [apply Rinv_0_lt_compat; lra|]. rewrite <- Rinv_1. apply Rinv_le_contravar; lra. } 
  assert (Fd : is_finite (ddiv (of_int64 1) c) = true /\ B2R (ddiv (of_int64 1) c) = rd64 (/ B2R c)).
  { pose proof (Bdiv_correct 53 1024 p64 e64 mode_NE (of_int64 1) c ltac:(lra)) as C. fold (ddiv (of_int64 1) c) in C. rewrite V1 in C. unfold Rdiv in C. rewrite Rmult_1_l in C. change (round radix2 (SpecFloat.fexp 53 1024) (round_mode mode_NE) (/ B2R c)) with (rd64 (/ B2R c)) in C.
    rewrite Rlt_bool_true in C; [destruct C as (C1 & C2 & _); rewrite C2; auto|]. assert (0 <= rd64 (/ B2R c)) by (rewrite <- rd64_0; apply rd64_le; lra). rewrite Rabs_pos_eq by auto. destruct Q as (_ & Q). apply rd64_le in Q. rewrite R1 in Q. pose proof (big1024 1 ltac:(lia)). lra. }
  destruct Fd as (Fd & Vd). set (d := ddiv (of_int64 1) c) in *. clearbody d. pose proof (rd64_rel (/ B2R c)) as E2. rewrite <- Vd in E2. rewrite (Rabs_pos_eq (/ B2R c)) in E2 by lra.
  assert (E2' : - / 500000000 <= B2R d - / B2R c <= / 500000000) by (unfold Rabs in E2; destruct (Rcase_abs _); lra).
  assert (Bd : 0 <= B2R d <= 1). { rewrite Vd. split; [rewrite <- rd64_0; apply rd64_le; lra|]. rewrite <- R1. apply rd64_le. lra. }
  destruct (to32_val d Fd ltac:(rewrite Rabs_pos_eq; lra)) as (Fr & Vr). split; [exact Fr|]. rewrite Vr. pose proof (rd_rel (B2R d)) as E3. rewrite (Rabs_pos_eq (B2R d)) in E3 by lra. pose proof tiny32 as T32.
  assert (E4 : - / 500000000 <= / B2R c - / (1 + u) <= / 500000000).
  { assert (P : 0 < / (1 + u) <= 1) by (split; [apply Rinv_0_lt_compat; lra|rewrite <- Rinv_1; apply Rinv_le_contravar; lra]). assert (K : / B2R c - / (1 + u) = (1 + u - B2R c) * / (1 + u) * / B2R c) by (field; lra). rewrite K.
    assert (M : - / 536870912 <= (1 + u - B2R c) * / (1 + u) <= / 536870912). { assert ((1 + u) * / (1 + u) = 1) by (apply Rinv_r; lra). split; nra. } split; nra. }
  unfold Rabs in E3 |- *. destruct (Rcase_abs (rd (B2R d) - B2R d)), (Rcase_abs (rd (B2R d) - / (1 + u))); lra.
Qed.
