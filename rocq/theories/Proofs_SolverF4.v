From Verif Require Import Base Order CLoop Model_Ray Proofs_Ray Model_RayF Model_SolverF Spec_SolverF Proofs_FloatB Proofs_RayF Proofs_RayF2 Proofs_RayF3 Proofs_RayF4 Proofs_SolverF.
From Coq Require Import Reals Lra Psatz Machin.
From Flocq Require Import Core BinarySingleNaN.
Local Open Scope R_scope.

(** ** Bounds of pi *)
Lemma PI_bounds : 3141592653 / 1000000000 < PI < 3141592654 / 1000000000.
Proof.
  pose proof (PI_2_3_7_ineq 5) as (A & B). unfold tg_alt, PI_2_3_7_tg, Ratan_seq in A, B. cbn [sum_f_R0 Nat.mul Nat.add INR pow] in A, B. split; lra.
Qed.

(** ** Neighbours *)
Lemma gap v m e : rep v -> (2 ^ 23 <= m < 2 ^ 24)%Z -> (-149 <= e)%Z -> IZR m * bpow radix2 e < v -> IZR (m + 1) * bpow radix2 e <= v.
Proof.
  intros Rv Hm He L. destruct (Rle_lt_dec (IZR (m + 1) * bpow radix2 e) v) as [|U]; auto. exfalso.
  assert (P : 0 < bpow radix2 e) by apply bpow_gt_0.
  assert (M : mag radix2 v = (24 + e)%Z :> Z).
  { apply mag_unique. assert (Hv : 0 < v). { apply Rlt_trans with (2 := L). apply Rmult_lt_0_compat; auto. apply IZR_lt. lia. } rewrite Rabs_pos_eq by lra. split.
    - apply Rle_trans with (2 := Rlt_le _ _ L). replace (24 + e - 1)%Z with (23 + e)%Z by lia. rewrite bpow_plus. apply Rmult_le_compat_r; [lra|]. change (bpow radix2 23) with (IZR (2 ^ 23)). apply IZR_le. lia.
    - apply Rlt_le_trans with (1 := U). rewrite bpow_plus. apply Rmult_le_compat_r; [lra|]. change (bpow radix2 24) with (IZR (2 ^ 24)). apply IZR_le. lia. }
  unfold rep, generic_format, F2R in Rv. cbn [Fnum Fexp] in Rv. unfold cexp in Rv. rewrite M in Rv. rewrite fexp_is in Rv. replace (FLT_exp (-149) 24 (24 + e)) with e in Rv by (unfold FLT_exp; lia).
  set (n := Ztrunc _) in Rv. rewrite Rv in L, U. apply Rmult_lt_reg_r in L; auto. apply Rmult_lt_reg_r in U; auto. apply lt_IZR in L, U. lia.
Qed.
Lemma closed_prod (a p : b32) m e n f : B2SF a = SpecFloat.S754_finite false m e -> B2SF p = SpecFloat.S754_finite false n f -> p = fmul a (of_int ipi_c) -> fin a = true -> Rabs (V a) <= 629 / 100 ->
  rd (IZR (Z.pos m) * bpow radix2 e * 340870432) = IZR (Z.pos n) * bpow radix2 f.
Proof.
  intros Ea Ep Ed Fa Ba. destruct (prod_ok a Fa Ba) as (_ & E & _). rewrite <- Ed in E. rewrite <- (SF2R_B2SF 24 128 p), <- (SF2R_B2SF 24 128 a), Ea, Ep in E. cbn [SF2R cond_Zopp] in E. unfold F2R in E. cbn [Fnum Fexp] in E. now rewrite E.
Qed.
Definition fl (m e : Z) : b32 := binary_normalize 24 128 p32 e32 mode_NE m e false.
Ltac closed m e := eapply (closed_prod (fl m e) (fmul (fl m e) (of_int ipi_c))); [vm_compute; reflexivity|vm_compute; reflexivity|reflexivity|vm_compute; reflexivity|
    rewrite <- SF2R_B2SF; let E := fresh in eassert (E : B2SF (fl m e) = _) by (vm_compute; reflexivity); rewrite E; cbn; unfold F2R; cbn; rewrite Rabs_pos_eq; lra].
Lemma k1 : rd (13176794 * bpow radix2 (-23) * 340870432) = 16732437 * bpow radix2 5. Proof. closed 13176794%Z (-23)%Z. Qed.
Lemma k2 : rd (13176795 * bpow radix2 (-23) * 340870432) = 16732439 * bpow radix2 5. Proof. closed 13176795%Z (-23)%Z. Qed.
Lemma k3 : rd (13176794 * bpow radix2 (-22) * 340870432) = 16732437 * bpow radix2 6. Proof. closed 13176794%Z (-22)%Z. Qed.
Lemma k4 : rd (13176795 * bpow radix2 (-22) * 340870432) = 16732439 * bpow radix2 6. Proof. closed 13176795%Z (-22)%Z. Qed.
Lemma k5 : rd (9882595 * bpow radix2 (-21) * 340870432) = 12549327 * bpow radix2 7. Proof. closed 9882595%Z (-21)%Z. Qed.
Lemma k6 : rd (9882596 * bpow radix2 (-21) * 340870432) = 12549329 * bpow radix2 7. Proof. closed 9882596%Z (-21)%Z. Qed.
Lemma k7 : rd (13176794 * bpow radix2 (-21) * 340870432) = 16732437 * bpow radix2 7. Proof. closed 13176794%Z (-21)%Z. Qed.
Definition scaled (v : R) : Z := Ztrunc (rd (v * 340870432)).
Lemma scaled_le v w : v <= w -> (scaled v <= scaled w)%Z.
Proof. intros H. apply Ztrunc_le, rd_le. lra. Qed.
Lemma scaled_dyadic v n e z : rd (v * 340870432) = IZR n * bpow radix2 e -> IZR n * bpow radix2 e = IZR z -> scaled v = z.
Proof. intros E1 E2. unfold scaled. rewrite E1, E2. apply Ztrunc_IZR. Qed.
Lemma step m e v (t : R) z z' : rep v -> (2 ^ 23 <= m < 2 ^ 24)%Z -> (-149 <= e)%Z -> t < IZR (m + 1) * bpow radix2 e -> IZR m * bpow radix2 e < t ->
  scaled (IZR m * bpow radix2 e) = z -> scaled (IZR (m + 1) * bpow radix2 e) = z' -> (v < t -> (scaled v <= z)%Z) /\ (t <= v -> (z' <= scaled v)%Z).
Proof.
  intros Rv Hm He H1 H2 E E'. split; intros H.
  - rewrite <- E. apply scaled_le. destruct (Rle_lt_dec v (IZR m * bpow radix2 e)) as [|L]; auto. pose proof (gap v m e Rv Hm He L). lra.
  - rewrite <- E'. apply scaled_le. apply gap; auto. lra.
Qed.
Lemma steps v : rep v -> v < 13176795 / 2097152 ->
  ((v < PI / 2 -> (scaled v <= 535437984)%Z) /\ (PI / 2 <= v -> (535438048 <= scaled v)%Z)) /\
  ((v < PI -> (scaled v <= 1070875968)%Z) /\ (PI <= v -> (1070876096 <= scaled v)%Z)) /\
  ((v < 3 * PI / 2 -> (scaled v <= 1606313856)%Z) /\ (3 * PI / 2 <= v -> (1606314112 <= scaled v)%Z)) /\ (scaled v <= 2141751936)%Z /\ v < 2 * PI.
Proof.
  intros Rv B. pose proof PI_bounds as P. split; [|split; [|split]].
  - apply (step 13176794 (-23)); auto; try lia; [cbn; lra|cbn; lra| |].
    + eapply scaled_dyadic; [exact k1|cbn; lra].
    + eapply scaled_dyadic; [exact k2|cbn; lra].
  - apply (step 13176794 (-22)); auto; try lia; [cbn; lra|cbn; lra| |].
    + eapply scaled_dyadic; [exact k3|cbn; lra].
    + eapply scaled_dyadic; [exact k4|cbn; lra].
  - apply (step 9882595 (-21)); auto; try lia; [cbn; lra|cbn; lra| |].
    + eapply scaled_dyadic; [exact k5|cbn; lra].
    + eapply scaled_dyadic; [exact k6|cbn; lra].
  - assert (U : v <= 13176794 * bpow radix2 (-21)).
    { destruct (Rle_lt_dec v (13176794 * bpow radix2 (-21))) as [|L]; auto. pose proof (gap v 13176794 (-21) Rv ltac:(lia) ltac:(lia) L) as G. cbn in G. lra. }
    split; [|cbn in U; lra]. apply Z.le_trans with (1 := scaled_le _ _ U). apply Z.eq_le_incl. eapply scaled_dyadic; [exact k7|cbn; lra].
Qed.
Lemma rep_V x : rep (V x). Proof. apply generic_format_B2R. Qed.

(** ** The comparisons *)
Lemma turns_half : is_finite (turns half64) = true /\ B2R (turns half64) = 8983159041828626 / 16777216.
Proof.
  split; [vm_compute; reflexivity|]. rewrite <- SF2R_B2SF. assert (B2SF (turns half64) = SpecFloat.S754_finite false 8983159041828626 (-24)) as -> by (vm_compute; reflexivity). cbn. unfold F2R. cbn. lra.
Qed.
Lemma turns_one : is_finite (turns (of_int64 1)) = true /\ B2R (turns (of_int64 1)) = 8983159041828626 / 8388608.
Proof.
  split; [vm_compute; reflexivity|]. rewrite <- SF2R_B2SF. assert (B2SF (turns (of_int64 1)) = SpecFloat.S754_finite false 8983159041828626 (-23)) as -> by (vm_compute; reflexivity). cbn. unfold F2R. cbn. lra.
Qed.
Lemma turns_onehalf : is_finite (turns onehalf64) = true /\ B2R (turns onehalf64) = 6737369281371469 / 4194304.
Proof.
  split; [vm_compute; reflexivity|]. rewrite <- SF2R_B2SF. assert (B2SF (turns onehalf64) = SpecFloat.S754_finite false 6737369281371469 (-22)) as -> by (vm_compute; reflexivity). cbn. unfold F2R. cbn. lra.
Qed.
Lemma int_cmp z t k : (Z.abs z <= 2 ^ 53)%Z -> is_finite t = true -> IZR k < B2R t < IZR (k + 1) -> Bltb (of_int64 z) t = (z <=? k)%Z /\ Bleb t (of_int64 z) = (k <? z)%Z.
Proof.
  intros Hz Ft (L & U). destruct (of_int64_ok z Hz) as (Fz & Ez). rewrite Bltb_correct, Bleb_correct by auto. rewrite Ez. split.
  - destruct (Z.leb_spec z k) as [H|H].
    + apply Rlt_bool_true. apply IZR_le in H. lra.
    + apply Rlt_bool_false. assert (k + 1 <= z)%Z as H' by lia. apply IZR_le in H'. lra.
  - destruct (Z.ltb_spec k z) as [H|H].
    + apply Rle_bool_true. assert (k + 1 <= z)%Z as H' by lia. apply IZR_le in H'. lra.
    + apply Rle_bool_false. apply IZR_le in H. lra.
Qed.
Lemma quadrant_bool z : (Z.abs z <= 2 ^ 53)%Z -> ((0 <=? z)%Z && Bltb (of_int64 z) (turns half64) || Bleb (turns (of_int64 1)) (of_int64 z) && Bltb (of_int64 z) (turns onehalf64))%bool =
  ((0 <=? z) && (z <=? 535438003) || (1070876007 <? z) && (z <=? 1606314010))%bool%Z.
Proof.
  intros Hz. destruct turns_half as (F1 & E1), turns_one as (F2 & E2), turns_onehalf as (F3 & E3).
  rewrite (proj1 (int_cmp z (turns half64) 535438003 Hz F1 ltac:(rewrite E1; split; cbn; lra))), (proj2 (int_cmp z (turns (of_int64 1)) 1070876007 Hz F2 ltac:(rewrite E2; split; cbn; lra))),
    (proj1 (int_cmp z (turns onehalf64) 1606314010 Hz F3 ltac:(rewrite E3; split; cbn; lra))). reflexivity.
Qed.
Lemma rep64_dyadic m e : (Z.abs m <= 2 ^ 53)%Z -> (-1074 <= e)%Z -> rep64 (IZR m * bpow radix2 e).
Proof.
  intros H He. unfold rep64. change (SpecFloat.fexp 53 1024) with (FLT_exp (-1074) 53). destruct (Z.eq_dec (Z.abs m) (2 ^ 53)) as [E|N].
  - assert (G : generic_format radix2 (FLT_exp (-1074) 53) (bpow radix2 (53 + e))) by (apply generic_format_bpow; unfold FLT_exp; lia).
    rewrite bpow_plus in G. change (bpow radix2 53) with (IZR (2 ^ 53)) in G. destruct (Z.abs_eq_or_opp m) as [Em|Em]; rewrite Em in E.
    + rewrite E. exact G.
    + replace m with (- 2 ^ 53)%Z by lia. rewrite opp_IZR, Ropp_mult_distr_l_reverse. apply generic_format_opp. exact G.
  - apply generic_format_FLT. exists (Float radix2 m e); [reflexivity| |cbn; lia]. cbn [Fnum Fexp]. change (radix2 ^ 53)%Z with (2 ^ 53)%Z. lia.
Qed.
Lemma wrap z : (- 2141751936 <= z < 0)%Z -> to_int64 (dadd (of_int64 z) (turns (of_int64 2))) = Some (z + 2141752014)%Z.
Proof.
  intros Hz. destruct (of_int64_ok z ltac:(lia)) as (Fz & Ez). destruct turn2_ok as (F2 & E2).
  assert (Ev : B2R (of_int64 z) + B2R (turns (of_int64 2)) = IZR (z * 4194304 + 8983159041828626) * bpow radix2 (-22)).
  { rewrite Ez, E2, plus_IZR, mult_IZR. cbn. field. }
  assert (I : 0 <= IZR (z + 2141752014)) by (apply IZR_le; lia). rewrite plus_IZR in I.
  assert (Iz : IZR z <= 0) by (apply IZR_le; lia).
  assert (Bs : Rabs (B2R (of_int64 z) + B2R (turns (of_int64 2))) <= IZR lim) by (rewrite Ez, E2; apply Rabs_le; unfold lim; lra).
  destruct (dadd_ok _ _ _ Fz F2 rep64_lim Bs (big1024 lim ltac:(unfold lim; lia))) as (F5 & B5 & E5). destruct (to_int64_small _ F5 B5) as (-> & _). f_equal. rewrite E5.
  rewrite round_generic; [|apply valid_rnd_N|rewrite Ev; apply rep64_dyadic; lia]. rewrite Ez, E2. rewrite Ztrunc_floor by lra. apply Zfloor_imp. rewrite !plus_IZR. lra.
Qed.

(** ** The quadrant *)
Lemma up_sin v : upward v <-> 0 <= sin (2 * v).
Proof. unfold upward. rewrite sin_2a. split; intros; lra. Qed.
Lemma up_pos v : 0 <= v < 2 * PI -> ((v < PI / 2 \/ PI <= v < 3 * PI / 2) -> upward v) /\ ((PI / 2 < v < PI \/ 3 * PI / 2 < v) -> ~ upward v).
Proof.
  intros H. rewrite up_sin. pose proof PI_RGT_0. split.
  - intros [L|L]; [apply sin_ge_0; lra|]. replace (2 * v) with (2 * (v - PI) + 2 * PI) by lra. rewrite sin_plus, sin_2PI, cos_2PI. assert (0 <= sin (2 * (v - PI))) by (apply sin_ge_0; lra). lra.
  - intros [L|L].
    + assert (sin (2 * v) < 0) by (apply sin_lt_0; lra). lra.
    + replace (2 * v) with (2 * (v - PI) + 2 * PI) by lra. rewrite sin_plus, sin_2PI, cos_2PI. assert (sin (2 * (v - PI)) < 0) by (apply sin_lt_0; lra). lra.
Qed.
Lemma up_opp v : ~ upward v -> upward (- v).
Proof. unfold upward. rewrite sin_neg, cos_neg. lra. Qed.
Lemma up_opp' v : 0 < sin v * cos v -> ~ upward (- v).
Proof. unfold upward. rewrite sin_neg, cos_neg. lra. Qed.
Lemma up_strict v : (0 < v < PI / 2 \/ PI < v < 3 * PI / 2) -> 0 < sin v * cos v.
Proof.
  intros H. pose proof PI_RGT_0. assert (0 < sin (2 * v)); [|rewrite sin_2a in *; lra]. destruct H as [L|L]; [apply sin_gt_0; lra|].
  replace (2 * v) with (2 * (v - PI) + 2 * PI) by lra. rewrite sin_plus, sin_2PI, cos_2PI. assert (0 < sin (2 * (v - PI))) by (apply sin_gt_0; lra). lra.
Qed.
Lemma scaled_opp v : scaled (- v) = (- scaled v)%Z.
Proof. unfold scaled. rewrite Ropp_mult_distr_l_reverse, rd_opp. apply Ztrunc_opp. Qed.
Lemma scaled_0 : scaled 0 = 0%Z. Proof. unfold scaled. rewrite Rmult_0_l, rd_0. apply Ztrunc_IZR. Qed.
Lemma no_axis v : rep v -> v < 13176795 / 2097152 -> v <> PI / 2 /\ v <> PI /\ v <> 3 * PI / 2.
Proof.
  intros Rv B. pose proof PI_bounds.
  assert (G : forall m e t, (2 ^ 23 <= m < 2 ^ 24)%Z -> (-149 <= e)%Z -> IZR m * bpow radix2 e < t < IZR (m + 1) * bpow radix2 e -> v <> t).
  { intros m e t Hm He Ht E. pose proof (gap v m e Rv Hm He). lra. }
  repeat split; [apply (G 13176794 (-23))%Z|apply (G 13176794 (-22))%Z|apply (G 9882595 (-21))%Z]; try lia; cbn; lra.
Qed.
Theorem quadrant_right x : fin x = true -> Rabs (V x) < 13176795 / 2097152 -> 0 <= V x \/ V x <= - (3 / 1000000000) ->
  exists b, calc_quadrantF x = Some b /\ (b = true <-> upward (V x)).
Proof.
  intros F B N. assert (B' : Rabs (V x) <= 629 / 100) by lra. destruct (prod_ok x F B') as (F1 & E1 & B1). destruct (to_int_small _ F1 B1) as (E2 & B2). apply abs_inv in B1.
  unfold calc_quadrantF. rewrite E2, E1. fold (scaled (V x)). cbn [obind]. pose proof PI_bounds as P. destruct N as [N|N].
  - rewrite Rabs_pos_eq in B by auto. destruct (steps _ (rep_V x) B) as ((S1 & S1') & (S2 & S2') & (S3 & S3') & S4 & S5). destruct (no_axis _ (rep_V x) B) as (N1 & N2 & N3).
    assert (S0 : (0 <= scaled (V x))%Z) by (rewrite <- scaled_0; now apply scaled_le). replace (scaled (V x) <? 0)%Z with false by lia. cbn [obind]. rewrite quadrant_bool by lia.
    eexists. split; [reflexivity|]. destruct (up_pos (V x) ltac:(lra)) as (U1 & U2). destruct (Rlt_le_dec (V x) (PI / 2)) as [L1|L1].
    + specialize (S1 L1). split; [intros _; apply U1; lra|intros _; lia].
    + specialize (S1' L1). destruct (Rlt_le_dec (V x) PI) as [L2|L2].
      * specialize (S2 L2). split; [intros; lia|intros H; exfalso; revert H; apply U2; lra].
      * specialize (S2' L2). destruct (Rlt_le_dec (V x) (3 * PI / 2)) as [L3|L3].
        -- specialize (S3 L3). split; [intros _; apply U1; lra|intros _; lia].
        -- specialize (S3' L3). split; [intros; lia|intros H; exfalso; revert H; apply U2; lra].
  - assert (Ev : V x = - V (Bopp x)) by (rewrite B2R_Bopp; lra). assert (Rv := rep_V (Bopp x)). set (v := V (Bopp x)) in *. rewrite Ev in *. rewrite Rabs_Ropp, Rabs_pos_eq in B by lra.
    rewrite scaled_opp. destruct (steps _ Rv B) as ((S1 & S1') & (S2 & S2') & (S3 & S3') & S4 & S5). destruct (no_axis _ Rv B) as (N1 & N2 & N3).
    assert (S0 : (1 <= scaled v)%Z).
    { unfold scaled. rewrite <- (Ztrunc_IZR 1). apply Ztrunc_le. apply rd_ge_rep; [apply (rep_IZR 1); lia|]. lra. }
    replace (- scaled v <? 0)%Z with true by lia. rewrite wrap by lia. cbn [obind]. rewrite quadrant_bool by lia. eexists. split; [reflexivity|]. destruct (up_pos v ltac:(lra)) as (U1 & U2).
    destruct (Rlt_le_dec v (PI / 2)) as [L1|L1].
    + specialize (S1 L1). split; [intros; lia|intros H; exfalso; revert H; apply up_opp', up_strict; lra].
    + specialize (S1' L1). destruct (Rlt_le_dec v PI) as [L2|L2].
      * specialize (S2 L2). split; [intros _; apply up_opp, U2; lra|intros _; lia].
      * specialize (S2' L2). destruct (Rlt_le_dec v (3 * PI / 2)) as [L3|L3].
        -- specialize (S3 L3). split; [intros; lia|intros H; exfalso; revert H; apply up_opp', up_strict; lra].
        -- specialize (S3' L3). split; [intros _; apply up_opp, U2; lra|intros _; lia].
Qed.
(** The small negative angles are put into the first quadrant *)
Theorem quadrant_tiny x : fin x = true -> - (29 / 10000000000) <= V x < 0 -> calc_quadrantF x = Some true.
Proof.
  intros F B. assert (B' : Rabs (V x) <= 629 / 100) by (apply Rabs_le; lra). destruct (prod_ok x F B') as (F1 & E1 & B1). destruct (to_int_small _ F1 B1) as (E2 & B2).
  unfold calc_quadrantF. rewrite E2, E1. cbn [obind].
  assert (Z0 : Ztrunc (rd (V x * 340870432)) = 0%Z).
  { assert (G : - (16777215 * bpow radix2 (-24)) <= rd (V x * 340870432) <= 0).
    { split; [|apply rd_le_rep; [apply (rep_IZR 0); lia|lra]]. rewrite <- Ropp_mult_distr_l_reverse, <- opp_IZR. apply rd_ge_rep; [apply rep_dyadic; lia|]. cbn. lra. }
    cbn in G. rewrite Ztrunc_ceil by lra. apply Zceil_imp. cbn. lra. }
  rewrite Z0. reflexivity || (cbn [Z.ltb Z.compare obind]; rewrite quadrant_bool by lia; reflexivity).
Qed.
