(** Real values of the binary32 operations of Model_RayF whenever their results are finite. *)
From Verif Require Import Base CLoop Model_RayF.
From Coq Require Import Reals Lra.
From Flocq Require Import Core BinarySingleNaN.
Local Open Scope R_scope.

#[global] Existing Instance p32.
#[global] Existing Instance e32.
#[global] Instance fexp_valid : Valid_exp (SpecFloat.fexp 24 128) := fexp_correct 24 128 p32.
Definition rd (x : R) : R := round radix2 (SpecFloat.fexp 24 128) ZnearestE x.
Notation V := (B2R (prec := 24) (emax := 128)).
Definition rep (x : R) : Prop := generic_format radix2 (SpecFloat.fexp 24 128) x.

Lemma fexp_is e : SpecFloat.fexp 24 128 e = FLT_exp (-149) 24 e. Proof. reflexivity. Qed.
Lemma rd_le x y : x <= y -> rd x <= rd y. Proof. intros H. apply round_le; auto with typeclass_instances. Qed.
Lemma rd_rep x : rep x -> rd x = x. Proof. intros H. apply round_generic; auto with typeclass_instances. Qed.
Lemma rd_opp x : rd (- x) = - rd x. Proof. apply round_NE_opp. Qed.
Lemma rd_0 : rd 0 = 0. Proof. apply round_0; auto with typeclass_instances. Qed.
Lemma rep_V (x : b32) : rep (V x). Proof. apply generic_format_B2R. Qed.
Lemma rep_rd x : rep (rd x). Proof. apply generic_format_round; auto with typeclass_instances. Qed.
Lemma rep_opp x : rep x -> rep (- x). Proof. apply generic_format_opp. Qed.
Lemma rd_le_rep x y : rep y -> x <= y -> rd x <= y. Proof. intros H L. rewrite <- (rd_rep y H). now apply rd_le. Qed.
Lemma rd_ge_rep x y : rep y -> y <= x -> y <= rd x. Proof. intros H L. rewrite <- (rd_rep y H). now apply rd_le. Qed.
Lemma rd_abs_le x y : rep y -> Rabs x <= y -> Rabs (rd x) <= y.
Proof.
  intros H L. apply Rabs_le. assert (- y <= x <= y) as [A B] by (revert L; unfold Rabs; destruct (Rcase_abs x); lra).
  split; [|now apply rd_le_rep]. apply rd_ge_rep; auto. now apply rep_opp.
Qed.
(** Integers of 24 bits over powers of two *)
Lemma rep_dyadic m e : (Z.abs m <= 2 ^ 24)%Z -> (-149 <= e <= 103)%Z -> rep (IZR m * bpow radix2 e).
Proof.
  intros H He. destruct (Z.eq_dec (Z.abs m) (2 ^ 24)) as [E|N].
  - assert (rep (bpow radix2 (24 + e))) as Rp. { apply generic_format_bpow. rewrite fexp_is. unfold FLT_exp. lia. }
    assert (bpow radix2 (24 + e) = 16777216 * bpow radix2 e) as Ex by (rewrite bpow_plus; reflexivity).
    assert (m = 16777216 \/ m = -16777216)%Z as [->| ->] by (change (2 ^ 24)%Z with 16777216%Z in E; lia).
    + rewrite <- Ex. exact Rp.
    + replace (IZR (-16777216) * bpow radix2 e) with (- bpow radix2 (24 + e)) by (rewrite Ex; lra). now apply rep_opp.
  - apply generic_format_FLT. exists (Float radix2 m e); [reflexivity| |cbn; lia]. cbn. change (Z.pow_pos 2 24) with (2 ^ 24)%Z. lia.
Qed.
Lemma rep_IZR z : (Z.abs z <= 2 ^ 24)%Z -> rep (IZR z).
Proof. intros H. replace (IZR z) with (IZR z * bpow radix2 0) by (cbn; lra). apply rep_dyadic; lia. Qed.
(** Errors: half a unit in the last place *)
Lemma rd_err k x : (-124 <= k)%Z -> Rabs x <= bpow radix2 k -> Rabs (rd x - x) <= bpow radix2 (k - 25).
Proof.
  intros Hk L. destruct (Req_dec (Rabs x) (bpow radix2 k)) as [E|N].
  - assert (rep x) as Rp.
    { assert (rep (bpow radix2 k)) by (apply generic_format_bpow; rewrite fexp_is; unfold FLT_exp; lia).
      revert E. unfold Rabs. destruct (Rcase_abs x); intros E; [replace x with (- bpow radix2 k) by lra; now apply rep_opp|now rewrite E]. }
    rewrite rd_rep by auto. replace (x - x) with 0 by ring. rewrite Rabs_R0. apply bpow_ge_0.
  - eapply Rle_trans; [apply error_le_half_ulp; auto with typeclass_instances|].
    assert (ulp radix2 (SpecFloat.fexp 24 128) x <= bpow radix2 (k - 24)) as U.
    { destruct (Req_dec x 0) as [->|Nx].
      - change (SpecFloat.fexp 24 128) with (FLT_exp (-149) 24); rewrite ulp_FLT_0; auto with typeclass_instances. apply bpow_le. lia.
      - rewrite ulp_neq_0 by auto. apply bpow_le. unfold cexp. rewrite fexp_is. unfold FLT_exp.
        assert (mag radix2 x <= k)%Z by (apply mag_le_bpow; auto; lra). lia. }
    replace (k - 25)%Z with (-1 + (k - 24))%Z by lia. rewrite bpow_plus. change (bpow radix2 (-1)) with (/ 2). lra.
Qed.
Lemma rd_rel x : Rabs (rd x - x) <= / 16777216 * Rabs x + bpow radix2 (-150).
Proof.
  eapply Rle_trans; [apply error_le_half_ulp; auto with typeclass_instances|].
  destruct (Req_dec x 0) as [->|Nx].
  - change (SpecFloat.fexp 24 128) with (FLT_exp (-149) 24); rewrite ulp_FLT_0; auto with typeclass_instances. rewrite Rabs_R0, Rmult_0_r, Rplus_0_l.
    replace (-150)%Z with (-1 + -149)%Z by lia. rewrite bpow_plus. change (bpow radix2 (-1)) with (/ 2). cbn. lra.
  - rewrite ulp_neq_0 by auto. unfold cexp. rewrite fexp_is. unfold FLT_exp.
    assert (bpow radix2 (mag radix2 x - 1) <= Rabs x) as M by (apply bpow_mag_le; auto).
    destruct (Z.max_spec (mag radix2 x - 24) (-149)) as [(_ & ->)|(_ & ->)].
    + replace (-150)%Z with (-1 + -149)%Z by lia. rewrite bpow_plus. change (bpow radix2 (-1)) with (/ 2). pose proof (Rabs_pos x). 
      assert (0 <= / 16777216 * Rabs x) by (apply Rmult_le_pos; lra). lra.
    + replace (mag radix2 x - 24)%Z with (-23 + (mag radix2 x - 1))%Z by lia. rewrite bpow_plus. change (bpow radix2 (-23)) with (/ 8388608).
      pose proof (bpow_ge_0 radix2 (-150)). lra.
Qed.

(** Operations with a finite result *)
Lemma overflow_not (x : b32) s : B2SF x = binary_overflow 24 128 mode_NE s -> fin x = false.
Proof. destruct x; cbn; intros H; try discriminate H; auto. Qed.
Lemma fadd_fin x y : fin (fadd x y) = true -> fin x = true /\ fin y = true /\ V (fadd x y) = rd (V x + V y).
Proof.
  intros F. assert (fin x = true /\ fin y = true) as (Fx & Fy).
  { destruct x as [?|?| |? ? ? ?], y as [?|?| |? ? ? ?]; cbn in F |- *; auto; try discriminate F. destruct (Bool.eqb _ _) in F; discriminate F. }
  repeat split; auto. pose proof (Bplus_correct 24 128 p32 e32 mode_NE x y Fx Fy) as C. fold (fadd x y) in C.
  destruct (Rlt_bool _ _); [apply C|]. destruct C as (C & _). apply overflow_not in C. congruence.
Qed.
Lemma fsub_fin x y : fin (fsub x y) = true -> fin x = true /\ fin y = true /\ V (fsub x y) = rd (V x - V y).
Proof.
  intros F. assert (fin x = true /\ fin y = true) as (Fx & Fy).
  { destruct x as [?|?| |? ? ? ?], y as [?|?| |? ? ? ?]; cbn in F |- *; auto; try discriminate F. destruct (Bool.eqb _ _) in F; discriminate F. }
  repeat split; auto. pose proof (Bminus_correct 24 128 p32 e32 mode_NE x y Fx Fy) as C. fold (fsub x y) in C.
  destruct (Rlt_bool _ _); [apply C|]. destruct C as (C & _). apply overflow_not in C. congruence.
Qed.
Lemma fmul_fin x y : fin (fmul x y) = true -> fin x = true /\ fin y = true /\ V (fmul x y) = rd (V x * V y).
Proof.
  intros F. assert (fin x = true /\ fin y = true) as (Fx & Fy).
  { destruct x as [?|?| |? ? ? ?], y as [?|?| |? ? ? ?]; cbn in F |- *; auto; try discriminate F. }
  repeat split; auto. pose proof (Bmult_correct 24 128 p32 e32 mode_NE x y) as C. fold (fmul x y) in C.
  destruct (Rlt_bool _ _); [apply C|]. apply overflow_not in C. congruence.
Qed.
Lemma fdiv_fin x y : fin (fdiv x y) = true -> fin x = true /\ (fin y = true -> V y <> 0 /\ V (fdiv x y) = rd (V x / V y)).
Proof.
  intros F. assert (fin x = true) as Fx.
  { destruct x as [?|?| |? ? ? ?], y as [?|?| |? ? ? ?]; cbn in F |- *; auto; try discriminate F. }
  split; auto. intros Fy. assert (V y <> 0) as N.
  { destruct y as [?|?| |sy my ey By]; cbn in Fy; try discriminate Fy.
    - exfalso. destruct x as [?|?| |? ? ? ?]; cbn in F; discriminate F.
    - cbn. intros H. apply eq_0_F2R in H. destruct sy; discriminate H. }
  split; auto. pose proof (Bdiv_correct 24 128 p32 e32 mode_NE x y N) as C. fold (fdiv x y) in C.
  destruct (Rlt_bool _ _); [apply C|]. apply overflow_not in C. congruence.
Qed.
(** Operations whose exact result is not too large *)
Definition huge : R := bpow radix2 128.
Lemma small_bool x k : rep k -> Rabs x <= k -> k < huge -> Rlt_bool (Rabs (rd x)) (bpow radix2 128) = true.
Proof. intros Rk H L. apply Rlt_bool_true. eapply Rle_lt_trans; [now apply rd_abs_le with (y := k)|exact L]. Qed.
Lemma fadd_ok x y k : fin x = true -> fin y = true -> rep k -> Rabs (V x + V y) <= k -> k < huge -> fin (fadd x y) = true /\ V (fadd x y) = rd (V x + V y).
Proof.
  intros Fx Fy Rk H L. pose proof (Bplus_correct 24 128 p32 e32 mode_NE x y Fx Fy) as C. fold (fadd x y) in C. fold (rd (V x + V y)) in C.
  change (round radix2 (SpecFloat.fexp 24 128) (round_mode mode_NE) (V x + V y)) with (rd (V x + V y)) in C.
  rewrite (small_bool _ k Rk H L) in C. split; apply C.
Qed.
Lemma fsub_ok x y k : fin x = true -> fin y = true -> rep k -> Rabs (V x - V y) <= k -> k < huge -> fin (fsub x y) = true /\ V (fsub x y) = rd (V x - V y).
Proof.
  intros Fx Fy Rk H L. pose proof (Bminus_correct 24 128 p32 e32 mode_NE x y Fx Fy) as C. fold (fsub x y) in C.
  change (round radix2 (SpecFloat.fexp 24 128) (round_mode mode_NE) (V x - V y)) with (rd (V x - V y)) in C.
  rewrite (small_bool _ k Rk H L) in C. split; apply C.
Qed.
Lemma fmul_ok x y k : fin x = true -> fin y = true -> rep k -> Rabs (V x * V y) <= k -> k < huge -> fin (fmul x y) = true /\ V (fmul x y) = rd (V x * V y).
Proof.
  intros Fx Fy Rk H L. pose proof (Bmult_correct 24 128 p32 e32 mode_NE x y) as C. fold (fmul x y) in C.
  change (round radix2 (SpecFloat.fexp 24 128) (round_mode mode_NE) (V x * V y)) with (rd (V x * V y)) in C.
  rewrite (small_bool _ k Rk H L) in C. destruct C as (C1 & C2 & _). split; auto. unfold fin in *. now rewrite C2, Fx, Fy.
Qed.
Lemma norm_ok m e : (Z.abs m <= 2 ^ 24)%Z -> (-149 <= e <= 103)%Z -> fin (binary_normalize 24 128 p32 e32 mode_NE m e false) = true /\
  V (binary_normalize 24 128 p32 e32 mode_NE m e false) = IZR m * bpow radix2 e.
Proof.
  intros Hm He. pose proof (binary_normalize_correct 24 128 p32 e32 mode_NE m e false) as C. cbv zeta in C.
  change (F2R (Float radix2 m e)) with (IZR m * bpow radix2 e) in C.
  change (round radix2 (SpecFloat.fexp 24 128) (round_mode mode_NE) (IZR m * bpow radix2 e)) with (rd (IZR m * bpow radix2 e)) in C.
  pose proof (rep_dyadic m e Hm He) as Rp. rewrite (rd_rep _ Rp) in C. rewrite Rlt_bool_true in C; [split; apply C|].
  rewrite Rabs_mult, (Rabs_right (bpow _ _)) by (apply Rle_ge, bpow_ge_0). rewrite <- abs_IZR.
  assert (IZR (Z.abs m) <= bpow radix2 24) by (change (bpow radix2 24) with (IZR (2 ^ 24)); apply IZR_le; lia).
  apply Rle_lt_trans with (bpow radix2 24 * bpow radix2 e); [apply Rmult_le_compat_r; [apply bpow_ge_0|auto]|]. rewrite <- bpow_plus. apply bpow_lt. lia.
Qed.
Lemma of_int_ok z : (Z.abs z <= 2 ^ 24)%Z -> fin (of_int z) = true /\ V (of_int z) = IZR z.
Proof. intros H. destruct (norm_ok z 0 H ltac:(lia)) as (A & B). split; auto. unfold of_int. rewrite B. cbn. lra. Qed.
Lemma half_ok : fin half = true /\ V half = / 2.
Proof. destruct (norm_ok 1 (-1) ltac:(lia) ltac:(lia)) as (A & B). split; [exact A|]. unfold half. rewrite B. cbn. lra. Qed.
Lemma c001_ok : fin c001 = true /\ V c001 = 10737418 / 1073741824.
Proof. destruct (norm_ok 10737418 (-30) ltac:(lia) ltac:(lia)) as (A & B). split; [exact A|]. unfold c001. rewrite B. cbn. lra. Qed.
(** Comparisons with finite numbers *)
Lemma fle_fin x y : fin y = true -> fle y x = true -> forall z, fin z = true -> fle x z = true -> fin x = true /\ V y <= V x <= V z.
Proof.
  intros Fy L z Fz L'. assert (fin x = true) as Fx.
  { destruct x as [?|[|]| |? ? ? ?]; auto; destruct y as [?|?| |? ? ? ?]; try discriminate Fy; destruct z as [?|?| |? ? ? ?]; try discriminate Fz; cbn in L, L';
      try discriminate L; try discriminate L'. }
  split; auto. unfold fle in *. rewrite Bleb_correct in L, L' by auto. split.
  - destruct (Rle_bool_spec (V y) (V x)); [auto|discriminate].
  - destruct (Rle_bool_spec (V x) (V z)); [auto|discriminate].
Qed.
Lemma flt_fin x y : fin x = true -> fin y = true -> (flt x y = true <-> V x < V y).
Proof. intros Fx Fy. unfold flt. rewrite Bltb_correct by auto. destruct (Rlt_bool_spec (V x) (V y)); split; auto; try lra; discriminate. Qed.
(** (int) x for a number between 0 and 2^24 *)
Lemma to_int_ok x : fin x = true -> 0 <= V x < 16777216 -> exists k, to_int x = Some k /\ IZR k <= V x < IZR k + 1 /\ (0 <= k < 2 ^ 24)%Z.
Proof.
  intros F B. pose proof (Btrunc_correct 24 128 e32 x) as T. 
  assert (round radix2 (FIX_exp 0) Ztrunc (V x) = IZR (Zfloor (V x))) as E.
  { unfold round, scaled_mantissa, cexp, FIX_exp, F2R. cbn. rewrite !Rmult_1_r. f_equal. apply Ztrunc_floor. lra. }
  rewrite E in T. apply eq_IZR in T. pose proof (Zfloor_lb (V x)) as L. pose proof (Zfloor_ub (V x)) as U.
  assert (0 <= Zfloor (V x))%Z by (apply Zfloor_lub; cbn; lra).
  assert (Zfloor (V x) < 2 ^ 24)%Z by (apply lt_IZR; change (2 ^ 24)%Z with 16777216%Z; lra).
  exists (Zfloor (V x)). split; [|split; [split; auto|lia]]. unfold to_int. rewrite T, F. cbn [andb].
  replace ((- 2 ^ 31 <=? Zfloor (V x))%Z) with true by (symmetry; apply Z.leb_le; lia). replace ((Zfloor (V x) <? 2 ^ 31)%Z) with true by (symmetry; apply Z.ltb_lt; lia). reflexivity.
Qed.
