(** Bridge from the bit-level operations of Model_Float to real numbers, through Flocq's
    correctness theorems. *)
From Verif Require Import Base Model_Float Proofs_Float.
From Coq Require Import Reals Lra.
From Flocq Require Import Core BinarySingleNaN.
Local Open Scope R_scope.

Local Instance prec32 : FLX.Prec_gt_0 24 := eq_refl.
Local Instance emax32 : Prec_lt_emax 24 128 := eq_refl.

Local Instance fexp32 : Valid_exp (SpecFloat.fexp 24 128) := fexp_correct 24 128 prec32.

Notation b32 := (binary_float 24 128).
Definition rnd (x : R) : R := round radix2 (SpecFloat.fexp 24 128) ZnearestE x.

(** The real number a float stands for (0 for infinities and NaN). *)
Definition fR (x : f32) : R := SF2R radix2 x.

Lemma fR_B (x : f32) (H : fvalid x = true) : B2R (SF2B x H : b32) = fR x.
Proof. apply B2R_SF2B. Qed.

Lemma round_nearest_even_equiv s m l :
  round_nearest_even m l = choice_mode mode_NE s m l.
Proof.
  case l; [reflexivity|intro c].
  case c; [ | reflexivity..].
  now simpl; unfold Round.cond_incr; case Z.even.
Qed.

Lemma binary_round_aux_equiv sx mx ex lx :
  SpecFloat.binary_round_aux 24 128 sx mx ex lx = binary_round_aux 24 128 mode_NE sx mx ex lx.
Proof.
  unfold SpecFloat.binary_round_aux, binary_round_aux.
  set (mrse' := shr_fexp _ _ _ _ _).
  case mrse'; intros mrs' e'; simpl.
  now rewrite (round_nearest_even_equiv sx).
Qed.

Lemma binary_round_equiv s m e :
  SpecFloat.binary_round 24 128 s m e = binary_round 24 128 mode_NE s m e.
Proof.
  unfold SpecFloat.binary_round, binary_round, shl_align_fexp.
  set (mez := shl_align _ _ _); case mez as [mz ez].
  apply binary_round_aux_equiv.
Qed.

Lemma binary_normalize_equiv m e szero :
  SpecFloat.binary_normalize 24 128 m e szero
  = B2SF (binary_normalize 24 128 prec32 emax32 mode_NE m e szero).
Proof.
  case m as [ | p | p].
  - now simpl.
  - simpl; rewrite B2SF_SF2B; apply binary_round_equiv.
  - simpl; rewrite B2SF_SF2B; apply binary_round_equiv.
Qed.

Lemma fadd_B (x y : b32) : fadd (B2SF x) (B2SF y) = B2SF (Bplus mode_NE x y).
Proof.
  unfold fadd.
  case x as [sx|sx| |sx mx ex Bx]; case y as [sy|sy| |sy my ey By];
    [now (trivial || simpl; case Bool.eqb).. | ].
  apply binary_normalize_equiv.
Qed.

Lemma fsub_B (x y : b32) : fsub (B2SF x) (B2SF y) = B2SF (Bminus mode_NE x y).
Proof.
  unfold fsub.
  case x as [sx|sx| |sx mx ex Bx]; case y as [sy|sy| |sy my ey By];
    [now (trivial || simpl; case Bool.eqb).. | ].
  simpl. unfold Zminus. rewrite <- cond_Zopp_negb. apply binary_normalize_equiv.
Qed.

Lemma fdiv_B (x y : b32) : fdiv (B2SF x) (B2SF y) = B2SF (Bdiv mode_NE x y).
Proof.
  unfold fdiv.
  case x as [sx|sx| |sx mx ex Bx]; case y as [sy|sy| |sy my ey By];
    [now (trivial || simpl; case Bool.eqb).. | ].
  simpl. rewrite B2SF_SF2B.
  set (melz := SFdiv_core_binary _ _ _ _ _ _).
  case melz as [[mz ez] lz].
  apply binary_round_aux_equiv.
Qed.

Lemma to_B (x : f32) : fvalid x = true -> exists b : b32, x = B2SF b.
Proof. intros H. exists (SF2B x H). now rewrite B2SF_SF2B. Qed.

Lemma fR_B2SF (b : b32) : fR (B2SF b) = B2R b.
Proof. destruct b; reflexivity. Qed.
Lemma fin_B2SF (b : b32) : is_fin (B2SF b) = is_finite b.
Proof. destruct b; reflexivity. Qed.
Lemma valid_B2SF (b : b32) : fvalid (B2SF b) = true.
Proof. apply valid_binary_B2SF. Qed.

Lemma fvalid_sub x y : fvalid x = true -> fvalid y = true -> fvalid (fsub x y) = true.
Proof.
  intros Hx Hy. destruct (to_B x Hx) as [a ->], (to_B y Hy) as [b ->].
  rewrite fsub_B. apply valid_B2SF.
Qed.
Lemma fvalid_add x y : fvalid x = true -> fvalid y = true -> fvalid (fadd x y) = true.
Proof.
  intros Hx Hy. destruct (to_B x Hx) as [a ->], (to_B y Hy) as [b ->].
  rewrite fadd_B. apply valid_B2SF.
Qed.
Lemma fvalid_div x y : fvalid x = true -> fvalid y = true -> fvalid (fdiv x y) = true.
Proof.
  intros Hx Hy. destruct (to_B x Hx) as [a ->], (to_B y Hy) as [b ->].
  rewrite fdiv_B. apply valid_B2SF.
Qed.

Lemma flt_R x y : fvalid x = true -> fvalid y = true -> is_fin x = true -> is_fin y = true ->
  (flt x y = true <-> fR x < fR y).
Proof.
  intros Hx Hy Fx Fy. destruct (to_B x Hx) as [a ->], (to_B y Hy) as [b ->].
  rewrite fin_B2SF in Fx, Fy. rewrite !fR_B2SF.
  change (flt (B2SF a) (B2SF b)) with (Bltb a b).
  rewrite (Bltb_correct 24 128 a b Fx Fy).
  destruct (Rlt_bool_spec (B2R a) (B2R b)); split; intros; auto; try discriminate; lra.
Qed.

Lemma fle_R x y : fvalid x = true -> fvalid y = true -> is_fin x = true -> is_fin y = true ->
  (fle x y = true <-> fR x <= fR y).
Proof.
  intros Hx Hy Fx Fy. destruct (to_B x Hx) as [a ->], (to_B y Hy) as [b ->].
  rewrite fin_B2SF in Fx, Fy. rewrite !fR_B2SF.
  change (fle (B2SF a) (B2SF b)) with (Bleb a b).
  rewrite (Bleb_correct 24 128 a b Fx Fy).
  destruct (Rle_bool_spec (B2R a) (B2R b)); split; intros; auto; try discriminate; lra.
Qed.

Lemma rnd_mono x y : x <= y -> rnd x <= rnd y.
Proof. apply round_le; auto with typeclass_instances. Qed.
Lemma rnd_0 : rnd 0 = 0.
Proof. apply round_0; auto with typeclass_instances. Qed.
Lemma rnd_opp x : rnd (- x) = - rnd x.
Proof. apply Round_NE.round_NE_opp. Qed.
Lemma rnd_fR x : fvalid x = true -> rnd (fR x) = fR x.
Proof.
  intros Hx. destruct (to_B x Hx) as [a ->]. rewrite fR_B2SF.
  apply round_generic; auto with typeclass_instances.
  apply generic_format_B2R.
Qed.
Lemma fR_bound x : fvalid x = true -> Rabs (fR x) < bpow radix2 128.
Proof.
  intros Hx. destruct (to_B x Hx) as [a ->]. rewrite fR_B2SF. apply abs_B2R_lt_emax.
Qed.

Definition big : R := bpow radix2 128.

(** Subtraction: rounded, or overflow to the infinity with the sign of the left operand. *)
Lemma fsub_R x y : fvalid x = true -> fvalid y = true -> is_fin x = true -> is_fin y = true ->
  (Rabs (rnd (fR x - fR y)) < big /\ is_fin (fsub x y) = true /\ fR (fsub x y) = rnd (fR x - fR y)) \/
  (big <= Rabs (rnd (fR x - fR y)) /\
   exists s, fsub x y = S754_infinity s /\
     (if s then fR x <= 0 <= fR y else fR y <= 0 <= fR x)).
Proof.
  intros Hx Hy Fx Fy. destruct (to_B x Hx) as [a ->], (to_B y Hy) as [b ->].
  rewrite fin_B2SF in Fx, Fy. rewrite fsub_B, !fR_B2SF, fin_B2SF.
  pose proof (Bminus_correct 24 128 _ _ mode_NE a b Fx Fy) as H.
  change (round radix2 (SpecFloat.fexp 24 128) (round_mode mode_NE)) with rnd in H.
  destruct (Rlt_bool_spec (Rabs (rnd (B2R a - B2R b))) (bpow radix2 128)) as [Hl|Hl].
  - left. destruct H as (H1 & H2 & _). auto.
  - right. split; auto. destruct H as (H1 & H2). exists (Bsign a). split; [exact H1|].
    assert (Sg : forall c : b32, is_finite c = true -> if Bsign c then B2R c <= 0 else 0 <= B2R c).
    { clear. intros c Hc. destruct c as [s|s| |s m e Hm]; try discriminate; cbn.
      - destruct s; lra.
      - destruct s; cbn; [apply F2R_le_0|apply F2R_ge_0]; cbn; lia. }
    pose proof (Sg a Fx). pose proof (Sg b Fy). rewrite H2 in *.
    destruct (Bsign b); cbn in *; auto.
Qed.

Lemma fadd_R x y : fvalid x = true -> fvalid y = true -> is_fin x = true -> is_fin y = true ->
  (Rabs (rnd (fR x + fR y)) < big -> is_fin (fadd x y) = true /\ fR (fadd x y) = rnd (fR x + fR y)) /\
  (big <= Rabs (rnd (fR x + fR y)) -> exists s, fadd x y = S754_infinity s).
Proof.
  intros Hx Hy Fx Fy. destruct (to_B x Hx) as [a ->], (to_B y Hy) as [b ->].
  rewrite fin_B2SF in Fx, Fy. rewrite fadd_B, !fR_B2SF, fin_B2SF.
  pose proof (Bplus_correct 24 128 _ _ mode_NE a b Fx Fy) as H.
  change (round radix2 (SpecFloat.fexp 24 128) (round_mode mode_NE)) with rnd in H.
  destruct (Rlt_bool_spec (Rabs (rnd (B2R a + B2R b))) (bpow radix2 128)) as [Hl|Hl]; unfold big.
  - split; intros; [|lra]. destruct H as (H1 & H2 & _). auto.
  - split; intros; [lra|]. destruct H as (H1 & _). eexists. exact H1.
Qed.

Lemma fdiv_R x y : fvalid x = true -> fvalid y = true -> is_fin x = true -> fR y <> 0 ->
  (Rabs (rnd (fR x / fR y)) < big -> is_fin (fdiv x y) = true /\ fR (fdiv x y) = rnd (fR x / fR y)) /\
  (big <= Rabs (rnd (fR x / fR y)) -> exists s, fdiv x y = S754_infinity s).
Proof.
  intros Hx Hy Fx Fy. destruct (to_B x Hx) as [a ->], (to_B y Hy) as [b ->].
  rewrite fin_B2SF in Fx. rewrite fR_B2SF in Fy. rewrite fdiv_B, !fR_B2SF, fin_B2SF.
  pose proof (Bdiv_correct 24 128 _ _ mode_NE a b Fy) as H.
  change (round radix2 (SpecFloat.fexp 24 128) (round_mode mode_NE)) with rnd in H.
  destruct (Rlt_bool_spec (Rabs (rnd (B2R a / B2R b))) (bpow radix2 128)) as [Hl|Hl]; unfold big.
  - split; intros; [|lra]. destruct H as (H1 & H2 & _). rewrite H2. auto.
  - split; intros; [lra|]. eexists. exact H.
Qed.

Lemma fsub_nan_cases x y : Model_Float.is_nan x = false -> Model_Float.is_nan y = false -> fvalid x = true -> fvalid y = true ->
  is_fin x = true \/ is_fin y = true -> Model_Float.is_nan (fsub x y) = false.
Proof.
  intros Nx Ny Hx Hy HF.
  destruct (is_fin x) eqn:Fx, (is_fin y) eqn:Fy.
  - destruct (fsub_R x y Hx Hy Fx Fy) as [(_ & H & _)|(_ & s & H & _)].
    + destruct (fsub x y); auto; discriminate.
    + now rewrite H.
  - destruct x, y; try discriminate; reflexivity.
  - destruct x, y; try discriminate; reflexivity.
  - destruct HF; discriminate.
Qed.
