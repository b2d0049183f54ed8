(** The wavelet method: the damping of one band, and images without vertical detail. *)
From Coq Require Import Reals Lra.
From Verif Require Import Base Cplx Model_StripeFourier Spec_StripeFourier Proofs_StripeFourier.
Local Open Scope R_scope.

Lemma idft_ext M x y j : (forall k, (0 <= k < M)%Z -> x k = y k) -> idft M x j = idft M y j.
Proof. intros H. unfold idft, dft_backward. f_equal. apply csum_ext. intros k Hk. now rewrite H. Qed.
Lemma dft_ext M x y j : (forall k, (0 <= k < M)%Z -> x k = y k) -> dft M x j = dft M y j.
Proof. intros H. unfold dft. apply csum_ext. intros k Hk. now rewrite H. Qed.

Section Damp.
  Variables (my mx : Z) (sigma : R).
  Hypothesis Hy : (1 <= my)%Z.
  Hypothesis Hx : (1 <= mx)%Z.
  Definition weight (k : Z) : R := damp my sigma ((k + my / 2) mod my).
  Definition cdamp (c : Z -> cplx) (y : Z) : cplx := idft my (fun k => (dft my c k * cr (weight k))%C) y.
  Lemma damp_band_column cV y x : (0 <= x < mx)%Z -> damp_band my mx sigma cV y x = re (cdamp (fun y => cr (cV y x)) y).
  Proof.
    intros Hxx. unfold damp_band. cbv zeta. f_equal. apply idft_ext. intros k Hk. unfold ifftshift, fftshift, weight.
    rewrite !Zminus_mod_idemp_l, !Z.add_simpl_r, !Z.mod_small by lia. reflexivity.
  Qed.
  Lemma cdamp_add a b y : cdamp (fun j => (a j + b j)%C) y = (cdamp a y + cdamp b y)%C.
  Proof.
    unfold cdamp, idft, dft_backward. rewrite (csum_ext my _ (fun k => (dft my a k * cr (weight k) * turn my (k * y) + dft my b k * cr (weight k) * turn my (k * y))%C)).
    - rewrite csum_add. ring.
    - intros k _. unfold dft. rewrite (csum_ext my _ (fun j => (a j * turn my (- (j * k)) + b j * turn my (- (j * k)))%C)) by (intros; ring). rewrite csum_add. ring.
  Qed.
  Lemma cdamp_mul z a y : cdamp (fun j => (z * a j)%C) y = (z * cdamp a y)%C.
  Proof.
    unfold cdamp, idft, dft_backward. rewrite (csum_ext my _ (fun k => (z * (dft my a k * cr (weight k) * turn my (k * y)))%C)).
    - rewrite csum_mul. ring.
    - intros k _. unfold dft. rewrite (csum_ext my _ (fun j => (z * (a j * turn my (- (j * k))))%C)) by (intros; ring). rewrite csum_mul. ring.
  Qed.
  Lemma cdamp_ext a b y : (forall j, (0 <= j < my)%Z -> a j = b j) -> cdamp a y = cdamp b y.
  Proof. intros H. unfold cdamp. apply idft_ext. intros k _. f_equal. now apply dft_ext. Qed.
  Lemma cdamp_turn f y : cdamp (fun j => turn my (f * j)) y = (cr (weight (f mod my)) * turn my (f * y))%C.
  Proof.
    unfold cdamp, idft, dft_backward. assert (HR : IZR my <> 0) by (apply not_0_IZR; lia). pose proof (Z.mod_pos_bound f my ltac:(lia)) as B.
    rewrite (csum_ext my _ (fun k => if (k =? f mod my)%Z then (cr (IZR my) * cr (weight (f mod my)) * turn my (f * y))%C else cr 0)).
    2:{ intros k Hk. unfold dft. rewrite (csum_ext my _ (fun j => turn my (j * (f - k)))) by (intros j _; rewrite <- turn_add; f_equal; lia).
        rewrite csum_turns by auto. destruct (Z.eqb_spec k (f mod my)) as [->|N].
        - rewrite Zminus_mod_idemp_r, Z.sub_diag, Z.mod_0_l by lia. cbn [Z.eqb]. f_equal.
          rewrite (turn_mod my (f mod my * y)), (turn_mod my (f * y)) by auto. f_equal. now rewrite Z.mul_mod_idemp_l by lia.
        - destruct (Z.eqb_spec ((f - k) mod my) 0) as [E|_]; [|ring]. exfalso. apply N. apply Z.mod_divide in E; [|lia]. destruct E as (q & Hq). apply (Z.mod_unique_pos _ _ q); lia. }
    rewrite (csum_one my (f mod my) (fun _ => _)) by auto.
    transitivity (cr (/ IZR my) * cr (IZR my) * (cr (weight (f mod my)) * turn my (f * y)))%C; [ring|]. rewrite <- cr_mul, Rinv_l by auto. ring.
  Qed.
  Lemma damp_band_wave cV f phase y x : (0 <= x < mx)%Z -> (forall y, (0 <= y < my)%Z -> cV y x = wave my f phase y) ->
    damp_band my mx sigma cV y x = (weight (f mod my) + weight ((- f) mod my)) / 2 * wave my f phase y.
  Proof.
    intros Hxx E. rewrite damp_band_column by auto. rewrite (cdamp_ext _ (fun l => (cr (/ 2) * expi phase * turn my (f * l) + cr (/ 2) * expi (- phase) * turn my (- f * l))%C)).
    2:{ intros j Hj. rewrite E by auto. apply wave_turns. }
    rewrite cdamp_add, !cdamp_mul, !cdamp_turn.
    unfold wave. replace (- f * y)%Z with (- (f * y))%Z by lia. rewrite <- conj_turn. unfold turn. set (t := 2 * PI * IZR (f * y) / IZR my).
    unfold expi. rewrite cos_plus, cos_neg, sin_neg. unfold cadd, cmul, cr, conj, re, im. cbn [fst snd]. field.
  Qed.
  Lemma damp_bell k : damp my sigma k = 1 - bell sigma (IZR (2 * k + 1 - my) / 2).
  Proof. unfold damp, bell. cbv zeta. replace (- my + 2 * k + 1)%Z with (2 * k + 1 - my)%Z by lia. reflexivity. Qed.
  Lemma weight_odd h f : (my = 2 * h + 1)%Z -> (- h <= f <= h)%Z -> weight (f mod my) = 1 - bell sigma (IZR f).
  Proof.
    intros E Hf. unfold weight. rewrite Z.add_mod_idemp_l by lia. replace (my / 2)%Z with h by lia. rewrite Z.mod_small, damp_bell by lia.
    do 2 f_equal. replace (2 * (f + h) + 1 - my)%Z with (2 * f)%Z by lia. rewrite mult_IZR. field.
  Qed.
  Lemma weight_even h f : (my = 2 * h)%Z -> (- h <= f < h)%Z -> weight (f mod my) = 1 - bell sigma (IZR f + 1 / 2).
  Proof.
    intros E Hf. unfold weight. rewrite Z.add_mod_idemp_l by lia. replace (my / 2)%Z with h by lia. rewrite Z.mod_small, damp_bell by lia.
    do 2 f_equal. replace (2 * (f + h) + 1 - my)%Z with (2 * f + 1)%Z by lia. rewrite plus_IZR, mult_IZR. field.
  Qed.
  Lemma damp_band_zero cV y x : (0 <= x < mx)%Z -> (forall y, (0 <= y < my)%Z -> cV y x = 0) -> damp_band my mx sigma cV y x = 0.
  Proof.
    intros Hxx E. rewrite damp_band_column by auto. rewrite (cdamp_ext _ (fun _ => (cr 0 * cr 0)%C)) by (intros; rewrite E by auto; cring).
    rewrite (cdamp_mul (cr 0)). generalize (cdamp (fun _ => cr 0) y). intros z. unfold cmul, cr, re, im. cbn [fst snd]. ring.
  Qed.
  Lemma damp_band_const c cV y x : (0 <= x < mx)%Z -> (forall y, (0 <= y < my)%Z -> cV y x = c) -> damp_band my mx sigma cV y x = c * weight 0.
  Proof.
    intros Hxx E. rewrite damp_band_column by auto. rewrite (cdamp_ext _ (fun l => (cr c * turn my (0 * l))%C)).
    2:{ intros j Hj. rewrite E by auto. cbn [Z.mul]. rewrite turn_0. ring. }
    rewrite cdamp_mul, cdamp_turn. cbn [Z.mul]. rewrite turn_0, Z.mod_0_l by lia. unfold cmul, cr, re, im. cbn [fst snd]. ring.
  Qed.
End Damp.

Section Levels.
  Variable dwt2 : band -> band * (band * band * band).
  Variable idwt2 : band * (band * band * band) -> band.
  Notation shows := (shows rows cols at_).
  Notation same := (same rows cols at_).
  Hypothesis pr : perfect rows cols at_ dwt2 idwt2.

  Lemma same_refl c : same c c.
  Proof. repeat split. Qed.
  Lemma fw_levels_shows sigma level : forall c, no_vertical rows cols at_ dwt2 level c -> shows c (fw_levels dwt2 idwt2 level sigma c).
  Proof.
    destruct pr as (Sh & PR & Ex). induction level as [|level IH]; intros c H.
    { repeat split; cbn; lia. }
    cbn [fw_levels no_vertical] in *. pose proof (PR c) as P. destruct (dwt2 c) as [a [[h v] d]] eqn:E. destruct H as [Hv Ha].
    destruct (IH a Ha) as (R1 & R2 & R3). destruct (Sh _ _ _ _ _ E) as (S1 & S2 & S3 & S4).
    set (b := fw_levels dwt2 idwt2 level sigma a) in *.
    destruct (Ex a h v d (crop (rows h) (cols h) b) (damped sigma v) S3 S4) as (T1 & T2 & T3).
    - unfold same, crop. cbn [rows cols at_]. repeat split; [lia|lia|]. intros y x Hw. apply R3; auto.
    - unfold same, damped. cbn [rows cols at_]. repeat split. intros y x [Wy Wx]. rewrite damp_band_zero; auto; try lia.
      + symmetry. now apply Hv.
      + intros y' Hy'. now apply Hv.
    - destruct P as (P1 & P2 & P3). split; [lia|]. split; [lia|]. intros y x Hw. rewrite <- P3 by auto. apply T3. destruct Hw. split; lia.
  Qed.
End Levels.
