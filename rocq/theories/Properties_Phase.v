(** Phase retrieval (prep/phase.py). *)
From Verif Require Import Base Model_Phase.
From Coq Require Import Reals Lra.
Local Open Scope Z_scope.

(** ** C33 *)
(** A frame of dy x dz pixels with its edge pixels replicated. *)
Definition clamp (lo hi x : Z) : Z := Z.max lo (Z.min hi x).
Definition replicate {V} (dy dz px py : Z) (frame : Z -> Z -> V) : Z -> Z -> V :=
  fun r c => frame (clamp 0 (dy - 1) (r - px)) (clamp 0 (dz - 1) (c - py)).
Definition same_on {V} (h w : Z) (f g : Z -> Z -> V) : Prop := forall r c, 0 <= r < h -> 0 <= c < w -> f r c = g r c.

Ltac split_ifs := repeat match goal with |- context [if ?b then _ else _] =>
  lazymatch b with context [if _ then _ else _] => fail | _ => let E := fresh in destruct b eqn:E end end.
Lemma load_replicates {V} dy dz px py (frame prj : Z -> Z -> V) : 0 < dy -> 0 < dz -> 0 < px -> 0 < py ->
  same_on (dy + 2 * px) (dz + 2 * py) (load dy dz px py frame prj) (replicate dy dz px py frame).
Proof.
  intros Hy Hz Hpx Hpy r c Hr Hc. unfold load, right, left, bottom, top, put_frame, replicate, slice_from, at_index, height, width, clamp.
  split_ifs; try (exfalso; lia); f_equal; lia.
Qed.
(** With pad widths of at least one, whatever the buffer held before, each projection is filtered with its
    edges replicated, and the part corresponding to the projection is returned. *)
Theorem C33_padded : forall {V} dy dz px py (F : (Z -> Z -> V) -> Z -> Z -> V) (tomo : list (Z -> Z -> V)) prj,
  0 < dy -> 0 < dz -> 0 < px -> 0 < py ->
  (forall f g, same_on (dy + 2 * px) (dz + 2 * py) f g -> same_on (dy + 2 * px) (dz + 2 * py) (F f) (F g)) ->
  Forall2 (fun frame res => same_on dy dz res (fun r c => F (replicate dy dz px py frame) (r + px) (c + py)))
    tomo (fst (retrieve dy dz px py F true tomo prj)).
Proof.
  intros V dy dz px py F tomo prj Hy Hz Hpx Hpy HF. unfold retrieve.
  assert (G : forall tomo acc prj0 frames, Forall2 (fun frame res => same_on dy dz res (fun r c => F (replicate dy dz px py frame) (r + px) (c + py))) frames acc ->
    Forall2 (fun frame res => same_on dy dz res (fun r c => F (replicate dy dz px py frame) (r + px) (c + py))) (frames ++ tomo)
      (fst (fold_left (fun '(done, prj) frame => let prj := load dy dz px py frame prj in (done ++ [crop px py true (F prj)], prj)) tomo (acc, prj0)))).
  { clear tomo prj. induction tomo as [|f tomo IH]; intros acc prj0 frames H; cbn [fold_left].
    - now rewrite app_nil_r.
    - replace (frames ++ f :: tomo) with ((frames ++ [f]) ++ tomo) by (rewrite <- app_assoc; reflexivity).
      apply IH. apply Forall2_app; auto. constructor; [|constructor]. intros r c Hr Hc. unfold crop. cbv beta iota.
      apply HF; try lia. now apply load_replicates. }
  apply (G tomo [] prj []). constructor.
Qed.
(** Finding: with a pad width of zero (always for pad=False) prj[-0:] is the whole buffer: all rows become the
    last row, all columns the last column, and the filtered image is constant. *)
Theorem C33_no_padding_refuted : forall {V} dy dz (frame prj : Z -> Z -> V), 0 < dy -> 0 < dz ->
  pad_widths false dy dz 0 = (0, 0) /\ same_on dy dz (load dy dz 0 0 frame prj) (fun _ _ => frame (dy - 1) (dz - 1)).
Proof.
  intros V dy dz frame prj Hy Hz. split; [reflexivity|]. intros r c Hr Hc.
  unfold load, right, left, bottom, top, put_frame, slice_from, at_index, height, width.
  split_ifs; try (exfalso; lia); f_equal; lia.
Qed.
(** The padded size is the next power of two, or one less. *)
Theorem C33_pad_width : forall dim pad_pix, 0 < dim -> 0 <= pad_pix ->
  let w := pad_width dim pad_pix in
  0 <= w /\ dim + pad_pix - 1 <= dim + 2 * w /\ exists k, 0 <= k /\ 2 ^ k - 1 <= dim + 2 * w <= 2 ^ k /\ (dim mod 2 = 0 -> k <> 0 -> dim + 2 * w = 2 ^ k) /\ dim + pad_pix <= 2 ^ k < 2 * (dim + pad_pix).
Proof.
  intros dim pp Hd Hp. cbv zeta. unfold pad_width. set (k := Z.log2_up (dim + pp)).
  assert (K0 : 0 <= k) by apply Z.log2_up_nonneg.
  assert (K1 : dim + pp <= 2 ^ k < 2 * (dim + pp)).
  { destruct (Z.eq_dec (dim + pp) 1) as [E|E].
    - unfold k. rewrite E. cbn. lia.
    - destruct (Z.log2_up_spec (dim + pp)) as (A & B); [lia|]. fold k in A, B. split; [exact B|].
      assert (0 < k) by (apply Z.log2_up_pos; lia). replace (2 ^ k) with (2 * 2 ^ Z.pred k); [lia|].
      rewrite <- Z.pow_succ_r by lia. f_equal. lia. }
  split; [apply Z.div_pos; lia|]. split; [lia|]. exists k. split; auto. split; [lia|]. split; [|auto]. intros E Nk.
  assert (P : 2 ^ k mod 2 = 0). { replace k with (Z.succ (k - 1)) by lia. rewrite Z.pow_succ_r by lia. rewrite Z.mul_comm. apply Z.mod_mul. lia. }
  lia.
Qed.
(** Finding: sizes one below a power of two get no padding at all if one pixel is wanted, with the effect of
    C33_no_padding_refuted although pad=True. *)
Theorem C33_pad_width_refuted : forall k, 1 <= k -> pad_width (2 ^ k - 1) 1 = 0.
Proof.
  intros k Hk. unfold pad_width. replace (2 ^ k - 1 + 1) with (2 ^ k) by lia. rewrite Z.log2_up_pow2 by lia.
  replace (2 ^ k - (2 ^ k - 1)) with 1 by lia. reflexivity.
Qed.
(** For even sizes padding always works: both padded sizes are powers of two, each its own, at least the size plus
    the wanted pixels, and every projection is filtered with replicated edges. *)
Theorem C33_even : forall {V} dy dz pad_pix (F : Z -> Z -> (Z -> Z -> V) -> Z -> Z -> V) (tomo : list (Z -> Z -> V)) prj,
  0 < dy -> 0 < dz -> 0 < pad_pix -> dy mod 2 = 0 -> dz mod 2 = 0 ->
  (forall h w f g, same_on h w f g -> same_on h w (F h w f) (F h w g)) ->
  exists px py k l, 0 <= k /\ 0 <= l /\ dy + 2 * px = 2 ^ k /\ dz + 2 * py = 2 ^ l /\
    dy + pad_pix <= 2 ^ k < 2 * (dy + pad_pix) /\ dz + pad_pix <= 2 ^ l < 2 * (dz + pad_pix) /\
    Forall2 (fun frame res => same_on dy dz res (fun r c => F (2 ^ k) (2 ^ l) (replicate dy dz px py frame) (r + px) (c + py)))
      tomo (retrieve_phase dy dz pad_pix true F tomo prj).
Proof.
  intros V dy dz pp F tomo prj Hy Hz Hp Ey Ez HF.
  destruct (C33_pad_width dy pp Hy ltac:(lia)) as (A0 & A1 & k & K0 & K1 & K2 & K3).
  destruct (C33_pad_width dz pp Hz ltac:(lia)) as (B0 & B1 & l & L0 & L1 & L2 & L3).
  assert (k <> 0) by (intros ->; cbn in K3; lia). assert (l <> 0) by (intros ->; cbn in L3; lia).
  specialize (K2 Ey ltac:(auto)). specialize (L2 Ez ltac:(auto)).
  exists (pad_width dy pp), (pad_width dz pp), k, l. repeat split; try lia.
  unfold retrieve_phase, pad_widths. rewrite K2, L2. apply C33_padded; try lia.
  intros f g H'. rewrite K2, L2 in *. now apply HF.
Qed.
Example C33_ex : pad_width 1024 97 = 512 /\ pad_width 127 1 = 0 /\ pad_width 100 10 = 14.
Proof. repeat split; reflexivity. Qed.

(** ** C64: the filter *)
Local Open Scope R_scope.
(** Largest element of the filter. *)
Definition largest (nx ny : Z) (f : Z -> Z -> R) (m : R) : Prop :=
  (exists i j, (0 <= i < nx)%Z /\ (0 <= j < ny)%Z /\ f i j = m) /\ forall i j, (0 <= i < nx)%Z -> (0 <= j < ny)%Z -> f i j <= m.
Definition admissible (pixel_size wd alpha : R) : Prop := 0 < pixel_size /\ 0 <= wd /\ 0 < alpha.

Lemma coord_sqr pix n i : (1 < n)%Z -> 0 < pix ->
  Rsqr (reciprocal_coord pix n i) = Rsqr (IZR (2 * i - (n - 1))) * Rsqr (/ (2 * (IZR (n - 1) * pix))).
Proof.
  intros Hn Hp. unfold reciprocal_coord. cbv zeta. replace (- (n - 1) + 2 * i)%Z with (2 * i - (n - 1))%Z by lia.
  rewrite Rsqr_mult. f_equal. f_equal. assert (IZR (n - 1) <> 0) by (apply not_0_IZR; lia). field. split; lra.
Qed.
Lemma filter_mono wd alpha a b : 0 <= wd -> 0 < alpha -> 0 <= a <= b -> 0 < filter_factor wd alpha b <= filter_factor wd alpha a.
Proof.
  intros Hw Ha Hab. unfold filter_factor. assert (P : 0 < 4 * pi_phase) by (unfold pi_phase; lra).
  assert (E : forall x, 0 <= x -> 0 <= wd * x / (4 * pi_phase)).
  { intros x Hx. apply Rmult_le_pos; [now apply Rmult_le_pos|]. left. now apply Rinv_0_lt_compat. }
  assert (M : wd * a / (4 * pi_phase) <= wd * b / (4 * pi_phase)).
  { unfold Rdiv. apply Rmult_le_compat_r; [left; now apply Rinv_0_lt_compat|]. apply Rmult_le_compat_l; lra. }
  specialize (E a ltac:(lra)) as Ea. specialize (E b ltac:(lra)) as Eb. split.
  - apply Rdiv_lt_0_compat; lra.
  - unfold Rdiv at 1 3. rewrite !Rmult_1_l. apply Rinv_le_contravar; lra.
Qed.
Lemma sqr_IZR_le a b : (Z.abs a <= Z.abs b)%Z -> Rsqr (IZR a) <= Rsqr (IZR b).
Proof. intros H. apply Rsqr_le_abs_1. rewrite <- !abs_IZR. now apply IZR_le. Qed.
Lemma grid_pos pix nx ny i j : 0 <= reciprocal_grid pix nx ny i j.
Proof. unfold reciprocal_grid. pose proof (Rle_0_sqr (reciprocal_coord pix nx i)). pose proof (Rle_0_sqr (reciprocal_coord pix ny j)). lra. Qed.

(** Even sizes: the zero frequency has the largest factor, so a constant projection is returned unchanged
    after the normalisation by the maximum; all factors lie in (0, 1]. *)
Theorem C64_even : forall pixel_size wd alpha nx ny, admissible pixel_size wd alpha ->
  (1 < nx)%Z -> (1 < ny)%Z -> (nx mod 2 = 0)%Z -> (ny mod 2 = 0)%Z ->
  largest nx ny (phase_filter pixel_size wd alpha nx ny) (phase_filter pixel_size wd alpha nx ny 0 0) /\
  forall i j, 0 < phase_filter pixel_size wd alpha nx ny i j.
Proof.
  intros pix wd alpha nx ny (Hp & Hw & Ha) Hx Hy Ex Ey.
  assert (C : forall n i, (1 < n)%Z -> (n mod 2 = 0)%Z -> Rsqr (reciprocal_coord pix n (fftshift_index n 0)) <= Rsqr (reciprocal_coord pix n (fftshift_index n i))).
  { intros n i Hn En. rewrite !coord_sqr by auto. apply Rmult_le_compat_r; [apply Rle_0_sqr|]. apply sqr_IZR_le.
    assert (F : fftshift_index n 0 = (n / 2)%Z).
    { unfold fftshift_index. symmetry. apply Z.mod_unique with (-1)%Z; lia. }
    rewrite F. unfold fftshift_index. pose proof (Z.mod_pos_bound (i - n / 2) n ltac:(lia)). lia. }
  split; [split|].
  - exists 0%Z, 0%Z. repeat split; lia.
  - intros i j Hi Hj. unfold phase_filter. apply filter_mono; auto. split; [apply grid_pos|]. unfold reciprocal_grid.
    pose proof (C nx i Hx Ex). pose proof (C ny j Hy Ey). lra.
  - intros i j. unfold phase_filter. apply (filter_mono wd alpha (reciprocal_grid pix nx ny (fftshift_index nx i) (fftshift_index ny j))); auto.
    split; [apply grid_pos|lra].
Qed.
(** Finding: for an odd size fftshift (instead of ifftshift) puts the centre of the filter at frequency -1:
    the zero frequency is damped, so constant projections change. *)
Theorem C64_odd_refuted : forall pixel_size wd alpha nx ny, admissible pixel_size wd alpha -> 0 < wd ->
  (2 < nx)%Z -> (1 < ny)%Z -> (nx mod 2 = 1)%Z ->
  phase_filter pixel_size wd alpha nx ny 0 0 < phase_filter pixel_size wd alpha nx ny (nx - 1) 0.
Proof.
  intros pix wd alpha nx ny (Hp & _ & Ha) Hw Hx Hy Ex.
  assert (F0 : fftshift_index nx 0 = (nx / 2 + 1)%Z). { unfold fftshift_index. symmetry. apply Z.mod_unique with (-1)%Z; lia. }
  assert (F1 : fftshift_index nx (nx - 1) = (nx / 2)%Z). { unfold fftshift_index. symmetry. apply Z.mod_unique with 0%Z; lia. }
  unfold phase_filter. rewrite F0, F1. unfold reciprocal_grid. set (q := Rsqr (reciprocal_coord pix ny _)).
  rewrite !coord_sqr by (auto; lia). replace (2 * (nx / 2) - (nx - 1))%Z with 0%Z by lia. replace (2 * (nx / 2 + 1) - (nx - 1))%Z with 2%Z by lia.
  set (s := Rsqr (/ (2 * (IZR (nx - 1) * pix)))).
  assert (S : 0 < s).
  { apply Rsqr_pos_lt. apply Rinv_neq_0_compat. assert (IZR (nx - 1) <> 0) by (apply not_0_IZR; lia).
    apply Rmult_integral_contrapositive_currified; [lra|]. apply Rmult_integral_contrapositive_currified; lra. }
  assert (Q : 0 <= q) by apply Rle_0_sqr.
  unfold filter_factor, Rsqr at 1 2. assert (P : 0 < 4 * pi_phase) by (unfold pi_phase; lra).
  assert (A : forall x, 0 <= x -> 0 <= wd * x / (4 * pi_phase)).
  { intros x H. apply Rmult_le_pos; [apply Rmult_le_pos; lra|]. left. now apply Rinv_0_lt_compat. }
  pose proof (A (0 * 0 * s + q)) as A0. pose proof (A (2 * 2 * s + q)) as A2.
  unfold Rdiv at 1 3. rewrite !Rmult_1_l. apply Rinv_lt_contravar.
  - apply Rmult_lt_0_compat; [specialize (A0 ltac:(lra)); lra|specialize (A2 ltac:(lra)); lra].
  - apply Rplus_lt_compat_r. unfold Rdiv. apply Rmult_lt_compat_r; [now apply Rinv_0_lt_compat|]. apply Rmult_lt_compat_l; lra.
Qed.
(** Finding: also for even sizes the filter is not symmetric: frequencies 1 and -1 have different factors. *)
Theorem C64_symmetric_refuted : forall pixel_size wd alpha nx ny, admissible pixel_size wd alpha -> 0 < wd ->
  (3 < nx)%Z -> (1 < ny)%Z -> (nx mod 2 = 0)%Z ->
  phase_filter pixel_size wd alpha nx ny 1 0 < phase_filter pixel_size wd alpha nx ny (nx - 1) 0.
Proof.
  intros pix wd alpha nx ny (Hp & _ & Ha) Hw Hx Hy Ex.
  assert (F0 : fftshift_index nx 1 = (nx / 2 + 1)%Z). { unfold fftshift_index. symmetry. apply Z.mod_unique with (-1)%Z; lia. }
  assert (F1 : fftshift_index nx (nx - 1) = (nx / 2 - 1)%Z). { unfold fftshift_index. symmetry. apply Z.mod_unique with 0%Z; lia. }
  unfold phase_filter. rewrite F0, F1. unfold reciprocal_grid. set (q := Rsqr (reciprocal_coord pix ny _)).
  rewrite !coord_sqr by (auto; lia). replace (2 * (nx / 2 - 1) - (nx - 1))%Z with (-1)%Z by lia. replace (2 * (nx / 2 + 1) - (nx - 1))%Z with 3%Z by lia.
  set (s := Rsqr (/ (2 * (IZR (nx - 1) * pix)))).
  assert (S : 0 < s).
  { apply Rsqr_pos_lt. apply Rinv_neq_0_compat. assert (IZR (nx - 1) <> 0) by (apply not_0_IZR; lia).
    apply Rmult_integral_contrapositive_currified; [lra|]. apply Rmult_integral_contrapositive_currified; lra. }
  assert (Q : 0 <= q) by apply Rle_0_sqr.
  unfold filter_factor, Rsqr at 1 2. assert (P : 0 < 4 * pi_phase) by (unfold pi_phase; lra).
  assert (A : forall x, 0 <= x -> 0 <= wd * x / (4 * pi_phase)).
  { intros x H. apply Rmult_le_pos; [apply Rmult_le_pos; lra|]. left. now apply Rinv_0_lt_compat. }
  pose proof (A (-1 * -1 * s + q)) as A0. pose proof (A (3 * 3 * s + q)) as A2.
  unfold Rdiv at 1 3. rewrite !Rmult_1_l. apply Rinv_lt_contravar.
  - apply Rmult_lt_0_compat; [specialize (A0 ltac:(lra)); lra|specialize (A2 ltac:(lra)); lra].
  - apply Rplus_lt_compat_r. unfold Rdiv. apply Rmult_lt_compat_r; [now apply Rinv_0_lt_compat|]. apply Rmult_lt_compat_l; lra.
Qed.
Example C64_ex : map (fftshift_index 4) [0; 1; 2; 3]%Z = [2; 3; 0; 1]%Z /\ map (fftshift_index 5) [0; 1; 2; 3; 4]%Z = [3; 4; 0; 1; 2]%Z.
Proof. split; reflexivity. Qed.

Print Assumptions C33_even.
Print Assumptions C33_padded.
Print Assumptions C33_no_padding_refuted.
Print Assumptions C33_pad_width.
Print Assumptions C64_even.
Print Assumptions C64_odd_refuted.
Print Assumptions C33_pad_width_refuted.
Print Assumptions C64_symmetric_refuted.
