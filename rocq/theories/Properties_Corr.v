(** Value corrections, normalisation and medians: C09-C17, C46-C52. *)
From Coq Require Import SpecFloat Reals Lra Permutation.
From Verif Require Import Base Order CLoop Model_Float Proofs_Float FloatR Model_Mproc.
From Verif Require Import Model_Corr Model_Prep Model_Median3d.
From Verif Require Import Proofs_Corr Proofs_Nonfinite Proofs_Prep Proofs_Median3d Proofs_Median2d.
Local Open Scope Z_scope.

Definition f_one : f32 := S754_finite false 8388608 (-23).
Definition f_three : f32 := S754_finite false 12582912 (-22).
Definition f_five : f32 := S754_finite false 10485760 (-21).
Definition f_huge : f32 := S754_finite false 16777215 104.
Definition f_mone : f32 := S754_finite true 8388608 (-23).

(** ** C09 *)
Theorem C09_normalize_value : forall T P avg g cutoff (flats darks : list (P -> R)) (arr : T -> P -> R),
  the_avg avg = Some g ->
  exists out, Model_Prep.normalize avg cutoff flats darks arr = Ok out /\
   forall t px, let f := g (map (fun x => x px) flats) in let d := g (map (fun x => x px) darks) in
     (0 < Rmax (f - d) small)%R /\
     out t px = match cutoff with
                | None => ((arr t px - d) / Rmax (f - d) small)%R
                | Some c => Rmin ((arr t px - d) / Rmax (f - d) small) c end.
Proof. exact @normalize_spec. Qed.
Print Assumptions C09_normalize_value.

Theorem C09_beer_lambert : forall f d p cutoff,
  (small <= f - d)%R -> (0 <= p)%R -> (forall c, cutoff = Some c -> 1 <= c)%R ->
  minus_log (norm_px cutoff f d (d + (f - d) * exp (- p))) = p.
Proof. exact beer_lambert. Qed.
Print Assumptions C09_beer_lambert.

Example C09_beer_lambert_ex : minus_log (norm_px (Some 1%R) 3 1 (1 + (3 - 1) * exp (- 2))) = 2%R.
Proof. apply C09_beer_lambert; try (unfold small; lra). intros c [= <-]. lra. Qed.

(** The same in float32, bit level. *)
Theorem C09_never_divides_by_zero : forall f d : f32,
  feq (denom_px f d) fzero = false /\ flt (denom_px f d) f_1em6 = false.
Proof. intros. split; [exact (denom_px_nonzero f d)|exact (denom_px_ge f d)]. Qed.
Print Assumptions C09_never_divides_by_zero.

Theorem C09_cutoff_never_exceeded : forall c f d a, flt c (normalize_px (Some c) f d a) = false.
Proof. exact normalize_cutoff. Qed.
Print Assumptions C09_cutoff_never_exceeded.

Theorem C09_float32_value : forall f d a, moderate f -> moderate d -> moderate a ->
  let n := rnd (fR a - fR d) in
  let m := Rmax (rnd (fR f - fR d)) (fR f_1em6) in
  fR (denom_px f d) = m /\ is_fin (denom_px f d) = true /\
  (((Rabs (rnd (n / m)) < big)%R /\ is_fin (normalize_px None f d a) = true /\ fR (normalize_px None f d a) = rnd (n / m)) \/
   ((big <= Rabs (rnd (n / m)))%R /\ exists s, normalize_px None f d a = S754_infinity s)).
Proof. exact normalize_value. Qed.
Print Assumptions C09_float32_value.

Example C09_float32_ex :
  normalize_px None f_five f_one f_three = S754_finite false 8388608 (-24) /\
  normalize_px None f_one f_one f_one = S754_zero false /\
  normalize_px (Some f_one) f_one f_one f_five = f_one.
Proof. repeat split. Qed.

(** ** C10 *)
(** [in_group total locs m t]: projection [t] lies before the end of range [m] and after the ends of
    all earlier ranges. *)
Theorem C10_each_projection_in_one_group : forall P cutoff (flats darks : list (P -> R)) locs total tomo out0,
  locs <> [] -> sorted_locs locs -> 0 <= locn locs 0 ->
  exists out, normalize_nf AvgMean cutoff flats darks locs total tomo out0 = Ok out /\
   (forall t, 0 <= t < total -> exists m, in_group total locs m t /\
      forall px, out t px = nf_px cutoff (nf_flat flats (Z.of_nat (length locs)) (Z.of_nat m) px)
                              (frame_avg rmean darks px) (tomo t px)).
Proof. exact @normalize_nf_groups. Qed.
Print Assumptions C10_each_projection_in_one_group.

Theorem C10_groups_are_consecutive : forall total locs m m' t t',
  in_group total locs m t -> in_group total locs m' t' -> (t = t' -> m = m') /\ (t <= t' -> (m <= m')%nat).
Proof.
  exact (fun total locs m m' t t' H H' =>
    conj (fun E => in_group_unique total locs m m' t H (eq_ind_r (fun z => in_group total locs m' z) H' E))
         (fun L => in_group_mono total locs m m' t t' L H H')).
Qed.
Print Assumptions C10_groups_are_consecutive.

Theorem C10_group_nearest_up_to_one : forall total locs m t, sorted_locs locs -> in_group total locs m t ->
  forall m', (m' < length locs)%nat -> Z.abs (t - locn locs m) <= Z.abs (t - locn locs m') + 1.
Proof. exact in_group_near. Qed.
Print Assumptions C10_group_nearest_up_to_one.

Example C10_groups_ex : nf_segs 10 0 [0; 4; 9] = [(0, 2); (2, 6); (6, 10)].
Proof. reflexivity. Qed.

(** ** C52: exactly the nearest location *)
Theorem C52_nearest_partial : forall total locs m t, sorted_locs locs ->
  (forall i, (S i < length locs)%nat -> (locn locs (S i) - locn locs i) mod 4 <> 1) ->
  in_group total locs m t ->
  forall m', (m' < length locs)%nat -> Z.abs (t - locn locs m) <= Z.abs (t - locn locs m').
Proof. exact in_group_nearest. Qed.
Print Assumptions C52_nearest_partial.

Theorem C52_nearest_refuted : ~ (forall total locs m t, sorted_locs locs -> 0 <= locn locs 0 -> in_group total locs m t ->
  forall m', (m' < length locs)%nat -> Z.abs (t - locn locs m) <= Z.abs (t - locn locs m')).
Proof.
  intros H. specialize (H 10 [0; 5] 1%nat 2).
  assert (S : sorted_locs [0; 5]).
  { intros i j Hij. cbn in Hij. destruct i as [|[|]], j as [|[|]]; cbn; lia. }
  specialize (H S ltac:(cbn; lia)).
  assert (G : in_group 10 [0; 5] 1 2).
  { split; [cbn; lia|]. split; [cbn; lia|]. intros [|i] Hi; cbn; lia. }
  specialize (H G 0%nat ltac:(cbn; lia)). cbn in H. lia.
Qed.
Print Assumptions C52_nearest_refuted.

(** ** C51: normalize_nf with one location against normalize *)
Theorem C51_single_location_partial : forall P cutoff (flat : P -> R) (darks : list (P -> R)) loc total tomo out0,
  exists o1 o2,
    normalize_nf AvgMean cutoff [flat] darks [loc] total tomo out0 = Ok o1 /\
    Model_Prep.normalize AvgMean cutoff [flat] darks tomo = Ok o2 /\
    forall t px, 0 <= t < total -> o1 t px = Some (o2 t px).
Proof.
  intros. eexists _, _. split; [reflexivity|]. split; [reflexivity|]. intros t px Ht.
  cbv [normalize_nf nf_segs combine zrange fold_left].
  change (fold_left (nf_step total (fun m t px => nf_px cutoff (nf_flat [flat] 1 m px) (frame_avg rmean darks px) (tomo t px)))
            [(0, (0, total))] out0 t px = Some (norm_px cutoff (frame_avg rmean [flat] px) (frame_avg rmean darks px) (tomo t px))).
  cbn [fold_left]. unfold nf_step, in_slice. cbn [fst snd].
  rewrite !clip_id by lia. replace ((0 <=? t) && (t <? total)) with true by lia.
  change (nf_flat [flat] 1 0 px) with (Some (frame_avg rmedian [flat] px)). cbn [nf_px]. do 2 f_equal.
  unfold frame_avg, rmedian, rmean. cbn. field.
Qed.
Print Assumptions C51_single_location_partial.

(** With several flats the two differ: the median is used although the mean was asked for. *)
Theorem C51_averaging_refuted : ~ (forall (flats darks : list (unit -> R)) loc total tomo out0 o1 o2,
  flats <> [] -> darks <> [] ->
  normalize_nf AvgMean None flats darks [loc] total tomo out0 = Ok o1 ->
  Model_Prep.normalize AvgMean None flats darks tomo = Ok o2 ->
  forall t px, 0 <= t < total -> o1 t px = Some (o2 t px)).
Proof.
  intros H.
  pose (c := fun (x : R) (_ : unit) => x).
  specialize (H [c 1; c 1; c 4]%R [c 0]%R 0 1 (fun _ _ => 1%R) (fun _ _ => None) _ _
                ltac:(easy) ltac:(easy) eq_refl eq_refl 0 tt ltac:(lia)).
  change (nf_px None (Some (frame_avg rmedian [c 1; c 1; c 4]%R tt)) (frame_avg rmean [c 0%R] tt) 1
          = Some (norm_px None (frame_avg rmean [c 1; c 1; c 4]%R tt) (frame_avg rmean [c 0%R] tt) 1)) in H.
  cbn [nf_px] in H. apply (f_equal (fun o => match o with Some x => x | None => 0%R end)) in H. cbv beta iota in H.
  assert (E1 : frame_avg rmedian [c 1; c 1; c 4]%R tt = 1%R).
  { unfold frame_avg, rmedian, c. cbn.
    assert (L1 : rltb 4 1 = false) by (apply rltb_false; lra).
    assert (L2 : rltb 1 1 = false) by (apply rltb_false; lra).
    assert (L3 : rltb 1 4 = true) by (apply rltb_spec; lra).
    repeat (first [rewrite L1|rewrite L2|rewrite L3]; cbn). reflexivity. }
  assert (E2 : frame_avg rmean [c 1; c 1; c 4]%R tt = 2%R) by (unfold frame_avg, rmean, c; cbn; lra).
  assert (E3 : frame_avg rmean [c 0%R] tt = 0%R) by (unfold frame_avg, rmean, c; cbn; lra).
  rewrite E1, E2, E3, !norm_px_spec in H. rewrite !Rmax_left in H by (unfold small; lra). lra.
Qed.
Print Assumptions C51_averaging_refuted.

(** averaging='median' is accepted by normalize and always fails in normalize_nf. *)
Theorem C51_median_refuted : forall P cutoff (flats darks : list (P -> R)) locs total tomo out0,
  normalize_nf AvgMedian cutoff flats darks locs total tomo out0 = Raise TypeError /\
  exists o, Model_Prep.normalize AvgMedian cutoff flats darks tomo = Ok o.
Proof. intros. split; [reflexivity|eexists; reflexivity]. Qed.
Print Assumptions C51_median_refuted.

(** ** C11 *)
Theorem C11_normalize_bg_value : forall dx dy dz nair data,
  0 <= dx -> 0 <= dy -> 1 <= nair <= dz -> 2 <= dz ->
  forall m n j, 0 <= m < dx -> 0 <= n < dy -> 0 <= j < dz ->
  let i := m * (dz * dy) + n * dz in
  let row := fun c => data (i + c) in
  let L := left_air row nair in
  let Rt := right_air row dz nair in
  normalize_bg dx dy dz nair data (i + j) = (data (i + j)%Z / (L + (Rt - L) / IZR (dz - 1) * IZR j))%R.
Proof.
  intros dx dy dz nair data H1 H2 H3 H4 m n j Hm Hn Hj. cbv zeta.
  rewrite (bg_rows dx dy dz nair data H1 H2 H3 H4 m n j Hm Hn Hj). unfold bg_value, row_of. cbv zeta.
  repeat f_equal. lia.
Qed.
Print Assumptions C11_normalize_bg_value.

(** Air pixels of a row with a constant positive air value become one. *)
Theorem C11_flat_air_gives_one : forall dz nair data c,
  1 <= nair <= dz -> 2 <= dz -> (0 < c)%R ->
  (forall j, 0 <= j < nair \/ dz - nair <= j < dz -> data j = c) ->
  forall j, 0 <= j < nair \/ dz - nair <= j < dz -> normalize_bg 1 1 dz nair data j = 1%R.
Proof.
  intros dz nair data c Hn Hz Hc Hd j Hj.
  assert (E : forall (f : Z -> R) l, l <> [] -> (forall x, In x l -> f x = c) -> rmean (map f l) = c).
  { intros f l Hne Hl. rewrite (map_ext_in f (fun _ => c)) by auto.
    replace (map (fun _ : Z => c) l) with (repeat c (length l)).
    - apply rmean_const. destruct l; [easy|cbn; lia].
    - clear. induction l; cbn; congruence. }
  assert (NE : forall a b, a < b -> zrange a b <> []) by (intros a b ? F; apply (f_equal (@length Z)) in F; rewrite zrange_length in F; cbn in F; lia).
  pose proof (C11_normalize_bg_value 1 1 dz nair data ltac:(lia) ltac:(lia) Hn Hz 0 0 j ltac:(lia) ltac:(lia) ltac:(lia)) as H.
  cbv zeta in H. replace (0 * (dz * 1) + 0 * dz + j) with j in H by lia. rewrite H.
  unfold left_air, right_air. cbv zeta.
  rewrite (E _ (zrange 0 nair)) by (first [apply NE; lia|intros x Hx; apply in_zrange in Hx; apply Hd; lia]).
  rewrite (E _ (zrange (dz - nair) dz)) by (first [apply NE; lia|intros x Hx; apply in_zrange in Hx; apply Hd; lia]).
  destruct (Rle_dec c 0); [lra|]. rewrite Hd by auto. unfold Rminus. rewrite Rplus_opp_r. unfold Rdiv.
  rewrite !Rmult_0_l, Rplus_0_r. field. lra.
Qed.
Print Assumptions C11_flat_air_gives_one.

Theorem C53_roi_normalisation : forall r0 r1 r2 r3 p,
  (rmean (roi_values r0 r1 r2 r3 p) <> 0%R -> rmean (roi_values r0 r1 r2 r3 (normalize_roi r0 r1 r2 r3 p)) = 1%R) /\
  (forall i j, normalize_roi r0 r1 r2 r3 (normalize_roi r0 r1 r2 r3 p) i j = normalize_roi r0 r1 r2 r3 p i j) /\
  (forall i j i' j', normalize_roi r0 r1 r2 r3 p i j * p i' j' = normalize_roi r0 r1 r2 r3 p i' j' * p i j)%R.
Proof.
  exact (fun r0 r1 r2 r3 p => conj (normalize_roi_mean_one r0 r1 r2 r3 p)
    (conj (normalize_roi_idem r0 r1 r2 r3 p) (normalize_roi_ratio r0 r1 r2 r3 p))).
Qed.
Print Assumptions C53_roi_normalisation.

(** ** C12 *)
Theorem C12_adjust_range_clamps : forall l lo hi,
  l <> [] -> no_nan l -> is_nan lo = false -> is_nan hi = false -> flt hi lo = false ->
  exists l', adjust_range l (Some lo) (Some hi) = Ok l' /\ length l' = length l /\
    (forall i x, nth_error l i = Some x -> exists y, nth_error l' i = Some y /\
       flt y lo = false /\ flt hi y = false /\
       (flt x lo = false -> flt hi x = false -> y = x) /\
       (flt hi x = true -> y = hi) /\ (flt x lo = true -> y = lo)) /\
    adjust_range l' (Some lo) (Some hi) = Ok l'.
Proof. exact adjust_range_both. Qed.
Print Assumptions C12_adjust_range_clamps.

Example C12_adjust_range_ex :
  adjust_range [f_mone; f_one; f_five; S754_infinity false] (Some f_one) (Some f_three)
  = Ok [f_one; f_one; f_three; f_three].
Proof. reflexivity. Qed.

Theorem C12_one_limit : forall l v, l <> [] -> no_nan l -> is_nan v = false ->
  adjust_range l None None = Ok l /\
  adjust_range l (Some v) None = Ok (map (fun x => if flt x v then v else x) l) /\
  ((exists x, In x l /\ flt v x = false) ->
   adjust_range l None (Some v) = Ok (map (fun x => if flt v x then v else x) l)).
Proof.
  exact (fun l v H1 H2 H3 => conj (adjust_range_none l H1 H2)
    (conj (adjust_range_lower l v H1 H2 H3) (adjust_range_upper l v H1 H2 H3))).
Qed.
Print Assumptions C12_one_limit.

(** ** C46: limits hold whatever the data *)
Theorem C46_upper_limit_refuted : ~ (forall l hi l', l <> [] -> no_nan l -> is_nan hi = false ->
  adjust_range l None (Some hi) = Ok l' -> Forall (fun y => flt hi y = false) l').
Proof.
  intros H. specialize (H [f_three; f_five] f_one [f_three; f_three] ltac:(easy)
    ltac:(repeat constructor) eq_refl eq_refl). inversion H as [|? ? H1 _]. discriminate H1.
Qed.
Print Assumptions C46_upper_limit_refuted.

(** What happens instead: everything is set to the old minimum. *)
Theorem C46_upper_limit_below_data : forall l hi mn, l <> [] -> no_nan l -> is_nan hi = false ->
  np_min l = Ok mn -> flt hi mn = true -> adjust_range l None (Some hi) = Ok (map (fun _ => mn) l).
Proof. exact adjust_range_upper_below. Qed.
Print Assumptions C46_upper_limit_below_data.

(** One NaN anywhere switches clamping off. *)
Theorem C46_nan_disables_clamping_refuted : forall l dmin dmax, In S754_nan l -> adjust_range l dmin dmax = Ok l.
Proof. exact adjust_range_nan. Qed.
Print Assumptions C46_nan_disables_clamping_refuted.

Example C46_nan_ex : adjust_range [f_five; S754_nan] (Some f_one) (Some f_three) = Ok [f_five; S754_nan].
Proof. reflexivity. Qed.

(** ** C13 *)
Theorem C13_remove_nan_exact : forall val l,
  (forall i x, nth_error l i = Some x -> nth_error (remove_nan val l) i = Some (if is_nan x then val else x)) /\
  length (remove_nan val l) = length l /\
  (is_nan val = false -> no_nan (remove_nan val l)) /\
  remove_nan val (remove_nan val l) = remove_nan val l.
Proof.
  exact (fun val l => conj (remove_nan_spec val l) (conj (map_length _ l)
    (conj (remove_nan_none val l) (remove_nan_idem val l)))).
Qed.
Print Assumptions C13_remove_nan_exact.

Theorem C13_remove_neg_exact : forall val l,
  (forall i x, nth_error l i = Some x -> nth_error (remove_neg val l) i = Some (if flt x fzero then val else x)) /\
  length (remove_neg val l) = length l /\
  (flt val fzero = false -> Forall (fun y => flt y fzero = false) (remove_neg val l)) /\
  remove_neg val (remove_neg val l) = remove_neg val l.
Proof.
  exact (fun val l => conj (remove_neg_spec val l) (conj (map_length _ l)
    (conj (remove_neg_none val l) (remove_neg_idem val l)))).
Qed.
Print Assumptions C13_remove_neg_exact.

Theorem C13_commute : forall v1 v2 l, flt v1 fzero = false -> is_nan v2 = false ->
  remove_neg v2 (remove_nan v1 l) = remove_nan v1 (remove_neg v2 l).
Proof. exact remove_nan_neg_commute. Qed.
Print Assumptions C13_commute.

Example C13_ex :
  remove_neg f_three (remove_nan f_one [f_mone; S754_nan; f_five; S754_zero true; S754_infinity true])
  = [f_three; f_one; f_five; S754_zero true; f_three].
Proof. reflexivity. Qed.

(** ** C14 *)
(** [finite_cells p d1 d2 size i j cells]: [cells] lists, once each, the pixels of the d1 x d2 image
    within size/2 of (i, j) in both directions whose value is finite. *)
Theorem C14_repairs_exactly_nonfinite : forall d1 d2 size p p',
  mfn_projection d1 d2 size p = (Ok tt, p') ->
  forall i j,
    ((0 <= i < d1 /\ 0 <= j < d2) /\ is_fin (p i j) = false ->
       exists cells, finite_cells p d1 d2 size i j cells /\ cells <> [] /\ is_np_median (vals p cells) (p' i j)) /\
    (~ (0 <= i < d1 /\ 0 <= j < d2) \/ is_fin (p i j) = true -> p' i j = p i j).
Proof. exact mfn_projection_ok. Qed.
Print Assumptions C14_repairs_exactly_nonfinite.

Theorem C14_raises_exactly_when_window_empty : forall d1 d2 size p,
  (exists p', mfn_projection d1 d2 size p = (Ok tt, p') \/ mfn_projection d1 d2 size p = (Raise ValueError, p')) /\
  ((exists p', mfn_projection d1 d2 size p = (Raise ValueError, p')) <->
   (exists i j, (0 <= i < d1 /\ 0 <= j < d2) /\ is_fin (p i j) = false /\ finite_cells p d1 d2 size i j [])).
Proof. exact (fun d1 d2 size p => conj (mfn_result d1 d2 size p) (mfn_projection_raises d1 d2 size p)). Qed.
Print Assumptions C14_raises_exactly_when_window_empty.

Theorem C14_projections_independent : forall d1 d2 size ps ps',
  mfn_stack d1 d2 size ps = (Ok tt, ps') <->
  Forall2 (fun p p' => mfn_projection d1 d2 size p = (Ok tt, p')) ps ps'.
Proof. exact mfn_stack_ok. Qed.
Print Assumptions C14_projections_independent.

Definition row_image (l : list f32) : img := fun i j => if i =? 0 then nth (Z.to_nat j) l S754_nan else S754_nan.

Example C14_ex :
  let r := mfn_projection 1 4 3 (row_image [f_one; S754_nan; f_five; S754_infinity false]) in
  fst r = Ok tt /\ map (snd r 0) [0; 1; 2; 3] = [f_one; f_three; f_five; f_five].
Proof. split; reflexivity. Qed.

(** ** C47: repaired values are finite *)
Theorem C47_repaired_between_partial : forall d1 d2 size p p',
  (forall i j, 0 <= i < d1 -> 0 <= j < d2 -> is_fin (p i j) = true -> moderate (p i j)) ->
  mfn_projection d1 d2 size p = (Ok tt, p') ->
  forall i j, 0 <= i < d1 -> 0 <= j < d2 -> is_fin (p i j) = false ->
    is_fin (p' i j) = true /\
    exists x y x' y', 0 <= x < d1 /\ 0 <= y < d2 /\ 0 <= x' < d1 /\ 0 <= y' < d2 /\
      Z.abs (x - i) <= size / 2 /\ Z.abs (y - j) <= size / 2 /\
      Z.abs (x' - i) <= size / 2 /\ Z.abs (y' - j) <= size / 2 /\
      (fR (p x y) <= fR (p' i j) <= fR (p x' y'))%R.
Proof.
  intros d1 d2 size p p' HM H i j Hi Hj Hf.
  destruct (mfn_projection_ok d1 d2 size p p' H i j) as [H1 _].
  destruct (H1 (conj (conj Hi Hj) Hf)) as (cells & HC & Hne & Hmed).
  assert (W : vals p cells <> []) by (destruct cells; easy).
  assert (MW : Forall moderate (vals p cells)).
  { rewrite Forall_forall. intros v Hv. unfold vals in Hv. apply in_map_iff in Hv.
    destruct Hv as ([x y] & <- & Hxy). apply HC in Hxy. destruct Hxy as (A & B & _ & _ & C). cbn. auto. }
  destruct (np_median_between _ _ W MW Hmed) as (_ & F & a & b & Ha & Hb & Hab). split; auto.
  unfold vals in Ha, Hb. apply in_map_iff in Ha, Hb. destruct Ha as ([x y] & <- & Ha), Hb as ([x' y'] & <- & Hb).
  apply HC in Ha, Hb. exists x, y, x', y'. cbn in Hab. tauto.
Qed.
Print Assumptions C47_repaired_between_partial.

Theorem C47_overflow_refuted : ~ (forall d1 d2 size p p',
  (forall i j, fvalid (p i j) = true) -> mfn_projection d1 d2 size p = (Ok tt, p') ->
  forall i j, 0 <= i < d1 -> 0 <= j < d2 -> is_fin (p' i j) = true).
Proof.
  intros H. pose (p := row_image [f_huge; S754_nan; f_huge]).
  pose (r := mfn_projection 1 3 3 p).
  specialize (H 1 3 3 p (snd r)).
  assert (V : forall i j, fvalid (p i j) = true).
  { intros i j. unfold p, row_image. destruct (i =? 0); auto.
    destruct (Z.to_nat j) as [|[|[|[|n]]]]; reflexivity. }
  specialize (H V eq_refl 0 1 ltac:(lia) ltac:(lia)). vm_compute in H. discriminate H.
Qed.
Print Assumptions C47_overflow_refuted.

(** ** C48: a call that raises has changed nothing *)
Theorem C48_failed_call_atomic_refuted : ~ (forall d1 d2 size p p' e,
  mfn_projection d1 d2 size p = (Raise e, p') -> forall i j, p' i j = p i j).
Proof.
  intros H. pose (p := row_image [f_one; S754_nan; S754_nan; S754_nan; S754_nan]).
  pose (r := mfn_projection 1 5 3 p).
  specialize (H 1 5 3 p (snd r) ValueError eq_refl 0 1). vm_compute in H. discriminate H.
Qed.
Print Assumptions C48_failed_call_atomic_refuted.

(** ** C15 *)
(** For every visiting order of the voxels (OpenMP), every value type with a weak order on the
    values that occur, and every correct qsort. *)
Theorem C15_median_filter : forall V (D : V -> Prop) lt (qs : list V -> list V) dflt inp r dimX dimY dimZ order out,
  weak_order D lt -> sorts D lt qs -> 0 <= r ->
  Permutation order (voxels3 dimX dimY dimZ) ->
  forall i j k, 0 <= i < dimX -> 0 <= j < dimY -> 0 <= k < dimZ ->
  let w := gather3 inp r dimX dimY dimZ i j k in
  Forall D w ->
  exists h, length w = (2 * h + 1)%nat /\ Z.of_nat (length w) = (2 * r + 1) ^ 3 /\
    kth lt w h (run3 qs dflt None inp r dimX dimY dimZ order out (idx3 dimX dimY i j k)).
Proof.
  intros V D lt qs dflt inp r dimX dimY dimZ order out wo Hqs Hr P i j k Hi Hj Hk w HD.
  rewrite (run3_order qs dflt None inp r dimX dimY dimZ order out i j k P Hi Hj Hk).
  destruct (middle_is_median D lt wo qs Hqs dflt w HD (gather3_odd inp r dimX dimY dimZ i j k Hr)) as (h & Hh & K).
  exists h. split; auto. split; auto. unfold w. rewrite gather3_length by auto. rewrite Z2Nat.id; [auto|nia].
Qed.
Print Assumptions C15_median_filter.

Theorem C15_window_values : forall V (inp : arr V) r dimX dimY dimZ i j k v,
  0 <= i < dimX -> 0 <= j < dimY -> 0 <= k < dimZ ->
  In v (gather3 inp r dimX dimY dimZ i j k) ->
  exists i' j' k', 0 <= i' < dimX /\ 0 <= j' < dimY /\ 0 <= k' < dimZ /\
    Z.abs (i' - i) <= r /\ Z.abs (j' - j) <= r /\ Z.abs (k' - k) <= r /\ v = inp (idx3 dimX dimY i' j' k').
Proof. exact @gather3_in. Qed.
Print Assumptions C15_window_values.

Theorem C15_dezinger : forall V (D : V -> Prop) lt (qs : list V -> list V) dflt far inp r dimX dimY dimZ order,
  weak_order D lt -> sorts D lt qs -> 0 <= r ->
  Permutation order (voxels3 dimX dimY dimZ) ->
  forall i j k, 0 <= i < dimX -> 0 <= j < dimY -> 0 <= k < dimZ ->
  let w := gather3 inp r dimX dimY dimZ i j k in
  let v := inp (idx3 dimX dimY i j k) in
  let o := run3 qs dflt (Some far) inp r dimX dimY dimZ order inp (idx3 dimX dimY i j k) in
  Forall D w ->
  exists h m, length w = (2 * h + 1)%nat /\ kth lt w h m /\ o = (if far v m then m else v).
Proof.
  intros V D lt qs dflt far inp r dimX dimY dimZ order wo Hqs Hr P i j k Hi Hj Hk w v o HD.
  unfold o. rewrite (run3_order qs dflt (Some far) inp r dimX dimY dimZ order inp i j k P Hi Hj Hk).
  destruct (middle_is_median D lt wo qs Hqs dflt w HD (gather3_odd inp r dimX dimY dimZ i j k Hr)) as (h & Hh & K).
  exists h. eexists. split; [exact Hh|]. split; [exact K|]. reflexivity.
Qed.
Print Assumptions C15_dezinger.

Theorem C15_schedule_independent : forall V qs (dflt : V) thr inp r dimX dimY dimZ order out x,
  0 <= dimX -> 0 <= dimY -> 0 <= dimZ -> Permutation order (voxels3 dimX dimY dimZ) ->
  (0 <= x < dimX * dimY * dimZ ->
   run3 qs dflt thr inp r dimX dimY dimZ order out x = main3 qs dflt thr inp r dimX dimY dimZ out x) /\
  (~ 0 <= x < dimX * dimY * dimZ -> run3 qs dflt thr inp r dimX dimY dimZ order out x = out x).
Proof.
  intros V qs dflt thr inp r dimX dimY dimZ order out x HX HY HZ P. split.
  - intros Hx. rewrite (main3_run qs dflt thr inp r dimX dimY dimZ out HX HY HZ).
    assert (0 < dimX /\ 0 < dimY) as [PX PY] by nia.
    set (i := x mod dimX). set (j := x / dimX mod dimY). set (k := x / dimX / dimY).
    assert (Ex : x = idx3 dimX dimY i j k).
    { unfold idx3, i, j, k. pose proof (Z.div_mod x dimX ltac:(lia)). pose proof (Z.div_mod (x / dimX) dimY ltac:(lia)).
      nia. }
    assert (0 <= i < dimX) by (apply Z.mod_pos_bound; auto). assert (0 <= j < dimY) by (apply Z.mod_pos_bound; auto).
    assert (0 <= k < dimZ).
    { unfold k. split; [apply Z.div_pos; [apply Z.div_pos|]; lia|].
      apply Z.div_lt_upper_bound; auto. apply Z.div_lt_upper_bound; auto. nia. }
    rewrite Ex. rewrite !run3_order; auto.
  - intros Hx. apply run3_outside; auto.
Qed.
Print Assumptions C15_schedule_independent.

(** The float comparison is such an order as long as no NaN occurs; the uint16 one always. *)
Theorem C15_orders : weak_order (fun x => is_nan x = false) flt /\ weak_order (fun _ : Z => True) Z.ltb.
Proof. exact (conj float_weak_order Z_weak_order). Qed.
Print Assumptions C15_orders.

(** Every voxel of the array in the cube of radius r is in the window; away from the border the window is this cube. *)
Theorem C15_window_complete : forall V (inp : arr V) r dimX dimY dimZ i j k i' j' k',
  0 <= i' < dimX -> 0 <= j' < dimY -> 0 <= k' < dimZ ->
  Z.abs (i' - i) <= r -> Z.abs (j' - j) <= r -> Z.abs (k' - k) <= r ->
  In (inp (idx3 dimX dimY i' j' k')) (gather3 inp r dimX dimY dimZ i j k).
Proof. exact @gather3_complete. Qed.
Print Assumptions C15_window_complete.
Theorem C15_window_inner : forall V (inp : arr V) r dimX dimY dimZ i j k,
  r <= i < dimX - r -> r <= j < dimY - r -> r <= k < dimZ - r ->
  exists cells, NoDup cells /\
    (forall x y z, In (x, y, z) cells <-> Z.abs (x - i) <= r /\ Z.abs (y - j) <= r /\ Z.abs (z - k) <= r) /\
    Permutation (gather3 inp r dimX dimY dimZ i j k) (map (fun '(x, y, z) => inp (dimX * dimY * z + y * dimX + x)) cells).
Proof.
  intros V inp r dimX dimY dimZ i j k Hi Hj Hk. exists (cube r i j k). split; [apply NoDup_cube|]. split; [intros; apply in_cube|].
  rewrite gather3_inner by auto. apply Permutation_refl.
Qed.
Print Assumptions C15_window_inner.

(** The Python functions: the window has size^3 values for an odd size of at least three; an even size counts as
    the next smaller odd one, sizes below three as three. *)
Definition window_side (size : Z) : Z := if size <? 3 then 3 else if Z.even size then size - 1 else size.
Theorem C15_api_median : forall V (D : V -> Prop) lt (qs : list V -> list V) dflt inp out0 size dx dy dz out,
  weak_order D lt -> sorts D lt qs -> (forall x, D (inp x)) -> 0 <= dx -> 0 <= dy -> 0 <= dz ->
  median_filter3d qs dflt inp out0 size dx dy dz = Ok out ->
  exists r, 2 * r + 1 = window_side size /\
  forall i j k, 0 <= i < dx -> 0 <= j < dy -> 0 <= k < dz ->
    let w := gather3 inp r dx dy dz i j k in
    exists h, length w = (2 * h + 1)%nat /\ Z.of_nat (length w) = window_side size ^ 3 /\ kth lt w h (out (idx3 dx dy i j k)).
Proof.
  intros V D lt qs dflt inp out0 size dx dy dz out wo Hqs HD HX HY HZ. unfold median_filter3d.
  destruct (_ || _) eqn:E; [discriminate|]. unfold Ok. intros [= <-]. exists (kernel_half_size size).
  assert (R : 2 * kernel_half_size size + 1 = window_side size).
  { unfold kernel_half_size, window_side. destruct (size <? 3) eqn:E3; [replace (Z.max size 3) with 3 by lia; reflexivity|].
    replace (Z.max size 3) with size by lia. destruct (Z.even size) eqn:Ev.
    - apply Z.even_spec in Ev as [q ->]. lia.
    - assert (Z.odd size = true) as Od by now rewrite <- Z.negb_even, Ev. apply Z.odd_spec in Od as [q ->]. lia. }
  split; [exact R|]. intros i j k Hi Hj Hk. rewrite (main3_run qs dflt None inp (kernel_half_size size) dx dy dz out0 HX HY HZ).
  rewrite <- R. apply (C15_median_filter V D lt qs dflt inp (kernel_half_size size) dx dy dz (voxels3 dx dy dz) out0); auto.
  - unfold kernel_half_size. lia.
  - apply Forall_forall. intros v Hv. destruct (C15_window_values V inp _ dx dy dz i j k v Hi Hj Hk Hv) as (? & ? & ? & _ & _ & _ & _ & _ & _ & ->). apply HD.
Qed.
Print Assumptions C15_api_median.
Theorem C15_api_dezinger : forall V (D : V -> Prop) lt (qs : list V -> list V) dflt far inp size dx dy dz out,
  weak_order D lt -> sorts D lt qs -> (forall x, D (inp x)) -> 0 <= dx -> 0 <= dy -> 0 <= dz ->
  remove_outlier3d qs dflt (Some far) inp size dx dy dz = Ok out ->
  exists r, 2 * r + 1 = window_side size /\
  forall i j k, 0 <= i < dx -> 0 <= j < dy -> 0 <= k < dz ->
    let w := gather3 inp r dx dy dz i j k in
    let v := inp (idx3 dx dy i j k) in
    exists h m, length w = (2 * h + 1)%nat /\ kth lt w h m /\ out (idx3 dx dy i j k) = (if far v m then m else v).
Proof.
  intros V D lt qs dflt far inp size dx dy dz out wo Hqs HD HX HY HZ. unfold remove_outlier3d.
  destruct (_ || _) eqn:E; [discriminate|]. unfold Ok. intros [= <-]. exists (kernel_half_size size).
  split.
  { unfold kernel_half_size, window_side. destruct (size <? 3) eqn:E3; [replace (Z.max size 3) with 3 by lia; reflexivity|].
    replace (Z.max size 3) with size by lia. destruct (Z.even size) eqn:Ev.
    - apply Z.even_spec in Ev as [q ->]. lia.
    - assert (Z.odd size = true) as Od by now rewrite <- Z.negb_even, Ev. apply Z.odd_spec in Od as [q ->]. lia. }
  intros i j k Hi Hj Hk. cbv zeta. rewrite (main3_run qs dflt (Some far) inp (kernel_half_size size) dx dy dz inp HX HY HZ).
  apply (C15_dezinger V D lt qs dflt far inp (kernel_half_size size) dx dy dz (voxels3 dx dy dz)); auto.
  - unfold kernel_half_size. lia.
  - apply Forall_forall. intros v' Hv. destruct (C15_window_values V inp _ dx dy dz i j k v' Hi Hj Hk Hv) as (? & ? & ? & _ & _ & _ & _ & _ & _ & ->). apply HD.
Qed.
Print Assumptions C15_api_dezinger.

(** The thresholds: the exact difference for integers, the rounded one for floats. *)
Theorem C15_threshold_uint16 : forall p q far a m, 0 < q -> thr_uint16 p q = Some far ->
  (far a m = true <-> (IZR p / IZR q <= Rabs (IZR a - IZR m))%R).
Proof.
  intros p q far a m Hq. unfold thr_uint16. destruct (p =? 0); [discriminate|]. intros [= <-].
  rewrite <- minus_IZR, <- abs_IZR. rewrite Z.leb_le. apply IZR_lt in Hq. split; intros H.
  - apply IZR_le in H. rewrite mult_IZR in H. apply Rmult_le_reg_r with (IZR q); auto. unfold Rdiv. rewrite Rmult_assoc, Rinv_l by lra. lra.
  - apply le_IZR. rewrite mult_IZR. apply Rmult_le_compat_r with (r := IZR q) in H; [|lra]. unfold Rdiv in H. rewrite Rmult_assoc, Rinv_l in H by lra. lra.
Qed.
Print Assumptions C15_threshold_uint16.
Lemma fabs_R x : fR (fabs x) = Rabs (fR x).
Proof.
  destruct x as [s|s| |s m e]; unfold fR; cbn; rewrite ?Rabs_R0; auto.
  rewrite <- Flocq.Core.Float_prop.F2R_Zabs. now destruct s.
Qed.
Theorem C15_threshold_float : forall mu far a m, fvalid mu = true -> is_fin mu = true ->
  fvalid a = true -> is_fin a = true -> fvalid m = true -> is_fin m = true -> thr_float mu = Some far ->
  (far a m = true <-> (fR mu <= Rabs (rnd (fR a - fR m)))%R) /\
  ((fR mu <= Rabs (fR a - fR m))%R -> far a m = true).
Proof.
  intros mu far a m Vmu Fmu Va Fa Vm Fm. unfold thr_float. destruct (feq mu fzero); [discriminate|]. intros [= <-].
  assert (G : fle mu (fabs (fsub a m)) = true <-> (fR mu <= Rabs (rnd (fR a - fR m)))%R).
  { destruct (fsub_R a m Va Vm Fa Fm) as [(H1 & H2 & H3)|(H1 & s & H2 & _)].
    - rewrite <- H3, <- fabs_R. apply fle_R; auto.
      + pose proof (fvalid_sub a m Va Vm) as V. destruct (fsub a m); auto.
      + destruct (fsub a m); auto.
    - rewrite H2. pose proof (fR_bound mu Vmu) as B. fold big in B. pose proof (Rle_abs (fR mu)). split; [intros; lra|]. intros _.
      destruct mu; try discriminate; reflexivity. }
  split; auto. intros H. apply G.
  assert (M : (fR mu <= rnd (Rabs (fR a - fR m)))%R) by (rewrite <- (rnd_fR mu Vmu); now apply rnd_mono).
  unfold Rabs in M. destruct (Rcase_abs (fR a - fR m)) as [Hn|Hn].
  - rewrite rnd_opp in M. pose proof (Rle_abs (- rnd (fR a - fR m))%R) as L. rewrite Rabs_Ropp in L. lra.
  - pose proof (Rle_abs (rnd (fR a - fR m))). lra.
Qed.
Print Assumptions C15_threshold_float.

(** The two-dimensional kernel, used for dimZ = 0 (not reached from Python). *)
Theorem C15_2d : forall V (D : V -> Prop) lt (qs : list V -> list V) dflt inp r dimX dimY order out,
  weak_order D lt -> sorts D lt qs -> 0 <= r -> Permutation order (voxels2 dimX dimY) ->
  forall i j, 0 <= i < dimX -> 0 <= j < dimY ->
  let w := gather2 inp r dimX dimY i j in
  Forall D w ->
  (exists h, length w = (2 * h + 1)%nat /\ Z.of_nat (length w) = (2 * r + 1) ^ 2 /\
    kth lt w h (run2 qs dflt None inp r dimX dimY order out (j * dimX + i))) /\
  (forall v, In v w <-> exists i' j', 0 <= i' < dimX /\ 0 <= j' < dimY /\
    Z.abs (i' - i) <= r /\ Z.abs (j' - j) <= r /\ v = inp (j' * dimX + i')) /\
  (forall far, exists h m, length w = (2 * h + 1)%nat /\ kth lt w h m /\
    run2 qs dflt (Some far) inp r dimX dimY order inp (j * dimX + i) = (if far (inp (j * dimX + i)) m then m else inp (j * dimX + i))).
Proof.
  intros V D lt qs dflt inp r dimX dimY order out wo Hqs Hr P i j Hi Hj w HD.
  destruct (middle_is_median D lt wo qs Hqs dflt w HD (gather2_odd inp r dimX dimY i j Hr)) as (h & Hh & K).
  split; [|split].
  - exists h. split; auto. split; [unfold w; rewrite gather2_length by auto; rewrite Z2Nat.id; [auto|nia]|].
    rewrite (run2_order qs dflt None inp r dimX dimY order out i j P Hi Hj). exact K.
  - intros v. split; [now apply gather2_in|]. intros (i' & j' & H1 & H2 & H3 & H4 & ->). now apply gather2_complete.
  - intros far. exists h. eexists. split; [exact Hh|]. split; [exact K|].
    rewrite (run2_order qs dflt (Some far) inp r dimX dimY order inp i j P Hi Hj). reflexivity.
Qed.
Print Assumptions C15_2d.

Example C15_ex :
  let inp := fun x => nth (Z.to_nat x) [5; 1; 9; 7; 3; 8; 2; 6; 4] 0 in
  map (main3 (isort Z.ltb) 0 None inp (kernel_half_size 3) 3 3 1 (fun _ => 0)) [0; 4; 8] = [5; 5; 4] /\
  map (main3 (isort Z.ltb) 0 (thr_uint16 2 1) inp (kernel_half_size 3) 3 3 1 inp) [0; 2; 4; 7] = [5; 9; 5; 4] /\
  0 <= kernel_half_size 3 /\ map window_side [1; 3; 4; 5; 8] = [3; 3; 3; 5; 7].
Proof. repeat split. unfold kernel_half_size. lia. Qed.

(** ** C50: converted data are filtered by the float kernel *)
Theorem C50_kernel_matches_data_refuted : ~ (forall t, kernel_for (converted t) = Some (selected_kernel t)).
Proof. intros H. specialize (H DOther). discriminate H. Qed.
Print Assumptions C50_kernel_matches_data_refuted.

Theorem C50_kernel_matches_data_partial : forall t, t = DFloat32 \/ t = DUint16 ->
  kernel_for (converted t) = Some (selected_kernel t).
Proof. intros t [-> | ->]; reflexivity. Qed.
Print Assumptions C50_kernel_matches_data_partial.

(** ** C16 *)
Theorem C16_remove_outlier_exact : forall dif arr tmp i a t,
  nth_error arr i = Some a -> nth_error tmp i = Some t ->
  nth_error (remove_outlier dif arr tmp) i = Some (if fle dif (fsub a t) then t else a).
Proof. exact remove_outlier_spec. Qed.
Print Assumptions C16_remove_outlier_exact.

Theorem C16_never_raises_a_value : forall dif arr tmp i a t r,
  Forall (fun x => fvalid x = true) arr -> Forall (fun x => fvalid x = true) tmp ->
  fle fzero dif = true ->
  nth_error arr i = Some a -> nth_error tmp i = Some t ->
  nth_error (remove_outlier dif arr tmp) i = Some r -> flt a r = false.
Proof. exact remove_outlier_lowers. Qed.
Print Assumptions C16_never_raises_a_value.

Theorem C16_threshold_in_reals : forall dif a t,
  moderate a -> moderate t -> fvalid dif = true -> is_fin dif = true ->
  (fle dif (fsub a t) = true <-> (fR dif <= rnd (fR a - fR t))%R) /\
  ((fR dif <= fR a - fR t)%R -> outlier_px dif a t = t).
Proof.
  intros dif a t Ma Mt Vd Fd. destruct (moderate_sub a t Ma Mt) as (V & F & E).
  assert (I : fle dif (fsub a t) = true <-> (fR dif <= rnd (fR a - fR t))%R).
  { rewrite <- E. apply fle_R; auto. }
  split; auto. intros H. unfold outlier_px. rewrite (proj2 I); auto.
  rewrite <- (rnd_fR dif Vd). now apply rnd_mono.
Qed.
Print Assumptions C16_threshold_in_reals.

Example C16_ex :
  remove_outlier f_three [f_five; f_three; f_one; S754_infinity false; S754_nan] [f_one; f_one; f_five; f_one; f_one]
  = [f_one; f_three; f_one; f_one; S754_nan].
Proof. reflexivity. Qed.

(** ** C17 *)
Theorem C17_mask_is_disc : forall dx dy p q i j, 0 < q -> 0 < dx -> 0 < dy ->
  get_mask dx dy p q i j = true <->
  (centre_dist2 dx dy i j < Rsqr (IZR p / IZR q * (IZR (Z.min dx dy) / 2)))%R.
Proof. exact get_mask_disc. Qed.
Print Assumptions C17_mask_is_disc.

Theorem C17_circ_mask_all_axes : forall V n0 n1 n2 p q (val : V) a i j k,
  circ_mask (n0, n1, n2) 0 p q val a i j k = (if get_mask n1 n2 p q j k then a i j k else val) /\
  circ_mask (n0, n1, n2) 1 p q val a i j k = (if get_mask n0 n2 p q i k then a i j k else val) /\
  circ_mask (n0, n1, n2) 2 p q val a i j k = (if get_mask n0 n1 p q i j then a i j k else val).
Proof.
  intros. repeat split. rewrite circ_mask_axis2. now rewrite (get_mask_swap n1 n0).
Qed.
Print Assumptions C17_circ_mask_all_axes.

Theorem C17_symmetric_nested_idempotent :
  (forall dx dy p q i j, get_mask dx dy p q (dx - 1 - i) j = get_mask dx dy p q i j /\
                         get_mask dx dy p q i (dy - 1 - j) = get_mask dx dy p q i j) /\
  (forall dx dy p1 q1 p2 q2 i j, 0 < q1 -> 0 < q2 -> 0 <= p1 -> p1 * q2 <= p2 * q1 ->
     get_mask dx dy p1 q1 i j = true -> get_mask dx dy p2 q2 i j = true) /\
  (forall V d axis p q (val : V) a i j k, axis = 0 \/ axis = 1 \/ axis = 2 ->
     circ_mask d axis p q val (circ_mask d axis p q val a) i j k = circ_mask d axis p q val a i j k).
Proof. exact (conj get_mask_reflect (conj get_mask_mono (@circ_mask_idem))). Qed.
Print Assumptions C17_symmetric_nested_idempotent.

Example C17_ex :
  map (fun i => map (get_mask 4 4 1 1 i) [0; 1; 2; 3]) [0; 1; 2; 3]
  = [[false; true; true; false]; [true; true; true; true]; [true; true; true; true]; [false; true; true; false]].
Proof. reflexivity. Qed.

(** ** C49: failures inside a filter task are reported *)
Theorem C49_task_failures_refuted : ~ (forall (task : Z -> result Z) n out0 r,
  unobserved_filter task n out0 = Ok r -> forall s, 0 <= s < n -> task s = Ok (r s)).
Proof.
  intros H. specialize (H (fun _ => Raise ValueError) 1 (fun _ => 7) _ eq_refl 0 ltac:(lia)). discriminate H.
Qed.
Print Assumptions C49_task_failures_refuted.

Theorem C49_task_failures_partial : forall V (task : Z -> result V) n out0 r,
  (forall s, 0 <= s < n -> exists v, task s = Ok v) ->
  unobserved_filter task n out0 = Ok r -> forall s, 0 <= s < n -> task s = Ok (r s).
Proof.
  intros V task n out0 r H [= <-] s Hs. replace ((0 <=? s) && (s <? n)) with true by lia.
  destruct (H s Hs) as [v ->]. reflexivity.
Qed.
Print Assumptions C49_task_failures_partial.
