(** Ring removal (libtomo/misc/remove_ring.c). *)
From Verif Require Import Base CLoop Order Model_Float Proofs_Float Model_Prep Proofs_Prep Model_Ray Proofs_Ray Model_Solver Model_Ring Spec_Ring Proofs_Ring Proofs_RingMean Proofs_RingAll.
From Coq Require Import Reals Lra.
Local Open Scope Z_scope.

(** ** C30: sorting pairs and the rolling median *)
(** The first n pairs are the values [w p] with their positions p, in some order. *)
Definition holds {V} (w : Z -> V) (n : Z) (st : arr V * arr Z) : Prop :=
  Permutation (map (fun i => (snd st i, fst st i)) (zrange 0 n)) (map (fun p => (p, w p)) (zrange 0 n)).
(** The values are in increasing order. *)
Definition increasing {V} (lt : V -> V -> bool) (n : Z) (st : arr V * arr Z) : Prop :=
  forall i j, 0 <= i < j -> j < n -> lt (fst st j) (fst st i) = false.

Lemma NoDup_map_eq {A B} (f : A -> B) l x y : NoDup (map f l) -> In x l -> In y l -> f x = f y -> x = y.
Proof.
  induction l as [|a l IH]; cbn; intros N Hx Hy E; [contradiction|]. inversion N as [|? ? N1 N2]; subst.
  destruct Hx as [->|Hx], Hy as [->|Hy]; auto.
  - exfalso. apply N1. rewrite E. now apply in_map.
  - exfalso. apply N1. rewrite <- E. now apply in_map.
Qed.
Lemma holds_tracks {V} (w : Z -> V) n st : 0 <= n -> holds w n st <-> tracks w n st.
Proof.
  intros Hn. split.
  - intros P.
    assert (G : forall i, 0 <= i < n -> 0 <= snd st i < n /\ fst st i = w (snd st i)).
    { intros i Hi. assert (I : In (snd st i, fst st i) (map (fun p => (p, w p)) (zrange 0 n))).
      { eapply Permutation_in; [exact P|]. apply in_map_iff. exists i. split; auto. now apply in_zrange. }
      apply in_map_iff in I. destruct I as (p & E & I). apply in_zrange in I. inversion E; subst. auto. }
    split; [|split]; try (intros; now apply G).
    intros i j Hi Hj E. apply (Permutation_map fst) in P. rewrite !map_map in P. cbn in P. rewrite map_id in P.
    apply (NoDup_map_eq (fun i => snd st i) (zrange 0 n)); auto; try (now apply in_zrange).
    eapply Permutation_NoDup; [symmetry; exact P|apply NoDup_zrange].
  - intros T. unfold holds. pose proof (tracks_perm w n st Hn T) as P.
    apply (Permutation_map (fun p => (p, w p))) in P. rewrite map_map in P.
    erewrite map_ext_in; [exact P|]. intros i Hi. apply in_zrange in Hi. destruct T as (_ & _ & T). cbv beta. now rewrite T.
Qed.

(** quick_sort_2_arrays sorts the values and moves the positions along. *)
Theorem C30_quick_sort : forall {V} (D : V -> Prop) lt le, weak_order D lt -> (forall x y, D x -> D y -> le x y = negb (lt y x)) ->
  forall w n (st : arr V * arr Z), 0 <= n -> (forall p, 0 <= p < n -> D (w p)) -> holds w n st ->
  let st' := quick_sort le (Z.to_nat (n + 1)) st 0 (n - 1) in holds w n st' /\ increasing lt n st'.
Proof.
  intros V D lt le wo Hle w n st Hn HD H. cbv zeta.
  apply (holds_tracks _ _ _ Hn) in H.
  assert (Dst : forall i, 0 <= i <= n - 1 -> D (fst st i)).
  { intros i Hi. destruct H as (H1 & _ & H3). rewrite H3 by lia. apply HD. apply H1. lia. }
  split.
  - apply holds_tracks; auto. destruct (quick_sort_keeps D lt le (fst st 0) (Z.to_nat (n + 1)) st 0 (n - 1)) as (_ & _ & K). apply K; auto; lia.
  - pose proof (quick_sort_sorted D lt le (fst st 0) wo Hle (Z.to_nat (n + 1)) st 0 (n - 1) Dst ltac:(lia)) as S.
    intros i j Hij Hj. apply S; lia.
Qed.
(** bubble_2_arrays moves one misplaced element of at least two to its place. *)
Theorem C30_bubble : forall {V} (D : V -> Prop) lt, weak_order D lt ->
  forall w n (st : arr V * arr Z) idx, 2 <= n -> 0 <= idx < n -> (forall p, 0 <= p < n -> D (w p)) -> holds w n st ->
  (forall i j, 0 <= i < j -> j < n -> i <> idx -> j <> idx -> lt (fst st j) (fst st i) = false) ->
  let st' := bubble lt (Z.to_nat (n + 1)) st idx n in holds w n st' /\ increasing lt n st'.
Proof.
  intros V D lt wo w n st idx Hn Hi HD H S. cbv zeta.
  apply holds_tracks in H; [|lia]. split.
  - apply holds_tracks; [lia|]. now apply (bubble_tracks D lt (fun x y => negb (lt y x)) (fst st 0)).
  - assert (Dst : forall i, 0 <= i < n -> D (fst st i)).
    { intros i Hi'. destruct H as (H1 & _ & H3). rewrite H3 by lia. apply HD. apply H1. lia. }
    pose proof (bubble_sorted D lt (fun x y => negb (lt y x)) (fst st 0) wo (fun x y _ _ => eq_refl) n st idx (Z.to_nat (n + 1)) Hn Hi Dst S ltac:(lia)) as B.
    intros i j Hij Hj. apply B; lia.
Qed.
(** median_filter_fast_1D gives the median of the window at every position of the rectangle, and changes
    nothing else.  The window of the first position must end inside the image. *)
Theorem C30_rolling_median_partial : forall {V} (D : V -> Prop) lt le zero, weak_order D lt -> (forall x y, D x -> D y -> le x y = negb (lt y x)) ->
  forall (image out : arr V) width height start_row end_row start_col end_col rad,
  (forall i, D (image i)) -> D zero ->
  1 <= rad -> 0 <= start_col -> start_col + rad < width -> start_col <= end_col < width -> start_row <= end_row ->
  let out' := median_filter lt le zero out image start_row start_col end_row end_col rad width height in
  let pixel row col := image (row * width + col) in
  (forall row col, start_row <= row <= end_row -> start_col <= col <= end_col ->
     median_of lt (around (along pixel zero width height row) col rad) (out' (row * width + col))) /\
  (forall row col, 0 <= col < width -> (row < start_row \/ end_row < row \/ col < start_col \/ end_col < col) ->
     out' (row * width + col) = out (row * width + col)).
Proof.
  intros V D lt le zero wo Hle image out width height r0 r1 c0 c1 rad HD Hz Hr H0 Hw Hc Hrow. cbv zeta.
  destruct (median_filter_spec D lt le zero wo Hle image width height HD Hz out r0 c0 r1 c1 rad) as [A B]; auto.
  split; auto. intros row col Hrow' Hcol. unfold median_of.
  match goal with |- kth _ _ ?k _ => replace k with (Z.to_nat rad) end; [now apply A|].
  unfold around. rewrite map_length, zrange_length. rewrite <- (Nat2Z.id (_ / 2)). f_equal. rewrite Nat2Z.inj_div. lia.
Qed.
(** Floats that are not NaN. *)
Theorem C30_float_partial : forall (image out : arr f32) width height start_row end_row start_col end_col rad,
  (forall i, is_nan (image i) = false) ->
  1 <= rad -> 0 <= start_col -> start_col + rad < width -> start_col <= end_col < width -> start_row <= end_row ->
  forall row col, start_row <= row <= end_row -> start_col <= col <= end_col ->
  median_of flt (around (along (fun r c => image (r * width + c)) fzero width height row) col rad)
    (median_filter flt fle fzero out image start_row start_col end_row end_col rad width height (row * width + col)).
Proof.
  intros image out width height r0 r1 c0 c1 rad HD Hr H0 Hw Hc Hrow.
  apply (C30_rolling_median_partial (fun x => is_nan x = false) flt fle fzero float_weak_order fle_flt image out width height r0 r1 c0 c1 rad); auto.
Qed.
(** Radius 0 (rwidth = 0 gives m_rad / 3 = 0): the pair after the end of the one-element arrays is compared
    and swapped, so the filter of a constant image is not that constant. *)
Theorem C30_radius_zero_refuted :
  (exists (st : arr Z * arr Z) w, holds w 1 st /\ fst (bubble Z.ltb 2 st 0 1) 1 <> fst st 1) /\
  exists image : arr Z, (forall i, image i = 5) /\
    median_filter Z.ltb Z.leb 0 (fun _ => 0) image 0 0 0 2 ((2 * 0 + 1) / 3) 3 1 1 <> 5.
Proof.
  split.
  - exists (fun i => if i =? 0 then 5 else 0, fun i => i), (fun _ => 5). split; [apply Permutation_refl|]. cbv. discriminate.
  - exists (fun _ => 5). split; auto. vm_compute. discriminate.
Qed.
(** A first window that does not end inside the image continues in the next row and, in the last row, outside
    the array.  The outer third of a 5 x 5 slice (3 radii, 19 angles) with rwidth = 1. *)
Theorem C30_window_outside_refuted : exists image image' : arr Z,
  (forall i, 0 <= i < 19 * 3 -> image i = image' i) /\
  median_filter Z.ltb Z.leb 0 (fun _ => 0) image 0 (2 * 3 / 3) 18 2 (2 * 1 + 1) 3 19 (18 * 3 + 2) <>
  median_filter Z.ltb Z.leb 0 (fun _ => 0) image' 0 (2 * 3 / 3) 18 2 (2 * 1 + 1) 3 19 (18 * 3 + 2).
Proof.
  exists (fun i => if i <? 57 then 10 * (i mod 3) else 100), (fun i => if i <? 57 then 10 * (i mod 3) else -100). split.
  - intros i Hi. cbv beta. destruct (i <? 57) eqn:E; auto. lia.
  - vm_compute. discriminate.
Qed.
Example C30_ex : holds (fun p => 10 - p) 3 (quick_sort Z.leb 4 (fun i => 10 - i, fun i => i) 0 2) /\
  map (fun c => median_filter Z.ltb Z.leb 0 (fun _ => 0) (fun i => nth (Z.to_nat i) [7; 3; 9; 4; 1; 8; 2; 6] 0) 0 0 1 3 1 4 2 c) (zrange 0 8) = [7; 7; 4; 4; 3; 2; 6; 2].
Proof. split; vm_compute; [|reflexivity]. apply NoDup_Permutation; try (repeat constructor; cbn; intuition congruence). intros x. cbn. intuition. Qed.

(** ** C31: the rolling mean *)
(** Wrap-around for windows of up to the full turn on either side; reflection inside each half turn. *)
Theorem C31_rolling_mean_partial : forall (image out : arr R) width height rad (reflect : bool) start_col end_col,
  0 <= rad -> 0 < height -> (if reflect then rad <= height / 2 - 1 else rad <= height) -> 0 <= start_col <= end_col + 1 -> end_col < width ->
  let out' := mean_filter image width height rad reflect out 0 start_col (height - 1) end_col in
  let pixel row col := image (row * width + col) in
  let windowed row col := mean (around (fun r => pixel (neighbour reflect height row r) col) row rad) in
  (forall row col, 0 <= row < height -> start_col <= col <= end_col ->
     (forall n, - rad <= n <= rad -> 0 <= neighbour reflect height row (row + n) < height) /\
     (pixel row col <> 0%R -> out' (row * width + col) = windowed row col) /\
     (pixel row col = 0%R -> first_row reflect height row = true -> out' (row * width + col) = windowed row col) /\
     (pixel row col = 0%R -> first_row reflect height row = false -> out' (row * width + col) = 0%R)) /\
  (forall row col, 0 <= col < width -> (row < 0 \/ height <= row \/ col < start_col \/ end_col < col) ->
     out' (row * width + col) = out (row * width + col)).
Proof.
  intros image out width height rad reflect c0 c1 Hr Hh Hm H0 H1. cbv zeta.
  destruct (mean_filter_spec image width height rad Hr reflect out c0 c1) as [A B]; auto; [destruct reflect; lia|].
  split; [|exact B]. intros row col Hrow Hcol. rewrite A by auto. unfold azimuth, at_rc. split.
  { intros n Hn. unfold neighbour, mirrored, wrapped. destruct reflect.
    - destruct (row <? height / 2) eqn:E1.
      + destruct (row + n <? 0) eqn:E2; [lia|]. destruct (height / 2 - 1 <? row + n) eqn:E3; lia.
      + destruct (row + n <? height / 2) eqn:E2; [lia|]. destruct (height - 1 <? row + n) eqn:E3; lia.
    - lia. }
  destruct (Req_EM_T (image (row * width + col)) 0) as [E|E].
  - split; [intros; contradiction|]. split; intros _ ->; reflexivity.
  - rewrite andb_false_r. split; [auto|]. split; intros; contradiction.
Qed.
(** A difference that is zero (nothing to correct) stays zero, except in the first row. *)
Theorem C31_zero_stays_zero_refuted : exists image : arr R,
  image 0 = 0%R /\ mean_filter image 1 3 1 false (fun _ => 0%R) 0 0 2 0 0 <> 0%R.
Proof.
  exists (fun i => if i =? 0 then 0%R else 1%R). split; [reflexivity|].
  destruct (mean_filter_spec (fun i => if i =? 0 then 0%R else 1%R) 1 3 1 ltac:(lia) false (fun _ => 0%R) 0 0) as [A _]; try lia.
  specialize (A 0 0 ltac:(lia) ltac:(lia)). change (0 * 1 + 0) with 0 in A. change (3 - 1) with 2 in A. rewrite A.
  cbv -[Rplus Rdiv Rinv IZR INR]. unfold INR. lra.
Qed.
(** theta_min = 179 passes the checks of corr.py; for a 5 x 5 slice (19 angles) the reflected window of angle
    8 contains row -1, which does not exist. *)
Theorem C31_reflect_outside_refuted :
  m_azi_of 19 179 = 9 /\ exists image image' : arr R,
  (forall i, 0 <= i -> image i = image' i) /\
  mean_filter image 3 19 9 true (fun _ => 0%R) 0 2 18 2 (8 * 3 + 2) <> mean_filter image' 3 19 9 true (fun _ => 0%R) 0 2 18 2 (8 * 3 + 2).
Proof.
  split; [reflexivity|].
  exists (fun i => if i <? 0 then 0%R else 1%R), (fun _ => 1%R). split.
  - intros i Hi. cbv beta. destruct (i <? 0) eqn:E; auto. lia.
  - destruct (mean_filter_spec (fun i => if i <? 0 then 0%R else 1%R) 3 19 9 ltac:(lia) true (fun _ => 0%R) 2 2) as [A _]; try lia.
    destruct (mean_filter_spec (fun _ => 1%R) 3 19 9 ltac:(lia) true (fun _ => 0%R) 2 2) as [B _]; try lia.
    change 18 with (19 - 1). rewrite A, B by lia. clear A B. unfold azimuth, at_rc. cbn [negb andb first_row].
    replace (first_row true 19 8) with false by reflexivity. cbn [negb andb].
    change (8 * 3 + 2 <? 0) with false. cbv iota.
    destruct (Req_EM_T 1 0) as [E|_]; [lra|].
    cbv -[Rplus Rdiv Rinv IZR INR]. unfold INR. lra.
Qed.
Example C31_ex : neighbour false 19 1 (1 - 5) = 15 /\ neighbour true 20 1 (1 - 5) = 4 /\ neighbour true 20 8 (8 + 5) = 5 /\
  neighbour true 20 12 (12 - 5) = 13 /\ neighbour true 20 18 (18 + 5) = 15.
Proof. repeat split; reflexivity. Qed.

(** ** remove_ring as a whole, exact real arithmetic *)
(** Largest circle around the centre: [radii] pixels, sampled at [angles] angles. *)
Definition radii (center_x center_y : R) (dx dy : Z) : Z := min_distance_to_edge center_x center_y dx dy.
Definition angles (center_x center_y : R) (dx dy : Z) : Z := pol_height_of (radii center_x center_y dx dy).
(** Slice sizes and parameters for which all windows stay inside the polar image. *)
Definition fits (center_x center_y : R) (dx dy theta_min rwidth : Z) (reflect : bool) : Prop :=
  let w := radii center_x center_y dx dy in
  let h := angles center_x center_y dx dy in
  0 <= dx /\ 0 <= dy /\ 1 <= w /\ 1 <= rwidth /\ 2 * w / 3 + (2 * rwidth + 1) < w /\ 0 <= theta_min < 180 /\
  (reflect = true -> h * theta_min / 360 <= h / 2 - 1).
Definition atan2_range (atan2 : R -> R -> R) : Prop := forall y x, (- PI <= atan2 y x <= PI)%R.
Definition distance (center_x center_y : R) (row col : Z) : R :=
  sqrt ((IZR row - center_y) * (IZR row - center_y) + (IZR col - center_x) * (IZR col - center_x)).

(** The ring image is: local median along the ray subtracted, large differences dropped, azimuthal mean. *)
Theorem C60_ring_image : forall (polar : arr R) h w m_rad m_azi threshold (reflect : bool),
  0 < h -> 3 <= w -> 3 <= m_rad -> 2 * w / 3 + m_rad < w -> 0 <= m_azi -> (if reflect then m_azi <= h / 2 - 1 else m_azi <= h) ->
  let pixel row col := polar (row * w + col) in
  exists med : Z -> Z -> R,
    (forall row col, 0 <= row < h -> 0 <= col < w ->
       let rad := third w m_rad col in kth rltb (around (along pixel 0%R w h row) col rad) (Z.to_nat rad) (med row col)) /\
    (forall row col, 0 <= row < h -> 0 <= col < w ->
       ring_filter polar h w threshold m_rad m_azi reflect (row * w + col) =
       azimuth (fun r c => small_only threshold (pixel r c - med r c)) reflect h (third w m_azi col) row col).
Proof. intros polar h w m_rad m_azi threshold reflect H1 H2 H3 H4 H5 H6. exact (ring_filter_spec polar h w m_rad m_azi threshold reflect H1 H2 H3 H4 H5 H6). Qed.
(** [n] is a nearest integer to [x]. *)
Definition nearest (x : R) (n : Z) : Prop := (Rabs (x - IZR n) <= 1 / 2)%R.
Lemma iround_nearest x : nearest x (iround x).
Proof.
  unfold nearest, iround. destruct (base_Int_part (x + 1 / 2)) as [B1 B2]. apply Rabs_le. lra.
Qed.
(** The polar image holds, for each angle (in the middle of its sector) and radius, the nearest pixel of the
    slice, limited to the range thresh_min .. thresh_max. *)
Theorem C60_polar_image : forall center_x center_y data dx dy thresh_max thresh_min row r,
  (thresh_min <= thresh_max)%R -> let w := radii center_x center_y dx dy in let h := angles center_x center_y dx dy in
  0 <= row < h -> 0 <= r < w ->
  let theta := ((IZR row + 1 / 2) * (2 * pi_c / IZR h))%R in
  exists x y, nearest (center_x + IZR r * cos theta) x /\ nearest (center_y + IZR r * sin theta) y /\ 0 <= x < dx /\ 0 <= y < dy /\
    polar_transform center_x center_y data dx w h thresh_max thresh_min (row * w + r) = Rmin thresh_max (Rmax thresh_min (data (y * dx + x))).
Proof.
  intros cx cy data dx dy tmax tmin row r Ht. cbv zeta. intros Hr Hc. unfold angles, radii in *.
  set (w := min_distance_to_edge cx cy dx dy) in *. set (h := pol_height_of w) in *.
  exists (polar_x cx h row r), (polar_y cy h row r).
  assert (Hh : (IZR h <> 0)%R) by (apply not_0_IZR; lia).
  assert (A : (IZR row * 2 * pi_c / IZR h + pi_c / IZR h = (IZR row + 1 / 2) * (2 * pi_c / IZR h))%R) by (field; auto).
  destruct (polar_inside cx cy (fun _ _ => 0%R) dx dy 0%R ltac:(unfold w in Hc; lia) row r Hc) as (P1 & P2). fold w in P1, P2. fold h in P1, P2.
  split; [|split; [|split; [|split]]]; auto.
  - unfold polar_x. rewrite A. rewrite (Rplus_comm cx). apply iround_nearest.
  - unfold polar_y. rewrite A. rewrite (Rplus_comm cy). apply iround_nearest.
  - pose proof (polar_spec cx cy (fun _ _ => 0%R) dx dy tmax tmin) as PS. cbv zeta in PS. fold w in PS. fold h in PS.
    rewrite PS; auto; [|lia]. unfold clip.
    set (v := data _). unfold Rmin, Rmax. destruct (rltb tmax v) eqn:E1; [apply rltb_spec in E1|apply rltb_false in E1; destruct (rltb v tmin) eqn:E2; [apply rltb_spec in E2|apply rltb_false in E2]];
    destruct (Rle_dec tmin v); destruct (Rle_dec tmax _); lra.
Qed.
(** Each pixel of the slice is reduced by the element of the ring image nearest in radius and angle, where the
    angle is the one of the point shifted by pi / h. *)
Theorem C60_pixel : forall center_x center_y atan2 data dx dy thresh_max thresh_min threshold theta_min rwidth reflect row col,
  0 <= row < dy -> 0 <= col < dx ->
  let w := radii center_x center_y dx dy in let h := angles center_x center_y dx dy in
  let ring := ring_filter (polar_transform center_x center_y data dx w h thresh_max thresh_min) h w threshold (2 * rwidth + 1) (h * theta_min / 360) reflect in
  let theta := atan2 (IZR row - center_y)%R (IZR col - center_x - pi_c / IZR h)%R in
  let turn := if Rlt_dec theta 0 then (theta + 2 * pi_c)%R else theta in
  exists p q, nearest (turn * IZR h / (2 * pi_c)) p /\ nearest (distance center_x center_y row col) q /\
    ring_slice center_x center_y atan2 data dx dy thresh_max thresh_min threshold theta_min rwidth reflect (row * dx + col) =
    (data (row * dx + col)%Z - (if ((p <? h) && (q <? w))%Z then ring (p * w + q)%Z else 0))%R.
Proof.
  intros cx cy atan2 data dx dy tmax tmin t th rw refl row col Hr Hc. cbv zeta.
  destruct (slice_spec cx cy atan2 dx dy tmax tmin t th rw refl data ltac:(lia) ltac:(lia)) as [E _]. rewrite E by auto.
  unfold inverse_at, angles, radii, m_azi_of. eexists _, _.
  split; [|split; [|reflexivity]].
  - unfold inverse_row, rltb. match goal with |- context [atan2 ?y ?x] => set (a := atan2 y x) end.
    destruct (Rlt_dec a 0); apply iround_nearest.
  - apply iround_nearest.
Qed.
(** Finding: the last half sector before a full turn is rounded to sector h, which does not exist, so its
    pixels are not corrected at all. *)
Theorem C60_seam_refuted : forall center_x center_y atan2 data dx dy thresh_max thresh_min threshold theta_min rwidth reflect row col,
  0 <= row < dy -> 0 <= col < dx -> let h := angles center_x center_y dx dy in 0 < h ->
  (- (pi_c / IZR h) <= atan2 (IZR row - center_y) (IZR col - center_x - pi_c / IZR h) < 0)%R ->
  ring_slice center_x center_y atan2 data dx dy thresh_max thresh_min threshold theta_min rwidth reflect (row * dx + col) = data (row * dx + col).
Proof.
  intros cx cy atan2 data dx dy tmax tmin t th rw refl row col Hr Hc. cbv zeta. unfold angles, radii. intros Hh Ha.
  destruct (slice_spec cx cy atan2 dx dy tmax tmin t th rw refl data ltac:(lia) ltac:(lia)) as [E _]. rewrite E by auto.
  set (w := min_distance_to_edge cx cy dx dy) in *. set (h := pol_height_of w) in *.
  unfold inverse_at. assert (G : h <= inverse_row cx cy atan2 h row col).
  { unfold inverse_row. set (a := atan2 _ _) in *. replace (rltb a 0) with true by (symmetry; apply rltb_spec; lra).
    apply iround_ge. assert (0 < pi_c)%R by (unfold pi_c; lra). assert (0 < IZR h)%R by (apply IZR_lt; lia).
    replace ((a + 2 * pi_c) * IZR h / (2 * pi_c))%R with (IZR h + a * IZR h / (2 * pi_c))%R by (field; lra).
    assert (- (1 / 2) <= a * IZR h / (2 * pi_c))%R; [|lra].
    replace (- (1 / 2))%R with (- (pi_c / IZR h) * IZR h / (2 * pi_c))%R by (field; lra).
    unfold Rdiv. apply Rmult_le_compat_r; [left; apply Rinv_0_lt_compat; lra|]. apply Rmult_le_compat_r; [lra|]. unfold Rdiv in Ha. lra. }
  destruct (inverse_row cx cy atan2 h row col <? h) eqn:E1; [lia|]. cbn [andb]. lra.
Qed.
(** No pixel changes by more than the threshold. *)
Theorem C60_bounded_change : forall center_x center_y atan2 data dx dy thresh_max thresh_min threshold theta_min rwidth reflect row col,
  atan2_range atan2 -> fits center_x center_y dx dy theta_min rwidth reflect -> 0 <= row < dy -> 0 <= col < dx ->
  (Rabs (ring_slice center_x center_y atan2 data dx dy thresh_max thresh_min threshold theta_min rwidth reflect (row * dx + col)%Z
         - data (row * dx + col)%Z) <= Rabs threshold)%R.
Proof.
  intros cx cy atan2 data dx dy tmax tmin t th rw refl row col Ha (F1 & F2 & F3 & F4 & F5 & F6 & F7) Hr Hc.
  apply (slice_bound cx cy atan2 dx dy tmax tmin t th rw refl); auto.
Qed.
(** A constant slice is not changed. *)
Theorem C61_constant : forall center_x center_y atan2 data dx dy thresh_max thresh_min threshold theta_min rwidth reflect c,
  atan2_range atan2 -> fits center_x center_y dx dy theta_min rwidth reflect ->
  (forall row col, 0 <= row < dy -> 0 <= col < dx -> data (row * dx + col) = c) ->
  forall row col, 0 <= row < dy -> 0 <= col < dx ->
  ring_slice center_x center_y atan2 data dx dy thresh_max thresh_min threshold theta_min rwidth reflect (row * dx + col) = c.
Proof.
  intros cx cy atan2 data dx dy tmax tmin t th rw refl c Ha (F1 & F2 & F3 & F4 & F5 & F6 & F7) H row col Hr Hc.
  apply (slice_constant cx cy atan2 dx dy tmax tmin t th rw refl); auto.
Qed.
(** Pixels outside the circle are never changed, whatever the other parameters. *)
Theorem C62_outside_circle : forall center_x center_y atan2 data dx dy thresh_max thresh_min threshold theta_min rwidth reflect row col,
  0 <= row < dy -> 0 <= col < dx -> (IZR (radii center_x center_y dx dy) - 1 / 2 <= distance center_x center_y row col)%R ->
  ring_slice center_x center_y atan2 data dx dy thresh_max thresh_min threshold theta_min rwidth reflect (row * dx + col) = data (row * dx + col).
Proof.
  intros cx cy atan2 data dx dy tmax tmin t th rw refl row col Hr Hc Hd.
  apply (slice_outside cx cy atan2 dx dy tmax tmin t th rw refl); auto; lia.
Qed.
(** Polar sampling reads pixels of the slice only. *)
Theorem C62_samples_inside : forall center_x center_y dx dy row r, 0 <= r < radii center_x center_y dx dy ->
  let h := angles center_x center_y dx dy in
  0 <= polar_x center_x h row r < dx /\ 0 <= polar_y center_y h row r < dy.
Proof. intros cx cy dx dy row r Hr. apply (polar_inside cx cy (fun _ _ => 0%R) dx dy 0%R); auto. unfold radii in Hr. lia. Qed.
(** Slices istart .. iend-1 are corrected one by one, each from its own pixels; the others are not changed. *)
Theorem C62_slices : forall center_x center_y atan2 dx dy thresh_max thresh_min threshold theta_min rwidth reflect data data' istart iend s,
  atan2_range atan2 -> fits center_x center_y dx dy theta_min rwidth reflect -> istart <= iend ->
  let run d := remove_ring center_x center_y atan2 d dx dy thresh_max thresh_min threshold theta_min rwidth reflect istart iend in
  (istart <= s < iend -> (forall i, 0 <= i < dy * dx -> data (s * dy * dx + i) = data' i) ->
     forall i, 0 <= i < dy * dx -> run data (s * dy * dx + i) =
       ring_slice center_x center_y atan2 data' dx dy thresh_max thresh_min threshold theta_min rwidth reflect i) /\
  (s < istart \/ iend <= s -> forall i, 0 <= i < dy * dx -> run data (s * dy * dx + i) = data (s * dy * dx + i)).
Proof.
  intros cx cy atan2 dx dy tmax tmin t th rw refl data data' i0 i1 s Ha (F1 & F2 & F3 & F4 & F5 & F6 & F7) Hi. cbv zeta.
  destruct (remove_ring_spec cx cy atan2 dx dy tmax tmin t th rw refl F3 Ha F4 F5 F6 F7 F1 F2 data i0 i1 Hi) as [A B].
  split; [|auto]. intros Hs Hd i Hr. rewrite A by auto. apply (slice_local cx cy atan2 dx dy tmax tmin t th rw refl); auto.
Qed.
(** A centre outside the slice: no angle is sampled, but the first row pointer of the polar image is written
    (remove_ring.c line 95) and the first column of ring row 0 is not there. *)
Theorem C62_centre_outside_refuted : exists center_x center_y dx dy, 0 < dx /\ 0 < dy /\ angles center_x center_y dx dy = 0.
Proof.
  exists (-1)%R, 2%R, 5, 5. split; [lia|]. split; [lia|]. unfold angles, radii, min_distance_to_edge.
  assert (T : forall x k, (0 <= x)%R -> (IZR k <= x < IZR k + 1)%R -> trunc x = k).
  { intros x k Hx Hk. unfold trunc. replace (rltb x 0) with false by (symmetry; now apply rltb_false). now apply Int_part_spec. }
  rewrite (T (-1 + 1)%R 0), (T (2 + 1)%R 3), (T (5 - -1)%R 6), (T (5 - 2)%R 3) by lra.
  change (Z.min (Z.min 0 3) (Z.min 6 3)) with 0. unfold pol_height_of, iround. apply Int_part_spec. lra.
Qed.
(** The parameters fit: a 101 x 101 slice with rwidth 5 and theta_min 30. *)
Example C60_ex : fits 50 50 101 101 30 5 true /\ radii 50 50 101 101 = 51 /\ angles 50 50 101 101 = 320.
Proof.
  assert (T : forall x k, (0 <= x)%R -> (IZR k <= x < IZR k + 1)%R -> trunc x = k).
  { intros x k Hx Hk. unfold trunc. replace (rltb x 0) with false by (symmetry; now apply rltb_false). now apply Int_part_spec. }
  assert (R : radii 50 50 101 101 = 51).
  { unfold radii, min_distance_to_edge. now rewrite (T (50 + 1)%R 51), (T (101 - 50)%R 51) by lra. }
  assert (A : angles 50 50 101 101 = 320). { unfold angles. rewrite R. unfold pol_height_of, iround, pi_c. apply Int_part_spec. lra. }
  unfold fits. rewrite R, A. repeat split; auto; try lia. all: try (intros _; vm_compute; discriminate).
Qed.

Print Assumptions C30_quick_sort.
Print Assumptions C30_bubble.
Print Assumptions C30_rolling_median_partial.
Print Assumptions C30_float_partial.
Print Assumptions C31_rolling_mean_partial.
Print Assumptions C60_ring_image.
Print Assumptions C60_polar_image.
Print Assumptions C60_pixel.
Print Assumptions C60_bounded_change.
Print Assumptions C61_constant.
Print Assumptions C62_outside_circle.
Print Assumptions C62_slices.
Print Assumptions C30_radius_zero_refuted.
Print Assumptions C30_window_outside_refuted.
Print Assumptions C31_zero_stays_zero_refuted.
Print Assumptions C31_reflect_outside_refuted.
Print Assumptions C60_seam_refuted.
Print Assumptions C62_samples_inside.
Print Assumptions C62_centre_outside_refuted.
