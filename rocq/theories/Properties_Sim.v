(** Simulated projections (sim/project.py with libtomo/recon/project.c), exact real arithmetic. *)
From Verif Require Import Base CLoop Model_Prep Model_Ray Model_Solver Model_Sim Proofs_Prep Proofs_Morph Proofs_Ray
  Properties_Ray Proofs_Solver Proofs_Unit Proofs_Axis Properties_Solver Proofs_Sim.
From Coq Require Import Reals Lra Psatz.
Local Open Scope R_scope.

(** ** Vocabulary *)
(** Element of a three dimensional array, of a flat volume and slice s of a flat volume. *)
Definition elem (a : array3) (i j k : Z) : R := values a (k + j * shape2 a + i * shape1 a * shape2 a)%Z.
Definition voxel (ox oz : Z) (obj : arr R) (s x y : Z) : R := obj (y + x * oz + s * (ox * oz))%Z.
Definition slice_of (ox oz : Z) (obj : arr R) (s : Z) : Z -> R := fun j => obj (j + s * (ox * oz))%Z.
(** The chunks hold every slice once. *)
Definition splits (chunks : list (Z * Z)) (n : Z) : Prop := Permutation (covered chunks) (zrange 0 n).
(** The centre used if all slices share it. *)
Definition common_center (dx : Z) (center : center_arg) (c : R) : Prop :=
  match center with NoCenter => c = IZR dx / 2 | OneCenter c' => c = c' | Centers a => forall s, a s = c end.
Definition measured (emission : bool) (x : R) : R := if emission then x else exp (- x).

(** ** C79: opposite views *)
(** Pixels on opposite sides of the axis record the same line at opposite angles. *)
Theorem C79_same_line : forall ry rz dx c t d d' image, (1 <= ry)%Z -> (1 <= rz)%Z -> angle_ok t ->
  detector dx c d' = - detector dx c d ->
  ray_sum (ray ry rz dx c (t + PI) d') image = ray_sum (ray ry rz dx c t d) image.
Proof. exact ray_opposite. Qed.
(** With the axis in the middle of the detector, opposite projections are mirror images. *)
Theorem C79_mirror : forall g obj s p p' d, valid g -> (0 <= s < dy g)%Z -> is_ray g p d -> (0 <= p' < dt g)%Z ->
  center g 0%Z = IZR (dx g) / 2 -> angle_ok (theta g p) -> theta g p' = theta g p + PI ->
  project g obj (fun _ => 0) (ind_data g s p' (dx g - 1 - d)) = project g obj (fun _ => 0) (ind_data g s p d).
Proof.
  intros g obj s p p' d Hg Hs [Hp Hd] Hp' Hc Ha Ht.
  rewrite !C23_ray_sums by (auto; split; lia). f_equal. unfold rays. rewrite Hc, Ht.
  destruct Hg as (H1 & H2 & _). apply C79_same_line; auto.
  rewrite !detector_default, !minus_IZR. lra.
Qed.

(** ** C81: values, shape and order of the simulated projections *)
Lemma width_pos pad ox oz dx : (1 <= ox)%Z -> (1 <= oz)%Z -> width pad ox oz = Ok dx -> (1 <= dx)%Z.
Proof.
  intros Hx Hz. destruct pad; cbn [width]; intros [= <-]; auto.
  destruct (round_to_even_spec (sqrt (IZR (ox * ox + oz * oz)) + 2)) as [[H _] _].
  pose proof (sqrt_pos (IZR (ox * ox + oz * oz))). apply le_IZR. lra.
Qed.
Lemma splits_in chunks n s : splits chunks n -> (0 <= s < n)%Z -> NoDup (covered chunks) /\ In s (covered chunks).
Proof.
  intros H Hs. split.
  - apply (Permutation_NoDup (Permutation_sym H)), NoDup_zrange.
  - apply (Permutation_in _ (Permutation_sym H)). now apply in_zrange.
Qed.
(** Whatever the chunks: every value is the line sum of its slice, along the ray of its angle and detector pixel,
    with the centre of the first slice of its chunk. *)
Theorem C81_values : forall chunks oy ox oz obj dt theta center emission pad order r,
  (1 <= oy)%Z -> (1 <= ox)%Z -> (1 <= oz)%Z -> (0 <= dt)%Z -> splits chunks oy ->
  py_project chunks oy ox oz obj dt theta center emission pad order = Ok r ->
  exists dx, width pad ox oz = Ok dx /\
    (shape0 r, shape1 r, shape2 r) = (if order then (oy, dt, dx) else (dt, oy, dx)) /\
    forall s p d, (0 <= s < oy)%Z -> (0 <= p < dt)%Z -> (0 <= d < dx)%Z ->
    exists a b, In (a, b) chunks /\ (a <= s < b)%Z /\
      (if order then elem r s p d else elem r p s d) =
      measured emission (ray_sum (ray ox oz dx (get_center dx center a) (theta p) d) (slice_of ox oz obj s)).
Proof.
  intros chunks oy ox oz obj dt theta center emission pad order r Hy Hx Hz Ht Hc. unfold py_project.
  destruct (width pad ox oz) as [e|dx] eqn:Ew; [discriminate|]. intros E. injection E as E.
  pose proof (width_pos _ _ _ _ Hx Hz Ew) as Hdx. exists dx. split; [auto|]. subst r. split; [destruct order; reflexivity|].
  intros s p d Hs Hp Hd. destruct (splits_in _ _ _ Hc Hs) as [Hn Hi].
  destruct (jobs_in ox oz dt dx Hx Hz Ht Hdx (get_center dx center) theta obj chunks s p d (fun _ => 0) Hp Hd Hn Hi) as (a & b & H1 & H2 & H3).
  exists a, b. split; auto. split; auto. rewrite Rplus_0_l in H3.
  unfold elem. destruct order; cbn [values shape0 shape1 shape2].
  - unfold measured, slice_of. destruct emission; rewrite <- H3; do 1 f_equal.
  - rewrite swapaxes01_at by auto. unfold measured, slice_of. destruct emission; rewrite <- H3; reflexivity.
Qed.
(** With a common centre the chunks do not matter. *)
Theorem C81_common_center : forall chunks oy ox oz obj dt theta center emission pad order r dx c,
  (1 <= oy)%Z -> (1 <= ox)%Z -> (1 <= oz)%Z -> (0 <= dt)%Z -> splits chunks oy -> common_center dx center c ->
  py_project chunks oy ox oz obj dt theta center emission pad order = Ok r -> width pad ox oz = Ok dx ->
  forall s p d, (0 <= s < oy)%Z -> (0 <= p < dt)%Z -> (0 <= d < dx)%Z ->
    (if order then elem r s p d else elem r p s d) =
    measured emission (ray_sum (ray ox oz dx c (theta p) d) (slice_of ox oz obj s)).
Proof.
  intros chunks oy ox oz obj dt theta center emission pad order r dx c Hy Hx Hz Ht Hc Hcc E Ew s p d Hs Hp Hd.
  destruct (C81_values _ _ _ _ _ _ _ _ _ _ _ _ Hy Hx Hz Ht Hc E) as (dx' & Ew' & _ & H).
  rewrite Ew in Ew'. injection Ew' as <-. destruct (H s p d Hs Hp Hd) as (a & b & _ & _ & ->).
  replace (get_center dx center a) with c; auto.
  destruct center; cbn in *; auto; lra.
Qed.
(** Transmission values are in (0, 1] for non-negative objects, and minus their logarithm is the emission value. *)
Theorem C81_transmission : forall chunks oy ox oz obj dt theta center pad order r r' i,
  py_project chunks oy ox oz obj dt theta center true pad order = Ok r ->
  py_project chunks oy ox oz obj dt theta center false pad order = Ok r' ->
  0 < values r' i /\ - ln (values r' i) = values r i /\ (0 <= values r i -> values r' i <= 1).
Proof.
  intros chunks oy ox oz obj dt theta center pad order r r' i. unfold py_project.
  destruct (width pad ox oz); [discriminate|]. intros E E'. injection E as <-. injection E' as <-.
  destruct order; cbn [values]; unfold swapaxes01; (split; [apply exp_pos|]; split; [rewrite ln_exp; ring|]);
    intros H; rewrite <- exp_0; (destruct H as [H|H]; [left; apply exp_increasing; lra|right; f_equal; lra]).
Qed.
(** Only the constants True and False are understood as pad. *)
Theorem C81_pad_refuted : forall chunks oy ox oz obj dt theta center emission order,
  py_project chunks oy ox oz obj dt theta center emission IsOther order = Raise UnboundLocalError.
Proof. reflexivity. Qed.
(** Angles: as many as asked for, from the first to the last, in equal steps, in radian. *)
Theorem C81_angles : forall n a b, (0 <= n)%Z -> exists l, angles n a b = Ok l /\ Z.of_nat (length l) = n /\
  ((1 <= n)%Z -> nth 0 l 0 = a * PI / 180) /\
  ((2 <= n)%Z -> nth (Z.to_nat (n - 1)) l 0 = b * PI / 180 /\
     forall i, (S i < length l)%nat -> nth (S i) l 0 - nth i l 0 = (b - a) * PI / 180 / IZR (n - 1)).
Proof.
  intros n a b Hn. unfold angles, linspace. replace (n <? 0)%Z with false by lia. eexists. split; [reflexivity|].
  set (f := fun i : Z => _). rewrite map_length, zrange_length. split; [lia|].
  assert (N : forall i, (i < Z.to_nat n)%nat -> nth i (map f (zrange 0 n)) 0 = f (Z.of_nat i)).
  { intros i Hi. erewrite nth_indep by (rewrite map_length, zrange_length; lia). rewrite map_nth.
    f_equal. apply nth_error_nth. rewrite nth_error_zrange by lia. reflexivity. }
  split.
  - intros H. rewrite N by lia. unfold f. cbn [Z.of_nat]. destruct (n =? 1)%Z; lra.
  - intros H. assert (IZR (n - 1) <> 0) by (apply not_0_IZR; lia). split.
    + rewrite N by lia. unfold f. replace (n =? 1)%Z with false by lia. rewrite Z2Nat.id by lia. field. auto.
    + intros i Hi. rewrite !N by lia. unfold f. replace (n =? 1)%Z with false by lia.
      rewrite Nat2Z.inj_succ, succ_IZR. field. auto.
  Unshelve. exact 0%Z.
Qed.
Theorem C81_angles_negative : forall n a b, (n < 0)%Z -> angles n a b = Raise ValueError.
Proof. intros. unfold angles, linspace. now replace (n <? 0)%Z with true by lia. Qed.

(** ** C79, continued: the default angles contain both ends of a half turn, so the last projection repeats the first *)
Theorem C79_default_angles : forall n l chunks oy ox oz obj pad order r s d emission, (2 <= n)%Z ->
  (1 <= oy)%Z -> (1 <= ox)%Z -> (1 <= oz)%Z -> splits chunks oy ->
  angles n 0 180 = Ok l ->
  py_project chunks oy ox oz obj n (fun p => nth (Z.to_nat p) l 0) NoCenter emission pad order = Ok r ->
  (0 <= s < oy)%Z -> (0 <= d < shape2 r)%Z ->
  if order then elem r s (n - 1) (shape2 r - 1 - d) = elem r s 0 d
  else elem r (n - 1) s (shape2 r - 1 - d) = elem r 0 s d.
Proof.
  intros n l chunks oy ox oz obj pad order r s d emission Hn Hy Hx Hz Hc Hl E Hs Hd. assert (Ht0 : (0 <= n)%Z) by lia.
  destruct (C81_angles n 0 180 ltac:(lia)) as (l' & El & _ & H0 & H1). rewrite Hl in El. injection El as <-.
  specialize (H0 ltac:(lia)). destruct (H1 ltac:(lia)) as [H2 _].
  destruct (C81_values _ _ _ _ _ _ _ _ _ _ _ _ Hy Hx Hz Ht0 Hc E) as (dx & Ew & Es & _).
  assert (shape2 r = dx) by (destruct order; now injection Es). rewrite H in *.
  pose proof (fun p d => C81_common_center _ _ _ _ _ _ _ _ _ _ _ _ _ _ Hy Hx Hz Ht0 Hc (eq_refl : common_center dx NoCenter _) E Ew s p d Hs) as V.
  pose proof (V (n - 1)%Z (dx - 1 - d)%Z ltac:(lia) ltac:(lia)) as V1. pose proof (V 0%Z d ltac:(lia) ltac:(lia)) as V2.
  cbn beta in V1, V2. change (Z.to_nat 0) with 0%nat in V2. rewrite H2 in V1. rewrite H0 in V2.
  replace (180 * PI / 180) with (0 + PI) in V1 by field. replace (0 * PI / 180) with 0 in V2 by field.
  rewrite C79_same_line with (d := d) in V1; auto.
  - destruct order; now rewrite V1, V2.
  - right. rewrite sin_0. ring.
  - rewrite !detector_default, !minus_IZR. lra.
Qed.
(** With the axis on a detector pixel the central ray runs along a grid line of an image of even size; it is counted
    in different rows from the two sides. *)
Definition split_geom : geom := mkGeom 2 2 1 2 2 (fun _ => 1 / 2) (fun p => IZR p * PI).
Theorem C79_gridline_refuted : exists obj, valid split_geom /\
  detector 2 (1 / 2) 0 = 1 / 100 /\
  project split_geom obj (fun _ => 0) (ind_data split_geom 0 0 0) = 2 /\
  project split_geom obj (fun _ => 0) (ind_data split_geom 0 1 0) = 0.
Proof.
  exists (fun i => if (i mod 2 =? 1)%Z then 1 else 0). split; [unfold valid; cbn; lia|].
  assert (Hd : detector 2 (1 / 2) 0 = 1 / 100).
  { unfold detector, mov. replace (Int_part _) with 0%Z by (symmetry; apply Int_part_spec; lra).
    replace (rltb _ _) with true by (symmetry; apply rltb_spec; lra). lra. }
  split; auto. rewrite !C23_ray_sums by (try (unfold valid; cbn; lia); try (unfold is_ray; cbn; lia); cbn; lia).
  unfold rays, ray. cbn [ngridx ngridy dx center theta split_geom].
  destruct (ray_trace_eq 2 2 2 (1 / 2) (0 * PI) 0) as (q & -> & _).
  destruct (ray_trace_eq 2 2 2 (1 / 2) (1 * PI) 0) as (q' & -> & _).
  rewrite Hd, Rmult_0_l, Rmult_1_l, sin_0, cos_0, sin_PI, cos_PI.
  rewrite !row_segments by (lia || lra || (apply xi_ne; lia)).
  replace (inside 2 (1 / 100 * 1)) with true by (symmetry; apply inside_spec; unfold grid, margin; lra).
  replace (inside 2 (1 / 100 * -1)) with true by (symmetry; apply inside_spec; unfold grid, margin; lra).
  replace (Int_part (1 / 100 * 1 + 2 / 2)) with 1%Z by (symmetry; apply Int_part_spec; lra).
  replace (Int_part (1 / 100 * -1 + 2 / 2)) with 0%Z by (symmetry; apply Int_part_spec; lra).
  change (zrange 0 2) with [0%Z; 1%Z]. unfold ray_sum, image_of, rsum. cbn. split; lra.
Qed.

(** ** C80: what the detector sees *)
(** With pad=True every point of the object falls between the first and the last detector pixel, at every angle. *)
Theorem C80_padded_covers : forall ox oz dx t x y, (1 <= ox)%Z -> (1 <= oz)%Z -> width IsTrue ox oz = Ok dx ->
  grid ox 0 <= x <= grid ox ox -> grid oz 0 <= y <= grid oz oz ->
  detector dx (IZR dx / 2) 0 < cos t * y - sin t * x < detector dx (IZR dx / 2) (dx - 1).
Proof.
  intros ox oz dx t x y Hx Hz [= E] Bx By. subst dx.
  destruct (round_to_even_spec (sqrt (IZR (ox * ox + oz * oz)) + 2)) as [[H _] _].
  set (dx := round_to_even _) in *. rewrite !detector_default, minus_IZR.
  assert (Rabs (cos t * y - sin t * x) <= sqrt (IZR (ox * ox + oz * oz)) / 2) as B.
  { rewrite <- half_diagonal. apply diagonal_bound; apply Rabs_le; unfold grid in *; lra. }
  pose proof (Rle_abs (cos t * y - sin t * x)). pose proof (Rle_abs (- (cos t * y - sin t * x))). rewrite Rabs_Ropp in *. lra.
Qed.
(** So the first and the last column of every padded projection are zero. *)
Theorem C80_padded_border : forall chunks oy ox oz obj dt theta pad order r s p d, pad = IsTrue ->
  (1 <= oy)%Z -> (1 <= ox)%Z -> (1 <= oz)%Z -> splits chunks oy ->
  py_project chunks oy ox oz obj dt theta NoCenter true pad order = Ok r ->
  (0 <= s < oy)%Z -> (0 <= p < dt)%Z -> d = 0%Z \/ d = (shape2 r - 1)%Z ->
  (if order then elem r s p d else elem r p s d) = 0.
Proof.
  intros chunks oy ox oz obj dt theta pad order r s p d -> Hy Hx Hz Hc E Hs Hp Hd. assert (Ht0 : (0 <= dt)%Z) by lia.
  destruct (C81_values _ _ _ _ _ _ _ _ _ _ _ _ Hy Hx Hz Ht0 Hc E) as (dx & Ew & Es & _).
  assert (shape2 r = dx) by (destruct order; now injection Es). rewrite H in *.
  pose proof (width_pos _ _ _ _ Hx Hz Ew).
  rewrite (C81_common_center _ _ _ _ _ _ _ _ _ _ _ _ _ _ Hy Hx Hz Ht0 Hc (eq_refl : common_center dx NoCenter _) E Ew s p d Hs Hp ltac:(lia)).
  cbn [measured]. rewrite ray_none; auto.
  intros [x y] S G. unfold seen in S. cbn [fst snd] in S.
  assert (grid ox 0 <= x <= grid ox ox /\ grid oz 0 <= y <= grid oz oz) as [Bx By].
  { destruct G as [(_ & Hw & n & Hn & En)|(_ & Hw & n & Hn & En)]; unfold within, margin in Hw; cbn [fst snd] in *; rewrite En;
      split; try lra; split; apply grid_le; lia. }
  pose proof (C80_padded_covers ox oz dx (theta p) x y Hx Hz Ew Bx By). destruct Hd as [-> | ->]; lra.
Qed.
(** At angle zero, if detector and object widths have the same parity, every column of the projection is the sum of
    one row of voxels. *)
Theorem C80_row_sums : forall ox oz dx obj s d, (1 <= ox)%Z -> (1 <= oz)%Z -> Z.even (dx - oz) = true ->
  ray_sum (ray ox oz dx (IZR dx / 2) 0 d) (slice_of ox oz obj s) =
  let y := (d - (dx - oz) / 2)%Z in
  if ((0 <=? y) && (y <? oz))%Z then total ox (fun x => voxel ox oz obj s x y) else 0.
Proof.
  intros ox oz dx obj s d Hx Hz He. cbn zeta. rewrite ray_angle_0 by auto. rewrite Zeven_mod in He. apply Zeq_bool_eq in He.
  replace ((1 <=? 2 * d + 1 - dx + oz) && (2 * d + 1 - dx + oz <=? 2 * oz - 1))%Z
    with ((0 <=? d - (dx - oz) / 2) && (d - (dx - oz) / 2 <? oz))%Z by lia.
  destruct (_ && _)%bool eqn:E; auto. unfold ray_sum, total. rewrite map_map. f_equal. apply map_ext. intros n.
  rewrite Rmult_1_r. unfold slice_of, voxel. f_equal. f_equal. f_equal. lia.
Qed.
(** At ninety degrees likewise, in the other direction. *)
Theorem C80_column_sums : forall ox oz dx obj s d, (1 <= ox)%Z -> (1 <= oz)%Z -> Z.even (dx - ox) = true ->
  ray_sum (ray ox oz dx (IZR dx / 2) (PI / 2) d) (slice_of ox oz obj s) =
  let x := (ox - 1 - (d - (dx - ox) / 2))%Z in
  if ((0 <=? x) && (x <? ox))%Z then total oz (fun y => voxel ox oz obj s x y) else 0.
Proof.
  intros ox oz dx obj s d Hx Hz He. cbn zeta. rewrite ray_angle_90 by auto. rewrite Zeven_mod in He. apply Zeq_bool_eq in He.
  replace ((1 <=? dx - 1 - 2 * d + ox) && (dx - 1 - 2 * d + ox <=? 2 * ox - 1))%Z
    with ((0 <=? ox - 1 - (d - (dx - ox) / 2)) && (ox - 1 - (d - (dx - ox) / 2) <? ox))%Z by lia.
  destruct (_ && _)%bool eqn:E; auto. apply zsum_ext. intros n Hn.
  unfold slice_of, voxel. f_equal. f_equal. f_equal. f_equal. lia.
Qed.
(** Nothing is lost: the projection at angle zero adds up to the slice. *)
Theorem C80_conserved : forall ox oz dx obj s, (1 <= ox)%Z -> (1 <= oz)%Z -> Z.even (dx - oz) = true -> (oz <= dx)%Z ->
  total dx (fun d => ray_sum (ray ox oz dx (IZR dx / 2) 0 d) (slice_of ox oz obj s)) =
  total oz (fun y => total ox (fun x => voxel ox oz obj s x y)).
Proof.
  intros ox oz dx obj s Hx Hz He Hd.
  set (h := ((dx - oz) / 2)%Z). set (row := fun y => total ox (fun x => voxel ox oz obj s x y)).
  unfold total at 1. rewrite (map_ext _ (fun d => if ((0 <=? d - h) && (d - h <? oz))%Z then row (d - h)%Z else 0)).
  2:{ intros d. rewrite C80_row_sums by auto. reflexivity. }
  assert (Hh : (0 <= h /\ h + oz <= dx)%Z) by (unfold h; lia). clearbody h. clear He.
  assert (G : forall n, (0 <= n)%Z -> rsum (map (fun d => if ((0 <=? d - h) && (d - h <? oz))%Z then row (d - h)%Z else 0) (zrange 0 n))
             = total (Z.max 0 (Z.min (n - h) oz)) row).
  { apply natlike_ind.
    - replace (Z.max 0 (Z.min (0 - h) oz)) with 0%Z by lia. reflexivity.
    - intros n Hn IH. rewrite <- Z.add_1_r, zrange_snoc, map_app, rsum_app, IH by lia. cbn [map]. unfold rsum at 1. cbn [fold_right].
      destruct ((0 <=? n - h) && (n - h <? oz))%Z eqn:E.
      + replace (Z.max 0 (Z.min (n - h) oz)) with (n - h)%Z by lia.
        replace (Z.max 0 (Z.min (n + 1 - h) oz)) with (n - h + 1)%Z by lia.
        change (zsum (n - h) row + (row (n - h)%Z + 0) = zsum (n - h + 1) row). rewrite zsum_S by lia. lra.
      + replace (Z.max 0 (Z.min (n + 1 - h) oz)) with (Z.max 0 (Z.min (n - h) oz)) by lia. lra. }
  rewrite G by lia. f_equal. lia.
Qed.
(** Refuted for objects of odd width: the padded width is even, the rays of angle zero run along grid lines, and the
    first row of voxels is not seen at all. *)
Theorem C80_odd_refuted : forall chunks oy ox oz obj obj' dt theta order r r' s d,
  (1 <= oy)%Z -> (1 <= ox)%Z -> (1 <= oz)%Z -> Z.odd oz = true -> splits chunks oy -> (1 <= dt)%Z -> theta 0%Z = 0 ->
  (forall s x y, (1 <= y < oz)%Z -> voxel ox oz obj s x y = voxel ox oz obj' s x y) ->
  py_project chunks oy ox oz obj dt theta NoCenter true IsTrue order = Ok r ->
  py_project chunks oy ox oz obj' dt theta NoCenter true IsTrue order = Ok r' ->
  (0 <= s < oy)%Z -> (0 <= d < shape2 r)%Z ->
  (if order then elem r s 0 d else elem r 0 s d) = (if order then elem r' s 0 d else elem r' 0 s d).
Proof.
  intros chunks oy ox oz obj obj' dt theta order r r' s d Hy Hx Hz Ho Hc Ht H0 He E E' Hs Hd. assert (Ht0 : (0 <= dt)%Z) by lia.
  destruct (C81_values _ _ _ _ _ _ _ _ _ _ _ _ Hy Hx Hz Ht0 Hc E) as (dx & Ew & Es & _).
  assert (shape2 r = dx) by (destruct order; now injection Es). rewrite H in *.
  rewrite (C81_common_center _ _ _ _ _ _ _ _ _ _ _ _ _ _ Hy Hx Hz Ht0 Hc (eq_refl : common_center dx NoCenter _) E Ew s 0 d Hs ltac:(lia) Hd).
  rewrite (C81_common_center _ _ _ _ _ _ _ _ _ _ _ _ _ _ Hy Hx Hz Ht0 Hc (eq_refl : common_center dx NoCenter _) E' Ew s 0 d Hs ltac:(lia) Hd).
  cbn [measured]. rewrite H0, ray_angle_0 by auto.
  assert (Z.even dx = true) as Hev.
  { injection Ew as <-. apply round_to_even_spec. }
  rewrite Zeven_mod in Hev. apply Zeq_bool_eq in Hev. rewrite Zodd_mod in Ho. apply Zeq_bool_eq in Ho.
  destruct (_ && _)%bool eqn:C; auto. unfold ray_sum. f_equal. rewrite !map_map. apply map_ext. intros n. f_equal.
  apply andb_true_iff in C as [C1 C2]. apply (He s n ((2 * d + 1 - dx + oz) / 2)%Z). lia.
Qed.
(** Refuted for pad=False: the width of the detector is the first size of the object, but at angle zero the second
    size is across the detector; wider objects are cut off. *)
Theorem C80_unpadded_refuted : forall ox oz obj obj' s d, (1 <= ox)%Z -> (ox < oz)%Z -> (0 <= d < ox)%Z ->
  Z.even (ox - oz) = true ->
  (forall x y, (1 <= y)%Z -> voxel ox oz obj s x y = voxel ox oz obj' s x y) ->
  width IsFalse ox oz = Ok ox /\
  ray_sum (ray ox oz ox (IZR ox / 2) 0 d) (slice_of ox oz obj s) = ray_sum (ray ox oz ox (IZR ox / 2) 0 d) (slice_of ox oz obj' s).
Proof.
  intros ox oz obj obj' s d Hx Hlt Hd He Hv. split; auto. rewrite !C80_row_sums by (auto; lia). cbn zeta.
  destruct (_ && _)%bool; auto. apply zsum_ext. intros x _. apply Hv. lia.
Qed.
(** For objects of even width the unpadded projections are the middle part of the padded ones. *)
Theorem C80_crop : forall chunks oy ox oz obj dt theta r r' order s p d emission, Z.even ox = true ->
  (1 <= oy)%Z -> (1 <= ox)%Z -> (1 <= oz)%Z -> splits chunks oy ->
  py_project chunks oy ox oz obj dt theta NoCenter emission IsTrue order = Ok r ->
  py_project chunks oy ox oz obj dt theta NoCenter emission IsFalse order = Ok r' ->
  (0 <= s < oy)%Z -> (0 <= p < dt)%Z -> (0 <= d < ox)%Z ->
  (if order then elem r' s p d else elem r' p s d) =
  (let k := (d + (shape2 r - ox) / 2)%Z in if order then elem r s p k else elem r p s k).
Proof.
  intros chunks oy ox oz obj dt theta r r' order s p d emission He Hy Hx Hz Hc E E' Hs Hp Hd. cbn zeta. assert (Ht0 : (0 <= dt)%Z) by lia.
  destruct (C81_values _ _ _ _ _ _ _ _ _ _ _ _ Hy Hx Hz Ht0 Hc E) as (dx & Ew & Es & _).
  assert (shape2 r = dx) by (destruct order; now injection Es). rewrite H in *.
  assert (ox < dx)%Z.
  { injection Ew as <-. apply lt_IZR. destruct (round_to_even_spec (sqrt (IZR (ox * ox + oz * oz)) + 2)) as [[G _] _].
    assert (IZR ox <= sqrt (IZR (ox * ox + oz * oz))); [|lra].
    rewrite <- (sqrt_square (IZR ox)) by (apply (IZR_le 0); lia). apply sqrt_le_1_alt. rewrite <- mult_IZR. apply IZR_le. nia. }
  assert (Z.even dx = true) as Hev by (injection Ew as <-; apply round_to_even_spec).
  rewrite Zeven_mod in He, Hev. apply Zeq_bool_eq in He, Hev.
  rewrite (C81_common_center _ _ _ _ _ _ _ _ _ _ _ _ ox _ Hy Hx Hz Ht0 Hc (eq_refl : common_center ox NoCenter _) E' eq_refl s p d Hs Hp ltac:(lia)).
  rewrite (C81_common_center _ _ _ _ _ _ _ _ _ _ _ _ _ _ Hy Hx Hz Ht0 Hc (eq_refl : common_center dx NoCenter _) E Ew s p (d + (dx - ox) / 2)%Z Hs Hp ltac:(lia)).
  f_equal. f_equal. unfold ray, ray_trace, pixel_line. do 3 f_equal.
  change (detector ox (IZR ox / 2) d = detector dx (IZR dx / 2) (d + (dx - ox) / 2)).
  rewrite !detector_default, plus_IZR.
  assert (IZR dx - IZR ox = 2 * IZR ((dx - ox) / 2)); [|lra]. rewrite <- minus_IZR, <- mult_IZR. f_equal. lia.
Qed.

(** ** C85: simulated noise. Arrays of n0 projections of n1 rows and n2 columns; the random numbers are arbitrary. *)
Definition point (n1 n2 p y x : Z) : Z := (x + n2 * (y + n1 * p))%Z.
(** Salt and pepper, zingers: the drawn pixels get the value, the others are unchanged. *)
Theorem C85_corrupted : forall n0 n1 n2 prob sat rand uniform v i x,
  fst (add_salt_pepper n0 n1 n2 prob (Some x) rand v) i = (if Rlt_dec (rand i) prob then x else v i) /\
  fst (add_zingers prob sat uniform v) i = (if Rle_dec (uniform i) prob then sat else v i).
Proof.
  intros. unfold add_salt_pepper, add_zingers, rltb. cbn [fst]. split.
  - now destruct (Rlt_dec (rand i) prob).
  - destruct (Rlt_dec prob (uniform i)), (Rle_dec (uniform i) prob); auto; lra.
Qed.
(** The default value of corrupted pixels is the greatest value of the array. *)
Lemma fold_max l x : x <= fold_right Rmax x l /\ (forall y, In y l -> y <= fold_right Rmax x l) /\
  (fold_right Rmax x l = x \/ In (fold_right Rmax x l) l).
Proof.
  induction l as [|a l (H1 & H2 & H3)]; cbn [fold_right In].
  - split; [lra|]. split; [tauto|auto].
  - pose proof (Rmax_l a (fold_right Rmax x l)). pose proof (Rmax_r a (fold_right Rmax x l)). split; [lra|]. split.
    + intros y [<-|Hy]; auto. specialize (H2 y Hy). lra.
    + assert (M : forall b, Rmax a b = a \/ Rmax a b = b) by (intros b; unfold Rmax; destruct (Rle_dec a b); auto). destruct (M (fold_right Rmax x l)) as [-> | ->]; tauto.
Qed.
Lemma amax_spec n0 n1 n2 v : (1 <= n0 * n1 * n2)%Z ->
  (exists j, (0 <= j < n0 * n1 * n2)%Z /\ amax n0 n1 n2 v = v j) /\ forall j, (0 <= j < n0 * n1 * n2)%Z -> v j <= amax n0 n1 n2 v.
Proof.
  intros H. unfold amax, indices. destruct (fold_max (map v (zrange 0 (n0 * n1 * n2))) (v 0%Z)) as (_ & H2 & H3). split.
  - destruct H3 as [E|E]; [exists 0%Z; split; [lia|exact E]|]. apply in_map_iff in E as (j & <- & Hj). apply in_zrange in Hj. exists j; auto.
  - intros j Hj. apply H2, in_map, in_zrange. lia.
Qed.
Theorem C85_default_value : forall n0 n1 n2 prob rand v i, (1 <= n0 * n1 * n2)%Z -> rand i < prob ->
  exists m, fst (add_salt_pepper n0 n1 n2 prob None rand v) i = m /\
    (exists j, (0 <= j < n0 * n1 * n2)%Z /\ m = v j) /\ forall j, (0 <= j < n0 * n1 * n2)%Z -> v j <= m.
Proof.
  intros n0 n1 n2 prob rand v i Hn Hr. eexists. split; [reflexivity|]. unfold add_salt_pepper. cbn [fst].
  replace (rltb (rand i) prob) with true by (symmetry; now apply rltb_spec). now apply amax_spec.
Qed.
(** Gaussian noise: what is added has the given offset and scale; by default one twentieth of the greatest value. *)
Theorem C85_gaussian : forall n0 n1 n2 mean std randn v i,
  fst (add_gaussian n0 n1 n2 mean std randn v) i - v i = mean + randn i * match std with Some s => s | None => amax n0 n1 n2 v / 20 end.
Proof. intros. unfold add_gaussian. cbn [fst]. destruct std; lra. Qed.
(** Rings: one factor for every detector pixel, the same in all projections. *)
Theorem C85_rings : forall n1 n2 sensitivity v, (1 <= n1)%Z -> (1 <= n2)%Z -> exists factor, forall p y x,
  (0 <= p)%Z -> (0 <= y < n1)%Z -> (0 <= x < n2)%Z ->
  fst (add_rings n1 n2 sensitivity v) (point n1 n2 p y x) = factor y x * v (point n1 n2 p y x).
Proof.
  intros n1 n2 sensitivity v H1 H2. exists (fun y x => sensitivity (x + n2 * y)%Z). intros p y x Hp Hy Hx.
  unfold add_rings, point. cbn [fst]. rewrite Rmult_comm. do 2 f_equal.
  replace (x + n2 * (y + n1 * p))%Z with (x + n2 * y + p * (n1 * n2))%Z by ring. rewrite Z.mod_add by nia.
  apply Z.mod_small. nia.
Qed.
(** Drift: one factor for every projection: a sine wave around the mean -- *)
Theorem C85_drift : forall n0 n1 n2 amp period mean v, (1 <= n1)%Z -> (1 <= n2)%Z -> exists factor,
  (forall p y x, (0 <= p)%Z -> (0 <= y < n1)%Z -> (0 <= x < n2)%Z ->
   fst (add_drift n0 n1 n2 amp period mean v) (point n1 n2 p y x) = factor p * v (point n1 n2 p y x)) /\
  forall p, (2 <= n0)%Z -> factor p = mean + amp * sin (2 * PI * IZR p / period) + IZR p / IZR (n0 - 1).
Proof.
  intros n0 n1 n2 amp period mean v H1 H2. exists (drift n0 amp period mean). split.
  - intros p y x Hp Hy Hx. unfold add_drift, point. cbn [fst]. do 2 f_equal.
    replace (x + n2 * (y + n1 * p))%Z with (x + (y + n1 * p) * n2)%Z by ring. rewrite Z.div_add, (Z.div_small x n2) by lia.
    replace (0 + (y + n1 * p))%Z with (y + p * n1)%Z by ring. rewrite Z.div_add, (Z.div_small y n1) by lia. lia.
  - intros p Hn. unfold drift. replace (n0 =? 1)%Z with false by lia.
    replace (2 * PI / period * IZR p) with (2 * PI * IZR p / period) by (unfold Rdiv; ring). unfold Rdiv. ring.
Qed.
(** -- and a ramp that is not documented and cannot be switched off: without a sine wave and with mean 1 the illumination
    doubles from the first to the last projection. *)
Theorem C85_ramp_refuted : forall n0 n1 n2 period v, (2 <= n0)%Z -> (1 <= n1)%Z -> (1 <= n2)%Z ->
  forall y x, (0 <= y < n1)%Z -> (0 <= x < n2)%Z ->
  fst (add_drift n0 n1 n2 0 period 1 v) (point n1 n2 0 y x) = v (point n1 n2 0 y x) /\
  fst (add_drift n0 n1 n2 0 period 1 v) (point n1 n2 (n0 - 1) y x) = 2 * v (point n1 n2 (n0 - 1) y x).
Proof.
  intros n0 n1 n2 period v H0 H1 H2 y x Hy Hx. destruct (C85_drift n0 n1 n2 0 period 1 v H1 H2) as (f & Hf & Hm).
  assert (IZR (n0 - 1) <> 0) by (apply not_0_IZR; lia). rewrite !Hf, !Hm by lia. split; field; auto.
  all: try (unfold Rdiv; rewrite Rmult_0_l; field; auto).
Qed.
(** The array of the caller is left alone by add_drift, add_rings and add_zingers -- *)
Theorem C85_copies : forall n0 n1 n2 amp period mean sensitivity f sat uniform v,
  snd (add_drift n0 n1 n2 amp period mean v) = v /\ snd (add_rings n1 n2 sensitivity v) = v /\ snd (add_zingers f sat uniform v) = v.
Proof. repeat split. Qed.
(** -- but overwritten by add_gaussian and add_salt_pepper. *)
Theorem C85_in_place_refuted : forall n0 n1 n2 v i, (exists mean std randn, snd (add_gaussian n0 n1 n2 mean std randn v) i <> v i) /\
  exists prob val rand, snd (add_salt_pepper n0 n1 n2 prob val rand v) i <> v i.
Proof.
  intros. split.
  - exists 1, (Some 0), (fun _ => 0). unfold add_gaussian. cbn [snd]. lra.
  - exists 1, (Some (v i + 1)), (fun _ => 0). unfold add_salt_pepper. cbn [snd].
    replace (rltb 0 1) with true by (symmetry; apply rltb_spec; lra). lra.
Qed.
Example C85_ex : fst (add_zingers (1 / 2) 9 (fun i => IZR i / 4) IZR) 2%Z = 9 /\ fst (add_zingers (1 / 2) 9 (fun i => IZR i / 4) IZR) 3%Z = 3.
Proof.
  unfold add_zingers. cbn [fst]. split.
  - now replace (rltb (1 / 2) (2 / 4)) with false by (symmetry; apply rltb_false; lra).
  - now replace (rltb (1 / 2) (3 / 4)) with true by (symmetry; apply rltb_spec; lra).
Qed.

Example C81_ex : exists r, py_project [(0, 1)]%Z 1 1 1 (fun _ => 7) 1 (fun _ => 0) NoCenter true IsFalse true = Ok r /\ elem r 0 0 0 = 7.
Proof.
  eexists. split; [reflexivity|].
  set (r := mkArray3 _ _ _ _).
  assert (E : py_project [(0, 1)]%Z 1 1 1 (fun _ => 7) 1 (fun _ => 0) NoCenter true IsFalse true = Ok r) by reflexivity.
  rewrite (C81_common_center [(0, 1)]%Z 1 1 1 (fun _ => 7) 1 (fun _ => 0) NoCenter true IsFalse true r 1 (IZR 1 / 2)
            ltac:(lia) ltac:(lia) ltac:(lia) ltac:(lia) (Permutation_refl _) eq_refl E eq_refl 0 0 0 ltac:(lia) ltac:(lia) ltac:(lia)).
  cbn [measured]. rewrite C80_row_sums by (auto; lia). change (zsum 1 (fun _ => 7) = 7). change 1%Z with (0 + 1)%Z. rewrite zsum_S, zsum_0 by lia. lra.
Qed.
(** The 3 x 3 object of ones: at angle zero the padded projection adds up to 6, not 9. *)
Example C80_ex : total 8 (fun d => ray_sum (ray 3 3 8 (IZR 8 / 2) 0 d) (fun _ => 1)) = 6.
Proof.
  unfold total. change (zrange 0 8) with [0; 1; 2; 3; 4; 5; 6; 7]%Z. cbn [map]. rewrite !ray_angle_0 by lia.
  change (zrange 0 3) with [0; 1; 2]%Z. unfold ray_sum, rsum. cbn. lra.
Qed.
Example C79_ex : angle_ok 0 /\ valid split_geom.
Proof. split; [right; rewrite sin_0; ring|unfold valid; cbn; lia]. Qed.

Print Assumptions C79_same_line.
Print Assumptions C79_mirror.
Print Assumptions C79_default_angles.
Print Assumptions C79_gridline_refuted.
Print Assumptions C80_padded_covers.
Print Assumptions C80_padded_border.
Print Assumptions C80_row_sums.
Print Assumptions C80_column_sums.
Print Assumptions C80_conserved.
Print Assumptions C80_odd_refuted.
Print Assumptions C80_unpadded_refuted.
Print Assumptions C80_crop.
Print Assumptions C81_values.
Print Assumptions C81_common_center.
Print Assumptions C81_transmission.
Print Assumptions C81_pad_refuted.
Print Assumptions C81_angles.
Print Assumptions C81_angles_negative.
Print Assumptions C85_corrupted.
Print Assumptions C85_default_value.
Print Assumptions C85_gaussian.
Print Assumptions C85_rings.
Print Assumptions C85_drift.
Print Assumptions C85_ramp_refuted.
Print Assumptions C85_copies.
Print Assumptions C85_in_place_refuted.
