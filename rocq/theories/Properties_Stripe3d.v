(** C93, C94: stripes_detect3d and stripes_mask3d. *)
From Verif Require Import Base Order CLoop Model_Prep Proofs_Prep Spec_Stripe3d Model_Stripe3d Proofs_Stripe3d Proofs_Detect3d.
From Coq Require Import Reals Lra.
Local Open Scope Z_scope.

(** * C93: stripes_detect3d.  [place] is the position of a voxel in the flat array, [volume] an array seen as a volume, [whole] an order in which a
    parallel loop visits all voxels. *)
Definition place (dx dy i j k : Z) : Z := (k * dy + j) * dx + i.
Definition volume {A} (dx dy : Z) (a : arr A) : vol A := fun i j k => a (place dx dy i j k).
Definition whole (dx dy dz : Z) (order : list voxel) : Prop := NoDup order /\ forall i j k, In (i, j, k) order <-> inside dx dy dz i j k.
(** The volume is large enough for the windows. *)
Definition roomy (dx dy dz radius size : Z) : Prop :=
  1 <= radius /\ 4 <= dx /\ 2 * radius <= dx /\ 2 <= dy /\ 2 * radius <= dy /\ 2 * radius <= dz /\ 1 <= size /\ 2 * size <= dz.

Lemma place_idx dx dy i j k : place dx dy i j k = idx dx dy i j k.
Proof. unfold place, idx. ring. Qed.
Lemma whole_voxels dx dy dz order : whole dx dy dz order -> Permutation order (voxels dx dy dz).
Proof.
  intros [N H]. apply NoDup_Permutation; auto; [apply NoDup_voxels|]. intros [[i j] k]. rewrite H, in_voxels. reflexivity.
Qed.
Lemma roomy_fits dx dy dz r h : roomy dx dy dz r h -> fits dx dy dz r h.
Proof. unfold roomy, fits. lia. Qed.
Lemma Ok_inj {A} (a b : A) : Ok a = Ok b -> a = b.
Proof. unfold Ok. intros H. now injection H. Qed.

Section Detect.
  Variable qs : list R -> list R.
  Hypothesis Q : sorts (fun _ : R => True) rltb qs.

  (** What is rejected. *)
  Theorem C93_checks o1 o2 o3 o4 shape tomo size radius temp out :
    (exists w, py_stripes_detect3d qs o1 o2 o3 o4 shape tomo size radius temp out = Ok w) <->
    (exists dz dy dx, shape = [dz; dy; dx] /\ dz <> 0 /\ dy <> 0 /\ dx <> 0 /\ 0 < size <= dz / 2).
  Proof.
    unfold py_stripes_detect3d. split.
    - intros (w & H). destruct shape as [|dz [|dy [|dx [|? ?]]]]; try discriminate. exists dz, dy, dx. split; auto.
      destruct ((dz =? 0) || (dy =? 0) || (dx =? 0)) eqn:E; [discriminate|]. destruct ((size <=? 0) || (dz / 2 <? size)) eqn:E2; [discriminate|].
      rewrite !orb_false_iff in *. lia.
    - intros (dz & dy & dx & -> & H1 & H2 & H3 & H4).
      assert (E : (dz =? 0) || (dy =? 0) || (dx =? 0) = false) by (rewrite !orb_false_iff; lia).
      assert (E2 : (size <=? 0) || (dz / 2 <? size) = false) by (rewrite orb_false_iff; lia).
      rewrite E, E2. eauto.
  Qed.

  Section Run.
    Variables dx dy dz radius size : Z.
    Variable tomo : arr R.
    Hypothesis room : roomy dx dy dz radius size.
    Notation detect o1 o2 o3 o4 t temp out := (py_stripes_detect3d qs o1 o2 o3 o4 [dz; dy; dx] t size radius temp out).
    Notation ins := (inside dx dy dz).
    Notation wh := (whole dx dy dz).

    Lemma detect_ok t o1 o2 o3 o4 temp out : wh o1 -> wh o2 -> wh o3 -> wh o4 -> exists w, detect o1 o2 o3 o4 t temp out = Ok w /\
      (forall i j k, ins i j k -> kth rltb (column_window dz (contrast dx dy dz radius (volume dx dy t)) size i j k) (Z.to_nat (size - 1)) (volume dx dy w i j k)) /\
      (forall x, x < 0 \/ dx * dy * dz <= x -> w x = out x).
    Proof.
      intros W1 W2 W3 W4. pose proof (roomy_fits _ _ _ _ _ room) as F. unfold roomy in room.
      unfold py_stripes_detect3d.
      assert (E : (dz =? 0) || (dy =? 0) || (dx =? 0) = false) by (rewrite !orb_false_iff; lia).
      assert (E2 : (size <=? 0) || (dz / 2 <? size) = false) by (rewrite orb_false_iff; lia).
      rewrite E, E2. eexists. split; [reflexivity|].
      destruct (detect_value dx dy dz qs o1 o2 o3 o4 t size radius temp out F) as [A B]; try now apply whole_voxels.
      split.
      - intros i j k I. unfold volume at 2. rewrite place_idx, A by auto.
        assert (EQ : column_window dz (contrast dx dy dz radius (view dx dy t)) size i j k = column_window dz (contrast dx dy dz radius (volume dx dy t)) size i j k).
        { apply map_ext_in. intros m Hm. apply in_zrange in Hm. destruct I as (I1 & I2 & I3). apply (contrast_ext dx dy dz radius size F).
          - intros a b c _. unfold view, volume. now rewrite place_idx.
          - split; [auto|]. split; [auto|]. apply reach_in; lia. }
        rewrite EQ. apply nth_kth; auto. unfold column_window. rewrite map_length, zrange_length. lia.
      - intros x Hx. apply B. intros [[i j] k] Hv E3. pose proof (idx_range dx dy dz i j k Hv). cbn in E3. lia.
    Qed.

    (** The weight of a voxel is the size-th smallest contrast of the 2 size + 1 voxels above and below it, where the contrast is the smaller of two
        ratios of mean horizontal changes; nothing outside the volume is written. *)
    Theorem C93_weight o1 o2 o3 o4 temp out : wh o1 -> wh o2 -> wh o3 -> wh o4 -> exists w, detect o1 o2 o3 o4 tomo temp out = Ok w /\
      (forall i j k, ins i j k -> kth rltb (column_window dz (contrast dx dy dz radius (volume dx dy tomo)) size i j k) (Z.to_nat (size - 1)) (volume dx dy w i j k)) /\
      (forall x, x < 0 \/ dx * dy * dz <= x -> w x = out x).
    Proof. apply detect_ok. Qed.

    Lemma kth_same w n u v : kth rltb w n u -> kth rltb w n v -> u = v.
    Proof.
      intros A B. destruct (kth_unique _ _ R_weak_order w n u v) as [U V]; auto; [now apply Forall_forall|].
      apply rltb_false in U, V. lra.
    Qed.
    (** The order in which the threads visit the voxels, what the memory holds before, and what lies outside the volume do not matter. *)
    Theorem C93_order tomo' o1 o2 o3 o4 o1' o2' o3' o4' temp out temp' out' w w' :
      wh o1 -> wh o2 -> wh o3 -> wh o4 -> wh o1' -> wh o2' -> wh o3' -> wh o4' ->
      (forall i j k, ins i j k -> volume dx dy tomo i j k = volume dx dy tomo' i j k) ->
      detect o1 o2 o3 o4 tomo temp out = Ok w -> detect o1' o2' o3' o4' tomo' temp' out' = Ok w' ->
      forall i j k, ins i j k -> volume dx dy w i j k = volume dx dy w' i j k.
    Proof.
      intros W1 W2 W3 W4 W1' W2' W3' W4' E H H' i j k I.
      destruct (detect_ok tomo o1 o2 o3 o4 temp out) as (u & Hu & Ku & _); auto.
      destruct (detect_ok tomo' o1' o2' o3' o4' temp' out') as (u' & Hu' & Ku' & _); auto.
      rewrite H in Hu. rewrite H' in Hu'. apply Ok_inj in Hu, Hu'. subst u u'.
      eapply kth_same; [apply Ku; auto|]. pose proof (roomy_fits _ _ _ _ _ room) as F. unfold roomy in room.
      assert (EQ : column_window dz (contrast dx dy dz radius (volume dx dy tomo)) size i j k = column_window dz (contrast dx dy dz radius (volume dx dy tomo')) size i j k).
      { apply map_ext_in. intros m Hm. apply in_zrange in Hm. destruct I as (I1 & I2 & I3). apply (contrast_ext dx dy dz radius size F); auto.
        split; [auto|]. split; [auto|]. apply reach_in; lia. }
      rewrite EQ. auto.
    Qed.

    Lemma weight_from (P : R -> Prop) o1 o2 o3 o4 temp out w t : wh o1 -> wh o2 -> wh o3 -> wh o4 -> detect o1 o2 o3 o4 t temp out = Ok w ->
      forall i j, (forall k, ins i j k -> P (contrast dx dy dz radius (volume dx dy t) i j k)) -> forall k, ins i j k -> P (volume dx dy w i j k).
    Proof.
      intros W1 W2 W3 W4 H i j HP k I. destruct (detect_ok t o1 o2 o3 o4 temp out) as (u & Hu & Ku & _); auto.
      rewrite H in Hu. apply Ok_inj in Hu. subst u. specialize (Ku i j k I). apply kth_in in Ku. apply in_map_iff in Ku as (m & <- & Hm).
      apply in_zrange in Hm. unfold roomy in room. destruct I as (I1 & I2 & I3). apply HP. split; [auto|]. split; [auto|]. apply reach_in; lia.
    Qed.

    (** For non-negative data the weights are between 0 and 1 ... *)
    Theorem C93_range o1 o2 o3 o4 temp out w : wh o1 -> wh o2 -> wh o3 -> wh o4 -> detect o1 o2 o3 o4 tomo temp out = Ok w ->
      (forall i j k, ins i j k -> 0 <= volume dx dy tomo i j k)%R -> forall i j k, ins i j k -> (0 <= volume dx dy w i j k <= 1)%R.
    Proof.
      intros W1 W2 W3 W4 H Hn i j k I. apply (weight_from (fun y => 0 <= y <= 1)%R o1 o2 o3 o4 temp out w tomo); auto.
      intros k' I'. now apply (contrast_range dx dy dz radius size (roomy_fits _ _ _ _ _ room)).
    Qed.
    (** ... do not change when the data are scaled or shifted (staying non-negative) ... *)
    Theorem C93_scale c b tomo' o1 o2 o3 o4 temp out temp' out' w w' : wh o1 -> wh o2 -> wh o3 -> wh o4 -> (0 < c)%R ->
      (forall i j k, ins i j k -> 0 <= volume dx dy tomo i j k)%R -> (forall i j k, ins i j k -> 0 <= volume dx dy tomo' i j k)%R ->
      (forall i j k, ins i j k -> volume dx dy tomo' i j k = c * volume dx dy tomo i j k + b)%R ->
      detect o1 o2 o3 o4 tomo temp out = Ok w -> detect o1 o2 o3 o4 tomo' temp' out' = Ok w' ->
      forall i j k, ins i j k -> volume dx dy w' i j k = volume dx dy w i j k.
    Proof.
      intros W1 W2 W3 W4 Hc N N' E H H' i j k I. pose proof (roomy_fits _ _ _ _ _ room) as F.
      destruct (detect_ok tomo o1 o2 o3 o4 temp out) as (u & Hu & Ku & _); auto.
      destruct (detect_ok tomo' o1 o2 o3 o4 temp' out') as (u' & Hu' & Ku' & _); auto.
      rewrite H in Hu. rewrite H' in Hu'. apply Ok_inj in Hu, Hu'. subst u u'.
      eapply kth_same; [apply Ku'; auto|]. unfold roomy in room.
      assert (EQ : column_window dz (contrast dx dy dz radius (volume dx dy tomo')) size i j k = column_window dz (contrast dx dy dz radius (volume dx dy tomo)) size i j k).
      { apply map_ext_in. intros m Hm. apply in_zrange in Hm. destruct I as (I1 & I2 & I3).
        assert (I' : ins i j (reach dz k m)) by (split; [auto|]; split; [auto|]; apply reach_in; lia).
        rewrite (contrast_ext dx dy dz radius size F _ _ E) by auto.
        apply (contrast_scale dx dy dz radius size F c b (volume dx dy tomo)); auto. intros. rewrite <- E; auto. }
      rewrite EQ. auto.
    Qed.
    (** ... and where the data do not change over two columns around a voxel's column of angles the weight is 0: flat data look like stripes. *)
    Theorem C93_flat o1 o2 o3 o4 temp out w : wh o1 -> wh o2 -> wh o3 -> wh o4 -> detect o1 o2 o3 o4 tomo temp out = Ok w ->
      (forall i j k, ins i j k -> 0 <= volume dx dy tomo i j k)%R ->
      forall i j, (forall m k, ins i m k -> Z.abs (m - j) <= radius -> volume dx dy tomo (reach dx i 2) m k = volume dx dy tomo i m k) ->
      forall k, ins i j k -> volume dx dy w i j k = 0%R.
    Proof.
      intros W1 W2 W3 W4 H Hn i j Hs k I. pose proof (roomy_fits _ _ _ _ _ room) as F. apply (weight_from (fun y => y = 0%R) o1 o2 o3 o4 temp out w tomo); auto.
      intros k' (I1 & I2 & I3). apply (contrast_still dx dy dz radius size F); auto; [unfold inside; auto|].
      unfold roomy in room. apply mean_pairs_const.
      - rewrite (@zrange_cons (- radius)%Z) by lia. discriminate.
      - rewrite (@zrange_cons (- radius)%Z) by lia. discriminate.
      - intros a b Ha Hb. rewrite in_zrange in *. unfold jump.
        destruct (reach_sym dy j a) as [E|E]; try lia;
        (rewrite Hs; [rewrite Rminus_diag_eq, Rabs_R0; reflexivity| |lia]);
        (split; [auto|]; split; [apply reach_in; lia|apply reach_in; lia]).
    Qed.
    (** When all angles and slices are the same (ideal full stripes) the weight is the ratio of the change at the column to the mean change over the
        [radius] columns on its right or left, whichever is smaller. *)
    Theorem C93_stripes f o1 o2 o3 o4 temp out w : wh o1 -> wh o2 -> wh o3 -> wh o4 -> detect o1 o2 o3 o4 tomo temp out = Ok w ->
      (forall i j k, ins i j k -> volume dx dy tomo i j k = f i) ->
      forall i j k, ins i j k -> f (reach dx i 2) <> f i ->
      let change := fun i => Rabs (f (reach dx i 2) - f i) in
      volume dx dy w i j k = Rmin (similar (change i) (mean (map (fun n => change (reach dx i n)) (zrange 1 (radius + 1)))))
                                  (similar (change i) (mean (map (fun n => change (reach dx i (- n))) (zrange 1 (radius + 1))))).
    Proof.
      intros W1 W2 W3 W4 H Hf i j k I Hn change. pose proof (roomy_fits _ _ _ _ _ room) as F.
      revert k I. apply (weight_from (fun y => y = Rmin _ _) o1 o2 o3 o4 temp out w tomo); auto.
      intros k I. unfold contrast.
      rewrite (along_columns dx dy dz radius size F f _ Hf) by auto.
      rewrite !(across_columns dx dy dz radius size F f _ Hf) by auto.
      fold (change i).
      assert (C : (0 < change i)%R) by (apply Rabs_pos_lt; lra).
      destruct (Req_EM_T _ 0) as [E|E].
      { pose proof (Rmax_l (change i) (mean (map (fun n => Rabs (f (reach dx (reach dx i (1 * n)) 2) - f (reach dx i (1 * n)))) (zrange 1 (radius + 1))))). lra. }
      f_equal; f_equal; f_equal; apply map_ext; intros n; unfold change; replace (1 * n) with n by lia; reflexivity.
    Qed.
  End Run.
End Detect.

Print Assumptions C93_checks.
Print Assumptions C93_weight.
Print Assumptions C93_order.
Print Assumptions C93_range.
Print Assumptions C93_scale.
Print Assumptions C93_flat.
Print Assumptions C93_stripes.

Definition sortR : list R -> list R := isort rltb.
Lemma sortR_ok : sorts (fun _ : R => True) rltb sortR.
Proof. apply isort_sorts, R_weak_order. Qed.
Definition all_voxels (dx dy dz : Z) : list voxel := voxels dx dy dz.
Lemma all_voxels_whole dx dy dz : whole dx dy dz (all_voxels dx dy dz).
Proof. split; [apply NoDup_voxels|]. intros i j k. apply (in_voxels dx dy dz (i, j, k)). Qed.
Example roomy_example : roomy 8 6 20 3 10.
Proof. unfold roomy. lia. Qed.

(** A ramp is no stripe: all its weights are 1. *)
Example C93_ramp : forall i j k, inside 8 6 20 i j k -> exists w,
  py_stripes_detect3d sortR (all_voxels 8 6 20) (all_voxels 8 6 20) (all_voxels 8 6 20) (all_voxels 8 6 20) [20; 6; 8] (fun p => IZR (p mod 8)) 10 1 (fun _ => 0%R) (fun _ => 0%R) = Ok w /\
  volume 8 6 w i j k = 1%R.
Proof.
  intros i j k I. assert (room : roomy 8 6 20 1 10) by (unfold roomy; lia).
  destruct (C93_weight sortR sortR_ok 8 6 20 1 10 (fun p => IZR (p mod 8)) room (all_voxels 8 6 20) (all_voxels 8 6 20) (all_voxels 8 6 20) (all_voxels 8 6 20) (fun _ => 0%R) (fun _ => 0%R)) as (w & Hw & _);
    try apply all_voxels_whole.
  exists w. split; [exact Hw|].
  assert (C : forall i, 0 <= i < 8 -> Rabs (IZR (reach 8 i 2) - IZR i) = 2%R).
  { intros a Ha. rewrite <- minus_IZR. unfold reach. destruct ((0 <=? a + 2) && (a + 2 <? 8)).
    - replace (a + 2 - a) with 2 by lia. apply Rabs_right. lra.
    - replace (a - 2 - a) with (-2) by lia. rewrite Rabs_left by lra. lra. }
  rewrite (C93_stripes sortR sortR_ok 8 6 20 1 10 (fun p => IZR (p mod 8)) room IZR _ _ _ _ _ _ w (all_voxels_whole _ _ _) (all_voxels_whole _ _ _) (all_voxels_whole _ _ _) (all_voxels_whole _ _ _) Hw); auto.
  - change (zrange 1 (1 + 1)) with [1]. cbn [map]. unfold mean, total. cbn [fold_right length INR].
    destruct I as (I1 & _). rewrite !C by (try apply reach_in; lia).
    replace ((2 + 0) / 1)%R with 2%R by field. rewrite similar_same by lra. apply Rmin_left. lra.
  - intros a b c (A & _). unfold volume, place. f_equal. rewrite Z.add_comm, Z.mod_add by lia. apply Z.mod_small. lia.
  - destruct I as (I1 & _). intros E. specialize (C i I1). rewrite E in C. rewrite Rminus_diag_eq, Rabs_R0 in C by reflexivity. lra.
Qed.

(** ** What does not hold *)
(** The docstring promises weights in [0, 1], also for data after the negative logarithm ("reasonable deviations accepted"): flat negative data give
    a negative weight. *)
Theorem C93_range_refuted : exists w,
  py_stripes_detect3d sortR (all_voxels 4 2 2) (all_voxels 4 2 2) (all_voxels 4 2 2) (all_voxels 4 2 2) [2; 2; 4] (fun _ => -5)%R 1 1 (fun _ => 0%R) (fun _ => 0%R) = Ok w /\
  forall i j k, inside 4 2 2 i j k -> volume 4 2 w i j k = (-4998 / 1000)%R.
Proof.
  assert (room : roomy 4 2 2 1 1) by (unfold roomy; lia).
  destruct (C93_weight sortR sortR_ok 4 2 2 1 1 (fun _ => -5)%R room (all_voxels 4 2 2) (all_voxels 4 2 2) (all_voxels 4 2 2) (all_voxels 4 2 2) (fun _ => 0%R) (fun _ => 0%R)) as (w & Hw & _);
    try apply all_voxels_whole.
  exists w. split; [exact Hw|]. intros i j k I.
  apply (weight_from sortR sortR_ok 4 2 2 1 1 room (fun y => y = -4998 / 1000)%R _ _ _ _ _ _ w (fun _ => -5)%R (all_voxels_whole _ _ _) (all_voxels_whole _ _ _) (all_voxels_whole _ _ _) (all_voxels_whole _ _ _) Hw); auto.
  intros k' I'. unfold contrast.
  assert (J : forall i j k, jump 4 (volume 4 2 (fun _ : Z => -5)%R) i j k = 0%R).
  { intros. unfold jump, volume. rewrite Rminus_diag_eq by reflexivity. apply Rabs_R0. }
  assert (A : along 4 2 2 1 (volume 4 2 (fun _ : Z => -5)%R) i j k' = 0%R) by (apply mean_pairs_const; auto; discriminate).
  assert (B : across 4 2 1 1 (volume 4 2 (fun _ : Z => -5)%R) i j k' = 0%R) by (apply mean_pairs_const; auto; discriminate).
  rewrite A, B, Rmax_left by lra. destruct (Req_EM_T 0 0); [|lra].
  unfold around, volume, total. cbn [fold_right]. rewrite Rmin_left by lra. lra.
Qed.
Print Assumptions C93_range_refuted.

(** The vertical filter is called a median filter of pixel size [size]: it takes element size - 1 of 2 size + 1 sorted values, for size 1 the minimum.
    Two thirds of the window may differ from the result on the same side. *)
Theorem C93_median_refuted : exists (dx dy dz size radius : Z) tomo w i j k, roomy dx dy dz radius size /\ inside dx dy dz i j k /\
  py_stripes_detect3d sortR (all_voxels dx dy dz) (all_voxels dx dy dz) (all_voxels dx dy dz) (all_voxels dx dy dz) [dz; dy; dx] tomo size radius (fun _ => 0%R) (fun _ => 0%R) = Ok w /\
  ~ median_of rltb (column_window dz (contrast dx dy dz radius (volume dx dy tomo)) size i j k) (volume dx dy w i j k).
Proof.
  set (x := fun p => if p mod 4 <? 2 then 0%R else if p mod 4 =? 2 then 1%R else (1 + IZR (p / 8))%R).
  assert (V : forall i j k, inside 4 2 2 i j k -> volume 4 2 x i j k = if i <? 2 then 0%R else if i =? 2 then 1%R else (1 + IZR k)%R).
  { intros i j k (H1 & H2 & H3). unfold volume, place, x. rewrite Z.add_comm, Z.mod_add, (Z.mod_small i) by lia.
    replace ((i + (k * 2 + j) * 4) / 8) with k; [reflexivity|]. apply (Z.div_unique _ 8 k (i + j * 4)); lia. }
  assert (room : roomy 4 2 2 1 1) by (unfold roomy; lia).
  destruct (C93_weight sortR sortR_ok 4 2 2 1 1 x room (all_voxels 4 2 2) (all_voxels 4 2 2) (all_voxels 4 2 2) (all_voxels 4 2 2) (fun _ => 0%R) (fun _ => 0%R)) as (w & Hw & K & _);
    try apply all_voxels_whole.
  exists 4, 2, 2, 1, 1, x, w, 0, 0, 1. split; [exact room|]. assert (I : inside 4 2 2 0 0 1) by (unfold inside; lia). split; [exact I|]. split; [exact Hw|].
  specialize (K 0 0 1 I). change (Z.to_nat (1 - 1)) with 0%nat in K.
  assert (J0 : forall j k, 0 <= j < 2 -> 0 <= k < 2 -> jump 4 (volume 4 2 x) 0 j k = 1%R).
  { intros j k Hj Hk. unfold jump. change (reach 4 0 2) with 2. rewrite !V by (unfold inside; lia). cbn [Z.ltb Z.eqb Z.compare Pos.compare Pos.compare_cont].
    rewrite Rminus_0_r. apply Rabs_R1. }
  assert (J1 : forall j k, 0 <= j < 2 -> 0 <= k < 2 -> jump 4 (volume 4 2 x) 1 j k = (1 + IZR k)%R).
  { intros j k Hj Hk. unfold jump. change (reach 4 1 2) with 3. rewrite !V by (unfold inside; lia). cbn [Z.ltb Z.eqb Z.compare Pos.compare Pos.compare_cont Pos.eqb].
    rewrite Rminus_0_r. apply Rabs_right. assert (0 <= IZR k)%R by (apply IZR_le; lia). lra. }
  assert (A : forall k, 0 <= k < 2 -> along 4 2 2 1 (volume 4 2 x) 0 0 k = 1%R).
  { intros k Hk. apply mean_pairs_const; try discriminate. intros a b Ha Hb. rewrite in_zrange in *. apply J0; apply reach_in; lia. }
  assert (B : forall s k, s = 1 \/ s = -1 -> 0 <= k < 2 -> across 4 2 1 s (volume 4 2 x) 0 0 k = (1 + IZR k)%R).
  { intros s k Hs Hk. apply mean_pairs_const; try discriminate. intros a b Ha Hb. rewrite in_zrange in *. cbn in Ha. assert (b = 1) by lia. subst b.
    replace (reach 4 0 (s * 1)) with 1 by (destruct Hs as [-> | ->]; reflexivity). apply J1; [apply reach_in; lia|auto]. }
  assert (C0 : contrast 4 2 2 1 (volume 4 2 x) 0 0 0 = 1%R).
  { unfold contrast. rewrite A, !B by lia. rewrite Rplus_0_r, Rmax_left by lra. destruct (Req_EM_T 1 0); [lra|]. rewrite similar_same by lra. apply Rmin_left. lra. }
  assert (C1 : contrast 4 2 2 1 (volume 4 2 x) 0 0 1 = (1 / 2)%R).
  { unfold contrast. rewrite A, !B by lia. rewrite Rmax_right by lra. destruct (Req_EM_T (1 + 1) 0); [lra|].
    assert (E : similar 1 (1 + 1) = (1 / 2)%R).
    { unfold similar. rewrite Rmax_right, Rmin_left by lra. destruct (Req_EM_T (1 + 1) 0); [lra|]. lra. }
    rewrite E. apply Rmin_left. lra. }
  assert (W : column_window 2 (contrast 4 2 2 1 (volume 4 2 x)) 1 0 0 1 = [1; 1 / 2; 1]%R).
  { unfold column_window. change (zrange (- (1)) (1 + 1)) with [-1; 0; 1]. cbn [map]. change (reach 2 1 (-1)) with 0. change (reach 2 1 0) with 1. change (reach 2 1 1) with 0.
    now rewrite C0, C1. }
  rewrite W in *. destruct K as (Kin & K1 & K2). intros (_ & _ & M). cbn in Kin.
  assert (E : volume 4 2 w 0 0 1 = (1 / 2)%R).
  { destruct Kin as [E|[E|[E|[]]]]; auto; exfalso; rewrite <- E in K1; cbn [count] in K1; assert (L : rltb (1 / 2) 1 = true) by (apply rltb_spec; lra);
    rewrite L in K1; lia. }
  rewrite E in M. cbn in M. assert (L : rltb (1 / 2) 1 = true) by (apply rltb_spec; lra). rewrite L in M.
  assert (L2 : rltb (1 / 2) (1 / 2) = false) by (apply rltb_false; lra). rewrite L2 in M. cbn in M. lia.
Qed.
Print Assumptions C93_median_refuted.

(** A single slice (dy = 1) is accepted, but the loops then read memory outside the arrays: the weights depend on what lies there. *)
Theorem C93_outside_refuted : exists tomo out out' w w',
  let o := all_voxels 4 1 2 in
  (forall x, 0 <= x < 4 * 1 * 2 -> out x = out' x) /\
  py_stripes_detect3d sortR o o o o [2; 1; 4] tomo 1 1 (fun _ => 0%R) out = Ok w /\
  py_stripes_detect3d sortR o o o o [2; 1; 4] tomo 1 1 (fun _ => 0%R) out' = Ok w' /\
  inside 4 1 2 0 0 0 /\ volume 4 1 w 0 0 0 <> volume 4 1 w' 0 0 0.
Proof.
  set (o := all_voxels 4 1 2). set (z := fun _ : Z => 0%R). set (out' := fun x : Z => if (0 <=? x) && (x <? 8) then 0%R else 1%R).
  exists z, z, out', (detect3d 4 1 2 sortR o o o o z 1 1 z z), (detect3d 4 1 2 sortR o o o o z 1 1 z out').
  cbv zeta. split. { intros x Hx. unfold z, out'. destruct (Z.leb_spec 0 x), (Z.ltb_spec x 8); cbn; try reflexivity; lia. }
  split; [reflexivity|]. split; [reflexivity|]. assert (I : inside 4 1 2 0 0 0) by (unfold inside; lia). split; [exact I|].
  assert (P : Permutation o (voxels 4 1 2)) by (unfold o, all_voxels; auto).
  assert (G : forall out x, run o (gradient3d 4 1 2 z 0 2) out x = if (0 <=? x) && (x <? 8) then 0%R else out x).
  { intros out x. destruct (gradient_run 4 1 2 o z out P) as [G1 G2]. destruct (Z.leb_spec 0 x), (Z.ltb_spec x 8); cbn [andb].
    - replace x with (idx 4 1 (x mod 4) 0 (x / 4)) at 1 by (unfold idx; lia). rewrite G1; [unfold view, z; lra|]. unfold inside. lia.
    - apply G2. intros [[i j] k] Hv E. pose proof (idx_range 4 1 2 i j k Hv). cbn in E. lia.
    - apply G2. intros [[i j] k] Hv E. pose proof (idx_range 4 1 2 i j k Hv). cbn in E. lia.
    - apply G2. intros [[i j] k] Hv E. pose proof (idx_range 4 1 2 i j k Hv). cbn in E. lia. }
  assert (D : forall out, exists old0 old1, volume 4 1 (detect3d 4 1 2 sortR o o o o z 1 1 z out) 0 0 0 =
    nth 0 (sortR (let g := run o (gradient3d 4 1 2 z 0 2) out in
       let c := fun k old => ratio_value (mean_plate 4 1 2 g 1 0 0 k) (mean_right 4 1 g 1 0 0 k) (mean_left 4 1 g 1 0 0 k) old in
       [c 1 old1; c 0 old0; c 1 old1])) 0%R).
  { intros out. exists (run o (mean_stride 4 1 2 z) z (idx 4 1 0 0 0)), (run o (mean_stride 4 1 2 z) z (idx 4 1 0 0 1)).
    unfold volume. rewrite place_idx. unfold detect3d. cbv zeta.
    destruct (median_run 4 1 2 sortR o (run o (ratio_mean 4 1 2 (run o (gradient3d 4 1 2 z 0 2) out) 1) (run o (mean_stride 4 1 2 z) z)) 1 (1 - 1)
      (run o (gradient3d 4 1 2 z 0 2) out) P) as [M _].
    rewrite M by exact I. apply (f_equal (fun l => nth 0 (sortR l) 0%R)). change (zrange (- (1)) (1 + 1)) with [-1; 0; 1]. cbn [map].
    change (reach 2 0 (-1)) with 1. change (reach 2 0 0) with 0. change (reach 2 0 1) with 1.
    rewrite !(ratio_run 4 1 2) by (auto; unfold inside; lia). reflexivity. }
  assert (E0 : (volume 4 1 (detect3d 4 1 2 sortR o o o o z 1 1 z z) 0%Z 0%Z 0%Z <= 0)%R).
  { destruct (D z) as (a & b & ->). cbv zeta.
    assert (S0 : forall x, run o (gradient3d 4 1 2 z 0 2) z x = 0%R) by (intros x; rewrite G; unfold z; now destruct (_ && _)).
    assert (T : forall k old, (ratio_value (mean_plate 4 1 2 (run o (gradient3d 4 1 2 z 0 2) z) 1 0 0 k) (mean_right 4 1 (run o (gradient3d 4 1 2 z 0 2) z) 1 0 0 k)
              (mean_left 4 1 (run o (gradient3d 4 1 2 z 0 2) z) 1 0 0 k) old <= 0)%R).
    { intros k old.
      assert (M1 : mean_plate 4 1 2 (run o (gradient3d 4 1 2 z 0 2) z) 1 0 0 k = 0%R).
      { unfold mean_plate. rewrite (sum_over_ext _ _ (fun _ => 0%R)); [rewrite sum_over_const; unfold Rdiv; ring|].
        intros. rewrite (sum_over_ext _ _ (fun _ => 0%R)); [rewrite sum_over_const; ring|]. intros. rewrite S0. apply Rabs_R0. }
      assert (M2 : mean_right 4 1 (run o (gradient3d 4 1 2 z 0 2) z) 1 0 0 k = 0%R).
      { unfold mean_right. rewrite (sum_over_ext _ _ (fun _ => 0%R)); [rewrite sum_over_const; unfold Rdiv; ring|].
        intros. rewrite (sum_over_ext _ _ (fun _ => 0%R)); [rewrite sum_over_const; ring|]. intros. rewrite S0. apply Rabs_R0. }
      assert (M3 : mean_left 4 1 (run o (gradient3d 4 1 2 z 0 2) z) 1 0 0 k = 0%R).
      { unfold mean_left. rewrite (sum_over_ext _ _ (fun _ => 0%R)); [rewrite sum_over_const; unfold Rdiv; ring|].
        intros. rewrite (sum_over_ext _ _ (fun _ => 0%R)); [rewrite sum_over_const; ring|]. intros. rewrite S0. apply Rabs_R0. }
      rewrite M1, M2, M3, ratio_value_spec by lra. rewrite Rmax_left by lra. destruct (Req_EM_T 0 0); [|lra]. apply Rmin_r. }
    match goal with |- (nth 0 (sortR ?l) 0 <= 0)%R => pose proof (kth_in _ _ _ _ (nth_kth sortR sortR_ok l 0 ltac:(cbn; lia))) as Hin end.
    destruct Hin as [<-|[<-|[<-|[]]]]; apply T. }
  assert (E1 : volume 4 1 (detect3d 4 1 2 sortR o o o o z 1 1 z out') 0 0 0 = 1%R).
  { destruct (D out') as (a & b & ->). cbv zeta.
    assert (S1 : forall x, run o (gradient3d 4 1 2 z 0 2) out' x = out' x) by (intros x; rewrite G; unfold out'; now destruct (_ && _)).
    assert (T : forall k old, k = 0 \/ k = 1 -> ratio_value (mean_plate 4 1 2 (run o (gradient3d 4 1 2 z 0 2) out') 1 0 0 k) (mean_right 4 1 (run o (gradient3d 4 1 2 z 0 2) out') 1 0 0 k)
              (mean_left 4 1 (run o (gradient3d 4 1 2 z 0 2) out') 1 0 0 k) old = 1%R).
    { intros k old Hk.
      assert (M1 : mean_plate 4 1 2 (run o (gradient3d 4 1 2 z 0 2) out') 1 0 0 k = (1 / 3)%R).
      { unfold mean_plate, sum_over. change (zrange (- (1)) (1 + 1)) with [-1; 0; 1]. cbn [map fold_right]. rewrite !S1.
        destruct Hk as [-> | ->]; unfold out', idx, mirror; cbn -[Rabs IZR]; rewrite Rabs_R0, Rabs_R1; lra. }
      assert (M2 : mean_right 4 1 (run o (gradient3d 4 1 2 z 0 2) out') 1 0 0 k = (1 / 3)%R).
      { unfold mean_right, sum_over. change (zrange (-1) 2) with [-1; 0; 1]. change (zrange 1 (1 + 1)) with [1]. cbn [map fold_right]. rewrite !S1.
        destruct Hk as [-> | ->]; unfold out', idx, mirror; cbn -[Rabs IZR]; rewrite Rabs_R0, Rabs_R1; lra. }
      assert (M3 : mean_left 4 1 (run o (gradient3d 4 1 2 z 0 2) out') 1 0 0 k = (1 / 3)%R).
      { unfold mean_left, sum_over. change (zrange (-1) 2) with [-1; 0; 1]. change (zrange (- (1)) 0) with [-1]. cbn [map fold_right]. rewrite !S1.
        destruct Hk as [-> | ->]; unfold out', idx, mirror; cbn -[Rabs IZR]; rewrite Rabs_R0, Rabs_R1; lra. }
      rewrite M1, M2, M3, ratio_value_spec by lra. rewrite Rmax_left by lra. destruct (Req_EM_T (1 / 3) 0); [lra|]. rewrite similar_same by lra. apply Rmin_left. lra. }
    match goal with |- nth 0 (sortR ?l) 0%R = 1%R => pose proof (kth_in _ _ _ _ (nth_kth sortR sortR_ok l 0 ltac:(cbn; lia))) as Hin end.
    destruct Hin as [<-|[<-|[<-|[]]]]; apply T; auto. }
  rewrite E1. lra.
Qed.
Print Assumptions C93_outside_refuted.
