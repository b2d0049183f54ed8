(** C94: stripes_mask3d. *)
From Verif Require Import Base Order CLoop Model_Prep Proofs_Prep FloatR Spec_Stripe3d Model_Stripe3d Proofs_Stripe3d Proofs_Mask3d Properties_Stripe3d.
From Coq Require Import Reals Lra.
Local Open Scope Z_scope.

(** What is rejected. *)
Theorem C94_checks orders shape weights t len depth width s temp :
  (exists m, py_stripes_mask3d orders shape weights t len depth width s temp = Ok m) <->
  (exists dz dy dx, shape = [dz; dy; dx] /\ dz <> 0 /\ dy <> 0 /\ dx <> 0 /\ 0 < len < dz /\ 0 <= depth < dy /\ 0 < width < dx /\ (0 < s <= 100)%R).
Proof.
  unfold py_stripes_mask3d. split.
  - intros (m & H). destruct shape as [|dz [|dy [|dx [|? ?]]]]; try discriminate. exists dz, dy, dx. split; auto.
    destruct ((dz =? 0) || (dy =? 0) || (dx =? 0)) eqn:E; [discriminate|]. destruct ((len <=? 0) || (dz <=? len)) eqn:E2; [discriminate|].
    destruct ((depth <? 0) || (dy <=? depth)) eqn:E3; [discriminate|]. destruct ((width <=? 0) || (dx <=? width)) eqn:E4; [discriminate|].
    destruct (rltb 0 s && negb (rltb 100 s)) eqn:E5; [|discriminate].
    apply andb_true_iff in E5 as [E5 E6]. apply rltb_spec in E5. apply negb_true_iff, rltb_false in E6.
    rewrite !orb_false_iff in *. repeat split; lia || lra.
  - intros (dz & dy & dx & -> & H1 & H2 & H3 & H4 & H5 & H6 & H7).
    assert (E : (dz =? 0) || (dy =? 0) || (dx =? 0) = false) by (rewrite !orb_false_iff; lia).
    assert (E2 : (len <=? 0) || (dz <=? len) = false) by (rewrite orb_false_iff; lia).
    assert (E3 : (depth <? 0) || (dy <=? depth) = false) by (rewrite orb_false_iff; lia).
    assert (E4 : (width <=? 0) || (dx <=? width) = false) by (rewrite orb_false_iff; lia).
    assert (E5 : rltb 0 s && negb (rltb 100 s) = true) by (apply andb_true_iff; split; [apply rltb_spec; lra|apply negb_true_iff, rltb_false; lra]).
    rewrite E, E2, E3, E4, E5. eauto.
Qed.
Print Assumptions C94_checks.

(** The percentages: 100 % of n is n, and never more than n hits are asked for. *)
Theorem C94_quota s n : (0 < s <= 100)%R -> 0 <= n < 2 ^ 24 -> 0 <= allowed s n <= allowed 100 n /\ allowed 100 n = n.
Proof. intros Hs Hn. rewrite allowed_100 by auto. split; auto. now apply allowed_range. Qed.
Theorem C94_quota_mono s s' n : (s <= s')%R -> 0 <= n < 2 ^ 24 -> allowed s n <= allowed s' n.
Proof. apply allowed_mono. Qed.
(** ... but the product is computed with 0.01F in single precision: with the default 85 % a length of 60 asks for 50 voxels, not 51. *)
Theorem C94_quota_refuted : exists n, allowed 85 n <> Int_part (85 * IZR n / 100) /\ allowed 85 n = 50 /\ n = 60.
Proof.
  exists 60. rewrite allowed_85_60. assert (E : Int_part (85 * 60 / 100) = 51) by (apply Int_part_floor; lra). rewrite E. repeat split. lia.
Qed.
Print Assumptions C94_quota.
Print Assumptions C94_quota_mono.
Print Assumptions C94_quota_refuted.

Section Mask.
  Variables dx dy dz len depth width : Z.
  Variables t s : R.
  Variable weights : arr R.
  Hypothesis Hs : (0 < s <= 100)%R.
  Hypothesis HL : 0 < len < dz.
  Hypothesis HD : 0 <= depth < dy.
  Hypothesis HW : 0 < width < dx.
  (** not checked by the code *)
  Hypothesis HZ : 4 * width <= dz.
  Notation ins := (inside dx dy dz).
  Notation vol_of := (volume dx dy).
  Definition all_whole (orders : nat -> list voxel) : Prop := forall m, (m < 4 + Z.to_nat width)%nat -> whole dx dy dz (orders m).
  Notation mask_of orders w t temp := (py_stripes_mask3d orders [dz; dy; dx] w t len depth width s temp).
  Notation surv w t := (survivors dy dz w t len depth (allowed s depth) (allowed s len)).

  Lemma mask_ok orders w th temp : all_whole orders -> exists m, mask_of orders w th temp = Ok m /\
    (forall i j k, ins i j k -> vol_of m i j k = merged dx dz (Z.to_nat width) width (surv (vol_of w) th) i j k) /\
    (forall x, x < 0 \/ dx * dy * dz <= x -> m x = temp x).
  Proof.
    intros W. destruct (proj2 (C94_checks orders [dz; dy; dx] w th len depth width s temp)) as (m & Hm).
    { exists dz, dy, dx. repeat split; try lia; lra. }
    exists m. split; [exact Hm|].
    assert (E : m = mask3d dx dy dz orders w th len depth width s temp).
    { unfold py_stripes_mask3d in Hm. destruct ((dz =? 0) || (dy =? 0) || (dx =? 0)); [discriminate|]. destruct ((len <=? 0) || (dz <=? len)); [discriminate|].
      destruct ((depth <? 0) || (dy <=? depth)); [discriminate|]. destruct ((width <=? 0) || (dx <=? width)); [discriminate|].
      destruct (rltb 0 s && negb (rltb 100 s)); [|discriminate]. now apply Ok_inj in Hm. }
    subst m. destruct (mask_value dx dy dz orders w th len depth width s temp HL HD HW HZ) as [A B].
    { intros m Hm'. apply whole_voxels, W, Hm'. }
    split; [|exact B]. intros i j k I. unfold volume at 1. rewrite place_idx. etransitivity; [exact (A i j k I)|].
    assert (G : forall i j k, surv (view dx dy w) th i j k = surv (vol_of w) th i j k).
    { assert (C : forall i j k, candidates (view dx dy w) th i j k = candidates (vol_of w) th i j k) by (intros; unfold candidates, view, volume; now rewrite place_idx).
      assert (C1 : forall i j k, (if depth =? 0 then candidates (view dx dy w) th else kept_depth dy (candidates (view dx dy w) th) (depth / 2) (allowed s depth)) i j k =
        (if depth =? 0 then candidates (vol_of w) th else kept_depth dy (candidates (vol_of w) th) (depth / 2) (allowed s depth)) i j k).
      { intros. destruct (depth =? 0); [apply C|]. unfold kept_depth, depth_hits. rewrite C. f_equal. f_equal. f_equal. apply count_ext. intros; apply C. }
      intros. unfold survivors. cbv zeta. apply kept_vertical_local. intros. apply kept_vertical_local. intros. apply C1. }
    apply merged_local. intros. apply G.
  Qed.

  (** The mask is what is left of the candidates (weight at most the threshold) after the depth and length passes, merged [width] times; nothing outside
      the array is written. *)
  Theorem C94_mask orders temp : all_whole orders -> exists m, mask_of orders weights t temp = Ok m /\
    (forall i j k, ins i j k -> vol_of m i j k = merged dx dz (Z.to_nat width) width (surv (vol_of weights) t) i j k) /\
    (forall x, x < 0 \/ dx * dy * dz <= x -> m x = temp x).
  Proof. apply mask_ok. Qed.

  Lemma mask_is orders w th temp m : all_whole orders -> mask_of orders w th temp = Ok m ->
    forall i j k, ins i j k -> vol_of m i j k = merged dx dz (Z.to_nat width) width (surv (vol_of w) th) i j k.
  Proof. intros W H. destruct (mask_ok orders w th temp W) as (m' & H' & A & _). rewrite H in H'. apply Ok_inj in H'. now subst m'. Qed.

  (** A slice of the mask depends only on the weights of the slices at most depth / 2 away (with depth 0: of that slice), not on the order in which the
      threads visit the voxels, nor on what the memory holds. *)
  Theorem C94_order orders orders' weights' temp temp' m m' : all_whole orders -> all_whole orders' ->
    mask_of orders weights t temp = Ok m -> mask_of orders' weights' t temp' = Ok m' ->
    forall j, (forall i j' k, ins i j' k -> Z.abs (j' - j) <= depth / 2 -> vol_of weights i j' k = vol_of weights' i j' k) ->
    forall i k, ins i j k -> vol_of m i j k = vol_of m' i j k.
  Proof.
    intros W W' H H' j E i k I. rewrite (mask_is _ _ _ _ _ W H), (mask_is _ _ _ _ _ W' H') by auto. clear H H' W W'.
    apply (merged_at dx dy dz); auto; try lia. unfold survivors. cbv zeta.
    apply kept_vertical_at; try lia. apply kept_vertical_at; try lia. clear i k I.
    assert (C : forall j', Z.abs (j' - j) <= depth / 2 -> agree_at dx dy dz j' (candidates (vol_of weights) t) (candidates (vol_of weights') t)).
    { intros j' Hj i k I. unfold candidates. now rewrite E. }
    destruct (depth =? 0); [apply C; lia|]. intros i k I. unfold kept_depth, depth_hits.
    rewrite (C j) by (auto; lia). f_equal. f_equal. f_equal. apply count_ext. intros n Hm. apply in_zrange in Hm. destruct I as (I1 & I2 & I3).
    apply C; [destruct (reach_sym dy j n); lia|]. split; [auto|]. split; [apply reach_in; lia|auto].
  Qed.

  (** Every voxel of the mask lies in a slice with a candidate whose window along the angles holds at least the required number of candidates and at
      least half the minimum length, and whose window across the slices is not too full.  In particular a slice without candidates has no mask. *)
  Theorem C94_source orders temp m : all_whole orders -> mask_of orders weights t temp = Ok m ->
    forall i j k, ins i j k -> vol_of m i j k = true -> exists i' k', ins i' j k' /\
      (vol_of weights i' j k' <= t)%R /\
      (depth = 0 \/ depth_hits dy (candidates (vol_of weights) t) (depth / 2) i' j k' <= allowed s depth) /\
      allowed s len <= vertical_hits dz (candidates (vol_of weights) t) (len / 2) i' j k' /\
      len / 2 <= vertical_hits dz (candidates (vol_of weights) t) (len / 2) i' j k'.
  Proof.
    intros W H i j k I E. rewrite (mask_is _ _ _ _ _ W H) in E by auto.
    apply (merged_slice_in dx dy dz) in E as (i' & k' & I' & E); auto; try lia. exists i', k'. split; [exact I'|].
    unfold survivors in E. cbv zeta in E. set (b := candidates (vol_of weights) t) in *.
    set (b1 := if depth =? 0 then b else kept_depth dy b (depth / 2) (allowed s depth)) in *.
    assert (S1 : forall i j k, b1 i j k = true -> b i j k = true).
    { intros a1 a2 a3. unfold b1, kept_depth. destruct (depth =? 0); auto. rewrite andb_true_iff. tauto. }
    unfold kept_vertical in E at 1. apply andb_true_iff in E as [E E2]. unfold kept_vertical in E. apply andb_true_iff in E as [E E3].
    assert (V1 : vertical_hits dz b1 (len / 2) i' j k' <= vertical_hits dz b (len / 2) i' j k') by (unfold vertical_hits; apply inj_le, count_mono; auto).
    assert (V2 : vertical_hits dz (kept_vertical dz b1 (len / 2) (allowed s len)) (len / 2) i' j k' <= vertical_hits dz b1 (len / 2) i' j k').
    { unfold vertical_hits. apply inj_le, count_mono. intros x _. unfold kept_vertical. rewrite andb_true_iff. tauto. }
    split. { specialize (S1 _ _ _ E). unfold b, candidates in S1. destruct (Rle_dec _ _); [auto|discriminate]. }
    split. { unfold b1 in E. destruct (Z.eqb_spec depth 0); [now left|]. right. unfold kept_depth in E. apply andb_true_iff in E. lia. }
    lia.
  Qed.

  (** A stripe that covers all angles is found, if it is not too deep (depth 0 switches this check off). *)
  Theorem C94_stripe orders temp m i j : all_whole orders -> len < 2 ^ 24 -> mask_of orders weights t temp = Ok m ->
    (forall k, ins i j k -> (vol_of weights i j k <= t)%R /\
      (depth = 0 \/ depth_hits dy (candidates (vol_of weights) t) (depth / 2) i j k <= allowed s depth)) ->
    forall k, ins i j k -> vol_of m i j k = true.
  Proof.
    intros W HB H A k I. rewrite (mask_is _ _ _ _ _ W H) by auto. apply merged_keeps.
    unfold survivors. cbv zeta. set (b := candidates (vol_of weights) t) in *.
    set (b1 := if depth =? 0 then b else kept_depth dy b (depth / 2) (allowed s depth)) in *.
    assert (B1 : forall k, ins i j k -> b1 i j k = true).
    { intros k' I'. destruct (A k' I') as [A1 A2]. assert (Bk : b i j k' = true) by (unfold b, candidates; destruct (Rle_dec _ _); auto; contradiction).
      unfold b1. destruct (Z.eqb_spec depth 0); auto. unfold kept_depth. rewrite Bk. destruct A2 as [A2|A2]; [lia|]. cbn [andb]. lia. }
    assert (F : forall c : vol bool, (forall k, ins i j k -> c i j k = true) -> forall k, ins i j k -> vertical_hits dz c (len / 2) i j k = 2 * (len / 2) + 1).
    { intros c Hc k' (I1 & I2 & I3). unfold vertical_hits. rewrite count_all.
      - rewrite zrange_length. lia.
      - intros x Hx. apply in_zrange in Hx. apply Hc. split; [auto|]. split; [auto|]. apply reach_in; lia. }
    pose proof (allowed_range s len Hs ltac:(lia)) as AR.
    assert (B2 : forall k, ins i j k -> kept_vertical dz b1 (len / 2) (allowed s len) i j k = true).
    { intros k' I'. unfold kept_vertical. rewrite B1 by auto. rewrite (F b1 B1) by auto. cbn [andb]. lia. }
    unfold kept_vertical at 1. rewrite B2 by auto. rewrite (F _ B2) by auto. cbn [andb]. lia.
  Qed.

  (** A feature that goes through all slices is no stripe: when at most as many hits as the window is long are tolerated, its voxels are dropped, and a
      volume of nothing but candidates has an empty mask. *)
  Theorem C94_deep orders temp m : all_whole orders -> mask_of orders weights t temp = Ok m -> 0 < depth -> allowed s depth < 2 * (depth / 2) + 1 ->
    (forall i j k, ins i j k -> (vol_of weights i j k <= t)%R) -> forall i j k, ins i j k -> vol_of m i j k = false.
  Proof.
    intros W H Hd Hq A i j k I. destruct (vol_of m i j k) eqn:E; auto. exfalso.
    destruct (C94_source orders temp m W H i j k I E) as (i' & k' & I' & _ & [D|D] & _); [lia|].
    assert (F : depth_hits dy (candidates (vol_of weights) t) (depth / 2) i' j k' = 2 * (depth / 2) + 1); [|lia].
    unfold depth_hits. rewrite count_all; [rewrite zrange_length; lia|]. intros x Hx. apply in_zrange in Hx. destruct I' as (I1 & I2 & I3).
    unfold candidates. destruct (Rle_dec _ _) as [|N]; auto. exfalso. apply N, A. split; [auto|]. split; [apply reach_in; lia|auto].
  Qed.

  (** Merging keeps the survivors and fills a gap with survivors at most width / 2 to the left and to the right, or at most 2 width above and below. *)
  Theorem C94_merge orders temp m i j k : all_whole orders -> mask_of orders weights t temp = Ok m -> ins i j k ->
    let b := surv (vol_of weights) t in
    b i j k = true \/
    (exists l r, i - width / 2 <= l <= i /\ i <= r <= i + width / 2 /\ 0 <= l /\ r < dx /\ b l j k = true /\ b r j k = true) \/
    (exists u d, k - 2 * width <= u <= k /\ k <= d <= k + 2 * width /\ 0 <= u /\ d < dz /\ b i j u = true /\ b i j d = true) ->
    vol_of m i j k = true.
  Proof.
    intros W H I b. rewrite (mask_is _ _ _ _ _ W H) by auto. fold b. intros [E|[(l & r & Hl & Hr & Hl0 & Hr0 & El & Er)|(u & d & Hu & Hd & Hu0 & Hd0 & Eu & Ed)]].
    - now apply merged_keeps.
    - replace (Z.to_nat width) with (Datatypes.S (Z.to_nat width - 1)) by lia. apply merged_first. left. split.
      + exists (i - l). split; [lia|]. unfold reach. destruct (Z.leb_spec 0 (i + - (i - l))), (Z.ltb_spec (i + - (i - l)) dx); cbn [andb]; try lia. replace (i + - (i - l)) with l by lia. exact El.
      + exists (r - i). split; [lia|]. unfold reach. destruct (Z.leb_spec 0 (i + (r - i))), (Z.ltb_spec (i + (r - i)) dx); cbn [andb]; try lia. replace (i + (r - i)) with r by lia. exact Er.
    - replace (Z.to_nat width) with (Datatypes.S (Z.to_nat width - 1)) by lia. apply merged_first. right. split.
      + exists (k - u). split; [lia|]. unfold reach. destruct (Z.leb_spec 0 (k + - (k - u))), (Z.ltb_spec (k + - (k - u)) dz); cbn [andb]; try lia. replace (k + - (k - u)) with u by lia. exact Eu.
      + exists (d - k). split; [lia|]. unfold reach. destruct (Z.leb_spec 0 (k + (d - k))), (Z.ltb_spec (k + (d - k)) dz); cbn [andb]; try lia. replace (k + (d - k)) with d by lia. exact Ed.
  Qed.

  (** Without the depth check a higher threshold never removes voxels from the mask. *)
  Theorem C94_threshold orders temp temp' t' m m' : all_whole orders -> depth = 0 -> (t <= t')%R ->
    mask_of orders weights t temp = Ok m -> mask_of orders weights t' temp' = Ok m' ->
    forall i j k, ins i j k -> vol_of m i j k = true -> vol_of m' i j k = true.
  Proof.
    intros W D Ht H H' i j k I. rewrite (mask_is _ _ _ _ _ W H), (mask_is _ _ _ _ _ W H') by auto. apply merged_mono. clear i j k I.
    unfold survivors. cbv zeta. rewrite D. cbn [Z.eqb]. apply kept_vertical_mono, kept_vertical_mono.
    intros i j k. unfold candidates. destruct (Rle_dec (vol_of weights i j k) t), (Rle_dec (vol_of weights i j k) t'); auto. lra.
  Qed.
End Mask.
Print Assumptions C94_mask.
Print Assumptions C94_order.
Print Assumptions C94_source.
Print Assumptions C94_stripe.
Print Assumptions C94_deep.
Print Assumptions C94_merge.
Print Assumptions C94_threshold.

Definition same_order (dx dy dz : Z) : nat -> list voxel := fun _ => all_voxels dx dy dz.
Lemma same_order_whole dx dy dz width : all_whole dx dy dz width (same_order dx dy dz).
Proof. intros m _. apply all_voxels_whole. Qed.

(** ** Examples and what does not hold *)
(** With depth checks a higher threshold can empty the mask: a stripe of one slice is found with threshold 1/2; with threshold 1 its neighbours are
    candidates too and it is dropped as too deep. *)
Definition one_slice (p : Z) : R := if (p / 2) mod 3 =? 1 then 0%R else 1%R.
Lemma one_slice_at i j k : inside 2 3 4 i j k -> volume 2 3 one_slice i j k = if j =? 1 then 0%R else 1%R.
Proof.
  intros (I1 & I2 & I3). unfold volume, place, one_slice.
  replace (((k * 3 + j) * 2 + i) / 2) with (k * 3 + j) by (apply (Z.div_unique _ 2 _ i); lia). rewrite Z.add_comm, Z.mod_add, Z.mod_small by lia. reflexivity.
Qed.
Theorem C94_threshold_refuted : exists m m',
  py_stripes_mask3d (same_order 2 3 4) [4; 3; 2] one_slice (1 / 2) 1 2 1 100 (fun _ => false) = Ok m /\
  py_stripes_mask3d (same_order 2 3 4) [4; 3; 2] one_slice 1 1 2 1 100 (fun _ => false) = Ok m' /\
  (forall i k, inside 2 3 4 i 1 k -> volume 2 3 m i 1 k = true) /\ (forall i j k, inside 2 3 4 i j k -> volume 2 3 m' i j k = false).
Proof.
  assert (Hs : (0 < 100 <= 100)%R) by lra. pose proof (same_order_whole 2 3 4 1) as W.
  destruct (C94_mask 2 3 4 1 2 1 (1 / 2) 100 one_slice Hs ltac:(lia) ltac:(lia) ltac:(lia) ltac:(lia) (same_order 2 3 4) (fun _ => false) W) as (m & Hm & _).
  destruct (C94_mask 2 3 4 1 2 1 1 100 one_slice Hs ltac:(lia) ltac:(lia) ltac:(lia) ltac:(lia) (same_order 2 3 4) (fun _ => false) W) as (m' & Hm' & _).
  exists m, m'. split; [exact Hm|]. split; [exact Hm'|]. split.
  - intros i k I. apply (C94_stripe 2 3 4 1 2 1 (1 / 2) 100 one_slice Hs ltac:(lia) ltac:(lia) ltac:(lia) ltac:(lia) (same_order 2 3 4) (fun _ => false) m i 1 W); auto.
    + lia.
    + intros k' I'. rewrite one_slice_at by auto. cbn [Z.eqb Pos.eqb]. split; [lra|]. right. rewrite allowed_100 by lia.
      unfold depth_hits. change (zrange (- (2 / 2)) (2 / 2 + 1)) with [-1; 0; 1]. cbn [count]. change (reach 3 1 (-1)) with 0. change (reach 3 1 0) with 1. change (reach 3 1 1) with 2.
      unfold candidates. destruct I' as (I1 & I2 & I3). rewrite !one_slice_at by (unfold inside; lia). cbn [Z.eqb Pos.eqb].
      destruct (Rle_dec 1 (1 / 2)); [lra|]. destruct (Rle_dec 0 (1 / 2)); cbn; lia.
  - apply (C94_deep 2 3 4 1 2 1 1 100 one_slice Hs ltac:(lia) ltac:(lia) ltac:(lia) ltac:(lia) (same_order 2 3 4) (fun _ => false) m' W Hm'); [lia| |].
    + rewrite allowed_100 by lia. cbn. lia.
    + intros i j k I. rewrite one_slice_at by auto. destruct (j =? 1); lra.
Qed.
Print Assumptions C94_threshold_refuted.

(** Merging does not only fill gaps between voxels of the mask: at the border it looks at the mirrored side, so that the single column 1 grows to column 0,
    where no voxel is a candidate. *)
Definition column_1 (p : Z) : R := if p mod 4 =? 1 then 0%R else 1%R.
Lemma column_1_at i j k : inside 4 1 8 i j k -> volume 4 1 column_1 i j k = if i =? 1 then 0%R else 1%R.
Proof. intros (I1 & I2 & I3). unfold volume, place, column_1. rewrite Z.add_comm, Z.mod_add, Z.mod_small by lia. reflexivity. Qed.
Theorem C94_border_refuted : exists m,
  py_stripes_mask3d (same_order 4 1 8) [8; 1; 4] column_1 (1 / 2) 1 0 2 100 (fun _ => false) = Ok m /\
  (forall k, inside 4 1 8 0 0 k -> volume 4 1 m 0 0 k = true) /\
  (forall i k, inside 4 1 8 i 0 k -> (volume 4 1 column_1 i 0%Z k <= 1 / 2)%R -> i = 1).
Proof.
  assert (Hs : (0 < 100 <= 100)%R) by lra. pose proof (same_order_whole 4 1 8 2) as W.
  destruct (C94_mask 4 1 8 1 0 2 (1 / 2) 100 column_1 Hs ltac:(lia) ltac:(lia) ltac:(lia) ltac:(lia) (same_order 4 1 8) (fun _ => false) W) as (m & Hm & A & _).
  exists m. split; [exact Hm|]. split.
  - intros k I. rewrite A by auto. change (Z.to_nat 2) with (Datatypes.S 1). apply merged_first. left.
    assert (E : survivors 1 8 (volume 4 1 column_1) (1 / 2) 1 0 (allowed 100 0) (allowed 100 1) 1 0 k = true).
    { destruct I as (_ & _ & I3).
      assert (C : candidates (volume 4 1 column_1) (1 / 2) 1 0 k = true).
      { unfold candidates. rewrite column_1_at by (unfold inside; lia). cbn [Z.eqb Pos.eqb]. destruct (Rle_dec 0 (1 / 2)); auto. lra. }
      unfold survivors. cbn [Z.eqb]. cbv zeta. rewrite (allowed_100 1) by lia. unfold kept_vertical, vertical_hits.
      change (zrange (- (1 / 2)) (1 / 2 + 1)) with [0]. cbn [count]. rewrite !reach_0, C. reflexivity. }
    split; exists 1; (split; [cbn; lia|]); exact E.
  - intros i k I. rewrite column_1_at by auto. destruct (Z.eqb_spec i 1); auto. lra.
Qed.
Print Assumptions C94_border_refuted.

(** Widths above a quarter of the number of angles are accepted, and then memory outside the arrays is read: with no candidate at all the mask depends on it. *)
Theorem C94_outside_refuted : exists temp temp' m m',
  (forall x, 0 <= x < 2 * 1 * 2 -> temp x = temp' x) /\
  py_stripes_mask3d (same_order 2 1 2) [2; 1; 2] (fun _ => 1%R) 0 1 0 1 100 temp = Ok m /\
  py_stripes_mask3d (same_order 2 1 2) [2; 1; 2] (fun _ => 1%R) 0 1 0 1 100 temp' = Ok m' /\
  inside 2 1 2 0 0 0 /\ volume 2 1 m 0 0 0 <> volume 2 1 m' 0 0 0.
Proof.
  set (temp' := fun x : Z => if (0 <=? x) && (x <? 4) then false else true). set (z := fun _ : Z => false). set (w := fun _ : Z => 1%R).
  assert (Ok_is : forall tmp, py_stripes_mask3d (same_order 2 1 2) [2; 1; 2] w 0 1 0 1 100 tmp = Ok (mask3d 2 1 2 (same_order 2 1 2) w 0 1 0 1 100 tmp)).
  { intros tmp. unfold py_stripes_mask3d. cbn [Z.eqb Z.leb Z.ltb Z.compare orb Pos.compare Pos.compare_cont].
    replace (rltb 0 100 && negb (rltb 100 100)) with true; [reflexivity|].
    symmetry. apply andb_true_iff. split; [apply rltb_spec; lra|apply negb_true_iff, rltb_false; lra]. }
  exists z, temp', (mask3d 2 1 2 (same_order 2 1 2) w 0 1 0 1 100 z), (mask3d 2 1 2 (same_order 2 1 2) w 0 1 0 1 100 temp').
  split. { intros x Hx. unfold z, temp'. destruct (Z.leb_spec 0 x), (Z.ltb_spec x 4); cbn; try reflexivity; lia. }
  split; [apply Ok_is|]. split; [apply Ok_is|]. assert (I : inside 2 1 2 0 0 0) by (unfold inside; lia). split; [exact I|].
  assert (P : forall n, Permutation (same_order 2 1 2 n) (voxels 2 1 2)) by (intros; unfold same_order, all_voxels; auto).
  assert (M : forall tmp, exists b, (forall x, b x = if (0 <=? x) && (x <? 4) then false else tmp x) /\
     (volume 2 1 (mask3d 2 1 2 (same_order 2 1 2) w 0 1 0 1 100 tmp) 0 0 0 = true <-> near 2 2 (view 2 1 b) 1 0 0 0)).
  { intros tmp. unfold mask3d. cbv zeta.
    destruct (below_run 2 1 2 (same_order 2 1 2 0%nat) w 0 tmp (P _)) as [A0 B0].
    set (b0 := run (same_order 2 1 2 0%nat) (below 2 1 w 0) tmp) in *.
    destruct (depth_run 2 1 2 (same_order 2 1 2 1%nat) b0 1 0 100 (P _)) as [A1 B1].
    set (b1 := run (same_order 2 1 2 1%nat) (remove_inconsistent 2 1 2 b0 1 0 100 1) b0) in *.
    destruct (length_run 2 1 2 (same_order 2 1 2 2%nat) b1 1 0 100 (P _)) as [A2 B2].
    set (b2 := run (same_order 2 1 2 2%nat) (remove_inconsistent 2 1 2 b1 1 0 100 0) b1) in *.
    destruct (short_run 2 1 2 (same_order 2 1 2 3%nat) b2 1 (P _)) as [A3 B3].
    set (b3 := run (same_order 2 1 2 3%nat) (remove_short 2 1 2 b2 1) b2) in *.
    assert (Z3 : forall i j k, inside 2 1 2 i j k -> view 2 1 b3 i j k = false).
    { intros i j k Ii. rewrite A3 by auto. unfold vertical_kept at 1. rewrite A2 by auto. unfold vertical_kept at 1. rewrite A1 by auto. unfold depth_kept. rewrite A0 by auto.
      replace (rltb 0 (view 2 1 w i j k)) with true; [reflexivity|]. symmetry. apply rltb_spec. unfold view, w. lra. }
    exists b3. split.
    - intros x. destruct (Z.leb_spec 0 x), (Z.ltb_spec x 4); cbn [andb].
      + replace x with (idx 2 1 (x mod 2) 0 (x / 2)) by (unfold idx; lia). apply Z3. unfold inside. lia.
      + rewrite B3, B2, B1, B0 by lia. reflexivity.
      + rewrite B3, B2, B1, B0 by lia. reflexivity.
      + rewrite B3, B2, B1, B0 by lia. reflexivity.
    - change (merges 2 1 2 (same_order 2 1 2) 1 (Z.to_nat 1) b3) with (run (same_order 2 1 2 4%nat) (merge 2 1 2 b3 1) b3).
      destruct (merge_run 2 1 2 (same_order 2 1 2 4%nat) b3 1 ltac:(lia) (P _)) as [A4 _].
      unfold volume. rewrite place_idx. etransitivity; [exact (A4 0 0 0 I)|]. rewrite Z3 by exact I. intuition discriminate. }
  assert (N1 : volume 2 1 (mask3d 2 1 2 (same_order 2 1 2) w 0 1 0 1 100 z) 0 0 0 <> true).
  { destruct (M z) as (b & Hb & Hm). rewrite Hm. assert (Hz : forall x, b x = false) by (intros x; rewrite Hb; unfold z; now destruct (_ && _)).
    unfold near, view. intros [[(n & _ & E) _]|[(n & _ & E) _]]; rewrite Hz in E; discriminate. }
  assert (N2 : volume 2 1 (mask3d 2 1 2 (same_order 2 1 2) w 0 1 0 1 100 temp') 0 0 0 = true).
  { destruct (M temp') as (b & Hb & Hm). rewrite Hm. right. unfold view. split; exists 2; (split; [lia|]).
    - change (idx 2 1 0 0 (reach 2 0 (- (2)))) with 4. rewrite Hb. reflexivity.
    - change (idx 2 1 0 0 (reach 2 0 2)) with (-4). rewrite Hb. reflexivity. }
  rewrite N2. exact N1.
Qed.
Print Assumptions C94_outside_refuted.
