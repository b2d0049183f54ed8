(** C86-C92: finding the rotation centre (recon/rotation.py). *)
From Verif Require Import Base CLoop Cplx Model_Prep Model_Sim Model_Corr Model_Rotation Proofs_Rotation Proofs_Vo Proofs_Center.
From Verif Require Proofs_Sim Proofs_Ray.
From Coq Require Import Reals Lra FunctionalExtensionality.
Local Open Scope R_scope.

(** ** C86: the objective of find_center *)
(** Pixel (i, j) of the n x n image that is judged: outside the inscribed circle it counts as 0 (mask=True only). *)
Definition judged (mask : flag) (n : Z) (rec : img) : img :=
  fun i j => match mask with
             | IsTrue => if Rlt_dec ((IZR i - (IZR n - 1) / 2) ^ 2 + (IZR j - (IZR n - 1) / 2) ^ 2) ((IZR n / 2) ^ 2) then rec i j else 0
             | _ => rec i j
             end.
Theorem C86_circle mask n rec i j : masked mask n rec i j = judged mask n rec i j.
Proof.
  unfold masked, judged. destruct mask; [|reflexivity|reflexivity]. unfold get_mask. replace (n <? n)%Z with false by lia.
  set (y := (2 * i + 1 - n)%Z). set (x := (2 * j + 1 - n)%Z).
  assert (Ey : IZR i - (IZR n - 1) / 2 = IZR y / 2) by (unfold y; rewrite minus_IZR, plus_IZR, mult_IZR; lra).
  assert (Ex : IZR j - (IZR n - 1) / 2 = IZR x / 2) by (unfold x; rewrite minus_IZR, plus_IZR, mult_IZR; lra).
  rewrite Ey, Ex.
  assert (E : (1 * 1 * (x * x + y * y) < 1 * 1 * (n * n))%Z <-> (IZR y / 2) ^ 2 + (IZR x / 2) ^ 2 < (IZR n / 2) ^ 2).
  { split; intros H.
    - apply IZR_lt in H. rewrite !mult_IZR, plus_IZR, !mult_IZR in H. lra.
    - apply lt_IZR. rewrite !mult_IZR, plus_IZR, !mult_IZR. lra. }
  destruct (Z.ltb_spec (1 * 1 * (x * x + y * y)) (1 * 1 * (n * n))) as [H|H]; destruct (Rlt_dec _ _) as [H'|H']; auto; [exfalso; apply H', E; lia|apply E in H'; lia].
Qed.
(** The limits of the histogram enclose every pixel of the image they were taken from. *)
Theorem C86_limits n mask rec hmin hmax : adjust_hist_limits n mask rec = (hmin, hmax) ->
  hmin <= hmax /\ forall i j, (0 <= i < n)%Z -> (0 <= j < n)%Z -> hmin <= judged mask n rec i j <= hmax.
Proof.
  intros H. destruct (limits_hold n mask rec hmin hmax H) as [A B]. split; [exact A|]. intros i j Hi Hj. rewrite <- C86_circle. now apply B.
Qed.
(** With room: an image with values of both signs may grow to twice its range, others at least to the next factor 2. *)
Theorem C86_room n mask rec hmin hmax i j : adjust_hist_limits n mask rec = (hmin, hmax) -> (0 <= i < n)%Z -> (0 <= j < n)%Z ->
  (judged mask n rec i j < 0 -> hmin <= 2 * judged mask n rec i j) /\ (0 < judged mask n rec i j -> 2 * judged mask n rec i j <= hmax).
Proof.
  unfold adjust_hist_limits. cbv zeta. intros E Hi Hj. injection E as <- <-. rewrite <- C86_circle.
  assert (I : In (masked mask n rec i j) (pixels n n (masked mask n rec))) by (apply in_pixels; exists i, j; auto).
  pose proof (list_max_ge _ _ I). pose proof (list_min_le _ _ I). unfold adjust_hist_min, adjust_hist_max. split; intros S0.
  - replace (rltb (list_min (pixels n n (masked mask n rec))) 0) with true by (symmetry; apply rltb_spec; lra). lra.
  - replace (rltb (list_max (pixels n n (masked mask n rec))) 0) with false by (symmetry; apply rltb_false; lra). lra.
Qed.
(** A histogram: bin k counts the values of [lo + k w, lo + (k+1) w), the last bin is closed; the counts of values inside the limits
    sum to their number. *)
Theorem C86_histogram n lo hi l h : (1 <= n)%Z -> lo < hi -> histogram n lo hi l = Ok h ->
  length h = Z.to_nat n /\
  (forall k, (0 <= k < n)%Z -> exists p : R -> bool,
     (forall x, p x = true <-> lo + IZR k * (hi - lo) / IZR n <= x /\ (x < lo + IZR (k + 1) * (hi - lo) / IZR n \/ (k = n - 1)%Z /\ x = hi)) /\
     nth (Z.to_nat k) h 0%Z = Z.of_nat (count p l)) /\
  ((forall x, In x l -> lo <= x <= hi) -> fold_right Z.add 0%Z h = Z.of_nat (length l)).
Proof.
  intros Hn Hl. unfold histogram. destruct (hist_limits_ok lo hi ltac:(lra)) as (lo' & hi' & E & _ & _ & _ & Q). destruct (Q Hl) as [-> ->].
  rewrite E. unfold Ok. cbv beta iota. intros H. injection H as <-. split; [rewrite map_length, zrange_length; lia|]. split.
  - intros k Hk. exists (in_bin n lo hi k). split; [intros x; now apply in_bin_iff|].
    rewrite (nth_indep _ 0%Z ((fun k => Z.of_nat (count (in_bin n lo hi k) l)) 0%Z)) by (rewrite map_length, zrange_length; lia).
    rewrite (map_nth (fun k => Z.of_nat (count (in_bin n lo hi k) l))). f_equal. f_equal.
    assert (En : nth (Z.to_nat k) (zrange 0 n) 0%Z = k); [|now rewrite En].
    unfold zrange. rewrite (nth_indep _ 0%Z ((fun k => (0 + Z.of_nat k)%Z) 0%nat)) by (rewrite map_length, seq_length; lia).
    rewrite (map_nth (fun k => (0 + Z.of_nat k)%Z)). rewrite seq_nth by lia. lia.
  - intros Hx. rewrite count_bins by auto. f_equal. apply count_all. intros x I. destruct (Hx x I) as [A B].
    replace (rltb x lo) with false by (symmetry; now apply rltb_false). replace (rltb hi x) with false by (symmetry; now apply rltb_false). reflexivity.
Qed.
(** The objective is a number for every reconstruction and every candidate, and lies between the cost of an image in one bin and the cost of an
    image spread evenly over all bins, provided the image stays inside the limits. *)
Definition information (p : R) : R := - (p * (ln p / ln 2)).
Theorem C86_defined n recon mask ratio c : exists v, find_center_objective n recon mask ratio c = Ok v.
Proof.
  unfold find_center_objective. destruct (adjust_hist_limits n mask (recon None)) as [hmin hmax] eqn:E.
  apply limits_hold in E as [L _]. unfold find_center_cost, histogram.
  destruct (hist_limits_ok hmin hmax L) as (lo & hi & -> & _). unfold Ok. eauto.
Qed.
Theorem C86_bounds n rec hmin hmax mask ratio v : (1 <= n)%Z -> hmin <= hmax ->
  (forall i j, (0 <= i < n)%Z -> (0 <= j < n)%Z -> hmin <= judged mask n rec i j <= hmax) ->
  find_center_cost n rec hmin hmax mask ratio = Ok v ->
  63 * information tiny + information (1 + tiny) <= v <= 64 * information (1 / 64 + tiny).
Proof.
  intros Hn Hl Hin. unfold find_center_cost, histogram. destruct (hist_limits_ok hmin hmax Hl) as (lo & hi & E & L1 & L2 & L3 & _). rewrite E.
  unfold Ok. cbv beta iota. set (l := pixels n n (masked mask n rec)).
  set (h := map (fun k => Z.of_nat (count (in_bin 64 lo hi k) l)) (zrange 0 64)). intros H. injection H as <-.
  assert (S0 : 0 < IZR (n * n)) by (apply IZR_lt; nia).
  assert (Hc : forall c, In c h -> (0 <= c)%Z) by (intros c I; unfold h in I; apply in_map_iff in I as (k & <- & _); lia).
  assert (Hs : IZR (fold_right Z.add 0%Z h) = IZR (n * n)).
  { unfold h. rewrite count_bins by (lia || lra). f_equal. rewrite count_all; [unfold l; rewrite pixels_length by lia; lia|].
    intros x I. apply in_pixels in I as (i & j & Hi & Hj & ->). destruct (Hin i j Hi Hj) as [A B]. rewrite <- C86_circle in A, B.
    replace (rltb (masked mask n rec i j) lo) with false by (symmetry; apply rltb_false; lra).
    replace (rltb hi (masked mask n rec i j)) with false by (symmetry; apply rltb_false; lra). reflexivity. }
  pose proof (entropy_least _ h S0 Hc Hs) as A. pose proof (entropy_most _ h S0 Hc Hs) as B.
  assert (Len : length h = 64%nat) by reflexivity. rewrite Len in A, B. replace (INR (64 - 1)) with 63 in A by (rewrite INR_IZR_INZ; reflexivity).
  replace (INR 64) with 64 in B by (rewrite INR_IZR_INZ; reflexivity). unfold term, log2 in A, B. unfold information. lra.
Qed.
Lemma cost_terms n rec hmin hmax mask ratio lo hi v : hist_limits hmin hmax = Ok (lo, hi) -> find_center_cost n rec hmin hmax mask ratio = Ok v ->
  v = rsum (map (fun k => term (IZR (Z.of_nat (count (in_bin 64 lo hi k) (pixels n n (masked mask n rec)))) / IZR (n * n) + tiny)) (zrange 0 64)).
Proof.
  intros E H. unfold find_center_cost, histogram in H. rewrite E in H. unfold Ok in H. cbv beta iota in H.
  assert (I : forall x y : R, @inr err R x = inr y -> x = y) by (intros x y X; now injection X). apply I in H. rewrite <- H, entropy_terms, map_map. reflexivity.
Qed.
Lemma one_bin e u w : (0 <= e < 64)%Z -> rsum (map (fun k => if (e =? k)%Z then u else w) (zrange 0 64)) = u + 63 * w.
Proof.
  intros He. rewrite <- (@zrange_app 0 e 64), <- (@zrange_app e (e + 1) 64), zrange_one, !map_app, !rsum_app by lia.
  rewrite (rsum_ext _ (fun _ => w) (zrange 0 e)) by (intros k Hk; apply in_zrange in Hk; replace (e =? k)%Z with false by lia; reflexivity).
  rewrite (rsum_ext _ (fun _ => w) (zrange (e + 1) 64)) by (intros k Hk; apply in_zrange in Hk; replace (e =? k)%Z with false by lia; reflexivity).
  rewrite !rsum_const, !zrange_length. change (map (fun k : Z => if (e =? k)%Z then u else w) [e]) with [if (e =? e)%Z then u else w].
  rewrite Z.eqb_refl. change (rsum [u]) with (u + 0). rewrite !INR_IZR_INZ, !Z2Nat.id by lia. rewrite !minus_IZR, plus_IZR. ring.
Qed.
(** Both bounds are attained. *)
Theorem C86_least n rec hmin hmax mask ratio v x : (1 <= n)%Z -> hmin < hmax -> hmin <= x <= hmax ->
  (forall i j, (0 <= i < n)%Z -> (0 <= j < n)%Z -> judged mask n rec i j = x) ->
  find_center_cost n rec hmin hmax mask ratio = Ok v -> v = 63 * information tiny + information (1 + tiny).
Proof.
  intros Hn Hl Hx Hc Hv. destruct (hist_limits_ok hmin hmax ltac:(lra)) as (lo & hi & E & _ & _ & _ & Q). destruct (Q Hl) as [-> ->].
  rewrite (cost_terms _ _ _ _ _ _ _ _ _ E Hv). clear v Hv.
  destruct (@bin_in 64 hmin hmax x ltac:(lia) Hl Hx) as (b & Eb & Hb).
  rewrite (rsum_ext _ (fun k => if (b =? k)%Z then term (1 + tiny) else term tiny)).
  - rewrite one_bin by auto. unfold term, log2, information. ring.
  - intros k Hk. apply in_zrange in Hk. 
    assert (EC : count (in_bin 64 hmin hmax k) (pixels n n (masked mask n rec)) = if (b =? k)%Z then Z.to_nat (n * n) else 0%nat).
    { assert (V : forall y, In y (pixels n n (masked mask n rec)) -> in_bin 64 hmin hmax k y = (b =? k)%Z).
      { intros y I. apply in_pixels in I as (i & j & Hi & Hj & ->). rewrite C86_circle, Hc by auto. unfold in_bin. now rewrite Eb. }
      destruct (b =? k)%Z.
      - rewrite count_all by auto. apply pixels_length; lia.
      - induction (pixels n n (masked mask n rec)) as [|y t IH]; [reflexivity|]. cbn. rewrite V by now left. rewrite IH; [reflexivity|]. intros; apply V; now right. }
    rewrite EC. destruct (b =? k)%Z.
    + rewrite Z2Nat.id by nia. replace (IZR (n * n) / IZR (n * n)) with 1; [reflexivity|]. field. apply not_0_IZR. nia.
    + cbn. replace (0 / IZR (n * n) + tiny) with tiny by (unfold Rdiv; ring). reflexivity.
Qed.
(** The cost looks at the values only, not at their places. *)
Theorem C86_places n rec1 rec2 hmin hmax mask ratio : Permutation (pixels n n (judged mask n rec1)) (pixels n n (judged mask n rec2)) ->
  find_center_cost n rec1 hmin hmax mask ratio = find_center_cost n rec2 hmin hmax mask ratio.
Proof.
  intros H.
  assert (E : forall rec, pixels n n (judged mask n rec) = pixels n n (masked mask n rec)).
  { intros rec. unfold pixels. apply flat_map_ext. intros i. apply map_ext. intros j. symmetry. apply C86_circle. }
  rewrite !E in H. unfold find_center_cost, histogram. destruct (hist_limits hmin hmax) as [e|[lo hi]]; [reflexivity|]. unfold Ok. cbv beta iota. do 2 f_equal.
  apply map_ext. intros k. f_equal. now apply count_perm.
Qed.
(** Refuted: the circle has the radius given by ratio.  The argument has no effect. *)
Theorem C86_ratio_refuted : ~ (forall n recon c ratio v, 0 < ratio <= 1 -> find_center_objective n recon IsTrue ratio c = Ok v ->
  find_center_objective n (fun c i j => if Rlt_dec ((IZR i - (IZR n - 1) / 2) ^ 2 + (IZR j - (IZR n - 1) / 2) ^ 2) ((ratio * (IZR n / 2)) ^ 2) then recon c i j else 0) IsTrue 1 c = Ok v).
Proof.
  intros H.
  (* one pixel, value 1; a mask of ratio 1/2 keeps it: use a 2 x 2 image, whose pixels lie at distance sqrt(1/2) *)
  set (rec := fun c : option R => match c with None => (fun _ _ : Z => 1) | Some _ => (fun i j : Z => if (j =? 0)%Z then 1 else 0) end).
  specialize (H 2%Z rec 0 (1 / 2)).
  assert (V : exists v, find_center_objective 2 rec IsTrue (1 / 2) 0 = Ok v) by apply C86_defined. destruct V as [v Ev].
  specialize (H v ltac:(lra) Ev).
  assert (P : forall f : img, pixels 2 2 f = [f 0%Z 0%Z; f 0%Z 1%Z; f 1%Z 0%Z; f 1%Z 1%Z]) by reflexivity.
  assert (M : forall f : img, pixels 2 2 (masked IsTrue 2 f) = pixels 2 2 f) by reflexivity.
  assert (D : forall i j : Z, (0 <= i < 2)%Z -> (0 <= j < 2)%Z -> ~ (IZR i - (2 - 1) / 2) ^ 2 + (IZR j - (2 - 1) / 2) ^ 2 < (1 / 2 * (2 / 2)) ^ 2).
  { intros i j Hi Hj. assert (i = 0 \/ i = 1)%Z as [->| ->] by lia; assert (j = 0 \/ j = 1)%Z as [->| ->] by lia; lra. }
  set (rec2 := fun (c : option R) (i j : Z) => if Rlt_dec ((IZR i - (IZR 2 - 1) / 2) ^ 2 + (IZR j - (IZR 2 - 1) / 2) ^ 2) ((1 / 2 * (IZR 2 / 2)) ^ 2) then rec c i j else 0) in H.
  assert (R2 : forall c, pixels 2 2 (rec2 c) = [0; 0; 0; 0]).
  { intros c. rewrite P. unfold rec2. repeat (destruct (Rlt_dec _ _) as [X|_]; [exfalso; revert X; apply D; lia|]). reflexivity. }
  unfold find_center_objective, adjust_hist_limits in H, Ev. cbv zeta in H, Ev. rewrite !M in H, Ev. rewrite !R2 in H. change (pixels 2 2 (rec None)) with [1; 1; 1; 1] in Ev.
  assert (X1 : adjust_hist_min (list_min [1; 1; 1; 1]) = 1 / 2).
  { unfold list_min. cbn. repeat rewrite (Rmin_left 1 1) by lra. unfold adjust_hist_min. replace (rltb 1 0) with false by (symmetry; apply rltb_false; lra). lra. }
  assert (X2 : adjust_hist_max (list_max [1; 1; 1; 1]) = 2).
  { unfold list_max. cbn. repeat rewrite (Rmax_left 1 1) by lra. unfold adjust_hist_max. replace (rltb 1 0) with false by (symmetry; apply rltb_false; lra). lra. }
  assert (Y1 : adjust_hist_min (list_min [0; 0; 0; 0]) = 0).
  { unfold list_min. cbn. repeat rewrite (Rmin_left 0 0) by lra. unfold adjust_hist_min. replace (rltb 0 0) with false by (symmetry; apply rltb_false; lra). lra. }
  assert (Y2 : adjust_hist_max (list_max [0; 0; 0; 0]) = 0).
  { unfold list_max. cbn. repeat rewrite (Rmax_left 0 0) by lra. unfold adjust_hist_max. replace (rltb 0 0) with false by (symmetry; apply rltb_false; lra). lra. }
  rewrite X1, X2 in Ev. rewrite Y1, Y2 in H.
  assert (L1 : hist_limits (1 / 2) 2 = Ok (1 / 2, 2)).
  { unfold hist_limits. replace (rltb 2 (1 / 2)) with false by (symmetry; apply rltb_false; lra). destruct (Req_EM_T (1 / 2) 2) as [Q|_]; [exfalso; lra|reflexivity]. }
  assert (L2 : hist_limits 0 0 = Ok (0 - 1 / 2, 0 + 1 / 2)).
  { unfold hist_limits. replace (rltb 0 0) with false by (symmetry; apply rltb_false; lra). destruct (Req_EM_T 0 0) as [_|Q]; [reflexivity|easy]. }
  apply (cost_terms _ _ _ _ _ _ _ _ _ L1) in Ev. apply (cost_terms _ _ _ _ _ _ _ _ _ L2) in H. rewrite M in H, Ev. rewrite R2 in H. rewrite P in Ev.
  unfold rec in Ev. cbn [Z.eqb Pos.eqb] in Ev.
  (* one candidate: half of the pixels outside the limits; the other: all in one bin *)
  destruct (@bin_in 64 (0 - 1 / 2) (0 + 1 / 2) 0 ltac:(lia) ltac:(lra) ltac:(lra)) as (b & Eb & Hb).
  destruct (@bin_in 64 (1 / 2) 2 1 ltac:(lia) ltac:(lra) ltac:(lra)) as (d & Ed & Hd).
  assert (O : bin_of 64 (1 / 2) 2 0 = None) by (apply bin_out; lra).
  rewrite (rsum_ext _ (fun k => if (b =? k)%Z then term (1 + tiny) else term tiny)) in H.
  2:{ intros k _. unfold count, in_bin. rewrite Eb. destruct (b =? k)%Z; cbn; f_equal; lra. }
  rewrite (rsum_ext _ (fun k => if (d =? k)%Z then term (1 / 2 + tiny) else term tiny)) in Ev.
  2:{ intros k _. unfold count, in_bin. rewrite Ed, O. destruct (d =? k)%Z; cbn; f_equal; lra. }
  rewrite one_bin in H, Ev by auto. assert (T : term (1 + tiny) = term (1 / 2 + tiny)) by lra.
  assert (0 < tiny < 1 / 4) by (split; [apply tiny_pos|unfold tiny; lra]).
  assert (G1 : 0 < ln (1 + tiny)) by (rewrite <- ln_1; apply ln_increasing; lra).
  assert (G2 : ln (1 / 2 + tiny) < 0) by (rewrite <- ln_1; apply ln_increasing; lra). pose proof ln2_pos.
  assert (term (1 + tiny) < 0). { unfold term, log2. assert (0 < (1 + tiny) * (ln (1 + tiny) / ln 2)) by (apply Rmult_lt_0_compat; [lra|apply Rdiv_lt_0_compat; lra]). lra. }
  assert (0 < term (1 / 2 + tiny)).
  { unfold term, log2. assert (0 < (1 / 2 + tiny) * (- ln (1 / 2 + tiny) / ln 2)) by (apply Rmult_lt_0_compat; [lra|apply Rdiv_lt_0_compat; lra]).
    unfold Rdiv in *. lra. }
  lra.
Qed.
(** Refuted: leaving the limits is penalised.  Values outside are not counted, and an image of which nothing lies within the limits is
    preferred to one that takes only two values inside. *)
Theorem C86_outside_refuted : ~ (forall n good bad hmin hmax mask ratio vg vb, (1 <= n)%Z -> hmin < hmax ->
  (forall i j, (0 <= i < n)%Z -> (0 <= j < n)%Z -> judged mask n good i j = hmin \/ judged mask n good i j = hmax) ->
  (forall i j, (0 <= i < n)%Z -> (0 <= j < n)%Z -> ~ hmin <= judged mask n bad i j <= hmax) ->
  find_center_cost n good hmin hmax mask ratio = Ok vg -> find_center_cost n bad hmin hmax mask ratio = Ok vb -> vg <= vb).
Proof.
  intros H. set (good := fun i j : Z => IZR j). set (bad := fun i j : Z => 2).
  assert (L : hist_limits 0 1 = Ok (0, 1)).
  { unfold hist_limits. replace (rltb 1 0) with false by (symmetry; apply rltb_false; lra). destruct (Req_EM_T 0 1) as [Q|_]; [exfalso; lra|reflexivity]. }
  assert (V : forall im, exists v, find_center_cost 2 im 0 1 IsFalse 1 = Ok v) by (intros im; unfold find_center_cost, histogram; rewrite L; unfold Ok; eauto).
  destruct (V good) as [vg Eg]. destruct (V bad) as [vb Eb].
  assert (K : vg <= vb).
  { apply (H 2%Z good bad 0 1 IsFalse 1); try assumption; [lia|lra| |].
    - intros i j _ Hj. cbn. unfold good. assert (j = 0 \/ j = 1)%Z as [->| ->] by lia; auto.
    - intros i j _ _. cbn. unfold bad. lra. }
  apply (cost_terms _ _ _ _ _ _ _ _ _ L) in Eg. apply (cost_terms _ _ _ _ _ _ _ _ _ L) in Eb. cbn [masked] in Eg, Eb.
  change (pixels 2 2 good) with [0; 1; 0; 1] in Eg. change (pixels 2 2 bad) with [2; 2; 2; 2] in Eb.
  assert (B2 : bin_of 64 0 1 2 = None) by (apply bin_out; lra).
  assert (B0 : bin_of 64 0 1 0 = Some 0%Z).
  { unfold bin_of. replace (rltb 0 0) with false by (symmetry; apply rltb_false; lra). replace (rltb 1 0) with false by (symmetry; apply rltb_false; lra).
    cbn [orb]. replace ((0 - 0) / (1 - 0) * 64) with (IZR 0) by lra. now rewrite Proofs_Sim.Int_part_int. }
  assert (B1 : bin_of 64 0 1 1 = Some 63%Z).
  { unfold bin_of. replace (rltb 1 0) with false by (symmetry; apply rltb_false; lra). replace (rltb 1 1) with false by (symmetry; apply rltb_false; lra).
    cbn [orb]. replace ((1 - 0) / (1 - 0) * 64) with (IZR 64) by lra. now rewrite Proofs_Sim.Int_part_int. }
  rewrite (rsum_ext _ (fun _ => term tiny)) in Eb.
  2:{ intros k _. unfold count, in_bin. rewrite B2. cbn. f_equal. lra. }
  rewrite rsum_const, zrange_length, INR_IZR_INZ in Eb. change (IZR (Z.of_nat (Z.to_nat (64 - 0)))) with 64 in Eb.
  change (zrange 0 64) with ([0%Z] ++ zrange 1 63 ++ [63%Z]) in Eg. rewrite !map_app, !rsum_app in Eg.
  rewrite (rsum_ext _ (fun _ => term tiny) (zrange 1 63)) in Eg.
  2:{ intros k Hk. apply in_zrange in Hk. unfold count, in_bin. rewrite B0, B1. replace (0 =? k)%Z with false by lia. replace (63 =? k)%Z with false by lia. cbn. f_equal. lra. }
  rewrite rsum_const, zrange_length, INR_IZR_INZ in Eg. change (IZR (Z.of_nat (Z.to_nat (63 - 1)))) with 62 in Eg.
  unfold count, in_bin in Eg. rewrite B0, B1 in Eg. cbn in Eg. replace (2 / 4 + tiny) with (1 / 2 + tiny) in Eg by lra.
  pose proof tiny_pos as T0. assert (T1 : tiny < 1 / 1000) by (unfold tiny; lra). pose proof ln2_pos as L2.
  assert (L2' : ln 2 <= 1) by (pose proof (ln_le_sub 2); lra).
  assert (G : 1 / 8 <= term (1 / 2 + tiny)).
  { unfold term, log2. pose proof (ln_le_sub (1 / 2 + tiny) ltac:(lra)) as A.
    assert (I : 1 <= / ln 2) by (apply Rmult_le_reg_l with (ln 2); [lra|]; rewrite Rinv_r; lra).
    assert (1 / 4 <= - ln (1 / 2 + tiny) * / ln 2). { apply Rle_trans with (1 / 4 * 1); [lra|]. apply Rmult_le_compat; lra. }
    replace (- ((1 / 2 + tiny) * (ln (1 / 2 + tiny) / ln 2))) with ((1 / 2 + tiny) * (- ln (1 / 2 + tiny) * / ln 2)) by (unfold Rdiv; ring).
    apply Rle_trans with (1 / 2 * (1 / 4)); [lra|]. apply Rmult_le_compat; lra. }
  assert (S0 : term tiny <= 48 * tiny).
  { unfold term, log2. assert (E : - ln tiny <= 48 * ln 2).
    { replace (- ln tiny) with (ln (10 ^ 12)). 2:{ unfold tiny. unfold Rdiv. rewrite Rmult_1_l, ln_Rinv by (apply pow_lt; lra). ring. }
      replace (48 * ln 2) with (ln (16 ^ 12)).
      - left. apply ln_increasing; lra.
      - replace (16 ^ 12) with (2 ^ 48) by lra. assert (P : forall m, ln (2 ^ m) = INR m * ln 2) by (induction m as [|m IH]; [cbn; rewrite ln_1; ring|]; rewrite S_INR; cbn [pow]; rewrite ln_mult, IH; [ring|lra|apply pow_lt; lra]).
        rewrite P, INR_IZR_INZ. reflexivity. }
    replace (- (tiny * (ln tiny / ln 2))) with (tiny * (- ln tiny / ln 2)) by (unfold Rdiv; ring).
    rewrite (Rmult_comm 48). apply Rmult_le_compat_l; [lra|]. apply Rmult_le_reg_r with (ln 2); [lra|]. unfold Rdiv. rewrite Rmult_assoc, Rinv_l; lra. }
  lra.
Qed.
Example C86_example : find_center_cost 1 (fun _ _ => 5) 0 10 IsTrue 1 = Ok (63 * information tiny + information (1 + tiny)).
Proof.
  assert (V : exists v, find_center_cost 1 (fun _ _ => 5) 0 10 IsTrue 1 = Ok v).
  { unfold find_center_cost, histogram. destruct (hist_limits_ok 0 10 ltac:(lra)) as (lo & hi & -> & _). unfold Ok. eauto. }
  destruct V as [v E]. rewrite E. f_equal. apply (C86_least 1 (fun _ _ => 5) 0 10 IsTrue 1 v 5); try lra; [lia| |exact E].
  intros i j Hi Hj. unfold judged. assert (i = 0)%Z as -> by lia. assert (j = 0)%Z as -> by lia. destruct (Rlt_dec _ _) as [|N]; [reflexivity|exfalso; apply N; lra].
Qed.
(** Limits in the wrong order are refused. *)
Theorem C86_reversed n rec hmin hmax mask ratio : hmax < hmin -> find_center_cost n rec hmin hmax mask ratio = Raise ValueError.
Proof. intros H. unfold find_center_cost, histogram, hist_limits. rewrite (proj2 (rltb_spec hmax hmin) H). reflexivity. Qed.
(** The search starts where it is told to, or in the middle of the detector, on the slice it is told to use, or the one in the middle. *)
Theorem C86_start dy dx ind init : (1 <= dy)%Z -> (1 <= dx)%Z ->
  (forall i, ind = Some i -> default_index dy ind = i) /\ (forall c, init = Some c -> default_init dx init = c) /\
  (0 <= default_index dy None < dy)%Z /\ (2 * default_index dy None <= dy < 2 * default_index dy None + 2)%Z /\
  IZR dx / 2 - 1 / 2 <= default_init dx None <= IZR dx / 2 /\ exists k : Z, default_init dx None = IZR k.
Proof.
  intros Hy Hx. repeat split; try (intros ? ->; reflexivity); unfold default_index, default_init; try lia; try (eexists; reflexivity).
  - assert (IZR dx <= IZR (2 * (dx / 2) + 1)) by (apply IZR_le; lia). rewrite plus_IZR, mult_IZR in *. lra.
  - assert (IZR (2 * (dx / 2)) <= IZR dx) by (apply IZR_le; lia). rewrite mult_IZR in *. lra.
Qed.
Print Assumptions C86_circle.
Print Assumptions C86_reversed.
Print Assumptions C86_start.
Print Assumptions C86_limits.
Print Assumptions C86_room.
Print Assumptions C86_histogram.
Print Assumptions C86_defined.
Print Assumptions C86_bounds.
Print Assumptions C86_least.
Print Assumptions C86_places.
Print Assumptions C86_ratio_refuted.
Print Assumptions C86_outside_refuted.

(** ** C87: the metric of find_center_vo *)
(** Size of the component of an image with u turns along the rows' axis and v turns along the columns' axis. *)
Definition amplitude (n0 n1 : Z) (a : img) (u v : Z) : R :=
  let phase := fun i j => 2 * PI * (IZR (u * i) / IZR n0 + IZR (v * j) / IZR n1) in
  sqrt ((rsum (pixels n0 n1 (fun i j => a i j * cos (phase i j)))) ^ 2 + (rsum (pixels n0 n1 (fun i j => a i j * sin (phase i j)))) ^ 2).
(** A half-turn sinogram over its own continuation if the axis is at column c2/2: row nrow + i sees at column j what row i sees at c2 - j;
    where this lies beside the detector the rows in reverse order are taken. *)
Definition unfolded (nrow ncol c2 : Z) (sino : img) : img :=
  fun i j => if (i <? nrow)%Z then sino i j
             else if ((0 <=? c2 - j) && (c2 - j <? ncol))%Z then sino (i - nrow)%Z (c2 - j)%Z else sino (2 * nrow - 1 - i)%Z j.
Lemma re_csum n f : re (csum n f) = rsum (map (fun i => re (f i)) (zrange 0 n)).
Proof. unfold csum. induction (zrange 0 n) as [|i l IH]; [reflexivity|]. cbn [map fold_right]. unfold rsum in *. cbn [fold_right]. rewrite <- IH. reflexivity. Qed.
Lemma im_csum n f : im (csum n f) = rsum (map (fun i => im (f i)) (zrange 0 n)).
Proof. unfold csum. induction (zrange 0 n) as [|i l IH]; [reflexivity|]. cbn [map fold_right]. unfold rsum in *. cbn [fold_right]. rewrite <- IH. reflexivity. Qed.
Lemma amplitude_fft2 n0 n1 a u v : cabs (fft2 n0 n1 a u v) = amplitude n0 n1 a u v.
Proof.
  unfold cabs, amplitude. cbv zeta.
  assert (T : forall i j, (cr (a i j) * (turn n0 (- (u * i)) * turn n1 (- (v * j))))%C =
              (a i j * cos (2 * PI * (IZR (u * i) / IZR n0 + IZR (v * j) / IZR n1)), - (a i j * sin (2 * PI * (IZR (u * i) / IZR n0 + IZR (v * j) / IZR n1))))).
  { intros i j. unfold turn. rewrite <- expi_add. rewrite !opp_IZR.
    replace (2 * PI * - IZR (u * i) / IZR n0 + 2 * PI * - IZR (v * j) / IZR n1) with (- (2 * PI * (IZR (u * i) / IZR n0 + IZR (v * j) / IZR n1))) by (unfold Rdiv; ring).
    unfold expi. rewrite cos_neg, sin_neg. apply ceq; cbn; ring. }
  assert (Re : re (fft2 n0 n1 a u v) = rsum (pixels n0 n1 (fun i j => a i j * cos (2 * PI * (IZR (u * i) / IZR n0 + IZR (v * j) / IZR n1))))).
  { unfold fft2. rewrite re_csum, rsum_pixels. apply rsum_ext. intros i _. rewrite re_csum. apply rsum_ext. intros j _. now rewrite T. }
  assert (Im : im (fft2 n0 n1 a u v) = - rsum (pixels n0 n1 (fun i j => a i j * sin (2 * PI * (IZR (u * i) / IZR n0 + IZR (v * j) / IZR n1))))).
  { unfold fft2. rewrite im_csum, rsum_pixels. 
    replace (- rsum (map (fun i => rsum (map (fun j => a i j * sin (2 * PI * (IZR (u * i) / IZR n0 + IZR (v * j) / IZR n1))) (zrange 0 n1))) (zrange 0 n0)))
      with (-1 * rsum (map (fun i => rsum (map (fun j => a i j * sin (2 * PI * (IZR (u * i) / IZR n0 + IZR (v * j) / IZR n1))) (zrange 0 n1))) (zrange 0 n0))) by ring.
    rewrite <- rsum_scale. apply rsum_ext. intros i _. rewrite im_csum, <- rsum_scale. apply rsum_ext. intros j _. rewrite T. cbn. ring. }
  rewrite Re, Im. f_equal. ring.
Qed.
Lemma fft2_period0 n0 n1 a u v k : (1 <= n0)%Z -> fft2 n0 n1 a (u + n0 * k) v = fft2 n0 n1 a u v.
Proof.
  intros H. unfold fft2. apply csum_ext. intros i _. apply csum_ext. intros j _. f_equal. f_equal.
  replace (- ((u + n0 * k) * i))%Z with (- (u * i) + n0 * (- k * i))%Z by ring. now apply turn_period.
Qed.
Lemma fft2_mod n0 n1 a u v : (1 <= n0)%Z -> (1 <= n1)%Z -> fft2 n0 n1 a (u mod n0) (v mod n1) = fft2 n0 n1 a u v.
Proof.
  intros H0 H1. rewrite (Z.div_mod u n0), (Z.div_mod v n1) at 2 by lia. rewrite (Z.add_comm (n0 * _)), (Z.add_comm (n1 * _)). now rewrite fft2_period0, fft2_period1.
Qed.
(** For a candidate c at a whole or half column: the mean over all frequencies of the amplitudes in the unfolded sinogram, weighted with the mask,
    whose element (nrow, ncol / 2) belongs to frequency (0, 0). *)
Theorem C87_metric interp nrow ncol ratio drop sino c2 : (1 <= nrow)%Z -> (1 <= ncol)%Z -> (0 <= c2 <= 2 * (ncol - 1))%Z ->
  sino_metric interp nrow ncol ratio drop sino (2 * (IZR c2 / 2 - (IZR ncol - 1) / 2)) =
  rsum (pixels (2 * nrow) ncol (fun i j => amplitude (2 * nrow) ncol (unfolded nrow ncol c2 sino) (i - nrow) (j - ncol / 2) *
                                           create_mask (2 * nrow) ncol (1 / 2 * ratio * IZR ncol) drop i j)) / IZR (2 * nrow * ncol).
Proof.
  intros Hr Hn Hc. unfold sino_metric. change ((IZR ncol - 1) / 2) with (cen_fliplr ncol). rewrite coarse_shift, metric_stacked by lia.
  rewrite (metric_of_ext _ _ _ _ (unfolded nrow ncol c2 sino)).
  2:{ intros i j Hi Hj. unfold stacked, vstack, reflected, unfolded. replace (nrow - 1 - (i - nrow))%Z with (2 * nrow - 1 - i)%Z by lia. reflexivity. }
  unfold metric_of. f_equal. apply rsum_pixels_ext. intros i j _ _. unfold fftshift. rewrite fft2_mod by lia. rewrite amplitude_fft2.
  replace (2 * nrow / 2)%Z with nrow by lia. reflexivity.
Qed.
(** Between the half columns the mirror image of the sinogram is moved by [interp]; at the columns it does not reach the rows in reverse order
    are taken. *)
Definition unfolded_fine (interp : R -> img -> img) (nrow ncol : Z) (c : R) (sino : img) : img :=
  fun i j => if (i <? nrow)%Z then sino i j
             else if Rle_dec 0 (2 * c - IZR j) then
               if Rle_dec (2 * c - IZR j) (IZR ncol - 1) then interp (2 * c - (IZR ncol - 1)) (fun i j => sino i (ncol - 1 - j)%Z) (i - nrow)%Z j
               else sino (2 * nrow - 1 - i)%Z j
             else sino (2 * nrow - 1 - i)%Z j.
Lemma moved_fine interp ncol s a b i j : (forall k : Z, s <> IZR k) -> - IZR ncol < s < IZR ncol -> (0 <= j < ncol)%Z ->
  moved interp ncol s a b i j =
  if Rle_dec 0 (s + (IZR ncol - 1) - IZR j) then if Rle_dec (s + (IZR ncol - 1) - IZR j) (IZR ncol - 1) then interp s a i j else b i j else b i j.
Proof.
  intros Hs Hb Hj. unfold moved. set (f := Int_part s). destruct (Req_EM_T s (IZR f)) as [E|_]; [now apply Hs in E|].
  destruct (base_Int_part s) as [F1 F2]. fold f in F1, F2.
  assert (F3 : IZR f < s) by (destruct F1 as [|F1]; [auto|exfalso; apply (Hs f); auto]).
  destruct (rltb s 0) eqn:H; [apply rltb_spec in H|apply rltb_false in H].
  - assert (Hf : (- ncol <= f < 0)%Z) by (split; [|apply lt_IZR; lra]; cut (- ncol - 1 < f)%Z; [lia|apply lt_IZR; rewrite minus_IZR, opp_IZR; lra]).
    unfold in_slice, clip. cbn [fst snd]. replace (f <? 0)%Z with true by lia. replace (ncol <? 0)%Z with false by lia.
    replace (j <? Z.min ncol ncol)%Z with true by lia. rewrite andb_true_r.
    destruct (Rle_dec (s + (IZR ncol - 1) - IZR j) (IZR ncol - 1)) as [_|N]; [|exfalso; apply N; assert (0 <= IZR j) by (apply IZR_le; lia); lra].
    destruct (Z.leb_spec (Z.max 0 (f + ncol)) j) as [L|L].
    + destruct (Rle_dec _ _) as [G|]; [exfalso|reflexivity]. assert (IZR (f + ncol) <= IZR j) by (apply IZR_le; lia). rewrite plus_IZR in *. lra.
    + destruct (Rle_dec _ _) as [|G]; [reflexivity|exfalso; apply G]. assert (IZR j <= IZR (f + ncol - 1)) by (apply IZR_le; lia).
      rewrite minus_IZR, plus_IZR in *. lra.
  - assert (Hc : ceil s = (f + 1)%Z).
    { unfold ceil. apply Z.opp_inj. rewrite Z.opp_involutive. apply Proofs_Ray.Int_part_spec. rewrite opp_IZR, plus_IZR. lra. }
    assert (Hf : (0 <= f < ncol)%Z) by (split; [cut (-1 < f)%Z; [lia|]; apply lt_IZR; lra|apply lt_IZR; lra]).
    rewrite Hc. unfold in_slice, clip. cbn [fst snd]. replace (f + 1 <? 0)%Z with false by lia. replace (0 <? 0)%Z with false by lia.
    replace (Z.min 0 ncol <=? j)%Z with true by lia. cbn [andb].
    destruct (Rle_dec 0 _) as [_|N].
    2:{ exfalso. apply N. assert (IZR j <= IZR (ncol - 1)) by (apply IZR_le; lia). rewrite minus_IZR in *. lra. }
    destruct (Z.ltb_spec j (Z.min (f + 1) ncol)) as [L|L].
    + destruct (Rle_dec _ _) as [G|]; [exfalso|reflexivity]. assert (IZR j <= IZR f) by (apply IZR_le; lia). lra.
    + destruct (Rle_dec _ _) as [|G]; [reflexivity|exfalso; apply G]. assert (IZR (f + 1) <= IZR j) by (apply IZR_le; lia). rewrite plus_IZR in *. lra.
Qed.
Theorem C87_fine interp nrow ncol ratio drop sino c : (1 <= nrow)%Z -> (1 <= ncol)%Z -> - / 2 < c < IZR ncol - / 2 -> (forall k : Z, 2 * c <> IZR k) ->
  sino_metric interp nrow ncol ratio drop sino (2 * (c - (IZR ncol - 1) / 2)) =
  rsum (pixels (2 * nrow) ncol (fun i j => amplitude (2 * nrow) ncol (unfolded_fine interp nrow ncol c sino) (i - nrow) (j - ncol / 2) *
                                           create_mask (2 * nrow) ncol (1 / 2 * ratio * IZR ncol) drop i j)) / IZR (2 * nrow * ncol).
Proof.
  intros Hr Hn Hb Hk. unfold sino_metric. replace (2 * (c - (IZR ncol - 1) / 2)) with (2 * c - (IZR ncol - 1)) by field.
  set (s := 2 * c - (IZR ncol - 1)).
  assert (Hs : forall k : Z, s <> IZR k).
  { intros k E. apply (Hk (k + (ncol - 1))%Z). rewrite plus_IZR, minus_IZR, <- E. unfold s. ring. }
  unfold calculate_metric. cbv zeta.
  fold (metric_of (2 * nrow) ncol (create_mask (2 * nrow) ncol (1 / 2 * ratio * IZR ncol) drop) (vstack nrow sino (moved interp ncol s (fliplr ncol sino) (flipud nrow sino)))).
  rewrite (metric_of_ext _ _ _ _ (unfolded_fine interp nrow ncol c sino)).
  2:{ intros i j Hi Hj. unfold vstack, unfolded_fine. destruct (Z.ltb_spec i nrow); [reflexivity|]. rewrite moved_fine by (auto; unfold s; lra).
      replace (s + (IZR ncol - 1) - IZR j) with (2 * c - IZR j) by (unfold s; ring). unfold flipud, fliplr.
      replace (nrow - 1 - (i - nrow))%Z with (2 * nrow - 1 - i)%Z by lia. reflexivity. }
  unfold metric_of. f_equal. apply rsum_pixels_ext. intros i j _ _. unfold fftshift. rewrite fft2_mod by lia. rewrite amplitude_fft2.
  replace (2 * nrow / 2)%Z with nrow by lia. reflexivity.
Qed.
(** At the same place the candidate of a sinogram that is mirrored left to right is the mirrored candidate (odd widths). *)
Theorem C87_mirror_partial interp nrow ncol ratio drop sino c2 : (1 <= nrow)%Z -> (1 <= ncol)%Z -> Z.odd ncol = true -> (0 <= c2 <= 2 * (ncol - 1))%Z ->
  sino_metric interp nrow ncol ratio drop (fun i j => sino i (ncol - 1 - j)%Z) (2 * (IZR (2 * (ncol - 1) - c2) / 2 - (IZR ncol - 1) / 2)) =
  sino_metric interp nrow ncol ratio drop sino (2 * (IZR c2 / 2 - (IZR ncol - 1) / 2)).
Proof.
  intros Hr Hn Ho Hc. unfold sino_metric. change ((IZR ncol - 1) / 2) with (cen_fliplr ncol). rewrite !coarse_shift.
  change (fun i j => sino i (ncol - 1 - j)%Z) with (fliplr ncol sino). rewrite !metric_stacked by lia.
  rewrite (metric_of_ext _ _ _ _ (fliplr ncol (stacked nrow ncol c2 sino))) by (intros; now apply stacked_mirror).
  apply metric_of_flip; auto. intros i j Hj. now apply create_mask_flip.
Qed.
(** The metric is not negative, scales with the data and does not see a constant that is added. *)
Theorem C87_nonneg interp nrow ncol ratio drop sino s : (1 <= nrow)%Z -> (1 <= ncol)%Z -> 0 <= sino_metric interp nrow ncol ratio drop sino s.
Proof.
  intros Hr Hn. unfold sino_metric, calculate_metric. cbv zeta.
  match goal with |- 0 <= rsum (pixels _ _ (fun i j => cabs (fftshift _ _ (fft2 _ _ ?m) i j) * ?k i j)) / _ => apply (metric_of_pos (2 * nrow) ncol k m); try lia end.
  intros i j. destruct (create_mask_binary (2 * nrow) ncol (1 / 2 * ratio * IZR ncol) drop i j) as [-> | ->]; lra.
Qed.
Theorem C87_scale interp nrow ncol ratio drop sino k c2 : (1 <= nrow)%Z -> (1 <= ncol)%Z -> (0 <= c2 <= 2 * (ncol - 1))%Z ->
  sino_metric interp nrow ncol ratio drop (fun i j => k * sino i j) (2 * (IZR c2 / 2 - (IZR ncol - 1) / 2)) =
  Rabs k * sino_metric interp nrow ncol ratio drop sino (2 * (IZR c2 / 2 - (IZR ncol - 1) / 2)).
Proof.
  intros Hr Hn Hc. unfold sino_metric. change ((IZR ncol - 1) / 2) with (cen_fliplr ncol). rewrite coarse_shift.
  rewrite (metric_stacked interp nrow ncol _ c2 (fun i j => k * sino i j)), metric_stacked by lia. rewrite <- metric_of_scale. apply metric_of_ext.
  intros i j _ _. unfold stacked, vstack, reflected. destruct (i <? nrow)%Z, ((0 <=? c2 - j) && (c2 - j <? ncol))%Z; reflexivity.
Qed.
Lemma fft2_const n0 n1 k u v : (1 <= n1)%Z -> (v mod n1 <> 0)%Z -> fft2 n0 n1 (fun _ _ => k) u v = cr 0.
Proof.
  intros H1 Hv. unfold fft2. apply csum_zero. intros i _.
  rewrite (csum_ext _ _ (fun j => (cr k * turn n0 (- (u * i)) * turn n1 (j * (- v mod n1)))%C)).
  - rewrite csum_mul, csum_turn; [cring|]. pose proof (Z.mod_pos_bound (- v) n1). enough (- v mod n1 <> 0)%Z by lia. intros E. apply Hv.
    apply Z.mod_divide in E; [|lia]. apply Z.mod_divide; [lia|]. apply Z.divide_opp_r in E. now rewrite Z.opp_involutive in E.
  - intros j _. replace (turn n1 (j * (- v mod n1))) with (turn n1 (- (v * j))); [ring|].
    replace (- (v * j))%Z with (j * (- v mod n1) + n1 * (j * (- v / n1)))%Z; [now rewrite turn_period|]. pose proof (Z.div_mod (- v) n1 ltac:(lia)). nia.
Qed.
Lemma fft2_plus n0 n1 a b u v : fft2 n0 n1 (fun i j => a i j + b i j) u v = (fft2 n0 n1 a u v + fft2 n0 n1 b u v)%C.
Proof. unfold fft2. rewrite <- csum_add. apply csum_ext. intros i _. rewrite <- csum_add. apply csum_ext. intros j _. rewrite cr_add. ring. Qed.
Theorem C87_offset interp nrow ncol ratio drop sino k c2 : (1 <= nrow)%Z -> (1 <= ncol)%Z -> (0 <= c2 <= 2 * (ncol - 1))%Z ->
  sino_metric interp nrow ncol ratio drop (fun i j => sino i j + k) (2 * (IZR c2 / 2 - (IZR ncol - 1) / 2)) =
  sino_metric interp nrow ncol ratio drop sino (2 * (IZR c2 / 2 - (IZR ncol - 1) / 2)).
Proof.
  intros Hr Hn Hc. unfold sino_metric. change ((IZR ncol - 1) / 2) with (cen_fliplr ncol). rewrite coarse_shift.
  rewrite (metric_stacked interp nrow ncol _ c2 (fun i j => sino i j + k)), metric_stacked by lia.
  rewrite (metric_of_ext _ _ _ _ (fun i j => stacked nrow ncol c2 sino i j + k)).
  2:{ intros i j _ _. unfold stacked, vstack, reflected. destruct (i <? nrow)%Z, ((0 <=? c2 - j) && (c2 - j <? ncol))%Z; reflexivity. }
  unfold metric_of. f_equal. apply rsum_pixels_ext. intros i j Hi Hj. unfold fftshift.
  rewrite (fft2_plus _ _ (stacked nrow ncol c2 sino) (fun _ _ => k)).
  destruct (Z.eq_dec j (ncol / 2)) as [->|N].
  - replace (create_mask (2 * nrow) ncol (1 / 2 * ratio * IZR ncol) drop i (ncol / 2)%Z) with 0; [ring|].
    unfold create_mask. cbv zeta. rewrite (mid_spec ncol).
    replace (in_slice ncol ((ncol + 1) / 2 - 1 - 1, (ncol + 1) / 2 - 1 + 2)%Z (ncol / 2)%Z) with true; [reflexivity|].
    unfold in_slice, clip. cbn [fst snd].
    destruct (Z.ltb_spec ((ncol + 1) / 2 - 1 - 1)%Z 0%Z), (Z.ltb_spec ((ncol + 1) / 2 - 1 + 2)%Z 0%Z); lia.
  - rewrite fft2_const; [f_equal; f_equal; cring|lia|]. rewrite Z.mod_mod by lia. intros E. apply Z.mod_divide in E; [|lia]. destruct E as [q E].
    assert (q = 0)%Z by nia. lia.
Qed.
(** Refuted: the weights do not tell a frequency from the opposite one.  For even widths the mask is centred one column beside frequency 0. *)
Theorem C87_centre_refuted : ~ (forall nrow ncol ratio drop i v, (1 <= nrow)%Z -> (3 <= ncol)%Z -> 0 < ratio <= 1 -> (0 <= drop)%Z -> (0 <= i < 2 * nrow)%Z ->
  (0 <= ncol / 2 - v)%Z -> (ncol / 2 + v < ncol)%Z -> (0 <= v)%Z ->
  create_mask (2 * nrow) ncol (1 / 2 * ratio * IZR ncol) drop i (ncol / 2 + v)%Z = create_mask (2 * nrow) ncol (1 / 2 * ratio * IZR ncol) drop i (ncol / 2 - v)%Z).
Proof.
  intros H. specialize (H 10%Z 8%Z (1 / 2) 0%Z 19%Z 1%Z ltac:(lia) ltac:(lia) ltac:(lra) ltac:(lia) ltac:(lia) ltac:(lia) ltac:(lia) ltac:(lia)).
  change (2 * 10)%Z with 20%Z in H. change (8 / 2 + 1)%Z with 5%Z in H. change (8 / 2 - 1)%Z with 3%Z in H.
  assert (A : create_mask 20 8 (1 / 2 * (1 / 2) * 8) 0 19%Z 3%Z <> 1).
  { rewrite create_mask_iff by lia. rewrite (mid_spec 8). change ((8 + 1) / 2 - 1)%Z with 3%Z. lia. }
  apply A. rewrite <- H. apply create_mask_iff; try lia. rewrite (mid_spec 8), (mid_spec 20). change ((8 + 1) / 2 - 1)%Z with 3%Z. change ((20 + 1) / 2 - 1)%Z with 9%Z.
  assert (W : (2 <= Z.abs (wedge 20 8 (1 / 2 * (1 / 2) * 8) 19))%Z).
  { destruct (wedge_spec 20 8 (1 / 2 * (1 / 2) * 8) 19 ltac:(lia) ltac:(lia) ltac:(lra)) as [W _]. rewrite (mid_spec 20) in W.
    change (19 - ((20 + 1) / 2 - 1))%Z with 10%Z in W. rewrite Rabs_right in W by lra. unfold slope in W.
    assert (P : / 4 <= / PI) by (apply Rinv_le_contravar; [apply PI_RGT_0|apply PI_4]).
    replace ((20 - 1) / (20 * 2 * PI) / (1 / 2 * (1 / 2) * 8) * 8) with (19 / 10 * / PI) in W by (field; pose proof PI_RGT_0; lra).
    assert (1 < Z.abs (wedge 20 8 (1 / 2 * (1 / 2) * 8) 19))%Z; [|lia]. apply lt_IZR. lra. }
  unfold dropped. lia.
Qed.
Example C87_example interp : sino_metric interp 2 4 1 0 (fun _ _ => 0 * 5 + 7) (2 * (3 / 2 - (4 - 1) / 2)) = 0.
Proof.
  rewrite (C87_offset interp 2 4 1 0 (fun _ _ => 0 * 5) 7 3) by lia. rewrite (C87_scale interp 2 4 1 0 (fun _ _ => 5) 0 3) by lia. rewrite Rabs_R0. ring.
Qed.
Print Assumptions C87_metric.
Print Assumptions C87_fine.
Print Assumptions C87_mirror_partial.
Print Assumptions C87_nonneg.
Print Assumptions C87_scale.
Print Assumptions C87_offset.
Print Assumptions C87_centre_refuted.

(** ** C88: the two searches of find_center_vo *)
(** Coarse candidates: whole and half columns of the detector, from the middle column plus the (clipped, truncated) bounds. *)
Theorem C88_coarse ncol smin smax : (1 <= ncol)%Z -> exists a b, (0 <= a <= 2 * (ncol - 1))%Z /\ (0 <= b <= 2 * (ncol - 1))%Z /\
  (forall c, In c (coarse_list ncol smin smax) <-> exists c2, c = IZR c2 / 2 /\ (a <= c2 <= b)%Z) /\
  (- (IZR ncol - 1) / 2 <= smin <= (IZR ncol - 1) / 2 -> Rabs (IZR a / 2 - (IZR (ncol / 2) + smin)) < 1) /\
  (- (IZR ncol - 1) / 2 <= smax <= (IZR ncol - 1) / 2 -> Rabs (IZR b / 2 - (IZR (ncol / 2) + smax)) < 1) /\
  (forall s : Z, smin = IZR s -> (Z.abs (2 * s) <= ncol - 1)%Z -> a = (2 * (ncol / 2 + s))%Z) /\
  (forall s : Z, smax = IZR s -> (Z.abs (2 * s) <= ncol - 1)%Z -> b = (2 * (ncol / 2 + s))%Z).
Proof.
  intros Hn. exists (2 * (ncol / 2 + coarse_bound ncol smin))%Z, (2 * (ncol / 2 + coarse_bound ncol smax))%Z.
  pose proof (coarse_bound_range ncol smin Hn). pose proof (coarse_bound_range ncol smax Hn).
  assert (C : forall s, - (IZR ncol - 1) / 2 <= s <= (IZR ncol - 1) / 2 -> coarse_bound ncol s = trunc s).
  { intros s Hs. unfold coarse_bound, cen_fliplr. rewrite rclip_id by lra. f_equal. lra. }
  assert (D : forall s, - (IZR ncol - 1) / 2 <= s <= (IZR ncol - 1) / 2 -> Rabs (IZR (2 * (ncol / 2 + coarse_bound ncol s)) / 2 - (IZR (ncol / 2) + s)) < 1).
  { intros s Hs. rewrite (C s Hs), mult_IZR, plus_IZR. apply Rabs_def1.
    - destruct (Rlt_le_dec s 0) as [S0|S0]; [destruct (trunc_neg s S0)|destruct (trunc_pos s S0)]; lra.
    - destruct (Rlt_le_dec s 0) as [S0|S0]; [destruct (trunc_neg s S0)|destruct (trunc_pos s S0)]; lra. }
  assert (I : forall s, (Z.abs (2 * s) <= ncol - 1)%Z -> coarse_bound ncol (IZR s) = s).
  { intros s Hs. rewrite C.
    - destruct (Z.le_gt_cases 0 s) as [S0|S0].
      + unfold trunc. replace (rltb (IZR s) 0) with false by (symmetry; apply rltb_false; now apply IZR_le). apply Proofs_Sim.Int_part_int.
      + destruct (trunc_neg (IZR s) ltac:(now apply IZR_lt)) as [[A B] _]. rewrite <- succ_IZR in B. apply le_IZR in A. apply lt_IZR in B. lia.
    - assert (A : IZR (- (ncol - 1)) <= IZR (2 * s) <= IZR (ncol - 1)) by (split; apply IZR_le; lia). rewrite opp_IZR, !minus_IZR, mult_IZR in A. lra. }
  split; [lia|]. split; [lia|]. split; [intros c; apply in_coarse|]. split; [auto|]. split; [auto|]. split; intros s -> Hs; now rewrite I.
Qed.
(** The answer of either search is a candidate, no candidate is better, and no earlier one is as good. *)
Definition first_best (metric : R -> R) (cen : R) (l : list R) (c : R) : Prop :=
  exists l1 l2, l = l1 ++ c :: l2 /\ (forall x, In x l1 -> metric (2 * (c - cen)) < metric (2 * (x - cen))) /\
    (forall x, In x l -> metric (2 * (c - cen)) <= metric (2 * (x - cen))).
Theorem C88_best metric ncol smin smax srad step init c :
  (search_coarse metric ncol smin smax = Ok c -> first_best metric ((IZR ncol - 1) / 2) (coarse_list ncol smin smax) c) /\
  (search_fine metric ncol srad step init = Ok c -> first_best metric ((IZR ncol - 1) / 2) (fine_list ncol srad step init) c).
Proof. split; apply best_of_spec. Qed.
(** The coarse search fails only for bounds in the wrong order; the fine search never fails. *)
Theorem C88_answers metric ncol smin smax srad step init : (2 <= ncol)%Z ->
  (smin <= smax -> exists c, search_coarse metric ncol smin smax = Ok c) /\ exists c, search_fine metric ncol srad step init = Ok c.
Proof.
  intros Hn. split.
  - intros Hs. apply best_of_some. intros E.
    assert (M : (coarse_bound ncol smin <= coarse_bound ncol smax)%Z).
    { unfold coarse_bound. set (x := rclip _ _ (smin + _) - _). set (y := rclip _ _ (smax + _) - _). 
      assert (XY : x <= y). { unfold x, y, rclip. apply Rplus_le_compat_r. apply Rle_min_compat_l. apply Rle_max_compat_l. lra. }
      clearbody x y. destruct (Rlt_le_dec x 0) as [X0|X0], (Rlt_le_dec y 0) as [Y0|Y0].
      - unfold trunc. replace (rltb x 0) with true by (symmetry; now apply rltb_spec). replace (rltb y 0) with true by (symmetry; now apply rltb_spec).
        destruct (Proofs_Sim.ceil_spec x), (Proofs_Sim.ceil_spec y). apply Z.lt_succ_r, lt_IZR. rewrite succ_IZR. lra.
      - destruct (trunc_neg x X0), (trunc_pos y Y0). lia.
      - lra.
      - unfold trunc. replace (rltb x 0) with false by (symmetry; now apply rltb_false). replace (rltb y 0) with false by (symmetry; now apply rltb_false).
        pose proof (floor_spec x). pose proof (floor_spec y). apply Z.lt_succ_r, lt_IZR. rewrite succ_IZR. lra. }
    assert (I : In (IZR (2 * (ncol / 2 + coarse_bound ncol smin)) / 2) (coarse_list ncol smin smax)) by (apply in_coarse; eexists; split; [reflexivity|lia]).
    rewrite E in I. destruct I.
  - apply best_of_some. intros E.
    assert (I : In (fine_init ncol srad init - fine_srad ncol srad) (fine_list ncol srad step init)).
    { apply in_fine; [lia|]. destruct (fine_facts ncol srad step init Hn) as ((P & _) & _ & Q & _). exists 0%Z. split; [lia|]. split; lra. }
    rewrite E in I. destruct I.
Qed.
Theorem C88_order_refuted : ~ (forall metric ncol smin smax, (2 <= ncol)%Z -> exists c, search_coarse metric ncol smin smax = Ok c).
Proof.
  intros H. destruct (H (fun _ => 0) 9%Z 3 (-3) ltac:(lia)) as [c0 Hc0]. unfold search_coarse, best_of in Hc0. replace (coarse_list 9 3 (-3)) with (@nil R) in Hc0; [discriminate|].
  symmetry. destruct (coarse_list 9 3 (-3)) as [|c l] eqn:E; [reflexivity|exfalso].
  assert (I : In c (coarse_list 9 3 (-3))) by (rewrite E; now left).
  destruct (C88_coarse 9 3 (-3) ltac:(lia)) as (a & b & _ & _ & In0 & _ & _ & Ha & Hb). destruct (proj1 (In0 c) I) as (c2 & _ & Hc).
  rewrite (Ha 3%Z) in Hc by (reflexivity || lia). rewrite (Hb (-3)%Z) in Hc by (reflexivity || lia). lia.
Qed.
(** Fine candidates: the start, moved so that the search radius (clipped to [1, ncol/4]) fits, minus the radius, in equal steps (clipped to [1/10, radius]);
    each is inside the detector or less than one step beyond its last column. *)
Definition clipped (lo hi x : R) : R := if Rlt_dec hi (if Rlt_dec x lo then lo else x) then hi else if Rlt_dec x lo then lo else x.
Lemma rclip_clipped lo hi x : rclip lo hi x = clipped lo hi x.
Proof.
  unfold rclip, clipped. destruct (Rlt_dec x lo) as [A|A].
  - rewrite Rmax_left by lra. destruct (Rlt_dec hi lo) as [B|B]; [apply Rmin_left|apply Rmin_right]; lra.
  - rewrite Rmax_right by lra. destruct (Rlt_dec hi x) as [B|B]; [apply Rmin_left|apply Rmin_right]; lra.
Qed.
Theorem C88_fine ncol srad step init c : (2 <= ncol)%Z ->
  let r := clipped 1 (IZR ncol / 4) (Rabs srad) in let h := clipped (1 / 10) r (Rabs step) in let z := clipped r (IZR ncol - r - 1) init in
  (In c (fine_list ncol srad step init) <-> exists k, (0 <= k)%Z /\ c = z - r + IZR k * h /\ c < z + r + h) /\
  (In c (fine_list ncol srad step init) -> 0 <= c < IZR ncol - 1 + h).
Proof.
  intros Hn. cbv zeta. rewrite <- !rclip_clipped. fold (fine_srad ncol srad). fold (fine_step ncol srad step). fold (fine_init ncol srad init).
  pose proof (in_fine ncol srad step init c Hn) as I. destruct (fine_facts ncol srad step init Hn) as ((A & B) & C & D & E). split; [exact I|].
  intros H. apply I in H as (k & Hk & -> & L). apply IZR_le in Hk. assert (0 <= IZR k * fine_step ncol srad step) by (apply Rmult_le_pos; lra). lra.
Qed.
(** Every point of the search radius is within half a step of a candidate. *)
Theorem C88_fine_cover ncol srad step init x : (2 <= ncol)%Z ->
  let r := clipped 1 (IZR ncol / 4) (Rabs srad) in let h := clipped (1 / 10) r (Rabs step) in let z := clipped r (IZR ncol - r - 1) init in
  z - r <= x <= z + r -> exists c, In c (fine_list ncol srad step init) /\ Rabs (c - x) <= h / 2.
Proof.
  intros Hn. cbv zeta. rewrite <- !rclip_clipped. intros Hx. change (rclip 1 (IZR ncol / 4) (Rabs srad)) with (fine_srad ncol srad) in *.
  change (rclip (1 / 10) (fine_srad ncol srad) (Rabs step)) with (fine_step ncol srad step). change (rclip (fine_srad ncol srad) (IZR ncol - fine_srad ncol srad - 1) init) with (fine_init ncol srad init) in *.
  destruct (fine_facts ncol srad step init Hn) as ((A & B) & C & D & E). set (h := fine_step ncol srad step) in *. set (o := fine_init ncol srad init - fine_srad ncol srad) in *.
  set (k := Int_part ((x - o) / h + 1 / 2)). pose proof (floor_spec ((x - o) / h + 1 / 2)) as F. fold k in F.
  assert (P : 0 <= (x - o) / h) by (apply Rmult_le_pos; [lra|left; apply Rinv_0_lt_compat; lra]).
  assert (Q : (x - o) / h * h = x - o) by (field; lra).
  assert (F1 : IZR k * h <= ((x - o) / h + 1 / 2) * h) by (apply Rmult_le_compat_r; lra).
  assert (F2 : ((x - o) / h + 1 / 2) * h < (IZR k + 1) * h) by (apply Rmult_lt_compat_r; lra).
  exists (o + IZR k * h). split.
  - apply in_fine; [lia|]. exists k. split; [|split; [unfold o; reflexivity|fold h; lra]]. apply Z.lt_succ_r, lt_IZR. rewrite succ_IZR. lra.
  - apply Rabs_le. lra.
Qed.
(** Refuted: the answer lies on the detector, and is at least as good as the start. *)
Theorem C88_range_refuted : ~ (forall metric ncol srad step init c, (2 <= ncol)%Z -> 0 <= init <= IZR ncol - 1 -> search_fine metric ncol srad step init = Ok c -> c <= IZR ncol - 1).
Proof.
  intros H. set (metric := fun s : R => - s). destruct (proj2 (C88_answers metric 8 0 0 2 (3 / 2) 5 ltac:(lia))) as [c E].
  specialize (H metric 8%Z 2 (3 / 2) 5 c ltac:(lia) ltac:(lra) E). apply (proj2 (C88_best metric 8 0 0 2 (3 / 2) 5 c)) in E as (l1 & l2 & _ & _ & B).
  assert (I : In (15 / 2) (fine_list 8 2 (3 / 2) 5)).
  { apply in_fine; [lia|]. unfold fine_step, fine_init, fine_srad. rewrite !Rabs_right by lra. rewrite (rclip_id 1), (rclip_id (1 / 10)), (rclip_id 2) by lra.
    exists 3%Z. split; [lia|]. split; lra. }
  specialize (B _ I). unfold metric in B. lra.
Qed.
Theorem C88_start_refuted : ~ (forall metric ncol srad step init c, (2 <= ncol)%Z -> 0 <= init <= IZR ncol - 1 -> search_fine metric ncol srad step init = Ok c ->
  metric (2 * (c - (IZR ncol - 1) / 2)) <= metric (2 * (init - (IZR ncol - 1) / 2))).
Proof.
  intros H. set (metric := fun s : R => Rabs (s - 3)). destruct (proj2 (C88_answers metric 8 0 0 2 (3 / 2) 5 ltac:(lia))) as [c E].
  specialize (H metric 8%Z 2 (3 / 2) 5 c ltac:(lia) ltac:(lra) E). apply (proj2 (C88_best metric 8 0 0 2 (3 / 2) 5 c)) in E as (l1 & l2 & Q & _ & _).
  assert (I : In c (fine_list 8 2 (3 / 2) 5)) by (rewrite Q; apply in_or_app; right; now left).
  apply in_fine in I; [|lia]. destruct I as (k & Hk & Ec & L). unfold fine_step, fine_init, fine_srad in Ec, L. rewrite !Rabs_right in Ec, L by lra.
  rewrite (rclip_id 1), (rclip_id (1 / 10)), (rclip_id 2) in Ec, L by lra. unfold metric in H.
  replace (2 * (5 - (8 - 1) / 2) - 3) with 0 in H by lra. rewrite Rabs_R0 in H. pose proof (Rabs_pos (2 * (c - (8 - 1) / 2) - 3)) as P.
  assert (Z0 : Rabs (2 * (c - (8 - 1) / 2) - 3) = 0) by lra. destruct (Req_dec (2 * (c - (8 - 1) / 2) - 3) 0) as [N|N]; [|apply Rabs_no_R0 in N; lra].
  assert (K : 3 * IZR k = 4) by lra. rewrite <- (mult_IZR 3 k) in K. apply (eq_IZR (3 * k) 4) in K. lia.
Qed.
(** Scaled data or data plus a constant: the same coarse answer. *)
Theorem C88_linear interp nrow ncol ratio drop sino k b smin smax : (1 <= nrow)%Z -> (1 <= ncol)%Z -> k <> 0 ->
  search_coarse (sino_metric interp nrow ncol ratio drop (fun i j => k * sino i j + b)) ncol smin smax = search_coarse (sino_metric interp nrow ncol ratio drop sino) ncol smin smax.
Proof.
  intros Hr Hn Hk. apply best_of_scale with (k := Rabs k); [now apply Rabs_pos_lt|]. intros x I.
  destruct (C88_coarse ncol smin smax Hn) as (u & w & Hu & Hw & In0 & _). destruct (proj1 (In0 x) I) as (c2 & -> & Hc). unfold cen_fliplr.
  rewrite (C87_offset interp nrow ncol ratio drop (fun i j => k * sino i j)) by lia. apply C87_scale; lia.
Qed.
(** Large data: in columns averaged by 4 a reflection about C is a reflection about 4 C + 3/2 of the full data, but the fine search starts at 4 C. *)
Definition averaged4 (a : img) : img := fun i j => (a i (4 * j)%Z + a i (4 * j + 1)%Z + a i (4 * j + 2)%Z + a i (4 * j + 3)%Z) / 4.
Theorem C88_binned nrow m c2 sino i j : (0 <= j < m)%Z ->
  unfolded nrow m c2 (averaged4 sino) i j = averaged4 (unfolded nrow (4 * m) (4 * c2 + 3) sino) i j.
Proof.
  intros Hj. unfold unfolded, averaged4. destruct (i <? nrow)%Z; [reflexivity|].
  destruct ((0 <=? c2 - j) && (c2 - j <? m))%Z eqn:E.
  - replace ((0 <=? 4 * c2 + 3 - 4 * j) && (4 * c2 + 3 - 4 * j <? 4 * m))%Z with true by lia.
    replace ((0 <=? 4 * c2 + 3 - (4 * j + 1)) && (4 * c2 + 3 - (4 * j + 1) <? 4 * m))%Z with true by lia.
    replace ((0 <=? 4 * c2 + 3 - (4 * j + 2)) && (4 * c2 + 3 - (4 * j + 2) <? 4 * m))%Z with true by lia.
    replace ((0 <=? 4 * c2 + 3 - (4 * j + 3)) && (4 * c2 + 3 - (4 * j + 3) <? 4 * m))%Z with true by lia.
    replace (4 * (c2 - j) + 3)%Z with (4 * c2 + 3 - 4 * j)%Z by lia. replace (4 * (c2 - j) + 2)%Z with (4 * c2 + 3 - (4 * j + 1))%Z by lia.
    replace (4 * (c2 - j) + 1)%Z with (4 * c2 + 3 - (4 * j + 2))%Z by lia. replace (4 * (c2 - j))%Z with (4 * c2 + 3 - (4 * j + 3))%Z by lia. lra.
  - replace ((0 <=? 4 * c2 + 3 - 4 * j) && (4 * c2 + 3 - 4 * j <? 4 * m))%Z with false by lia.
    replace ((0 <=? 4 * c2 + 3 - (4 * j + 1)) && (4 * c2 + 3 - (4 * j + 1) <? 4 * m))%Z with false by lia.
    replace ((0 <=? 4 * c2 + 3 - (4 * j + 2)) && (4 * c2 + 3 - (4 * j + 2) <? 4 * m))%Z with false by lia.
    replace ((0 <=? 4 * c2 + 3 - (4 * j + 3)) && (4 * c2 + 3 - (4 * j + 3) <? 4 * m))%Z with false by lia. reflexivity.
Qed.
Theorem C88_binned_refuted : ~ (forall m C srad step, (1 <= m)%Z -> 1 <= srad -> 0 < step -> srad <= 4 * C <= 4 * IZR m - srad - 1 ->
  exists c, In c (fine_list (4 * m) srad step (4 * C)) /\ Rabs (c - (4 * C + 3 / 2)) <= step).
Proof.
  intros H. destruct (H 10%Z 4 1 (1 / 10) ltac:(lia) ltac:(lra) ltac:(lra) ltac:(lra)) as (c & I & D).
  apply in_fine in I; [|lia]. destruct I as (k & Hk & Ec & L). unfold fine_step, fine_init, fine_srad in L. change (IZR (4 * 10)) with 40 in L. rewrite !Rabs_right in L by lra.
  rewrite (rclip_id 1), (rclip_id (1 / 10)), (rclip_id 1) in L by lra. pose proof (Rle_abs (- (c - (4 * 4 + 3 / 2)))) as D2. rewrite Rabs_Ropp in D2. lra.
Qed.
(** find_center_vo: the coarse answer for the smoothed sinogram (of every fourth column, four times as large, when there are more than 4 million values) is the start of the
    fine search. *)
Theorem C88_vo interp smooth smooth2 bin4 depth height width tomo ind smin smax srad step ratio drop c :
  find_center_vo interp smooth smooth2 bin4 depth height width tomo ind smin smax srad step ratio drop = Ok c ->
  let fine := sino_metric interp depth width ratio drop (smooth2 (pick height ind tomo)) in
  exists c0,
    ((depth * width <= 4000000)%Z ->
       first_best (sino_metric interp depth width ratio drop (smooth (pick height ind tomo))) ((IZR width - 1) / 2) (coarse_list width smin smax) c0 /\
       first_best fine ((IZR width - 1) / 2) (fine_list width srad step c0) c) /\
    ((4000000 < depth * width)%Z ->
       first_best (sino_metric interp depth (width / 4) ratio drop (bin4 (smooth (pick height ind tomo)))) ((IZR (width / 4) - 1) / 2) (coarse_list (width / 4) (smin / 4) (smax / 4)) c0 /\
       first_best fine ((IZR width - 1) / 2) (fine_list width srad step (4 * c0)) c).
Proof.
  unfold find_center_vo. cbv zeta. intros H. destruct (Z.ltb_spec 4000000 (depth * width)) as [L|L].
  - destruct (search_coarse _ (width / 4) _ _) as [e|c0] eqn:E; [discriminate|]. exists c0. split; [lia|]. intros _. split; [apply best_of_spec, E|].
    rewrite (Rmult_comm 4). apply best_of_spec, H.
  - destruct (search_coarse _ width _ _) as [e|c0] eqn:E; [discriminate|]. exists c0. split; [|lia]. intros _. split; apply best_of_spec; [exact E|exact H].
Qed.
(** Only the given slice is looked at; without one the middle slice, or the ten slices around it when there are more than ten. *)
Theorem C88_slices interp smooth smooth2 bin4 depth height width tomo tomo' ind smin smax srad step ratio drop : (1 <= height)%Z ->
  (forall t y x, match ind with
                 | Some i => (if (0 <=? i)%Z then y = i else y = (height + i)%Z)
                 | None => if (height <=? 10)%Z then y = (height / 2)%Z else (height / 2 - 5 <= y < height / 2 + 5)%Z
                 end -> tomo' t y x = tomo t y x) ->
  find_center_vo interp smooth smooth2 bin4 depth height width tomo' ind smin smax srad step ratio drop =
  find_center_vo interp smooth smooth2 bin4 depth height width tomo ind smin smax srad step ratio drop.
Proof.
  intros Hh H. assert (E : pick height ind tomo' = pick height ind tomo); [|unfold find_center_vo; now rewrite E].
  unfold pick. destruct ind as [i|].
  - extensionality t. extensionality x. apply H. destruct (Z.ltb_spec i 0), (Z.leb_spec 0 i); lia.
  - destruct (Z.ltb_spec 10 height); extensionality t; extensionality x.
    + f_equal. apply rsum_ext. intros y Hy. apply in_zrange in Hy. apply H. replace (height <=? 10)%Z with false by lia. lia.
    + apply H. now replace (height <=? 10)%Z with true by lia.
Qed.
Example C88_example c : In c (coarse_list 9 (-1) 1) <-> exists c2, c = IZR c2 / 2 /\ (6 <= c2 <= 10)%Z.
Proof.
  destruct (C88_coarse 9 (-1) 1 ltac:(lia)) as (a & b & _ & _ & I & _ & _ & Ha & Hb). rewrite I.
  rewrite (Ha (-1)%Z) by (reflexivity || lia). rewrite (Hb 1%Z) by (reflexivity || lia). reflexivity.
Qed.
Print Assumptions C88_vo.
Print Assumptions C88_slices.
Print Assumptions C88_coarse.
Print Assumptions C88_best.
Print Assumptions C88_answers.
Print Assumptions C88_order_refuted.
Print Assumptions C88_fine.
Print Assumptions C88_fine_cover.
Print Assumptions C88_range_refuted.
Print Assumptions C88_start_refuted.
Print Assumptions C88_linear.
Print Assumptions C88_binned.
Print Assumptions C88_binned_refuted.

(** ** C89: the mask of find_center_vo *)
(** The double wedge: |v| at most the slope times |u|, measured from the centre (mid nrow, mid ncol) of the mask; without the three middle columns and without
    the middle rows (drop on either side, at most a twentieth of all). *)
Theorem C89_mask nrow ncol radius drop i j : (3 <= nrow)%Z -> (3 <= ncol)%Z -> 0 < radius -> (0 <= drop)%Z -> (0 <= i < nrow)%Z -> (0 <= j < ncol)%Z ->
  let u := Z.abs (i - ((nrow + 1) / 2 - 1)) in let v := Z.abs (j - ((ncol + 1) / 2 - 1)) in
  let s := (IZR nrow - 1) * IZR ncol / (2 * PI * IZR nrow * radius) in
  (create_mask nrow ncol radius drop i j = 0 \/ create_mask nrow ncol radius drop i j = 1) /\
  ((2 <= v)%Z -> (drop < u)%Z -> IZR v <= IZR u * s - 1 -> create_mask nrow ncol radius drop i j = 1) /\
  ((2 <= v)%Z -> IZR nrow / 20 + 1 <= IZR u -> IZR v <= IZR u * s - 1 -> create_mask nrow ncol radius drop i j = 1) /\
  ((v <= 1)%Z \/ (u <= drop)%Z /\ IZR u <= IZR nrow / 20 \/ IZR u * s + 1 <= IZR v -> create_mask nrow ncol radius drop i j = 0).
Proof.
  intros Hr Hc Hrad Hd Hi Hj. cbv zeta. set (u := Z.abs (i - ((nrow + 1) / 2 - 1))). set (v := Z.abs (j - ((ncol + 1) / 2 - 1))).
  set (s := (IZR nrow - 1) * IZR ncol / (2 * PI * IZR nrow * radius)).
  pose proof (create_mask_iff nrow ncol radius drop i j Hr Hc Hd Hi Hj) as I. pose proof (create_mask_binary nrow ncol radius drop i j) as B.
  destruct (wedge_spec nrow ncol radius i ltac:(lia) ltac:(lia) Hrad) as [W1 W2].
  assert (Es : slope nrow ncol radius = s).
  { unfold slope, s. assert (3 <= IZR nrow) by now apply IZR_le. pose proof PI_RGT_0. field. lra. }
  rewrite Es, <- abs_IZR, mid_spec in W1, W2. rewrite !mid_spec in I. fold u in W1, W2, I. fold v in I.
  assert (D : (dropped nrow drop <= drop)%Z /\ IZR (dropped nrow drop) < IZR nrow / 20 + 1).
  { unfold dropped. split; [lia|]. destruct (Proofs_Sim.ceil_spec (5 / 100 * IZR nrow)).
    assert (IZR (Z.min drop (ceil (5 / 100 * IZR nrow))) <= IZR (ceil (5 / 100 * IZR nrow))) by (apply IZR_le; lia). lra. }
  assert (D2 : (u <= drop)%Z -> IZR u <= IZR nrow / 20 -> (u <= dropped nrow drop)%Z).
  { intros A1 A2. unfold dropped. destruct (Proofs_Sim.ceil_spec (5 / 100 * IZR nrow)). assert (u <= ceil (5 / 100 * IZR nrow))%Z by (apply le_IZR; lra). lia. }
  split; [exact B|]. split; [|split].
  - intros V U S0. apply I. split; [|lia]. split; [lia|]. apply Z.lt_le_incl, lt_IZR. lra.
  - intros V U S0. apply I. split; [|apply lt_IZR; lra]. split; [lia|]. apply Z.lt_le_incl, lt_IZR. lra.
  - intros H. destruct B as [B|B]; [exact B|]. exfalso. apply I in B as ((V1 & V2) & V3). destruct H as [H|[[H1 H2]|H]]; [lia| |].
    + specialize (D2 H1 H2). lia.
    + apply IZR_le in V2. lra.
Qed.
(** A steeper wedge for smaller objects: every element of the mask stays when the radius shrinks. *)
Theorem C89_radius nrow ncol r1 r2 drop i j : (3 <= nrow)%Z -> (3 <= ncol)%Z -> 0 < r1 <= r2 -> (0 <= drop)%Z -> (0 <= i < nrow)%Z -> (0 <= j < ncol)%Z ->
  create_mask nrow ncol r2 drop i j <= create_mask nrow ncol r1 drop i j.
Proof.
  intros Hr Hc Hrad Hd Hi Hj. destruct (create_mask_binary nrow ncol r2 drop i j) as [->|E2].
  - destruct (create_mask_binary nrow ncol r1 drop i j) as [->| ->]; lra.
  - rewrite E2. enough (E1 : create_mask nrow ncol r1 drop i j = 1) by (rewrite E1; lra).
    apply create_mask_iff in E2; auto. apply create_mask_iff; auto. destruct E2 as [[A B] D]. split; [|exact D]. split; [exact A|].
    enough (Z.abs (wedge nrow ncol r2 i) <= Z.abs (wedge nrow ncol r1 i))%Z by lia.
    assert (N : 3 <= IZR nrow) by now apply IZR_le. assert (M : 3 <= IZR ncol) by now apply IZR_le. pose proof PI_RGT_0 as P.
    unfold wedge. cbv zeta. set (y := IZR (i - mid nrow)). set (dv := (IZR nrow - 1) / (IZR nrow * 2 * PI)).
    assert (0 < dv). { unfold dv. apply Rdiv_lt_0_compat; [lra|]. apply Rmult_lt_0_compat; lra. }
    assert (F : forall r, 0 < r -> y * dv / r / (1 / IZR ncol) = y * (dv * IZR ncol / r)) by (intros r R0; field; lra).
    rewrite !F by lra.
    assert (K : 0 < dv * IZR ncol / r2 <= dv * IZR ncol / r1).
    { split; [apply Rdiv_lt_0_compat; [apply Rmult_lt_0_compat; lra|lra]|]. unfold Rdiv. apply Rmult_le_compat_l; [apply Rmult_le_pos; lra|]. apply Rinv_le_contravar; lra. }
    set (k1 := dv * IZR ncol / r1) in *. set (k2 := dv * IZR ncol / r2) in *. clearbody k1 k2.
    destruct (Proofs_Sim.ceil_spec (y * k1)) as [A1 B1]. destruct (Proofs_Sim.ceil_spec (y * k2)) as [A2 B2].
    destruct (Rle_lt_dec 0 y) as [Y|Y].
    + assert (Y2 : 0 <= y * k2) by (apply Rmult_le_pos; lra). assert (Y12 : y * k2 <= y * k1) by (apply Rmult_le_compat_l; lra).
      assert (0 <= ceil (y * k2))%Z by (apply le_IZR; lra). assert (ceil (y * k2) < ceil (y * k1) + 1)%Z by (apply lt_IZR; rewrite plus_IZR; lra). lia.
    + assert (Y12 : y * k1 <= y * k2) by (apply Ropp_le_cancel; rewrite <- !Ropp_mult_distr_l_reverse; apply Rmult_le_compat_l; lra).
      assert (Y2 : y * k2 <= 0) by (apply Ropp_le_cancel; rewrite <- Ropp_mult_distr_l_reverse, Ropp_0; apply Rmult_le_pos; lra).
      assert (ceil (y * k2) < 1)%Z by (apply lt_IZR; lra). assert (ceil (y * k1) < ceil (y * k2) + 1)%Z by (apply lt_IZR; rewrite plus_IZR; lra). lia.
Qed.
(** With few projections (at most 2 for ratio = 1/2) nothing is left of the wedge ... *)
Theorem C89_few nrow ncol ratio drop i j : (2 <= nrow)%Z -> (3 <= ncol)%Z -> 0 < ratio -> (0 <= drop)%Z -> (0 <= i < 2 * nrow)%Z -> (0 <= j < ncol)%Z ->
  2 * IZR nrow - 1 <= 2 * PI * ratio -> create_mask (2 * nrow) ncol (1 / 2 * ratio * IZR ncol) drop i j = 0.
Proof.
  intros Hr Hc Hrat Hd Hi Hj Hf. destruct (create_mask_binary (2 * nrow) ncol (1 / 2 * ratio * IZR ncol) drop i j) as [E|E]; [exact E|exfalso].
  apply create_mask_iff in E; try lia. destruct E as [[A B] _]. assert (N : 2 <= IZR nrow) by now apply IZR_le. assert (M : 3 <= IZR ncol) by now apply IZR_le.
  destruct (wedge_spec (2 * nrow) ncol (1 / 2 * ratio * IZR ncol) i ltac:(lia) ltac:(lia)) as [_ W]; [apply Rmult_lt_0_compat; lra|].
  assert (Z.abs (wedge (2 * nrow) ncol (1 / 2 * ratio * IZR ncol) i) < 2)%Z; [|lia]. apply lt_IZR. apply Rlt_le_trans with (1 := W).
  rewrite <- abs_IZR, mid_spec. pose proof PI_RGT_0 as P. unfold slope. rewrite mult_IZR.
  replace ((2 * IZR nrow - 1) / (2 * IZR nrow * 2 * PI) / (1 / 2 * ratio * IZR ncol) * IZR ncol) with (/ IZR nrow * ((2 * IZR nrow - 1) * / (2 * PI * ratio))) by (field; lra).
  assert (U : IZR (Z.abs (i - ((2 * nrow + 1) / 2 - 1))) <= IZR nrow) by (apply IZR_le; lia).
  assert (U0 : 0 <= IZR (Z.abs (i - ((2 * nrow + 1) / 2 - 1)))) by (apply IZR_le; lia).
  assert (Q : 0 < 2 * PI * ratio) by (apply Rmult_lt_0_compat; lra).
  assert (F : (2 * IZR nrow - 1) * / (2 * PI * ratio) <= 1) by (apply Rmult_le_reg_r with (2 * PI * ratio); [lra|]; rewrite Rmult_assoc, Rinv_l; lra).
  assert (F0 : 0 <= (2 * IZR nrow - 1) * / (2 * PI * ratio)) by (apply Rmult_le_pos; [lra|left; apply Rinv_0_lt_compat; lra]).
  rewrite <- Rmult_assoc.
  assert (G : IZR (Z.abs (i - ((2 * nrow + 1) / 2 - 1))) * / IZR nrow <= 1) by (apply Rmult_le_reg_r with (IZR nrow); [lra|]; rewrite Rmult_assoc, Rinv_l; lra).
  assert (G0 : 0 <= IZR (Z.abs (i - ((2 * nrow + 1) / 2 - 1))) * / IZR nrow) by (apply Rmult_le_pos; [lra|left; apply Rinv_0_lt_compat; lra]).
  set (x := IZR (Z.abs (i - ((2 * nrow + 1) / 2 - 1))) * / IZR nrow) in *. set (y := (2 * IZR nrow - 1) * / (2 * PI * ratio)) in *. clearbody x y. nra.
Qed.
(** ... and the search answers its first candidate whatever the data.  Refuted: data that differ in their axis give different answers. *)
Theorem C89_few_answer interp nrow ncol ratio drop sino smin smax c l : (2 <= nrow)%Z -> (3 <= ncol)%Z -> 0 < ratio -> (0 <= drop)%Z ->
  2 * IZR nrow - 1 <= 2 * PI * ratio -> coarse_list ncol smin smax = c :: l ->
  search_coarse (sino_metric interp nrow ncol ratio drop sino) ncol smin smax = Ok c.
Proof.
  intros Hr Hc Hrat Hd Hf E.
  assert (M : forall s, sino_metric interp nrow ncol ratio drop sino s = 0).
  { intros s. unfold sino_metric, calculate_metric. cbv zeta.
    rewrite (rsum_pixels_ext _ _ _ (fun _ _ => 0 * 0)).
    - rewrite rsum_pixels_scale. unfold Rdiv. ring.
    - intros i j Hi Hj. rewrite C89_few by auto. ring. }
  assert (Ne : coarse_list ncol smin smax <> []) by now rewrite E.
  destruct (best_of_some (sino_metric interp nrow ncol ratio drop sino) (coarse_list ncol smin smax) (cen_fliplr ncol) Ne) as [d Ed].
  pose proof (best_of_spec _ _ _ _ Ed) as (l1 & l2 & El & S0 & _). unfold search_coarse. rewrite Ed. f_equal. destruct l1 as [|x l1].
  - rewrite El in E. now injection E.
  - specialize (S0 x ltac:(now left)). rewrite !M in S0. lra.
Qed.
Theorem C89_few_refuted : ~ (forall nrow ncol, (2 <= nrow)%Z -> (3 <= ncol)%Z -> exists i j, (0 <= i < 2 * nrow)%Z /\ (0 <= j < ncol)%Z /\ create_mask (2 * nrow) ncol (1 / 2 * (1 / 2) * IZR ncol) 20 i j <> 0).
Proof.
  intros H. destruct (H 2%Z 9%Z ltac:(lia) ltac:(lia)) as (i & j & Hi & Hj & N). apply N. apply C89_few; try lia; [lra|]. pose proof PI2_3_2. unfold PI2 in *. lra.
Qed.
Example C89_example : create_mask 40 65 16 20 39%Z 36%Z = 1 /\ create_mask 40 65 16 20 39%Z 33%Z = 0.
Proof.
  destruct (C89_mask 40 65 16 20 39 36 ltac:(lia) ltac:(lia) ltac:(lra) ltac:(lia) ltac:(lia) ltac:(lia)) as (_ & _ & A & _).
  destruct (C89_mask 40 65 16 20 39 33 ltac:(lia) ltac:(lia) ltac:(lra) ltac:(lia) ltac:(lia) ltac:(lia)) as (_ & _ & _ & B).
  split; [apply A; clear A B|apply B; lia].
  - lia.
  - change (Z.abs (39 - ((40 + 1) / 2 - 1)))%Z with 20%Z. lra.
  - change (Z.abs (39 - ((40 + 1) / 2 - 1)))%Z with 20%Z. change (Z.abs (36 - ((65 + 1) / 2 - 1)))%Z with 4%Z.
    assert (P : / 4 <= / PI) by (apply Rinv_le_contravar; [apply PI_RGT_0|apply PI_4]).
    replace ((40 - 1) * 65 / (2 * PI * 40 * 16)) with (2535 / 1280 * / PI) by (field; pose proof PI_RGT_0; lra). lra.
Qed.
Print Assumptions C89_mask.
Print Assumptions C89_radius.
Print Assumptions C89_few.
Print Assumptions C89_few_answer.
Print Assumptions C89_few_refuted.

(** ** C90: find_center_pc *)
(** A registration that finds the shift of one image that moves it exactly onto the other finds the axis about which the opposite projection is the mirror image:
    without a guess or with a guess a whole number of columns from the middle, when no content is moved off the detector. *)
Theorem C90_exact shifted register ncol guess k proj1 proj2 c2 i0 j0 :
  let at0 := fun (a : img) i j => if ((0 <=? j) && (j <? ncol))%Z then a i j else 0 in
  let inside := fun a => forall i j, at0 a i j <> 0 -> (0 <= j - k < ncol)%Z in
  (forall s a i j, (0 <= j < ncol)%Z -> shifted (IZR s) a i j = at0 a i (j - s)%Z) ->
  (forall a b s, (forall i j, at0 a i j = at0 b i (j - s)%Z) -> (exists i j, at0 a i j <> 0) -> register a b = IZR s) ->
  match guess with None => k = 0%Z | Some g => g = (IZR ncol - 1) / 2 + IZR k end ->
  inside proj1 -> inside proj2 -> at0 proj1 i0 j0 <> 0 -> (forall i j, at0 proj2 i j = at0 proj1 i (c2 - j)%Z) ->
  find_center_pc shifted register ncol guess proj1 proj2 = IZR c2 / 2.
Proof.
  cbv zeta. intros Hs Hreg Hg I1 I2 N M.
  assert (G : (match guess with None => 0 | Some g => g - (IZR ncol - 1) / 2 end) = IZR k) by (destruct guess as [g|]; [rewrite Hg; lra|now rewrite Hg]).
  assert (Sh : shifts_columns ncol shifted) by (intros s a i j Hj; now apply Hs).
  apply (pc_exact shifted register ncol guess k proj1 proj2 c2 i0 j0 Sh G I1 I2 N M). cbv zeta.
  assert (F : forall a i j, ext ncol (fliplr ncol a) i j = ext ncol a i (ncol - 1 - j)%Z).
  { intros a i j. unfold ext, fliplr. replace (0 <=? j)%Z with (ncol - 1 - j <? ncol)%Z by lia. replace (j <? ncol)%Z with (0 <=? ncol - 1 - j)%Z by lia.
    rewrite andb_comm. reflexivity. }
  rewrite <- !opp_IZR.
  assert (Mv : moves ncol (c2 - 2 * k - (ncol - 1)) (fliplr ncol (shifted (IZR (- k)) proj2)) (shifted (IZR (- k)) proj1)).
  { intros i j. rewrite F, !(ext_shifted ncol shifted) by auto. assert (M' : forall i j, ext ncol proj2 i j = ext ncol proj1 i (c2 - j)%Z) by exact M. rewrite M'. f_equal. lia. }
  exists (c2 - 2 * k - (ncol - 1))%Z. split; [|exact Mv]. apply Hreg; [exact Mv|]. exists i0, (j0 - k)%Z.
  change (ext ncol (shifted (IZR (- k)) proj1) i0 (j0 - k)%Z <> 0). rewrite ext_shifted by auto. replace (j0 - k + k)%Z with j0 by lia. exact N.
Qed.
Example C90_example : find_center_pc (fun s a i j => if ((0 <=? j - Int_part s) && (j - Int_part s <? 8))%Z then a i (j - Int_part s)%Z else 0)
  (fun a b => if Req_EM_T (a 0%Z 2%Z) 0 then 0 else -1) 8 None (fun i j => if (j =? 2)%Z then 1 else 0) (fun i j => if (j =? 4)%Z then 1 else 0) = 3.
Proof.
  unfold find_center_pc. cbv zeta. rewrite Ropp_0, (Proofs_Sim.Int_part_int 0). cbn. destruct (Req_EM_T 1 0) as [E|_]; lra.
Qed.
Print Assumptions C90_exact.

(** ** C91: write_center *)
Theorem C91_default dx c : In c (center_list dx None) <-> exists k, (0 <= k < 20)%Z /\ c = IZR dx / 2 - 5 + IZR k / 2.
Proof.
  unfold center_list. rewrite in_arange by lra. split; intros (k & Hk & Ec).
  - destruct Ec as [-> L]. exists k. split; [split; [lia|]; apply lt_IZR; lra|lra].
  - exists k. split; [lia|]. destruct Hk as [_ Hk]. apply IZR_lt in Hk. split; lra.
Qed.
Theorem C91_range dx a b h c : 0 < h -> In c (center_list dx (Some (a, b, h))) <-> exists k, (0 <= k)%Z /\ c = a + IZR k * h /\ c < b.
Proof. intros H. now apply in_arange. Qed.
(** The file named after a centre holds the reconstruction with this centre (masked if mask=True); other files stay as they are. *)
Theorem C91_files {I} (recon : list R -> list I) (image : R -> I) mask_image dx cen_range mask disk :
  (forall c, recon [c] = [image c]) -> (forall a b h, cen_range = Some (a, b, h) -> 1 / 100 < h) ->
  (forall c, In c (center_list dx cen_range) -> write_center recon mask_image dx cen_range mask disk (hundredths c) = Some (match mask with IsTrue => mask_image (image c) | _ => image c end)) /\
  (forall name, (forall c, In c (center_list dx cen_range) -> hundredths c <> name) -> write_center recon mask_image dx cen_range mask disk name = disk name).
Proof.
  intros Hr Hh.
  assert (ND : NoDup (map hundredths (center_list dx cen_range))).
  { unfold center_list. destruct cen_range as [[[a b] h]|]; apply arange_names; [now apply (Hh a b)|lra]. }
  assert (E : flat_map (fun c => recon [c]) (center_list dx cen_range) = map image (center_list dx cen_range)).
  { induction (center_list dx cen_range) as [|c l IH]; [reflexivity|]. cbn [flat_map map]. cbn in ND. apply NoDup_cons_iff in ND as [_ ND]. now rewrite Hr, IH. }
  split.
  - intros c Hc. unfold write_center. cbv zeta. rewrite E. destruct mask; [rewrite map_map; now apply (write_files_at (fun c => mask_image (image c)))| |]; now apply write_files_at.
  - intros name Hn. unfold write_center. cbv zeta. now apply write_files_other.
Qed.
(** The name is the centre rounded to hundredths. *)
Theorem C91_name c : Rabs (IZR (hundredths c) / 100 - c) <= 1 / 200.
Proof. unfold hundredths. pose proof (round_even_spec (100 * c)). apply Rabs_le. lra. Qed.
(** Refuted: one file for every centre.  Centres 1/100 apart may share a name, and the later one is kept. *)
Theorem C91_names_refuted : ~ (forall dx a b h, 0 < h -> NoDup (map hundredths (center_list dx (Some (a, b, h))))).
Proof.
  intros H. specialize (H 0%Z (115 / 1000) (135 / 1000) (1 / 100) ltac:(lra)).
  assert (E : center_list 0 (Some (115 / 1000, 135 / 1000, 1 / 100)) = [115 / 1000 + 0 * (1 / 100); 115 / 1000 + 1 * (1 / 100)]).
  { unfold center_list, arange. replace ((135 / 1000 - 115 / 1000) / (1 / 100)) with (IZR 2) by lra.
    assert (C : ceil (IZR 2) = 2%Z). { destruct (Proofs_Sim.ceil_spec (IZR 2)) as [A B]. assert (2 <= ceil (IZR 2))%Z by (apply le_IZR; lra). assert (ceil (IZR 2) < 3)%Z by (apply lt_IZR; lra). lia. }
    rewrite C. reflexivity. }
  rewrite E in H. cbn [map] in H. 
  assert (T : forall n : Z, round_even (IZR n + 1 / 2) = if Z.even n then n else (n + 1)%Z).
  { intros n. unfold round_even.
    assert (F : Int_part (IZR n + 1 / 2) = n). { pose proof (floor_spec (IZR n + 1 / 2)) as [A B].
      assert (Int_part (IZR n + 1 / 2) < n + 1)%Z by (apply lt_IZR; rewrite plus_IZR; lra). assert (n < Int_part (IZR n + 1 / 2) + 1)%Z by (apply lt_IZR; rewrite plus_IZR; lra). lia. }
    rewrite F. replace (rltb (IZR n + 1 / 2 - IZR n) (1 / 2)) with false by (symmetry; apply rltb_false; lra).
    replace (rltb (1 / 2) (IZR n + 1 / 2 - IZR n)) with false by (symmetry; apply rltb_false; lra). reflexivity. }
  unfold hundredths in H. replace (100 * (115 / 1000 + 0 * (1 / 100))) with (IZR 11 + 1 / 2) in H by lra. replace (100 * (115 / 1000 + 1 * (1 / 100))) with (IZR 12 + 1 / 2) in H by lra.
  rewrite !T in H. cbn in H. apply NoDup_cons_iff in H as [H _]. apply H. now left.
Qed.
Example C91_example c : In c (center_list 16 None) -> 3 <= c <= 25 / 2.
Proof.
  intros H. apply C91_default in H as (k & Hk & ->). assert (0 <= IZR k <= 19) by (split; apply IZR_le; lia). lra.
Qed.
Print Assumptions C91_default.
Print Assumptions C91_range.
Print Assumptions C91_files.
Print Assumptions C91_name.
Print Assumptions C91_names_refuted.

(** ** C92: mask_empty_slice *)
(** Independent description: A is the sum of all projections; a row is marked empty when the spread of its values, relative to the maximum of A, is below the
    threshold times the spread of the column sums of A relative to their maximum. *)
Definition total (nt : Z) (tomo : Z -> img) : img := fun y x => rsum (map (fun t => tomo t y x) (zrange 0 nt)).
Definition columns (ny nx : Z) (a : img) : list R := map (fun x => rsum (map (fun y => a y x) (zrange 0 ny))) (zrange 0 nx).
Definition spread (l : list R) : R :=
  let m := rsum l / INR (length l) in sqrt (rsum (map (fun x => (x - m) ^ 2) l) / INR (length l)).
Lemma std_spread l : std l = spread l.
Proof.
  unfold std, spread, mean. cbv zeta. rewrite map_length, INR_IZR_INZ. f_equal. f_equal. apply rsum_ext. intros x _. ring.
Qed.
Lemma mask_total nt ny nx threshold tomo : mask_empty_slice nt ny nx threshold tomo =
  (let m := list_max (pixels ny nx (total nt tomo)) in
   if Req_EM_T m 0 then map (fun _ => false) (zrange 0 ny) else
   let sums := map (fun x => rsum (map (fun y => total nt tomo y x / m) (zrange 0 ny))) (zrange 0 nx) in
   if Req_EM_T (list_max sums) 0 then map (fun _ => false) (zrange 0 ny) else
   map (fun y => rltb (std (map (fun x => total nt tomo y x / m) (zrange 0 nx))) (std (map (fun x => x / list_max sums) sums) * threshold)) (zrange 0 ny)).
Proof. reflexivity. Qed.
Theorem C92_rows nt ny nx threshold tomo y : (0 <= y < ny)%Z -> 0 < list_max (pixels ny nx (total nt tomo)) -> 0 < list_max (columns ny nx (total nt tomo)) ->
  nth (Z.to_nat y) (mask_empty_slice nt ny nx threshold tomo) false = true <->
  spread (map (total nt tomo y) (zrange 0 nx)) / list_max (pixels ny nx (total nt tomo)) <
  threshold * (spread (columns ny nx (total nt tomo)) / list_max (columns ny nx (total nt tomo))).
Proof.
  intros Hy Hm Hm2. rewrite mask_total. cbv zeta. set (m := list_max (pixels ny nx (total nt tomo))) in *.
  destruct (Req_EM_T m 0) as [E|_]; [lra|].
  assert (Ec : map (fun x => rsum (map (fun y0 => total nt tomo y0 x / m) (zrange 0 ny))) (zrange 0 nx) = map (Rmult (/ m)) (columns ny nx (total nt tomo))).
  { unfold columns. rewrite map_map. apply map_ext. intros x. rewrite <- rsum_scale. apply rsum_ext. intros z _. unfold Rdiv. ring. }
  rewrite Ec. assert (Im : 0 < / m) by now apply Rinv_0_lt_compat. rewrite list_max_scale by exact Im. set (m2 := list_max (columns ny nx (total nt tomo))) in *.
  destruct (Req_EM_T (/ m * m2) 0) as [E|_]; [assert (0 < / m * m2) by (apply Rmult_lt_0_compat; lra); lra|].
  rewrite (nth_indep _ false ((fun y0 => rltb (std (map (fun x => total nt tomo y0 x / m) (zrange 0 nx))) (std (map (fun x => x / (/ m * m2)) (map (Rmult (/ m)) (columns ny nx (total nt tomo)))) * threshold)) 0%Z)) by (rewrite map_length, zrange_length; lia).
  rewrite (map_nth (fun y0 => rltb (std (map (fun x => total nt tomo y0 x / m) (zrange 0 nx))) (std (map (fun x => x / (/ m * m2)) (map (Rmult (/ m)) (columns ny nx (total nt tomo)))) * threshold))).
  assert (En : nth (Z.to_nat y) (zrange 0 ny) 0%Z = y).
  { unfold zrange. rewrite (nth_indep _ 0%Z ((fun k => (0 + Z.of_nat k)%Z) 0%nat)) by (rewrite map_length, seq_length; lia).
    rewrite (map_nth (fun k => (0 + Z.of_nat k)%Z)). rewrite seq_nth by lia. lia. }
  rewrite En, rltb_spec.
  assert (E1 : std (map (fun x => total nt tomo y x / m) (zrange 0 nx)) = spread (map (total nt tomo y) (zrange 0 nx)) / m).
  { rewrite (map_ext _ (fun x => / m * total nt tomo y x)) by (intros; unfold Rdiv; ring). rewrite <- (map_map (total nt tomo y) (Rmult (/ m))), std_scale, std_spread by lra. unfold Rdiv. ring. }
  assert (E2 : std (map (fun x => x / (/ m * m2)) (map (Rmult (/ m)) (columns ny nx (total nt tomo)))) = spread (columns ny nx (total nt tomo)) / m2).
  { rewrite map_map. rewrite (map_ext _ (Rmult (/ m2))) by (intros; field; lra). rewrite std_scale, std_spread by (left; now apply Rinv_0_lt_compat). unfold Rdiv. ring. }
  rewrite E1, E2, (Rmult_comm threshold). reflexivity.
Qed.
Theorem C92_length nt ny nx threshold tomo : (0 <= ny)%Z -> length (mask_empty_slice nt ny nx threshold tomo) = Z.to_nat ny.
Proof.
  intros H. unfold mask_empty_slice. cbv zeta. destruct (Req_EM_T _ 0); [rewrite map_length, zrange_length; lia|].
  destruct (Req_EM_T _ 0); rewrite map_length, zrange_length; lia.
Qed.
(** A row without structure is marked when the columns differ; a threshold that is not positive marks nothing; a larger one marks no fewer rows. *)
Lemma spread_pos l : 0 <= spread l. Proof. apply sqrt_pos. Qed.
Theorem C92_flat nt ny nx threshold tomo y v : (0 <= y < ny)%Z -> 0 < list_max (pixels ny nx (total nt tomo)) -> 0 < list_max (columns ny nx (total nt tomo)) ->
  0 < threshold -> (forall x, (0 <= x < nx)%Z -> total nt tomo y x = v) ->
  (exists x1 x2, (0 <= x1 < nx)%Z /\ (0 <= x2 < nx)%Z /\ rsum (map (fun y => total nt tomo y x1) (zrange 0 ny)) <> rsum (map (fun y => total nt tomo y x2) (zrange 0 ny))) ->
  nth (Z.to_nat y) (mask_empty_slice nt ny nx threshold tomo) false = true.
Proof.
  intros Hy Hm Hm2 Ht Hv (x1 & x2 & H1 & H2 & N). apply C92_rows; auto.
  rewrite <- std_spread, (std_flat _ v).
  - replace (0 / list_max (pixels ny nx (total nt tomo))) with 0 by (unfold Rdiv; ring). apply Rmult_lt_0_compat; [exact Ht|]. apply Rdiv_lt_0_compat; [|exact Hm2].
    destruct (spread_pos (columns ny nx (total nt tomo))) as [P|P]; [exact P|exfalso]. apply N.
    set (l := columns ny nx (total nt tomo)) in *.
    assert (L : l <> []). { intros E. apply (f_equal (@length R)) in E. unfold l, columns in E. rewrite map_length, zrange_length in E. cbn in E. lia. }
    assert (Q : forall x, In x l -> x = rsum l / INR (length l)).
    { intros x Ix. symmetry in P. unfold spread in P. cbv zeta in P. set (m := rsum l / INR (length l)) in *.
      assert (L0 : 0 < INR (length l)) by (apply lt_0_INR; destruct l; [easy|cbn; lia]).
      assert (S0 : forall z, In z (map (fun x => (x - m) ^ 2) l) -> 0 <= z) by (intros z Iz; apply in_map_iff in Iz as (w & <- & _); apply pow2_ge_0).
      assert (A : 0 <= rsum (map (fun x => (x - m) ^ 2) l)) by now apply rsum_nonneg.
      apply sqrt_eq_0 in P; [|apply Rmult_le_pos; [exact A|left; now apply Rinv_0_lt_compat]].
      assert (A0 : rsum (map (fun x => (x - m) ^ 2) l) = 0). { apply Rmult_eq_reg_r with (/ INR (length l)); [|apply Rinv_neq_0_compat; lra]. unfold Rdiv in P. rewrite P. ring. }
      assert (B : (x - m) ^ 2 <= rsum (map (fun x => (x - m) ^ 2) l)).
      { apply in_split in Ix as (u & w & ->). rewrite map_app, rsum_app. change (rsum (map (fun x => (x - m) ^ 2) (x :: w))) with ((x - m) ^ 2 + rsum (map (fun x => (x - m) ^ 2) w)).
        assert (0 <= rsum (map (fun x => (x - m) ^ 2) u)) by (apply rsum_nonneg; intros z Iz; apply S0; rewrite map_app; apply in_or_app; now left).
        assert (0 <= rsum (map (fun x => (x - m) ^ 2) w)) by (apply rsum_nonneg; intros z Iz; apply S0; rewrite map_app; apply in_or_app; right; now right). lra. }
      pose proof (pow2_ge_0 (x - m)). nra. }
    transitivity (rsum l / INR (length l)); [|symmetry]; apply Q; unfold l, columns; apply (in_map (fun x => rsum (map (fun y => total nt tomo y x) (zrange 0 ny)))); now apply in_zrange.
  - intros x Ix. apply in_map_iff in Ix as (j & <- & Ij). apply Hv. now apply in_zrange in Ij.
Qed.
Theorem C92_threshold nt ny nx t1 t2 tomo y : (0 <= y < ny)%Z -> t1 <= t2 -> 0 < list_max (pixels ny nx (total nt tomo)) -> 0 < list_max (columns ny nx (total nt tomo)) ->
  (t1 <= 0 -> nth (Z.to_nat y) (mask_empty_slice nt ny nx t1 tomo) false = false) /\
  (nth (Z.to_nat y) (mask_empty_slice nt ny nx t1 tomo) false = true -> nth (Z.to_nat y) (mask_empty_slice nt ny nx t2 tomo) false = true).
Proof.
  intros Hy Ht Hm Hm2. assert (P : 0 <= spread (columns ny nx (total nt tomo)) / list_max (columns ny nx (total nt tomo))).
  { apply Rmult_le_pos; [apply spread_pos|left; now apply Rinv_0_lt_compat]. }
  assert (P1 : 0 <= spread (map (total nt tomo y) (zrange 0 nx)) / list_max (pixels ny nx (total nt tomo))).
  { apply Rmult_le_pos; [apply spread_pos|left; now apply Rinv_0_lt_compat]. } split.
  - intros T0. apply not_true_iff_false. rewrite C92_rows by auto. intros H. assert (t1 * (spread (columns ny nx (total nt tomo)) / list_max (columns ny nx (total nt tomo))) <= 0 * (spread (columns ny nx (total nt tomo)) / list_max (columns ny nx (total nt tomo)))) by (apply Rmult_le_compat_r; lra). lra.
  - rewrite !C92_rows by auto. intros H. apply Rlt_le_trans with (1 := H). apply Rmult_le_compat_r; lra.
Qed.
(** Neither the order of the projections nor a positive factor matters. *)
Theorem C92_order nt ny nx threshold tomo tomo' : (forall y x, Permutation (map (fun t => tomo t y x) (zrange 0 nt)) (map (fun t => tomo' t y x) (zrange 0 nt))) ->
  mask_empty_slice nt ny nx threshold tomo' = mask_empty_slice nt ny nx threshold tomo.
Proof.
  intros H. unfold mask_empty_slice. cbv zeta.
  assert (E : forall y x, rsum (map (fun t => tomo' t y x) (zrange 0 nt)) = rsum (map (fun t => tomo t y x) (zrange 0 nt))).
  { intros y x. specialize (H y x). induction H; unfold rsum in *; cbn; lra. }
  assert (E1 : pixels ny nx (fun y x => rsum (map (fun t => tomo' t y x) (zrange 0 nt))) = pixels ny nx (fun y x => rsum (map (fun t => tomo t y x) (zrange 0 nt)))).
  { unfold pixels. apply flat_map_ext. intros i. apply map_ext. intros j. apply E. }
  rewrite E1. set (m := list_max _). destruct (Req_EM_T m 0); [reflexivity|].
  assert (E2 : map (fun x => rsum (map (fun y => rsum (map (fun t => tomo' t y x) (zrange 0 nt)) / m) (zrange 0 ny))) (zrange 0 nx) =
               map (fun x => rsum (map (fun y => rsum (map (fun t => tomo t y x) (zrange 0 nt)) / m) (zrange 0 ny))) (zrange 0 nx)).
  { apply map_ext. intros x. apply rsum_ext. intros y _. now rewrite E. }
  rewrite E2. destruct (Req_EM_T _ 0); [reflexivity|]. apply map_ext. intros y. f_equal. f_equal. apply map_ext. intros x. now rewrite E.
Qed.
Theorem C92_scale nt ny nx threshold tomo k : 0 < k -> mask_empty_slice nt ny nx threshold (fun t y x => k * tomo t y x) = mask_empty_slice nt ny nx threshold tomo.
Proof.
  intros Hk. unfold mask_empty_slice. cbv zeta.
  assert (E : forall y x, rsum (map (fun t => k * tomo t y x) (zrange 0 nt)) = k * rsum (map (fun t => tomo t y x) (zrange 0 nt))) by (intros y x; apply rsum_scale).
  assert (E1 : pixels ny nx (fun y x => rsum (map (fun t => k * tomo t y x) (zrange 0 nt))) = map (Rmult k) (pixels ny nx (fun y x => rsum (map (fun t => tomo t y x) (zrange 0 nt))))).
  { unfold pixels. rewrite !flat_map_concat_map, concat_map, map_map. f_equal. apply map_ext. intros i. rewrite map_map. apply map_ext. intros j. apply E. }
  rewrite E1, list_max_scale by exact Hk. set (m := list_max _).
  destruct (Req_EM_T (k * m) 0) as [Z1|N1], (Req_EM_T m 0) as [Z2|N2]; [reflexivity|exfalso; apply Rmult_integral in Z1; lra|exfalso; apply N1; rewrite Z2; ring|].
  assert (D : forall y x, rsum (map (fun t => k * tomo t y x) (zrange 0 nt)) / (k * m) = rsum (map (fun t => tomo t y x) (zrange 0 nt)) / m) by (intros y x; rewrite E; field; split; lra).
  assert (E2 : map (fun x => rsum (map (fun y => rsum (map (fun t => k * tomo t y x) (zrange 0 nt)) / (k * m)) (zrange 0 ny))) (zrange 0 nx) =
               map (fun x => rsum (map (fun y => rsum (map (fun t => tomo t y x) (zrange 0 nt)) / m) (zrange 0 ny))) (zrange 0 nx)).
  { apply map_ext. intros x. apply rsum_ext. intros y _. apply D. }
  rewrite E2. destruct (Req_EM_T _ 0); [reflexivity|]. apply map_ext. intros y. f_equal. f_equal. apply map_ext. intros x. apply D.
Qed.
(** Refuted: rows without any signal are marked.  Of blank data no row is marked. *)
Theorem C92_blank_refuted : ~ (forall nt ny nx threshold tomo y, (1 <= nt)%Z -> (1 <= nx)%Z -> (0 <= y < ny)%Z -> 0 < threshold -> (forall t x, tomo t y x = 0) ->
  nth (Z.to_nat y) (mask_empty_slice nt ny nx threshold tomo) false = true).
Proof.
  intros H. specialize (H 1%Z 1%Z 1%Z 1 (fun _ _ _ => 0) 0%Z ltac:(lia) ltac:(lia) ltac:(lia) ltac:(lra) ltac:(reflexivity)). revert H.
  rewrite mask_total. cbv zeta. destruct (Req_EM_T (list_max (pixels 1 1 (total 1 (fun _ _ _ : Z => 0)))) 0) as [_|N]; [cbn; discriminate|].
  exfalso. apply N. change (list_max (pixels 1 1 (total 1 (fun _ _ _ : Z => 0)))) with (0 + 0). ring.
Qed.
Example C92_example : nth 1 (mask_empty_slice 1 2 2 1 (fun _ y x => if (y =? 0)%Z then IZR (x + 1) else 1)) false = true.
Proof.
  set (tomo := fun _ y x : Z => if (y =? 0)%Z then IZR (x + 1) else 1).
  assert (T : forall y x, total 1 tomo y x = tomo 0%Z y x) by (intros y x; change (total 1 tomo y x) with (tomo 0%Z y x + 0); ring).
  apply (C92_flat 1 2 2 1 tomo 1 1); [lia| | |lra| |].
  - change (pixels 2 2 (total 1 tomo)) with [total 1 tomo 0%Z 0%Z; total 1 tomo 0%Z 1%Z; total 1 tomo 1%Z 0%Z; total 1 tomo 1%Z 1%Z]. rewrite !T. unfold tomo, list_max. cbn.
    apply Rlt_le_trans with 2; [lra|]. apply Rmax_l.
  - change (columns 2 2 (total 1 tomo)) with [rsum [total 1 tomo 0%Z 0%Z; total 1 tomo 1%Z 0%Z]; rsum [total 1 tomo 0%Z 1%Z; total 1 tomo 1%Z 1%Z]]. rewrite !T. unfold tomo, list_max, rsum. cbn.
    apply Rlt_le_trans with (2 + (1 + 0)); [lra|]. apply Rmax_l.
  - intros x _. rewrite T. reflexivity.
  - exists 0%Z, 1%Z. split; [lia|]. split; [lia|]. change (rsum [total 1 tomo 0%Z 0%Z; total 1 tomo 1%Z 0%Z] <> rsum [total 1 tomo 0%Z 1%Z; total 1 tomo 1%Z 1%Z]). rewrite !T. unfold tomo, rsum. cbn. lra.
Qed.
Print Assumptions C92_rows.
Print Assumptions C92_length.
Print Assumptions C92_flat.
Print Assumptions C92_threshold.
Print Assumptions C92_order.
Print Assumptions C92_scale.
Print Assumptions C92_blank_refuted.
