(** Stripe removal based on detected columns (prep/stripe.py), and sinograms without stripes. *)
From Verif Require Import Base Order CLoop Model_Prep Model_Solver Model_Ospml Proofs_Prep Proofs_Morph Model_Stripe Proofs_Stripe Properties_Stripe
  Model_StripeSf Properties_StripeTi Model_StripeLarge Proofs_StripeLarge.
From Coq Require Import Reals Lra.
Local Open Scope R_scope.

(** numpy.polyfit: points on a horizontal line give this line. *)
Definition exact_fit (polyfit : list (R * R) -> R * R) : Prop :=
  forall a b (y : R), (a + 1 < b)%Z -> polyfit (map (fun i => (IZR i, y)) (zrange a b)) = (0, y).
Definition finite (s : list (list R)) : list (list number) := map (map Some) s.

(** ** C65: a sinogram with equal columns is returned unchanged *)
Lemma rs_sort_fixed {V} (lt : V -> V -> bool) sv si F (s : list (list V)) : sorts_by lt snd sv -> sorts_by Z.ltb fst si ->
  F (map (map snd) (map (fun col => sv (numbered col)) s)) = map (map snd) (map (fun col => sv (numbered col)) s) -> rs_sort sv si F s = s.
Proof. intros HV HI E. transitivity (rs_sort sv si (fun m => m) s); [|now apply (C34_identity lt)]. unfold rs_sort. cbv zeta. now rewrite E. Qed.
Lemma all_equal_map {A B} (f : A -> B) x l : all_equal x l -> all_equal (f x) (map f l).
Proof. intros H y Hy. apply in_map_iff in Hy. destruct Hy as (z & <- & Hz). now rewrite (H z Hz). Qed.
(** Sorting, window over columns. *)
Theorem C65_sorting : forall {V} (lt : V -> V -> bool) dflt sort_value sort_index size (s : list (list V)) col,
  weak_order (fun _ => True) lt -> sorts_by lt snd sort_value -> sorts_by Z.ltb fst sort_index ->
  match size with Some k => (0 < k)%Z | None => True end -> (forall c, In c s -> c = col) ->
  remove_stripe_based_sorting sort_value sort_index lt dflt size 1 s = s.
Proof.
  intros V lt dflt sv si size s col wo HV HI Hs E. unfold remove_stripe_based_sorting. apply (rs_sort_fixed lt); auto.
  unfold sort_filter. cbn [Z.eqb Pos.eqb]. eapply (median_filter_equal lt wo).
  - destruct size; auto. unfold default_size. destruct (_ >? _)%Z; lia.
  - apply all_equal_map, all_equal_map. exact E.
Qed.
(** Finding: square windows change it. *)
Theorem C65_square_window_refuted : exists s, (forall c, In c s -> c = [0; 1; 2]%Z) /\
  remove_stripe_based_sorting sort_snd sort_fst Z.ltb 0%Z (Some 5%Z) 2 s = [[1; 1; 1]; [1; 1; 1]; [1; 1; 1]]%Z.
Proof. exists [[0; 1; 2]; [0; 1; 2]; [0; 1; 2]]%Z. split; [cbn; intuition|vm_compute; reflexivity]. Qed.
(** Smoothing filter. *)
Theorem C65_smoothing : forall dx dy dz size istart iend data, (0 < dx)%Z -> (0 < dz)%Z -> (0 < size)%Z -> (0 <= istart <= iend)%Z -> (iend <= dy)%Z ->
  (forall p s j, (0 <= p < dx)%Z -> (0 <= s < dy)%Z -> (0 <= j < dz)%Z -> data (element dy dz p s j) = data (element dy dz p s 0)) ->
  forall x, remove_stripe_sf dx dy dz size istart iend data x = data x.
Proof.
  intros dx dy dz size a b data Hdx Hdz Hsz Hab Hb E x.
  assert (M : forall s j, (0 <= s < dy)%Z -> (0 <= j < dz)%Z -> column_mean dx dy dz data s j = column_mean dx dy dz data s 0).
  { intros s j Hs Hj. unfold column_mean. f_equal. unfold total. f_equal. apply map_ext_in. intros p Hp. apply in_zrange in Hp. now apply E. }
  destruct (Classical_Prop.classic (exists p s j, (0 <= p < dx)%Z /\ (a <= s < b)%Z /\ (0 <= j < dz)%Z /\ x = element dy dz p s j)) as [(p & s & j & Hp & Hs & Hj & ->)|N].
  2:{ apply C35_only; auto. intros p s j Hp Hs Hj ->. apply N. exists p, s, j. auto. }
  pose proof (C35_shift dx dy dz size a b data Hdx Hdz Hsz Hab Hb) as C. cbv zeta in C. rewrite C by auto.
  enough (S : smoothed dx dy dz size data s j = column_mean dx dy dz data s j) by (rewrite S; lra).
  unfold smoothed. rewrite (M s j) by lia. set (m := column_mean dx dy dz data s 0) in *.
  assert (T : forall f, (forall t, (0 <= t < size)%Z -> f t = m) -> total size f / IZR size = m).
  { intros f Hf. change total with zsum. rewrite (zsum_ext size f (fun _ => m)) by auto.
    assert (N : zsum size (fun _ => m) = IZR size * m).
    { clear - Hsz. rewrite <- (Z2Nat.id size) by lia. generalize (Z.to_nat size). intros k. induction k as [|k IH]; [rewrite zsum_0 by lia; cbn; lra|].
      replace (Z.of_nat (S k)) with (Z.of_nat k + 1)%Z by lia. rewrite zsum_S, IH, plus_IZR by lia. lra. }
    rewrite N. field. apply not_0_IZR. lia. }
  apply T. intros t Ht. apply M; lia.
Qed.
(** Detected columns: at least three columns (four cannot be fitted), positive snr. *)
Section Equal.
  Variable polyfit : list (R * R) -> R * R.
  Hypothesis Hfit : exact_fit polyfit.
  Lemma combine_self {A} (l : list A) : combine l l = map (fun x => (x, x)) l.
  Proof. induction l; cbn; congruence. Qed.
  Lemma factors_equal drop size nrow s col : (0 < size)%Z -> all_equal col s -> factors drop size nrow s = map (fun _ => 1) s.
  Proof.
    intros Hs E. unfold factors. cbv zeta. unfold smooth_sorted. rewrite (median_filter_equal rltb R_weak_order 0 size _ (isort rltb col) Hs) by now apply all_equal_map.
    rewrite combine_self, !map_map. apply map_ext. intros c. unfold quotient. destruct (Req_EM_T _ 0); [reflexivity|field; auto].
  Qed.
  Lemma detect_ones {A} (s : list A) snr : (3 <= length s)%nat -> length s <> 4%nat -> 0 < snr ->
    detect_stripe polyfit (map (fun _ => 1) s) snr = Ok (map (fun _ => false) s).
  Proof.
    intros H3 H4 Hs. rewrite (detect_equal polyfit Hfit _ 1) by (rewrite ?map_length; auto; intros y Hy; apply in_map_iff in Hy; now destruct Hy as (? & <- & _)).
    now rewrite map_map.
  Qed.
  Lemma normalised_ones norm (s : list (list R)) : normalised norm (map (fun _ => 1) s) s = finite s.
  Proof.
    unfold normalised, finite. rewrite (combine_same_map (fun (col : list R) f => map (fun x => if norm then ndiv (Some x) (Some f) else Some x) col) (fun _ => 1) s).
    apply map_ext. intros c. apply map_ext. intros x. destruct norm; auto. unfold ndiv. destruct (Req_EM_T 1 0); [lra|]. f_equal. lra.
  Qed.
  Lemma large_equal sv si snr size drop norm nrow s col : (0 < size)%Z -> (3 <= length s)%nat -> length s <> 4%nat -> 0 < snr -> all_equal col s ->
    rs_large polyfit sv si snr size drop norm nrow s = Ok (finite s).
  Proof.
    intros Hz H3 H4 Hs E. unfold rs_large. cbv zeta. rewrite (factors_equal drop size nrow s col Hz E), detect_ones by auto. cbn [Ok].
    unfold Ok. f_equal. rewrite dilate_false, normalised_ones. unfold smooth_sorted. rewrite (median_filter_equal rltb R_weak_order 0 size _ (isort rltb col) Hz) by now apply all_equal_map.
    set (cor := rs_sort sv si (fun _ => map (map Some) (map (isort rltb) s)) (finite s)).
    assert (L : length cor = length s).
    { unfold cor, rs_sort. cbv zeta. rewrite !map_length, combine_length, !map_length. unfold finite. rewrite map_length. lia. }
    clearbody cor. unfold finite. clear - L. revert cor L. induction s as [|c s IH]; intros [|d cor] L; cbn in L; try discriminate; auto.
    cbn. f_equal. apply IH. now injection L.
  Qed.
End Equal.
Theorem C65_large : forall polyfit sort_value sort_index snr size drop_ratio norm nrow s col, exact_fit polyfit ->
  (0 < size)%Z -> (3 <= length s)%nat -> length s <> 4%nat -> 0 < snr -> (forall c, In c s -> c = col) ->
  rs_large polyfit sort_value sort_index snr size drop_ratio norm nrow s = Ok (finite s).
Proof. intros. eapply large_equal; eauto. Qed.
Theorem C65_interpolation : forall polyfit snr size drop_ratio norm nrow s col, exact_fit polyfit ->
  (0 < size)%Z -> (3 <= length s)%nat -> length s <> 4%nat -> 0 < snr -> (forall c, In c s -> c = col) ->
  rs_interpolation polyfit snr size drop_ratio norm nrow s = Ok (finite s).
Proof.
  intros pf snr size drop norm nrow s col Hf Hz H3 H4 Hs E. unfold rs_interpolation. cbv zeta. rewrite (factors_equal drop size nrow s col Hz E), (detect_ones pf Hf) by auto.
  unfold Ok. f_equal. now rewrite dilate_false, clear_false, normalised_ones, interpolate_false.
Qed.
Theorem C65_dead : forall polyfit sort_value sort_index uniform_filter snr size norm nrow s col, exact_fit polyfit ->
  (0 < size)%Z -> (3 <= length s)%nat -> length s <> 4%nat -> 0 < snr -> (forall c, In c s -> c = col) ->
  rs_dead polyfit sort_value sort_index uniform_filter snr size norm nrow s = Ok (finite s).
Proof.
  intros pf sv si uf snr size norm nrow s col Hf Hz H3 H4 Hs E. unfold rs_dead. cbv zeta.
  set (d := fun col : list R => rsum (map (fun '(x, y) => Rabs (x - y)) (combine col (uf col)))).
  assert (M : list_median_filter size (map d s) = map d s).
  { unfold list_median_filter. rewrite (median_filter_equal rltb R_weak_order 0 size _ [d col] Hz).
    - rewrite !map_map. reflexivity.
    - rewrite map_map. exact (all_equal_map (fun x => [d x]) col s E). }
  rewrite M, combine_self, !map_map.
  assert (Q : map (fun x => quotient (d x) (d x)) s = map (fun _ => 1) s) by (apply map_ext; intros x; unfold quotient; destruct (Req_EM_T _ 0); [reflexivity|field; auto]).
  rewrite Q, (detect_ones pf Hf) by auto. unfold Ok. rewrite dilate_false, clear_false, interpolate_false.
  destruct norm; [eapply large_equal; eauto|reflexivity].
Qed.
Lemma nltb_weak_order : weak_order (fun _ : number => True) nltb.
Proof.
  split; [intros [x|] _; cbn; auto; apply rltb_false; lra| |].
  - intros [x|] [y|] [z|] _ _ _; cbn; auto; try discriminate. rewrite !rltb_spec. lra.
  - intros [x|] [y|] [z|] _ _ _; cbn; auto; try discriminate. rewrite !rltb_false. lra.
Qed.
Theorem C65_all : forall polyfit sort_value sort_index uniform_filter snr la_size sm_size nrow s col, exact_fit polyfit ->
  sorts_by nltb snd sort_value -> sorts_by Z.ltb fst sort_index ->
  (0 < la_size)%Z -> (0 < sm_size)%Z -> (3 <= length s)%nat -> length s <> 4%nat -> 0 < snr -> (forall c, In c s -> c = col) ->
  remove_all_stripe polyfit sort_value sort_index uniform_filter snr la_size sm_size 1 nrow s = Ok (finite s).
Proof.
  intros pf sv si uf snr la sm nrow s col Hf HV HI Hl Hm H3 H4 Hs E. unfold remove_all_stripe. rewrite (C65_dead pf sv si uf snr la true nrow s col) by auto.
  unfold Ok. f_equal. apply (rs_sort_fixed nltb); auto. unfold sort_filter. cbn [Z.eqb Pos.eqb]. eapply (median_filter_equal nltb nltb_weak_order); auto.
  apply all_equal_map, all_equal_map, all_equal_map. exact E.
Qed.
(** Filtering, window over columns; any low-pass filter. *)
Theorem C65_filtering : forall sort_value sort_index lowpass size s col, sorts_by rltb snd sort_value -> sorts_by Z.ltb fst sort_index ->
  (0 < size)%Z -> (forall c, length (lowpass c) = length c) -> (forall c, In c s -> c = col) ->
  rs_filter sort_value sort_index lowpass size 1 s = s.
Proof.
  intros sv si lp size s col HV HI Hz HL E. unfold rs_filter. cbv zeta.
  rewrite (rs_sort_fixed rltb sv si (sort_filter rltb 0 size 1) (map lp s)); auto.
  2:{ unfold sort_filter. cbn [Z.eqb Pos.eqb]. eapply (median_filter_equal rltb R_weak_order); auto. apply all_equal_map, all_equal_map, all_equal_map. exact E. }
  clear E. induction s as [|c s IH]; cbn; auto. f_equal; [|exact IH].
  specialize (HL c). revert HL. generalize (lp c). clear. induction c as [|x c IH]; intros [|y l] HL; cbn in *; try discriminate; auto. f_equal; [lra|]. apply IH. lia.
Qed.

(** ** C67: detection, and which columns are changed *)
(** If all factors are equal to c up to a quarter of larger and a quarter of smaller ones: factors equal to c are never
    detected, factors that deviate by at least snr millionths always. *)
Theorem C67_detect : forall polyfit data c snr mask, exact_fit polyfit -> (3 <= length data)%nat -> length data <> 4%nat -> 0 < snr ->
  (4 * length (filter (fun x => rltb c x) data) <= length data)%nat -> (4 * length (filter (fun x => rltb x c) data) <= length data)%nat ->
  detect_stripe polyfit data snr = Ok mask ->
  length mask = length data /\ forall k x, nth_error data k = Some x ->
    (x = c -> nth k mask false = false) /\ (snr / 1000000 <= Rabs (x - c) -> nth k mask false = true) /\
    (nth k mask false = true -> snr / 2000000 <= Rabs (x - c)).
Proof.
  intros pf data c snr mask Hf H3 H4 Hs Ma Mb E.
  assert (CF : forall (f : R -> bool) l, count f l = length (filter f l)) by (intros f l; induction l as [|x l IH]; cbn; auto; destruct (f x); cbn; lia).
  assert (M : middle data c) by (split; rewrite CF; lia).
  pose proof (detect_middle pf Hf data c snr mask H3 H4 M E) as D. cbv zeta in D.
  set (top := nth 0 (rev (isort rltb data)) 0) in *. set (bottom := nth 0 (isort rltb data) 0) in *.
  split; [rewrite D; apply map_length|]. intros k x Hx.
  assert (Nk : nth k mask false = (negb (rltb (Rabs (top - c) * 1000000) snr) && rltb (c + snr / 2000000) x) ||
                      (negb (rltb (Rabs (bottom - c) * 1000000) snr) && negb (rltb (c - snr / 2000000) x))).
  { apply nth_error_nth. rewrite D, nth_error_map, Hx. reflexivity. }
  pose proof (nth_error_In _ _ Hx) as I. pose proof (top_max data x I) as T. pose proof (bottom_min data x I) as B. fold top in T. fold bottom in B.
  assert (S2 : 0 < snr / 2000000) by lra.
  rewrite Nk. split; [|split].
  - intros ->. assert (A1 : rltb (c + snr / 2000000) c = false) by (apply rltb_false; lra). assert (A2 : rltb (c - snr / 2000000) c = true) by (apply rltb_spec; lra).
    rewrite A1, A2. cbn. now rewrite !andb_false_r.
  - intros H. apply orb_true_iff. unfold Rabs in H. destruct (Rcase_abs (x - c)) as [L|L]; [right|left]; apply andb_true_iff; split.
    + apply negb_true_iff, rltb_false. rewrite Rabs_left by lra. lra.
    + apply negb_true_iff, rltb_false. lra.
    + apply negb_true_iff, rltb_false. rewrite Rabs_right by lra. lra.
    + apply rltb_spec. lra.
  - intros H. apply orb_true_iff in H. destruct H as [H|H]; apply andb_true_iff in H; destruct H as [_ H].
    + apply rltb_spec in H. rewrite Rabs_right; lra.
    + apply negb_true_iff, rltb_false in H. rewrite Rabs_left; lra.
Qed.
(** What is detected is what lies above one threshold or not above another. *)
Theorem C67_thresholds : forall polyfit data snr mask, detect_stripe polyfit data snr = Ok mask ->
  exists upper lower : option R, forall k x, nth_error data k = Some x ->
    (nth k mask false = true <-> match upper with Some u => u < x | None => False end \/ match lower with Some l => x <= l | None => False end).
Proof.
  intros pf data snr mask E. unfold detect_stripe in E. cbv zeta in E.
  destruct (map _ (zrange _ _)) as [|p ps]; [discriminate|]. destruct (pf (p :: ps)) as [slope intercept]. injection E as <-.
  set (noise := Rmax _ _). set (v1 := negb (rltb (Rabs (nth 0 _ 0 - intercept) / noise) snr)). set (v2 := negb (rltb (Rabs (nth (Z.to_nat _) _ 0 - _) / noise) snr)).
  exists (if v1 then Some (intercept + noise * snr * (1 / 2)) else None), (if v2 then Some (intercept + slope * IZR (Z.of_nat (length data) - 1) - noise * snr * (1 / 2)) else None).
  intros k x Hx.
  match goal with |- nth k (map ?f data) false = true <-> _ => assert (Nk : nth k (map f data) false = f x) by (apply nth_error_nth; rewrite nth_error_map, Hx; reflexivity); rewrite Nk end.
  cbv beta. rewrite orb_true_iff, !andb_true_iff. destruct v1, v2; cbn [negb]; rewrite ?rltb_spec, ?negb_true_iff, ?rltb_false; intuition congruence.
Qed.
(** Column c counts as a stripe if it or a neighbour is detected. *)
Definition detected (mask : list bool) (c : Z) : Prop := exists k, (c - 1 <= k <= c + 1)%Z /\ (0 <= k)%Z /\ nth (Z.to_nat k) mask false = true.
Lemma detected_flag mask c : (0 <= c < Z.of_nat (length mask))%Z -> detected mask c <-> flag (dilate mask) c = true.
Proof.
  intros H. rewrite flag_dilate by auto. unfold flag. split.
  - intros (k & Hk & K0 & E). assert (C : (k = c - 1 \/ k = c \/ k = c + 1)%Z) by lia. rewrite !orb_true_iff.
    destruct C as [->| [->| ->]]; [left; left; destruct (Z.ltb_spec (c - 1) 0)|left; right; destruct (Z.ltb_spec c 0)|right; destruct (Z.ltb_spec (c + 1) 0)]; auto; lia.
  - rewrite !orb_true_iff. intros [[E|E]|E]; [exists (c - 1)%Z; destruct (Z.ltb_spec (c - 1) 0)|exists c; destruct (Z.ltb_spec c 0)|exists (c + 1)%Z; destruct (Z.ltb_spec (c + 1) 0)];
      try discriminate; repeat split; auto; lia.
Qed.
(** Columns of a sinogram after normalisation: divided by their factor, which is not finite for a factor of zero. *)
Definition normalised_column (norm : bool) (fact : R) (col : list R) : list number := map (fun x => if norm then ndiv (Some x) (Some fact) else Some x) col.
Lemma normalised_nth norm facts s c : length facts = length s -> (c < length s)%nat -> nth_error (normalised norm facts s) c = Some (normalised_column norm (nth c facts 0) (nth c s [])).
Proof.
  intros L H. unfold normalised. rewrite nth_error_map. rewrite (nth_error_combine s facts c (nth c s []) (nth c facts 0)) by (apply nth_error_nth'; lia). reflexivity.
Qed.
Lemma factors_length drop size nrow s : length (factors drop size nrow s) = length s.
Proof. unfold factors. cbv zeta. rewrite map_length, combine_length, map_length. unfold smooth_sorted. rewrite median_filter_shape, map_length. lia. Qed.
(** remove_large_stripe: other columns keep their values up to the factor; in a stripe, the smallest value is replaced by
    the smallest of the smoothed column and so on. *)
Theorem C67_large : forall polyfit sort_value sort_index snr size drop_ratio norm w n s out,
  sorts_by nltb snd sort_value -> sorts_by Z.ltb fst sort_index -> sinogram w n s ->
  rs_large polyfit sort_value sort_index snr size drop_ratio norm (Z.of_nat n) s = Ok out ->
  exists facts mask smooth, length facts = w /\ detect_stripe polyfit facts snr = Ok mask /\ length mask = w /\ sinogram w n smooth /\
    smooth = median_filter rltb 0 size 1 (map (isort rltb) s) /\
    forall c, (c < w)%nat ->
      (~ detected mask (Z.of_nat c) -> nth_error out c = Some (normalised_column norm (nth c facts 0) (nth c s []))) /\
      (detected mask (Z.of_nat c) -> exists order : list nat, Permutation order (seq 0 n) /\
         ordered nltb (map (fun p => nth p (normalised_column norm (nth c facts 0) (nth c s [])) None) order) /\
         forall i p, nth_error order i = Some p -> at_ out c p (Some (nth i (nth c smooth []) 0))).
Proof.
  intros pf sv si snr size drop norm w n s out HV HI SH E. unfold rs_large in E. cbv zeta in E.
  set (facts := factors drop size (Z.of_nat n) s) in *. destruct (detect_stripe pf facts snr) as [e|mask] eqn:ED; [discriminate|]. injection E as <-.
  assert (LF : length facts = w) by (unfold facts; rewrite factors_length; apply SH).
  assert (LM : length mask = w).
  { unfold detect_stripe in ED. cbv zeta in ED. destruct (map _ (zrange _ _)); [discriminate|]. destruct (pf _). injection ED as <-. now rewrite map_length. }
  assert (Hw : (0 < w)%nat).
  { destruct w; [|lia]. exfalso. destruct facts; [|discriminate]. cbn in ED. discriminate. }
  assert (SS : sinogram w n (smooth_sorted size s)).
  { assert (A : sinogram w n (map (isort rltb) s)).
    { destruct SH as [L F]. split; [now rewrite map_length|]. rewrite Forall_map. eapply Forall_impl; [|exact F]. intros col Hc. cbn in Hc.
      rewrite <- Hc. apply Permutation_length, isort_perm. }
    now apply median_filter_keeps_shape. }
  exists facts, mask, (smooth_sorted size s). split; [auto|]. split; [auto|]. split; [auto|]. split; [auto|]. split; [reflexivity|].
  intros c Hc. set (col := nth c s []).
  assert (Ecol : nth_error s c = Some col) by (apply nth_error_nth'; destruct SH; lia).
  assert (Lcol : length col = n) by (destruct SH as [_ F]; rewrite Forall_forall in F; apply F; eapply nth_error_In; eauto).
  pose proof (normalised_nth norm facts s c ltac:(destruct SH; lia) ltac:(destruct SH; lia)) as EN. fold col in EN.
  set (ncol := normalised_column norm (nth c facts 0) col) in *.
  assert (Ln : length ncol = n) by (unfold ncol, normalised_column; now rewrite map_length).
  set (sm := nth c (smooth_sorted size s) []).
  assert (Esm : nth_error (smooth_sorted size s) c = Some sm) by (apply nth_error_nth'; destruct SS; lia).
  assert (Lsm : length sm = n) by (destruct SS as [_ F]; rewrite Forall_forall in F; apply F; eapply nth_error_In; eauto).
  destruct (rs_sort_column nltb sv si HI HV (fun _ => map (map Some) (smooth_sorted size s)) (normalised norm facts s) c ncol EN (map Some sm)) as (ocol & EO & LO & O).
  { now rewrite nth_error_map, Esm. }
  { rewrite map_length. congruence. }
  set (b := nth c (dilate mask) false).
  assert (Eb : nth_error (dilate mask) c = Some b) by (apply nth_error_nth'; rewrite dilate_length; lia).
  assert (R : nth_error (map (fun '(b, (col, cor)) => if (b : bool) then cor else col)
     (combine (dilate mask) (combine (normalised norm facts s) (rs_sort sv si (fun _ => map (map Some) (smooth_sorted size s)) (normalised norm facts s))))) c = Some (if b then ocol else ncol)).
  { rewrite nth_error_map, (nth_error_combine _ _ c b (ncol, ocol)); auto. now apply nth_error_combine. }
  assert (Fb : flag (dilate mask) (Z.of_nat c) = b) by (unfold flag, b; destruct (Z.ltb_spec (Z.of_nat c) 0); [lia|now rewrite Nat2Z.id]).
  rewrite detected_flag, Fb by lia. split.
  - intros Nb. rewrite R. now destruct b.
  - intros Tb. rewrite Tb in R. exists (map (fun e => Z.to_nat (fst e)) (sv (numbered ncol))). split; [|split].
    + rewrite <- (map_map fst Z.to_nat). rewrite (sorted_fst nltb sv HV ncol), Ln. unfold zrange. rewrite map_map.
      erewrite map_ext with (g := fun k => k) by (intros; lia). rewrite map_id. replace (Z.to_nat (Z.of_nat n - 0)) with n by lia. reflexivity.
    + rewrite map_map. replace (map (fun x => nth (Z.to_nat (fst x)) ncol None) (sv (numbered ncol))) with (map snd (sv (numbered ncol))); [apply HV|].
      apply map_ext_in. intros [z u] Hin. apply In_nth_error in Hin. destruct Hin as (i & Hi). destruct (sorted_entry nltb sv HV ncol i z u Hi) as [_ Eu]. cbn [fst snd].
      symmetry. now apply nth_error_nth.
    + intros i p Hi. rewrite nth_error_map in Hi. destruct (nth_error (sv (numbered ncol)) i) as [[z u]|] eqn:Ei; [|discriminate]. cbn in Hi. injection Hi as <-.
      exists ocol. split; [exact R|]. apply (O i z u); auto. rewrite nth_error_map.
      assert (Li : (i < n)%nat). { rewrite <- Ln, <- (sorted_length nltb sv HV ncol). apply nth_error_Some. congruence. }
      rewrite (nth_error_nth' sm 0) by lia. reflexivity.
Qed.
(** remove_stripe_based_interpolation and remove_dead_stripe: stripes except in the two columns at either end are replaced by
    the linear interpolation between the nearest columns that are kept. *)
Definition replaced (mask : list bool) (w : nat) (c : Z) : Prop := (2 <= c < Z.of_nat w - 2)%Z /\ detected mask c.
Definition between (l c r : Z) (x y : R) : R := (IZR (r - c) * x + IZR (c - l) * y) / IZR (r - l).
Lemma replaced_flag mask w c : length mask = w -> (0 <= c < Z.of_nat w)%Z -> replaced mask w c <-> flag (clear_ends (dilate mask)) c = true.
Proof.
  intros L H. rewrite flag_clear by (rewrite dilate_length; lia). rewrite dilate_length, !andb_true_iff, L. unfold replaced. rewrite detected_flag by lia.
  destruct (Z.leb_spec 2 c), (Z.ltb_spec c (Z.of_nat w - 2)); intuition (try lia; try discriminate).
Qed.
Lemma interpolate_cases {V} (mix : Z -> Z -> V -> V -> V) mask w n (s : list (list V)) c : length mask = w -> sinogram w n s -> (0 <= c < Z.of_nat w)%Z ->
  let out := interpolate mix (clear_ends (dilate mask)) s in
  (~ replaced mask w c -> nth_error out (Z.to_nat c) = nth_error s (Z.to_nat c)) /\
  (replaced mask w c -> exists l r, (0 <= l < c)%Z /\ (c < r < Z.of_nat w)%Z /\ ~ replaced mask w l /\ ~ replaced mask w r /\
     (forall k, (l < k < r)%Z -> replaced mask w k) /\
     forall p x y, at_ s (Z.to_nat l) p x -> at_ s (Z.to_nat r) p y -> at_ out (Z.to_nat c) p (mix (c - l)%Z (r - c)%Z x y)).
Proof.
  intros L S Hc out. pose proof S as [LS _]. assert (LO : length out = length s) by apply interpolate_length.
  split.
  - intros N. rewrite replaced_flag in N by auto. rewrite !(nth_error_nth' _ []) by lia. f_equal. apply interpolate_unmasked; [lia|].
    destruct (flag (clear_ends (dilate mask)) c); auto. now contradiction N.
  - intros R. rewrite replaced_flag in R by auto.
    destruct (interpolate_masked mix (dilate mask) s c ltac:(rewrite dilate_length; lia) ltac:(lia) R) as (l & r & Hl & Hr & Fl & Fr & Fk & E).
    exists l, r. split; auto. split; [lia|]. split; [rewrite replaced_flag by lia; congruence|]. split; [rewrite replaced_flag by lia; congruence|].
    split; [intros k Hk; apply replaced_flag; [auto|lia|now apply Fk]|].
    intros p x y (cl & El & Hx) (cr & Er & Hy). exists (nth (Z.to_nat c) out []). split; [apply nth_error_nth'; lia|].
    unfold out. rewrite E. rewrite (nth_error_nth _ _ [] El), (nth_error_nth _ _ [] Er), nth_error_map, (nth_error_combine cl cr p x y Hx Hy). reflexivity.
Qed.
Lemma detect_length polyfit facts snr mask : detect_stripe polyfit facts snr = Ok mask -> length mask = length facts.
Proof.
  intros ED. unfold detect_stripe in ED. cbv zeta in ED. destruct (map _ (zrange _ _)); [discriminate|]. destruct (polyfit _). injection ED as <-. now rewrite map_length.
Qed.
Theorem C67_interpolation : forall polyfit snr size drop_ratio norm w n s out, sinogram w n s ->
  rs_interpolation polyfit snr size drop_ratio norm (Z.of_nat n) s = Ok out ->
  exists facts mask, length facts = w /\ detect_stripe polyfit facts snr = Ok mask /\ forall c, (0 <= c < Z.of_nat w)%Z ->
    let column k := normalised_column norm (nth (Z.to_nat k) facts 0) (nth (Z.to_nat k) s []) in
    (~ replaced mask w c -> nth_error out (Z.to_nat c) = Some (column c)) /\
    (replaced mask w c -> exists l r, (0 <= l < c)%Z /\ (c < r < Z.of_nat w)%Z /\ ~ replaced mask w l /\ ~ replaced mask w r /\
      (forall k, (l < k < r)%Z -> replaced mask w k) /\
      forall p x y, nth_error (column l) p = Some (Some x) -> nth_error (column r) p = Some (Some y) -> at_ out (Z.to_nat c) p (Some (between l c r x y))).
Proof.
  intros pf snr size drop norm w n s out SH E. unfold rs_interpolation in E. cbv zeta in E.
  set (facts := factors drop size (Z.of_nat n) s) in *. destruct (detect_stripe pf facts snr) as [e|mask] eqn:ED; [discriminate|]. injection E as <-.
  assert (LF : length facts = w) by (unfold facts; rewrite factors_length; apply SH).
  pose proof (detect_length _ _ _ _ ED) as LM. rewrite LF in LM.
  exists facts, mask. split; [auto|]. split; [auto|]. intros c Hc column.
  assert (SN : sinogram w n (normalised norm facts s)).
  { destruct SH as [L F]. split; [unfold normalised; rewrite map_length, combine_length; lia|].
    unfold normalised. rewrite Forall_map, Forall_forall. intros [col f] Hin. rewrite map_length. rewrite Forall_forall in F. apply F. eapply in_combine_l; eauto. }
  assert (EN : forall k, (0 <= k < Z.of_nat w)%Z -> nth_error (normalised norm facts s) (Z.to_nat k) = Some (column k)).
  { intros k Hk. apply normalised_nth; destruct SH; lia. }
  destruct (interpolate_cases mix_n mask w n (normalised norm facts s) c LM SN Hc) as [A B]. split.
  - intros N. rewrite (A N). now apply EN.
  - intros R. destruct (B R) as (l & r & Hl & Hr & Nl & Nr & K & G). exists l, r. repeat (split; [assumption|]). intros p x y Hx Hy.
    specialize (G p (Some x) (Some y)). unfold mix_n, mix_r in G. unfold between. replace (r - l)%Z with (c - l + (r - c))%Z by lia.
    apply G; [exists (column l)|exists (column r)]; split; auto; apply EN; lia.
Qed.
Theorem C67_dead : forall polyfit sort_value sort_index uniform_filter snr size w n s out, sinogram w n s ->
  rs_dead polyfit sort_value sort_index uniform_filter snr size false (Z.of_nat n) s = Ok out ->
  exists facts mask new, length facts = w /\ detect_stripe polyfit facts snr = Ok mask /\ out = finite new /\ forall c, (0 <= c < Z.of_nat w)%Z ->
    (~ replaced mask w c -> nth_error new (Z.to_nat c) = nth_error s (Z.to_nat c)) /\
    (replaced mask w c -> exists l r, (0 <= l < c)%Z /\ (c < r < Z.of_nat w)%Z /\ ~ replaced mask w l /\ ~ replaced mask w r /\
      (forall k, (l < k < r)%Z -> replaced mask w k) /\
      forall p x y, at_ s (Z.to_nat l) p x -> at_ s (Z.to_nat r) p y -> at_ new (Z.to_nat c) p (between l c r x y)).
Proof.
  intros pf sv si uf snr size w n s out SH E. unfold rs_dead in E. cbv zeta in E.
  set (listdiff := map (fun col => rsum (map (fun '(x, y) => Rabs (x - y)) (combine col (uf col)))) s) in *.
  set (facts := map (fun '(a, b) => quotient a b) (combine listdiff (list_median_filter size listdiff))) in *.
  destruct (detect_stripe pf facts snr) as [e|mask] eqn:ED; [discriminate|]. injection E as <-.
  assert (LF : length facts = w).
  { unfold facts. rewrite map_length, combine_length. unfold list_median_filter. rewrite map_length, median_filter_shape, map_length. unfold listdiff. rewrite map_length. destruct SH. lia. }
  pose proof (detect_length _ _ _ _ ED) as LM. rewrite LF in LM.
  exists facts, mask, (interpolate mix_r (clear_ends (dilate mask)) s). split; [auto|]. split; [auto|]. split; [reflexivity|]. intros c Hc.
  destruct (interpolate_cases mix_r mask w n s c LM SH Hc) as [A B]. split; [exact A|].
  intros R. destruct (B R) as (l & r & Hl & Hr & Nl & Nr & K & G). exists l, r. repeat (split; [assumption|]). intros p x y Hx Hy.
  specialize (G p x y Hx Hy). unfold mix_r in G. unfold between. now replace (r - l)%Z with (c - l + (r - c))%Z by lia.
Qed.
(** With normalisation, and in remove_all_stripe, the methods are applied one after the other, each to the result of the one
    before and with its own size: dead columns (C67_dead), large stripes (C67_large), sorting (C34). *)
Theorem C67_sequence : forall polyfit sort_value sort_index uniform_filter snr la_size sm_size dim w n s out, sinogram w n s ->
  remove_all_stripe polyfit sort_value sort_index uniform_filter snr la_size sm_size dim (Z.of_nat n) s = Ok out ->
  exists new mid, rs_dead polyfit sort_value sort_index uniform_filter snr la_size false (Z.of_nat n) s = Ok (finite new) /\
    rs_large polyfit sort_value sort_index snr la_size (1 / 10) true (Z.of_nat n) new = Ok mid /\
    rs_dead polyfit sort_value sort_index uniform_filter snr la_size true (Z.of_nat n) s = Ok mid /\
    out = rs_sort sort_value sort_index (sort_filter nltb (Some 0) sm_size dim) mid.
Proof.
  intros pf sv si uf snr la sm dim w n s out SH E. unfold remove_all_stripe in E. destruct (rs_dead pf sv si uf snr la true (Z.of_nat n) s) as [e|mid] eqn:ED; [discriminate|]. injection E as <-.
  unfold rs_dead in ED |- *. cbv zeta in *. destruct (detect_stripe pf _ snr) as [e|mask]; [discriminate|]. cbv beta iota in *. eexists. exists mid.
  split; [reflexivity|]. split; [exact ED|]. split; [reflexivity|]. reflexivity.
Qed.
(** The replaced values lie between those they are taken from. *)
Theorem C67_between : forall l c r x y, (l < c < r)%Z -> Rmin x y <= between l c r x y <= Rmax x y.
Proof.
  intros l c r x y H. unfold between.
  assert (A : 0 < IZR (r - c)) by (apply IZR_lt; lia). assert (B : 0 < IZR (c - l)) by (apply IZR_lt; lia).
  assert (E : IZR (r - l) = IZR (r - c) + IZR (c - l)) by (rewrite <- plus_IZR; f_equal; lia). rewrite E.
  set (a := IZR (r - c)) in *. set (b := IZR (c - l)) in *. clearbody a b. clear E.
  split.
  - apply (Rmult_le_reg_r (a + b)); [lra|]. unfold Rdiv. rewrite Rmult_assoc, Rinv_l, Rmult_1_r by lra.
    pose proof (Rmin_l x y). pose proof (Rmin_r x y). nra.
  - apply (Rmult_le_reg_r (a + b)); [lra|]. unfold Rdiv. rewrite Rmult_assoc, Rinv_l, Rmult_1_r by lra.
    pose proof (Rmax_l x y). pose proof (Rmax_r x y). nra.
Qed.
(** Finding: a dead column next to the end is kept, and with normalisation it spoils its neighbour, too: both are 0/0. *)
Theorem C67_border_refuted : forall polyfit, exact_fit polyfit ->
  exists s out, sinogram 6 1 s /\ (forall c p v, at_ s c p v -> v = 1 \/ v = 0) /\
    rs_interpolation polyfit 3 3 (1 / 10) true 1 s = Ok out /\ at_ out 1 0 None /\ at_ out 2 0 None.
Proof.
  intros pf Hf. set (s := [[1]; [0]; [1]; [1]; [1]; [1]]).
  assert (T1 : rltb 0 1 = true) by (apply rltb_spec; lra). assert (T2 : rltb 1 0 = false) by (apply rltb_false; lra).
  assert (T3 : rltb 1 1 = false) by (apply rltb_false; lra). assert (T4 : rltb 0 0 = false) by (apply rltb_false; lra).
  assert (SM : smooth_sorted 3 s = [[1]; [1]; [1]; [1]; [1]; [1]]).
  { unfold s, smooth_sorted. cbv -[IZR rltb]. rewrite ?T1, ?T2, ?T3, ?T4. cbv -[IZR rltb]. repeat (rewrite ?T1, ?T2, ?T3, ?T4; cbv -[IZR rltb]). reflexivity. }
  assert (FA : factors (1 / 10) 3 1 s = [1; 0; 1; 1; 1; 1]).
  { unfold factors. cbv zeta. rewrite SM. rewrite Rmin_right, Rmax_right by lra.
    assert (I : Int_part (1 / 2 * (1 / 10) * 1) = 0%Z).
    { unfold Int_part. assert (U : 1%Z = up (1 / 2 * (1 / 10) * 1)) by (apply tech_up; lra). rewrite <- U. reflexivity. }
    rewrite I. unfold s. cbn [map isort fold_right combine insert]. unfold quotient, drop_mean. cbn -[IZR Rdiv rmean Req_EM_T]. unfold rmean, rsum. change (Pos.to_nat 1) with 1%nat. cbn [firstn fold_right length INR].
    destruct (Req_EM_T ((1 + 0) / 1) 0); [lra|]. assert (X : (1 + 0) / 1 / ((1 + 0) / 1) = 1) by field. assert (Y : (0 + 0) / 1 / ((1 + 0) / 1) = 0) by field. rewrite ?X, ?Y. reflexivity. }
  assert (LP : middle [1; 0; 1; 1; 1; 1] 1).
  { split; unfold count; cbn [filter length]; rewrite ?T1, ?T2, ?T3, ?T4; cbn; lia. }
  destruct (detect_ok pf [1; 0; 1; 1; 1; 1] 3 ltac:(cbn; lia)) as (m & Em & _).
  pose proof (detect_middle pf Hf [1; 0; 1; 1; 1; 1] 1 3 m ltac:(cbn; lia) ltac:(cbn; lia) LP Em) as D. cbv zeta in D.
  assert (Dm : m = [false; true; false; false; false; false]).
  { rewrite D. set (top := nth 0 (rev _) 0). assert (Et : top = 1).
    { unfold top. cbv -[IZR rltb]. repeat (rewrite ?T1, ?T2, ?T3, ?T4; cbv -[IZR rltb]). reflexivity. }
    set (bottom := nth 0 (isort rltb _) 0). assert (Eb : bottom = 0).
    { unfold bottom. cbv -[IZR rltb]. repeat (rewrite ?T1, ?T2, ?T3, ?T4; cbv -[IZR rltb]). reflexivity. }
    rewrite Et, Eb. replace (1 - 1) with 0 by lra. rewrite Rabs_R0, Rmult_0_l. rewrite Rabs_left by lra.
    assert (V1 : rltb 0 3 = true) by (apply rltb_spec; lra). assert (V2 : rltb (- (0 - 1) * 1000000) 3 = false) by (apply rltb_false; lra).
    assert (V3 : rltb (1 - 3 / 2000000) 1 = true) by (apply rltb_spec; lra). assert (V4 : rltb (1 - 3 / 2000000) 0 = false) by (apply rltb_false; lra).
    rewrite V1, V2. cbn [map negb andb orb]. rewrite V3, V4. reflexivity. }
  exists s. eexists. split; [split; repeat constructor|]. split.
  { intros c p v (col & Ec & Ev). apply nth_error_In in Ec. apply nth_error_In in Ev. unfold s in Ec. cbn in Ec.
    repeat (destruct Ec as [<-|Ec]; [cbn in Ev; destruct Ev as [<-|[]]; auto|]). destruct Ec. }
  split.
  { unfold rs_interpolation. cbv zeta. rewrite FA, Em. reflexivity. }
  rewrite Dm. assert (Z0 : ndiv (Some 0) (Some 0) = None) by (unfold ndiv; destruct (Req_EM_T 0 0); [reflexivity|lra]).
  split; (eexists; split; [cbv -[IZR ndiv mix_n]; reflexivity|cbn -[IZR ndiv mix_n]; rewrite ?Z0; reflexivity]).
Qed.
Example C67_ex : exact_fit (fun points => (0, snd (hd (0, 0) points))) /\ between 2 3 6 1 5 = 2 /\
  detected [false; false; true; false; false] 1 /\ replaced [false; false; true; false; false; false] 6 3 /\ ~ replaced [false; false; true; false; false; false] 6 1.
Proof.
  split; [intros a b y H; rewrite zrange_cons by lia; reflexivity|]. split; [unfold between; cbn -[IZR]; lra|].
  split; [exists 2%Z; repeat split; lia|]. split; [split; [lia|]; exists 2%Z; repeat split; lia|]. intros [H _]. lia.
Qed.

Print Assumptions C65_sorting.
Print Assumptions C65_smoothing.
Print Assumptions C65_large.
Print Assumptions C65_dead.
Print Assumptions C65_interpolation.
Print Assumptions C65_all.
Print Assumptions C65_filtering.
Print Assumptions C67_detect.
Print Assumptions C67_large.
Print Assumptions C67_interpolation.
Print Assumptions C67_dead.
Print Assumptions C67_border_refuted.
Print Assumptions C67_sequence.
Print Assumptions C67_thresholds.
Print Assumptions C67_between.
Print Assumptions C65_square_window_refuted.
