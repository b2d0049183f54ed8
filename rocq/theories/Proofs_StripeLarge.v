(** Lemmas on stripe detection and the methods built on it. *)
From Verif Require Import Base Order Model_Prep Model_Solver Model_Ospml Proofs_Prep Model_Stripe Proofs_Stripe Model_StripeLarge.
From Coq Require Import Reals Lra.
Local Open Scope R_scope.

(** The fit of points on a horizontal line. *)
Definition fits_constant (polyfit : list (R * R) -> R * R) : Prop :=
  forall a b (y : R), (a + 1 < b)%Z -> polyfit (map (fun i => (IZR i, y)) (zrange a b)) = (0, y).
Definition all_equal {A} (x : A) (l : list A) : Prop := forall y, In y l -> y = x.

Lemma nth_error_nth_eq {A} (l : list A) c d : (c < length l)%nat -> nth_error l c = Some (nth c l d).
Proof. apply nth_error_nth'. Qed.
Lemma all_equal_nth {A} (x : A) l c d : all_equal x l -> (c < length l)%nat -> nth c l d = x.
Proof. intros H L. apply H. now apply nth_In. Qed.
Lemma combine_same_map {A B C} (f : A -> B -> C) (g : A -> B) (l : list A) : map (fun '(a, b) => f a b) (combine l (map g l)) = map (fun a => f a (g a)) l.
Proof. induction l as [|a l IH]; cbn; congruence. Qed.

(** ** Median filter of equal columns *)
Lemma median_filter_equal {V} (lt : V -> V -> bool) (wo : weak_order (fun _ => True) lt) dflt size (m : list (list V)) col :
  (0 < size)%Z -> all_equal col m -> median_filter lt dflt size 1 m = m.
Proof.
  intros Hs E. apply list_nth_ext. intros c. destruct (nth_error m c) as [mc|] eqn:Ec.
  2:{ apply nth_error_None in Ec. apply nth_error_None. now rewrite median_filter_shape. }
  assert (Hc : (c < length m)%nat) by (apply nth_error_Some; congruence).
  assert (mc = col) by (apply E; eapply nth_error_In; eauto). subst mc.
  rewrite median_filter_nth by auto. f_equal.
  assert (E0 : nth 0 m [] = col) by (apply (all_equal_nth col); auto; lia). rewrite E0.
  transitivity (map (fun r => nth (Z.to_nat r) col dflt) (zrange 0 (Z.of_nat (length col)))).
  - apply map_ext_in. intros r Hr. apply in_zrange in Hr. apply (kth_same (fun _ => True) lt wo).
    + apply all_true.
    + apply Forall_forall. intros x Hx. unfold window in Hx. apply in_flat_map in Hx. destruct Hx as (dc & _ & Hx).
      apply in_map_iff in Hx. destruct Hx as (dr & <- & Hdr). unfold window_offsets in Hdr. apply in_zrange in Hdr.
      assert (dr = 0%Z) by (cbn in Hdr; lia). subst dr. rewrite Z.add_0_r, (reflect_inside _ r) by lia. unfold at2.
      pose proof (reflect_range (Z.of_nat (length m)) (Z.of_nat c + dc) ltac:(lia)). rewrite (all_equal_nth col) by (auto; lia). reflexivity.
    + rewrite window_length by lia. rewrite Z.mul_1_r. apply Z2Nat.inj_lt; lia.
  - apply list_nth_ext. intros i. rewrite nth_error_map. destruct (Nat.lt_ge_cases i (length col)) as [L|L].
    + rewrite nth_error_zrange by lia. cbn [option_map]. rewrite (nth_error_nth_eq col i dflt L). f_equal. f_equal. lia.
    + assert (N : nth_error (zrange 0 (Z.of_nat (length col))) i = None) by (apply nth_error_None; rewrite zrange_length; lia).
      rewrite N. symmetry. now apply nth_error_None.
Qed.

(** ** Detection *)
Section Detect.
  Variable polyfit : list (R * R) -> R * R.
  Hypothesis Hfit : fits_constant polyfit.
  Lemma isort_R l : Permutation (isort rltb l) l /\ ordered rltb (isort rltb l).
  Proof. destruct (isort_sorts _ _ R_weak_order l) as [P O]. split; auto. apply O. apply all_true. Qed.
  (** Values of a sorted list: all but the last k, and all but the first k, of a list with at most k exceptions. *)
  Lemma ordered_nth l i j d : ordered rltb l -> (i <= j)%nat -> (j < length l)%nat -> nth i l d <= nth j l d.
  Proof.
    intros O. revert i j. induction O as [|x l O IH F]; intros i j Hij Hj; [cbn in Hj; lia|].
    destruct j as [|j]; [assert (i = 0)%nat as -> by lia; lra|]. cbn in Hj. destruct i as [|i]; cbn.
    - rewrite Forall_forall in F. assert (I : In (nth j l d) l) by (apply nth_In; lia). apply F in I. apply rltb_false in I. exact I.
    - apply IH; lia.
  Qed.
  Lemma detect_ok data snr : (2 <= length data)%nat -> exists m, detect_stripe polyfit data snr = Ok m /\ length m = length data.
  Proof.
    intros H. unfold detect_stripe. cbv zeta. rewrite zrange_cons by lia. cbn [map].
    destruct (polyfit _) as [slope intercept]. eexists. split; [reflexivity|]. now rewrite map_length.
  Qed.
  Lemma rev_nth_end (l : list R) d : (0 < length l)%nat -> nth (length l - 1) (rev l) d = nth 0 l d.
  Proof. intros H. rewrite rev_nth by lia. f_equal. lia. Qed.

  (** A majority of equal values: [c] up to a quarter of larger and a quarter of smaller values. *)
  Definition middle (data : list R) (c : R) : Prop :=
    (4 * Z.of_nat (count (fun x => rltb c x) data) <= Z.of_nat (length data) /\ 4 * Z.of_nat (count (fun x => rltb x c) data) <= Z.of_nat (length data))%Z.
  Lemma count_perm {A} (f : A -> bool) l m : Permutation l m -> count f l = count f m.
  Proof. induction 1; cbn; auto; try congruence. lia. Qed.
  (** In increasing order, the places from the number of smaller values to the number of larger ones before the end hold c. *)
  Lemma ordered_above l c i d : ordered rltb l -> (count (fun x => rltb x c) l <= i)%nat -> (i < length l)%nat -> c <= nth i l d.
  Proof.
    intros O. revert i. induction O as [|x l O IH F]; intros i Hc Hi; [cbn in Hi; lia|]. cbn in Hc, Hi.
    destruct (rltb x c) eqn:E.
    - destruct i as [|i]; [lia|]. cbn. apply IH; lia.
    - apply rltb_false in E. destruct i as [|i]; [exact E|]. cbn. assert (I : In (nth i l d) l) by (apply nth_In; lia).
      rewrite Forall_forall in F. apply F, rltb_false in I. lra.
  Qed.
  Lemma ordered_below l c i d : ordered rltb l -> (i + count (fun x => rltb c x) l < length l)%nat -> nth i l d <= c.
  Proof.
    intros O. revert i. induction O as [|x l O IH F]; intros i Hi; [cbn in Hi; lia|]. cbn in Hi.
    destruct (rltb c x) eqn:E.
    - exfalso. apply rltb_spec in E. assert (G : count (fun y => rltb c y) l = length l).
      { clear - E F. induction F as [|y l Hy F IH]; cbn; auto. apply rltb_false in Hy.
        assert (Y : rltb c y = true) by (apply rltb_spec; lra). rewrite Y. now rewrite IH. }
      lia.
    - apply rltb_false in E. destruct i as [|i]; [exact E|]. cbn. apply IH. lia.
  Qed.
  Lemma detect_middle data c snr m : (3 <= length data)%nat -> length data <> 4%nat -> middle data c -> 
    detect_stripe polyfit data snr = Ok m ->
    let top := nth 0 (rev (isort rltb data)) 0 in let bottom := nth 0 (isort rltb data) 0 in
    m = map (fun x => (negb (rltb (Rabs (top - c) * 1000000) snr) && rltb (c + snr / 2000000) x) ||
                      (negb (rltb (Rabs (bottom - c) * 1000000) snr) && negb (rltb (c - snr / 2000000) x))) data.
  Proof.
    intros H3 H4 [Ma Mb] E top bottom. unfold detect_stripe in E. cbv zeta in E.
    destruct (isort_R data) as [P O]. pose proof (Permutation_length P) as L.
    set (N := Z.of_nat (length data)) in *.
    assert (Ep : map (fun i => (IZR i, nth (Z.to_nat i) (rev (isort rltb data)) 0)) (zrange (N / 4) (N - N / 4 - 1)) = map (fun i => (IZR i, c)) (zrange (N / 4) (N - N / 4 - 1))).
    { apply map_ext_in. intros i Hi. apply in_zrange in Hi. f_equal. rewrite rev_nth by lia. apply Rle_antisym.
      - apply ordered_below; auto. rewrite (count_perm _ _ _ P). lia.
      - apply ordered_above; auto; rewrite ?(count_perm _ _ _ P); lia. }
    rewrite Ep in E. rewrite Hfit in E by lia. rewrite zrange_cons in E by lia. cbn [map] in E.
    injection E as <-. apply map_ext. intros x.
    rewrite !Rmult_0_l, !Rplus_0_r. replace (c - c) with 0 by lra. rewrite Rabs_R0, Rmax_right by lra.
    replace (Z.to_nat (N - 1)) with (length (isort rltb data) - 1)%nat by lia. rewrite rev_nth_end by lia.
    unfold top, bottom.
    replace (Rabs (nth 0 (rev (isort rltb data)) 0 - c) / (1 / 1000000)) with (Rabs (nth 0 (rev (isort rltb data)) 0 - c) * 1000000) by field.
    replace (Rabs (nth 0 (isort rltb data) 0 - c) / (1 / 1000000)) with (Rabs (nth 0 (isort rltb data) 0 - c) * 1000000) by field.
    replace (c + 1 / 1000000 * snr * (1 / 2)) with (c + snr / 2000000) by field.
    replace (c - 1 / 1000000 * snr * (1 / 2)) with (c - snr / 2000000) by field. reflexivity.
  Qed.
  Lemma top_max data x : In x data -> x <= nth 0 (rev (isort rltb data)) 0.
  Proof.
    intros H. destruct (isort_R data) as [P O]. assert (I : In x (isort rltb data)) by (eapply Permutation_in; [symmetry; exact P|auto]).
    apply In_nth with (d := 0) in I. destruct I as (k & Hk & <-). rewrite rev_nth by lia. apply ordered_nth; auto; lia.
  Qed.
  Lemma bottom_min data x : In x data -> nth 0 (isort rltb data) 0 <= x.
  Proof.
    intros H. destruct (isort_R data) as [P O]. assert (I : In x (isort rltb data)) by (eapply Permutation_in; [symmetry; exact P|auto]).
    apply In_nth with (d := 0) in I. destruct I as (k & Hk & <-). apply ordered_nth; auto; lia.
  Qed.
  Lemma count_false {A} (f : A -> bool) l : (forall x, In x l -> f x = false) -> count f l = 0%nat.
  Proof. induction l as [|x l IH]; cbn; intros H; auto. rewrite H by auto. apply IH. auto. Qed.
  Lemma detect_equal data c snr : (3 <= length data)%nat -> length data <> 4%nat -> 0 < snr -> all_equal c data ->
    detect_stripe polyfit data snr = Ok (map (fun _ => false) data).
  Proof.
    intros H3 H4 Hs E. destruct (detect_ok data snr ltac:(lia)) as (m & Em & _). rewrite Em. f_equal.
    assert (M : middle data c).
    { split; rewrite count_false; try lia; intros x Hx; rewrite (E x Hx); apply rltb_false; lra. }
    rewrite (detect_middle data c snr m H3 H4 M Em). apply map_ext_in. intros x Hx.
    destruct (isort_R data) as [P O]. pose proof (Permutation_length P).
    assert (T : nth 0 (rev (isort rltb data)) 0 = c).
    { apply E. eapply Permutation_in; [exact P|]. apply in_rev. apply nth_In. rewrite rev_length. lia. }
    assert (B : nth 0 (isort rltb data) 0 = c). { apply E. eapply Permutation_in; [exact P|]. apply nth_In. lia. }
    rewrite T, B. replace (c - c) with 0 by lra. rewrite Rabs_R0, Rmult_0_l.
    assert (R0 : rltb 0 snr = true) by now apply rltb_spec. rewrite R0. reflexivity.
  Qed.
End Detect.

(** ** Masks *)
Definition flag (mask : list bool) (c : Z) : bool := if (c <? 0)%Z then false else nth (Z.to_nat c) mask false.
Lemma dilate_length mask : length (dilate mask) = length mask.
Proof. unfold dilate. rewrite map_length, zrange_length. lia. Qed.
Lemma clear_ends_length mask : length (clear_ends mask) = length mask.
Proof. unfold clear_ends. rewrite map_length, zrange_length. lia. Qed.
Lemma nth_map_zrange {A} (f : Z -> A) n k d : (k < Z.to_nat n)%nat -> nth k (map f (zrange 0 n)) d = f (Z.of_nat k).
Proof.
  intros H. assert (E : nth_error (map f (zrange 0 n)) k = Some (f (Z.of_nat k))).
  { rewrite nth_error_map, nth_error_zrange by lia. reflexivity. }
  now apply nth_error_nth.
Qed.
Lemma flag_dilate mask c : (0 <= c < Z.of_nat (length mask))%Z -> flag (dilate mask) c = flag mask (c - 1) || flag mask c || flag mask (c + 1).
Proof.
  intros H. unfold flag at 1. destruct (Z.ltb_spec c 0); [lia|]. unfold dilate. rewrite nth_map_zrange by lia. rewrite Z2Nat.id by lia. reflexivity.
Qed.
Lemma flag_clear mask c : (0 <= c < Z.of_nat (length mask))%Z -> flag (clear_ends mask) c = (2 <=? c)%Z && (c <? Z.of_nat (length mask) - 2)%Z && flag mask c.
Proof.
  intros H. unfold flag. destruct (Z.ltb_spec c 0); [lia|]. unfold clear_ends. rewrite nth_map_zrange by lia. rewrite Z2Nat.id by lia.
  destruct (Z.ltb_spec c 2), (Z.leb_spec (Z.of_nat (length mask) - 2) c), (Z.leb_spec 2 c), (Z.ltb_spec c (Z.of_nat (length mask) - 2)); cbn; auto; lia.
Qed.
Lemma nth_false {A} (l : list A) k : nth k (map (fun _ => false) l) false = false.
Proof. revert k. induction l as [|a l IH]; intros [|k]; cbn; auto. Qed.
Lemma dilate_false {A} (l : list A) : dilate (map (fun _ => false) l) = map (fun _ => false) l.
Proof.
  apply nth_ext with false false; [now rewrite dilate_length|]. rewrite dilate_length, map_length. intros k Hk. rewrite nth_false.
  unfold dilate. rewrite nth_map_zrange by (rewrite map_length; lia). rewrite !nth_false. now destruct (_ <? 0)%Z, (_ <? 0)%Z, (_ <? 0)%Z.
Qed.
Lemma clear_false {A} (l : list A) : clear_ends (map (fun _ => false) l) = map (fun _ => false) l.
Proof.
  apply nth_ext with false false; [now rewrite clear_ends_length|]. rewrite clear_ends_length, map_length. intros k Hk. rewrite nth_false.
  unfold clear_ends. rewrite nth_map_zrange by (rewrite map_length; lia). rewrite nth_false. now destruct (_ || _).
Qed.

(** ** Interpolation *)
Section Interpolate.
  Context {V : Type} (mix : Z -> Z -> V -> V -> V).
  Lemma interpolate_false {A} (l : list A) (sino : list (list V)) : interpolate mix (map (fun _ => false) l) sino = sino.
  Proof.
    apply nth_ext with [] []; [unfold interpolate; rewrite map_length, zrange_length; lia|].
    unfold interpolate at 1. rewrite map_length, zrange_length. intros k Hk. unfold interpolate. rewrite nth_map_zrange by lia.
    rewrite nth_false. f_equal. lia.
  Qed.
  Lemma interpolate_length mask (sino : list (list V)) : length (interpolate mix mask sino) = length sino.
  Proof. unfold interpolate. rewrite map_length, zrange_length. lia. Qed.
  Lemma interpolate_unmasked mask (sino : list (list V)) c : (0 <= c < Z.of_nat (length sino))%Z -> flag mask c = false ->
    nth (Z.to_nat c) (interpolate mix mask sino) [] = nth (Z.to_nat c) sino [].
  Proof.
    intros H F. unfold interpolate. rewrite nth_map_zrange by lia. unfold flag in F. destruct (Z.ltb_spec c 0); [lia|].
    rewrite Z2Nat.id by lia. now rewrite F.
  Qed.
  Lemma filter_last (P : Z -> bool) a b x : hd_error (rev (filter P (zrange a b))) = Some x -> (a <= x < b)%Z /\ P x = true /\ forall y, (x < y < b)%Z -> P y = false.
  Proof.
    destruct (Z_le_gt_dec b a) as [H|H]; [now rewrite zrange_nil by lia|].
    remember (Z.to_nat (b - a)) as k eqn:K. revert b H K. induction k as [|k IH]; intros b H K E; [lia|].
    replace b with ((b - 1) + 1)%Z in E by lia. destruct (Z.eq_dec (b - 1) a) as [Eb|Nb].
    - rewrite Eb in E. rewrite zrange_cons, zrange_nil in E by lia. cbn in E. destruct (P a) eqn:Pa; [|discriminate]. cbn in E. injection E as <-.
      repeat split; auto; try lia; intros y Hy; lia.
    - assert (Z1 : zrange a (b - 1 + 1) = zrange a (b - 1) ++ [b - 1]%Z).
      { rewrite <- (@zrange_app a (b - 1) (b - 1 + 1)) by lia. f_equal. rewrite zrange_cons, zrange_nil by lia. reflexivity. }
      rewrite Z1, filter_app, rev_app_distr in E. cbn in E. destruct (P (b - 1)%Z) eqn:Pb.
      + cbn in E. injection E as <-. repeat split; auto; try lia; intros y Hy; lia.
      + cbn in E. destruct (IH (b - 1)%Z ltac:(lia) ltac:(lia) E) as (H1 & H2 & H3). repeat split; auto; try lia.
        intros y Hy. destruct (Z.eq_dec y (b - 1)) as [->|]; auto. apply H3. lia.
  Qed.
  Lemma filter_first (P : Z -> bool) a b x : hd_error (filter P (zrange a b)) = Some x -> (a <= x < b)%Z /\ P x = true /\ forall y, (a <= y < x)%Z -> P y = false.
  Proof.
    destruct (Z_le_gt_dec b a) as [H|H]; [now rewrite zrange_nil by lia|].
    remember (Z.to_nat (b - a)) as k eqn:K. revert a H K. induction k as [|k IH]; intros a H K E; [lia|].
    rewrite zrange_cons in E by lia. cbn in E. destruct (P a) eqn:Pa.
    - cbn in E. injection E as <-. repeat split; auto; try lia; intros y Hy; lia.
    - destruct (Z_le_gt_dec b (a + 1)) as [Hb|Hb]; [rewrite zrange_nil in E by lia; discriminate|].
      destruct (IH (a + 1)%Z ltac:(lia) ltac:(lia) E) as (H1 & H2 & H3). repeat split; auto; try lia.
      intros y Hy. destruct (Z.eq_dec y a) as [->|]; auto. apply H3. lia.
  Qed.
  Lemma hd_error_in {A} (l : list A) x : In x l -> exists y, hd_error l = Some y.
  Proof. destruct l; cbn; [easy|eauto]. Qed.
  Lemma interpolate_masked mask (sino : list (list V)) c : length mask = length sino -> (0 <= c < Z.of_nat (length sino))%Z -> flag (clear_ends mask) c = true ->
    exists l r, (0 <= l < c)%Z /\ (c < r < Z.of_nat (length sino))%Z /\ flag (clear_ends mask) l = false /\ flag (clear_ends mask) r = false /\
      (forall k, (l < k < r)%Z -> flag (clear_ends mask) k = true) /\
      nth (Z.to_nat c) (interpolate mix (clear_ends mask) sino) [] =
        map (fun '(x, y) => mix (c - l)%Z (r - c)%Z x y) (combine (nth (Z.to_nat l) sino []) (nth (Z.to_nat r) sino [])).
  Proof.
    intros L Hc F. set (m := clear_ends mask) in *. assert (Lm : length m = length sino) by (unfold m; now rewrite clear_ends_length).
    assert (Fk : forall k, (0 <= k)%Z -> flag m k = nth (Z.to_nat k) m false) by (intros k Hk; unfold flag; destruct (Z.ltb_spec k 0); [lia|auto]).
    pose proof F as F0. unfold m in F0. rewrite flag_clear in F0 by lia. apply andb_prop in F0. destruct F0 as [F0 _].
    assert (F1 : flag m 0 = false) by (unfold m; rewrite flag_clear by lia; reflexivity).
    assert (F2 : flag m (Z.of_nat (length sino) - 1) = false).
    { unfold m. rewrite flag_clear by lia. destruct (Z.ltb_spec (Z.of_nat (length sino) - 1) (Z.of_nat (length mask) - 2)); [lia|]. now rewrite andb_false_r. }
    destruct (hd_error_in (rev (filter (fun k => negb (nth (Z.to_nat k) m false)) (zrange 0 c))) 0%Z) as (l & El).
    { apply -> in_rev. apply filter_In. split; [apply in_zrange; lia|]. now rewrite <- Fk, F1 by lia. }
    destruct (hd_error_in (filter (fun k => negb (nth (Z.to_nat k) m false)) (zrange (c + 1) (Z.of_nat (length m)))) (Z.of_nat (length sino) - 1)%Z) as (r & Er).
    { apply filter_In. split; [apply in_zrange; lia|]. now rewrite <- Fk, F2 by lia. }
    pose proof (filter_last _ _ _ _ El) as (Hl1 & Hl2 & Hl3). pose proof (filter_first _ _ _ _ Er) as (Hr1 & Hr2 & Hr3).
    exists l, r. split; [lia|]. split; [lia|]. rewrite !Fk by lia. split; [now destruct (nth (Z.to_nat l) m false)|]. split; [now destruct (nth (Z.to_nat r) m false)|].
    split.
    - intros k Hk. destruct (Z.lt_trichotomy k c) as [H|[->|H]]; auto.
      + specialize (Hl3 k ltac:(lia)). rewrite Fk by lia. now destruct (nth (Z.to_nat k) m false).
      + specialize (Hr3 k ltac:(lia)). rewrite Fk by lia. now destruct (nth (Z.to_nat k) m false).
    - unfold interpolate. rewrite nth_map_zrange by lia. rewrite Z2Nat.id by lia. rewrite <- Fk, F by lia.
      unfold known_left, known_right. rewrite El, Er. reflexivity.
  Qed.
End Interpolate.
