(** Lemmas on sorting, undoing a sort, and medians of windows. *)
From Verif Require Import Base Order Model_Stripe.
From Coq Require Import Sorted.
Local Open Scope Z_scope.

Section Lists.
  Lemma list_nth_ext {A} (l m : list A) : (forall i, nth_error l i = nth_error m i) -> l = m.
  Proof.
    revert m. induction l as [|x l IH]; intros [|y m] H; auto; try (specialize (H O); discriminate).
    f_equal; [specialize (H O); cbn in H; congruence|]. apply IH. intros i. apply (H (S i)).
  Qed.
  Lemma map_fst_combine {A B} (l : list A) (m : list B) : length l = length m -> map fst (combine l m) = l.
  Proof. revert m. induction l; intros [|b m]; cbn; intros H; try discriminate; auto. f_equal. auto. Qed.
  Lemma map_snd_combine {A B} (l : list A) (m : list B) : length l = length m -> map snd (combine l m) = m.
  Proof. revert m. induction l; intros [|b m]; cbn; intros H; try discriminate; auto. f_equal. auto. Qed.
  Lemma combine_split' {A B} (l : list (A * B)) : combine (map fst l) (map snd l) = l.
  Proof. induction l as [|[]]; cbn; f_equal; auto. Qed.
  Lemma nth_error_combine {A B} (l : list A) (m : list B) i a b :
    nth_error l i = Some a -> nth_error m i = Some b -> nth_error (combine l m) i = Some (a, b).
  Proof. revert m i. induction l; intros [|y m] [|i]; cbn; intros; try discriminate; [congruence|auto]. Qed.
  Lemma nth_error_combine_inv {A B} (l : list A) (m : list B) i a b :
    nth_error (combine l m) i = Some (a, b) -> nth_error l i = Some a /\ nth_error m i = Some b.
  Proof. revert m i. induction l; intros [|y m] [|i]; cbn; intros; try discriminate; [injection H as -> ->; auto|auto]. Qed.
  (** Integers in increasing order that are a permutation of zrange 0 n are zrange 0 n. *)
  Lemma sorted_zrange l : ordered Z.ltb l -> NoDup l -> StronglySorted Z.lt l.
  Proof.
    induction l as [|x l IH]; intros S N; constructor; inversion S; inversion N; subst; auto.
    rewrite Forall_forall in *. intros y Hy. assert (x <> y) by (intros ->; auto). specialize (H2 y Hy). lia.
  Qed.
  Lemma strongly_sorted_unique l m : StronglySorted Z.lt l -> StronglySorted Z.lt m -> Permutation l m -> l = m.
  Proof.
    revert m. induction l as [|x l IH]; intros m Sl Sm P.
    - apply Permutation_nil in P. now subst.
    - destruct m as [|y m]; [now apply Permutation_sym, Permutation_nil in P|].
      inversion Sl as [|? ? Sl' Fl]; inversion Sm as [|? ? Sm' Fm]; subst. rewrite Forall_forall in Fl, Fm.
      assert (x = y).
      { assert (Ix : In x (y :: m)) by (eapply Permutation_in; [exact P|now left]).
        assert (Iy : In y (x :: l)) by (eapply Permutation_in; [symmetry; exact P|now left]).
        destruct Ix as [->|Ix]; auto. destruct Iy as [->|Iy]; auto. specialize (Fl y Iy). specialize (Fm x Ix). lia. }
      subst y. f_equal. apply IH; auto. now apply Permutation_cons_inv in P.
  Qed.
  Lemma zrange_sorted a b : StronglySorted Z.lt (zrange a b).
  Proof.
    destruct (Z_le_gt_dec b a) as [H|H]; [rewrite zrange_nil by lia; constructor|].
    remember (Z.to_nat (b - a)) as k eqn:K. revert a H K. induction k as [|k IH]; intros a H K; [lia|].
    rewrite zrange_cons by lia. constructor.
    - destruct (Z.eq_dec (a + 1) b); [subst; rewrite zrange_nil by lia; constructor|apply IH; lia].
    - rewrite Forall_forall. intros x. rewrite in_zrange. lia.
  Qed.
End Lists.

Section Undo.
  Context {V : Type} (lt : V -> V -> bool) (sort_value sort_index : list (Z * V) -> list (Z * V)).
  Hypothesis HI : sorts_by Z.ltb fst sort_index.

  Lemma numbered_fst (col : list V) : map fst (numbered col) = zrange 0 (Z.of_nat (length col)).
  Proof. unfold numbered. apply map_fst_combine. rewrite zrange_length. lia. Qed.
  Lemma numbered_snd (col : list V) : map snd (numbered col) = col.
  Proof. unfold numbered. apply map_snd_combine. rewrite zrange_length. lia. Qed.
  Lemma numbered_length (col : list V) : length (numbered col) = length col.
  Proof. rewrite <- (map_length fst), numbered_fst, zrange_length. lia. Qed.

  (** Sorting by index any row whose indices are a permutation of 0 .. n-1. *)
  Lemma sort_index_fst row n : Permutation (map fst row) (zrange 0 n) -> map fst (sort_index row) = zrange 0 n.
  Proof.
    intros P. destruct (HI row) as [P1 O]. apply strongly_sorted_unique.
    - apply sorted_zrange; auto. eapply Permutation_NoDup; [|apply (NoDup_zrange 0 n)].
      rewrite <- P. symmetry. now apply Permutation_map.
    - apply zrange_sorted.
    - rewrite <- P. now apply Permutation_map.
  Qed.
  Lemma sort_index_nth row n i p v : Permutation (map fst row) (zrange 0 n) ->
    nth_error row i = Some (p, v) -> nth_error (map snd (sort_index row)) (Z.to_nat p) = Some v.
  Proof.
    intros P E. pose proof (sort_index_fst row n P) as F.
    assert (I : In (p, v) (sort_index row)).
    { eapply Permutation_in; [symmetry; apply HI|]. eapply nth_error_In; eauto. }
    apply In_nth_error in I. destruct I as (k & K).
    pose proof (map_nth_error fst k _ K) as K1. rewrite F in K1. cbn in K1.
    assert (L : (k < length (zrange 0 n))%nat) by (apply nth_error_Some; congruence). rewrite zrange_length in L.
    rewrite nth_error_zrange in K1 by lia. assert (p = Z.of_nat k) by (injection K1; lia). subst p.
    rewrite Nat2Z.id. now apply (map_nth_error snd k) in K.
  Qed.

  Hypothesis HV : sorts_by lt snd sort_value.
  Lemma sorted_fst col : Permutation (map fst (sort_value (numbered col))) (zrange 0 (Z.of_nat (length col))).
  Proof. rewrite <- numbered_fst. apply Permutation_map. apply HV. Qed.
  Lemma sorted_length col : length (sort_value (numbered col)) = length col.
  Proof. rewrite <- (numbered_length col). apply Permutation_length. apply HV. Qed.
  (** Entry i of the sorted row carries the projection it comes from. *)
  Lemma sorted_entry col i p v : nth_error (sort_value (numbered col)) i = Some (p, v) ->
    0 <= p < Z.of_nat (length col) /\ nth_error col (Z.to_nat p) = Some v.
  Proof.
    intros E. assert (I : In (p, v) (numbered col)).
    { eapply Permutation_in; [apply HV|]. eapply nth_error_In; eauto. }
    apply In_nth_error in I. destruct I as (k & K). unfold numbered in K. apply nth_error_combine_inv in K. destruct K as [K1 K2].
    assert (L : (k < length col)%nat) by (apply nth_error_Some; congruence).
    rewrite nth_error_zrange in K1 by lia. assert (p = Z.of_nat k) by (injection K1; lia). subst p. rewrite Nat2Z.id. split; [lia|auto].
  Qed.

  Lemma rs_sort_column F sino c col :
    nth_error sino c = Some col ->
    forall fcol, nth_error (F (map (map snd) (map (fun col => sort_value (numbered col)) sino))) c = Some fcol ->
    length fcol = length col ->
    exists ocol, nth_error (rs_sort sort_value sort_index F sino) c = Some ocol /\ length ocol = length col /\
    forall i p v fv, nth_error (sort_value (numbered col)) i = Some (p, v) -> nth_error fcol i = Some fv ->
      nth_error ocol (Z.to_nat p) = Some fv.
  Proof.
    intros Hc fcol Hf L. unfold rs_sort. cbv zeta.
    set (ms := map (fun col => sort_value (numbered col)) sino) in *.
    assert (M : nth_error ms c = Some (sort_value (numbered col))) by (unfold ms; now apply (map_nth_error (fun col => sort_value (numbered col)))).
    set (row := set_values (sort_value (numbered col)) fcol).
    exists (map snd (sort_index row)). split.
    { apply (map_nth_error (fun r => map snd (sort_index r))).
      apply (map_nth_error (fun '(row, vals) => set_values row vals) c (combine ms (F (map (map snd) ms))) (d := (sort_value (numbered col), fcol))).
      now apply nth_error_combine. }
    assert (Fst : map fst row = map fst (sort_value (numbered col))).
    { unfold row, set_values. apply map_fst_combine. rewrite map_length, sorted_length. auto. }
    assert (P : Permutation (map fst row) (zrange 0 (Z.of_nat (length col)))) by (rewrite Fst; apply sorted_fst).
    split.
    { rewrite map_length. rewrite <- (map_length fst), (sort_index_fst row _ P), zrange_length. lia. }
    intros i p v fv Hi Hfi. apply sort_index_nth with (n := Z.of_nat (length col)) (i := i); auto.
    unfold row, set_values. apply nth_error_combine; auto. now apply (map_nth_error fst) in Hi.
  Qed.
  Lemma rs_sort_length F sino : length (F (map (map snd) (map (fun col => sort_value (numbered col)) sino))) = length sino ->
    length (rs_sort sort_value sort_index F sino) = length sino.
  Proof. intros H. unfold rs_sort. cbv zeta. rewrite !map_length, combine_length, H, map_length. lia. Qed.

  (** Every projection has a place in the sorted column. *)
  Lemma sorted_place col p v : nth_error col p = Some v -> exists i, nth_error (sort_value (numbered col)) i = Some (Z.of_nat p, v).
  Proof.
    intros E. apply In_nth_error. eapply Permutation_in; [symmetry; apply HV|].
    apply nth_error_In with p. unfold numbered. apply nth_error_combine; auto.
    assert ((p < length col)%nat) by (apply nth_error_Some; congruence). rewrite nth_error_zrange by lia. f_equal.
  Qed.
End Undo.

Section Kth.
  Context {V : Type} (D : V -> Prop) (lt : V -> V -> bool) (wo : weak_order D lt).
  Definition below (x y : V) : Prop := lt y x = false.
  Lemma count_dominated l1 l2 v1 v2 : Forall D l1 -> Forall D l2 -> D v1 -> D v2 -> Forall2 below l1 l2 -> lt v2 v1 = true ->
    (count (fun x => negb (lt v2 x)) l2 <= count (fun x => lt x v1) l1)%nat.
  Proof.
    intros D1 D2 Dv1 Dv2 F Hv. induction F as [|x y l1 l2 B F IH]; cbn; auto.
    inversion D1; inversion D2; subst. specialize (IH H2 H6).
    destruct (lt v2 y) eqn:E; cbn; [destruct (lt x v1); lia|].
    assert (G : lt x v1 = true).
    { destruct (lt x v1) eqn:G; auto. exfalso.
      (* v2 >= y >= x >= v1 contradicts v2 < v1 *)
      assert (N : lt v2 v1 = false) by (apply (wo_neg_trans wo v2 y v1); auto; apply (wo_neg_trans wo y x v1); auto). congruence. }
    rewrite G. lia.
  Qed.
  Lemma kth_dominated w1 w2 l1 l2 k v1 v2 : Forall D w1 -> Forall D w2 -> Permutation w1 l1 -> Permutation w2 l2 -> Forall2 below l1 l2 ->
    kth lt w1 k v1 -> kth lt w2 k v2 -> below v1 v2.
  Proof.
    intros D1 D2 P1 P2 F (I1 & A1 & _) (I2 & _ & B2). unfold below. destruct (lt v2 v1) eqn:E; auto. exfalso.
    rewrite Forall_forall in D1, D2.
    assert (C : (count (fun x => negb (lt v2 x)) l2 <= count (fun x => lt x v1) l1)%nat).
    { apply count_dominated; auto; try (apply Forall_forall; intros x Hx).
      - apply D1. eapply Permutation_in; [symmetry; exact P1|auto].
      - apply D2. eapply Permutation_in; [symmetry; exact P2|auto]. }
    rewrite <- (count_perm _ _ _ P1), <- (count_perm _ _ _ P2) in C. lia.
  Qed.
  Lemma isort_kth w k d : Forall D w -> (k < length w)%nat -> kth lt w k (nth k (isort lt w) d).
  Proof.
    intros Dw L. destruct (isort_sorts D lt wo w) as [P O]. apply (sorted_kth D lt wo w (isort lt w)); auto.
    apply nth_error_nth'. rewrite (Permutation_length P). auto.
  Qed.
  Lemma kth_same w k v d : Forall D w -> Forall (fun x => x = v) w -> (k < length w)%nat -> nth k (isort lt w) d = v.
  Proof.
    intros Dw E L. destruct (isort_kth w k d Dw L) as (I & _). rewrite Forall_forall in E. now apply E.
  Qed.
End Kth.

Section Median.
  Context {V : Type} (lt : V -> V -> bool) (wo : weak_order (fun _ => True) lt) (dflt : V).
  Lemma all_true {A} (l : list A) : Forall (fun _ => True) l.
  Proof. apply Forall_forall; auto. Qed.

  Lemma reflect_range n x : 0 < n -> 0 <= reflect n x < n.
  Proof. intros H. unfold reflect. cbv zeta. pose proof (Z.mod_pos_bound x (2 * n) ltac:(lia)). destruct (Z.ltb_spec (x mod (2 * n)) n); lia. Qed.
  Lemma reflect_inside n x : 0 <= x < n -> reflect n x = x.
  Proof. intros H. unfold reflect. cbv zeta. rewrite Z.mod_small by lia. destruct (Z.ltb_spec x n); lia. Qed.
  Lemma offsets_length s : 0 <= s -> length (window_offsets s) = Z.to_nat s.
  Proof. intros H. unfold window_offsets. rewrite zrange_length. f_equal. lia. Qed.
  Lemma flat_map_const_length {A B} (f : A -> list B) k l : (forall x, In x l -> length (f x) = k) -> length (flat_map f l) = (length l * k)%nat.
  Proof. induction l; cbn; intros H; auto. rewrite app_length, H by auto. rewrite IHl; auto. Qed.
  Lemma window_length m w n sc sr c r : 0 <= sc -> 0 <= sr -> length (window dflt m w n sc sr c r) = Z.to_nat (sc * sr).
  Proof.
    intros Hc Hr. unfold window. rewrite (flat_map_const_length _ (Z.to_nat sr)).
    - rewrite offsets_length by auto. lia.
    - intros x _. now rewrite map_length, offsets_length.
  Qed.
  Lemma median_filter_shape sc sr (m : list (list V)) : length (median_filter lt dflt sc sr m) = length m.
  Proof. unfold median_filter. cbv zeta. rewrite map_length, zrange_length. lia. Qed.
  Lemma median_filter_nth sc sr (m : list (list V)) c : (c < length m)%nat ->
    nth_error (median_filter lt dflt sc sr m) c =
      Some (map (fun r => nth (Z.to_nat (sc * sr / 2)) (isort lt (window dflt m (Z.of_nat (length m)) (Z.of_nat (length (nth 0 m []))) sc sr (Z.of_nat c) r)) dflt)
              (zrange 0 (Z.of_nat (length (nth 0 m []))))).
  Proof.
    intros H. unfold median_filter. cbv zeta. rewrite nth_error_map, nth_error_zrange by lia. cbn [option_map]. do 2 f_equal.
  Qed.

  (** Columns of a matrix in increasing order of projections. *)
  Definition rows_sorted (m : list (list V)) (n : Z) : Prop :=
    forall c r r', 0 <= c < Z.of_nat (length m) -> 0 <= r <= r' -> r' < n -> below lt (at2 dflt m c r) (at2 dflt m c r').
  Lemma below_refl x : below lt x x.
  Proof. apply (wo_irrefl wo); exact I. Qed.

  Lemma Forall2_flat_map {A} (P : V -> V -> Prop) (f g : A -> list V) l :
    (forall x, In x l -> exists f' g', Permutation (f x) f' /\ Permutation (g x) g' /\ Forall2 P f' g') ->
    exists f' g', Permutation (flat_map f l) f' /\ Permutation (flat_map g l) g' /\ Forall2 P f' g'.
  Proof.
    induction l as [|x l IH]; cbn; intros H.
    - exists [], []. repeat split; constructor.
    - destruct (H x (or_introl eq_refl)) as (f1 & g1 & A1 & B1 & C1). destruct IH as (f2 & g2 & A2 & B2 & C2); auto.
      exists (f1 ++ f2), (g1 ++ g2). repeat split; [now apply Permutation_app|now apply Permutation_app|now apply Forall2_app].
  Qed.
  Lemma Forall2_same {A} (P : A -> A -> Prop) l : (forall x, P x x) -> Forall2 P l l.
  Proof. intros H. induction l; constructor; auto. Qed.

  Lemma shift_reflect n s r : 0 < s -> s <= 2 * n -> 0 <= r -> r + 1 < n -> reflect n (r - s / 2) <= reflect n (r + (s - s / 2)).
  Proof.
    intros Hs Hn Hr Hr1. unfold reflect. cbv zeta.
    assert (A : (r - s / 2) mod (2 * n) = if r <? s / 2 then 2 * n + r - s / 2 else r - s / 2).
    { destruct (Z.ltb_spec r (s / 2)); symmetry; [apply Z.mod_unique with (-1)|apply Z.mod_unique with 0]; lia. }
    rewrite (Z.mod_small (r + (s - s / 2))) by lia. rewrite A.
    destruct (Z.ltb_spec r (s / 2)); destruct (Z.ltb_spec (r + (s - s / 2)) n); 
      match goal with |- context [?x <? n] => destruct (Z.ltb_spec x n) end; lia.
  Qed.
  Lemma window_step m w n sc sr c r : w = Z.of_nat (length m) -> 0 < w -> rows_sorted m n -> 0 < sr -> sr = 1 \/ sr <= 2 * n -> 0 <= r -> r + 1 < n ->
    exists l1 l2, Permutation (window dflt m w n sc sr c r) l1 /\ Permutation (window dflt m w n sc sr c (r + 1)) l2 /\ Forall2 (below lt) l1 l2.
  Proof.
    intros Hw Hw0 S Hsr Hs Hr Hr1. unfold window. apply Forall2_flat_map. intros dc _. set (cc := reflect w (c + dc)).
    assert (Hcc : 0 <= cc < Z.of_nat (length m)) by (rewrite <- Hw; now apply reflect_range).
    set (g := fun x => at2 dflt m cc (reflect n x)).
    assert (E : forall r, map (fun dr => at2 dflt m cc (reflect n (r + dr))) (window_offsets sr) = map g (zrange (r - sr / 2) (r + (sr - sr / 2)))).
    { intros x. unfold window_offsets, zrange. rewrite !map_map. replace (Z.to_nat (sr - sr / 2 - - (sr / 2))) with (Z.to_nat (x + (sr - sr / 2) - (x - sr / 2))) by lia.
      apply map_ext. intros k. unfold g. do 2 f_equal. lia. }
    rewrite !E. replace (r + 1 - sr / 2) with (r - sr / 2 + 1) by lia. replace (r + 1 + (sr - sr / 2)) with (r + (sr - sr / 2) + 1) by lia.
    rewrite zrange_cons by lia. rewrite (@zrange_snoc (r - sr / 2 + 1)) by lia. rewrite map_app. cbn [map].
    exists (g (r - sr / 2) :: map g (zrange (r - sr / 2 + 1) (r + (sr - sr / 2)))), (g (r + (sr - sr / 2)) :: map g (zrange (r - sr / 2 + 1) (r + (sr - sr / 2)))).
    split; [auto|]. split; [symmetry; apply Permutation_cons_append|]. constructor.
    - unfold g. apply S; auto; [|now apply reflect_range; lia]. split; [now apply reflect_range; lia|].
      apply shift_reflect; lia.
    - apply Forall2_same. apply below_refl.
  Qed.
  Lemma median_step m w n sc sr c r : w = Z.of_nat (length m) -> 0 < w -> rows_sorted m n -> 0 < sc -> 0 < sr -> sr = 1 \/ sr <= 2 * n -> 0 <= r -> r + 1 < n ->
    below lt (nth (Z.to_nat (sc * sr / 2)) (isort lt (window dflt m w n sc sr c r)) dflt)
             (nth (Z.to_nat (sc * sr / 2)) (isort lt (window dflt m w n sc sr c (r + 1))) dflt).
  Proof.
    intros Hw Hw0 S Hsc Hsr Hs Hr Hr1. destruct (window_step m w n sc sr c r) as (l1 & l2 & P1 & P2 & F); auto.
    assert (0 < sc * sr) by nia.
    apply (kth_dominated _ lt wo _ _ l1 l2 (Z.to_nat (sc * sr / 2)) _ _ (all_true _) (all_true _) P1 P2 F);
      apply (isort_kth _ lt wo); try apply all_true; rewrite window_length by lia; lia.
  Qed.
  Lemma below_trans x y z : below lt x y -> below lt y z -> below lt x z.
  Proof. unfold below. intros A B. apply (wo_neg_trans wo z y x); auto. Qed.
  (** The median filter keeps sorted columns sorted. *)
  Lemma median_filter_sorted m sc sr : (0 < length m)%nat -> let n := Z.of_nat (length (nth 0 m [])) in
    rows_sorted m n -> 0 < sc -> 0 < sr -> sr = 1 \/ sr <= 2 * n -> rows_sorted (median_filter lt dflt sc sr m) n.
  Proof.
    intros Hm n S Hsc Hsr Hs c r r' Hc Hr Hr'. rewrite median_filter_shape in Hc.
    assert (E : forall r, 0 <= r < n -> at2 dflt (median_filter lt dflt sc sr m) c r =
      nth (Z.to_nat (sc * sr / 2)) (isort lt (window dflt m (Z.of_nat (length m)) n sc sr c r)) dflt).
    { intros x Hx. unfold at2. pose proof (median_filter_nth sc sr m (Z.to_nat c) ltac:(lia)) as M.
      rewrite (nth_error_nth _ _ _ M). fold n. rewrite Z2Nat.id by lia.
      apply nth_error_nth. rewrite nth_error_map, nth_error_zrange by lia. cbn [option_map]. do 4 f_equal. lia. }
    assert (G : forall k, 0 <= r -> r + Z.of_nat k < n -> below lt (at2 dflt (median_filter lt dflt sc sr m) c r) (at2 dflt (median_filter lt dflt sc sr m) c (r + Z.of_nat k))).
    { induction k as [|k IH]; intros H0 Hk; [rewrite Z.add_0_r; apply below_refl|].
      apply below_trans with (at2 dflt (median_filter lt dflt sc sr m) c (r + Z.of_nat k)); [apply IH; lia|].
      rewrite !E by lia. replace (r + Z.of_nat (Datatypes.S k)) with (r + Z.of_nat k + 1) by lia. apply median_step; auto; lia. }
    replace r' with (r + Z.of_nat (Z.to_nat (r' - r))) by lia. apply G; lia.
  Qed.
End Median.

Section Whole.
  Context {V : Type} (lt : V -> V -> bool) (wo : weak_order (fun _ => True) lt) (dflt : V).
  Variables sort_value sort_index : list (Z * V) -> list (Z * V).
  Hypothesis HV : sorts_by lt snd sort_value.
  Hypothesis HI : sorts_by Z.ltb fst sort_index.
  Definition sorted_matrix (sino : list (list V)) : list (list V) := map (map snd) (map (fun col => sort_value (numbered col)) sino).
  Definition shape {A} (w n : nat) (m : list (list A)) : Prop := length m = w /\ Forall (fun col => length col = n) m.
  Lemma shape_nth {A} w n (m : list (list A)) c : shape w n m -> (c < w)%nat -> exists col, nth_error m c = Some col /\ length col = n.
  Proof.
    intros [L F] H. destruct (nth_error m c) as [col|] eqn:E; [|apply nth_error_None in E; lia].
    exists col. split; auto. rewrite Forall_forall in F. apply F. eapply nth_error_In; eauto.
  Qed.
  Lemma shape_nth0 {A} w n (m : list (list A)) : shape w n m -> (0 < w)%nat -> length (nth 0 m []) = n.
  Proof. intros S H. destruct (shape_nth w n m 0 S H) as (col & E & L). now rewrite (nth_error_nth _ _ _ E). Qed.
  Lemma sorted_matrix_shape w n sino : shape w n sino -> shape w n (sorted_matrix sino).
  Proof.
    intros [L F]. unfold sorted_matrix. split; [now rewrite !map_length|]. rewrite !Forall_map. eapply Forall_impl; [|exact F].
    cbn. intros col H. now rewrite map_length, (sorted_length lt).
  Qed.
  Lemma sorted_matrix_nth sino c col : nth_error sino c = Some col -> nth_error (sorted_matrix sino) c = Some (map snd (sort_value (numbered col))).
  Proof. intros H. unfold sorted_matrix. now rewrite !nth_error_map, H. Qed.
  Lemma ordered_nth l i j x y : ordered lt l -> (i <= j)%nat -> nth_error l i = Some x -> nth_error l j = Some y -> below lt x y.
  Proof.
    intros O H Hi Hj. destruct (Nat.eq_dec i j) as [->|N].
    - assert (x = y) by congruence. subst. apply (wo_irrefl wo). exact I.
    - revert i j H N Hi Hj. induction O as [|a l O IH F]; intros i j H N Hi Hj; [destruct i; discriminate|].
      destruct i, j; try lia; cbn in *.
      + injection Hi as ->. rewrite Forall_forall in F. apply F. eapply nth_error_In; eauto.
      + apply (IH i j); auto; lia.
  Qed.
  Lemma at2_nth (m : list (list V)) c r col v : nth_error m c = Some col -> nth_error col r = Some v -> at2 dflt m (Z.of_nat c) (Z.of_nat r) = v.
  Proof. intros A B. unfold at2. rewrite !Nat2Z.id, (nth_error_nth _ _ _ A). now apply nth_error_nth. Qed.
  Lemma sorted_matrix_sorted w n sino : shape w n sino -> rows_sorted lt dflt (sorted_matrix sino) (Z.of_nat n).
  Proof.
    intros S c r r' Hc Hr Hr'. destruct (sorted_matrix_shape w n sino S) as [L F].
    destruct (shape_nth w n sino (Z.to_nat c) S ltac:(lia)) as (col & E & Lc). pose proof (sorted_matrix_nth _ _ _ E) as M.
    assert (LL : length (map snd (sort_value (numbered col))) = n) by now rewrite map_length, (sorted_length lt).
    destruct (nth_error (map snd (sort_value (numbered col))) (Z.to_nat r)) as [x|] eqn:X; [|apply nth_error_None in X; lia].
    destruct (nth_error (map snd (sort_value (numbered col))) (Z.to_nat r')) as [y|] eqn:Y; [|apply nth_error_None in Y; lia].
    replace c with (Z.of_nat (Z.to_nat c)) by lia. replace r with (Z.of_nat (Z.to_nat r)) by lia. replace r' with (Z.of_nat (Z.to_nat r')) by lia.
    rewrite (at2_nth _ _ _ _ _ M X), (at2_nth _ _ _ _ _ M Y). apply (ordered_nth (map snd (sort_value (numbered col))) (Z.to_nat r) (Z.to_nat r')); auto; [apply HV|lia].
  Qed.
  Lemma median_filter_keeps_shape sc sr w n m : (0 < w)%nat -> shape w n m -> shape w n (median_filter lt dflt sc sr m).
  Proof.
    intros Hw S. pose proof (shape_nth0 _ _ _ S Hw) as L0. destruct S as [L F]. split; [now rewrite median_filter_shape|].
    unfold median_filter. cbv zeta. rewrite Forall_map, Forall_forall. intros c _. rewrite map_length, zrange_length. lia.
  Qed.

  Lemma rs_sort_rank_order F w n sino c p q x y : shape w n sino -> shape w n (F (sorted_matrix sino)) ->
    rows_sorted lt dflt (F (sorted_matrix sino)) (Z.of_nat n) ->
    (forall col, nth_error sino c = Some col -> nth_error col p = Some x /\ nth_error col q = Some y) -> (c < w)%nat -> lt x y = true ->
    below lt (at2 dflt (rs_sort sort_value sort_index F sino) (Z.of_nat c) (Z.of_nat p))
             (at2 dflt (rs_sort sort_value sort_index F sino) (Z.of_nat c) (Z.of_nat q)).
  Proof.
    intros S SF RS Hxy Hc Hlt. destruct (shape_nth w n sino c S Hc) as (col & E & L). destruct (Hxy col E) as [Hp Hq].
    destruct (shape_nth w n _ c SF Hc) as (fcol & EF & LF).
    destruct (rs_sort_column lt sort_value sort_index HI HV F sino c col E fcol EF ltac:(congruence)) as (ocol & EO & LO & O).
    destruct (sorted_place lt sort_value HV col p x Hp) as (i & Hi). destruct (sorted_place lt sort_value HV col q y Hq) as (j & Hj).
    assert (Li : (i < n)%nat) by (rewrite <- L, <- (sorted_length lt sort_value HV col); apply nth_error_Some; congruence).
    assert (Lj : (j < n)%nat) by (rewrite <- L, <- (sorted_length lt sort_value HV col); apply nth_error_Some; congruence).
    destruct (nth_error fcol i) as [fi|] eqn:Fi; [|apply nth_error_None in Fi; lia].
    destruct (nth_error fcol j) as [fj|] eqn:Fj; [|apply nth_error_None in Fj; lia].
    pose proof (O i _ _ _ Hi Fi) as Oi. pose proof (O j _ _ _ Hj Fj) as Oj. rewrite Nat2Z.id in Oi, Oj.
    rewrite (at2_nth _ _ _ _ _ EO Oi), (at2_nth _ _ _ _ _ EO Oj).
    assert (IJ : (i <= j)%nat).
    { destruct (le_gt_dec i j) as [|G]; auto. exfalso.
      pose proof (map_nth_error snd i _ Hi) as Mi. pose proof (map_nth_error snd j _ Hj) as Mj. cbn in Mi, Mj.
      assert (B : below lt y x) by (apply (ordered_nth (map snd (sort_value (numbered col))) j i); auto; [apply HV|lia]). unfold below in B. congruence. }
    rewrite <- (at2_nth _ _ _ _ _ EF Fi), <- (at2_nth _ _ _ _ _ EF Fj). apply RS; [|lia|lia]. destruct SF as [SL _]. lia.
  Qed.
End Whole.
