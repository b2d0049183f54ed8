(** Stripes narrower than half the window: the sorting technique takes them out completely. *)
From Verif Require Import Base Order Model_Stripe Proofs_Stripe Proofs_StripeLarge.
Local Open Scope Z_scope.

Section Linear.
  Context {V : Type} (lt : V -> V -> bool) (wo : weak_order (fun _ => True) lt).
  Hypothesis total : forall x y, lt x y = false -> lt y x = false -> x = y.

  Lemma ordered_unique l m : ordered lt l -> ordered lt m -> Permutation l m -> l = m.
  Proof.
    intros Ol Om P. apply list_nth_ext. intros i. pose proof (Permutation_length P) as L.
    destruct (nth_error l i) as [u|] eqn:Eu.
    - assert (i < length m)%nat by (rewrite <- L; apply nth_error_Some; congruence).
      destruct (nth_error m i) as [v|] eqn:Ev; [|apply nth_error_None in Ev; lia]. f_equal.
      assert (Ku : kth lt m i u) by (apply (sorted_kth (fun _ => True) lt wo m l); auto; now apply Forall_forall).
      assert (Kv : kth lt m i v) by (apply (sorted_kth (fun _ => True) lt wo m m); auto; now apply Forall_forall).
      destruct (kth_unique _ _ wo m i u v) as [A B]; auto. now apply Forall_forall.
    - symmetry. apply nth_error_None. apply nth_error_None in Eu. lia.
  Qed.

  Definition increasing (g : V -> V) : Prop := forall x y, lt (g x) (g y) = lt x y.
  Lemma increasing_inj g x y : increasing g -> g x = g y -> x = y.
  Proof. intros H E. apply total; rewrite <- H, E; now apply (wo_irrefl wo). Qed.
  Lemma ordered_map g l : increasing g -> ordered lt l -> ordered lt (map g l).
  Proof.
    intros H O. induction O as [|x l O IH F]; cbn; constructor; auto. rewrite Forall_forall in *. intros y Hy.
    apply in_map_iff in Hy. destruct Hy as (z & <- & Hz). rewrite H. auto.
  Qed.

  Variables sort_value sort_index : list (Z * V) -> list (Z * V).
  Hypothesis HV : sorts_by lt snd sort_value.
  Hypothesis HI : sorts_by Z.ltb fst sort_index.

  Lemma sorted_column g col : increasing g -> map snd (sort_value (numbered (map g col))) = map g (isort lt col).
  Proof.
    intros H. destruct (HV (numbered (map g col))) as [P O]. apply ordered_unique; auto.
    - apply ordered_map; auto. destruct (isort_sorts _ _ wo col) as [_ S]. apply S. now apply Forall_forall.
    - etransitivity; [apply Permutation_map; exact P|]. rewrite numbered_snd. apply Permutation_map. symmetry. apply isort_perm.
  Qed.

  Lemma count_le_map {A} (p : V -> bool) (q : A -> bool) f l : (forall x, In x l -> p (f x) = true -> q x = true) -> (count p (map f l) <= count q l)%nat.
  Proof. intros H. rewrite count_map. now apply count_mono. Qed.

  (** A value held by more than half of a window is its median. *)
  Lemma majority (w : list V) (bad : V -> bool) v d : (forall x, In x w -> bad x = false -> x = v) -> (2 * count bad w < length w)%nat ->
    nth (length w / 2) (isort lt w) d = v.
  Proof.
    intros H C. assert (L : (length w / 2 < length w)%nat) by (apply Nat.div_lt; lia).
    assert (K := isort_kth (fun _ => True) lt wo w (length w / 2) d ltac:(now apply Forall_forall) L).
    assert (N : (length w = count bad w + count (fun x => negb (bad x)) w)%nat).
    { clear. induction w as [|x w IH]; cbn; auto. destruct (bad x); cbn; lia. }
    assert (Hv : kth lt w (length w / 2) v).
    { assert (I : In v w).
      { destruct (count (fun x => negb (bad x)) w) eqn:E; [lia|]. clear - H E. induction w as [|x w IH]; cbn in E; [discriminate|].
        destruct (bad x) eqn:B; cbn in E; [right; apply IH; auto; intros; apply H; auto; now right|left]. apply H; auto. now left. }
      split; auto. assert (A : (count (fun x => lt x v) w <= count bad w)%nat).
      { apply count_mono. intros x Hx Lx. destruct (bad x) eqn:B; auto. rewrite (H x Hx B), (wo_irrefl wo) in Lx by auto. discriminate. }
      assert (B : (count (fun x => negb (bad x)) w <= count (fun x => negb (lt v x)) w)%nat).
      { apply count_mono. intros x Hx Bx. rewrite (H x Hx); [rewrite (wo_irrefl wo); auto|]. now destruct (bad x). }
      pose proof (Nat.div_mod_eq (length w) 2). pose proof (Nat.mod_upper_bound (length w) 2). lia. }
    destruct (kth_unique _ _ wo w _ _ _ ltac:(now apply Forall_forall) K Hv). now apply total.
  Qed.

  Variables (w size : Z) (g : Z -> V -> V) (bad : Z -> bool) (col : list V) (dflt : V).
  Hypothesis mono : forall c, 0 <= c < w -> increasing (g c).
  Hypothesis good : forall c x, 0 <= c < w -> bad c = false -> g c x = x.
  Hypothesis inner : forall c, bad c = true -> size / 2 <= c < w - size / 2.
  Hypothesis few : forall c, 0 <= c < w -> 2 * Z.of_nat (count bad (zrange (c - size / 2) (c - size / 2 + size))) < size.

  Lemma count_shift a b k : count bad (zrange (a + k) (b + k)) = count (fun x => bad (k + x)) (zrange a b).
  Proof.
    replace (zrange (a + k) (b + k)) with (map (fun x => k + x) (zrange a b)); [now rewrite count_map|].
    apply list_nth_ext. intros i. destruct (Nat.lt_ge_cases i (Z.to_nat (b - a))) as [L|L].
    - rewrite nth_error_map, !nth_error_zrange by lia. cbn. f_equal. lia.
    - transitivity (@None Z); [|symmetry]; apply nth_error_None; rewrite ?map_length, zrange_length; lia.
  Qed.

  Lemma median_stripes : 0 < size <= w -> median_filter lt dflt size 1 (map (fun c => map (g c) (isort lt col)) (zrange 0 w)) = map (fun _ => isort lt col) (zrange 0 w).
  Proof.
    intros Hs. set (sc := isort lt col). set (m := map (fun c => map (g c) sc) (zrange 0 w)).
    assert (Lm : length m = Z.to_nat w) by (unfold m; rewrite map_length, zrange_length; lia).
    assert (N : forall c d, 0 <= c < w -> nth (Z.to_nat c) m d = map (g c) sc).
    { intros c d Hc. unfold m. rewrite nth_map_zrange by lia. now rewrite Z2Nat.id by lia. }
    assert (L0 : length (nth 0 m []) = length sc) by (change 0%nat with (Z.to_nat 0); rewrite (N 0 []) by lia; now rewrite map_length).
    apply list_nth_ext. intros c. destruct (Nat.lt_ge_cases c (length m)) as [Lc|Lc].
    2:{ transitivity (@None (list V)); [|symmetry]; apply nth_error_None; rewrite ?median_filter_shape; auto. rewrite map_length, zrange_length. lia. }
    rewrite median_filter_nth by auto. rewrite nth_error_map, nth_error_zrange by lia. cbn [option_map]. f_equal. rewrite L0.
    rewrite Lm, Z2Nat.id by lia.
    assert (Hc : 0 <= Z.of_nat c < w) by lia. clear Lc. revert Hc. generalize (Z.of_nat c). clear c. intros c Hc.
    transitivity (map (fun r => nth (Z.to_nat r) sc dflt) (zrange 0 (Z.of_nat (length sc)))).
    2:{ apply list_nth_ext. intros i. rewrite nth_error_map. destruct (Nat.lt_ge_cases i (length sc)) as [L|L].
        - rewrite nth_error_zrange by lia. cbn [option_map]. rewrite (nth_error_nth_eq sc i dflt L). f_equal. f_equal. lia.
        - assert (Z0 : nth_error (zrange 0 (Z.of_nat (length sc))) i = None) by (apply nth_error_None; rewrite zrange_length; lia).
          rewrite Z0. symmetry. now apply nth_error_None. }
    apply map_ext_in. intros r Hr. apply in_zrange in Hr. rewrite Z.mul_1_r.
    set (off := window_offsets size).
    assert (W : window dflt m w (Z.of_nat (length sc)) size 1 c r = map (fun dc => g (reflect w (c + dc)) (nth (Z.to_nat r) sc dflt)) off).
    { unfold window. fold off. change (window_offsets 1) with [0]. rewrite flat_map_concat_map.
      transitivity (concat (map (fun dc => [g (reflect w (c + dc)) (nth (Z.to_nat r) sc dflt)]) off)).
      2:{ clear. induction off; cbn; congruence. }
      f_equal. apply map_ext. intros dc. cbn [map]. f_equal. rewrite Z.add_0_r, (reflect_inside _ r) by lia. unfold at2.
      rewrite N by (apply reflect_range; lia). rewrite (nth_indep (map (g (reflect w (c + dc))) sc) dflt (g (reflect w (c + dc)) dflt)) by (rewrite map_length; lia). apply map_nth. }
    rewrite W. set (x := nth (Z.to_nat r) sc dflt).
    assert (RO : forall dc, In dc off -> bad (reflect w (c + dc)) = bad (c + dc)).
    { intros dc Hd. unfold off, window_offsets in Hd. apply in_zrange in Hd.
      destruct (Z_lt_le_dec (c + dc) 0) as [Hn|Hn].
      - assert (R : reflect w (c + dc) = -1 - (c + dc)).
        { unfold reflect. cbv zeta. assert (M : (c + dc) mod (2 * w) = c + dc + 2 * w) by (symmetry; apply (Z.mod_unique _ _ (-1)); lia). rewrite M.
          destruct (Z.ltb_spec (c + dc + 2 * w) w); lia. }
        rewrite R. transitivity false; [|symmetry]; apply not_true_is_false; intros B; apply inner in B; lia.
      - destruct (Z_lt_le_dec (c + dc) w) as [Hw|Hw]; [now rewrite reflect_inside by lia|].
        assert (R : reflect w (c + dc) = 2 * w - 1 - (c + dc)).
        { unfold reflect. cbv zeta. rewrite Z.mod_small by lia. destruct (Z.ltb_spec (c + dc) w); lia. }
        rewrite R. transitivity false; [|symmetry]; apply not_true_is_false; intros B; apply inner in B; lia. }
    assert (LO : length off = Z.to_nat size) by (apply offsets_length; lia).
    (* decide badness by the column, through pairs *)
    assert (CB : (2 * count (fun dc => bad (reflect w (c + dc))) off < length off)%nat).
    { rewrite LO. rewrite (count_ext _ (fun dc => bad (c + dc))) by exact RO. pose proof (few c Hc) as F.
      unfold off, window_offsets. replace (zrange (c - size / 2) (c - size / 2 + size)) with (zrange (- (size / 2) + c) (size - size / 2 + c)) in F by (f_equal; lia).
      rewrite count_shift in F. lia. }
    set (isx := fun y => lt y x || lt x y).
    assert (B2 : (count isx (map (fun dc => g (reflect w (c + dc)) x) off) <= count (fun dc => bad (reflect w (c + dc))) off)%nat).
    { apply count_le_map. intros dc _ Hx. destruct (bad (reflect w (c + dc))) eqn:B; auto. unfold isx in Hx.
      rewrite (good (reflect w (c + dc)) x) in Hx by (auto; apply reflect_range; lia). rewrite (wo_irrefl wo) in Hx by auto. discriminate. }
    replace (Z.to_nat (size / 2)) with (length (map (fun dc => g (reflect w (c + dc)) x) off) / 2)%nat.
    2:{ rewrite map_length, LO. replace (Z.to_nat size / 2)%nat with (Z.to_nat (size / 2)); auto. rewrite Z2Nat.inj_div by lia. reflexivity. }
    apply (majority _ isx).
    - intros y _ Hy. unfold isx in Hy. apply orb_false_iff in Hy. destruct Hy. now apply total.
    - rewrite map_length. lia.
  Qed.

  Lemma stripes_removed : 0 < size <= w ->
    rs_sort sort_value sort_index (sort_filter lt dflt size 1) (map (fun c => map (g c) col) (zrange 0 w)) = map (fun _ => col) (zrange 0 w).
  Proof.
    intros Hs. set (s := map (fun c => map (g c) col) (zrange 0 w)).
    assert (E : map (map snd) (map (fun col => sort_value (numbered col)) s) = map (fun c => map (g c) (isort lt col)) (zrange 0 w)).
    { unfold s. rewrite !map_map. apply map_ext_in. intros c Hc. apply in_zrange in Hc. apply sorted_column. apply mono. lia. }
    set (F := sort_filter lt dflt size 1).
    assert (EF : F (map (map snd) (map (fun col => sort_value (numbered col)) s)) = map (fun _ => isort lt col) (zrange 0 w)).
    { rewrite E. unfold F, sort_filter. cbn [Z.eqb Pos.eqb]. now apply median_stripes. }
    assert (Ls : length s = Z.to_nat w) by (unfold s; rewrite map_length, zrange_length; lia).
    apply list_nth_ext. intros c. destruct (Nat.lt_ge_cases c (length s)) as [Lc|Lc].
    2:{ transitivity (@None (list V)); [|symmetry]; apply nth_error_None; rewrite ?rs_sort_length; auto; [|rewrite map_length, zrange_length; lia].
        rewrite EF, map_length, zrange_length. lia. }
    rewrite nth_error_map, nth_error_zrange by lia. cbn [option_map].
    assert (Ec : nth_error s c = Some (map (g (Z.of_nat c)) col)).
    { unfold s. rewrite nth_error_map, nth_error_zrange by lia. cbn. do 3 f_equal. }
    assert (Ef : nth_error (F (map (map snd) (map (fun col => sort_value (numbered col)) s))) c = Some (isort lt col)).
    { rewrite EF, nth_error_map, nth_error_zrange by lia. reflexivity. }
    assert (Li : length (isort lt col) = length col) by (apply Permutation_length, isort_perm).
    destruct (rs_sort_column lt sort_value sort_index HI HV F s c _ Ec _ Ef ltac:(rewrite map_length; exact Li)) as (o & Eo & Lo & Ho).
    rewrite Eo. f_equal. rewrite map_length in Lo. apply list_nth_ext. intros p. destruct (nth_error col p) as [v|] eqn:Ep.
    2:{ apply nth_error_None. apply nth_error_None in Ep. lia. }
    assert (Hm : increasing (g (Z.of_nat c))) by (apply mono; lia).
    destruct (sorted_place lt sort_value HV (map (g (Z.of_nat c)) col) p (g (Z.of_nat c) v)) as (i & Hi); [now apply map_nth_error|].
    pose proof (map_nth_error snd i _ Hi) as Mi. rewrite (sorted_column _ _ Hm), nth_error_map in Mi. cbn in Mi.
    destruct (nth_error (isort lt col) i) as [u|] eqn:Eu; [|discriminate]. cbn in Mi. injection Mi as Mi.
    apply (increasing_inj _ _ _ Hm) in Mi. subst u. rewrite <- (Nat2Z.id p). apply (Ho i _ _ _ Hi Eu).
  Qed.
End Linear.
