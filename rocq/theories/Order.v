(** Order statistics over a strict weak order, independent of any sorting algorithm.
    [D] is the set of values on which the comparison is meaningful (non-NaN floats). *)
From Verif Require Import Base.
From Coq Require Import Sorted.

Section Order.
  Variable A : Type.

  Record weak_order (D : A -> Prop) (lt : A -> A -> bool) : Prop := {
    wo_irrefl : forall x, D x -> lt x x = false;
    wo_trans : forall x y z, D x -> D y -> D z -> lt x y = true -> lt y z = true -> lt x z = true;
    wo_neg_trans : forall x y z, D x -> D y -> D z ->
        lt x y = false -> lt y z = false -> lt x z = false }.

  Variable D : A -> Prop.
  Variable lt : A -> A -> bool.

  (** No element is smaller than an earlier one. *)
  Definition ordered (l : list A) : Prop := StronglySorted (fun x y => lt y x = false) l.

  (** What is assumed of a sorting routine such as C's qsort: it returns a permutation, and the
      result is ordered when all values are comparable. *)
  Definition sorts (qs : list A -> list A) : Prop :=
    forall l, Permutation (qs l) l /\ (Forall D l -> ordered (qs l)).

  (** [v] is a [k]-th smallest (counting from 0) element of [w]. *)
  Definition kth (w : list A) (k : nat) (v : A) : Prop :=
    In v w /\ count (fun x => lt x v) w <= k < count (fun x => negb (lt v x)) w.

  (** A median of an odd or even window: the element with index length/2 of the sorted window. *)
  Definition median_of (w : list A) (v : A) : Prop := kth w (length w / 2) v.

  Fixpoint insert (x : A) (l : list A) : list A :=
    match l with
    | [] => [x]
    | y :: t => if lt y x then y :: insert x t else x :: y :: t
    end.
  Definition isort (l : list A) : list A := fold_right insert [] l.
End Order.
Arguments weak_order {A}. Arguments wo_irrefl {A D lt}. Arguments wo_trans {A D lt}. Arguments wo_neg_trans {A D lt}. Arguments ordered {A}. Arguments sorts {A}. Arguments kth {A}.
Arguments median_of {A}. Arguments insert {A}. Arguments isort {A}.

Section Count.
  Context {A : Type}.
  Lemma count_perm (p : A -> bool) l l' : Permutation l l' -> count p l = count p l'.
  Proof. induction 1; cbn; lia. Qed.
  Lemma count_app (p : A -> bool) l l' : count p (l ++ l') = count p l + count p l'.
  Proof. induction l; cbn; lia. Qed.
  Lemma count_le (p : A -> bool) l : count p l <= length l.
  Proof. induction l; cbn; [lia|]. destruct (p a); lia. Qed.
  Lemma count_all (p : A -> bool) l : (forall x, In x l -> p x = true) -> count p l = length l.
  Proof. induction l; cbn; intros H; auto. rewrite (H a) by auto. rewrite IHl; auto. Qed.
  Lemma count_none (p : A -> bool) l : (forall x, In x l -> p x = false) -> count p l = 0.
  Proof. induction l; cbn; intros H; auto. rewrite (H a) by auto. rewrite IHl; auto. Qed.
  Lemma count_mono (p q : A -> bool) l :
    (forall x, In x l -> p x = true -> q x = true) -> count p l <= count q l.
  Proof.
    induction l as [|a l IH]; cbn; intros H; auto.
    specialize (IH (fun x Hx => H x (or_intror Hx))). pose proof (H a (or_introl eq_refl)).
    destruct (p a), (q a); intuition (try discriminate); lia.
  Qed.
  Lemma count_ext (p q : A -> bool) l : (forall x, In x l -> p x = q x) -> count p l = count q l.
  Proof. induction l; cbn; intros H; auto. rewrite (H a) by auto. rewrite IHl; auto. Qed.
  Lemma count_map {B} (f : B -> A) p l : count p (map f l) = count (fun x => p (f x)) l.
  Proof. induction l; cbn; auto. Qed.
End Count.

Section OrderLemmas.
  Context {A : Type} (D : A -> Prop) (lt : A -> A -> bool) (wo : weak_order D lt).

  Lemma wo_asym x y : D x -> D y -> lt x y = true -> lt y x = false.
  Proof.
    intros Hx Hy H. destruct (lt y x) eqn:E; auto.
    pose proof (wo_irrefl wo x Hx). pose proof (wo_trans wo x y x Hx Hy Hx H E). congruence.
  Qed.

  Lemma insert_perm x l : Permutation (insert lt x l) (x :: l).
  Proof.
    induction l as [|y t IH]; cbn; auto.
    destruct (lt y x); auto. rewrite IH. constructor.
  Qed.

  Lemma isort_perm l : Permutation (isort lt l) l.
  Proof. induction l as [|x l IH]; cbn; auto. rewrite insert_perm. now constructor. Qed.

  Lemma Forall_D_perm l l' : Permutation l l' -> Forall D l -> Forall D l'.
  Proof. intros H. rewrite !Forall_forall. intros G x Hx. apply G. eapply Permutation_in; [symmetry|]; eauto. Qed.

  Lemma insert_ordered x l : D x -> Forall D l -> ordered lt l -> ordered lt (insert lt x l).
  Proof.
    intros Hx HD Hl. induction l as [|y t IH]; cbn.
    - constructor; constructor.
    - inversion HD as [|? ? Hy Ht]; subst. inversion Hl as [|? ? Hs Hf]; subst.
      destruct (lt y x) eqn:E.
      + constructor; [now apply IH|]. eapply Permutation_Forall; [symmetry; apply insert_perm|].
        constructor; auto. now apply wo_asym.
      + constructor; auto. constructor; auto.
        rewrite Forall_forall in *. intros z Hz.
        apply (wo_neg_trans wo z y x); auto. 
  Qed.

  Lemma isort_sorts : sorts D lt (isort lt).
  Proof.
    intros l. split; [apply isort_perm|].
    induction l as [|x l IH]; intros H; cbn; [constructor|].
    inversion H; subst. apply insert_ordered; auto.
    eapply Forall_D_perm; [symmetry; apply isort_perm|auto].
  Qed.

  Lemma ordered_split l1 x l2 : ordered lt (l1 ++ x :: l2) ->
    Forall (fun y => lt x y = false) l1 /\ Forall (fun y => lt y x = false) l2.
  Proof.
    induction l1 as [|y l1 IH]; cbn; intros H.
    - inversion H; subst. split; auto.
    - inversion H as [|? ? Hs Hf]; subst. destruct (IH Hs) as [H1 H2]. split; auto.
      constructor; auto. rewrite Forall_forall in Hf. apply Hf. apply in_or_app. right. now left.
  Qed.

  Lemma sorted_kth w s k v :
    Forall D w -> Permutation s w -> ordered lt s -> nth_error s k = Some v -> kth lt w k v.
  Proof.
    intros HD P S E.
    pose proof (nth_error_In _ _ E) as Hin.
    assert (HDs : Forall D s) by (eapply Forall_D_perm; [symmetry|]; eauto).
    split. { eapply Permutation_in; eauto. }
    rewrite <- !(count_perm _ _ _ P).
    apply nth_error_split in E. destruct E as (l1 & l2 & -> & Hk).
    destruct (ordered_split _ _ _ S) as [H1 H2].
    rewrite Forall_forall in HDs, H1, H2.
    assert (Dv : D v) by (apply HDs; auto).
    rewrite !count_app. cbn. rewrite (wo_irrefl wo v Dv). cbn.
    rewrite (count_none (fun x => lt x v) l2); [|auto].
    rewrite (count_all (fun x => negb (lt v x)) l1); [|intros x Hx; rewrite H1; auto].
    pose proof (count_le (fun x => lt x v) l1). lia.
  Qed.

  Lemma kth_unique w k u v : Forall D w -> kth lt w k u -> kth lt w k v -> lt u v = false /\ lt v u = false.
  Proof.
    rewrite Forall_forall. intros HD (Hu & Hu1 & Hu2) (Hv & Hv1 & Hv2).
    assert (G : forall a b, In a w -> In b w -> lt a b = true ->
                count (fun x => negb (lt a x)) w <= count (fun x => lt x b) w).
    { intros a b Ha Hb Hab. apply count_mono. intros x Hx Hn.
      destruct (lt x b) eqn:E; auto.
      assert (lt a x = false) by (destruct (lt a x); [discriminate|auto]).
      rewrite (wo_neg_trans wo a x b) in Hab by auto. discriminate. }
    split.
    - destruct (lt u v) eqn:E; auto. pose proof (G u v Hu Hv E). lia.
    - destruct (lt v u) eqn:E; auto. pose proof (G v u Hv Hu E). lia.
  Qed.

  (** An order statistic does not exceed an upper bound of the window, nor fall below a lower one. *)
  Lemma kth_in w k v : kth lt w k v -> In v w.
  Proof. now intros []. Qed.
End OrderLemmas.

Lemma Z_weak_order : weak_order (fun _ : Z => True) Z.ltb.
Proof. split; intros; lia. Qed.
