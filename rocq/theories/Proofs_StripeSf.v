(** Closed form of remove_stripe_sf. *)
From Verif Require Import Base CLoop Model_Solver Proofs_Morph Proofs_Solver Proofs_Ring Model_StripeSf.
From Coq Require Import Reals Lra.
Local Open Scope Z_scope.

(** A loop whose rounds change disjoint sets of cells. *)
Lemma for_range_regions {A} a b (own : Z -> Z -> Prop) (body : Z -> arr A -> arr A) (h : Z -> arr A -> Z -> A) m : a <= b ->
  (forall j k x, a <= j < b -> a <= k < b -> own j x -> own k x -> j = k) ->
  (forall j m' x, a <= j < b -> ~ own j x -> body j m' x = m' x) ->
  (forall j m' x, a <= j < b -> own j x -> (forall y, own j y -> m' y = m y) -> body j m' x = h j m x) ->
  (forall j x, a <= j < b -> own j x -> for_range a b body m x = h j m x) /\
  (forall x, (forall j, a <= j < b -> ~ own j x) -> for_range a b body m x = m x).
Proof.
  intros Hab Dis Out In_.
  pose proof (for_range_ind (fun q (m' : arr A) => (forall j x, a <= j < q -> own j x -> m' x = h j m x) /\
     (forall x, (forall j, a <= j < q -> ~ own j x) -> m' x = m x)) a b body m) as L.
  apply L; auto.
  - split; [intros; lia|auto].
  - intros q m' Hq [A1 A2]. split.
    + intros j x Hj Hx. destruct (Z.eq_dec j q) as [->|N].
      * apply In_; auto. intros y Hy. apply A2. intros k Hk Ho. pose proof (Dis k q y ltac:(lia) Hq Ho Hy). lia.
      * rewrite Out; auto; [apply A1; auto; lia|]. intros Ho. pose proof (Dis j q x ltac:(lia) Hq Hx Ho). lia.
    + intros x Hx. rewrite Out; auto; [|apply Hx; lia]. apply A2. intros j Hj. apply Hx. lia.
Qed.
Lemma for_regions {A} n (own : Z -> Z -> Prop) (body : Z -> arr A -> arr A) (h : Z -> arr A -> Z -> A) m : 0 <= n ->
  (forall j k x, 0 <= j < n -> 0 <= k < n -> own j x -> own k x -> j = k) ->
  (forall j m' x, 0 <= j < n -> ~ own j x -> body j m' x = m' x) ->
  (forall j m' x, 0 <= j < n -> own j x -> (forall y, own j y -> m' y = m y) -> body j m' x = h j m x) ->
  (forall j x, 0 <= j < n -> own j x -> for_ n body m x = h j m x) /\
  (forall x, (forall j, 0 <= j < n -> ~ own j x) -> for_ n body m x = m x).
Proof. exact (for_range_regions 0 n own body h m). Qed.

Local Open Scope R_scope.
Section Sf.
  Variables dx dy dz size : Z.
  Hypothesis Hdx : (0 < dx)%Z.
  Hypothesis Hdz : (0 < dz)%Z.

  Lemma add_cell n j (f : Z -> R) (m : arr R) : for_ n (fun p row => aset row j (row j + f p)) m j = m j + zsum n f.
  Proof. apply for_add. intros. now rewrite aset_eq. Qed.
  Lemma add_cell_ne n j x (f : Z -> R) (m : arr R) : (0 <= n)%Z -> x <> j -> for_ n (fun p row => aset row j (row j + f p)) m x = m x.
  Proof. intros Hn H. apply (for_inv (fun _ (m' : arr R) => m' x = m x)); auto. intros k m' _ E. now rewrite aset_ne. Qed.
  Lemma average_row_spec data s j : (0 <= j < dz)%Z -> average_row dx dy dz data s j = zsum dx (fun p => data (sf_index dy dz p s j) / IZR dx).
  Proof.
    intros Hj. unfold average_row.
    destruct (for_regions dz (fun j x => x = j)
      (fun j row => for_ dx (fun p row => aset row j (row j + data (sf_index dy dz p s j) / IZR dx)) row)
      (fun j m x => m x + zsum dx (fun p => data (sf_index dy dz p s x) / IZR dx)) (fun _ => 0)) as [A _].
    - lia.
    - intros; lia.
    - intros i m' x _ N. apply add_cell_ne; [lia|auto].
    - intros i m' x _ -> E. rewrite add_cell. now rewrite E.
    - rewrite (A j j Hj eq_refl). lra.
  Qed.
  Definition clamped (k : Z) : Z := Z.max 0 (Z.min (dz - 1) k).
  Lemma smooth_row_spec average i : (0 <= size)%Z -> (0 <= i < dz)%Z -> smooth_row dz size average i = zsum size (fun j => average (clamped (i + j - size / 2))) / IZR size.
  Proof.
    intros Hs Hi. unfold smooth_row.
    set (inner := fun i0 j (row : arr R) => let k := (i0 + j - size / 2)%Z in let k0 := if (k <? 0)%Z then 0%Z else k in
                         let k1 := if (k0 >? dz - 1)%Z then (dz - 1)%Z else k0 in aset row i0 (row i0 + average k1)).
    assert (E : forall i0 row, for_ size (inner i0) row = for_ size (fun j row => aset row i0 (row i0 + average (clamped (i0 + j - size / 2)))) row).
    { intros i0 row. apply for_ext. intros j r Hj. unfold inner, clamped. cbv zeta. do 2 f_equal. f_equal.
      destruct (Z.ltb_spec (i0 + j - size / 2) 0); [destruct (Z.gtb_spec 0 (dz - 1)); lia|].
      destruct (Z.gtb_spec (i0 + j - size / 2) (dz - 1)); lia. }
    destruct (for_regions dz (fun j x => x = j)
      (fun i row => aset (for_ size (inner i) (aset row i 0)) i (for_ size (inner i) (aset row i 0) i / IZR size))
      (fun j (m : arr R) x => zsum size (fun j => average (clamped (x + j - size / 2))) / IZR size) (fun _ => 0)) as [A _].
    - lia.
    - intros; lia.
    - intros k m' x _ N. rewrite aset_ne by auto. rewrite E, add_cell_ne by auto. now apply aset_ne.
    - intros k m' x _ -> _. rewrite aset_eq. rewrite E, add_cell, aset_eq. now rewrite Rplus_0_l.
    - exact (A i i Hi eq_refl).
  Qed.
  Definition col_mean (data : arr R) (s j : Z) : R := zsum dx (fun p => data (sf_index dy dz p s j) / IZR dx).
  Definition col_smooth (data : arr R) (s j : Z) : R := zsum size (fun i => col_mean data s (clamped (j + i - size / 2))) / IZR size.
  Lemma sf_index_inj s p j p' j' : (0 < dy)%Z -> (0 <= j < dz)%Z -> (0 <= j' < dz)%Z -> sf_index dy dz p s j = sf_index dy dz p' s j' -> p = p' /\ j = j'.
  Proof.
    unfold sf_index. intros Hy Hj Hj' E. assert ((p - p') * (dy * dz) = j' - j)%Z by lia.
    assert (dz <= dy * dz)%Z by nia. assert (p - p' = 0)%Z by nia. split; [lia|]. nia.
  Qed.
  Lemma sf_slice_spec s data : (0 < dy)%Z -> (0 <= size)%Z ->
    (forall p j, (0 <= p < dx)%Z -> (0 <= j < dz)%Z -> sf_slice dx dy dz size s data (sf_index dy dz p s j) =
       data (sf_index dy dz p s j) - (col_mean data s j - col_smooth data s j)) /\
    (forall x, (forall p j, (0 <= p < dx)%Z -> (0 <= j < dz)%Z -> x <> sf_index dy dz p s j) -> sf_slice dx dy dz size s data x = data x).
  Proof.
    intros Hy Hsz. unfold sf_slice. cbv zeta.
    set (av := average_row dx dy dz data s). set (sm := smooth_row dz size av).
    assert (In_ : forall p m, (forall j, (0 <= j < dz)%Z -> for_ dz (fun j d => aset d (sf_index dy dz p s j) (d (sf_index dy dz p s j) - (av j - sm j))) m (sf_index dy dz p s j) = m (sf_index dy dz p s j) - (av j - sm j)) /\
      (forall x, (forall j, (0 <= j < dz)%Z -> x <> sf_index dy dz p s j) -> for_ dz (fun j d => aset d (sf_index dy dz p s j) (d (sf_index dy dz p s j) - (av j - sm j))) m x = m x)).
    { intros p m. destruct (for_regions dz (fun j x => x = sf_index dy dz p s j) (fun j d => aset d (sf_index dy dz p s j) (d (sf_index dy dz p s j) - (av j - sm j)))
        (fun j m x => m x - (av j - sm j)) m) as [A B].
      - lia.
      - intros j k x Hj Hk -> E. now destruct (sf_index_inj s p j p k Hy Hj Hk E).
      - intros j m' x _ N. now apply aset_ne.
      - intros j m' x _ -> E. rewrite aset_eq. now rewrite E.
      - split; [intros j Hj; now apply (A j)|]. intros x Hx. now apply B. }
    destruct (for_regions dx (fun p x => exists j, (0 <= j < dz)%Z /\ x = sf_index dy dz p s j)
       (fun p d => for_ dz (fun j d => aset d (sf_index dy dz p s j) (d (sf_index dy dz p s j) - (av j - sm j))) d)
       (fun p (m : arr R) x => for_ dz (fun j d => aset d (sf_index dy dz p s j) (d (sf_index dy dz p s j) - (av j - sm j))) m x) data) as [A B].
    - lia.
    - intros p p' x Hp Hp' (j & Hj & ->) (j' & Hj' & E). now destruct (sf_index_inj s p j p' j' Hy Hj Hj' E).
    - intros p m' x Hp N. apply In_. intros j Hj E. apply N. eauto.
    - intros p m' x Hp (j & Hj & ->) E. rewrite !(proj1 (In_ p _)) by auto. rewrite E by eauto. reflexivity.
    - split.
      + intros p j Hp Hj. rewrite (A p _ Hp) by eauto. rewrite (proj1 (In_ p _)) by auto.
        unfold sm, av. rewrite smooth_row_spec, average_row_spec by auto.
        rewrite (zsum_ext size (fun i => average_row dx dy dz data s (clamped (j + i - size / 2))) (fun i => col_mean data s (clamped (j + i - size / 2)))).
        * reflexivity.
        * intros i Hi. apply average_row_spec. unfold clamped; lia.
      + intros x Hx. apply B. intros p Hp (j & Hj & E). exact (Hx p j Hp Hj E).
  Qed.
  Definition slice_cell (s x : Z) : Prop := exists p j, (0 <= p < dx)%Z /\ (0 <= j < dz)%Z /\ x = sf_index dy dz p s j.
  Lemma slice_cell_inj s s' x : (0 <= s < dy)%Z -> (0 <= s' < dy)%Z -> slice_cell s x -> slice_cell s' x -> s = s'.
  Proof.
    unfold slice_cell, sf_index. intros Hs Hs' (p & j & Hp & Hj & ->) (p' & j' & Hp' & Hj' & E).
    assert ((s + p * dy - (s' + p' * dy)) * dz = j' - j)%Z by lia. assert (s + p * dy = s' + p' * dy)%Z by nia.
    assert ((p - p') * dy = s' - s)%Z by lia. assert (p = p')%Z by nia. subst. lia.
  Qed.
  Lemma sf_ext s data data' : (0 < dy)%Z -> (0 <= size)%Z -> (forall x, slice_cell s x -> data' x = data x) ->
    (forall j, (0 <= j < dz)%Z -> col_mean data' s j = col_mean data s j) /\ (forall j, (0 <= j < dz)%Z -> col_smooth data' s j = col_smooth data s j).
  Proof.
    intros Hy Hs E.
    assert (M : forall j, (0 <= j < dz)%Z -> col_mean data' s j = col_mean data s j).
    { intros j Hj. apply zsum_ext. intros p Hp. rewrite E; auto. exists p, j. auto. }
    split; auto. intros j Hj. unfold col_smooth. f_equal. apply zsum_ext. intros i Hi. apply M. unfold clamped; lia.
  Qed.
  Lemma remove_stripe_sf_spec istart iend data : (0 <= size)%Z -> (0 <= istart <= iend)%Z -> (iend <= dy)%Z ->
    (forall p s j, (istart <= s < iend)%Z -> (0 <= p < dx)%Z -> (0 <= j < dz)%Z -> remove_stripe_sf dx dy dz size istart iend data (sf_index dy dz p s j) =
       data (sf_index dy dz p s j) - (col_mean data s j - col_smooth data s j)) /\
    (forall x, (forall s, (istart <= s < iend)%Z -> ~ slice_cell s x) -> remove_stripe_sf dx dy dz size istart iend data x = data x).
  Proof.
    intros Hsz Hst Hen. destruct (Z.eq_dec istart iend) as [->|Ne].
    { unfold remove_stripe_sf. rewrite for_range_nil by lia. split; [intros; lia|auto]. }
    assert (Hy : (0 < dy)%Z) by lia. unfold remove_stripe_sf.
    destruct (for_range_regions istart iend slice_cell (sf_slice dx dy dz size) (fun s m x => sf_slice dx dy dz size s m x) data) as [A B].
    - lia.
    - intros s s' x H H' C C'. apply (slice_cell_inj s s' x); auto; lia.
    - intros s m x _ N. apply sf_slice_spec; auto. intros p j Hp Hj E. apply N. exists p, j. auto.
    - intros s m x _ C E. destruct (sf_ext s data m Hy Hsz E) as [Em Es]. destruct C as (p & j & Hp & Hj & ->).
      rewrite !(proj1 (sf_slice_spec s _ Hy Hsz)) by auto. rewrite Em, Es, E by (auto; exists p, j; auto). reflexivity.
    - split; auto. intros p s j Hs Hp Hj. rewrite (A s) by (auto; exists p, j; auto). now rewrite (proj1 (sf_slice_spec s data Hy Hsz)).
  Qed.
End Sf.
