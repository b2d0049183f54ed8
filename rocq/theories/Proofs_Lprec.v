(** Lemmas on the GPU queue of lprec (recon/wrappers.py). *)
From Coq Require Import Reals String.
From Verif Require Import Base Model_Wrappers Proofs_Wrappers.
Local Open Scope Z_scope.

(** ** Parts of a list *)
Section Parts.
  Context {A : Type}.
  Lemma nth_ext_list (l l' : list A) : (forall i, nth_error l i = nth_error l' i) -> l = l'.
  Proof.
    revert l'. induction l as [|a l IH]; intros [|b l'] H; auto; try (specialize (H 0%nat); discriminate).
    f_equal; [specialize (H 0%nat); cbn in H; congruence|]. apply IH. intros i. exact (H (S i)).
  Qed.
  Lemma nth_firstn n (l : list A) i : nth_error (firstn n l) i = if (i <? n)%nat then nth_error l i else None.
  Proof.
    revert l i. induction n as [|n IH]; intros [|a l] [|i]; try reflexivity; cbn [firstn nth_error].
    - destruct (_ <? _)%nat; reflexivity.
    - exact (IH l i).
  Qed.
  Lemma nth_skipn n (l : list A) i : nth_error (skipn n l) i = nth_error l (n + i).
  Proof. revert l. induction n as [|n IH]; intros [|a l]; cbn; auto. now destruct i. Qed.
  Lemma nth_cut a b (l : list A) i : 0 <= a -> nth_error (cut (a, b) l) i = if (i <? Z.to_nat (b - a))%nat then nth_error l (Z.to_nat a + i) else None.
  Proof. intros H. unfold cut. cbn [fst snd]. rewrite nth_firstn, nth_skipn. reflexivity. Qed.
  Lemma nth_app (l l' : list A) i : nth_error (l ++ l') i = if (i <? length l)%nat then nth_error l i else nth_error l' (i - length l).
  Proof. destruct (Nat.ltb_spec i (length l)); [apply nth_error_app1|apply nth_error_app2]; lia. Qed.
  Lemma nth_paste a x (l : list A) i : 0 <= a -> a <= Z.of_nat (length l) ->
    nth_error (paste a x l) i = if (i <? Z.to_nat a)%nat then nth_error l i else if (i <? Z.to_nat a + length x)%nat then nth_error x (i - Z.to_nat a) else nth_error l i.
  Proof.
    intros H1 H2. unfold paste. rewrite !nth_app, nth_firstn, nth_skipn, firstn_length. replace (Nat.min (Z.to_nat a) (length l)) with (Z.to_nat a) by lia.
    destruct (Nat.ltb_spec i (Z.to_nat a)); [reflexivity|].
    destruct (Nat.ltb_spec (i - Z.to_nat a) (length x)), (Nat.ltb_spec i (Z.to_nat a + length x)); try lia; auto. f_equal. lia.
  Qed.
  Lemma paste_length a x (l : list A) : 0 <= a -> a + Z.of_nat (length x) <= Z.of_nat (length l) -> length (paste a x l) = length l.
  Proof. intros H1 H2. unfold paste. rewrite !app_length, firstn_length, skipn_length. lia. Qed.
  Lemma cut_length a b (l : list A) : 0 <= a <= b -> b <= Z.of_nat (length l) -> length (cut (a, b) l) = Z.to_nat (b - a).
  Proof. intros H1 H2. unfold cut. cbn [fst snd]. rewrite firstn_length, skipn_length. lia. Qed.
  Lemma cut_paste a b x (l : list A) : 0 <= a <= b -> b <= Z.of_nat (length l) -> Z.of_nat (length x) = b - a -> cut (a, b) (paste a x l) = x.
  Proof.
    intros H1 H2 H3. apply nth_ext_list. intros i. rewrite nth_cut, nth_paste by lia.
    destruct (Nat.ltb_spec (Z.to_nat a + i) (Z.to_nat a)); [lia|].
    destruct (Nat.ltb_spec i (Z.to_nat (b - a))), (Nat.ltb_spec (Z.to_nat a + i) (Z.to_nat a + length x)); try lia.
    - f_equal. lia.
    - symmetry. apply nth_error_None. lia.
  Qed.
  Lemma cut_paste_other a b c x (l : list A) : 0 <= a <= b -> 0 <= c -> c + Z.of_nat (length x) <= Z.of_nat (length l) ->
    b <= c \/ c + Z.of_nat (length x) <= a -> cut (a, b) (paste c x l) = cut (a, b) l.
  Proof.
    intros H1 H2 H3 H4. apply nth_ext_list. intros i. rewrite !nth_cut, nth_paste by lia.
    destruct (Nat.ltb_spec i (Z.to_nat (b - a))); [|reflexivity].
    destruct (Nat.ltb_spec (Z.to_nat a + i) (Z.to_nat c)); [reflexivity|]. destruct (Nat.ltb_spec (Z.to_nat a + i) (Z.to_nat c + length x)); [lia|reflexivity].
  Qed.
  Lemma paste_cut a b (l : list A) : 0 <= a <= b -> b <= Z.of_nat (length l) -> paste a (cut (a, b) l) l = l.
  Proof.
    intros H1 H2. apply nth_ext_list. intros i. rewrite nth_paste, cut_length by lia. destruct (Nat.ltb_spec i (Z.to_nat a)); [reflexivity|].
    destruct (Nat.ltb_spec i (Z.to_nat a + Z.to_nat (b - a))); [|reflexivity]. rewrite nth_cut by lia.
    destruct (Nat.ltb_spec (i - Z.to_nat a) (Z.to_nat (b - a))); [|lia]. f_equal. lia.
  Qed.
End Parts.

(** ** Batches *)
(** One after the other from a to n, none empty *)
Fixpoint chained (a n : Z) (l : list (Z * Z)) : Prop :=
  match l with [] => a = n | (x, y) :: l => x = a /\ x < y /\ chained y n l end.
Lemma chained_bounds n l : forall a, chained a n l -> a <= n /\ forall x y, In (x, y) l -> a <= x < y /\ y <= n.
Proof.
  induction l as [|[x y] l IH]; intros a H; cbn in H; [subst; split; [lia|intros ? ? []]|].
  destruct H as (-> & H1 & H2). destruct (IH y H2) as [H3 H4]. split; [lia|]. intros u v [E|E]; [injection E as -> ->; lia|]. specialize (H4 u v E). lia.
Qed.
Lemma chained_app n l1 l2 : forall a, chained a n (l1 ++ l2) -> exists b, chained a b l1 /\ chained b n l2.
Proof.
  induction l1 as [|[x y] l1 IH]; intros a H; cbn in *; [exists a; auto|]. destruct H as (-> & H1 & H2). destruct (IH y H2) as (b & H3 & H4). exists b. auto.
Qed.
Lemma chained_concat {A} n l : forall a (r : list A), 0 <= a -> chained a n l -> n = Z.of_nat (length r) ->
  concat (map (fun p => cut p r) l) = skipn (Z.to_nat a) r.
Proof.
  induction l as [|[x y] l IH]; intros a r Ha H Hn; cbn [map concat].
  { cbn in H. subst a. rewrite skipn_all2 by lia. reflexivity. }
  pose proof (chained_bounds n _ a H) as [_ B]. specialize (B x y (or_introl eq_refl)). cbn in H. destruct H as (-> & H1 & H2).
  rewrite (IH y r) by (auto; lia). unfold cut. cbn [fst snd].
  rewrite <- (firstn_skipn (Z.to_nat (y - a)) (skipn (Z.to_nat a) r)) at 2. f_equal.
  apply nth_ext_list. intros i. rewrite !nth_skipn. f_equal. lia.
Qed.
Lemma chained_indices n l : forall a, chained a n l -> concat (map (fun p => zrange (fst p) (snd p)) l) = zrange a n.
Proof.
  induction l as [|[x y] l IH]; intros a H; cbn in *; [subst; symmetry; apply zrange_nil; lia|]. destruct H as (-> & H1 & H2).
  rewrite (IH y H2). destruct (chained_bounds n l y H2) as [H3 _]. apply zrange_app; lia.
Qed.
Lemma batches_chained b n m : 0 < b -> 0 <= n -> m = (n + b - 1) / b ->
  chained 0 n (map (fun k => (k * b, Z.min n ((k + 1) * b))) (zrange 0 m)).
Proof.
  intros Hb Hn Hm. assert (M : 0 <= m /\ (m - 1) * b < n \/ m = 0 /\ n = 0).
  { subst m. destruct (Z.eq_dec n 0) as [->|]; [right; split; auto; apply Z.div_small; lia|left]. split; [apply Z.div_pos; lia|].
    pose proof (Z.mul_div_le (n + b - 1) b). nia. }
  assert (M2 : n <= m * b) by (subst m; pose proof (Z.mul_succ_div_gt (n + b - 1) b); nia).
  assert (G : forall c : nat, forall k, 0 <= k -> m - k = Z.of_nat c -> (k < m -> k * b < n) -> chained (Z.min n (k * b)) n (map (fun k => (k * b, Z.min n ((k + 1) * b))) (zrange k m))).
  { induction c as [|c IH]; intros k Hk E L.
    - rewrite zrange_nil by lia. cbn. assert (k = m) by lia. subst k. lia.
    - rewrite zrange_cons by lia. cbn [map chained]. specialize (L ltac:(lia)). split; [lia|]. split; [nia|]. apply IH; try lia. nia. }
  specialize (G (Z.to_nat m) 0). replace (Z.min n (0 * b)) with 0 in G by lia. apply G; [lia|lia|nia].
Qed.

(** ** The queue *)
Section Queue.
  Variables image sinogram : Type.
  Variable method : list image -> list sinogram -> list image.
  Hypothesis method_length : forall a b, length (method a b) = length a.
  Variable tomo : list sinogram.
  Variable ngpus : nat.
  Variable ids : list (Z * Z).
  Variable recon0 : list image.
  Hypothesis Hids : chained 0 (Z.of_nat (length recon0)) ids.
  Notation step := (step image sinogram method tomo ngpus).
  Notation steps := (steps image sinogram method tomo ngpus).

  Definition res (p : Z * Z) : list image := method (cut p recon0) (cut p tomo).
  Definition used (ts : list ((Z * Z) * phase image)) : list nat :=
    flat_map (fun t => match snd t with Running k | Stored k => [k] | _ => [] end) ts.
  Definition good (r : list image) (t : (Z * Z) * phase image) : Prop :=
    match snd t with
    | Begin | Running _ => cut (fst t) r = cut (fst t) recon0
    | Stored _ => cut (fst t) r = res (fst t)
    | Finished x => cut (fst t) r = res (fst t) /\ x = res (fst t)
    end.
  Record inv (st : state image) : Prop := Inv
    { i_ids : map fst (tasks st) ++ waiting st = ids;
      i_busy : length (busy st) = ngpus;
      i_pool : (length (filter holds (tasks st)) <= ngpus)%nat;
      i_nodup : NoDup (used (tasks st));
      i_used : forall k, nth k (busy st) false = true <-> In k (used (tasks st));
      i_recon : length (recon st) = length recon0;
      i_good : forall t, In t (tasks st) -> good (recon st) t;
      i_wait : forall p, In p (waiting st) -> cut p (recon st) = cut p recon0;
      i_coll : (collected st <= length (tasks st))%nat;
      i_done : forall t, In t (firstn (collected st) (tasks st)) -> holds t = false;
      i_shift : chained 0 (shift st) (firstn (collected st) ids) }.

  Lemma filter_app_holds (l1 l2 : list ((Z * Z) * phase image)) : length (filter holds (l1 ++ l2)) = (length (filter holds l1) + length (filter holds l2))%nat.
  Proof. rewrite filter_app, app_length. reflexivity. Qed.
  Lemma used_app l1 l2 : used (l1 ++ l2) = used l1 ++ used l2.
  Proof. unfold used. apply flat_map_app. Qed.
  Lemma used_short ts : (length (used ts) <= length (filter holds ts))%nat.
  Proof. unfold used. induction ts as [|[p [|k|k|x]] ts IH]; cbn [flat_map filter holds snd app length] in *; lia. Qed.
  Lemma first_free_none b : first_free b = None -> forall k, (k < length b)%nat -> nth k b false = true.
  Proof.
    induction b as [|[] b IH]; cbn; intros H k Hk; try lia; [|discriminate]. destruct (first_free b); [discriminate|]. destruct k; auto. apply IH; auto; lia.
  Qed.
  Lemma first_free_some b k : first_free b = Some k -> (k < length b)%nat /\ nth k b false = false.
  Proof.
    revert k. induction b as [|[] b IH]; cbn; intros k H; try discriminate.
    - destruct (first_free b) as [m|]; [|discriminate]. injection H as <-. destruct (IH m eq_refl). split; [lia|auto].
    - injection H as <-. split; [lia|auto].
  Qed.
  Lemma ids_in (ts1 ts2 : list ((Z * Z) * phase image)) p ph w : map fst (ts1 ++ (p, ph) :: ts2) ++ w = ids -> 0 <= fst p < snd p /\ snd p <= Z.of_nat (length recon0).
  Proof.
    intros E. destruct (chained_bounds _ _ _ Hids) as [_ B]. destruct p as [x y]. specialize (B x y). cbn. assert (In (x, y) ids); [|specialize (B H); lia].
    rewrite <- E, map_app. cbn. rewrite !in_app_iff. cbn. tauto.
  Qed.
  Lemma ids_NoDup n l : forall a, chained a n l -> NoDup l.
  Proof.
    induction l as [|[x y] l IH]; intros a H; [constructor|]. cbn in H. destruct H as (-> & H1 & H2). constructor; [|eauto].
    intros G. destruct (chained_bounds n l y H2) as [_ B]. specialize (B _ _ G). lia.
  Qed.
  Lemma ids_disjoint n l : forall a p q, chained a n l -> In p l -> In q l -> p <> q -> snd p <= fst q \/ snd q <= fst p.
  Proof.
    induction l as [|[x y] l IH]; intros a p q H Hp Hq N; [easy|]. cbn in H. destruct H as (-> & H1 & H2). destruct (chained_bounds n l y H2) as [_ B].
    destruct Hp as [<-|Hp], Hq as [<-|Hq]; try easy.
    - left. destruct q as [u v]. specialize (B u v Hq). cbn. lia.
    - right. destruct p as [u v]. specialize (B u v Hp). cbn. lia.
    - eauto.
  Qed.
  Lemma inv_start : inv (start ngpus ids recon0).
  Proof.
    split; cbn; auto; try lia.
    - apply repeat_length.
    - constructor.
    - intros k. split; [|easy]. intros H. destruct (Nat.ltb_spec k ngpus).
      + rewrite nth_repeat in H. discriminate.
      + rewrite nth_overflow in H by (rewrite repeat_length; lia). discriminate.
  Qed.
  Lemma firstn_done (ts1 : list ((Z * Z) * phase image)) p ph ts2 c : holds (p, ph) = true -> (forall t, In t (firstn c (ts1 ++ (p, ph) :: ts2)) -> holds t = false) -> (c <= length ts1)%nat.
  Proof.
    intros H G. destruct (Nat.leb_spec c (length ts1)); auto. exfalso. assert (E : holds (p, ph) = false); [|congruence]. apply G.
    rewrite firstn_app. apply in_app_iff. right. replace (c - length ts1)%nat with (S (c - length ts1 - 1)) by lia. now left.
  Qed.
  Lemma done_swap (ts1 : list ((Z * Z) * phase image)) p ph ph' ts2 c : (c <= length ts1)%nat ->
    firstn c (ts1 ++ (p, ph) :: ts2) = firstn c (ts1 ++ (p, ph') :: ts2).
  Proof. intros H. rewrite !firstn_app. replace (c - length ts1)%nat with 0%nat by lia. reflexivity. Qed.
  Lemma in_swap (ts1 : list ((Z * Z) * phase image)) x y ts2 t : In t (ts1 ++ x :: ts2) -> t = x \/ In t (ts1 ++ y :: ts2).
  Proof. rewrite !in_app_iff. cbn. intuition auto. Qed.
  Lemma ids_swap (ts1 : list ((Z * Z) * phase image)) p ph ph' ts2 : map fst (ts1 ++ (p, ph) :: ts2) = map fst (ts1 ++ (p, ph') :: ts2).
  Proof. rewrite !map_app. reflexivity. Qed.

  Lemma inv_step st st' : inv st -> step st (Some st') -> inv st'.
  Proof.
    intros [I1 I2 I3 I4 I5 I6 I7 I8 I9 I10 I11] H. inversion H; subst; clear H; cbn [waiting tasks busy recon collected shift] in *.
    - (* take *)
      split; cbn [waiting tasks busy recon collected shift]; auto.
      + rewrite map_app, <- app_assoc. exact I1.
      + rewrite filter_app_holds. cbn. lia.
      + rewrite used_app. cbn. now rewrite app_nil_r.
      + intros k. rewrite used_app. cbn. rewrite app_nil_r. apply I5.
      + intros t Ht. apply in_app_iff in Ht as [Ht|[<-|[]]]; auto. unfold good. cbn. apply I8. now left.
      + intros p Hp. apply I8. now right.
      + rewrite app_length. lia.
      + intros t Ht. apply I10. rewrite firstn_app in Ht. replace (c - length ts)%nat with 0%nat in Ht by lia. cbn in Ht. now rewrite app_nil_r in Ht.
    - (* acquire *)
      match goal with H : first_free _ = Some _ |- _ => rename H into H1 end.
      destruct (first_free_some _ _ H1) as [F1 F2].
      assert (N : ~ In k (used (ts1 ++ (ids0, Begin) :: ts2))) by (intros G; apply I5 in G; congruence).
      assert (U : used (ts1 ++ (ids0, Running k) :: ts2) = used ts1 ++ k :: used ts2) by (rewrite used_app; reflexivity).
      assert (U0 : used (ts1 ++ (ids0, Begin) :: ts2) = used ts1 ++ used ts2) by (rewrite used_app; reflexivity).
      pose proof (firstn_done ts1 ids0 Begin ts2 c eq_refl I10) as C.
      split; cbn [waiting tasks busy recon collected shift]; auto.
      + rewrite (ids_swap _ _ _ Begin). exact I1.
      + rewrite upd_length. auto.
      + rewrite filter_app_holds in *. cbn in *. lia.
      + rewrite U. rewrite U0 in I4, N. apply NoDup_Add with (a := k) (l := used ts1 ++ used ts2); [apply Add_app|]. split; auto.
      + intros j. rewrite U. rewrite in_app_iff. cbn. specialize (I5 j). rewrite U0, in_app_iff in I5. destruct (Nat.eq_dec k j) as [<-|E].
        * rewrite nth_upd_eq by auto. tauto.
        * rewrite nth_upd_ne by auto. rewrite I5. intuition congruence.
      + intros t Ht. destruct (in_swap _ _ (ids0, Begin) _ t Ht) as [->|Ht']; [|auto]. specialize (I7 (ids0, Begin)). apply I7. apply in_app_iff. right. now left.
      + rewrite app_length in *. cbn in *. lia.
      + rewrite (done_swap ts1 ids0 (Running k) Begin ts2 c C). auto.
    - (* compute *)
      destruct (ids_in _ _ _ _ _ I1) as [B1 B2]. destruct ids0 as [x y]. cbn [fst snd] in *.
      pose proof (I7 (x, y, Running k) ltac:(apply in_app_iff; right; now left)) as G. unfold good in G. cbn [fst snd] in G.
      assert (L : Z.of_nat (length (method (cut (x, y) r) (cut (x, y) tomo))) = y - x) by (rewrite method_length, cut_length by lia; lia).
      pose proof (firstn_done ts1 (x, y) (Running k) ts2 c eq_refl I10) as C.
      assert (O : forall p, In p ids -> p <> (x, y) -> cut p (paste x (method (cut (x, y) r) (cut (x, y) tomo)) r) = cut p r).
      { intros [u v] Hp Hne. destruct (chained_bounds _ _ _ Hids) as [_ BB]. specialize (BB u v Hp).
        assert (In (x, y) ids) by (rewrite <- I1, map_app; cbn; rewrite !in_app_iff; cbn; tauto).
        destruct (ids_disjoint _ _ _ _ _ Hids Hp H Hne) as [D|D]; cbn in D; apply cut_paste_other; lia. }
      assert (ND : NoDup (map fst (ts1 ++ (x, y, Running k) :: ts2) ++ w)) by (rewrite I1; eapply ids_NoDup; eauto).
      split; cbn [waiting tasks busy recon collected shift]; auto.
      + rewrite (ids_swap _ _ _ (Running k)). exact I1.
      + rewrite filter_app_holds in *. cbn in *. lia.
      + rewrite used_app in *. exact I4.
      + intros j. rewrite I5. rewrite !used_app. reflexivity.
      + rewrite paste_length by lia. auto.
      + intros t Ht. apply in_app_iff in Ht as [Ht|[<-|Ht]].
        * assert (T : fst t <> (x, y) /\ In (fst t) ids).
          { rewrite <- I1. rewrite map_app in *. cbn [map fst] in *. rewrite <- app_assoc in *. split.
            - apply NoDup_split in ND as (_ & _ & D). intros E. apply (D (fst t)); [now apply in_map|]. left. auto.
            - apply in_app_iff. left. now apply in_map. }
          destruct T as [T1 T2]. specialize (I7 t ltac:(apply in_app_iff; now left)). unfold good in *. rewrite (O (fst t) T2 T1). exact I7.
        * unfold good. cbn [fst snd]. rewrite cut_paste by lia. unfold res. now rewrite G.
        * assert (T : fst t <> (x, y) /\ In (fst t) ids).
          { rewrite <- I1. rewrite map_app in *. cbn [map fst] in *. rewrite <- app_assoc in *. split.
            - apply NoDup_split in ND as (_ & D & _). cbn in D. inversion D as [|? ? D1 D2]; subst. intros E. apply D1. rewrite <- E. apply in_app_iff. left. now apply in_map.
            - apply in_app_iff. right. right. apply in_app_iff. left. now apply in_map. }
          destruct T as [T1 T2]. specialize (I7 t ltac:(apply in_app_iff; right; now right)). unfold good in *. rewrite (O (fst t) T2 T1). exact I7.
      + intros p Hp. rewrite O; auto.
        * rewrite <- I1. apply in_app_iff. now right.
        * intros ->. apply NoDup_split in ND as (_ & _ & D). apply (D (x, y)); auto. rewrite map_app. apply in_app_iff. right. now left.
      + rewrite app_length in *. cbn in *. lia.
      + rewrite (done_swap ts1 (x, y) (Stored k) (Running k) ts2 c C). auto.
    - (* release *)
      pose proof (firstn_done ts1 ids0 (Stored k) ts2 c eq_refl I10) as C.
      assert (U : used (ts1 ++ (ids0, Stored k) :: ts2) = used ts1 ++ k :: used ts2) by (rewrite used_app; reflexivity).
      assert (U0 : used (ts1 ++ (ids0, Finished (cut ids0 r)) :: ts2) = used ts1 ++ used ts2) by (rewrite used_app; reflexivity).
      rewrite U in I4. pose proof (NoDup_remove_1 _ _ _ I4) as N1. pose proof (NoDup_remove_2 _ _ _ I4) as N2.
      split; cbn [waiting tasks busy recon collected shift]; auto.
      + rewrite (ids_swap _ _ _ (Stored k)). exact I1.
      + rewrite upd_length. auto.
      + rewrite filter_app_holds in *. cbn in *. lia.
      + rewrite U0. auto.
      + intros j. rewrite U0. specialize (I5 j). rewrite U in I5. rewrite in_app_iff in *. cbn in I5. destruct (Nat.eq_dec k j) as [<-|E].
        * split.
          -- intros Hn. exfalso. destruct (Nat.ltb_spec k (length b)); [rewrite nth_upd_eq in Hn by auto; discriminate|].
             rewrite nth_overflow in Hn by (rewrite upd_length; lia). discriminate.
          -- intros Hn. exfalso. tauto.
        * rewrite nth_upd_ne by auto. rewrite I5. intuition congruence.
      + intros t Ht. destruct (in_swap _ _ (ids0, Stored k) _ t Ht) as [->|Ht']; [|auto].
        specialize (I7 (ids0, Stored k) ltac:(apply in_app_iff; right; now left)). unfold good in *. cbn in *. split; auto.
      + rewrite app_length in *. cbn in *. lia.
      + rewrite (done_swap ts1 ids0 (Finished (cut ids0 r)) (Stored k) ts2 c C). auto.
    - (* collect *)
      match goal with H : nth_error _ _ = Some _ |- _ => rename H into H1 end.
      pose proof (nth_error_split ts c H1) as (ts1 & ts2 & E & Ec). subst ts.
      destruct (ids_in _ _ _ _ _ I1) as [B1 B2]. destruct ids0 as [u v]. cbn [fst snd] in *.
      pose proof (I7 (u, v, Finished x) ltac:(apply in_app_iff; right; now left)) as G. unfold good in G. cbn [fst snd] in G. destruct G as [G1 G2].
      assert (Ex : x = cut (u, v) r) by congruence. clear G2.
      assert (Hf : firstn (S c) ids = firstn c ids ++ [(u, v)]).
      { rewrite <- I1, map_app. cbn [map fst]. rewrite <- app_assoc. rewrite <- app_comm_cons. rewrite !firstn_app, !map_length.
        replace (S c - length ts1)%nat with 1%nat by lia. replace (c - length ts1)%nat with 0%nat by lia. rewrite (firstn_all2 (n := S c) (map fst ts1)), (firstn_all2 (n := c) (map fst ts1)) by (rewrite map_length; lia).
        cbn [firstn]. now rewrite app_nil_r. }
      assert (Hs : s = u).
      { pose proof Hids as HH. rewrite <- (firstn_skipn (S c) ids), Hf in HH. rewrite <- app_assoc in HH. cbn [app] in HH.
        apply chained_app in HH as (b0 & H2 & H3). cbn in H3. destruct H3 as (-> & _).
        clear - I11 H2. revert I11 H2. generalize (firstn c ids) 0. intros l. induction l as [|[p q] l IH]; cbn; intros a A1 A2; [congruence|].
        destruct A1 as (-> & _ & A1), A2 as (_ & _ & A2). eauto. }
      assert (Lx : Z.of_nat (length x) = v - u) by (rewrite Ex, cut_length by lia; lia).
      assert (P : paste s x r = r) by (rewrite Hs, Ex; apply paste_cut; lia).
      rewrite P.
      split; cbn [waiting tasks busy recon collected shift]; auto.
      + rewrite app_length. cbn. lia.
      + intros t Ht. rewrite firstn_app in Ht. replace (S c - length ts1)%nat with 1%nat in Ht by lia. rewrite (firstn_all2 (n := S c) ts1) in Ht by lia.
        cbn in Ht. apply in_app_iff in Ht as [Ht|[<-|[]]]; [|reflexivity].
        apply I10. rewrite firstn_app. apply in_app_iff. left. rewrite firstn_all2 by lia. auto.
      + rewrite Hf. rewrite Lx, Hs. replace (u + (v - u)) with v by lia.
        rewrite Hs in I11. clear - I11 B1. revert I11. generalize (firstn c ids) 0. intros l. induction l as [|[p q] l IH]; cbn; intros a A1; [subst; lia|].
        destruct A1 as (-> & A2 & A3). auto.
  Qed.
  Lemma inv_steps st : steps (start ngpus ids recon0) st -> inv st.
  Proof.
    intros H. remember (start ngpus ids recon0) as s0 eqn:E. induction H as [st|st st1 st2 _ IH H]; subst; [apply inv_start|]. eapply inv_step; eauto.
  Qed.
  Lemma inv_no_crash st : inv st -> ~ step st None.
  Proof.
    intros [I1 I2 I3 I4 I5 I6 I7 I8 I9 I10 I11] H. inversion H as [|? ? ? ? ? ? ? ? ? ?|w ts1 ids0 ts2 b r c s F Est| | |]; subst st; cbn [waiting tasks busy recon collected shift] in *.
    assert (L : incl (seq 0 ngpus) (used (ts1 ++ (ids0, Begin) :: ts2))).
    { intros k Hk. apply in_seq in Hk. apply I5. apply first_free_none; auto. lia. }
    apply NoDup_incl_length in L; [|apply seq_NoDup]. rewrite seq_length in L.
    rewrite used_app in L. cbn in L. rewrite app_length in L. rewrite filter_app_holds in I3. cbn in I3.
    pose proof (used_short ts1). pose proof (used_short ts2). unfold used in *. lia.
  Qed.
  Lemma inv_final st : inv st -> final st -> recon st = concat (map res ids).
  Proof.
    intros [I1 I2 I3 I4 I5 I6 I7 I8 I9 I10 I11] (F1 & F2 & F3). rewrite F1, app_nil_r in I1.
    assert (E : map res ids = map (fun p => cut p (recon st)) ids).
    { apply map_ext_in. intros p Hp. rewrite <- I1 in Hp. apply in_map_iff in Hp as (t & <- & Ht). specialize (I7 t Ht). specialize (F3 t Ht).
      unfold good in I7. destruct t as [p [|k|k|x]]; cbn in *; try discriminate. now destruct I7. }
    rewrite E. rewrite (chained_concat (Z.of_nat (length recon0)) ids 0 (recon st)); auto; lia.
  Qed.
  Lemma inv_progress st : (1 <= ngpus)%nat -> inv st -> final st \/ exists st', step st (Some st').
  Proof.
    intros Hg I. pose proof (inv_no_crash st I) as NC. destruct I as [I1 I2 I3 I4 I5 I6 I7 I8 I9 I10 I11]. destruct st as [w ts b r c s]. cbn [waiting tasks busy recon collected shift] in *.
    assert (P : (forall t, In t ts -> holds t = false) \/ exists ts1 p ph ts2, ts = ts1 ++ (p, ph) :: ts2 /\ holds (p, ph) = true).
    { clear. induction ts as [|[p ph] ts IH]; [left; intros t []|]. destruct (holds (p, ph)) eqn:E.
      - right. exists [], p, ph, ts. auto.
      - destruct IH as [IH|(ts1 & p' & ph' & ts2 & -> & IH)]; [left; intros t [<-|]; auto|]. right. exists ((p, ph) :: ts1), p', ph', ts2. auto. }
    destruct P as [P|(ts1 & p & ph & ts2 & -> & P)].
    - destruct w as [|q w].
      + destruct (Nat.eq_dec c (length ts)) as [->|N]; [left; repeat split; auto|]. right.
        destruct (nth_error ts c) as [[p ph]|] eqn:E; [|apply nth_error_None in E; lia]. specialize (P (p, ph) ltac:(eapply nth_error_In; eauto)).
        destruct ph; try discriminate. eexists. eapply collect; eauto.
      + right. eexists. apply take. assert (E : filter holds ts = []); [|rewrite E; cbn; lia].
        clear - P. induction ts as [|t ts IH]; [reflexivity|]. cbn. rewrite P by now left. apply IH. intros u Hu. apply P. now right.
    - right. destruct ph as [|k|k|x]; try discriminate.
      + destruct (first_free b) as [k|] eqn:E.
        * eexists. eapply acquire; eauto.
        * exfalso. apply NC. now apply crash.
      + eexists. apply compute.
      + eexists. apply release.
  Qed.
  (** Every step makes the rest shorter by one. *)
  Definition weight (t : (Z * Z) * phase image) : nat := match snd t with Begin => 3 | Running _ => 2 | Stored _ => 1 | Finished _ => 0 end.
  Definition rest (st : state image) : nat :=
    (4 * length (waiting st) + list_sum (map weight (tasks st)) + (length (tasks st) + length (waiting st) - collected st))%nat.
  Lemma rest_step st st' : step st (Some st') -> (collected st <= length (tasks st))%nat -> rest st = S (rest st').
  Proof.
    intros H C. inversion H; subst; unfold rest; cbn [waiting tasks busy recon collected shift] in *.
    all: try (assert (c < length ts)%nat by (apply nth_error_Some; congruence)).
    all: rewrite ?map_app, ?list_sum_app, ?app_length; cbn [map list_sum fold_right length]; unfold list_sum; cbn [fold_right].
    all: unfold weight; cbn [snd fold_right]; try lia.
  Qed.
  Lemma rest_final st : final st -> rest st = 0%nat.
  Proof.
    intros (A & B & D). unfold rest. rewrite A, B. cbn [length]. assert (E : list_sum (map weight (tasks st)) = 0%nat); [|lia].
    clear - D. induction (tasks st) as [|t l IH]; [reflexivity|]. cbn. fold (list_sum (map weight l)). rewrite IH by (intros u Hu; apply D; now right). specialize (D t ltac:(now left)).
    unfold weight, holds in *. destruct (snd t); easy.
  Qed.
End Queue.
