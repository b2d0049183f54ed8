(** Proofs about Model_Ring: sorting of value/position pairs and the rolling median. *)
From Verif Require Import Base CLoop Order Model_Solver Model_Ring Spec_Ring.
From Coq Require Import Sorted.
Local Open Scope Z_scope.

Lemma for_range_ind {S} (P : Z -> S -> Prop) a b (body : Z -> S -> S) s :
  a <= b -> P a s -> (forall q s, a <= q < b -> P q s -> P (q + 1) (body q s)) -> P b (for_range a b body s).
Proof.
  intros Hab H0 Hs. unfold for_range.
  assert (G : forall k, a + Z.of_nat k <= b -> P (a + Z.of_nat k) (fold_left (fun s j => body j s) (zrange a (a + Z.of_nat k)) s)).
  { induction k as [|k IH]; intros Hk.
    - rewrite Z.add_0_r. rewrite zrange_nil by lia. exact H0.
    - replace (a + Z.of_nat (Datatypes.S k)) with (a + Z.of_nat k + 1) by lia.
      rewrite zrange_snoc by lia. rewrite fold_left_app. cbn. apply Hs; [lia|]. apply IH. lia. }
  specialize (G (Z.to_nat (b - a))). rewrite Z2Nat.id in G by lia. replace (a + (b - a)) with b in G by lia. apply G. lia.
Qed.

Lemma for_range_nil {S} a b (body : Z -> S -> S) s : b <= a -> for_range a b body s = s.
Proof. intros H. unfold for_range. now rewrite zrange_nil. Qed.

Lemma swap_l {A} (a : arr A) i j : swap a i j i = a j.
Proof. unfold swap, aset. destruct (i =? j) eqn:E; [f_equal; lia|]. now rewrite Z.eqb_refl. Qed.
Lemma swap_r {A} (a : arr A) i j : swap a i j j = a i.
Proof. unfold swap, aset. now rewrite Z.eqb_refl. Qed.
Lemma swap_o {A} (a : arr A) i j k : k <> i -> k <> j -> swap a i j k = a k.
Proof. intros H1 H2. unfold swap. now rewrite !aset_ne. Qed.
(** The index whose old content is at [k]. *)
Definition tr (i j k : Z) : Z := if k =? i then j else if k =? j then i else k.
Lemma swap_tr {A} (a : arr A) i j k : swap a i j k = a (tr i j k).
Proof.
  unfold tr. destruct (k =? i) eqn:E1; [replace k with i by lia; apply swap_l|].
  destruct (k =? j) eqn:E2; [replace k with j by lia; apply swap_r|]. apply swap_o; lia.
Qed.
Lemma tr_range i j k l r : l <= i <= r -> l <= j <= r -> l <= k <= r -> l <= tr i j k <= r.
Proof. unfold tr. intros. destruct (k =? i); [lia|]. destruct (k =? j); lia. Qed.
Lemma tr_inj i j k k' : tr i j k = tr i j k' -> k = k'.
Proof. unfold tr. destruct (k =? i) eqn:?, (k' =? i) eqn:?, (k =? j) eqn:?, (k' =? j) eqn:?; lia. Qed.

Section Median.
  Context {V : Type} (D : V -> Prop) (lt le : V -> V -> bool) (zero : V).

  (** Every one of the n positions occurs once, next to its value. *)
  Definition tracks (w : Z -> V) (n : Z) (st : arr V * arr Z) : Prop :=
    (forall i, 0 <= i < n -> 0 <= snd st i < n) /\
    (forall i j, 0 <= i < n -> 0 <= j < n -> snd st i = snd st j -> i = j) /\
    (forall i, 0 <= i < n -> fst st i = w (snd st i)).

  Lemma tracks_swap w n st i j : 0 <= i < n -> 0 <= j < n -> tracks w n st -> tracks w n (swap2 st i j).
  Proof.
    intros Hi Hj (H1 & H2 & H3). unfold swap2. split; [|split]; cbn [fst snd].
    - intros k Hk. rewrite swap_tr. apply H1. pose proof (tr_range i j k 0 (n - 1)). lia.
    - intros k k' Hk Hk'. rewrite !swap_tr. intros E. apply (tr_inj i j).
      pose proof (tr_range i j k 0 (n - 1)). pose proof (tr_range i j k' 0 (n - 1)). apply H2; auto; lia.
    - intros k Hk. rewrite !swap_tr. apply H3. pose proof (tr_range i j k 0 (n - 1)). lia.
  Qed.

  (** Only [l..r] is touched, and no value is new there. *)
  Definition keeps (l r : Z) (st st' : arr V * arr Z) : Prop :=
    (forall i, i < l \/ r < i -> fst st' i = fst st i) /\
    (forall P : V -> Prop, (forall i, l <= i <= r -> P (fst st i)) -> forall i, l <= i <= r -> P (fst st' i)) /\
    (forall w n, 0 <= l -> r < n -> tracks w n st -> tracks w n st').

  Lemma keeps_refl l r st : keeps l r st st.
  Proof. split; [|split]; auto. Qed.
  Lemma keeps_trans l r a b c : keeps l r a b -> keeps l r b c -> keeps l r a c.
  Proof.
    intros (A1 & A2 & A3) (B1 & B2 & B3). split; [|split].
    - intros i Hi. rewrite B1 by auto. auto.
    - intros P HP. apply B2. now apply A2.
    - intros w n Hl Hr T. apply B3; auto.
  Qed.
  Lemma keeps_swap l r st i j : l <= i <= r -> l <= j <= r -> keeps l r st (swap2 st i j).
  Proof.
    intros Hi Hj. split; [|split].
    - intros k Hk. unfold swap2; cbn. apply swap_o; lia.
    - intros P HP k Hk. unfold swap2; cbn. rewrite swap_tr. apply HP. now apply tr_range.
    - intros w n Hl Hr T. apply tracks_swap; auto; lia.
  Qed.
  Lemma keeps_weaken l r l' r' a b : l' <= l -> r <= r' -> keeps l r a b -> keeps l' r' a b.
  Proof.
    intros Hl Hr (A1 & A2 & A3). split; [|split].
    - intros i Hi. apply A1. lia.
    - intros P HP i Hi. destruct (Z_le_dec l i) as [Gl|Gl]; [|rewrite A1 by lia; auto].
      destruct (Z_le_dec i r) as [Gr|Gr]; [|rewrite A1 by lia; auto].
      apply A2; [|lia]. intros k Hk. apply HP. lia.
    - intros w n H1 H2. apply A3; lia.
  Qed.

  Lemma partition_spec st left right piv :
    left <= piv <= right ->
    let '(st', p) := partition le st left right piv in
    left <= p <= right /\ keeps left right st st' /\ fst st' p = fst st piv /\
    (forall i, left <= i < p -> le (fst st' i) (fst st' p) = true) /\
    (forall i, p < i <= right -> le (fst st' i) (fst st' p) = false).
  Proof.
    intros Hp. unfold partition.
    set (pv := fst st piv). set (st1 := swap2 st piv right).
    match goal with |- context [for_range left right ?f _] => set (body := f) end.
    pose proof (for_range_ind (fun i (s : arr V * arr Z * Z) => let '(st', sx) := s in
       left <= sx <= i /\ keeps left right st st' /\ fst st' right = pv /\
       (forall k, left <= k < sx -> le (fst st' k) pv = true) /\ (forall k, sx <= k < i -> le (fst st' k) pv = false))
       left right body (st1, left)) as L.
    destruct (for_range left right body (st1, left)) as [st2 sx] eqn:E2. rewrite (E2 : @for_range (arr V * arr Z * Z) left right body (st1, left) = (st2, sx)) in L.
    lapply L; [clear L; intros L; lapply L; [clear L; intros L; lapply L; [clear L; intros (R & K & Er & L1 & L2)|]|]|].
    - split; [lia|]. split; [eapply keeps_trans; [exact K|apply keeps_swap; lia]|].
      unfold swap2; cbn [fst]. rewrite swap_l. split; [auto|]. rewrite Er. split; intros i Hi.
      + rewrite swap_o by lia. auto.
      + destruct (Z.eq_dec i right) as [->|Hn].
        * rewrite swap_r. apply L2. lia.
        * rewrite swap_o by lia. apply L2. lia.
    - intros q [s x] Hq (R & K & Er & L1 & L2). unfold body. cbv beta iota. match goal with |- context [if ?c then _ else _] => destruct c eqn:El end.
      + split; [lia|]. split; [eapply keeps_trans; [exact K|apply keeps_swap; lia]|].
        unfold swap2; cbn [fst]. split; [rewrite swap_o by lia; auto|].
        split; intros k Hk.
        * destruct (Z.eq_dec k x) as [->|Hn]; [now rewrite swap_r|].
          rewrite swap_o by lia. apply L1. lia.
        * destruct (Z.eq_dec k q) as [->|Hn].
          -- rewrite swap_l. apply L2. lia.
          -- rewrite swap_o by lia. apply L2. lia.
      + split; [lia|]. split; [auto|]. split; [auto|]. split; [auto|].
        intros k Hk. destruct (Z.eq_dec k q) as [->|Hn]; auto. apply L2. lia.
    - split; [lia|]. split; [apply keeps_swap; lia|]. split; [apply swap_r|]. split; intros; lia.
    - lia.
  Qed.

  Lemma quick_sort_keeps fuel : forall (st : arr V * arr Z) left right, keeps left right st (quick_sort le fuel st left right).
  Proof.
    induction fuel as [|fuel IH]; intros st left right; cbn [quick_sort]; [apply keeps_refl|].
    destruct (left <? right) eqn:E; [|apply keeps_refl].
    pose proof (partition_spec st left right (Z.quot (left + right) 2)) as P.
    destruct (partition le st left right _) as [st1 p].
    assert (Hq : left <= Z.quot (left + right) 2 <= right).
    { pose proof (Z.quot_rem' (left + right) 2). destruct (Z_le_dec 0 (left + right)).
      - pose proof (Z.rem_bound_pos (left + right) 2). lia.
      - pose proof (Z.rem_bound_neg_pos (left + right) 2). lia. }
    destruct (P Hq) as (Hp & K & _).
    eapply keeps_trans; [exact K|]. eapply keeps_trans; [apply (keeps_weaken left (p - 1)); [lia|lia|apply IH]|].
    apply (keeps_weaken (p + 1) right); [lia|lia|apply IH].
  Qed.

  Hypothesis wo : weak_order D lt.
  Hypothesis le_lt : forall x y, D x -> D y -> le x y = negb (lt y x).

  Definition sorted_on (l r : Z) (a : arr V) : Prop := forall i j, l <= i < j -> j <= r -> lt (a j) (a i) = false.

  Lemma quick_sort_sorted fuel : forall (st : arr V * arr Z) left right,
    (forall i, left <= i <= right -> D (fst st i)) -> right - left + 1 < Z.of_nat fuel ->
    sorted_on left right (fst (quick_sort le fuel st left right)).
  Proof.
    induction fuel as [|fuel IH]; intros st left right HD Hf; cbn [quick_sort]; [intros i j; lia|].
    destruct (left <? right) eqn:E; [|intros i j; lia].
    pose proof (partition_spec st left right (Z.quot (left + right) 2)) as P.
    destruct (partition le st left right _) as [st1 p].
    assert (Hq : left <= Z.quot (left + right) 2 <= right).
    { pose proof (Z.quot_rem' (left + right) 2). destruct (Z_le_dec 0 (left + right)).
      - pose proof (Z.rem_bound_pos (left + right) 2). lia.
      - pose proof (Z.rem_bound_neg_pos (left + right) 2). lia. }
    destruct (P Hq) as (Hp & (_ & K & _) & _ & Lo & Hi). clear P Hq.
    pose proof (K D HD) as D1.
    pose proof (quick_sort_keeps fuel st1 left (p - 1)) as (A1 & A2 & _).
    pose proof (IH st1 left (p - 1)) as S1.
    set (st2 := quick_sort le fuel st1 left (p - 1)) in *.
    pose proof (quick_sort_keeps fuel st2 (p + 1) right) as (B1 & B2 & _).
    pose proof (IH st2 (p + 1) right) as S2.
    set (st3 := quick_sort le fuel st2 (p + 1) right) in *.
    set (pv := fst st1 p) in *.
    assert (Dpv : D pv) by (apply D1; lia).
    assert (Q1 : forall i, left <= i <= p - 1 -> D (fst st2 i) /\ lt pv (fst st2 i) = false).
    { apply (A2 (fun v => D v /\ lt pv v = false)). intros i Hi'. split; [apply D1; lia|].
      specialize (Lo i). rewrite le_lt in Lo by (auto; apply D1; lia).
      apply negb_true_iff. rewrite Lo by lia. auto. }
    assert (Q2 : forall i, p + 1 <= i <= right -> D (fst st3 i) /\ lt (fst st3 i) pv = false).
    { apply (B2 (fun v => D v /\ lt v pv = false)). intros i Hi'. rewrite A1 by lia. split; [apply D1; lia|].
      specialize (Hi i). rewrite le_lt in Hi by (auto; apply D1; lia).
      apply (wo_asym _ _ wo); [auto|apply D1; lia|]. specialize (Hi ltac:(lia)). now apply negb_false_iff. }
    assert (Ep : fst st3 p = pv) by (rewrite B1 by lia; rewrite A1 by lia; reflexivity).
    intros i j Hij Hj.
    destruct (Z_lt_dec j p) as [Gj|Gj].
    - rewrite !B1 by lia. apply S1; [intros; apply D1; lia|lia|lia|lia].
    - destruct (Z_lt_dec p i) as [Gi|Gi].
      + apply S2; [|lia|lia|lia]. intros k Hk. rewrite A1 by lia. apply D1. lia.
      + assert (Hli : D (fst st3 i) /\ lt pv (fst st3 i) = false).
        { destruct (Z.eq_dec i p) as [->|Hn]; [rewrite Ep; split; auto; now apply (wo_irrefl wo)|].
          rewrite B1 by lia. apply Q1. lia. }
        assert (Hrj : D (fst st3 j) /\ lt (fst st3 j) pv = false).
        { destruct (Z.eq_dec j p) as [->|Hn]; [rewrite Ep; split; auto; now apply (wo_irrefl wo)|].
          apply Q2. lia. }
        destruct Hli, Hrj. apply (wo_neg_trans wo _ pv); auto.
  Qed.

  (** *** Bubbling one element into place *)
  Definition sorted_but (idx n : Z) (a : arr V) : Prop :=
    forall i j, 0 <= i < j -> j < n -> i <> idx -> j <> idx -> lt (a j) (a i) = false.

  Lemma bubble_tracks fuel : forall w n st idx, 2 <= n -> 0 <= idx < n -> tracks w n st -> tracks w n (bubble lt fuel st idx n).
  Proof.
    induction fuel as [|fuel IH]; intros w n st idx Hn Hi T; cbn [bubble]; auto.
    repeat match goal with |- context [if ?c then _ else _] => destruct c eqn:? end; auto;
      apply IH; try lia; apply tracks_swap; auto; lia.
  Qed.

  Lemma bubble_left fuel : forall n (st : arr V * arr Z) idx, 2 <= n -> 0 <= idx < n -> (forall i, 0 <= i < n -> D (fst st i)) ->
    sorted_but idx n (fst st) -> (forall j, idx < j < n -> lt (fst st j) (fst st idx) = false) -> idx < Z.of_nat fuel ->
    sorted_on 0 (n - 1) (fst (bubble lt fuel st idx n)).
  Proof.
    induction fuel as [|fuel IH]; intros n st idx Hn Hi HD S R F; [lia|].
    assert (Done : (idx = 0 \/ lt (fst st idx) (fst st (idx - 1)) = false) -> sorted_on 0 (n - 1) (fst st)).
    { intros L i j Hij Hj. destruct (Z.eq_dec i idx) as [->|Ni]; [apply R; lia|].
      destruct (Z.eq_dec j idx) as [->|Nj]; [|apply S; lia].
      destruct L as [L|L]; [lia|]. destruct (Z.eq_dec i (idx - 1)) as [->|Ni2]; auto.
      apply (wo_neg_trans wo _ (fst st (idx - 1))); auto; try (apply HD; lia). apply S; lia. }
    assert (Move : 0 < idx -> lt (fst st idx) (fst st (idx - 1)) = true ->
       sorted_on 0 (n - 1) (fst (bubble lt fuel (swap2 st idx (idx - 1)) (idx - 1) n))).
    { intros L E. apply IH; [lia|lia|..|lia]; unfold swap2; cbn [fst].
      - intros i H. rewrite swap_tr. apply HD. pose proof (tr_range idx (idx - 1) i 0 (n - 1)). lia.
      - intros i j Hij Hj N1 N2. destruct (Z.eq_dec i idx) as [->|Mi].
        + rewrite swap_l. rewrite swap_o by lia. apply S; lia.
        + destruct (Z.eq_dec j idx) as [->|Mj].
          * rewrite swap_l. rewrite swap_o by lia. apply S; lia.
          * rewrite !swap_o by lia. apply S; lia.
      - intros j Hj. rewrite swap_r. destruct (Z.eq_dec j idx) as [->|Mj].
        + rewrite swap_l. apply (wo_asym _ _ wo); auto; apply HD; lia.
        + rewrite swap_o by lia. apply R. lia. }
    cbn [bubble].
    destruct ((0 <? idx) && (idx <? n - 1)) eqn:E0.
    { destruct (lt (fst st idx) (fst st (idx - 1))) eqn:E1; [apply Move; [lia|auto]|].
      rewrite R by lia. apply Done. auto. }
    destruct (idx =? 0) eqn:E1. { rewrite R by lia. apply Done. lia. }
    destruct (idx =? n - 1) eqn:E2; [|lia].
    destruct (lt (fst st idx) (fst st (idx - 1))) eqn:E3; [apply Move; [lia|auto]|apply Done; auto].
  Qed.

  Lemma bubble_right fuel : forall n (st : arr V * arr Z) idx, 2 <= n -> 0 <= idx < n -> (forall i, 0 <= i < n -> D (fst st i)) ->
    sorted_but idx n (fst st) -> (forall i, 0 <= i < idx -> lt (fst st idx) (fst st i) = false) -> n - 1 - idx < Z.of_nat fuel ->
    sorted_on 0 (n - 1) (fst (bubble lt fuel st idx n)).
  Proof.
    induction fuel as [|fuel IH]; intros n st idx Hn Hi HD S R F; [lia|].
    assert (Done : (idx = n - 1 \/ lt (fst st (idx + 1)) (fst st idx) = false) -> sorted_on 0 (n - 1) (fst st)).
    { intros L i j Hij Hj. destruct (Z.eq_dec j idx) as [->|Nj]; [apply R; lia|].
      destruct (Z.eq_dec i idx) as [->|Ni]; [|apply S; lia].
      destruct L as [L|L]; [lia|]. destruct (Z.eq_dec j (idx + 1)) as [->|Nj2]; auto.
      apply (wo_neg_trans wo _ (fst st (idx + 1))); auto; try (apply HD; lia). apply S; lia. }
    assert (Move : idx < n - 1 -> lt (fst st (idx + 1)) (fst st idx) = true ->
       sorted_on 0 (n - 1) (fst (bubble lt fuel (swap2 st idx (idx + 1)) (idx + 1) n))).
    { intros L E. apply IH; [lia|lia|..|lia]; unfold swap2; cbn [fst].
      - intros i H. rewrite swap_tr. apply HD. pose proof (tr_range idx (idx + 1) i 0 (n - 1)). lia.
      - intros i j Hij Hj N1 N2. destruct (Z.eq_dec i idx) as [->|Mi].
        + rewrite swap_l. rewrite swap_o by lia. apply S; lia.
        + destruct (Z.eq_dec j idx) as [->|Mj].
          * rewrite swap_l. rewrite swap_o by lia. apply S; lia.
          * rewrite !swap_o by lia. apply S; lia.
      - intros j Hj. rewrite swap_r. destruct (Z.eq_dec j idx) as [->|Mj].
        + rewrite swap_l. apply (wo_asym _ _ wo); auto; apply HD; lia.
        + rewrite swap_o by lia. apply R. lia. }
    cbn [bubble].
    destruct ((0 <? idx) && (idx <? n - 1)) eqn:E0.
    { rewrite R by lia. destruct (lt (fst st (idx + 1)) (fst st idx)) eqn:E1; [apply Move; [lia|auto]|apply Done; auto]. }
    destruct (idx =? 0) eqn:E1.
    { destruct (lt (fst st (idx + 1)) (fst st idx)) eqn:E3; [apply Move; [lia|auto]|apply Done; auto]. }
    destruct (idx =? n - 1) eqn:E2; [|lia]. rewrite R by lia. apply Done. lia.
  Qed.

  Lemma bubble_sorted n (st : arr V * arr Z) idx fuel : 2 <= n -> 0 <= idx < n -> (forall i, 0 <= i < n -> D (fst st i)) ->
    sorted_but idx n (fst st) -> n < Z.of_nat fuel -> sorted_on 0 (n - 1) (fst (bubble lt fuel st idx n)).
  Proof.
    intros Hn Hi HD S F.
    destruct (Z.eq_dec idx 0) as [->|N0]; [apply bubble_right; auto; lia|].
    destruct (lt (fst st idx) (fst st (idx - 1))) eqn:E.
    - destruct (Z.eq_dec idx (n - 1)) as [->|N1]; [apply bubble_left; auto; lia|].
      apply bubble_left; auto; [|lia].
      intros j Hj. apply (wo_neg_trans wo _ (fst st (idx - 1))); try (apply HD; lia).
      + apply S; lia.
      + apply (wo_asym _ _ wo); auto; apply HD; lia.
    - apply bubble_right; auto; [|lia].
      intros i Hi'. destruct (Z.eq_dec i (idx - 1)) as [->|N1]; auto.
      apply (wo_neg_trans wo _ (fst st (idx - 1))); auto; try (apply HD; lia). apply S; lia.
  Qed.

  (** *** The middle of the sorted pairs is the median of the window *)
  Lemma tracks_perm w n st : 0 <= n -> tracks w n st -> Permutation (map (snd st) (zrange 0 n)) (zrange 0 n).
  Proof.
    intros Hn (H1 & H2 & _). apply NoDup_Permutation_bis.
    - assert (G : forall l, NoDup l -> (forall x, In x l -> 0 <= x < n) -> NoDup (map (snd st) l)).
      { induction l as [|x l IH]; intros Nl Il; cbn; constructor.
        - intros I. apply in_map_iff in I. destruct I as (y & Ey & Iy). inversion Nl as [|? ? Nx Nl']; subst.
          apply Nx. replace x with y; auto. apply H2; auto; apply Il; cbn; auto.
        - inversion Nl; subst. apply IH; auto. intros; apply Il; cbn; auto. }
      apply G; [apply NoDup_zrange|]. intros x. apply in_zrange.
    - now rewrite map_length.
    - intros x I. apply in_map_iff in I. destruct I as (y & <- & Iy). apply in_zrange in Iy. apply in_zrange. auto.
  Qed.

  Lemma tracks_surj w n st p : tracks w n st -> 0 <= p < n -> exists i, 0 <= i < n /\ snd st i = p.
  Proof.
    intros T Hp. pose proof (tracks_perm w n st ltac:(lia) T) as P.
    assert (I : In p (map (snd st) (zrange 0 n))). { eapply Permutation_in; [symmetry; exact P|]. now apply in_zrange. }
    apply in_map_iff in I. destruct I as (i & E & I). apply in_zrange in I. eauto.
  Qed.

  Lemma sorted_on_ordered a n : sorted_on 0 (n - 1) a -> ordered lt (map a (zrange 0 n)).
  Proof.
    intros S. unfold ordered.
    assert (G : forall k m, 0 <= m -> m + Z.of_nat k <= n -> StronglySorted (fun x y => lt y x = false) (map a (zrange m (m + Z.of_nat k)))).
    { induction k as [|k IH]; intros m Hm Hk.
      - rewrite zrange_nil by lia. constructor.
      - rewrite zrange_cons by lia. cbn [map]. constructor.
        + replace (m + Z.of_nat (Datatypes.S k)) with (m + 1 + Z.of_nat k) by lia. apply IH; lia.
        + apply Forall_forall. intros x I. apply in_map_iff in I. destruct I as (j & <- & I). apply in_zrange in I.
          apply S; lia. }
    destruct (Z_le_dec 0 n) as [H|H]; [|rewrite zrange_nil by lia; constructor].
    specialize (G (Z.to_nat n) 0). rewrite Z2Nat.id in G by lia. replace (0 + n) with n in G by lia. apply G; lia.
  Qed.

  Lemma tracks_kth w n st k : 0 <= k < n -> (forall p, 0 <= p < n -> D (w p)) -> tracks w n st -> sorted_on 0 (n - 1) (fst st) ->
    kth lt (map w (zrange 0 n)) (Z.to_nat k) (fst st k).
  Proof.
    intros Hk HD T S. apply (sorted_kth D lt wo _ (map (fst st) (zrange 0 n))).
    - apply Forall_forall. intros x I. apply in_map_iff in I. destruct I as (j & <- & I). apply in_zrange in I. auto.
    - transitivity (map w (map (snd st) (zrange 0 n))).
      + rewrite map_map. erewrite map_ext_in; [reflexivity|]. intros i I. apply in_zrange in I. destruct T as (_ & _ & T). auto.
      + apply Permutation_map. eapply tracks_perm; eauto; lia.
    - now apply sorted_on_ordered.
    - rewrite (map_nth_error (fst st) (Z.to_nat k) (zrange 0 n) (d := k)); [reflexivity|].
      rewrite nth_error_zrange by lia. f_equal. lia.
  Qed.

  (** *** Rolling *)
  Lemma roll_spec image width row col rad w st :
    0 <= rad -> tracks w (2 * rad + 1) st -> sorted_on 0 (2 * rad) (fst st) ->
    let next := if col + rad <? width then image (row * width + (col + rad)) else zero in
    let '(st', last) := roll zero image width row col rad st in
    0 <= last < 2 * rad + 1 /\
    tracks (fun p => if p =? 2 * rad then next else w (p + 1)) (2 * rad + 1) st' /\ sorted_but last (2 * rad + 1) (fst st').
  Proof.
    intros Hr T S next. unfold roll. fold next.
    match goal with |- context [for_ _ ?f _] => set (body := f) end.
    pose proof (for_inv (fun i (s : arr V * arr Z * Z) =>
       (forall k, 0 <= k < i -> snd (fst s) k = (if snd st k =? 0 then 2 * rad else snd st k - 1) /\
                                fst (fst s) k = (if snd st k =? 0 then next else fst st k)) /\
       (forall k, i <= k < 2 * rad + 1 -> snd (fst s) k = snd st k /\ fst (fst s) k = fst st k) /\
       (forall k, 0 <= k < i -> snd st k = 0 -> snd s = k)) (2 * rad + 1) body (st, 0)) as L.
    destruct T as (T1 & T2 & T3).
    lapply L; [clear L; intros L; lapply L; [clear L; intros L; lapply L; [clear L; intros L|]|]|].
    - change (@for_ (arr V * arr Z * Z) (2 * rad + 1) body (st, 0)) with (for_ (2 * rad + 1) body (st, 0)) in L.
      destruct (for_ (2 * rad + 1) body (st, 0)) as [[ma pa] last] eqn:E. cbn [fst snd] in L.
      destruct L as (L1 & _ & L3).
      destruct (tracks_surj w (2 * rad + 1) st 0) as (i0 & Hi0 & Ei0); [repeat split; auto; apply T1; auto|lia|].
      assert (El : last = i0) by (apply L3; auto).
      split; [lia|]. split.
      + split; [|split]; cbn [fst snd].
        * intros i Hi. destruct (L1 i Hi) as [-> _]. specialize (T1 i Hi). destruct (snd st i =? 0) eqn:E0; lia.
        * intros i j Hi Hj. destruct (L1 i Hi) as [-> _]. destruct (L1 j Hj) as [-> _].
          pose proof (T1 i Hi). pose proof (T1 j Hj).
          destruct (snd st i =? 0) eqn:Ea, (snd st j =? 0) eqn:Eb; intros; apply T2; auto; lia.
        * intros i Hi. destruct (L1 i Hi) as [-> ->]. pose proof (T1 i Hi).
          destruct (snd st i =? 0) eqn:Ea; [now rewrite Z.eqb_refl|].
          destruct (snd st i - 1 =? 2 * rad) eqn:Eb; [lia|]. rewrite T3 by auto. f_equal. lia.
      + intros i j Hij Hj Ni Nj. cbn [fst].
        destruct (L1 i ltac:(lia)) as [_ ->]. destruct (L1 j ltac:(lia)) as [_ ->].
        destruct (snd st i =? 0) eqn:Ea. { exfalso. apply Ni. rewrite El. apply T2; auto; lia. }
        destruct (snd st j =? 0) eqn:Eb. { exfalso. apply Nj. rewrite El. apply T2; auto; lia. }
        apply S; lia.
    - intros i [[ma pa] last] Hi (L1 & L2 & L3). cbn [fst snd] in *. unfold body. cbv beta iota.
      destruct (L2 i ltac:(lia)) as [Ep Em]. pose proof (T1 i Hi) as Hp.
      rewrite aset_eq. rewrite Ep.
      destruct (snd st i - 1 <? 0) eqn:E0; cbn [fst snd].
      + split; [|split].
        * intros k Hk. destruct (Z.eq_dec k i) as [->|Nk].
          -- rewrite !aset_eq. destruct (snd st i =? 0) eqn:Ez; [auto|lia].
          -- rewrite !aset_ne by auto. apply L1. lia.
        * intros k Hk. rewrite !aset_ne by lia. apply L2. lia.
        * intros k Hk Ek. apply T2; auto; lia.
      + split; [|split].
        * intros k Hk. destruct (Z.eq_dec k i) as [->|Nk].
          -- rewrite aset_eq. destruct (snd st i =? 0) eqn:Ez; [lia|auto].
          -- rewrite aset_ne by auto. apply L1. lia.
        * intros k Hk. rewrite aset_ne by lia. apply L2. lia.
        * intros k Hk Ek. destruct (Z.eq_dec k i) as [->|Nk]; [lia|]. apply L3; auto. lia.
    - cbn [fst snd]. split; [intros; lia|]. split; [auto|intros; lia].
    - lia.
  Qed.

  Variable image : arr V.
  Variables width height : Z.
  Definition at_ (row col : Z) : V := image (row * width + col).
  Definition ray (row c : Z) : V := along at_ zero width height row c.

  Lemma first_window_spec row start_col rad st :
    0 <= rad -> start_col + rad < width ->
    tracks (fun p => ray row (start_col - rad + p)) (2 * rad + 1) (first_window image width height row start_col rad st).
  Proof.
    intros Hr Hw. unfold first_window.
    match goal with |- context [for_range _ _ ?f _] => set (body := f) end.
    pose proof (for_range_ind (fun n (s : arr V * arr Z) =>
       forall k, 0 <= k < n + rad -> snd s k = k /\ fst s k = ray row (start_col - rad + k)) (- rad) (rad + 1) body st) as L.
    cbv beta in L.
    lapply L; [clear L; intros L; lapply L; [clear L; intros L; lapply L; [clear L; intros L|]|]|].
    - split; [|split].
      + intros i Hi. destruct (L i ltac:(lia)) as [-> _]. auto.
      + intros i j Hi Hj. destruct (L i ltac:(lia)) as [-> _]. destruct (L j ltac:(lia)) as [-> _]. auto.
      + intros i Hi. destruct (L i ltac:(lia)) as [-> E]. exact E.
    - intros n [ma pa] Hn IH k Hk. unfold body. cbn [fst snd] in *.
      destruct (Z.eq_dec k (n + rad)) as [->|Nk].
      + rewrite !aset_eq. split; auto. unfold ray, along, at_, across.
        replace (start_col - rad + (n + rad)) with (start_col + n) by lia.
        destruct (start_col + n <? 0) eqn:E0; auto.
        destruct (start_col + n <? width) eqn:E1; auto. lia.
      + rewrite !aset_ne by auto. apply IH. lia.
    - intros k Hk. lia.
    - lia.
  Qed.

  Lemma around_ray row c rad : map (fun p => ray row (c - rad + p)) (zrange 0 (2 * rad + 1)) = around (ray row) c rad.
  Proof.
    unfold around. unfold zrange. rewrite !map_map. replace (rad + 1 - - rad) with (2 * rad + 1 - 0) by lia.
    apply map_ext. intros i. f_equal. lia.
  Qed.

  Hypothesis Dimage : forall i, D (image i).
  Hypothesis Dzero : D zero.
  Lemma Dray row c : D (ray row c).
  Proof. unfold ray, along, at_. destruct (c <? 0); auto. destruct (c <? width); auto. Qed.

  Lemma tracks_ext w w' n st : (forall p, 0 <= p < n -> w p = w' p) -> tracks w n st -> tracks w' n st.
  Proof. intros H (H1 & H2 & H3). split; [|split]; auto. intros i Hi. rewrite H3 by auto. apply H. auto. Qed.

  Lemma median_row_spec start_col end_col rad row st out :
    1 <= rad -> 0 <= start_col -> start_col + rad < width -> start_col <= end_col ->
    let out' := snd (median_row lt le zero image width height start_col end_col rad row (st, out)) in
    (forall c, start_col <= c <= end_col -> kth lt (around (ray row) c rad) (Z.to_nat rad) (out' (row * width + c))) /\
    (forall x, (x < row * width + start_col \/ row * width + end_col < x) -> out' x = out x).
  Proof.
    intros Hr H0 Hw He. unfold median_row.
    pose proof (first_window_spec row start_col rad st ltac:(lia) Hw) as T.
    set (st1 := first_window image width height row start_col rad st) in *.
    assert (D1 : forall i, 0 <= i <= 2 * rad -> D (fst st1 i)).
    { intros i Hi. destruct T as (_ & _ & T). rewrite T by lia. apply Dray. }
    pose proof (quick_sort_sorted (Z.to_nat (2 * rad + 2)) st1 0 (2 * rad) D1 ltac:(lia)) as S.
    pose proof (quick_sort_keeps (Z.to_nat (2 * rad + 2)) st1 0 (2 * rad)) as (_ & _ & K).
    specialize (K _ (2 * rad + 1) ltac:(lia) ltac:(lia) T).
    set (st2 := quick_sort le (Z.to_nat (2 * rad + 2)) st1 0 (2 * rad)) in *.
    match goal with |- context [for_range _ _ ?f ?s] => set (s0 := s); set (body := f) end.
    pose proof (for_range_ind (fun c (s : arr V * arr Z * arr V) =>
       tracks (fun p => ray row (c - 1 - rad + p)) (2 * rad + 1) (fst s) /\ sorted_on 0 (2 * rad) (fst (fst s)) /\
       (forall k, start_col <= k < c -> kth lt (around (ray row) k rad) (Z.to_nat rad) (snd s (row * width + k))) /\
       (forall x, (x < row * width + start_col \/ row * width + c <= x) -> snd s x = out x))
       (start_col + 1) (end_col + 1) body s0) as L.
    lapply L; [clear L; intros L; lapply L; [clear L; intros L; lapply L; [clear L; intros (_ & _ & L1 & L2)|]|]|].
    - split; [intros c Hc; apply L1; lia|]. intros x Hx. apply L2. lia.
    - clear L K S T D1. subst s0. clear st2 st1. intros c [st1 o] Hc (T & S & L1 & L2). cbn [fst snd] in *. unfold body, median_step.
      pose proof (roll_spec image width row c rad _ st1 ltac:(lia) T S) as R. cbv zeta in R.
      destruct (roll zero image width row c rad st1) as [st2 last]. destruct R as (Rl & Rt & Rs).
      assert (Rt' : tracks (fun p => ray row (c - rad + p)) (2 * rad + 1) st2).
      { eapply tracks_ext; [|exact Rt]. intros p Hp. cbv beta. destruct (p =? 2 * rad) eqn:Ep.
        - replace (c - rad + p) with (c + rad) by lia. unfold ray, along, at_. destruct (c + rad <? 0) eqn:Ez; [lia|reflexivity].
        - f_equal. lia. }
      pose proof (bubble_tracks (Z.to_nat (2 * rad + 2)) _ (2 * rad + 1) _ last ltac:(lia) Rl Rt') as Bt.
      assert (Bs : sorted_on 0 (2 * rad + 1 - 1) (fst (bubble lt (Z.to_nat (2 * rad + 2)) st2 last (2 * rad + 1)))).
      { apply bubble_sorted; auto; try lia. intros i Hi. destruct Rt' as (_ & _ & Rt'). rewrite Rt' by auto. apply Dray. }
      set (st3 := bubble lt (Z.to_nat (2 * rad + 2)) st2 last (2 * rad + 1)) in *. cbn [fst snd].
      split; [eapply tracks_ext; [|exact Bt]; intros; cbv beta; f_equal; lia|].
      split; [replace (2 * rad) with (2 * rad + 1 - 1) by lia; exact Bs|]. split.
      + intros k Hk. destruct (Z.eq_dec k c) as [->|Nk].
        * rewrite aset_eq. rewrite <- around_ray.
          apply (tracks_kth _ (2 * rad + 1)); auto; [lia|intros; apply Dray].
        * rewrite aset_ne by lia. apply L1. lia.
      + intros x Hx. rewrite aset_ne by lia. apply L2. lia.
    - subst s0. cbn [fst snd].
      split; [eapply tracks_ext; [|exact K]; intros; cbv beta; f_equal; lia|]. split; [exact S|]. split.
      + intros k Hk. replace k with start_col by lia. rewrite aset_eq. rewrite <- around_ray.
        apply (tracks_kth _ (2 * rad + 1)); auto; [lia|intros; apply Dray|replace (2 * rad + 1 - 1) with (2 * rad) by lia; exact S].
      + intros x Hx. now rewrite aset_ne by lia.
    - lia.
  Qed.

  Lemma median_filter_spec out start_row start_col end_row end_col rad :
    1 <= rad -> 0 <= start_col -> start_col + rad < width -> start_col <= end_col < width -> start_row <= end_row ->
    let out' := median_filter lt le zero out image start_row start_col end_row end_col rad width height in
    (forall row c, start_row <= row <= end_row -> start_col <= c <= end_col ->
       kth lt (around (ray row) c rad) (Z.to_nat rad) (out' (row * width + c))) /\
    (forall row c, 0 <= c < width -> (row < start_row \/ end_row < row \/ c < start_col \/ end_col < c) ->
       out' (row * width + c) = out (row * width + c)).
  Proof.
    intros Hr H0 Hw He Hrow. unfold median_filter.
    match goal with |- context [for_range _ _ ?f ?s] => set (s0 := s); set (body := f) end.
    pose proof (for_range_ind (fun r (s : arr V * arr Z * arr V) =>
       (forall row c, start_row <= row < r -> start_col <= c <= end_col ->
          kth lt (around (ray row) c rad) (Z.to_nat rad) (snd s (row * width + c))) /\
       (forall row c, 0 <= c < width -> (row < start_row \/ r <= row \/ c < start_col \/ end_col < c) ->
          snd s (row * width + c) = out (row * width + c))) start_row (end_row + 1) body s0) as L.
    lapply L; [clear L; intros L; lapply L; [clear L; intros L; lapply L; [clear L; intros (L1 & L2)|]|]|].
    - split; intros; [apply L1; lia|apply L2; lia].
    - intros r [st o] Hq (L1 & L2). cbn [snd] in *. unfold body.
      pose proof (median_row_spec start_col end_col rad r st o Hr H0 Hw ltac:(lia)) as M. cbv zeta in M.
      destruct M as (M1 & M2). split.
      + intros row c Hrow' Hc. destruct (Z.eq_dec row r) as [->|Nr]; [now apply M1|].
        rewrite M2 by nia. apply L1; lia.
      + intros row c Hc Hout. rewrite <- L2; auto; [|lia].
        apply M2. destruct (Z.eq_dec row r) as [->|Nr]; [lia|].
        assert (row < r \/ r < row) as [G|G] by lia; nia.
    - subst s0. cbn [snd]. split; [intros; lia|auto].
    - lia.
  Qed.
End Median.
