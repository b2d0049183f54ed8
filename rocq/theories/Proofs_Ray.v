From Verif Require Import Base CLoop Model_Prep Proofs_Prep Model_Ray.
From Coq Require Import Reals Lra Sorted.
Local Open Scope R_scope.

(** ** Loops *)
Lemma while_inv {S} (P : S -> Prop) (m : S -> nat) cond body fuel s :
  P s -> (m s <= fuel)%nat ->
  (forall s, P s -> cond s = true -> P (body s) /\ (m (body s) < m s)%nat) ->
  P (while fuel cond body s) /\ cond (while fuel cond body s) = false.
Proof.
  intros H0 Hm Hstep. revert s H0 Hm. induction fuel as [|f IH]; intros s H0 Hm; cbn.
  - split; auto. destruct (cond s) eqn:E; auto. destruct (Hstep s H0 E). lia.
  - destruct (cond s) eqn:E; [|auto]. destruct (Hstep s H0 E). apply IH; auto. lia.
Qed.

(** ** trunc and pixel are floors *)
Lemma Int_part_spec x k : IZR k <= x < IZR k + 1 -> Int_part x = k.
Proof.
  intros H. destruct (base_Int_part x) as [H1 H2].
  assert (k < Int_part x + 1)%Z by (apply lt_IZR; rewrite plus_IZR; lra).
  assert (Int_part x < k + 1)%Z by (apply lt_IZR; rewrite plus_IZR; lra). lia.
Qed.
Lemma floor_trunc x : (trunc x - (if rltb x (IZR (trunc x)) then 1 else 0))%Z = Int_part x.
Proof.
  unfold trunc. destruct (rltb x 0) eqn:E.
  - rewrite opp_IZR. destruct (base_Int_part (- x)) as [H1 H2].
    destruct (rltb x (- IZR (Int_part (- x)))) eqn:E2.
    + apply rltb_spec in E2. symmetry. apply Int_part_spec. rewrite minus_IZR, opp_IZR. lra.
    + apply rltb_false in E2. symmetry. apply Int_part_spec. rewrite minus_IZR, opp_IZR. lra.
  - destruct (base_Int_part x) as [H1 H2].
    destruct (rltb x (IZR (Int_part x))) eqn:E2; [apply rltb_spec in E2; lra|lia].
Qed.
Lemma pixel_spec r u v k : IZR k <= (u + v) / 2 + IZR r / 2 < IZR k + 1 -> pixel r u v = k.
Proof.
  intros H. unfold pixel. cbv zeta. rewrite floor_trunc. apply Int_part_spec. lra.
Qed.
Lemma pixel_bounds r u v : IZR (pixel r u v) <= (u + v) / 2 + IZR r / 2 < IZR (pixel r u v) + 1.
Proof.
  unfold pixel. cbv zeta. rewrite floor_trunc.
  destruct (base_Int_part (1 / 2 * (v + u) + 1 / 2 * IZR r)). lra.
Qed.

(** ** trim_coords *)
Definition hits (r : Z) (coord : Z -> option R) (N : Z) : list Z :=
  filter (fun n => match coord n with Some x => inside r x | None => false end) (zrange 0 N).
Lemma trim_spec r coord (pt : Z -> R -> R * R) (pt' : Z -> R * R) N a0 : (0 <= N)%Z ->
  (forall n x, coord n = Some x -> pt n x = pt' n) ->
  let s := for_ N (trim_step r coord pt) (0%Z, a0) in
  fst s = Z.of_nat (length (hits r coord N)) /\ map (snd s) (zrange 0 (fst s)) = map pt' (hits r coord N).
Proof.
  intros HN Hpt.
  apply (for_inv (fun n (s : Z * arr (R * R)) => fst s = Z.of_nat (length (hits r coord n)) /\
     map (snd s) (zrange 0 (fst s)) = map pt' (hits r coord n))); auto.
  intros n [sz a] Hn [H1 H2]. cbn [fst snd] in *. unfold hits. rewrite zrange_snoc, filter_app by lia.
    fold (hits r coord n). cbn [filter]. unfold trim_step.
    destruct (coord n) as [x|] eqn:E; [destruct (inside r x) eqn:F|]; cbn [fst snd];
      rewrite ?app_nil_r, ?app_length, ?map_app; auto.
    split; [cbn [length]; lia|]. rewrite zrange_snoc by lia. rewrite map_app. f_equal.
    + rewrite <- H2. apply map_ext_in. intros k Hk. apply in_zrange in Hk. apply aset_ne. lia.
    + cbn. now rewrite aset_eq, (Hpt n x E).
Qed.

(** ** sort_intersections merges *)
Section Merge.
  Context {T : Type}.
  Variable key : T -> R.
  Fixpoint merge (a : list T) : list T -> list T :=
    match a with
    | [] => fun b => b
    | x :: a' => fix inner (b : list T) : list T :=
        match b with
        | [] => a
        | y :: b' => if rltb (key x) (key y) then x :: merge a' b else y :: inner b'
        end
    end.
  Lemma merge_nil_r a : merge a [] = a. Proof. now destruct a. Qed.
  Lemma merge_cons x a y b : merge (x :: a) (y :: b) =
    if rltb (key x) (key y) then x :: merge a (y :: b) else y :: merge (x :: a) b.
  Proof. reflexivity. Qed.
  Lemma merge_perm a b : Permutation (merge a b) (a ++ b).
  Proof.
    revert b. induction a as [|x a IHa]; intros b; [reflexivity|].
    induction b as [|y b IHb]; [now rewrite merge_nil_r, app_nil_r|].
    rewrite merge_cons. destruct (rltb (key x) (key y)).
    - cbn. constructor. apply IHa.
    - rewrite IHb. apply Permutation_middle.
  Qed.
  Lemma merge_sorted (R' : T -> T -> Prop) a b :
    (forall x y z, R' x y -> R' y z -> R' x z) ->
    StronglySorted R' a -> StronglySorted R' b ->
    (forall x y, In x a -> In y b -> key x < key y -> R' x y) ->
    (forall x y, In x a -> In y b -> key y <= key x -> R' y x) ->
    StronglySorted R' (merge a b).
  Proof.
    intros Tr. revert b. induction a as [|x a IHa]; intros b Sa Sb H1 H2; [exact Sb|].
    induction b as [|y b IHb]; [rewrite merge_nil_r; auto|].
    inversion Sa as [|? ? Sa' Fa]. inversion Sb as [|? ? Sb' Fb]. subst.
    rewrite Forall_forall in Fa, Fb.
    rewrite merge_cons. destruct (rltb (key x) (key y)) eqn:E.
    - apply rltb_spec in E. constructor.
      + apply IHa; auto; intros; [apply H1|apply H2]; auto; now right.
      + rewrite Forall_forall. intros z Hz. apply (Permutation_in _ (merge_perm a (y :: b))) in Hz.
        apply in_app_or in Hz as [Hz|Hz]; auto. assert (R' x y) by (apply H1; auto; now left).
        destruct Hz as [<-|Hz]; auto. eauto.
    - apply rltb_false in E. constructor.
      + apply IHb; auto; intros; [apply H1|apply H2]; auto; now right.
      + rewrite Forall_forall. intros z Hz. apply (Permutation_in _ (merge_perm (x :: a) b)) in Hz.
        apply in_app_or in Hz as [Hz|Hz]; auto. assert (R' y x) by (apply H2; auto; now left).
        destruct Hz as [<-|Hz]; auto. eauto.
  Qed.
End Merge.
Lemma map_merge {T U} (f : T -> U) (key : U -> R) a b :
  map f (merge (fun t => key (f t)) a b) = merge key (map f a) (map f b).
Proof.
  revert b. induction a as [|x a IHa]; intros b; [reflexivity|].
  induction b as [|y b IHb]; [now rewrite !merge_nil_r|].
  rewrite merge_cons. cbn [map]. rewrite (merge_cons key (f x) (map f a) (f y) (map f b)).
  destruct (rltb (key (f x)) (key (f y))); cbn [map]; f_equal; [apply (IHa (y :: b))|apply IHb].
Qed.

Section SortSpec.
  Variable cond : bool.
  Variables (asize : Z) (a : arr (R * R)) (bsize : Z) (b : arr (R * R)).
  Hypothesis Ha : (0 <= asize)%Z.
  Hypothesis Hb : (0 <= bsize)%Z.
  Let A_from i := map (sel cond asize a) (zrange i asize).
  Let B_from j := map b (zrange j bsize).
  Let total := merge fst (A_from 0) (B_from 0).
  Let Inv (s : sorting) : Prop :=
    (0 <= si s <= asize)%Z /\ (0 <= sj s <= bsize)%Z /\ sk s = (si s + sj s)%Z /\
    map (sc s) (zrange 0 (sk s)) ++ merge fst (A_from (si s)) (B_from (sj s)) = total.
  Let left (s : sorting) : nat := Z.to_nat (asize - si s + (bsize - sj s)).

  Lemma map_aset_snoc {A} (c : arr A) k v : (0 <= k)%Z ->
    map (aset c k v) (zrange 0 (k + 1)) = map c (zrange 0 k) ++ [v].
  Proof.
    intros Hk. rewrite zrange_snoc, map_app by auto. f_equal.
    - apply map_ext_in. intros i Hi. apply in_zrange in Hi. apply aset_ne. lia.
    - cbn. now rewrite aset_eq.
  Qed.
  Lemma inv_take_a s : Inv s -> (si s < asize)%Z ->
    merge fst (A_from (si s)) (B_from (sj s)) = sel cond asize a (si s) :: merge fst (A_from (si s + 1)) (B_from (sj s)) ->
    Inv (take_a cond asize a s).
  Proof.
    intros (I1 & I2 & I3 & I4) Hi E. unfold Inv, take_a. cbn [si sj sk sc]. repeat split; try lia.
    rewrite <- I4, E, map_aset_snoc, <- app_assoc by lia. reflexivity.
  Qed.
  Lemma inv_take_b s : Inv s -> (sj s < bsize)%Z ->
    merge fst (A_from (si s)) (B_from (sj s)) = b (sj s) :: merge fst (A_from (si s)) (B_from (sj s + 1)) ->
    Inv (take_b b s).
  Proof.
    intros (I1 & I2 & I3 & I4) Hi E. unfold Inv, take_b. cbn [si sj sk sc]. repeat split; try lia.
    rewrite <- I4, E, map_aset_snoc, <- app_assoc by lia. reflexivity.
  Qed.
  Lemma A_from_cons i : (i < asize)%Z -> A_from i = sel cond asize a i :: A_from (i + 1).
  Proof. intros H. unfold A_from. now rewrite (@zrange_cons i asize). Qed.
  Lemma B_from_cons j : (j < bsize)%Z -> B_from j = b j :: B_from (j + 1).
  Proof. intros H. unfold B_from. now rewrite (@zrange_cons j bsize). Qed.
  Lemma A_from_nil i : (asize <= i)%Z -> A_from i = [].
  Proof. intros H. unfold A_from. now rewrite zrange_nil. Qed.
  Lemma B_from_nil j : (bsize <= j)%Z -> B_from j = [].
  Proof. intros H. unfold B_from. now rewrite zrange_nil. Qed.

  Lemma sort_spec c0 : let r := sort_intersections cond asize a bsize b c0 in
    fst r = (asize + bsize)%Z /\
    map (snd r) (zrange 0 (asize + bsize)) =
      merge fst (map (sel cond asize a) (zrange 0 asize)) (map b (zrange 0 bsize)).
  Proof.
    cbv zeta. unfold sort_intersections. cbv zeta. cbn [fst snd]. split; auto.
    set (s0 := mkSorting 0 0 0 c0). set (fuel := Z.to_nat (asize + bsize)).
    assert (I0 : Inv s0).
    { unfold Inv, s0. cbn [si sj sk sc]. repeat split; try lia. }
    match goal with |- context [while fuel ?cd ?bd s0] => set (c1 := cd); set (b1 := bd) end.
    assert (H1 : Inv (while fuel c1 b1 s0) /\ c1 (while fuel c1 b1 s0) = false).
    { apply (while_inv Inv left); auto.
      - unfold left, s0, fuel. cbn [si sj]. lia.
      - intros s Is Cs. unfold c1 in Cs. assert (Hi : (si s < asize)%Z) by lia. assert (Hj : (sj s < bsize)%Z) by lia.
        destruct Is as (I1 & I2 & I34). unfold b1.
        assert (Is : Inv s) by (split; auto).
        destruct (rltb (fst (sel cond asize a (si s))) (fst (b (sj s)))) eqn:E.
        + split; [|unfold left, take_a; cbn [si sj]; lia]. apply inv_take_a; auto.
          rewrite (A_from_cons (si s)), (B_from_cons (sj s)) by auto. rewrite merge_cons, E. reflexivity.
        + split; [|unfold left, take_b; cbn [si sj]; lia]. apply inv_take_b; auto.
          rewrite (A_from_cons (si s)), (B_from_cons (sj s)) by auto. rewrite merge_cons, E. reflexivity. }
    set (s1 := while fuel c1 b1 s0) in *. destruct H1 as [I1 C1]. unfold c1 in C1.
    match goal with |- context [while fuel ?cd ?bd s1] => set (c2 := cd); set (b2 := bd) end.
    assert (H2 : (Inv (while fuel c2 b2 s1) /\ ((si (while fuel c2 b2 s1) = asize) \/ sj (while fuel c2 b2 s1) = bsize)%Z)
                 /\ c2 (while fuel c2 b2 s1) = false).
    { apply (while_inv (fun s => Inv s /\ (si s = asize \/ sj s = bsize)%Z) left).
      - split; auto. destruct I1 as (? & ? & _). lia.
      - unfold left, fuel. destruct I1 as (? & ? & _). lia.
      - intros s [Is Hs] Cs. unfold c2 in Cs. assert (Hi : (si s < asize)%Z) by lia.
        assert (Hj : sj s = bsize) by lia. pose proof Is as (J1 & J2 & _). unfold b2.
        split; [|unfold left, take_a; cbn [si sj]; lia]. split; [|right; auto]. apply inv_take_a; auto.
        rewrite Hj, (B_from_nil bsize) by lia. rewrite !merge_nil_r. now apply A_from_cons. }
    set (s2 := while fuel c2 b2 s1) in *. destruct H2 as [[I2 _] C2]. unfold c2 in C2.
    match goal with |- context [while fuel ?cd ?bd s2] => set (c3 := cd); set (b3 := bd) end.
    assert (H3 : (Inv (while fuel c3 b3 s2) /\ (si (while fuel c3 b3 s2) = asize)%Z)
                 /\ c3 (while fuel c3 b3 s2) = false).
    { apply (while_inv (fun s => Inv s /\ (si s = asize)%Z) left).
      - split; auto. destruct I2 as (? & ? & _). lia.
      - unfold left, fuel. destruct I2 as (? & ? & _). lia.
      - intros s [Is Hs] Cs. unfold c3 in Cs. assert (Hj : (sj s < bsize)%Z) by lia.
        pose proof Is as (J1 & J2 & _). unfold b3.
        split; [|unfold left, take_b; cbn [si sj]; lia]. split; auto. apply inv_take_b; auto.
        rewrite Hs, (A_from_nil asize) by lia. now apply B_from_cons. }
    set (s3 := while fuel c3 b3 s2) in *. destruct H3 as [[(I3a & I3b & I3c & I3d) Hs] C3]. unfold c3 in C3.
    assert (sj s3 = bsize) by lia. rewrite Hs, H in *. rewrite I3c in I3d.
    rewrite (A_from_nil asize), (B_from_nil bsize) in I3d by lia. cbn [merge] in I3d. rewrite app_nil_r in I3d. exact I3d.
  Qed.
End SortSpec.

(** ** Geometry of one ray *)
Lemma while_pres {S} (P : S -> Prop) cond body fuel s :
  P s -> (forall x, P x -> cond x = true -> P (body x)) -> P (while fuel cond body s).
Proof.
  revert s. induction fuel as [|f IH]; intros s H0 Hs; cbn; auto.
  destruct (cond s) eqn:E; auto.
Qed.
Lemma sort_frame cond (a b c0 : arr (R * R)) asize bsize k : (0 <= asize)%Z -> (0 <= bsize)%Z ->
  (k < 0 \/ asize + bsize <= k)%Z -> snd (sort_intersections cond asize a bsize b c0) k = c0 k.
Proof.
  intros Ha Hb Hk. unfold sort_intersections. cbn [snd].
  pose (P s := (0 <= si s <= asize)%Z /\ (0 <= sj s <= bsize)%Z /\ sk s = (si s + sj s)%Z /\ sc s k = c0 k).
  assert (Pa : forall s, P s -> (si s < asize)%Z -> P (take_a cond asize a s)).
  { intros s (H1 & H2 & H3 & H4) L. unfold P, take_a. cbn [si sj sk sc].
    rewrite aset_ne by lia. repeat split; auto; lia. }
  assert (Pb : forall s, P s -> (sj s < bsize)%Z -> P (take_b b s)).
  { intros s (H1 & H2 & H3 & H4) L. unfold P, take_b. cbn [si sj sk sc].
    rewrite aset_ne by lia. repeat split; auto; lia. }
  match goal with |- sc ?e k = _ => cut (P e); [intros (_ & _ & _ & H); exact H|] end.
  apply while_pres; [apply while_pres; [apply while_pres|]|].
  - unfold P. cbn [si sj sk sc]. repeat split; auto; lia.
  - intros s Hs Hc. destruct (rltb _ _); [apply Pa|apply Pb]; auto; lia.
  - intros s Hs Hc. apply Pa; auto; lia.
  - intros s Hs Hc. apply Pb; auto; lia.
Qed.
Lemma sel_rev (a : arr (R * R)) asize :
  map (fun i => a (asize - 1 - i)%Z) (zrange 0 asize) = rev (map a (zrange 0 asize)).
Proof.
  rewrite <- map_rev. rewrite <- (map_map (fun i => asize - 1 - i)%Z a). f_equal.
  unfold zrange. rewrite <- map_rev, map_map. replace (asize - 0)%Z with asize by lia.
  destruct (Z.le_gt_cases asize 0); [now replace (Z.to_nat asize) with 0%nat by lia|].
  assert (E : asize = Z.of_nat (Z.to_nat asize)) by lia. revert E. generalize (Z.to_nat asize). intros n ->. clear.
  induction n as [|n IH]; auto. replace (rev (seq 0 (S n))) with (n :: rev (seq 0 n)) by (rewrite seq_S, rev_app_distr; reflexivity).
  cbn [map].
  rewrite <- IH. cbn [seq map]. f_equal; [lia|].
  rewrite <- seq_shift, map_map. apply map_ext. intros i. lia.
Qed.

Lemma inside_spec r x : inside r x = true <-> grid r 0 + margin <= x <= grid r r - margin.
Proof.
  unfold inside. rewrite andb_true_iff, !negb_true_iff, !rltb_false. tauto.
Qed.
Lemma grid_lt r i j : (i < j)%Z -> grid r i < grid r j.
Proof. intros H. unfold grid. apply IZR_lt in H. lra. Qed.
Lemma grid_le r i j : (i <= j)%Z -> grid r i <= grid r j.
Proof. intros H. unfold grid. apply IZR_le in H. lra. Qed.
Lemma grid_inj r i j : grid r i = grid r j -> i = j.
Proof. intros H. unfold grid in H. apply eq_IZR. lra. Qed.

Lemma StronglySorted_map {A B} (f : A -> B) (R' : B -> B -> Prop) l :
  StronglySorted (fun x y => R' (f x) (f y)) l -> StronglySorted R' (map f l).
Proof.
  induction l as [|x l IH]; cbn; constructor; inversion H; subst; auto.
  rewrite Forall_forall in *. intros y Hy. apply in_map_iff in Hy as (z & <- & Hz). auto.
Qed.
Lemma StronglySorted_rev {A} (R' : A -> A -> Prop) l :
  StronglySorted R' l -> StronglySorted (fun x y => R' y x) (rev l).
Proof.
  induction l as [|x l IH]; cbn; intros H; [constructor|]. inversion H as [|? ? S F]; subst.
  rewrite Forall_forall in F. specialize (IH S).
  assert (G : forall l2, StronglySorted (fun x y => R' y x) l2 -> (forall y, In y l2 -> R' x y) ->
     StronglySorted (fun x y => R' y x) (l2 ++ [x])).
  { induction l2 as [|y l2 IH2]; cbn; intros Sl Hl; [repeat constructor|].
    inversion Sl as [|? ? S2 F2]; subst. constructor; [apply IH2; auto|].
    rewrite Forall_forall in *. intros z Hz. apply in_app_or in Hz as [Hz|[<-|[]]]; auto. }
  apply G; auto. intros y Hy. apply F. now apply in_rev.
Qed.
Lemma StronglySorted_impl {A} (P Q : A -> A -> Prop) l :
  (forall x y, In x l -> In y l -> P x y -> Q x y) -> StronglySorted P l -> StronglySorted Q l.
Proof.
  intros H S. induction S as [|x l S IH F]; constructor.
  - apply IH. intros; apply H; auto; now right.
  - rewrite Forall_forall in *. intros y Hy. apply H; auto; [now left|now right].
Qed.
Lemma zrange_sorted a b : StronglySorted Z.lt (zrange a b).
Proof.
  destruct (Z_le_gt_dec a b) as [H|H]; [|rewrite zrange_nil by lia; constructor].
  replace b with (a + (b - a))%Z by lia. assert (Hn : (0 <= b - a)%Z) by lia. generalize dependent (b - a)%Z.
  intros n Hn. revert n Hn. apply natlike_ind; [rewrite zrange_nil by lia; constructor|].
  intros n Hn IH. rewrite <- Z.add_1_r, Z.add_assoc, zrange_snoc by lia.
  assert (G : forall l x, StronglySorted Z.lt l -> (forall y, In y l -> (y < x)%Z) -> StronglySorted Z.lt (l ++ [x])).
  { clear. induction l as [|z l IH]; cbn; intros x Sl Hl; [repeat constructor|].
    inversion Sl as [|? ? S2 F2]; subst. constructor; [apply IH; auto|].
    rewrite Forall_forall in *. intros y Hy. apply in_app_or in Hy as [Hy|[<-|[]]]; auto. }
  apply G; auto. intros y Hy. apply in_zrange in Hy. lia.
Qed.
Lemma StronglySorted_filter {A} (R' : A -> A -> Prop) f l : StronglySorted R' l -> StronglySorted R' (filter f l).
Proof.
  intros S. induction S as [|x l S IH F]; cbn; [constructor|]. destruct (f x); auto. constructor; auto.
  rewrite Forall_forall in *. intros y Hy. apply filter_In in Hy as [Hy _]. auto.
Qed.
Lemma StronglySorted_nth {A} (R' : A -> A -> Prop) l i j x y :
  StronglySorted R' l -> (i < j)%nat -> nth_error l i = Some x -> nth_error l j = Some y -> R' x y.
Proof.
  intros S. revert i j. induction S as [|z l S IH F]; intros i j Hij Hi Hj; [destruct i; discriminate|].
  destruct j as [|j]; [lia|]. cbn in Hj. destruct i as [|i]; cbn in Hi.
  - injection Hi as <-. rewrite Forall_forall in F. apply F. now apply nth_error_In in Hj.
  - eapply (IH i j); eauto. lia.
Qed.

(** A tag says which grid line an intersection lies on: (true, n) horizontal line n, (false, n)
    vertical line n. *)
Definition tag := (bool * Z)%type.

Section Geometry.
  Variables ry rz : Z.
  Hypothesis Hry : (1 <= ry)%Z.
  Hypothesis Hrz : (1 <= rz)%Z.
  Variables xi yi s c : R.
  Hypothesis Hxi : xi <> 0.
  Let l := ray_line xi yi s c.
  Let x0 := srcx l.
  Let y0 := srcy l.

  Definition X (n : Z) : R := c / s * (grid rz n - y0) + x0.
  Definition Y (n : Z) : R := s / c * (grid ry n - x0) + y0.
  Definition pt (t : tag) : R * R := if fst t then (X (snd t), grid rz (snd t)) else (grid ry (snd t), Y (snd t)).
  Definition valid (t : tag) : Prop :=
    if fst t then s <> 0 /\ (0 <= snd t <= rz)%Z /\ grid ry 0 + margin <= X (snd t) <= grid ry ry - margin
    else c <> 0 /\ (0 <= snd t <= ry)%Z /\ grid rz 0 + margin <= Y (snd t) <= grid rz rz - margin.
  Definition online (p : R * R) : Prop := s * (fst p - x0) = c * (snd p - y0).

  Lemma coordx_X n : coordx rz l n = if Req_EM_T s 0 then None else Some (X n).
  Proof.
    unfold coordx. replace (srcy l - dety l) with (2 * xi * s) by (unfold l; cbn; ring).
    replace (srcx l - detx l) with (2 * xi * c) by (unfold l; cbn; ring).
    destruct (Req_EM_T s 0) as [->|N].
    - destruct (Req_EM_T (2 * xi * 0) 0); auto. lra.
    - destruct (Req_EM_T (2 * xi * s) 0) as [E|E].
      + apply Rmult_integral in E as [E|E]; [|contradiction]. lra.
      + f_equal. unfold X, x0, y0. f_equal. f_equal. field. auto.
  Qed.
  Lemma coordy_Y n : coordy ry l n = if Req_EM_T c 0 then None else Some (Y n).
  Proof.
    unfold coordy. replace (srcy l - dety l) with (2 * xi * s) by (unfold l; cbn; ring).
    replace (srcx l - detx l) with (2 * xi * c) by (unfold l; cbn; ring).
    destruct (Req_EM_T c 0) as [->|N].
    - destruct (Req_EM_T (2 * xi * 0) 0); auto. lra.
    - destruct (Req_EM_T (2 * xi * c) 0) as [E|E].
      + apply Rmult_integral in E as [E|E]; [|contradiction]. lra.
      + f_equal. unfold Y, x0, y0. f_equal. f_equal. field. auto.
  Qed.

  Lemma valid_online t : valid t -> online (pt t).
  Proof.
    destruct t as [[|] n]; unfold valid; cbn [fst snd]; intros (N & _); unfold online, pt; cbn [fst snd].
    - unfold X. generalize (grid rz n). intros g. field. auto.
    - unfold Y. generalize (grid ry n). intros g. field. auto.
  Qed.

  (** Order along the ray. *)
  Variable q : bool.
  Hypothesis Hq : if q then 0 <= s * c else s * c <= 0.
  Definition prec (p p' : R * R) : Prop :=
    fst p <= fst p' /\ (if q then snd p <= snd p' else snd p' <= snd p).
  Lemma prec_trans x y z : prec x y -> prec y z -> prec x z.
  Proof. clear Hq. unfold prec. destruct q; lra. Qed.

  Lemma online_prec p p' : c <> 0 -> online p -> online p' -> fst p <= fst p' -> prec p p'.
  Proof.
    unfold online, prec. intros Hc H1 H2 H3. split; auto.
    assert (E : s * (fst p' - fst p) = c * (snd p' - snd p)) by lra.
    assert (c * c * (snd p' - snd p) = (s * c) * (fst p' - fst p)) by (rewrite Rmult_assoc, <- E; ring).
    assert (0 < c * c) by nra. destruct q.
    - assert (0 <= (s * c) * (fst p' - fst p)) by (apply Rmult_le_pos; lra).
      apply Rnot_lt_le. intros N. assert (c * c * (snd p' - snd p) < 0) by nra. lra.
    - assert ((s * c) * (fst p' - fst p) <= 0) by nra.
      apply Rnot_lt_le. intros N. assert (0 < c * c * (snd p' - snd p)) by nra. lra.
  Qed.
  Lemma X_mono n m : s <> 0 -> (n < m)%Z -> if q then X n <= X m else X m <= X n.
  Proof.
    intros Hs Hnm. unfold X. pose proof (grid_lt rz n m Hnm) as G.
    assert (D : X m - X n = c / s * (grid rz m - grid rz n)) by (unfold X; ring).
    assert (E : c / s = (s * c) / (s * s)) by (field; auto).
    assert (0 < / (s * s)) by (apply Rinv_0_lt_compat; nra).
    unfold X in D. destruct q.
    - assert (0 <= c / s) by (rewrite E; apply Rmult_le_pos; lra). nra.
    - assert (c / s <= 0). { rewrite E. unfold Rdiv. nra. } nra.
  Qed.

  Lemma valid_in_box t : valid t ->
    grid ry 0 <= fst (pt t) <= grid ry ry /\ grid rz 0 <= snd (pt t) <= grid rz rz /\
    (fst t = true -> grid ry 0 + margin <= fst (pt t) <= grid ry ry - margin) /\
    (fst t = false -> grid rz 0 + margin <= snd (pt t) <= grid rz rz - margin).
  Proof. clear Hq.
    assert (0 < margin) by (unfold margin; lra).
    destruct t as [[|] n]; cbn; intros (_ & Hn & H1); repeat split; try lra; try easy; apply grid_le; lia.
  Qed.

  Definition a_tags : list tag := map (pair true) (hits ry (coordx rz l) (rz + 1)).
  Definition b_tags : list tag := map (pair false) (hits rz (coordy ry l) (ry + 1)).
  Definition walk : list tag := if q then a_tags else rev a_tags.
  Definition tags : list tag := merge (fun t => fst (pt t)) walk b_tags.

  Lemma in_a_tags t : In t a_tags <-> fst t = true /\ valid t.
  Proof. clear Hq.
    unfold a_tags. rewrite in_map_iff. unfold hits. split.
    - intros (n & <- & Hn). apply filter_In in Hn as [Hn1 Hn2]. apply in_zrange in Hn1.
      rewrite coordx_X in Hn2. destruct (Req_EM_T s 0); [discriminate|]. apply inside_spec in Hn2.
      split; auto. unfold valid. cbn [fst snd]. repeat split; auto; lia || lra.
    - destruct t as [b n]. unfold valid. cbn [fst snd]. intros [-> (Hs & Hn & Hi)]. exists n. split; auto. apply filter_In.
      rewrite in_zrange. split; [lia|]. rewrite coordx_X. destruct (Req_EM_T s 0); [contradiction|]. now apply inside_spec.
  Qed.
  Lemma in_b_tags t : In t b_tags <-> fst t = false /\ valid t.
  Proof. clear Hq.
    unfold b_tags. rewrite in_map_iff. unfold hits. split.
    - intros (n & <- & Hn). apply filter_In in Hn as [Hn1 Hn2]. apply in_zrange in Hn1.
      rewrite coordy_Y in Hn2. destruct (Req_EM_T c 0); [discriminate|]. apply inside_spec in Hn2.
      split; auto. unfold valid. cbn [fst snd]. repeat split; auto; lia || lra.
    - destruct t as [b n]. unfold valid. cbn [fst snd]. intros [-> (Hs & Hn & Hi)]. exists n. split; auto. apply filter_In.
      rewrite in_zrange. split; [lia|]. rewrite coordy_Y. destruct (Req_EM_T c 0); [contradiction|]. now apply inside_spec.
  Qed.
  Lemma in_walk t : In t walk <-> In t a_tags.
  Proof. clear Hq. unfold walk. destruct q; [tauto|]. symmetry. apply in_rev. Qed.
  Lemma in_tags t : In t tags <-> valid t.
  Proof. clear Hq.
    unfold tags. assert (P := merge_perm (fun t => fst (pt t)) walk b_tags). split.
    - intros H. apply (Permutation_in _ P) in H. apply in_app_or in H as [H|H].
      + apply in_walk in H. now apply in_a_tags in H.
      + now apply in_b_tags in H.
    - intros H. apply (Permutation_in _ (Permutation_sym P)). apply in_or_app.
      destruct (fst t) eqn:E; [left; apply in_walk; now apply in_a_tags|right; now apply in_b_tags].
  Qed.
  Lemma NoDup_pair (b : bool) (ls : list Z) : NoDup ls -> NoDup (map (pair b) ls).
  Proof. intros H. apply FinFun.Injective_map_NoDup; auto. intros x y [=]. auto. Qed.
  Lemma NoDup_tags : NoDup tags.
  Proof. clear Hq.
    unfold tags. apply (Permutation_NoDup (Permutation_sym (merge_perm _ walk b_tags))).
    assert (Na : NoDup a_tags) by (apply NoDup_pair, NoDup_filter, NoDup_zrange).
    assert (Nb : NoDup b_tags) by (apply NoDup_pair, NoDup_filter, NoDup_zrange).
    assert (Nw : NoDup walk) by (unfold walk; destruct q; auto; now apply NoDup_rev).
    revert Nw. assert (D : forall t, In t walk -> ~ In t b_tags).
    { intros t H1 H2. apply in_walk, in_a_tags in H1. apply in_b_tags in H2. destruct H1, H2. congruence. }
    revert D. generalize walk. intros w. induction w as [|t w IH]; cbn; intros D Nw; auto.
    inversion Nw; subst. constructor.
    - rewrite in_app_iff. intros [H|H]; auto. apply (D t); [now left|auto].
    - apply IH; auto.
  Qed.
  Lemma tags_sorted : StronglySorted prec (map pt tags).
  Proof.
    apply StronglySorted_map. unfold tags. apply merge_sorted.
    - intros x y z. apply prec_trans.
    - (* horizontal lines *)
      assert (SA : StronglySorted (fun t t' => snd t < snd t')%Z a_tags).
      { unfold a_tags. apply StronglySorted_map. cbn. apply StronglySorted_filter, zrange_sorted. }
      unfold walk. case_eq q; intros Eq.
      + eapply StronglySorted_impl; [|exact SA]. intros t t' Ht Ht' H. apply in_a_tags in Ht as [E1 V1], Ht' as [E2 V2].
        destruct t as [b1 n1], t' as [b2 n2]. cbn in E1, E2, H. subst b1 b2. unfold prec, pt. cbn [fst snd]. rewrite Eq.
        split; [|apply grid_le; lia]. destruct V1 as (Hs & _). pose proof (X_mono n1 n2 Hs H) as M. now rewrite Eq in M.
      + eapply StronglySorted_impl; [|apply StronglySorted_rev; exact SA]. cbv beta.
        intros t t' Ht Ht' H. apply in_rev, in_a_tags in Ht as [E1 V1]. apply in_rev, in_a_tags in Ht' as [E2 V2].
        destruct t as [b1 n1], t' as [b2 n2]. cbn in E1, E2, H. subst b1 b2. unfold prec, pt. cbn [fst snd]. rewrite Eq.
        split; [|apply grid_le; lia]. destruct V1 as (Hs & _). pose proof (X_mono n2 n1 Hs H) as M. now rewrite Eq in M.
    - assert (SB : StronglySorted (fun t t' => snd t < snd t')%Z b_tags).
      { unfold b_tags. apply StronglySorted_map. cbn. apply StronglySorted_filter, zrange_sorted. }
      eapply StronglySorted_impl; [|exact SB]. intros t t' Ht Ht' H. apply in_b_tags in Ht as [E1 V1], Ht' as [E2 V2].
      assert (Hc : c <> 0). { destruct t as [[|] n]; [discriminate|]. apply V1. }
      apply online_prec; auto using valid_online.
      destruct t as [[|] n1], t' as [[|] n2]; try discriminate. cbn in *. apply grid_le. lia.
    - intros x y Hx Hy H. apply in_walk, in_a_tags in Hx as [_ Vx]. apply in_b_tags in Hy as [Ey Vy].
      assert (Hc : c <> 0). { destruct y as [[|] n]; [discriminate|]. apply Vy. }
      apply online_prec; auto using valid_online. lra.
    - intros x y Hx Hy H. apply in_walk, in_a_tags in Hx as [_ Vx]. apply in_b_tags in Hy as [Ey Vy].
      assert (Hc : c <> 0). { destruct y as [[|] n]; [discriminate|]. apply Vy. }
      apply online_prec; auto using valid_online.
  Qed.

  (** The arrays computed by the code are the points of these tags. *)
  Lemma trace_tags z : let t := trace ry rz q l z in
    csize t = Z.of_nat (length tags) /\ map (coor t) (zrange 0 (csize t)) = map pt tags.
  Proof. clear Hq.
    unfold trace. cbv zeta.
    destruct (trim_spec ry (coordx rz l) (fun n x => (x, grid rz n)) (fun n => pt (true, n)) (rz + 1) z) as [A1 A2]; [lia| |].
    { intros n x. rewrite coordx_X. destruct (Req_EM_T s 0); [discriminate|]. intros E. unfold pt. cbn.
      f_equal. now injection E. }
    destruct (trim_spec rz (coordy ry l) (fun n y => (grid ry n, y)) (fun n => pt (false, n)) (ry + 1) z) as [B1 B2]; [lia| |].
    { intros n x. rewrite coordy_Y. destruct (Req_EM_T c 0); [discriminate|]. intros E. unfold pt. cbn.
      f_equal. now injection E. }
    unfold trim_a, trim_b.
    destruct (for_ (rz + 1) (trim_step ry (coordx rz l) (fun n x => (x, grid rz n))) (0%Z, z)) as [na a].
    destruct (for_ (ry + 1) (trim_step rz (coordy ry l) (fun n y => (grid ry n, y))) (0%Z, z)) as [nb b].
    cbn [fst snd] in *.
    destruct (sort_spec q na a nb b ltac:(lia) ltac:(lia) z) as [S1 S2].
    destruct (sort_intersections q na a nb b z) as [cs cc]. cbn [fst snd csize coor] in *.
    assert (LT : Z.of_nat (length tags) = (na + nb)%Z).
    { unfold tags. rewrite (Permutation_length (merge_perm _ walk b_tags)), app_length.
      assert (length walk = length a_tags) as -> by (unfold walk; destruct q; [auto|apply rev_length]).
      unfold a_tags, b_tags. rewrite !map_length. lia. }
    split; [lia|]. rewrite S1, S2. unfold tags. rewrite map_merge. f_equal.
    - unfold walk, sel. destruct q.
      + transitivity (map a (zrange 0 na)); [reflexivity|]. rewrite A2. unfold a_tags. now rewrite map_map.
      + rewrite map_rev. unfold a_tags. rewrite map_map, <- A2.
        assert (G : forall n, (0 <= n)%Z -> map (fun i => a (n - 1 - i)%Z) (zrange 0 n) = rev (map a (zrange 0 n))).
        { clear. apply natlike_ind; [reflexivity|]. intros n Hn IH. rewrite <- Z.add_1_r.
          rewrite (zrange_snoc (a:=0)) at 2 by lia. rewrite map_app, rev_app_distr. cbn [map rev app].
          rewrite <- IH. rewrite (@zrange_cons 0 (n + 1)) by lia. cbn [map]. f_equal; [f_equal; lia|].
          replace (zrange (0 + 1) (n + 1)) with (map (fun i => (i + 1)%Z) (zrange 0 n)).
          - rewrite map_map. apply map_ext. intros i. f_equal. lia.
          - unfold zrange. rewrite map_map. replace (n + 1 - (0 + 1))%Z with (n - 0)%Z by lia.
            apply map_ext. intros i. lia. }
        apply G. lia.
    - rewrite B2. unfold b_tags. now rewrite map_map.
  Qed.

  Section Traced.
  Variable z : arr (R * R).
  Let t := trace ry rz q l z.
  Let P := coor t.

  Lemma csize_nonneg : (0 <= csize t)%Z.
  Proof. clear Hq. destruct (trace_tags z) as [E _]. unfold t. lia. Qed.
  Lemma tag_at n : (0 <= n < csize t)%Z ->
    exists g, nth_error tags (Z.to_nat n) = Some g /\ valid g /\ P n = pt g.
  Proof. clear Hq.
    intros Hn. destruct (trace_tags z) as [E1 E2]. fold t in E1, E2. fold P in E2.
    destruct (nth_error tags (Z.to_nat n)) as [g|] eqn:G.
    - exists g. split; auto. split; [apply in_tags; now apply nth_error_In in G|].
      assert (nth_error (map P (zrange 0 (csize t))) (Z.to_nat n) = Some (P n)).
      { erewrite map_nth_error; [reflexivity|]. rewrite nth_error_zrange by lia. f_equal. lia. }
      rewrite E2 in H. erewrite map_nth_error in H by eassumption. now injection H.
    - apply nth_error_None in G. lia.
  Qed.
  Lemma tag_at_inj n m g : (0 <= n)%Z -> (0 <= m)%Z -> nth_error tags (Z.to_nat n) = Some g ->
    nth_error tags (Z.to_nat m) = Some g -> n = m.
  Proof. clear Hq.
    intros Hn Hm H1 H2. assert (Z.to_nat n = Z.to_nat m); [|lia].
    apply (proj1 (NoDup_nth_error tags) NoDup_tags); [|congruence]. apply nth_error_Some. congruence.
  Qed.
  Lemma tag_found g : valid g -> exists n, (0 <= n < csize t)%Z /\ P n = pt g.
  Proof. clear Hq.
    intros V. apply in_tags in V. apply In_nth_error in V as [n Hn].
    destruct (trace_tags z) as [E1 E2]. fold t in E1, E2.
    assert (n < length tags)%nat by (apply nth_error_Some; congruence).
    exists (Z.of_nat n). split; [lia|].
    destruct (tag_at (Z.of_nat n) ltac:(lia)) as (g' & G1 & _ & G2). rewrite Nat2Z.id in G1. congruence.
  Qed.

  Lemma P_sorted n m : (0 <= n <= m)%Z -> (m < csize t)%Z -> prec (P n) (P m).
  Proof.
    intros Hn Hm. destruct (Z.eq_dec n m) as [->|N]; [unfold prec; destruct q; lra|].
    destruct (trace_tags z) as [E1 E2]. fold t in E1, E2. fold P in E2.
    destruct (tag_at n ltac:(lia)) as (g1 & G1 & _ & ->). destruct (tag_at m ltac:(lia)) as (g2 & G2 & _ & ->).
    eapply (StronglySorted_nth prec (map pt tags) (Z.to_nat n) (Z.to_nat m)); [apply tags_sorted|lia| |];
      now apply map_nth_error.
  Qed.

  Lemma P_online n : (0 <= n < csize t)%Z -> online (P n).
  Proof. clear Hq. intros H. destruct (tag_at n H) as (g & _ & V & ->). now apply valid_online. Qed.

  (** Number of intersections. *)
  Lemma corner_excl (f1 f2 : Z) : (f1 = 0 \/ f1 = rz)%Z -> (f2 = 0 \/ f2 = ry)%Z ->
    (if q then (f1 = 0 /\ f2 = 0) \/ (f1 = rz /\ f2 = ry) else (f1 = 0 /\ f2 = ry) \/ (f1 = rz /\ f2 = 0))%Z ->
    ~ (valid (true, f1) /\ valid (false, f2)).
  Proof.
    intros H1 H2 Hqq [V1 V2].
    assert (M : 0 < margin) by (unfold margin; lra).
    pose proof (valid_online _ V1) as O1. pose proof (valid_online _ V2) as O2.
    unfold valid in V1, V2. cbn [fst snd] in V1, V2. destruct V1 as (Hs & _ & I1), V2 as (Hc & _ & I2).
    unfold online, pt in O1, O2. cbn [fst snd] in O1, O2.
    set (u := X f1) in *. set (v := Y f2) in *.
    assert (D : s * (u - grid ry f2) = c * (grid rz f1 - v)) by lra.
    assert (DD : c * c * (grid rz f1 - v) = (s * c) * (u - grid ry f2)) by (rewrite Rmult_assoc, <- D; ring).
    assert (s * c <> 0) by (now apply Rmult_integral_contrapositive).
    assert (0 < c * c) by nra.
    destruct q; destruct Hqq as [[E1 E2]|[E1 E2]]; rewrite E1, E2 in *.
    - assert (0 < u - grid ry 0) by lra. assert (0 < v - grid rz 0) by lra. assert (0 < s * c) by lra. nra.
    - assert (u - grid ry ry < 0) by lra. assert (v - grid rz rz < 0) by lra. assert (0 < s * c) by lra. nra.
    - assert (u - grid ry ry < 0) by lra. assert (0 < v - grid rz 0) by lra. assert (s * c < 0) by lra. nra.
    - assert (0 < u - grid ry 0) by lra. assert (v - grid rz rz < 0) by lra. assert (s * c < 0) by lra. nra.
  Qed.

  Lemma csize_bound : (csize t <= ry + rz)%Z.
  Proof.
    destruct (trace_tags z) as [E1 _]. fold t in E1. rewrite E1.
    set (U0 := map (pair true) (zrange 1 rz) ++ map (pair false) (zrange 1 ry)).
    assert (L0 : Z.of_nat (length U0) = (ry + rz - 2)%Z).
    { unfold U0. rewrite app_length, !map_length, !zrange_length. lia. }
    assert (dec : forall x y : tag, {x = y} + {x <> y}).
    { intros [b1 n1] [b2 n2]. destruct (Bool.bool_dec b1 b2), (Z.eq_dec n1 n2); [left; congruence|right; congruence..]. }
    set (pick := fun a b : tag => if in_dec dec a tags then a else b).
    assert (Pick : forall a b g, ~ (valid a /\ valid b) -> In g tags -> g = a \/ g = b -> g = pick a b).
    { intros a b g N G E. unfold pick. destruct (in_dec dec a tags) as [Ia|Ia].
      - destruct E as [E|E]; auto. subst g. exfalso. apply N. split; now apply in_tags.
      - destruct E as [E|E]; auto. now subst g. }
    assert (Q : exists e1 e2, incl tags (e1 :: e2 :: U0)).
    { set (o := if q then ry else 0%Z). set (o' := if q then 0%Z else ry).
      assert (OO : (o = ry /\ o' = 0 \/ o = 0 /\ o' = ry)%Z) by (unfold o, o'; destruct q; auto).
      exists (pick (true, 0%Z) (false, o')), (pick (true, rz) (false, o)).
      assert (N1 : ~ (valid (true, 0%Z) /\ valid (false, o'))).
      { apply corner_excl; auto; unfold o'; destruct q; auto. }
      assert (N2 : ~ (valid (true, rz) /\ valid (false, o))).
      { apply corner_excl; auto; unfold o; destruct q; auto. }
      intros g G. pose proof (proj1 (in_tags g) G) as V.
      destruct g as [[|] n].
      - assert (0 <= n <= rz)%Z by (unfold valid in V; cbn [fst snd] in V; tauto).
        destruct (Z.eq_dec n 0) as [->|]; [left; symmetry; apply Pick; auto|].
        destruct (Z.eq_dec n rz) as [->|]; [right; left; symmetry; apply Pick; auto|].
        right. right. apply in_or_app. left. apply in_map. apply in_zrange. lia.
      - assert (0 <= n <= ry)%Z by (unfold valid in V; cbn [fst snd] in V; tauto).
        destruct (Z.eq_dec n o') as [->|]; [left; symmetry; apply Pick; auto|].
        destruct (Z.eq_dec n o) as [->|]; [right; left; symmetry; apply Pick; auto|].
        right. right. apply in_or_app. right. apply in_map. apply in_zrange. clearbody o o'. lia. }
    destruct Q as (e1 & e2 & Q). pose proof (NoDup_incl_length NoDup_tags Q) as L. cbn [length] in L. change (list (bool * Z)) with (list tag) in *. unfold tag in *. lia.
  Qed.

  Lemma csize_eq : csize t = (Z.of_nat (length (a_tags)) + Z.of_nat (length b_tags))%Z.
  Proof. clear Hq.
    destruct (trace_tags z) as [E1 _]. fold t in E1. rewrite E1. unfold tags.
    rewrite (Permutation_length (merge_perm _ walk b_tags)), app_length.
    assert (length walk = length a_tags) as -> by (unfold walk; destruct q; [auto|apply rev_length]). lia.
  Qed.

  (** Pixels. *)
  Lemma pixel_range n : (0 <= n < csize t - 1)%Z ->
    (0 <= seg_indx ry P n < ry)%Z /\ (0 <= seg_indy rz P n < rz)%Z.
  Proof. clear Hq.
    intros Hn. destruct (tag_at n ltac:(lia)) as (g1 & G1 & V1 & E1).
    destruct (tag_at (n + 1) ltac:(lia)) as (g2 & G2 & V2 & E2).
    assert (NE : g1 <> g2). { intros <-. assert (n = n + 1)%Z; [|lia]. eapply tag_at_inj; eauto; lia. }
    unfold seg_indx, seg_indy. rewrite E1, E2.
    destruct (valid_in_box g1 V1) as (Bx1 & By1 & S1 & T1). destruct (valid_in_box g2 V2) as (Bx2 & By2 & S2 & T2).
    assert (M : 0 < margin) by (unfold margin; lra).
    assert (g0 : forall r, grid r 0 = - IZR r / 2) by (intros; unfold grid; lra).
    assert (gr : forall r, grid r r = IZR r / 2) by (intros; unfold grid; lra).
    pose proof (pixel_bounds ry (fst (pt g1)) (fst (pt g2))) as Px.
    pose proof (pixel_bounds rz (snd (pt g1)) (snd (pt g2))) as Py.
    rewrite !g0, !gr in *.
    assert (Sx : fst (pt g1) + fst (pt g2) < IZR ry).
    { destruct g1 as [[|] n1]; [specialize (S1 eq_refl); lra|]. destruct g2 as [[|] n2]; [specialize (S2 eq_refl); lra|].
      cbn [pt fst snd] in *. unfold valid in V1, V2. cbn [fst snd] in V1, V2.
      assert (n1 <> n2) by congruence. unfold grid in *.
      destruct (Z_lt_le_dec n1 n2).
      - assert (IZR n1 < IZR n2) by (now apply IZR_lt). lra.
      - assert (IZR n2 < IZR n1) by (apply IZR_lt; lia). lra. }
    assert (Sy : snd (pt g1) + snd (pt g2) < IZR rz).
    { destruct g1 as [[|] n1]; [|specialize (T1 eq_refl); lra]. destruct g2 as [[|] n2]; [|specialize (T2 eq_refl); lra].
      cbn [pt fst snd] in *. unfold valid in V1, V2. cbn [fst snd] in V1, V2.
      assert (n1 <> n2) by congruence. unfold grid in *.
      destruct (Z_lt_le_dec n1 n2).
      - assert (IZR n1 < IZR n2) by (now apply IZR_lt). lra.
      - assert (IZR n2 < IZR n1) by (apply IZR_lt; lia). lra. }
    repeat split.
    - assert (-1 < pixel ry (fst (pt g1)) (fst (pt g2)))%Z; [|lia]. apply lt_IZR. lra.
    - apply lt_IZR. lra.
    - assert (-1 < pixel rz (snd (pt g1)) (snd (pt g2)))%Z; [|lia]. apply lt_IZR. lra.
    - apply lt_IZR. lra.
  Qed.
  Lemma indi_range n : (0 <= n < csize t - 1)%Z -> (0 <= seg_indi ry rz P n < ry * rz)%Z.
  Proof. clear Hq. intros H. destruct (pixel_range n H). unfold seg_indi. nia. Qed.
  Lemma indi_eq n m : (0 <= n < csize t - 1)%Z -> (0 <= m < csize t - 1)%Z ->
    seg_indi ry rz P n = seg_indi ry rz P m -> seg_indx ry P n = seg_indx ry P m /\ seg_indy rz P n = seg_indy rz P m.
  Proof. clear Hq.
    intros Hn Hm E. destruct (pixel_range n Hn) as [_ ?], (pixel_range m Hm) as [_ ?]. unfold seg_indi in E.
    destruct (Z.div_mod_unique rz (seg_indx ry P n) (seg_indx ry P m) (seg_indy rz P n) (seg_indy rz P m)); auto; lia.
  Qed.

  (** Zero-length segments. *)
  Lemma online_eq p p' : (s <> 0 \/ c <> 0) -> online p -> online p' ->
    (c <> 0 /\ fst p = fst p') \/ (s <> 0 /\ snd p = snd p') -> p = p'.
  Proof.
    intros H O1 O2 [[Hc E]|[Hs E]]; unfold online in *; destruct p as [x1 y1], p' as [x2 y2]; cbn [fst snd] in *; subst.
    - f_equal. assert (c * (y1 - y2) = 0) by lra. apply Rmult_integral in H0 as [?|?]; [contradiction|lra].
    - f_equal. assert (s * (x1 - x2) = 0) by lra. apply Rmult_integral in H0 as [?|?]; [contradiction|lra].
  Qed.
  Lemma dist_zero n : P n = P (n + 1)%Z -> seg_dist P n = 0.
  Proof. intros E. unfold seg_dist. rewrite <- E. replace (_ + _) with 0 by ring. apply sqrt_0. Qed.

  Lemma pixel_eq_left r u v v' w : u <= v -> v' <= w -> v = v' -> (exists k, v = grid r k) ->
    pixel r u v = pixel r v' w -> u = v.
  Proof.
    intros H1 H2 <- [k ->] E.
    pose proof (pixel_bounds r u (grid r k)) as B1. pose proof (pixel_bounds r (grid r k) w) as B2. rewrite <- E in B2.
    unfold grid in *. set (p := pixel r u (- IZR r / 2 + IZR k)) in *.
    assert (IZR p < IZR k + 1) by lra. assert (IZR k - 1 < IZR p) by lra.
    assert (p = k \/ p <> k) as [->|N] by lia; [lra|].
    exfalso. rewrite <- plus_IZR in H. rewrite <- minus_IZR in H0. apply lt_IZR in H, H0.
    assert (p = k) by lia. contradiction.
  Qed.
  (* the same for a decreasing sequence: then the second segment is empty *)
  Lemma pixel_eq_right r u v w : v <= u -> w <= v -> (exists k, v = grid r k) ->
    pixel r u v = pixel r v w -> w = v.
  Proof.
    intros H1 H2 [k ->] E.
    pose proof (pixel_bounds r u (grid r k)) as B1. pose proof (pixel_bounds r (grid r k) w) as B2. rewrite <- E in B2.
    unfold grid in *. set (p := pixel r u (- IZR r / 2 + IZR k)) in *.
    assert (IZR k < IZR p + 1) by lra. assert (IZR p < IZR k + 1) by lra.
    rewrite <- plus_IZR in H, H0. apply lt_IZR in H, H0. assert (p = k) by lia. subst p. rewrite H3 in *. lra.
  Qed.

  Lemma pixel_mono r u v u' v' : u <= u' -> v <= v' -> (pixel r u v <= pixel r u' v')%Z.
  Proof.
    intros H1 H2. pose proof (pixel_bounds r u v). pose proof (pixel_bounds r u' v').
    assert (pixel r u v < pixel r u' v' + 1)%Z; [|lia]. apply lt_IZR. rewrite plus_IZR. lra.
  Qed.

  (** No pixel gets two segments of positive length. *)
  Lemma adjacent_same k : (0 <= k)%Z -> (k + 1 < csize t - 1)%Z ->
    seg_indx ry P k = seg_indx ry P (k + 1) -> seg_indy rz P k = seg_indy rz P (k + 1) ->
    P k = P (k + 1)%Z \/
    (P (k + 1)%Z = P (k + 2)%Z /\ exists g, nth_error tags (Z.to_nat (k + 1)) = Some g /\ fst g = true /\ q = false).
  Proof.
    intros H0 H1 Ex Ey.
    destruct (tag_at (k + 1) ltac:(lia)) as (g & G & V & E).
    pose proof (P_sorted k (k + 1) ltac:(lia) ltac:(lia)) as S1.
    pose proof (P_sorted (k + 1) (k + 2) ltac:(lia) ltac:(lia)) as S2.
    pose proof (P_online k ltac:(lia)) as O0. pose proof (P_online (k + 1) ltac:(lia)) as O1.
    pose proof (P_online (k + 2) ltac:(lia)) as O2.
    unfold seg_indx, seg_indy in Ex, Ey. replace (k + 1 + 1)%Z with (k + 2)%Z in Ex, Ey by lia.
    destruct g as [[|] n].
    - (* on a horizontal line *)
      assert (Hs : s <> 0) by apply V. assert (Gy : exists i, snd (P (k + 1)%Z) = grid rz i) by (exists n; rewrite E; auto).
      destruct q eqn:Eq.
      + left. apply online_eq; auto. right. split; auto.
        unfold prec in S1, S2. rewrite Eq in S1, S2.
        apply (pixel_eq_left rz _ _ (snd (P (k + 1)%Z)) (snd (P (k + 2)%Z))); auto; lra.
      + right. split; [|exists (true, n); auto]. apply online_eq; auto. right. split; auto. symmetry.
        unfold prec in S1, S2. rewrite Eq in S1, S2.
        apply (pixel_eq_right rz (snd (P k))); auto; lra.
    - assert (Hc : c <> 0) by apply V. assert (Gx : exists i, fst (P (k + 1)%Z) = grid ry i) by (exists n; rewrite E; auto).
      left. apply online_eq; auto. left. split; auto.
      unfold prec in S1, S2.
      apply (pixel_eq_left ry _ _ (fst (P (k + 1)%Z)) (fst (P (k + 2)%Z))); auto; lra.
  Qed.

  Lemma indices_between k m j : (0 <= k)%Z -> (m < csize t - 1)%Z -> (k <= j <= m)%Z ->
    seg_indx ry P k = seg_indx ry P m -> seg_indy rz P k = seg_indy rz P m ->
    seg_indx ry P j = seg_indx ry P k /\ seg_indy rz P j = seg_indy rz P k.
  Proof.
    intros Hk Hm Hj Ex Ey.
    pose proof (P_sorted k j ltac:(lia) ltac:(lia)) as A1. pose proof (P_sorted (k + 1) (j + 1) ltac:(lia) ltac:(lia)) as A2.
    pose proof (P_sorted j m ltac:(lia) ltac:(lia)) as B1. pose proof (P_sorted (j + 1) (m + 1) ltac:(lia) ltac:(lia)) as B2.
    unfold prec in *. unfold seg_indx, seg_indy in *. split.
    - pose proof (pixel_mono ry (fst (P k)) (fst (P (k + 1)%Z)) (fst (P j)) (fst (P (j + 1)%Z)) ltac:(lra) ltac:(lra)).
      pose proof (pixel_mono ry (fst (P j)) (fst (P (j + 1)%Z)) (fst (P m)) (fst (P (m + 1)%Z)) ltac:(lra) ltac:(lra)). lia.
    - destruct q.
      + pose proof (pixel_mono rz (snd (P k)) (snd (P (k + 1)%Z)) (snd (P j)) (snd (P (j + 1)%Z)) ltac:(lra) ltac:(lra)).
        pose proof (pixel_mono rz (snd (P j)) (snd (P (j + 1)%Z)) (snd (P m)) (snd (P (m + 1)%Z)) ltac:(lra) ltac:(lra)). lia.
      + pose proof (pixel_mono rz (snd (P j)) (snd (P (j + 1)%Z)) (snd (P k)) (snd (P (k + 1)%Z)) ltac:(lra) ltac:(lra)).
        pose proof (pixel_mono rz (snd (P m)) (snd (P (m + 1)%Z)) (snd (P j)) (snd (P (j + 1)%Z)) ltac:(lra) ltac:(lra)). lia.
  Qed.

  Lemma distinct_pixels k m : (0 <= k < m)%Z -> (m < csize t - 1)%Z ->
    seg_indi ry rz P k = seg_indi ry rz P m -> seg_dist P k = 0 \/ seg_dist P m = 0.
  Proof.
    intros Hk Hm E. destruct (indi_eq k m ltac:(lia) ltac:(lia) E) as [Ex Ey].
    destruct (indices_between k m (k + 1) ltac:(lia) Hm ltac:(lia) Ex Ey) as [Ex1 Ey1].
    destruct (adjacent_same k ltac:(lia) ltac:(lia)) as [A|[A (g & G & Gt & Eq)]]; auto.
    - left. now apply dist_zero.
    - destruct (Z.eq_dec m (k + 1)) as [->|Nm].
      + right. apply dist_zero. rewrite A. f_equal. lia.
      + left.
        (* the point k + 2 coincides with k + 1 and must lie on a vertical line *)
        destruct (tag_at (k + 1) ltac:(lia)) as (g1 & G1 & V1 & P1). rewrite G in G1. injection G1 as <-.
        destruct (tag_at (k + 2) ltac:(lia)) as (g2 & G2 & V2 & P2).
        assert (g <> g2). { intros <-. assert (k + 1 = k + 2)%Z; [|lia]. eapply tag_at_inj; eauto; lia. }
        destruct g as [b n], g2 as [b2 n2]. cbn in Gt. subst b.
        destruct b2.
        * exfalso. assert (snd (P (k + 1)%Z) = snd (P (k + 2)%Z)) by congruence. rewrite P1, P2 in H0. cbn in H0.
          apply grid_inj in H0. congruence.
        * apply dist_zero. assert (Hc : c <> 0) by apply V2.
          pose proof (P_online k ltac:(lia)) as O0. pose proof (P_online (k + 1) ltac:(lia)) as O1.
          apply online_eq; auto. left. split; auto.
          assert (Gx : exists i, fst (P (k + 1)%Z) = grid ry i) by (exists n2; rewrite A, P2; auto).
          destruct (P_sorted k (k + 1) ltac:(lia) ltac:(lia)) as [S1 _].
          destruct (P_sorted (k + 1) (k + 2) ltac:(lia) ltac:(lia)) as [S2 _].
          apply (pixel_eq_left ry _ _ (fst (P (k + 1)%Z)) (fst (P (k + 2)%Z))); auto.
          unfold seg_indx in Ex1. replace (k + 1 + 1)%Z with (k + 2)%Z in Ex1 by lia. auto.
  Qed.

  (** Between two consecutive intersections inside the trimmed box the ray stays in one pixel. *)
  Lemma inside_pixel n : (0 <= n < csize t - 1)%Z ->
    (forall k, k = n \/ k = (n + 1)%Z ->
       grid ry 0 + margin <= fst (P k) <= grid ry ry - margin /\ grid rz 0 + margin <= snd (P k) <= grid rz rz - margin) ->
    c <> 0 -> s <> 0 ->
    forall k, k = n \/ k = (n + 1)%Z ->
      fst (P n) < fst (P (n + 1)%Z) ->
      grid ry (seg_indx ry P n) <= fst (P k) <= grid ry (seg_indx ry P n + 1) /\
      grid rz (seg_indy rz P n) <= snd (P k) <= grid rz (seg_indy rz P n + 1).
  Proof.
    intros Hn Hin Hc Hs k Hk Hlt.
    pose proof (Hin n (or_introl eq_refl)) as [I1x I1y]. pose proof (Hin (n + 1)%Z (or_intror eq_refl)) as [I2x I2y].
    assert (M : 0 < margin) by (unfold margin; lra).
    destruct (P_sorted n (n + 1) ltac:(lia) ltac:(lia)) as [Sx Sy].
    pose proof (P_online n ltac:(lia)) as O1. pose proof (P_online (n + 1) ltac:(lia)) as O2.
    (* no vertical line strictly between *)
    assert (NX : forall i, ~ (fst (P n) < grid ry i < fst (P (n + 1)%Z))).
    { intros i [L1 L2].
      assert (Hi : (0 <= i <= ry)%Z).
      { split.
        - apply Z.lt_succ_r. apply Z.lt_nge. intros C. assert (i <= 0)%Z by lia. pose proof (grid_le ry i 0 H). lra.
        - apply Z.lt_succ_r. apply Z.lt_nge. intros C. assert (ry <= i)%Z by lia. pose proof (grid_le ry ry i H). lra. }
      assert (V : valid (false, i)).
      { unfold valid. cbn [fst snd]. split; auto. split; auto.
        assert (O : online (grid ry i, Y i)) by (unfold online, Y; cbn [fst snd]; generalize (grid ry i); intros; field; auto).
        pose proof (online_prec (P n) (grid ry i, Y i) Hc O1 O ltac:(cbn; lra)) as [_ Q1].
        pose proof (online_prec (grid ry i, Y i) (P (n + 1)%Z) Hc O O2 ltac:(cbn; lra)) as [_ Q2].
        cbn [snd] in Q1, Q2. destruct q; lra. }
      destruct (tag_found _ V) as (m & Hm & Em).
      assert (F : fst (P m) = grid ry i) by (rewrite Em; auto).
      destruct (Z_le_gt_dec m n).
      - destruct (P_sorted m n ltac:(lia) ltac:(lia)). lra.
      - destruct (P_sorted (n + 1) m ltac:(lia) ltac:(lia)). lra. }
    assert (NY : forall i, ~ (Rmin (snd (P n)) (snd (P (n + 1)%Z)) < grid rz i < Rmax (snd (P n)) (snd (P (n + 1)%Z)))).
    { intros i [L1 L2].
      assert (Hb : grid rz 0 + margin < grid rz i < grid rz rz - margin).
      { split; [eapply Rle_lt_trans; [|exact L1]; apply Rmin_glb; lra|eapply Rlt_le_trans; [exact L2|]; apply Rmax_lub; lra]. }
      assert (Hi : (0 <= i <= rz)%Z).
      { split.
        - apply Z.lt_succ_r. apply Z.lt_nge. intros C. assert (i <= 0)%Z by lia. pose proof (grid_le rz i 0 H). lra.
        - apply Z.lt_succ_r. apply Z.lt_nge. intros C. assert (rz <= i)%Z by lia. pose proof (grid_le rz rz i H). lra. }
      assert (O : online (X i, grid rz i)) by (unfold online, X; cbn [fst snd]; generalize (grid rz i); intros; field; auto).
      assert (Hx : fst (P n) < X i < fst (P (n + 1)%Z)).
      { split; apply Rnot_le_lt; intros C.
        - pose proof (online_prec (X i, grid rz i) (P n) Hc O O1 ltac:(cbn; lra)) as [_ Q1]. cbn [snd] in Q1.
          destruct q; [rewrite Rmin_left in L1 by lra|rewrite Rmax_left in L2 by lra]; lra.
        - pose proof (online_prec (P (n + 1)%Z) (X i, grid rz i) Hc O2 O ltac:(cbn; lra)) as [_ Q1]. cbn [snd] in Q1.
          destruct q; [rewrite Rmax_right in L2 by lra|rewrite Rmin_right in L1 by lra]; lra. }
      assert (V : valid (true, i)) by (unfold valid; cbn [fst snd]; repeat split; auto; lia || lra).
      destruct (tag_found _ V) as (m & Hm & Em).
      assert (F : fst (P m) = X i) by (rewrite Em; auto).
      destruct (Z_le_gt_dec m n).
      - destruct (P_sorted m n ltac:(lia) ltac:(lia)). lra.
      - destruct (P_sorted (n + 1) m ltac:(lia) ltac:(lia)). lra. }
    pose proof (pixel_bounds ry (fst (P n)) (fst (P (n + 1)%Z))) as Bx. fold (seg_indx ry P n) in Bx.
    pose proof (pixel_bounds rz (snd (P n)) (snd (P (n + 1)%Z))) as By. fold (seg_indy rz P n) in By.
    set (ix := seg_indx ry P n) in *. set (iy := seg_indy rz P n) in *.
    assert (RX : grid ry ix <= fst (P n) /\ fst (P (n + 1)%Z) <= grid ry (ix + 1)).
    { unfold grid in *. rewrite plus_IZR. split; apply Rnot_lt_le; intros C.
      - apply (NX ix). split; [lra|]. lra.
      - apply (NX (ix + 1)%Z). rewrite plus_IZR. split; [lra|]. lra. }
    assert (NEY : snd (P n) <> snd (P (n + 1)%Z)).
    { intros E. assert (s * (fst (P n) - fst (P (n + 1)%Z)) = 0) by (unfold online in *; rewrite E in O1; lra).
      apply Rmult_integral in H as [?|?]; [contradiction|lra]. }
    assert (RY : grid rz iy <= Rmin (snd (P n)) (snd (P (n + 1)%Z)) /\ Rmax (snd (P n)) (snd (P (n + 1)%Z)) <= grid rz (iy + 1)).
    { assert (MM : Rmin (snd (P n)) (snd (P (n + 1)%Z)) < (snd (P n) + snd (P (n + 1)%Z)) / 2 < Rmax (snd (P n)) (snd (P (n + 1)%Z))).
      { unfold Rmin, Rmax. destruct (Rle_dec (snd (P n)) (snd (P (n + 1)%Z))); lra. }
      unfold grid in *. rewrite plus_IZR. split; apply Rnot_lt_le; intros C.
      - apply (NY iy). split; [lra|]. lra.
      - apply (NY (iy + 1)%Z). rewrite plus_IZR. split; [lra|]. lra. }
    destruct RX as [RX1 RX2], RY as [RY1 RY2].
    assert (snd (P n) <= Rmax (snd (P n)) (snd (P (n + 1)%Z))) by apply Rmax_l.
    assert (snd (P (n + 1)%Z) <= Rmax (snd (P n)) (snd (P (n + 1)%Z))) by apply Rmax_r.
    assert (Rmin (snd (P n)) (snd (P (n + 1)%Z)) <= snd (P n)) by apply Rmin_l.
    assert (Rmin (snd (P n)) (snd (P (n + 1)%Z)) <= snd (P (n + 1)%Z)) by apply Rmin_r.
    destruct Hk as [->| ->]; lra.
  Qed.

  (** The lengths add up to the distance between the first and the last intersection. *)
  Hypothesis Hunit : s * s + c * c = 1.
  Definition dist2 (p p' : R * R) : R :=
    sqrt ((fst p' - fst p) * (fst p' - fst p) + (snd p' - snd p) * (snd p' - snd p)).
  Lemma dist_param p p' : online p -> online p' ->
    dist2 p p' = Rabs (c * (fst p' - fst p) + s * (snd p' - snd p)).
  Proof.
    intros O1 O2. unfold dist2. unfold online in *.
    assert (E : s * (fst p' - fst p) = c * (snd p' - snd p)) by lra.
    set (dx := fst p' - fst p) in *. set (dy := snd p' - snd p) in *.
    rewrite <- sqrt_Rsqr_abs. f_equal. unfold Rsqr.
    transitivity ((s * s + c * c) * (dx * dx + dy * dy)); [rewrite Hunit; ring|].
    replace ((c * dx + s * dy) * (c * dx + s * dy)) with (c * c * dx * dx + s * s * dy * dy + 2 * (s * dx) * (c * dy)) by ring.
    replace (2 * (s * dx) * (c * dy)) with (s * dx * (s * dx) + c * dy * (c * dy)) by (rewrite E; ring). ring.
  Qed.
  Lemma prec_sign p p' : online p -> online p' -> prec p p' ->
    0 <= (if Rlt_dec c 0 then -1 else if Rlt_dec 0 c then 1 else if q then (if Rlt_dec s 0 then -1 else 1) else (if Rlt_dec s 0 then 1 else -1))
      * (c * (fst p' - fst p) + s * (snd p' - snd p)).
  Proof.
    unfold online, prec. intros O1 O2 [H1 H2].
    assert (E : s * (fst p' - fst p) = c * (snd p' - snd p)) by lra.
    set (dx := fst p' - fst p) in *. set (dy := snd p' - snd p) in *.
    assert (0 <= dx) by (unfold dx; lra).
    assert (EE : c * (c * dx + s * dy) = dx).
    { transitivity (dx * (s * s + c * c)); [|rewrite Hunit; ring].
      replace (c * (c * dx + s * dy)) with (c * c * dx + s * (c * dy)) by ring. rewrite <- E. ring. }
    set (w := c * dx + s * dy) in *.
    destruct (Rlt_dec c 0); [nra|]. destruct (Rlt_dec 0 c); [nra|].
    assert (c = 0) by lra. subst c. unfold w. 
    destruct q.
    - assert (0 <= dy) by (unfold dy; lra). destruct (Rlt_dec s 0); nra.
    - assert (dy <= 0) by (unfold dy; lra). destruct (Rlt_dec s 0); nra.
  Qed.
  Lemma dist_add p p' p'' : online p -> online p' -> online p'' -> prec p p' -> prec p' p'' ->
    dist2 p p' + dist2 p' p'' = dist2 p p''.
  Proof.
    intros O1 O2 O3 P1 P2. rewrite !dist_param by auto.
    pose proof (prec_sign p p' O1 O2 P1) as S1. pose proof (prec_sign p' p'' O2 O3 P2) as S2.
    set (sg := if Rlt_dec c 0 then -1 else if Rlt_dec 0 c then 1 else if q then (if Rlt_dec s 0 then -1 else 1) else (if Rlt_dec s 0 then 1 else -1)) in *.
    assert (sg = 1 \/ sg = -1).
    { unfold sg. destruct (Rlt_dec c 0); auto. destruct (Rlt_dec 0 c); auto. destruct q, (Rlt_dec s 0); auto. }
    unfold Rabs. destruct H as [E|E]; rewrite E in *; repeat destruct Rcase_abs; lra.
  Qed.
  Lemma dist_sum n : (0 <= n < csize t)%Z ->
    rsum (map (seg_dist P) (zrange 0 n)) = dist2 (P 0%Z) (P n).
  Proof.
    intros [H0 H1]. revert H1. pattern n. apply natlike_ind; auto; clear n H0.
    - intros _. rewrite zrange_nil by lia. unfold dist2. cbn. rewrite !Rminus_diag_eq by auto.
      rewrite !Rmult_0_l, Rplus_0_l. symmetry. apply sqrt_0.
    - intros n Hn IH H1. rewrite <- Z.add_1_r in *. rewrite zrange_snoc, map_app, rsum_app by auto.
      rewrite IH by lia. cbn. rewrite Rplus_0_r. change (seg_dist P n) with (dist2 (P n) (P (n + 1)%Z)).
      apply dist_add; try (apply P_online; lia); apply P_sorted; lia.
  Qed.
  End Traced.
End Geometry.

(** The number of intersections does not depend on the walking direction. *)
Lemma csize_bound_any ry rz xi yi s c q z : (1 <= ry)%Z -> (1 <= rz)%Z -> xi <> 0 ->
  (csize (trace ry rz q (ray_line xi yi s c) z) <= ry + rz)%Z.
Proof.
  intros Hy Hz Hx. rewrite csize_eq by auto.
  destruct (Rle_lt_dec 0 (s * c)).
  - rewrite <- (csize_eq ry rz Hy Hz xi yi s c Hx true z). now apply csize_bound.
  - rewrite <- (csize_eq ry rz Hy Hz xi yi s c Hx false z). apply csize_bound; auto. lra.
Qed.

(** ** calc_quadrant *)
Lemma trunc_pos x : 0 <= x -> x - 1 < IZR (trunc x) <= x /\ (0 <= trunc x)%Z.
Proof.
  intros H. unfold trunc. replace (rltb x 0) with false by (symmetry; apply rltb_false; lra).
  destruct (base_Int_part x). split; [lra|]. assert (-1 < Int_part x)%Z; [|lia]. apply lt_IZR. lra.
Qed.
Lemma trunc_neg x : x < 0 -> x <= IZR (trunc x) < x + 1.
Proof.
  intros H. unfold trunc. replace (rltb x 0) with true by (symmetry; apply rltb_spec; lra).
  rewrite opp_IZR. destruct (base_Int_part (- x)). lra.
Qed.
Lemma fmod_spec x m : 0 < m -> Rabs (fmod x m) < m /\ exists k : Z, fmod x m = x - m * IZR k.
Proof.
  intros Hm. split; [|exists (trunc (x / m)); auto]. unfold fmod.
  assert (E : x = m * (x / m)) by (field; lra).
  destruct (Rlt_le_dec (x / m) 0) as [N|N].
  - pose proof (trunc_neg _ N). rewrite E at 1. apply Rabs_def1; nra.
  - destruct (trunc_pos _ N). rewrite E at 1. apply Rabs_def1; nra.
Qed.

(** At least 1 / ipi_c (about 3e-9) away from the axes. *)
Definition off_axis (theta : R) : Prop := forall k : Z, 1 / IZR ipi_c <= Rabs (theta - IZR k * (PI / 2)).

Lemma sincos_period theta (k : Z) : sin (theta + 2 * PI * IZR k) = sin theta /\ cos (theta + 2 * PI * IZR k) = cos theta.
Proof.
  assert (N : forall (n : nat) x, sin (x + 2 * PI * INR n) = sin x /\ cos (x + 2 * PI * INR n) = cos x).
  { intros n x. replace (x + 2 * PI * INR n) with (x + 2 * INR n * PI) by ring. split; [apply sin_period|apply cos_period]. }
  destruct (Z_le_gt_dec 0 k) as [H|H].
  - replace k with (Z.of_nat (Z.to_nat k)) by lia. rewrite <- INR_IZR_INZ. apply N.
  - set (m := Z.to_nat (- k)). assert (E : IZR k = - INR m).
    { rewrite INR_IZR_INZ. unfold m. rewrite Z2Nat.id by lia. rewrite opp_IZR. lra. }
    rewrite E. destruct (N m (theta + 2 * PI * - INR m)) as [S C].
    replace (theta + 2 * PI * - INR m + 2 * PI * INR m) with theta in S, C by ring. split; congruence.
Qed.

Lemma quadrant_core phi (ti : Z) : 0 <= phi < 2 * PI -> off_axis phi ->
  phi * IZR ipi_c - 1 < IZR ti < phi * IZR ipi_c + 1 -> (0 <= ti)%Z ->
  let b := ((0 <=? ti)%Z && rltb (IZR ti) (1 / 2 * PI * IZR ipi_c))
       || (negb (rltb (IZR ti) (PI * IZR ipi_c)) && rltb (IZR ti) (3 / 2 * PI * IZR ipi_c)) in
  if b then 0 < sin phi * cos phi else sin phi * cos phi < 0.
Proof.
  intros Hphi Hoff Hti Hpos. cbv zeta. replace (0 <=? ti)%Z with true by lia. cbn [andb].
  assert (HI : 0 < IZR ipi_c) by (apply IZR_lt; reflexivity).
  pose proof PI_RGT_0 as HP.
  assert (S2 : sin phi * cos phi = sin (2 * phi) / 2) by (rewrite sin_2a; lra).
  assert (OFF : forall k : Z, 1 <= IZR ipi_c * Rabs (phi - IZR k * (PI / 2))).
  { intros k. specialize (Hoff k). apply (Rmult_le_compat_l (IZR ipi_c)) in Hoff; [|lra].
    replace (IZR ipi_c * (1 / IZR ipi_c)) with 1 in Hoff by (field; lra). lra. }
  pose proof (OFF 0%Z) as O0. pose proof (OFF 1%Z) as O1. pose proof (OFF 2%Z) as O2. pose proof (OFF 3%Z) as O3. pose proof (OFF 4%Z) as O4.
  set (I := IZR ipi_c) in *.
  destruct (Rlt_le_dec phi (PI / 2)) as [C1|C1].
  - rewrite Rabs_left in O1 by lra. assert (phi * I <= PI / 2 * I - 1) by nra.
    replace (rltb (IZR ti) (1 / 2 * PI * I)) with true by (symmetry; apply rltb_spec; lra). cbn [orb].
    rewrite Rabs_right in O0 by lra. assert (0 < phi) by nra. rewrite S2.
    assert (0 < sin (2 * phi)) by (apply sin_gt_0; lra). lra.
  - rewrite Rabs_right in O1 by lra. assert (PI / 2 * I + 1 <= phi * I) by nra.
    replace (rltb (IZR ti) (1 / 2 * PI * I)) with false by (symmetry; apply rltb_false; lra). cbn [orb].
    assert (PI / 2 < phi) by nra.
    destruct (Rlt_le_dec phi PI) as [C2|C2].
    + rewrite Rabs_left in O2 by lra. assert (phi * I <= PI * I - 1) by nra.
      replace (rltb (IZR ti) (PI * I)) with true by (symmetry; apply rltb_spec; lra). cbn [negb andb].
      rewrite S2. assert (sin (2 * phi) < 0) by (apply sin_lt_0; lra). lra.
    + rewrite Rabs_right in O2 by lra. assert (PI * I + 1 <= phi * I) by nra. assert (PI < phi) by nra.
      replace (rltb (IZR ti) (PI * I)) with false by (symmetry; apply rltb_false; lra). cbn [negb andb].
      assert (SP : sin (2 * phi) = sin (2 * (phi - PI))).
      { replace (2 * phi) with (2 * (phi - PI) + 2 * PI * 1) by ring. apply (sincos_period _ 1). }
      destruct (Rlt_le_dec phi (3 / 2 * PI)) as [C3|C3].
      * rewrite Rabs_left in O3 by lra. assert (phi * I <= 3 / 2 * PI * I - 1) by nra.
        replace (rltb (IZR ti) (3 / 2 * PI * I)) with true by (symmetry; apply rltb_spec; lra).
        rewrite S2, SP. assert (0 < sin (2 * (phi - PI))) by (apply sin_gt_0; lra). lra.
      * rewrite Rabs_right in O3 by lra. assert (3 / 2 * PI * I + 1 <= phi * I) by nra. assert (3 / 2 * PI < phi) by nra.
        replace (rltb (IZR ti) (3 / 2 * PI * I)) with false by (symmetry; apply rltb_false; lra).
        rewrite S2, SP. assert (sin (2 * (phi - PI)) < 0) by (apply sin_lt_0; lra). lra.
Qed.

Lemma off_axis_shift theta (k : Z) : off_axis theta -> off_axis (theta + 2 * PI * IZR k).
Proof.
  intros H j. specialize (H (j - 4 * k)%Z). rewrite minus_IZR, mult_IZR in H.
  replace (theta + 2 * PI * IZR k - IZR j * (PI / 2)) with (theta - (IZR j - 4 * IZR k) * (PI / 2)) by field. exact H.
Qed.

Lemma calc_quadrant_spec theta : - (2 * PI) < theta < 2 * PI -> off_axis theta ->
  if calc_quadrant theta then 0 < sin theta * cos theta else sin theta * cos theta < 0.
Proof.
  intros Ht Hoff. assert (HI : 0 < IZR ipi_c) by (apply IZR_lt; reflexivity). pose proof PI_RGT_0 as HP.
  unfold calc_quadrant. cbv zeta. destruct (Rlt_le_dec theta 0) as [N|N].
  - pose proof (trunc_neg (theta * IZR ipi_c) ltac:(nra)) as T.
    assert (L : (trunc (theta * IZR ipi_c) < 0)%Z).
    { specialize (Hoff 0%Z). rewrite Rmult_0_l, Rminus_0_r, Rabs_left in Hoff by lra.
      apply (Rmult_le_compat_r (IZR ipi_c)) in Hoff; [|lra].
      replace (1 / IZR ipi_c * IZR ipi_c) with 1 in Hoff by (field; lra). apply lt_IZR. lra. }
    replace (trunc (theta * IZR ipi_c) <? 0)%Z with true by lia.
    set (t0 := trunc (theta * IZR ipi_c)) in *.
    assert (0 < IZR t0 + 2 * PI * IZR ipi_c) by nra.
    destruct (trunc_pos (IZR t0 + 2 * PI * IZR ipi_c) ltac:(lra)) as [T1 T2].
    destruct (sincos_period theta 1) as [E1 E2]. rewrite <- E1, <- E2.
    apply quadrant_core; auto; [lra|apply off_axis_shift; auto|]. split; nra.
  - destruct (trunc_pos (theta * IZR ipi_c) ltac:(nra)) as [T1 T2].
    replace (trunc (theta * IZR ipi_c) <? 0)%Z with false by lia.
    apply quadrant_core; auto; lra.
Qed.

Lemma quadrant_fmod theta : off_axis theta -> let tp := fmod theta (2 * PI) in
  (if calc_quadrant tp then 0 < sin tp * cos tp else sin tp * cos tp < 0) /\ sin tp = sin theta /\ cos tp = cos theta.
Proof.
  intros Hoff tp. destruct (fmod_spec theta (2 * PI)) as [B [k E]]; [pose proof PI_RGT_0; lra|]. fold tp in B, E.
  assert (E' : tp = theta + 2 * PI * IZR (- k)) by (rewrite opp_IZR; lra).
  destruct (sincos_period theta (- k)) as [S C]. rewrite <- E' in S, C. split; [|auto].
  apply calc_quadrant_spec; [|rewrite E'; now apply off_axis_shift].
  apply Rabs_def2 in B. lra.
Qed.
