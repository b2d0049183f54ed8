From Verif Require Import Base Order CLoop Model_Ray Proofs_Ray Model_RayF Proofs_FloatB.
From Coq Require Import Reals Lra Sorted.
From Flocq Require Import Core BinarySingleNaN.
Local Open Scope R_scope.

(** ** Loops *)
Definition hitsF (r : Z) (coord : Z -> b32) (N : Z) : list Z := filter (fun n => insideF r (coord n)) (zrange 0 N).
Lemma trim_specF r coord pt N a0 : (0 <= N)%Z ->
  let s := for_ N (trim_stepF r coord pt) (0%Z, a0) in
  fst s = Z.of_nat (length (hitsF r coord N)) /\ map (snd s) (zrange 0 (fst s)) = map pt (hitsF r coord N).
Proof.
  intros HN.
  apply (for_inv (fun n (s : Z * arr pointF) => fst s = Z.of_nat (length (hitsF r coord n)) /\
     map (snd s) (zrange 0 (fst s)) = map pt (hitsF r coord n))); auto.
  intros n [sz a] Hn [H1 H2]. cbn [fst snd] in *. unfold hitsF. rewrite zrange_snoc, filter_app by lia.
  fold (hitsF r coord n). cbn [filter]. unfold trim_stepF.
  destruct (insideF r (coord n)) eqn:F; cbn [fst snd]; rewrite ?app_nil_r, ?app_length, ?map_app; auto.
  split; [cbn [length]; lia|]. rewrite zrange_snoc by lia. rewrite map_app. f_equal.
  - rewrite <- H2. apply map_ext_in. intros k Hk. apply in_zrange in Hk. apply aset_ne. lia.
  - cbn. now rewrite aset_eq.
Qed.
(** Nothing behind the stored points is written. *)
Lemma trim_frameF r coord pt N a0 k : (0 <= N)%Z -> let s := for_ N (trim_stepF r coord pt) (0%Z, a0) in
  (k < 0 \/ fst s <= k)%Z -> snd s k = a0 k.
Proof.
  intros HN s Hk. 
  assert (0 <= fst s /\ ((k < 0 \/ fst s <= k)%Z -> snd s k = a0 k))%Z as (_ & H); [|auto].
  apply (for_inv (fun n (s : Z * arr pointF) => (0 <= fst s)%Z /\ ((k < 0 \/ fst s <= k)%Z -> snd s k = a0 k))); auto; [split; [cbn; lia|auto]|].
  intros n [sz a] _ (H0 & H). cbn [fst snd] in *. unfold trim_stepF. destruct (insideF _ _); cbn [fst snd]; [|auto].
  split; [lia|]. intros L. rewrite aset_ne by lia. apply H. lia.
Qed.

Section Merge.
  Fixpoint mergeF (a : list pointF) : list pointF -> list pointF :=
    match a with
    | [] => fun b => b
    | x :: a' => fix inner (b : list pointF) : list pointF :=
        match b with
        | [] => a
        | y :: b' => if flt (fst x) (fst y) then x :: mergeF a' b else y :: inner b'
        end
    end.
  Lemma mergeF_nil_r a : mergeF a [] = a. Proof. now destruct a. Qed.
  Lemma mergeF_cons x a y b : mergeF (x :: a) (y :: b) = if flt (fst x) (fst y) then x :: mergeF a (y :: b) else y :: mergeF (x :: a) b.
  Proof. reflexivity. Qed.
  Lemma mergeF_perm a b : Permutation (mergeF a b) (a ++ b).
  Proof.
    revert b. induction a as [|x a IHa]; intros b; [reflexivity|].
    induction b as [|y b IHb]; [now rewrite mergeF_nil_r, app_nil_r|].
    rewrite mergeF_cons. destruct (flt (fst x) (fst y)).
    - cbn. constructor. apply IHa.
    - rewrite IHb. apply Permutation_middle.
  Qed.
  Lemma mergeF_sorted (R' : pointF -> pointF -> Prop) a b :
    (forall x y z, R' x y -> R' y z -> R' x z) ->
    StronglySorted R' a -> StronglySorted R' b ->
    (forall x y, In x a -> In y b -> flt (fst x) (fst y) = true -> R' x y) ->
    (forall x y, In x a -> In y b -> flt (fst x) (fst y) = false -> R' y x) ->
    StronglySorted R' (mergeF a b).
  Proof.
    intros Tr. revert b. induction a as [|x a IHa]; intros b Sa Sb H1 H2; [exact Sb|].
    induction b as [|y b IHb]; [rewrite mergeF_nil_r; auto|].
    inversion Sa as [|? ? Sa' Fa]. inversion Sb as [|? ? Sb' Fb]. subst.
    rewrite Forall_forall in Fa, Fb.
    rewrite mergeF_cons. destruct (flt (fst x) (fst y)) eqn:E.
    - constructor.
      + apply IHa; auto; intros; [apply H1|apply H2]; auto; now right.
      + rewrite Forall_forall. intros z Hz. apply (Permutation_in _ (mergeF_perm a (y :: b))) in Hz.
        apply in_app_or in Hz as [Hz|Hz]; auto. assert (R' x y) by (apply H1; auto; now left).
        destruct Hz as [<-|Hz]; auto. eauto.
    - constructor.
      + apply IHb; auto; intros; [apply H1|apply H2]; auto; now right.
      + rewrite Forall_forall. intros z Hz. apply (Permutation_in _ (mergeF_perm (x :: a) b)) in Hz.
        apply in_app_or in Hz as [Hz|Hz]; auto. assert (R' y x) by (apply H2; auto; now left).
        destruct Hz as [<-|Hz]; auto. eauto.
  Qed.
End Merge.

Section SortSpec.
  Variable cond : bool.
  Variables (asize : Z) (a : arr pointF) (bsize : Z) (b : arr pointF).
  Hypothesis Ha : (0 <= asize)%Z.
  Hypothesis Hb : (0 <= bsize)%Z.
  Let A_from i := map (selF cond asize a) (zrange i asize).
  Let B_from j := map b (zrange j bsize).
  Let total := mergeF (A_from 0) (B_from 0).
  Let Inv (s : sortingF) : Prop :=
    (0 <= fi s <= asize)%Z /\ (0 <= fj s <= bsize)%Z /\ fk s = (fi s + fj s)%Z /\
    map (fc s) (zrange 0 (fk s)) ++ mergeF (A_from (fi s)) (B_from (fj s)) = total.
  Let left (s : sortingF) : nat := Z.to_nat (asize - fi s + (bsize - fj s)).
  Lemma inv_take_aF s : Inv s -> (fi s < asize)%Z ->
    mergeF (A_from (fi s)) (B_from (fj s)) = selF cond asize a (fi s) :: mergeF (A_from (fi s + 1)) (B_from (fj s)) ->
    Inv (take_aF cond asize a s).
  Proof.
    intros (I1 & I2 & I3 & I4) Hi E. unfold Inv, take_aF. cbn [fi fj fk fc]. repeat split; try lia.
    rewrite <- I4, E, map_aset_snoc, <- app_assoc by lia. reflexivity.
  Qed.
  Lemma inv_take_bF s : Inv s -> (fj s < bsize)%Z ->
    mergeF (A_from (fi s)) (B_from (fj s)) = b (fj s) :: mergeF (A_from (fi s)) (B_from (fj s + 1)) ->
    Inv (take_bF b s).
  Proof.
    intros (I1 & I2 & I3 & I4) Hi E. unfold Inv, take_bF. cbn [fi fj fk fc]. repeat split; try lia.
    rewrite <- I4, E, map_aset_snoc, <- app_assoc by lia. reflexivity.
  Qed.
  Lemma A_from_consF i : (i < asize)%Z -> A_from i = selF cond asize a i :: A_from (i + 1).
  Proof. intros H. unfold A_from. now rewrite (@zrange_cons i asize). Qed.
  Lemma B_from_consF j : (j < bsize)%Z -> B_from j = b j :: B_from (j + 1).
  Proof. intros H. unfold B_from. now rewrite (@zrange_cons j bsize). Qed.
  Lemma A_from_nilF i : (asize <= i)%Z -> A_from i = [].
  Proof. intros H. unfold A_from. now rewrite zrange_nil. Qed.
  Lemma B_from_nilF j : (bsize <= j)%Z -> B_from j = [].
  Proof. intros H. unfold B_from. now rewrite zrange_nil. Qed.
  Lemma sort_specF c0 : let r := sort_intersectionsF cond asize a bsize b c0 in
    fst r = (asize + bsize)%Z /\
    map (snd r) (zrange 0 (asize + bsize)) = mergeF (map (selF cond asize a) (zrange 0 asize)) (map b (zrange 0 bsize)).
  Proof.
    cbv zeta. unfold sort_intersectionsF. cbv zeta. cbn [fst snd]. split; auto.
    set (s0 := mkSortingF 0 0 0 c0). set (fuel := Z.to_nat (asize + bsize)).
    assert (I0 : Inv s0).
    { unfold Inv, s0. cbn [fi fj fk fc]. repeat split; try lia. }
    match goal with |- context [while fuel ?cd ?bd s0] => set (c1 := cd); set (b1 := bd) end.
    assert (H1 : Inv (while fuel c1 b1 s0) /\ c1 (while fuel c1 b1 s0) = false).
    { apply (while_inv Inv left); auto.
      - unfold left, s0, fuel. cbn [fi fj]. lia.
      - intros s Is Cs. unfold c1 in Cs. assert (Hi : (fi s < asize)%Z) by lia. assert (Hj : (fj s < bsize)%Z) by lia.
        destruct Is as (I1 & I2 & I34). unfold b1.
        assert (Is : Inv s) by (split; auto).
        destruct (flt (fst (selF cond asize a (fi s))) (fst (b (fj s)))) eqn:E.
        + split; [|unfold left, take_aF; cbn [fi fj]; lia]. apply inv_take_aF; auto.
          rewrite (A_from_consF (fi s)), (B_from_consF (fj s)) by auto. rewrite mergeF_cons, E. reflexivity.
        + split; [|unfold left, take_bF; cbn [fi fj]; lia]. apply inv_take_bF; auto.
          rewrite (A_from_consF (fi s)), (B_from_consF (fj s)) by auto. rewrite mergeF_cons, E. reflexivity. }
    set (s1 := while fuel c1 b1 s0) in *. destruct H1 as [I1 C1]. unfold c1 in C1.
    match goal with |- context [while fuel ?cd ?bd s1] => set (c2 := cd); set (b2 := bd) end.
    assert (H2 : (Inv (while fuel c2 b2 s1) /\ ((fi (while fuel c2 b2 s1) = asize) \/ fj (while fuel c2 b2 s1) = bsize)%Z)
                 /\ c2 (while fuel c2 b2 s1) = false).
    { apply (while_inv (fun s => Inv s /\ (fi s = asize \/ fj s = bsize)%Z) left).
      - split; auto. destruct I1 as (? & ? & _). lia.
      - unfold left, fuel. destruct I1 as (? & ? & _). lia.
      - intros s [Is Hs] Cs. unfold c2 in Cs. assert (Hi : (fi s < asize)%Z) by lia.
        assert (Hj : fj s = bsize) by lia. pose proof Is as (J1 & J2 & _). unfold b2.
        split; [|unfold left, take_aF; cbn [fi fj]; lia]. split; [|right; auto]. apply inv_take_aF; auto.
        rewrite Hj, (B_from_nilF bsize) by lia. rewrite !mergeF_nil_r. now apply A_from_consF. }
    set (s2 := while fuel c2 b2 s1) in *. destruct H2 as [[I2 _] C2]. unfold c2 in C2.
    match goal with |- context [while fuel ?cd ?bd s2] => set (c3 := cd); set (b3 := bd) end.
    assert (H3 : (Inv (while fuel c3 b3 s2) /\ (fi (while fuel c3 b3 s2) = asize)%Z)
                 /\ c3 (while fuel c3 b3 s2) = false).
    { apply (while_inv (fun s => Inv s /\ (fi s = asize)%Z) left).
      - split; auto. destruct I2 as (? & ? & _). lia.
      - unfold left, fuel. destruct I2 as (? & ? & _). lia.
      - intros s [Is Hs] Cs. unfold c3 in Cs. assert (Hj : (fj s < bsize)%Z) by lia.
        pose proof Is as (J1 & J2 & _). unfold b3.
        split; [|unfold left, take_bF; cbn [fi fj]; lia]. split; auto. apply inv_take_bF; auto.
        rewrite Hs, (A_from_nilF asize) by lia. now apply B_from_consF. }
    set (s3 := while fuel c3 b3 s2) in *. destruct H3 as [[(I3a & I3b & I3c & I3d) Hs] C3]. unfold c3 in C3.
    assert (fj s3 = bsize) by lia. rewrite Hs, H in *. rewrite I3c in I3d.
    rewrite (A_from_nilF asize), (B_from_nilF bsize) in I3d by lia. cbn [mergeF] in I3d. rewrite app_nil_r in I3d. exact I3d.
  Qed.
End SortSpec.
Lemma selF_perm cond asize a : Permutation (map (selF cond asize a) (zrange 0 asize)) (map a (zrange 0 asize)).
Proof.
  unfold selF. destruct cond; [reflexivity|]. rewrite <- (map_map (fun i => asize - 1 - i)%Z a). apply Permutation_map.
  apply NoDup_Permutation; [| apply NoDup_zrange|].
  - apply FinFun.Injective_map_NoDup; [intros x y; lia|apply NoDup_zrange].
  - intros x. rewrite in_map_iff. split.
    + intros (y & <- & Hy). apply in_zrange in Hy. apply in_zrange. lia.
    + intros Hx. apply in_zrange in Hx. exists (asize - 1 - x)%Z. split; [lia|]. apply in_zrange. lia.
Qed.

(** ** Points of one ray *)
Section Trace.
  Variables (ry rz : Z) (quadrant : bool) (cx cy : Z -> b32) (za zb zc : arr pointF).
  Hypothesis Hy : (1 <= ry)%Z.
  Hypothesis Hz : (1 <= rz)%Z.
  Definition na := hitsF ry cx (rz + 1).
  Definition nb := hitsF rz cy (ry + 1).
  Definition pa (n : Z) : pointF := (cx n, gridF rz n).
  Definition pb (n : Z) : pointF := (gridF ry n, cy n).
  Let t := traceF ry rz quadrant cx cy za zb zc.
  Lemma trace_sizes : fasize t = Z.of_nat (length na) /\ fbsize t = Z.of_nat (length nb) /\ fcsize t = (fasize t + fbsize t)%Z.
  Proof.
    unfold t, traceF, trim_aF, trim_bF. pose proof (trim_specF ry cx pa (rz + 1) za ltac:(lia)) as (A & _). pose proof (trim_specF rz cy pb (ry + 1) zb ltac:(lia)) as (B & _).
    fold na in A. fold nb in B. unfold pa, pb in *. destruct (for_ (rz + 1) _ _) as [asz a], (for_ (ry + 1) _ _) as [bsz b]. cbn [fst] in A, B. subst.
    pose proof (sort_specF quadrant _ a _ b (Zle_0_nat (length na)) (Zle_0_nat (length nb)) zc) as (S1 & _).
    destruct (sort_intersectionsF _ _ _ _ _ _) as [cs c]. cbn [fst] in S1. subst. auto.
  Qed.
  Lemma trace_points : Permutation (map (fcoor t) (zrange 0 (fcsize t))) (map pa na ++ map pb nb).
  Proof.
    unfold t, traceF, trim_aF, trim_bF. pose proof (trim_specF ry cx pa (rz + 1) za ltac:(lia)) as (A & A'). pose proof (trim_specF rz cy pb (ry + 1) zb ltac:(lia)) as (B & B').
    fold na in A, A'. fold nb in B, B'. unfold pa, pb in *. destruct (for_ (rz + 1) _ _) as [asz a], (for_ (ry + 1) _ _) as [bsz b]. cbn [fst snd] in *. subst.
    pose proof (sort_specF quadrant _ a _ b (Zle_0_nat (length na)) (Zle_0_nat (length nb)) zc) as (S1 & S2).
    destruct (sort_intersectionsF _ _ _ _ _ _) as [cs c]. cbn [fst snd] in *. subst. cbn [fcsize fcoor]. rewrite S2, mergeF_perm, selF_perm, A', B'. reflexivity.
  Qed.
  Lemma na_in n : In n na -> (0 <= n <= rz)%Z /\ insideF ry (cx n) = true.
  Proof. intros H. apply filter_In in H. destruct H as (H & E). apply in_zrange in H. split; [lia|auto]. Qed.
  Lemma nb_in n : In n nb -> (0 <= n <= ry)%Z /\ insideF rz (cy n) = true.
  Proof. intros H. apply filter_In in H. destruct H as (H & E). apply in_zrange in H. split; [lia|auto]. Qed.
  Lemma filter_le {A} (f : A -> bool) l : (length (filter f l) <= length l)%nat.
  Proof. induction l as [|x l IH]; cbn; [lia|]. destruct (f x); cbn; lia. Qed.
  Lemma na_length : (Z.of_nat (length na) <= rz + 1)%Z.
  Proof. pose proof (filter_le (fun n => insideF ry (cx n)) (zrange 0 (rz + 1))) as H. rewrite zrange_length in H. unfold na, hitsF. lia. Qed.
  Lemma nb_length : (Z.of_nat (length nb) <= ry + 1)%Z.
  Proof. pose proof (filter_le (fun n => insideF rz (cy n)) (zrange 0 (ry + 1))) as H. rewrite zrange_length in H. unfold nb, hitsF. lia. Qed.
End Trace.
