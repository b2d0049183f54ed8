From Verif Require Import Base Order CLoop Model_Float Proofs_Float Model_Corr Model_Median3d.
From Coq Require Import Permutation.
Local Open Scope Z_scope.

Section Kernel.
  Context {V : Type} (D : V -> Prop) (lt : V -> V -> bool) (wo : weak_order D lt).
  Context (qs : list V -> list V) (Hqs : sorts D lt qs) (dflt : V).

  Lemma neighbour_range dim i d : 0 <= i < dim -> 0 <= neighbour dim i d < dim.
  Proof. unfold neighbour. cbv zeta. destruct ((i + d <? 0) || (i + d >=? dim)) eqn:E; lia. Qed.

  Lemma idx3_inj dimX dimY i j k i' j' k' :
    0 <= i < dimX -> 0 <= i' < dimX -> 0 <= j < dimY -> 0 <= j' < dimY ->
    idx3 dimX dimY i j k = idx3 dimX dimY i' j' k' -> (i, j, k) = (i', j', k').
  Proof.
    unfold idx3. intros Hi Hi' Hj Hj' E.
    assert (i = i' /\ dimY * k + j = dimY * k' + j') as [-> E2].
    { destruct (Z.div_mod_unique dimX (dimY * k + j) (dimY * k' + j') i i'); auto; lia. }
    assert (j = j' /\ k = k') as [-> ->]; auto.
    destruct (Z.div_mod_unique dimY k k' j j'); auto.
  Qed.

  Lemma offsets_length r : 0 <= r -> length (offsets r) = Z.to_nat (2 * r + 1).
  Proof. intros. unfold offsets. rewrite zrange_length. f_equal. lia. Qed.

  Lemma flat_map_length_const {A B} (f : A -> list B) n l : (forall x, In x l -> length (f x) = n) ->
    length (flat_map f l) = (length l * n)%nat.
  Proof.
    induction l as [|x l IH]; intros H; auto. cbn [flat_map length]. rewrite app_length, IH, (H x); cbn; auto.
    intros; apply H; now right.
  Qed.

  Lemma gather3_length (inp : arr V) r dimX dimY dimZ i j k : 0 <= r ->
    length (gather3 inp r dimX dimY dimZ i j k) = Z.to_nat ((2 * r + 1) ^ 3).
  Proof.
    intros Hr. unfold gather3. set (n := Z.to_nat (2 * r + 1)).
    rewrite (flat_map_length_const _ (n * n)).
    - rewrite offsets_length by auto. fold n.
      replace ((2 * r + 1) ^ 3) with (Z.of_nat n * (Z.of_nat n * Z.of_nat n)) by (unfold n; rewrite Z2Nat.id by lia; ring).
      rewrite <- !Nat2Z.inj_mul, Nat2Z.id. auto.
    - intros. rewrite (flat_map_length_const _ n); [now rewrite offsets_length|].
      intros. now rewrite map_length, offsets_length.
  Qed.

  Lemma gather3_odd (inp : arr V) r dimX dimY dimZ i j k : 0 <= r ->
    exists h, length (gather3 inp r dimX dimY dimZ i j k) = (2 * h + 1)%nat.
  Proof.
    intros Hr. rewrite gather3_length by auto.
    exists (Z.to_nat (4 * r ^ 3 + 6 * r ^ 2 + 3 * r)).
    assert (0 <= 4 * r ^ 3 + 6 * r ^ 2 + 3 * r) by nia.
    apply Nat2Z.inj. rewrite Nat2Z.inj_add, Nat2Z.inj_mul, !Z2Nat.id; [ring|lia|nia].
  Qed.

  (** The window holds, for each offset in the cube, the value at the shifted coordinates, where
      a coordinate that would leave the array is not shifted. *)
  Lemma gather3_in (inp : arr V) r dimX dimY dimZ i j k v : 0 <= i < dimX -> 0 <= j < dimY -> 0 <= k < dimZ ->
    In v (gather3 inp r dimX dimY dimZ i j k) ->
    exists i' j' k', 0 <= i' < dimX /\ 0 <= j' < dimY /\ 0 <= k' < dimZ /\
      Z.abs (i' - i) <= r /\ Z.abs (j' - j) <= r /\ Z.abs (k' - k) <= r /\ v = inp (idx3 dimX dimY i' j' k').
  Proof.
    intros Hi Hj Hk H. unfold gather3 in H. apply in_flat_map in H. destruct H as (a & Ha & H).
    apply in_flat_map in H. destruct H as (b & Hb & H). apply in_map_iff in H. destruct H as (c & <- & Hc).
    unfold offsets in *. apply in_zrange in Ha, Hb, Hc.
    assert (N : forall dim x d, -r <= d < r + 1 -> Z.abs (neighbour dim x d - x) <= r).
    { intros. unfold neighbour. cbv zeta. destruct (_ || _); lia. }
    exists (neighbour dimX i a), (neighbour dimY j b), (neighbour dimZ k c).
    repeat split; auto; apply neighbour_range; auto.
  Qed.

  Definition mid (w : list V) (v : V) : Prop := exists h, length w = (2 * h + 1)%nat /\ kth lt w h v.

  Lemma middle_is_median w : Forall D w -> (exists h, length w = (2 * h + 1)%nat) ->
    mid w (nth (length w / 2) (qs w) dflt).
  Proof.
    intros HD [h Hh]. exists h. split; auto. destruct (Hqs w) as [P S].
    replace (length w / 2)%nat with h by (rewrite Hh; apply (Nat.div_unique _ _ _ 1); lia).
    apply (sorted_kth _ _ wo w (qs w)); auto.
    apply nth_error_nth'. rewrite (Permutation_length P). lia.
  Qed.

  Context (thr : option (V -> V -> bool)) (inp : arr V) (r dimX dimY dimZ : Z).

  Definition value3 (out : arr V) (c : Z * Z * Z) : V :=
    let '(i, j, k) := c in
    let w := gather3 inp r dimX dimY dimZ i j k in
    let med := nth (length w / 2) (qs w) dflt in
    match thr with
    | None => med
    | Some far => if far (inp (idx3 dimX dimY i j k)) med then med else out (idx3 dimX dimY i j k)
    end.

  Definition inside (c : Z * Z * Z) : Prop :=
    let '(i, j, k) := c in 0 <= i < dimX /\ 0 <= j < dimY /\ 0 <= k < dimZ.

  Lemma voxel3_at out i j k x : 
    voxel3 qs dflt thr inp r dimX dimY dimZ out (i, j, k) x =
      if x =? idx3 dimX dimY i j k then value3 out (i, j, k) else out x.
  Proof.
    unfold voxel3, write_median, value3. cbv zeta.
    destruct (Z.eqb_spec x (idx3 dimX dimY i j k)) as [->|N].
    - destruct thr as [far|]; [destruct (far _ _)|]; rewrite ?aset_eq; auto.
    - destruct thr as [far|]; [destruct (far _ _)|]; rewrite ?aset_ne; auto.
  Qed.

  Definition cidx (c : Z * Z * Z) : Z := let '(i, j, k) := c in idx3 dimX dimY i j k.

  Lemma run3_cells : forall order out, NoDup order -> Forall inside order ->
    (forall c, In c order -> run3 qs dflt thr inp r dimX dimY dimZ order out (cidx c) = value3 out c) /\
    (forall x, (forall c, In c order -> cidx c <> x) -> run3 qs dflt thr inp r dimX dimY dimZ order out x = out x).
  Proof.
    induction order as [|c order IH]; intros out ND IN.
    - split; [intros c []|auto].
    - inversion ND as [|? ? Nc ND']; subst. inversion IN as [|? ? Ic IN']; subst.
      destruct c as [[i j] k]. set (out1 := voxel3 qs dflt thr inp r dimX dimY dimZ out (i, j, k)).
      destruct (IH out1 ND' IN') as [H1 H2]. unfold run3 in *. cbn [fold_left]. fold out1.
      rewrite Forall_forall in IN'. split.
      + intros c [<-|Hc].
        * rewrite H2.
          -- unfold out1, cidx. rewrite voxel3_at, Z.eqb_refl. auto.
          -- intros [[i' j'] k'] Hc E. destruct (IN' _ Hc) as (A & B & C). destruct Ic as (A' & B' & C').
             unfold cidx in E. apply idx3_inj in E; auto. rewrite E in Hc. contradiction.
        * rewrite (H1 c Hc). destruct c as [[i' j'] k']. unfold value3. cbv zeta.
          assert (E : out1 (idx3 dimX dimY i' j' k') = out (idx3 dimX dimY i' j' k')).
          { unfold out1. rewrite voxel3_at. destruct (Z.eqb_spec (idx3 dimX dimY i' j' k') (idx3 dimX dimY i j k)) as [E|]; auto.
            destruct (IN' _ Hc) as (A & B & C). destruct Ic as (A' & B' & C').
            apply idx3_inj in E; auto. rewrite E in Hc. contradiction. }
          rewrite E. reflexivity.
      + intros x Hx. rewrite H2 by (intros; apply Hx; now right).
        unfold out1. rewrite voxel3_at. destruct (Z.eqb_spec x (idx3 dimX dimY i j k)) as [->|]; auto.
        exfalso. apply (Hx (i, j, k)); [now left|reflexivity].
  Qed.

  Lemma in_voxels3 c : In c (voxels3 dimX dimY dimZ) <-> inside c.
  Proof.
    destruct c as [[i j] k]. unfold voxels3, inside. rewrite in_flat_map. split.
    - intros (k' & Hk & H). apply in_flat_map in H. destruct H as (j' & Hj & H).
      apply in_map_iff in H. destruct H as (i' & [= -> -> ->] & Hi). rewrite in_zrange in *. auto.
    - intros (Hi & Hj & Hk). exists k. rewrite in_zrange. split; auto.
      apply in_flat_map. exists j. rewrite in_zrange. split; auto.
      apply in_map_iff. exists i. rewrite in_zrange. auto.
  Qed.

  Lemma NoDup_flat_map {A B} (f : A -> list B) l : NoDup l -> (forall x, In x l -> NoDup (f x)) ->
    (forall x y b, In x l -> In y l -> In b (f x) -> In b (f y) -> x = y) -> NoDup (flat_map f l).
  Proof.
    induction 1 as [|x l Hx ND IH]; intros H1 H2; cbn; [constructor|].
    assert (NA : forall a b : list B, NoDup a -> NoDup b -> (forall c, In c a -> ~ In c b) -> NoDup (a ++ b)).
    { intros a b Ha Hb Hab. induction Ha as [|c a Hc Ha IHa]; cbn; auto. constructor.
      - rewrite in_app_iff. intros [|]; auto. apply (Hab c); cbn; auto.
      - apply IHa. intros c' ?. apply Hab. now right. }
    apply NA.
    - apply H1. now left.
    - apply IH; [intros; apply H1; now right|]. intros y z b Hy Hz. apply H2; now right.
    - intros b Hb Hb'. apply in_flat_map in Hb'. destruct Hb' as (y & Hy & Hb').
      assert (x = y) by (apply (H2 x y b); cbn; auto). subst. contradiction.
  Qed.

  Lemma NoDup_voxels3 : NoDup (voxels3 dimX dimY dimZ).
  Proof.
    unfold voxels3. apply NoDup_flat_map; [apply NoDup_zrange| |].
    - intros k _. apply NoDup_flat_map; [apply NoDup_zrange| |].
      + intros j _. apply FinFun.Injective_map_NoDup; [|apply NoDup_zrange]. intros ? ? [=]; auto.
      + intros j j' b _ _ H1 H2. apply in_map_iff in H1, H2.
        destruct H1 as (? & <- & _), H2 as (? & [=] & _). auto.
    - intros k k' b _ _ H1 H2. apply in_flat_map in H1, H2.
      destruct H1 as (? & _ & H1), H2 as (? & _ & H2). apply in_map_iff in H1, H2.
      destruct H1 as (? & <- & _), H2 as (? & [=] & _). auto.
  Qed.

  (** Every visiting order gives the same array. *)
  Lemma run3_order order out i j k : Permutation order (voxels3 dimX dimY dimZ) ->
    0 <= i < dimX -> 0 <= j < dimY -> 0 <= k < dimZ ->
    run3 qs dflt thr inp r dimX dimY dimZ order out (idx3 dimX dimY i j k) = value3 out (i, j, k).
  Proof.
    intros P Hi Hj Hk.
    destruct (run3_cells order out) as [H _].
    - eapply Permutation_NoDup; [symmetry; exact P|apply NoDup_voxels3].
    - rewrite Forall_forall. intros c Hc. apply in_voxels3. eapply Permutation_in; eauto.
    - apply (H (i, j, k)). eapply Permutation_in; [symmetry; exact P|]. apply in_voxels3. cbn. auto.
  Qed.
  Lemma run3_outside order out x : Permutation order (voxels3 dimX dimY dimZ) ->
    ~ (0 <= x < dimX * dimY * dimZ) -> run3 qs dflt thr inp r dimX dimY dimZ order out x = out x.
  Proof.
    intros P Hx. destruct (run3_cells order out) as [_ H].
    - eapply Permutation_NoDup; [symmetry; exact P|apply NoDup_voxels3].
    - rewrite Forall_forall. intros c Hc. apply in_voxels3. eapply Permutation_in; eauto.
    - apply H. intros [[i j] k] Hc E. apply Hx. eapply Permutation_in in Hc; [|exact P].
      apply in_voxels3 in Hc. destruct Hc as (Hi & Hj & Hk). unfold cidx, idx3 in E. subst x.
      assert ((j + 1) * dimX <= dimY * dimX) by (apply Z.mul_le_mono_nonneg_r; lia).
      assert (dimX * dimY * (k + 1) <= dimX * dimY * dimZ) by (apply Z.mul_le_mono_nonneg_l; nia).
      assert (0 <= dimX * dimY * k) by (apply Z.mul_nonneg_nonneg; nia).
      assert (0 <= j * dimX) by (apply Z.mul_nonneg_nonneg; lia). lia.
  Qed.

  (** The sequential loops visit the voxels in the order of [voxels3]. *)
  Lemma for_fold {S} (body : Z -> S -> S) : forall n s, 0 <= n ->
    for_ n body s = fold_left (fun s i => body i s) (zrange 0 n) s.
  Proof.
    intros n s Hn. revert n Hn. apply natlike_ind.
    - rewrite for_0, zrange_nil by lia. auto.
    - intros n Hn IH. rewrite <- Z.add_1_r, for_S, zrange_snoc, fold_left_app by lia. cbn. now rewrite IH.
  Qed.
  Lemma fold_left_flat_map {A B S} (g : A -> list B) (f : S -> B -> S) l : forall s,
    fold_left f (flat_map g l) s = fold_left (fun s a => fold_left f (g a) s) l s.
  Proof. induction l as [|x l IH]; intros s; cbn; auto. now rewrite fold_left_app, IH. Qed.
  Lemma fold_left_map' {A B S} (g : A -> B) (f : S -> B -> S) l : forall s,
    fold_left f (map g l) s = fold_left (fun s a => f s (g a)) l s.
  Proof. induction l as [|x l IH]; intros s; cbn; auto. Qed.
  Lemma fold_left_ext' {A S} (f g : S -> A -> S) l : (forall s a, f s a = g s a) -> forall s, fold_left f l s = fold_left g l s.
  Proof. intros H. induction l as [|x l IH]; intros s; cbn; auto. now rewrite H, IH. Qed.

  Lemma main3_run out : 0 <= dimX -> 0 <= dimY -> 0 <= dimZ ->
    main3 qs dflt thr inp r dimX dimY dimZ out = run3 qs dflt thr inp r dimX dimY dimZ (voxels3 dimX dimY dimZ) out.
  Proof.
    intros HX HY HZ. unfold main3, run3, voxels3. rewrite for_fold by auto. rewrite fold_left_flat_map.
    apply fold_left_ext'. intros s k. rewrite for_fold by auto. rewrite fold_left_flat_map.
    apply fold_left_ext'. intros s' j. rewrite for_fold by auto. rewrite fold_left_map'. reflexivity.
  Qed.
End Kernel.
