From Verif Require Import Base Order CLoop Model_Float Model_Corr Model_Median3d Proofs_Median3d.
From Coq Require Import Permutation.
Local Open Scope Z_scope.

Section Window.
  Context {V : Type}.
  (** Every voxel of the array in the cube around (i, j, k) is in the window. *)
  Lemma neighbour_to dim i i' r : 0 <= i' < dim -> Z.abs (i' - i) <= r ->
    exists d, In d (offsets r) /\ neighbour dim i d = i'.
  Proof.
    intros Hi Hd. exists (i' - i). split; [unfold offsets; apply in_zrange; lia|].
    unfold neighbour. cbv zeta. replace (i + (i' - i)) with i' by lia.
    destruct ((i' <? 0) || (i' >=? dim)) eqn:E; lia.
  Qed.
  Lemma gather3_complete (inp : arr V) r dimX dimY dimZ i j k i' j' k' :
    0 <= i' < dimX -> 0 <= j' < dimY -> 0 <= k' < dimZ ->
    Z.abs (i' - i) <= r -> Z.abs (j' - j) <= r -> Z.abs (k' - k) <= r ->
    In (inp (idx3 dimX dimY i' j' k')) (gather3 inp r dimX dimY dimZ i j k).
  Proof.
    intros Hi Hj Hk Di Dj Dk. destruct (neighbour_to dimX i i' r Hi Di) as (a & Ha & <-).
    destruct (neighbour_to dimY j j' r Hj Dj) as (b & Hb & <-). destruct (neighbour_to dimZ k k' r Hk Dk) as (c & Hc & <-).
    unfold gather3. apply in_flat_map. exists a. split; auto. apply in_flat_map. exists b. split; auto.
    apply in_map_iff. exists c. auto.
  Qed.
  (** The window around an inner voxel: its cube, every voxel once. *)
  Definition cube (r i j k : Z) : list (Z * Z * Z) :=
    flat_map (fun x => flat_map (fun y => map (fun z => (x, y, z)) (zrange (k - r) (k + r + 1))) (zrange (j - r) (j + r + 1)))
      (zrange (i - r) (i + r + 1)).
  Lemma zrange_shift a b c : map (fun d => c + d) (zrange a b) = zrange (c + a) (c + b).
  Proof. unfold zrange. replace (c + b - (c + a)) with (b - a) by lia. rewrite map_map. apply map_ext. intros. lia. Qed.
  Lemma flat_map_map {A B C} (f : A -> B) (g : B -> list C) l : flat_map g (map f l) = flat_map (fun x => g (f x)) l.
  Proof. induction l; cbn; auto. now rewrite IHl. Qed.
  Lemma map_flat_map {A B C} (f : B -> C) (g : A -> list B) l : map f (flat_map g l) = flat_map (fun x => map f (g x)) l.
  Proof. induction l; cbn; auto. now rewrite map_app, IHl. Qed.
  Lemma flat_map_in_ext {A B} (f g : A -> list B) l : (forall x, In x l -> f x = g x) -> flat_map f l = flat_map g l.
  Proof. induction l; cbn; intros H; auto. rewrite H, IHl; auto. Qed.
  Lemma shift_inner r i : zrange (i - r) (i + r + 1) = map (fun d => i + d) (offsets r).
  Proof. unfold offsets. rewrite zrange_shift. f_equal; lia. Qed.
  Lemma neighbour_inner dim i r d : r <= i < dim - r -> In d (offsets r) -> neighbour dim i d = i + d.
  Proof. unfold offsets. rewrite in_zrange. intros. unfold neighbour. cbv zeta. destruct ((i + d <? 0) || (i + d >=? dim)) eqn:E; lia. Qed.
  Lemma gather3_inner (inp : arr V) r dimX dimY dimZ i j k : r <= i < dimX - r -> r <= j < dimY - r -> r <= k < dimZ - r ->
    gather3 inp r dimX dimY dimZ i j k = map (fun '(x, y, z) => inp (idx3 dimX dimY x y z)) (cube r i j k).
  Proof.
    intros Hi Hj Hk. unfold cube, gather3. rewrite !shift_inner, flat_map_map, map_flat_map. apply flat_map_in_ext. intros a Ha.
    rewrite flat_map_map, map_flat_map. apply flat_map_in_ext. intros b Hb. rewrite !map_map. apply map_ext_in. intros c Hc.
    now rewrite !(neighbour_inner _ _ r).
  Qed.
  Lemma in_cube r i j k x y z : In (x, y, z) (cube r i j k) <-> Z.abs (x - i) <= r /\ Z.abs (y - j) <= r /\ Z.abs (z - k) <= r.
  Proof.
    unfold cube. rewrite in_flat_map. split.
    - intros (a & Ha & H). apply in_flat_map in H as (b & Hb & H). apply in_map_iff in H as (c & [= -> -> ->] & Hc).
      rewrite in_zrange in *. lia.
    - intros H. exists x. rewrite in_zrange. split; [lia|]. apply in_flat_map. exists y. rewrite in_zrange. split; [lia|].
      apply in_map_iff. exists z. rewrite in_zrange. split; auto. lia.
  Qed.
  Lemma NoDup_cube r i j k : NoDup (cube r i j k).
  Proof.
    unfold cube. apply NoDup_flat_map; [apply NoDup_zrange| |].
    - intros x _. apply NoDup_flat_map; [apply NoDup_zrange| |].
      + intros y _. apply FinFun.Injective_map_NoDup; [|apply NoDup_zrange]. intros ? ? [=]; auto.
      + intros y y' b _ _ H1 H2. apply in_map_iff in H1, H2. destruct H1 as (? & <- & _), H2 as (? & [=] & _). auto.
    - intros x x' b _ _ H1 H2. apply in_flat_map in H1, H2. destruct H1 as (? & _ & H1), H2 as (? & _ & H2). apply in_map_iff in H1, H2.
      destruct H1 as (? & <- & _), H2 as (? & [=] & _). auto.
  Qed.
End Window.

(** * The two-dimensional kernel *)
Section Kernel2.
  Context {V : Type} (D : V -> Prop) (lt : V -> V -> bool) (wo : weak_order D lt).
  Context (qs : list V -> list V) (Hqs : sorts D lt qs) (dflt : V).
  Lemma gather2_length (inp : arr V) r dimX dimY i j : 0 <= r -> length (gather2 inp r dimX dimY i j) = Z.to_nat ((2 * r + 1) ^ 2).
  Proof.
    intros Hr. unfold gather2. set (n := Z.to_nat (2 * r + 1)).
    rewrite (flat_map_length_const _ n).
    - rewrite offsets_length by auto. fold n.
      replace ((2 * r + 1) ^ 2) with (Z.of_nat n * Z.of_nat n) by (unfold n; rewrite Z2Nat.id by lia; ring).
      rewrite <- !Nat2Z.inj_mul, Nat2Z.id. auto.
    - intros. now rewrite map_length, offsets_length.
  Qed.
  Lemma gather2_odd (inp : arr V) r dimX dimY i j : 0 <= r -> exists h, length (gather2 inp r dimX dimY i j) = (2 * h + 1)%nat.
  Proof.
    intros Hr. rewrite gather2_length by auto. exists (Z.to_nat (2 * r ^ 2 + 2 * r)).
    apply Nat2Z.inj. rewrite Nat2Z.inj_add, Nat2Z.inj_mul, !Z2Nat.id; [ring|nia|nia].
  Qed.
  Lemma gather2_in (inp : arr V) r dimX dimY i j v : 0 <= i < dimX -> 0 <= j < dimY ->
    In v (gather2 inp r dimX dimY i j) ->
    exists i' j', 0 <= i' < dimX /\ 0 <= j' < dimY /\ Z.abs (i' - i) <= r /\ Z.abs (j' - j) <= r /\ v = inp (j' * dimX + i').
  Proof.
    intros Hi Hj H. unfold gather2 in H. apply in_flat_map in H as (a & Ha & H). apply in_map_iff in H as (b & <- & Hb).
    unfold offsets in *. apply in_zrange in Ha, Hb.
    assert (N : forall dim x d, -r <= d < r + 1 -> Z.abs (neighbour dim x d - x) <= r).
    { intros. unfold neighbour. cbv zeta. destruct (_ || _); lia. }
    exists (neighbour dimX i a), (neighbour dimY j b). repeat split; auto; apply neighbour_range; auto.
  Qed.
  Lemma gather2_complete (inp : arr V) r dimX dimY i j i' j' : 0 <= i' < dimX -> 0 <= j' < dimY ->
    Z.abs (i' - i) <= r -> Z.abs (j' - j) <= r -> In (inp (j' * dimX + i')) (gather2 inp r dimX dimY i j).
  Proof.
    intros Hi Hj Di Dj. destruct (neighbour_to dimX i i' r Hi Di) as (a & Ha & <-).
    destruct (neighbour_to dimY j j' r Hj Dj) as (b & Hb & <-).
    unfold gather2. apply in_flat_map. exists a. split; auto. apply in_map_iff. exists b. auto.
  Qed.
  Context (thr : option (V -> V -> bool)) (inp : arr V) (r dimX dimY : Z).
  Definition value2 (out : arr V) (c : Z * Z) : V :=
    let '(i, j) := c in
    let w := gather2 inp r dimX dimY i j in
    let med := nth (length w / 2) (qs w) dflt in
    match thr with
    | None => med
    | Some far => if far (inp (j * dimX + i)) med then med else out (j * dimX + i)
    end.
  Lemma voxel2_at out i j x : voxel2 qs dflt thr inp r dimX dimY out (i, j) x =
    if x =? j * dimX + i then value2 out (i, j) else out x.
  Proof.
    unfold voxel2, write_median, value2. cbv zeta. destruct (Z.eqb_spec x (j * dimX + i)) as [->|N].
    - destruct thr as [far|]; [destruct (far _ _)|]; rewrite ?aset_eq; auto.
    - destruct thr as [far|]; [destruct (far _ _)|]; rewrite ?aset_ne; auto.
  Qed.
  Lemma idx2_inj i j i' j' : 0 <= i < dimX -> 0 <= i' < dimX -> j * dimX + i = j' * dimX + i' -> (i, j) = (i', j').
  Proof. intros Hi Hi' E. destruct (Z.div_mod_unique dimX j j' i i'); auto; try lia. congruence. Qed.
  Lemma run2_cells : forall order out, NoDup order -> (forall i j, In (i, j) order -> 0 <= i < dimX) ->
    (forall i j, In (i, j) order -> run2 qs dflt thr inp r dimX dimY order out (j * dimX + i) = value2 out (i, j)) /\
    (forall x, (forall i j, In (i, j) order -> j * dimX + i <> x) -> run2 qs dflt thr inp r dimX dimY order out x = out x).
  Proof.
    induction order as [|[i j] order IH]; intros out ND IN; [split; [intros i j []|auto]|].
    inversion ND as [|? ? Nc ND']; subst. set (out1 := voxel2 qs dflt thr inp r dimX dimY out (i, j)).
    destruct (IH out1 ND' (fun i j H => IN i j (or_intror H))) as [H1 H2]. unfold run2 in *. cbn [fold_left]. fold out1.
    pose proof (IN i j (or_introl eq_refl)) as Hi. split.
    - intros i' j' [[= <- <-]|Hc].
      + rewrite H2; [unfold out1; rewrite voxel2_at, Z.eqb_refl; auto|].
        intros i' j' Hc E. apply idx2_inj in E; auto; [|apply (IN i' j'); now right]. now rewrite E in Hc.
      + rewrite (H1 i' j' Hc). unfold value2. cbv zeta.
        assert (E : out1 (j' * dimX + i') = out (j' * dimX + i')).
        { unfold out1. rewrite voxel2_at. destruct (Z.eqb_spec (j' * dimX + i') (j * dimX + i)) as [E|]; auto.
          apply idx2_inj in E; auto; [|apply (IN i' j'); now right]. now rewrite E in Hc. }
        rewrite E. reflexivity.
    - intros x Hx. rewrite H2 by (intros; apply Hx; now right). unfold out1. rewrite voxel2_at.
      destruct (Z.eqb_spec x (j * dimX + i)) as [->|]; auto. exfalso. apply (Hx i j); [now left|reflexivity].
  Qed.
  Lemma in_voxels2 i j : In (i, j) (voxels2 dimX dimY) <-> 0 <= i < dimX /\ 0 <= j < dimY.
  Proof.
    unfold voxels2. rewrite in_flat_map. split.
    - intros (j' & Hj & H). apply in_map_iff in H as (i' & [= -> ->] & Hi). rewrite in_zrange in *. auto.
    - intros (Hi & Hj). exists j. rewrite in_zrange. split; auto. apply in_map_iff. exists i. rewrite in_zrange. auto.
  Qed.
  Lemma NoDup_voxels2 : NoDup (voxels2 dimX dimY).
  Proof.
    unfold voxels2. apply NoDup_flat_map; [apply NoDup_zrange| |].
    - intros j _. apply FinFun.Injective_map_NoDup; [|apply NoDup_zrange]. intros ? ? [=]; auto.
    - intros j j' b _ _ H1 H2. apply in_map_iff in H1, H2. destruct H1 as (? & <- & _), H2 as (? & [=] & _). auto.
  Qed.
  Lemma run2_order order out i j : Permutation order (voxels2 dimX dimY) -> 0 <= i < dimX -> 0 <= j < dimY ->
    run2 qs dflt thr inp r dimX dimY order out (j * dimX + i) = value2 out (i, j).
  Proof.
    intros P Hi Hj. destruct (run2_cells order out) as [H _].
    - eapply Permutation_NoDup; [symmetry; exact P|apply NoDup_voxels2].
    - intros i' j' Hc. eapply Permutation_in in Hc; [|exact P]. now apply in_voxels2 in Hc.
    - apply H. eapply Permutation_in; [symmetry; exact P|]. now apply in_voxels2.
  Qed.
End Kernel2.
