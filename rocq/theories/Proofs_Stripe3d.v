From Verif Require Import Base Order CLoop Model_Prep Proofs_Prep FloatR Spec_Stripe3d Model_Stripe3d.
From Coq Require Import Reals Lra.
Local Open Scope Z_scope.

Section Volume.
  Variables dx dy dz : Z.
  Notation idx := (idx dx dy).
  Definition ix (v : voxel) : Z := let '(i, j, k) := v in idx i j k.
  Definition ins (v : voxel) : Prop := let '(i, j, k) := v in inside dx dy dz i j k.

  Lemma idx_inj i j k i' j' k' : inside dx dy dz i j k -> inside dx dy dz i' j' k' -> idx i j k = idx i' j' k' -> i = i' /\ j = j' /\ k = k'.
  Proof.
    unfold inside, Model_Stripe3d.idx. intros (A & B & C) (A' & B' & C') E.
    assert (E1 : k = k').
    { assert (0 <= j * dx + i < dx * dy) by nia. assert (0 <= j' * dx + i' < dx * dy) by nia.
      apply (Z.div_mod_unique (dx * dy) k k' (j * dx + i) (j' * dx + i')); lia. }
    subst k'.
    assert (E2 : j = j') by (apply (Z.div_mod_unique dx j j' i i'); lia).
    subst j'. repeat split; lia.
  Qed.
  Lemma ix_inj v w : ins v -> ins w -> ix v = ix w -> v = w.
  Proof. destruct v as [[i j] k], w as [[i' j'] k']. intros A B E. destruct (idx_inj _ _ _ _ _ _ A B E) as (-> & -> & ->). reflexivity. Qed.
  Lemma idx_range i j k : inside dx dy dz i j k -> 0 <= idx i j k < dx * dy * dz.
  Proof.
    unfold inside, Model_Stripe3d.idx. intros (A & B & C). assert (0 <= j * dx + i < dx * dy) by nia. nia.
  Qed.

  Lemma in_voxels v : In v (voxels dx dy dz) <-> ins v.
  Proof.
    destruct v as [[i j] k]. unfold voxels, ins, inside. rewrite in_flat_map. split.
    - intros (k' & Hk & H). apply in_flat_map in H as (j' & Hj & H). apply in_map_iff in H as (i' & E & Hi).
      injection E as -> -> ->. rewrite in_zrange in *. lia.
    - intros (A & B & C). exists k. rewrite in_zrange. split; [lia|]. apply in_flat_map. exists j. rewrite in_zrange. split; [lia|].
      apply in_map_iff. exists i. rewrite in_zrange. split; [reflexivity|lia].
  Qed.
  Lemma NoDup_flat_map {A B} (f : A -> list B) (g : B -> A) l :
    NoDup l -> (forall a, In a l -> NoDup (f a)) -> (forall a b, In b (f a) -> g b = a) -> NoDup (flat_map f l).
  Proof.
    induction 1 as [|a l Ha Hl IH]; intros H1 H2; cbn; [constructor|].
    assert (D : forall b, In b (f a) -> ~ In b (flat_map f l)).
    { intros b Hb Hc. apply in_flat_map in Hc as (a' & Ha' & Hc). apply H2 in Hb, Hc. subst. contradiction. }
    assert (N1 : NoDup (f a)) by (apply H1; now left).
    assert (N2 : NoDup (flat_map f l)) by (apply IH; [intros; apply H1; now right|exact H2]).
    clear IH H1. induction (f a) as [|b t IHt]; cbn; auto.
    inversion N1; subst. constructor.
    - intros Hc. apply in_app_or in Hc as [Hc|Hc]; [contradiction|]. eapply D; [now left|exact Hc].
    - apply IHt; auto. intros c Hc. apply D. now right.
  Qed.
  Lemma NoDup_voxels : NoDup (voxels dx dy dz).
  Proof.
    unfold voxels. apply (NoDup_flat_map _ (fun v : voxel => snd v)).
    - apply NoDup_zrange.
    - intros k _. apply (NoDup_flat_map _ (fun v : voxel => snd (fst v))).
      + apply NoDup_zrange.
      + intros j _. apply FinFun.Injective_map_NoDup; [|apply NoDup_zrange]. intros a b E. now injection E.
      + intros j b H. apply in_map_iff in H as (i & <- & _). reflexivity.
    - intros k b H. apply in_flat_map in H as (j & _ & H). apply in_map_iff in H as (i & <- & _). reflexivity.
  Qed.

  (** A parallel loop in which each iteration changes its own voxel only. *)
  Lemma run_own {A} (g : voxel -> A -> A) (body : voxel -> arr A -> arr A) order :
    (forall v o, body v o (ix v) = g v (o (ix v))) -> (forall v o x, x <> ix v -> body v o x = o x) ->
    NoDup order -> (forall v, In v order -> ins v) ->
    forall out, (forall v, In v order -> run order body out (ix v) = g v (out (ix v))) /\
      (forall x, (forall v, In v order -> ix v <> x) -> run order body out x = out x).
  Proof.
    intros H1 H2. induction order as [|w order IH]; intros N I out; [split; [intros v []|reflexivity]|].
    inversion N as [|? ? Nw No]; subst.
    destruct (IH No (fun v Hv => I v (or_intror Hv)) (body w out)) as [IH1 IH2]. clear IH.
    unfold run in *. cbn [fold_left]. split.
    - intros v [->|Hv].
      + etransitivity; [apply IH2|apply H1]. intros u Hu E. apply ix_inj in E; [subst; contradiction| |]; apply I; cbn; auto.
      + etransitivity; [apply IH1, Hv|]. rewrite H2; [reflexivity|]. intros E. apply ix_inj in E; [subst; contradiction| |]; apply I; cbn; auto.
    - intros x Hx. etransitivity; [apply IH2|apply H2].
      + intros v Hv. apply Hx. now right.
      + intros E. apply (Hx w); [now left|now symmetry].
  Qed.
  Lemma run_all {A} (g : voxel -> A -> A) (body : voxel -> arr A -> arr A) order :
    (forall v o, body v o (ix v) = g v (o (ix v))) -> (forall v o x, x <> ix v -> body v o x = o x) ->
    Permutation order (voxels dx dy dz) ->
    forall out, (forall v, ins v -> run order body out (ix v) = g v (out (ix v))) /\
      (forall x, (forall v, ins v -> ix v <> x) -> run order body out x = out x).
  Proof.
    intros H1 H2 P out.
    destruct (run_own g body order H1 H2) with (out := out) as [A1 A2].
    - eapply Permutation_NoDup; [symmetry; exact P|apply NoDup_voxels].
    - intros v Hv. apply in_voxels. eapply Permutation_in; eauto.
    - split.
      + intros v Hv. apply A1. eapply Permutation_in; [symmetry; exact P|]. now apply in_voxels.
      + intros x Hx. apply A2. intros v Hv. apply Hx, in_voxels. eapply Permutation_in; eauto.
  Qed.

  Lemma aset_own {A} (o : arr A) p y : aset o p y p = y.
  Proof. unfold aset. now rewrite Z.eqb_refl. Qed.
  Lemma aset_other {A} (o : arr A) p y x : x <> p -> aset o p y x = o x.
  Proof. intros H. unfold aset. destruct (Z.eqb_spec x p); congruence. Qed.

  Lemma mirror_reach dim x m : mirror dim x m = reach dim x m.
  Proof. unfold mirror, reach. destruct (Z.ltb_spec (x + m) 0), (Z.leb_spec dim (x + m)), (Z.leb_spec 0 (x + m)), (Z.ltb_spec (x + m) dim); cbn; lia. Qed.
  Lemma reach_in dim x m : 0 <= x < dim -> 2 * Z.abs m <= dim -> 0 <= reach dim x m < dim.
  Proof. unfold reach. intros. destruct (Z.leb_spec 0 (x + m)), (Z.ltb_spec (x + m) dim); cbn; lia. Qed.
  Lemma high_reach dim x m : 0 <= x -> 0 <= m -> (if dim <=? x + m then x - m else x + m) = reach dim x m.
  Proof. unfold reach. intros. destruct (Z.leb_spec dim (x + m)), (Z.leb_spec 0 (x + m)), (Z.ltb_spec (x + m) dim); cbn; lia. Qed.
  Lemma low_reach dim x m : x < dim -> m <= 0 -> (if x + m <? 0 then x - m else x + m) = reach dim x m.
  Proof. unfold reach. intros. destruct (Z.ltb_spec (x + m) 0), (Z.leb_spec 0 (x + m)), (Z.ltb_spec (x + m) dim); cbn; lia. Qed.
  Lemma reach_sym dim x m : 0 <= x < dim -> 2 * Z.abs m <= dim -> reach dim x m - x = m \/ reach dim x m - x = - m.
  Proof. unfold reach. intros. destruct (_ && _); lia. Qed.
  Lemma reach_0 dim x : reach dim x 0 = x.
  Proof. unfold reach. destruct (_ && _); lia. Qed.
End Volume.

(** ** Sums *)
Section Sums.
  Local Open Scope R_scope.
  Lemma total_app l l' : total (l ++ l') = total l + total l'.
  Proof. unfold total. induction l as [|a l IH]; cbn [app fold_right]; [ring|]. rewrite IH. ring. Qed.
  Lemma total_pairs l l' f : total (pairs l l' f) = sum_over l (fun a => sum_over l' (f a)).
  Proof.
    unfold pairs. induction l as [|a l IH]; [reflexivity|].
    cbn [flat_map]. rewrite total_app, IH. reflexivity.
  Qed.
  Lemma length_pairs {A} l l' (f : Z -> Z -> A) : length (pairs l l' f) = (length l * length l')%nat.
  Proof. unfold pairs. induction l as [|a l IH]; [reflexivity|]. cbn [flat_map length]. rewrite app_length, map_length, IH. lia. Qed.
  Lemma sum_over_ext l f g : (forall a, In a l -> f a = g a) -> sum_over l f = sum_over l g.
  Proof.
    unfold sum_over. induction l as [|a l IH]; intros H; [reflexivity|]. cbn. rewrite (H a) by now left. f_equal. apply IH. intros; apply H; now right.
  Qed.
  Lemma sum_over_app l l' f : sum_over (l ++ l') f = sum_over l f + sum_over l' f.
  Proof. unfold sum_over. rewrite map_app. fold (total (map f l ++ map f l')). rewrite total_app. reflexivity. Qed.
  Lemma sum_over_flip f n : sum_over (zrange (- Z.of_nat n) 0) f = sum_over (zrange 1 (Z.of_nat n + 1)) (fun a => f (- a)%Z).
  Proof.
    induction n as [|n IH]; [reflexivity|].
    rewrite (@zrange_cons (- Z.of_nat (Datatypes.S n))%Z 0) by lia.
    replace (- Z.of_nat (Datatypes.S n) + 1)%Z with (- Z.of_nat n)%Z by lia.
    replace (Z.of_nat (Datatypes.S n) + 1)%Z with ((Z.of_nat n + 1) + 1)%Z by lia.
    rewrite (@zrange_snoc 1 (Z.of_nat n + 1)%Z) by lia. rewrite sum_over_app.
    change (sum_over (- Z.of_nat (Datatypes.S n) :: zrange (- Z.of_nat n) 0) f)%Z with (f (- Z.of_nat (Datatypes.S n))%Z + sum_over (zrange (- Z.of_nat n) 0) f).
    rewrite IH. unfold sum_over at 3. cbn [map fold_right]. replace (- (Z.of_nat n + 1))%Z with (- Z.of_nat (Datatypes.S n))%Z by lia. ring.
  Qed.
  Lemma total_nonneg l : (forall x, In x l -> 0 <= x) -> 0 <= total l.
  Proof. induction l as [|x l IH]; intros H; cbn; [lra|]. pose proof (H x (or_introl eq_refl)). fold (total l). specialize (IH (fun y Hy => H y (or_intror Hy))). lra. Qed.
  Lemma mean_nonneg l : (forall x, In x l -> 0 <= x) -> 0 <= mean l.
  Proof.
    intros H. unfold mean. pose proof (total_nonneg l H). destruct l as [|x l]; [cbn; unfold Rdiv; rewrite Rmult_0_l; lra|].
    apply Rmult_le_pos; auto. apply Rlt_le, Rinv_0_lt_compat, lt_0_INR. cbn. lia.
  Qed.
  Lemma in_pairs {A} l l' (f : Z -> Z -> A) y : In y (pairs l l' f) <-> exists a b, In a l /\ In b l' /\ f a b = y.
  Proof.
    unfold pairs. rewrite in_flat_map. split.
    - intros (a & Ha & H). apply in_map_iff in H as (b & E & Hb). eauto.
    - intros (a & b & Ha & Hb & E). exists a. split; auto. apply in_map_iff. eauto.
  Qed.
End Sums.

Section Detect.
  Local Open Scope R_scope.
  Variables dx dy dz : Z.
  Notation idx := (idx dx dy).
  Notation ix := (ix dx dy).
  Notation ins := (ins dx dy dz).
  Definition view {A} (a : arr A) : vol A := fun i j k => a (idx i j k).

  Lemma ratio_value_spec p h h2 old : 0 <= p -> 0 <= h -> 0 <= h2 ->
    ratio_value p h h2 old = if Req_EM_T (Rmax p h) 0 then Rmin old 0 else Rmin (similar p h) (similar p h2).
  Proof.
    intros Hp Hh Hh2. unfold ratio_value, similar. cbv zeta.
    assert (Q : forall h0 d, 0 <= h0 ->
      (if rltb h0 p && negb (if Req_EM_T p 0 then true else false) then h0 / p
       else if negb (rltb h0 p) && negb (if Req_EM_T h0 0 then true else false) then p / h0 else d) =
      (if Req_EM_T (Rmax p h0) 0 then d else Rmin p h0 / Rmax p h0)).
    { intros h0 d H0. destruct (rltb h0 p) eqn:E.
      - apply rltb_spec in E. rewrite Rmax_left, Rmin_right by lra. destruct (Req_EM_T p 0); [lra|]. reflexivity.
      - apply rltb_false in E. rewrite Rmax_right, Rmin_left by lra. destruct (Req_EM_T h0 0); reflexivity. }
    rewrite !Q by auto. destruct (Req_EM_T (Rmax p h) 0) as [E|E].
    - assert (p = 0) by (unfold Rmax in E; destruct (Rle_dec p h); lra). subst p.
      assert (Z2 : (if Req_EM_T (Rmax 0 h2) 0 then 0 else Rmin 0 h2 / Rmax 0 h2) = 0).
      { destruct (Req_EM_T (Rmax 0 h2) 0); auto. rewrite Rmin_left by lra. unfold Rdiv. ring. }
      rewrite Z2. destruct (rltb 0 old) eqn:F; [apply rltb_spec in F; rewrite Rmin_right|apply rltb_false in F; rewrite Rmin_left]; lra.
    - set (m := if Req_EM_T (Rmax p h2) 0 then 0 else Rmin p h2 / Rmax p h2). set (q := Rmin p h / Rmax p h).
      destruct (rltb m q) eqn:F; [apply rltb_spec in F; rewrite Rmin_right|apply rltb_false in F; rewrite Rmin_left]; lra.
  Qed.

  (** each pass *)
  Lemma gradient_run order input output : Permutation order (voxels dx dy dz) ->
    (forall i j k, inside dx dy dz i j k -> run order (gradient3d dx dy dz input 0 2) output (idx i j k) = view input (reach dx i 2) j k - view input i j k) /\
    (forall x, (forall v, ins v -> ix v <> x) -> run order (gradient3d dx dy dz input 0 2) output x = output x).
  Proof.
    intros P.
    destruct (run_all dx dy dz (fun (v : voxel) (_ : R) => let '(i, j, k) := v in input (idx (if (dx <=? i + 2)%Z then i - 2 else i + 2)%Z j k) - input (idx i j k))
      (gradient3d dx dy dz input 0 2) order) with (out := output) as [A B]; auto.
    - intros [[i j] k] o. unfold gradient3d. cbn [Z.eqb]. apply aset_own.
    - intros [[i j] k] o x Hx. unfold gradient3d. now apply aset_other.
    - split; auto. intros i j k H. etransitivity; [exact (A (i, j, k) H)|]. cbv beta iota. unfold view.
      rewrite (high_reach dx i 2) by (unfold inside in H; lia). reflexivity.
  Qed.
  Lemma smooth_run order input temp : (2 <= dx)%Z -> (2 <= dy)%Z -> (2 <= dz)%Z -> Permutation order (voxels dx dy dz) ->
    (forall i j k, inside dx dy dz i j k -> run order (mean_stride dx dy dz input) temp (idx i j k) = 1428 / 10000 * around dx dy dz (view input) i j k).
  Proof.
    intros Hx Hy Hz P i j k H.
    destruct (run_all dx dy dz (fun (v : voxel) (_ : R) => let '(i, j, k) := v in mean_stride dx dy dz input (i, j, k) temp (idx i j k))
      (mean_stride dx dy dz input) order) with (out := temp) as [A _]; auto.
    - intros [[a b] c] o. unfold mean_stride. cbn [Proofs_Stripe3d.ix]. rewrite !aset_own. reflexivity.
    - intros [[a b] c] o x E. unfold mean_stride. now apply aset_other.
    - etransitivity; [exact (A (i, j, k) H)|]. unfold mean_stride, around, view, total. rewrite aset_own. cbn [fold_right].
      assert (L : forall x dim, (0 <= x < dim)%Z -> (if x - 1 <? 0 then x + 1 else x - 1)%Z = reach dim x (-1)).
      { intros x dim E. unfold reach. destruct (Z.ltb_spec (x - 1) 0), (Z.leb_spec 0 (x + -1)), (Z.ltb_spec (x + -1) dim); cbn; lia. }
      assert (U : forall x dim, (0 <= x < dim)%Z -> (2 <= dim)%Z -> (if dim <=? x + 1 then (if x - 1 <? 0 then x + 1 else x - 1) else x + 1)%Z = reach dim x 1).
      { intros x dim E E2. unfold reach. destruct (Z.leb_spec dim (x + 1)), (Z.ltb_spec (x - 1) 0), (Z.leb_spec 0 (x + 1)), (Z.ltb_spec (x + 1) dim); cbn; lia. }
      destruct H as (H1 & H2 & H3).
      rewrite (U i dx), (U j dy), (U k dz), (L i dx), (L j dy), (L k dz) by auto. ring.
  Qed.
  Lemma ratio_run order input radius temp : Permutation order (voxels dx dy dz) ->
    forall i j k, inside dx dy dz i j k -> run order (ratio_mean dx dy dz input radius) temp (idx i j k) =
      ratio_value (mean_plate dx dy dz input radius i j k) (mean_right dx dy input radius i j k) (mean_left dx dy input radius i j k) (temp (idx i j k)).
  Proof.
    intros P i j k H.
    destruct (run_all dx dy dz (fun (v : voxel) (old : R) => let '(i, j, k) := v in
        ratio_value (mean_plate dx dy dz input radius i j k) (mean_right dx dy input radius i j k) (mean_left dx dy input radius i j k) old)
      (ratio_mean dx dy dz input radius) order) with (out := temp) as [A _]; auto.
    - intros [[a b] c] o. unfold ratio_mean. cbn [Proofs_Stripe3d.ix]. rewrite !aset_own. reflexivity.
    - intros [[a b] c] o x E. unfold ratio_mean. now apply aset_other.
    - exact (A (i, j, k) H).
  Qed.
  Lemma median_run qs order input half mid out : Permutation order (voxels dx dy dz) ->
    (forall i j k, inside dx dy dz i j k -> run order (vertical_median dx dy dz qs input half mid) out (idx i j k) =
      nth (Z.to_nat mid) (qs (map (fun m => input (idx i j (reach dz k m))) (zrange (- half) (half + 1)))) 0) /\
    (forall x, (forall v, ins v -> ix v <> x) -> run order (vertical_median dx dy dz qs input half mid) out x = out x).
  Proof.
    intros P.
    destruct (run_all dx dy dz (fun (v : voxel) (_ : R) => let '(i, j, k) := v in
        nth (Z.to_nat mid) (qs (map (fun m => input (idx i j (mirror dz k m))) (zrange (- half) (half + 1)))) 0)
      (vertical_median dx dy dz qs input half mid) order) with (out := out) as [A B]; auto.
    - intros [[a b] c] o. unfold vertical_median. cbn [Proofs_Stripe3d.ix]. rewrite !aset_own. reflexivity.
    - intros [[a b] c] o x E. unfold vertical_median. now apply aset_other.
    - split; auto. intros i j k H. etransitivity; [exact (A (i, j, k) H)|]. cbv beta iota. f_equal. f_equal. apply map_ext. intros m. now rewrite mirror_reach.
  Qed.

  Section Ok.
    Variable r : Z.
    Hypothesis Hr : (1 <= r)%Z.
    Hypothesis Hx : (4 <= dx /\ 2 * r <= dx)%Z.
    Hypothesis Hy : (2 <= dy /\ 2 * r <= dy)%Z.
    Hypothesis Hz : (2 <= dz /\ 2 * r <= dz)%Z.
    Variable G : arr R.
    Variable x : vol R.
    Hypothesis HG : forall i j k, inside dx dy dz i j k -> G (idx i j k) = x (reach dx i 2) j k - x i j k.

    Lemma G_jump i j k : inside dx dy dz i j k -> Rabs (G (idx i j k)) = jump dx x i j k.
    Proof. intros H. rewrite HG by auto. reflexivity. Qed.
    Lemma plate_along i j k : inside dx dy dz i j k -> mean_plate dx dy dz G r i j k = along dx dy dz r x i j k.
    Proof.
      intros (Hi & Hj & Hk). unfold mean_plate, along, mean. rewrite total_pairs, length_pairs, !zrange_length. f_equal.
      - apply sum_over_ext. intros m Hm. apply sum_over_ext. intros n Hn. rewrite in_zrange in *. rewrite !mirror_reach.
        apply G_jump. unfold inside. split; [auto|]. split; apply reach_in; lia.
      - rewrite INR_IZR_INZ. f_equal. nia.
    Qed.
    Lemma right_across i j k : inside dx dy dz i j k -> mean_right dx dy G r i j k = across dx dy r 1 x i j k.
    Proof.
      intros (Hi & Hj & Hk). unfold mean_right, across, mean. rewrite total_pairs, length_pairs, !zrange_length. f_equal.
      - change (zrange (-1) 2) with [-1; 0; 1]%Z. apply sum_over_ext. intros m Hm. apply sum_over_ext. intros n Hn. rewrite in_zrange in *. rewrite !mirror_reach.
        rewrite high_reach by lia. replace (1 * n)%Z with n by lia.
        apply G_jump. unfold inside. cbn in Hm. split; [|split]; try apply reach_in; try lia.
      - rewrite INR_IZR_INZ. f_equal. cbn [length]. lia.
    Qed.
    Lemma left_across i j k : inside dx dy dz i j k -> mean_left dx dy G r i j k = across dx dy r (-1) x i j k.
    Proof.
      intros (Hi & Hj & Hk). unfold mean_left, across, mean. rewrite total_pairs, length_pairs, !zrange_length. f_equal.
      - change (zrange (-1) 2) with [-1; 0; 1]%Z. apply sum_over_ext. intros m Hm.
        replace r with (Z.of_nat (Z.to_nat r)) at 1 by lia. rewrite sum_over_flip. rewrite Z2Nat.id by lia.
        apply sum_over_ext. intros n Hn. rewrite in_zrange in *. rewrite !mirror_reach.
        rewrite (low_reach dx) by lia. replace (-1 * n)%Z with (- n)%Z by lia.
        apply G_jump. unfold inside. cbn in Hm. split; [|split]; try apply reach_in; try lia.
      - rewrite INR_IZR_INZ. f_equal. cbn [length]. lia.
    Qed.
  End Ok.

  Lemma along_nonneg r x i j k : 0 <= along dx dy dz r x i j k.
  Proof. apply mean_nonneg. intros y Hy. apply in_pairs in Hy as (a & b & _ & _ & <-). apply Rabs_pos. Qed.
  Lemma across_nonneg r s x i j k : 0 <= across dx dy r s x i j k.
  Proof. apply mean_nonneg. intros y Hy. apply in_pairs in Hy as (a & b & _ & _ & <-). apply Rabs_pos. Qed.

  Definition fits (r h : Z) : Prop := (1 <= r /\ 1 <= h /\ 4 <= dx /\ 2 * r <= dx /\ 2 <= dy /\ 2 * r <= dy /\ 2 * r <= dz /\ 2 * h <= dz)%Z.

  Lemma detect_value qs o1 o2 o3 o4 input h r temp output :
    fits r h -> Permutation o1 (voxels dx dy dz) -> Permutation o2 (voxels dx dy dz) -> Permutation o3 (voxels dx dy dz) -> Permutation o4 (voxels dx dy dz) ->
    (forall i j k, inside dx dy dz i j k -> detect3d dx dy dz qs o1 o2 o3 o4 input h r temp output (idx i j k) =
      nth (Z.to_nat (h - 1)) (qs (column_window dz (contrast dx dy dz r (view input)) h i j k)) 0) /\
    (forall x, (forall v, ins v -> ix v <> x) -> detect3d dx dy dz qs o1 o2 o3 o4 input h r temp output x = output x).
  Proof.
    intros (Hr & Hh & X1 & X2 & Y1 & Y2 & Z1 & Z2) P1 P2 P3 P4. assert (Z0 : (2 <= dz)%Z) by lia. unfold detect3d. cbv zeta.
    destruct (gradient_run o2 input output P2) as [G1 G2].
    set (G := run o2 (gradient3d dx dy dz input 0 2) output) in *.
    assert (S1 := smooth_run o1 input temp ltac:(lia) ltac:(lia) ltac:(lia) P1).
    set (T := run o1 (mean_stride dx dy dz input) temp) in *.
    assert (R1 := ratio_run o3 G r T P3). set (T' := run o3 (ratio_mean dx dy dz G r) T) in *.
    destruct (median_run qs o4 T' h (h - 1) G P4) as [M1 M2].
    split; [|intros y Hy; rewrite M2 by auto; now apply G2].
    intros i j k H. rewrite M1 by auto. f_equal. f_equal. unfold column_window. apply map_ext_in. intros m Hm. apply in_zrange in Hm.
    destruct H as (Hi & Hj & Hk).
    assert (H : inside dx dy dz i j (reach dz k m)) by (split; [auto|]; split; [auto|]; apply reach_in; lia).
    rewrite R1 by auto. rewrite S1 by auto.
    assert (Ep : mean_plate dx dy dz G r i j (reach dz k m) = along dx dy dz r (view input) i j (reach dz k m)) by (eapply plate_along; eauto).
    assert (Er : mean_right dx dy G r i j (reach dz k m) = across dx dy r 1 (view input) i j (reach dz k m)) by (eapply right_across; eauto).
    assert (El : mean_left dx dy G r i j (reach dz k m) = across dx dy r (-1) (view input) i j (reach dz k m)) by (eapply left_across; eauto).
    rewrite Ep, Er, El.
    apply ratio_value_spec; [apply along_nonneg|apply across_nonneg|apply across_nonneg].
  Qed.
End Detect.
