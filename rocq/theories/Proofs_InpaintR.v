(** Inpainting over exact reals: bounds, completion, the weighted mean. *)
From Verif Require Import Base CLoop Order Model_Inpaint Spec_Inpaint Proofs_Inpaint.
From Coq Require Import Reals Lra.
Local Open Scope Z_scope.

Lemma reqz_true x : reqz x = true <-> x = 0%R.
Proof. unfold reqz. destruct Req_EM_T; intuition (try discriminate; auto). Qed.
Lemma reqz_false x : reqz x = false <-> x <> 0%R.
Proof. unfold reqz. destruct Req_EM_T; intuition (try discriminate; auto). Qed.

Lemma in_offsets nz w o : In o (offsets nz w) <->
  let '(a, b, c) := o in - w <= a <= w /\ - w <= b <= w /\ (if nz =? 1 then c = 0 else - w <= c <= w).
Proof.
  destruct o as ((a, b), c). unfold offsets. cbn zeta. rewrite in_flat_map. split.
  - intros (a' & Ha & Hb). apply in_flat_map in Hb. destruct Hb as (b' & Hb & Hc). apply in_zrange in Ha, Hb.
    destruct (nz =? 1).
    + destruct Hc as [E|[]]. injection E as <- <- <-. lia.
    + apply in_map_iff in Hc. destruct Hc as (c' & E & Hc). injection E as <- <- <-. apply in_zrange in Hc. lia.
  - intros (Ha & Hb & Hc). exists a. split; [apply in_zrange; lia|]. apply in_flat_map. exists b. split; [apply in_zrange; lia|].
    destruct (nz =? 1).
    + subst. now left.
    + apply in_map. apply in_zrange. lia.
Qed.
Lemma combine_map {A B} (g : A -> B) l : combine l (map g l) = map (fun x => (x, g x)) l.
Proof. induction l; cbn; congruence. Qed.
Lemma combine_same {A} (l : list A) : combine l l = map (fun x => (x, x)) l.
Proof. induction l; cbn; congruence. Qed.

Section Window.
  Variables nx ny nz : Z.
  Local Notation place := (place nx ny).
  Local Notation grid := (grid nx ny nz).
  Variable out : arr R.
  Local Notation usable := (usable reqz nx ny nz out).
  Local Notation values := (values reqz nx ny nz out).
  Lemma in_usable {W} v os (ws : list W) x w : In (x, w) (usable v os ws) <->
    exists o, In (o, w) (combine os ws) /\ grid (shift v o) /\ x = out (place (shift v o)) /\ x <> 0%R.
  Proof.
    unfold Model_Inpaint.usable. rewrite in_flat_map. split.
    - intros ((o, w') & Hi & H). cbn zeta in H.
      destruct (inside nx ny nz (shift v o) && negb (reqz (out (index nx ny (shift v o))))) eqn:E; [|destruct H].
      destruct H as [H|[]]. injection H as <- <-. apply andb_prop in E. destruct E as (E1 & E2).
      apply inside_grid in E1. apply negb_true_iff, reqz_false in E2. rewrite index_place in *. exists o. auto.
    - intros (o & Hi & G & E & N). exists (o, w). split; auto. cbn zeta. rewrite index_place.
      apply inside_grid in G. rewrite G. rewrite <- E. apply reqz_false in N. rewrite N. now left.
  Qed.
  Lemma in_values v w x : In x (values v w) <->
    exists o, In o (offsets nz w) /\ grid (shift v o) /\ x = out (place (shift v o)) /\ x <> 0%R.
  Proof.
    unfold Model_Inpaint.values. rewrite in_map_iff. split.
    - intros ((y, o) & <- & H). apply in_usable in H. destruct H as (o' & Hi & H). rewrite combine_same in Hi.
      apply in_map_iff in Hi. destruct Hi as (o2 & E & Hi). injection E as <- <-. eauto.
    - intros (o & Hi & H). exists (x, o). split; auto. apply in_usable. exists o. split; auto.
      rewrite combine_same. apply in_map_iff. eauto.
  Qed.
  (** A usable neighbour. *)
  Definition fed (v : voxel) : Prop := exists u, grid u /\ near u v /\ out (place u) <> 0%R.
  Lemma shift_near v u : grid v -> grid u -> near u v -> exists o, In o (offsets nz 1) /\ shift v o = u.
  Proof.
    destruct v as ((i, j), k), u as ((a, b), c). cbn [near Spec_Inpaint.grid]. intros (Gi & Gj & Gk) (Ga & Gb & Gc) (A & B & C).
    exists (a - i, b - j, c - k). split.
    - apply in_offsets. repeat split; try lia. destruct (nz =? 1) eqn:E; lia.
    - cbn. f_equal; [f_equal|]; lia.
  Qed.
  Lemma offset_near v o : In o (offsets nz 1) -> near (shift v o) v.
  Proof.
    destruct v as ((i, j), k), o as ((a, b), c). intros H. apply in_offsets in H. cbn. destruct (nz =? 1) eqn:E; lia.
  Qed.
  Lemma fed_values v : grid v -> fed v <-> values v 1 <> [].
  Proof.
    intros Gv. split.
    - intros (u & Gu & N & H) E. destruct (shift_near v u Gv Gu N) as (o & Ho & <-).
      assert (I : In (out (place (shift v o))) (values v 1)) by (apply in_values; eauto). rewrite E in I. destruct I.
    - intros H. destruct (values v 1) as [|x l] eqn:E; [congruence|]. assert (I : In x (values v 1)) by (rewrite E; now left).
      apply in_values in I. destruct I as (o & Ho & G & -> & N). exists (shift v o). auto using offset_near.
  Qed.
  Lemma values_mono v w : 1 <= w -> values v 1 <> [] -> values v w <> [].
  Proof.
    intros Hw H E. destruct (values v 1) as [|x l] eqn:E1; [congruence|]. assert (I : In x (values v 1)) by (rewrite E1; now left).
    apply in_values in I. destruct I as (o & Ho & G).
    assert (I : In x (values v w)).
    { apply in_values. exists o. split; auto. rewrite in_offsets in *. destruct o as ((a, b), c). destruct (nz =? 1); lia. }
    rewrite E in I. destruct I.
  Qed.
  Lemma fed_existsb v : grid v ->
    existsb (fun o : voxel => let u := shift v o in inside nx ny nz u && negb (reqz (out (index nx ny u)))) (offsets nz 1) = true <-> fed v.
  Proof.
    intros Gv. rewrite existsb_exists. split.
    - intros (o & Ho & H). cbn zeta in H. apply andb_prop in H. destruct H as (H1 & H2). apply inside_grid in H1.
      rewrite index_place in H2. apply negb_true_iff, reqz_false in H2. exists (shift v o). auto using offset_near.
    - intros (u & Gu & N & H). destruct (shift_near v u Gv Gu N) as (o & Ho & <-). exists o. split; auto. cbn zeta.
      rewrite index_place. apply inside_grid in Gu. rewrite Gu. apply reqz_false in H. now rewrite H.
  Qed.
  Lemma gauss_pos size w : In w (gauss nz size) -> (0 < w)%R.
  Proof. unfold gauss. intros H. apply in_map_iff in H. destruct H as (((a, b), c) & <- & _). apply exp_pos. Qed.
  Lemma usable_gauss v size x w : In (x, w) (usable v (offsets nz size) (gauss nz size)) -> In x (values v size) /\ (0 < w)%R.
  Proof.
    intros H. apply in_usable in H. destruct H as (o & Hi & H). split.
    - apply in_values. exists o. split; auto. eapply in_combine_l; eauto.
    - apply (gauss_pos size). eapply in_combine_r; eauto.
  Qed.
  Lemma usable_nonempty v size : values v size <> [] -> usable v (offsets nz size) (gauss nz size) <> [].
  Proof.
    intros H E. destruct (values v size) as [|x l] eqn:E1; [congruence|]. assert (I : In x (values v size)) by (rewrite E1; now left).
    apply in_values in I. destruct I as (o & Ho & G).
    assert (I : exists w, In (o, w) (combine (offsets nz size) (gauss nz size))).
    { unfold gauss. rewrite combine_map. eexists. apply in_map_iff. exists o. split; [reflexivity|auto]. }
    destruct I as (w & Hw). assert (I : In (x, w) (usable v (offsets nz size) (gauss nz size))) by (apply in_usable; eauto).
    rewrite E in I. destruct I.
  Qed.
End Window.

(** * Weighted means *)
Local Open Scope R_scope.
Definition wsum (l : list (R * R)) : R := fold_left (fun s '(x, w) => s + x * w) l 0.
Definition wtot (l : list (R * R)) : R := fold_left (fun s '(_, w) => s + w) l 0.
Definition convex (Q : R -> Prop) : Prop :=
  forall l, l <> [] -> (forall x w, In (x, w) l -> Q x /\ 0 < w) -> Q (wsum l / wtot l).
Lemma fold_left_sum {A} (g : A -> R) l : forall s, fold_left (fun s a => s + g a) l s = s + rsum_over l g.
Proof. unfold rsum_over. induction l as [|a l IH]; intros s; cbn [fold_left fold_right]; [lra|]. rewrite IH. lra. Qed.
Lemma fold_left_ext {A B} (f g : A -> B -> A) l : (forall a b, f a b = g a b) -> forall s, fold_left f l s = fold_left g l s.
Proof. intros H. induction l; cbn; intros s; auto. now rewrite H. Qed.
Lemma wsum_eq l : wsum l = rsum_over l (fun p => fst p * snd p).
Proof.
  unfold wsum. rewrite (fold_left_ext _ (fun s a => s + fst a * snd a)) by (intros ? (? & ?); reflexivity).
  rewrite fold_left_sum. lra.
Qed.
Lemma wtot_eq l : wtot l = rsum_over l snd.
Proof.
  unfold wtot. rewrite (fold_left_ext _ (fun s a => s + snd a)) by (intros ? (? & ?); reflexivity).
  rewrite fold_left_sum. lra.
Qed.
Lemma wtot_pos l : l <> [] -> (forall x w, In (x, w) l -> 0 < w) -> 0 < wtot l.
Proof.
  rewrite wtot_eq. intros N H. assert (G : forall l : list (R * R), (forall x w, In (x, w) l -> 0 < w) -> 0 <= rsum_over l snd).
  { clear. induction l as [|(x, w) l IH]; intros H; cbn; [lra|]. specialize (H x w (or_introl eq_refl)) as H1.
    specialize (IH (fun a b Hi => H a b (or_intror Hi))). unfold rsum_over in IH. lra. }
  destruct l as [|(x, w) l]; [congruence|]. cbn. specialize (H x w (or_introl eq_refl)) as H1.
  specialize (G l (fun a b Hi => H a b (or_intror Hi))). unfold rsum_over in G. lra.
Qed.
Lemma convex_interval lo hi : convex (fun x => lo <= x <= hi).
Proof.
  intros l N H. pose proof (wtot_pos l N (fun x w Hi => proj2 (H x w Hi))) as P.
  assert (B : lo * wtot l <= wsum l <= hi * wtot l).
  { rewrite wsum_eq, wtot_eq. clear N P. unfold rsum_over. induction l as [|(x, w) l IH]; cbn; [lra|].
    destruct (H x w (or_introl eq_refl)) as (H1 & H2). specialize (IH (fun a b Hi => H a b (or_intror Hi))).
    assert (lo * w <= x * w) by (apply Rmult_le_compat_r; lra). assert (x * w <= hi * w) by (apply Rmult_le_compat_r; lra). lra. }
  split; (apply Rmult_le_reg_r with (wtot l); [lra|]); unfold Rdiv; rewrite Rmult_assoc, Rinv_l by lra; lra.
Qed.
Lemma convex_pos : convex (fun x => 0 < x).
Proof.
  intros l N H. pose proof (wtot_pos l N (fun x w Hi => proj2 (H x w Hi))) as P. apply Rdiv_lt_0_compat; auto.
  rewrite wsum_eq. destruct l as [|(x, w) l]; [congruence|]. clear N P.
  assert (G : forall l, (forall x w, In (x, w) l -> 0 < x /\ 0 < w) -> 0 <= rsum_over l (fun p => fst p * snd p)).
  { clear. induction l as [|(x, w) l IH]; intros H; cbn; [lra|]. destruct (H x w (or_introl eq_refl)) as (H1 & H2).
    specialize (IH (fun a b Hi => H a b (or_intror Hi))). unfold rsum_over in IH. pose proof (Rmult_lt_0_compat x w H1 H2). lra. }
  cbn. destruct (H x w (or_introl eq_refl)) as (H1 & H2). specialize (G l (fun a b Hi => H a b (or_intror Hi))).
  unfold rsum_over in G. pose proof (Rmult_lt_0_compat x w H1 H2). lra.
Qed.
Lemma convex_mean Q l : convex Q -> l <> [] -> (forall x, In x l -> Q x) -> Q (fold_left Rplus l 0 / INR (length l)).
Proof.
  intros C N H. specialize (C (map (fun x => (x, 1)) l)).
  assert (E1 : wsum (map (fun x => (x, 1)) l) = fold_left Rplus l 0).
  { rewrite wsum_eq. rewrite (fold_left_sum (fun x => x)). unfold rsum_over. clear. induction l; cbn in *; lra. }
  assert (E2 : wtot (map (fun x => (x, 1)) l) = INR (length l)).
  { rewrite wtot_eq. unfold rsum_over. clear. induction l; [reflexivity|]. cbn [map length fold_right snd]. rewrite IHl, S_INR. lra. }
  rewrite E1, E2 in C. apply C; [destruct l; [congruence|discriminate]|].
  intros x w Hi. apply in_map_iff in Hi. destruct Hi as (y & E & Hy). injection E as <- <-. split; [auto|lra].
Qed.
Lemma convex_half Q x y : convex Q -> Q x -> Q y -> Q (1 / 2 * (x + y)).
Proof.
  intros C Hx Hy. specialize (C [(x, 1); (y, 1)]). cbn in C. replace (1 / 2 * (x + y)) with ((0 + x * 1 + y * 1) / (0 + 1 + 1)) by lra.
  apply C; [discriminate|]. intros a w [E|[E|[]]]; injection E as <- <-; split; auto; lra.
Qed.

(** * The kernels *)
Section Kernel.
  Variables nx ny nz method size : Z.
  Variable qs : list R -> list R.
  Variable rnd : nat -> voxel -> Z * Z.
  Hypothesis Hqs : forall l, Permutation (qs l) l.
  Hypothesis Hsize : (1 <= size)%Z.
  Hypothesis Hmed : method = 1%Z -> nz = 1%Z.
  Local Notation place := (place nx ny).
  Local Notation grid := (grid nx ny nz).
  Local Notation kernel := (kernel 0 (1 / 2) Rplus Rmult Rdiv reqz qs nx ny nz (gauss nz size) method size rnd).
  Local Notation smoothing := (smoothing 0 Rplus Rdiv INR reqz nx ny nz).

  Lemma values_Q out (Q : R -> Prop) v w : (forall u, grid u -> out (place u) <> 0 -> Q (out (place u))) ->
    forall x, In x (values reqz nx ny nz out v w) -> Q x.
  Proof. intros H x Hx. apply in_values in Hx. destruct Hx as (o & _ & G & -> & N). auto. Qed.
  Lemma kernel_write n out (Q : R -> Prop) v : grid v -> convex Q ->
    (forall u, grid u -> out (place u) <> 0 -> Q (out (place u))) ->
    match kernel n out v with Undefined => False | Write x => Q x /\ fed nx ny nz out v | Keep => True end.
  Proof.
    intros Gv C H. pose proof (values_Q out Q v size H) as HV. unfold Model_Inpaint.kernel.
    destruct ((method =? 1) || (method =? 2))%Z eqn:Em.
    - unfold median_rand. destruct (reqz (fold_left Rplus (values reqz nx ny nz out v 1) 0)) eqn:E; auto.
      assert (N1 : values reqz nx ny nz out v 1 <> []).
      { intros E1. rewrite E1 in E. cbn in E. apply reqz_false in E. congruence. }
      assert (F : fed nx ny nz out v) by now apply fed_values.
      pose proof (values_mono nx ny nz out v size Hsize N1) as NS.
      set (vals := values reqz nx ny nz out v size) in *.
      assert (LP : (0 < length vals)%nat) by (destruct vals; [congruence|cbn; lia]).
      destruct (length vals =? 0)%nat eqn:E0; [lia|].
      destruct (method =? 1)%Z eqn:E1.
      + pose proof (Hmed ltac:(lia)) as Hz. destruct (nz =? 1)%Z eqn:Ez; [|lia]. split; auto. apply HV.
        assert (P : Permutation (qs (firstn (length vals - 1) vals) ++ skipn (length vals - 1) vals) vals).
        { rewrite (Hqs (firstn (length vals - 1) vals)). now rewrite firstn_skipn. }
        apply (Permutation_in _ P). apply nth_In. rewrite (Permutation_length P). apply Nat.div_lt; lia.
      + split; auto. assert (B : forall r, In (nth (Z.to_nat (r mod Z.of_nat (length vals))) vals 0) vals).
        { intros r. apply nth_In. pose proof (Z.mod_pos_bound r (Z.of_nat (length vals))). lia. }
        apply convex_half; auto.
    - unfold euclidean. destruct (existsb _ _) eqn:Ex; auto. apply fed_existsb in Ex; auto.
      destruct (usable reqz nx ny nz out v (offsets nz size) (gauss nz size)) as [|p l] eqn:E; auto. split; auto.
      change (Q (wsum (p :: l) / wtot (p :: l))). rewrite <- E. apply C; [rewrite E; discriminate|].
      intros x w Hi. apply usable_gauss in Hi. destruct Hi as (Hi & Hw). auto.
  Qed.
  Lemma kernel_fed n out v : grid v -> (forall u, grid u -> 0 <= out (place u)) -> fed nx ny nz out v -> exists x, kernel n out v = Write x.
  Proof.
    intros Gv H F. pose proof (proj1 (fed_values nx ny nz out v Gv) F) as N1.
    pose proof (values_mono nx ny nz out v size Hsize N1) as NS. unfold Model_Inpaint.kernel.
    destruct ((method =? 1) || (method =? 2))%Z eqn:Em.
    - unfold median_rand.
      assert (P : reqz (fold_left Rplus (values reqz nx ny nz out v 1) 0) = false).
      { apply reqz_false. assert (Q : forall x, In x (values reqz nx ny nz out v 1) -> 0 < x).
        { intros x Hx. apply in_values in Hx. destruct Hx as (o & _ & G & -> & N). specialize (H _ G). lra. }
        pose proof (convex_mean _ _ convex_pos N1 Q) as M. cbn beta in M. intros E. rewrite E in M. unfold Rdiv in M. lra. }
      rewrite P. set (vals := values reqz nx ny nz out v size) in *.
      destruct (length vals =? 0)%nat eqn:E0; [destruct vals; [congruence|cbn in E0; lia]|].
      destruct (method =? 1)%Z; eauto.
    - unfold euclidean. apply fed_existsb in F; auto.
      match goal with |- context [existsb ?f ?l] => assert (Ex : existsb f l = true) by exact F; rewrite Ex end.
      apply usable_nonempty in NS.
      destruct (usable reqz nx ny nz out v (offsets nz size) (gauss nz size)); [congruence|eauto].
  Qed.
  Lemma smoothing_write out (Q : R -> Prop) v : grid v -> convex Q ->
    (forall u, grid u -> out (place u) <> 0 -> Q (out (place u))) ->
    match smoothing out v with Undefined => False | Write x => Q x /\ fed nx ny nz out v | Keep => True end.
  Proof.
    intros Gv C H. unfold Model_Inpaint.smoothing. destruct (values reqz nx ny nz out v 1) as [|x l] eqn:E; auto.
    assert (N : values reqz nx ny nz out v 1 <> []) by (rewrite E; discriminate).
    split; [|now apply fed_values]. rewrite <- E. apply convex_mean; auto. now apply values_Q.
  Qed.
End Kernel.

(** * The whole program *)
Section Whole.
  Variables nx ny nz method size : Z.
  Variable qs : list R -> list R.
  Variable sched : nat -> list voxel.
  Variable rnd : nat -> voxel -> Z * Z.
  Hypothesis Hqs : forall l, Permutation (qs l) l.
  Hypothesis Hsize : (1 <= size)%Z.
  Hypothesis Hmed : method = 1%Z -> nz = 1%Z.
  Hypothesis Hs : forall n, each_once nx ny nz (sched n).
  Variables (input : arr R) (mask : arr bool).
  Local Notation place := (place nx ny).
  Local Notation grid := (grid nx ny nz).
  Local Notation kernel := (kernel 0 (1 / 2) Rplus Rmult Rdiv reqz qs nx ny nz (gauss nz size) method size rnd).
  Local Notation smoothing := (smoothing 0 Rplus Rdiv INR reqz nx ny nz).
  Local Notation sweep := (sweep 0 (1 / 2) Rplus Rmult Rdiv reqz qs nx ny nz (gauss nz size) method size sched rnd).
  Local Notation complete := (complete 0 (1 / 2) Rplus Rmult Rdiv reqz qs nx ny nz (gauss nz size) method size sched rnd).
  Local Notation iterate := (iterate 0 (1 / 2) Rplus Rmult Rdiv reqz qs nx ny nz (gauss nz size) method size sched rnd).
  Local Notation smooth_if := (smooth_if 0 Rplus Rdiv INR reqz nx ny nz method sched).
  Local Notation inpaint := (inpaint_R qs nx ny nz method size sched rnd).
  Local Notation joined := (joined nx ny nz input mask).
  Implicit Types (out o : arr R) (m : arr bool).

  (** ** Invariants of the image *)
  Variable Q : R -> Prop.
  Hypothesis CQ : convex Q.
  Hypothesis Hin : forall v, grid v -> mask (place v) = false -> input (place v) <> 0 -> Q (input (place v)).
  Definition bounded out : Prop := forall v, grid v ->
    if mask (place v) then out (place v) = 0 \/ Q (out (place v)) else out (place v) = input (place v).
  Lemma bounded_Q out : bounded out -> forall u, grid u -> out (place u) <> 0 -> Q (out (place u)).
  Proof.
    intros B u Gu N. specialize (B u Gu). destruct (mask (place u)) eqn:E.
    - destruct B; [congruence|auto].
    - rewrite B in *. auto.
  Qed.
  Lemma kernel_bounded n out v : bounded out -> grid v ->
    match kernel n out v with Undefined => False | Write x => Q x /\ fed nx ny nz out v | Keep => True end.
  Proof. intros B Gv. apply kernel_write; auto. now apply bounded_Q. Qed.
  (** [m] only marks masked voxels. *)
  Definition within m : Prop := forall v, grid v -> m (place v) = true -> mask (place v) = true.
  Lemma sweep_bounded n (st : arr R * arr bool) : bounded (fst st) -> within (snd st) ->
    exists st' : arr R * arr bool, sweep n st = Some st' /\ bounded (fst st') /\ within (snd st') /\
      (forall v, grid v -> (fst st' (place v), snd st' (place v)) = after nx ny (kernel n (fst st)) (fst st) (snd st) v).
  Proof.
    intros B W.
    destruct (sweep_spec 0 (1 / 2) Rplus Rmult Rdiv reqz qs nx ny nz (gauss nz size) method size sched rnd Hs n st) as (st' & E & A & _).
    { intros v Gv _ U. pose proof (kernel_bounded n (fst st) v B Gv) as K. rewrite U in K. exact K. }
    exists st'. split; [exact E|]. assert (A' := A). split; [|split; [|exact A']].
    - intros v Gv. specialize (A v Gv). specialize (B v Gv) as Bv. unfold after in A.
      destruct (snd st (place v)) eqn:Em.
      + rewrite (W v Gv Em) in *. pose proof (kernel_bounded n (fst st) v B Gv) as K.
        destruct (kernel n (fst st) v); injection A as -> _; tauto.
      + injection A as -> _. exact Bv.
    - intros v Gv. specialize (A v Gv). unfold after in A. destruct (snd st (place v)) eqn:Em; [intros _; auto|].
      injection A as _ ->. discriminate.
  Qed.
  Lemma complete_bounded : forall fuel n (st : arr R * arr bool), bounded (fst st) -> within (snd st) ->
    exists st' : arr R * arr bool, complete fuel n st = Some st' /\ bounded (fst st').
  Proof.
    induction fuel; cbn [Model_Inpaint.complete]; intros n st B W; [eauto|].
    destruct (sweep_bounded n st B W) as (s1 & -> & B1 & W1 & _). destruct (_ =? _)%nat; eauto.
  Qed.
  Lemma iterate_bounded : forall k n (st : arr R * arr bool), bounded (fst st) -> within (snd st) ->
    exists st' : arr R * arr bool, iterate k n st = Some st' /\ bounded (fst st').
  Proof.
    induction k; cbn [Model_Inpaint.iterate]; intros n st B W; [eauto|].
    destruct (sweep_bounded n st B W) as (s1 & -> & B1 & W1 & _). eauto.
  Qed.
  Lemma smooth_bounded n out : bounded out -> bounded (smooth_if n mask out).
  Proof.
    intros B v Gv. rewrite smooth_if_spec by auto. specialize (B v Gv) as Bv. destruct (method =? 2)%Z; auto.
    unfold after. destruct (mask (place v)); auto.
    pose proof (smoothing_write nx ny nz out Q v Gv CQ (bounded_Q out B)) as S.
    destruct (smoothing out v); cbn [fst]; tauto.
  Qed.
  Lemma zeroed_bounded : bounded (zeroed 0 input mask).
  Proof. intros v Gv. unfold zeroed. destruct (mask (place v)); auto. Qed.
  Lemma within_mask : within mask.
  Proof. intros v _ H. exact H. Qed.
  Lemma inpaint_bounded iterations : exists out, inpaint input mask iterations = Some out /\ bounded out.
  Proof.
    unfold inpaint_R, Model_Inpaint.inpaint. destruct (_ =? 0)%nat; [eexists; split; [reflexivity|apply zeroed_bounded]|].
    destruct (complete_bounded (count_mask nx ny nz mask) 0 (zeroed 0 input mask, mask) zeroed_bounded within_mask) as ((o, m) & -> & B).
    pose proof (smooth_bounded (count_mask nx ny nz mask) o B) as B1.
    destruct (iterations =? 0)%nat; [eauto|].
    destruct (iterate_bounded iterations (count_mask nx ny nz mask + 1) (smooth_if (count_mask nx ny nz mask) mask o, mask) B1 within_mask) as ((p, mp) & -> & B2).
    eexists. split; [reflexivity|]. now apply smooth_bounded.
  Qed.

  (** ** Completion, for values that are all positive *)
  Hypothesis QP : forall x, Q x -> 0 < x.
  Definition settled out m : Prop := bounded out /\ within m /\ forall v, grid v -> mask (place v) = true ->
    if m (place v) then out (place v) = 0 else Q (out (place v)) /\ joined v.
  Lemma data_nonneg out : bounded out -> forall v, grid v -> 0 <= out (place v).
  Proof.
    intros B v Gv. destruct (Req_dec (out (place v)) 0) as [E|E]; [lra|]. specialize (bounded_Q out B v Gv E) as H.
    specialize (QP _ H). lra.
  Qed.
  Lemma fed_joined out m v : settled out m -> grid v -> mask (place v) = true -> fed nx ny nz out v -> joined v.
  Proof.
    intros (B & W & S) Gv Hm (u & Gu & N & H). destruct (mask (place u)) eqn:E.
    - specialize (S u Gu E). destruct (m (place u)); [congruence|]. destruct S as (_ & J). now apply joined_step with u.
    - specialize (B u Gu). rewrite E in B. rewrite B in H. now apply joined_data with u.
  Qed.
  (** Some marked voxel next to a value, if any joined voxel is still marked. *)
  Lemma frontier out m v : settled out m -> joined v -> m (place v) = true ->
    exists w, grid w /\ m (place w) = true /\ fed nx ny nz out w.
  Proof.
    intros S J. pose proof S as (B & W & F). induction J as [u v Gu Gv N Hm Hu Hi|u v J IH Gv N Hm]; intros M.
    - exists v. repeat split; auto. exists u. specialize (B u Gu). rewrite Hu in B. rewrite B. auto.
    - destruct (m (place u)) eqn:E; [auto|]. exists v. repeat split; auto.
      assert (Gu : grid u) by (destruct J; auto). assert (Hu : mask (place u) = true) by (destruct J; auto).
      exists u. specialize (F u Gu Hu). rewrite E in F. destruct F as (F & _). specialize (QP _ F). repeat split; auto. lra.
  Qed.
  Lemma sweep_settled n (st : arr R * arr bool) : settled (fst st) (snd st) ->
    exists st' : arr R * arr bool, sweep n st = Some st' /\ settled (fst st') (snd st') /\
      (forall v, grid v -> snd st' (place v) = true -> snd st (place v) = true) /\
      (forall v, grid v -> fed nx ny nz (fst st) v -> snd st' (place v) = false).
  Proof.
    intros S. pose proof S as (B & W & F). destruct (sweep_bounded n st B W) as (st' & E & B' & W' & A). exists st'. split; [exact E|].
    assert (M : forall v, grid v -> snd st' (place v) = true -> snd st (place v) = true).
    { intros v Gv Hv. specialize (A v Gv). unfold after in A. destruct (snd st (place v)); auto. injection A as _ A. congruence. }
    split; [|split; [exact M|]].
    - split; [exact B'|]. split; [exact W'|]. intros v Gv Hm. specialize (A v Gv). specialize (F v Gv Hm). unfold after in A.
      destruct (snd st (place v)) eqn:Em.
      + pose proof (kernel_bounded n (fst st) v B Gv) as K. destruct (kernel n (fst st) v); [|destruct K as (K1 & K2)|destruct K]; injection A as -> ->; auto.
        split; auto. now apply (fed_joined (fst st) (snd st)).
      + injection A as -> ->. exact F.
    - intros v Gv Hf. specialize (A v Gv). unfold after in A. destruct (snd st (place v)) eqn:Em; [|injection A as _ ->; auto].
      destruct (kernel_fed nx ny nz method size qs rnd Hqs Hsize n (fst st) v Gv (data_nonneg _ B) Hf) as (x & Ex). rewrite Ex in A.
      now injection A as _ ->.
  Qed.
  Definition done m : Prop := forall v, joined v -> m (place v) = false.
  Lemma sweep_done n (st st' : arr R * arr bool) : settled (fst st) (snd st) -> sweep n st = Some st' -> done (snd st) -> done (snd st').
  Proof.
    intros S E D. destruct (sweep_settled n st S) as (s1 & E1 & _ & M & _). rewrite E in E1. injection E1 as <-.
    intros v J. destruct (snd st' (place v)) eqn:Em; auto. assert (Gv : grid v) by (destruct J; auto).
    rewrite <- (M v Gv Em). now rewrite (D v J).
  Qed.
  Lemma joined_grid v : joined v -> grid v /\ mask (place v) = true.
  Proof. destruct 1; auto. Qed.
  Lemma count_zero m : count_mask nx ny nz m = 0%nat -> forall v, grid v -> m (place v) = false.
  Proof.
    unfold count_mask. intros H v Gv. destruct (m (place v)) eqn:E; auto.
    assert (I : In (place v) (filter m (zrange 0 (total nx ny nz)))).
    { apply filter_In. split; auto. apply in_zrange. apply place_range. exact Gv. }
    destruct (filter m _); [destruct I|discriminate].
  Qed.
  Lemma filter_le (f g : Z -> bool) l : (forall x, In x l -> f x = true -> g x = true) ->
    (length (filter f l) <= length (filter g l))%nat /\ ((length (filter f l) = length (filter g l))%nat -> forall x, In x l -> f x = g x).
  Proof.
    induction l as [|x l IH]; intros H; [split; [auto|intros _ ? []]|].
    destruct (IH (fun y Hy => H y (or_intror Hy))) as (IH1 & IH2). specialize (H x (or_introl eq_refl)). cbn [filter].
    destruct (f x) eqn:Ef, (g x) eqn:Eg; cbn [length].
    - split; [lia|]. intros E y [<-|Hy]; [congruence|apply IH2; auto].
    - discriminate H; auto.
    - split; [lia|]. intros E. lia.
    - split; [lia|]. intros E y [<-|Hy]; [congruence|apply IH2; auto].
  Qed.
  Hypothesis Hd : (0 < nx /\ 0 < ny /\ 0 < nz)%Z.
  Lemma place_onto x : (0 <= x < total nx ny nz)%Z -> exists v, grid v /\ place v = x.
  Proof.
    unfold total. intros H. destruct Hd as (Px & Py & Pz).
    exists (x mod nx, (x / nx) mod ny, x / nx / ny)%Z. cbn.
    pose proof (Z.mod_pos_bound x nx Px). pose proof (Z.mod_pos_bound (x / nx) ny Py).
    pose proof (Z.div_mod x nx ltac:(lia)). pose proof (Z.div_mod (x / nx) ny ltac:(lia)).
    assert (0 <= x / nx < ny * nz)%Z by (split; [apply Z.div_pos; lia|apply Z.div_lt_upper_bound; lia]).
    assert (0 <= x / nx / ny < nz)%Z by (split; [apply Z.div_pos; lia|apply Z.div_lt_upper_bound; lia]).
    repeat split; try lia; nia.
  Qed.
  Lemma complete_done : forall fuel n (st : arr R * arr bool), (count_mask nx ny nz (snd st) <= fuel)%nat \/ done (snd st) ->
    settled (fst st) (snd st) ->
    exists st' : arr R * arr bool, complete fuel n st = Some st' /\ settled (fst st') (snd st') /\ done (snd st').
  Proof.
    induction fuel; cbn [Model_Inpaint.complete]; intros n st C S.
    - exists st. split; auto. split; auto. destruct C as [C|C]; auto. intros v J. apply count_zero; [lia|]. now apply joined_grid.
    - destruct (sweep_settled n st S) as (s1 & E & S1 & M & F). rewrite E. 
      destruct (count_mask nx ny nz (snd s1) =? 0)%nat eqn:E0.
      + exists s1. split; auto. split; auto. intros v J. apply count_zero; [lia|]. now apply joined_grid.
      + apply IHfuel; auto. destruct C as [C|C]; [|right; exact (sweep_done n st s1 S E C)].
        destruct (filter_le (snd s1) (snd st) (zrange 0 (total nx ny nz))) as (L1 & L2).
        { intros x Hx. apply in_zrange in Hx. destruct (place_onto x) as (v & Gv & <-); [lia|]. now apply M. }
        unfold count_mask in *.
        destruct (Nat.eq_dec (length (filter (snd s1) (zrange 0 (total nx ny nz)))) (length (filter (snd st) (zrange 0 (total nx ny nz))))) as [Eq|Ne]; [|left; lia].
        right. intros v J. destruct (snd s1 (place v)) eqn:Em; auto. exfalso.
        assert (Gv : grid v) by now apply joined_grid.
        destruct (frontier (fst st) (snd st) v S J (M v Gv Em)) as (w & Gw & Mw & Fw).
        specialize (F w Gw Fw). rewrite (L2 Eq) in F by (apply in_zrange; apply place_range; auto). congruence.
  Qed.
  (** The image after completion: joined voxels have values, the others are zero. *)
  Definition filled out : Prop := bounded out /\ forall v, grid v -> mask (place v) = true ->
    (joined v /\ Q (out (place v))) \/ (~ joined v /\ out (place v) = 0).
  Lemma settled_filled out m : settled out m -> done m -> filled out.
  Proof.
    intros (B & W & S) D. split; auto. intros v Gv Hm. specialize (S v Gv Hm). destruct (m (place v)) eqn:E; [right|left; tauto].
    split; auto. intros J. specialize (D v J). congruence.
  Qed.
  Lemma filled_fed out v : filled out -> grid v -> mask (place v) = true -> fed nx ny nz out v -> joined v.
  Proof.
    intros (B & F) Gv Hm (u & Gu & N & H). destruct (mask (place u)) eqn:E.
    - destruct (F u Gu E) as [(J & _)|(_ & Z0)]; [|congruence]. now apply joined_step with u.
    - specialize (B u Gu). rewrite E in B. rewrite B in H. now apply joined_data with u.
  Qed.
  Lemma filled_joined_fed out v : filled out -> joined v -> fed nx ny nz out v.
  Proof.
    intros (B & F) J. exists v. destruct (joined_grid v J) as (Gv & Hm). repeat split; auto.
    - destruct v as ((i, j), k). cbn. lia.
    - destruct (F v Gv Hm) as [(_ & HQ)|(N & _)]; [|tauto]. specialize (QP _ HQ). lra.
  Qed.
  Lemma smooth_filled n out : filled out -> filled (smooth_if n mask out).
  Proof.
    intros FF. pose proof FF as (B & F). split; [now apply smooth_bounded|]. intros v Gv Hm. rewrite smooth_if_spec by auto.
    specialize (F v Gv Hm) as Fv. destruct (method =? 2)%Z; auto. unfold after. rewrite Hm.
    pose proof (smoothing_write nx ny nz out Q v Gv CQ (bounded_Q out B)) as S.
    destruct (smoothing out v); cbn [fst]; auto. destruct S as (S1 & S2). left. split; auto. now apply (filled_fed out).
  Qed.
  (** A sweep after completion clears the mark of every joined voxel and keeps the image filled. *)
  Lemma sweep_filled n (st : arr R * arr bool) : filled (fst st) -> within (snd st) ->
    exists st' : arr R * arr bool, sweep n st = Some st' /\ filled (fst st') /\ within (snd st') /\ done (snd st').
  Proof.
    intros FF W. pose proof FF as (B & F). destruct (sweep_bounded n st B W) as (st' & E & B' & W' & A). exists st'. split; [exact E|].
    split; [|split; [exact W'|]].
    - split; auto. intros v Gv Hm. specialize (A v Gv). specialize (F v Gv Hm). unfold after in A.
      destruct (snd st (place v)); [|injection A as -> _; auto]. pose proof (kernel_bounded n (fst st) v B Gv) as K.
      destruct (kernel n (fst st) v); injection A as -> _; auto. destruct K as (K1 & K2). left. split; auto.
      now apply (filled_fed (fst st)).
    - intros v J. destruct (joined_grid v J) as (Gv & Hm). specialize (A v Gv). unfold after in A.
      destruct (snd st (place v)); [|now injection A as _ ->].
      destruct (kernel_fed nx ny nz method size qs rnd Hqs Hsize n (fst st) v Gv (data_nonneg _ B) (filled_joined_fed _ v FF J)) as (x & Ex).
      rewrite Ex in A. now injection A as _ ->.
  Qed.
  (** Once all joined voxels are unmarked, a sweep changes nothing. *)
  Lemma sweep_idle n (st : arr R * arr bool) : filled (fst st) -> within (snd st) -> done (snd st) ->
    exists st' : arr R * arr bool, sweep n st = Some st' /\ same st st'.
  Proof.
    intros FF W D. pose proof FF as (B & F).
    destruct (sweep_spec 0 (1 / 2) Rplus Rmult Rdiv reqz qs nx ny nz (gauss nz size) method size sched rnd Hs n st) as (st' & E & A & O).
    { intros v Gv _ U. pose proof (kernel_bounded n (fst st) v B Gv) as K. rewrite U in K. exact K. }
    exists st'. split; [exact E|]. intros x. destruct (in_dec Z.eq_dec x (map place (sched n))) as [Hi|Ho].
    - apply in_map_iff in Hi. destruct Hi as (v & <- & Hv). apply (Hs n) in Hv. specialize (A v Hv). unfold after in A.
      destruct (snd st (place v)) eqn:Em; [|injection A as -> ->; auto].
      pose proof (kernel_bounded n (fst st) v B Hv) as K. destruct (kernel n (fst st) v); [injection A as -> ->; auto| |destruct K].
      destruct K as (_ & K). exfalso. pose proof (filled_fed _ v FF Hv (W v Hv Em) K) as J. specialize (D v J). congruence.
    - destruct (O x) as (-> & ->); auto. intros v Gv ->. apply Ho. apply in_map. now apply (Hs n).
  Qed.
  Lemma same_filled (s t : arr R * arr bool) : same s t -> filled (fst s) /\ within (snd s) /\ done (snd s) -> filled (fst t) /\ within (snd t) /\ done (snd t).
  Proof.
    intros E ((B & F) & W & D). split; [split|split].
    - intros v Gv. rewrite <- (proj1 (E (place v))). now apply B.
    - intros v Gv Hm. rewrite <- (proj1 (E (place v))). now apply F.
    - intros v Gv Hm. apply W; auto. now rewrite (proj2 (E (place v))).
    - intros v J. rewrite <- (proj2 (E (place v))). now apply D.
  Qed.
  Lemma iterate_idle : forall k n (st : arr R * arr bool), filled (fst st) -> within (snd st) -> done (snd st) ->
    exists st' : arr R * arr bool, iterate k n st = Some st' /\ same st st'.
  Proof.
    induction k; cbn [Model_Inpaint.iterate]; intros n st F W D; [exists st; split; auto; intros x; auto|].
    destruct (sweep_idle n st F W D) as (s1 & -> & E1). destruct (same_filled st s1 E1 (conj F (conj W D))) as (F1 & W1 & D1).
    destruct (IHk (Datatypes.S n) s1 F1 W1 D1) as (s2 & -> & E2). exists s2. split; auto. intros x.
    destruct (E1 x) as (-> & ->). apply E2.
  Qed.
  Lemma start_settled : settled (zeroed 0 input mask) mask.
  Proof.
    split; [apply zeroed_bounded|]. split; [apply within_mask|]. intros v Gv Hm. rewrite Hm. unfold zeroed. now rewrite Hm.
  Qed.
  Lemma inpaint_filled iterations : exists out, inpaint input mask iterations = Some out /\ filled out.
  Proof.
    unfold inpaint_R, Model_Inpaint.inpaint. destruct (count_mask nx ny nz mask =? 0)%nat eqn:E0.
    - eexists. split; [reflexivity|]. split; [apply zeroed_bounded|]. intros v Gv Hm.
      rewrite (count_zero mask) in Hm by (auto; lia). discriminate.
    - destruct (complete_done (count_mask nx ny nz mask) 0 (zeroed 0 input mask, mask) (or_introl (le_n _)) start_settled) as ((o, m) & -> & S & D).
      pose proof (smooth_filled (count_mask nx ny nz mask) o (settled_filled o m S D)) as F1.
      destruct iterations as [|k]; [cbn [Nat.eqb]; eauto|]. cbn [Nat.eqb Model_Inpaint.iterate].
      destruct (sweep_filled (count_mask nx ny nz mask + 1) (smooth_if (count_mask nx ny nz mask) mask o, mask) F1 within_mask) as (s1 & -> & F2 & W2 & D2).
      destruct (iterate_idle k (Datatypes.S (count_mask nx ny nz mask + 1)) s1 F2 W2 D2) as ((p, mp) & -> & E2).
      destruct (same_filled s1 (p, mp) E2 (conj F2 (conj W2 D2))) as (F3 & _).
      eexists. split; [reflexivity|]. now apply smooth_filled.
  Qed.
  Lemma inpaint_iterations k : exists o1 o2, inpaint input mask (Datatypes.S k) = Some o1 /\ inpaint input mask 1 = Some o2 /\ forall x, o1 x = o2 x.
  Proof.
    unfold inpaint_R, Model_Inpaint.inpaint. destruct (count_mask nx ny nz mask =? 0)%nat eqn:E0; [eauto|].
    destruct (complete_done (count_mask nx ny nz mask) 0 (zeroed 0 input mask, mask) (or_introl (le_n _)) start_settled) as ((o, m) & -> & S & D).
    pose proof (smooth_filled (count_mask nx ny nz mask) o (settled_filled o m S D)) as F1.
    cbn [Nat.eqb Model_Inpaint.iterate].
    destruct (sweep_filled (count_mask nx ny nz mask + 1) (smooth_if (count_mask nx ny nz mask) mask o, mask) F1 within_mask) as ((q, mq) & -> & F2 & W2 & D2).
    destruct (iterate_idle k (Datatypes.S (count_mask nx ny nz mask + 1)) (q, mq) F2 W2 D2) as ((p, mp) & -> & E2).
    eexists _, _. split; [reflexivity|]. split; [reflexivity|]. intros x.
    eapply smooth_same with (sched1 := sched) (sched2 := sched); eauto. intros y. symmetry. apply (E2 y).
  Qed.
End Whole.

(** * One masked voxel: the weighted mean *)
Lemma rsum_over_app {A} (l l' : list A) f : rsum_over (l ++ l') f = rsum_over l f + rsum_over l' f.
Proof. unfold rsum_over. induction l; cbn; [lra|]. rewrite IHl. lra. Qed.
Lemma rsum_over_flat_map {A B} (g : A -> list B) l f : rsum_over (flat_map g l) f = rsum_over l (fun x => rsum_over (g x) f).
Proof. induction l; [reflexivity|]. cbn [flat_map]. rewrite rsum_over_app, IHl. reflexivity. Qed.
Lemma rsum_over_map {A B} (g : A -> B) l f : rsum_over (map g l) f = rsum_over l (fun x => f (g x)).
Proof. induction l; [reflexivity|]. cbn. unfold rsum_over in *. now rewrite IHl. Qed.
Lemma rsum_over_ext {A} (l : list A) f g : (forall x, In x l -> f x = g x) -> rsum_over l f = rsum_over l g.
Proof.
  intros H. induction l as [|x l IH]; [reflexivity|]. cbn. rewrite (H x) by now left.
  unfold rsum_over in IH. rewrite IH; auto. intros y Hy. apply H. now right.
Qed.
Lemma offsets_sum nz w f : rsum_over (offsets nz w) (fun o => let '(a, b, c) := o in f a b c) = window_sum nz w f.
Proof.
  unfold offsets, window_sum. cbn zeta. rewrite rsum_over_flat_map. apply rsum_over_ext. intros a _.
  rewrite rsum_over_flat_map. apply rsum_over_ext. intros b _. destruct (nz =? 1)%Z.
  - cbn. lra.
  - now rewrite rsum_over_map.
Qed.
Section Single.
  Variables nx ny nz size : Z.
  Variables (input : arr R) (p : voxel).
  Local Notation place := (place nx ny).
  Local Notation grid := (grid nx ny nz).
  Variable mask : arr bool.
  Hypothesis Hmask : forall v, grid v -> (mask (place v) = true <-> v = p).
  Hypothesis Gp : grid p.
  Lemma known_usable o : inside nx ny nz (shift p o) && negb (reqz (zeroed 0 input mask (index nx ny (shift p o)))) = known nx ny nz input p (shift p o).
  Proof.
    destruct (inside nx ny nz (shift p o)) eqn:E; cbn [andb].
    - apply inside_grid in E. rewrite index_place. unfold zeroed. specialize (Hmask (shift p o) E).
      destruct p as ((i, j), k), o as ((a, b), c). cbn [shift] in *. unfold known, Spec_Inpaint.grid in *.
      set (q := place (i + a, j + b, k + c)%Z) in *.
      destruct ((i + a =? i) && (j + b =? j) && (k + c =? k))%Z eqn:Eq.
      + assert (M : mask q = true) by (apply Hmask; f_equal; [f_equal|]; lia). rewrite M. 
        replace (reqz 0) with true by (symmetry; now apply reqz_true). cbn [negb]. rewrite andb_false_r. reflexivity.
      + destruct (mask q) eqn:M; [exfalso; pose proof (proj1 Hmask eq_refl) as M'; injection M'; lia|]. cbn [negb]. rewrite andb_true_r.
        unfold reqz. destruct (Req_EM_T (input q) 0); cbn [negb]; lia.
    - symmetry. destruct p as ((i, j), k), o as ((a, b), c). unfold inside, known in *. cbn [shift] in *. lia.
  Qed.
  Lemma usable_sum f : rsum_over (usable reqz nx ny nz (zeroed 0 input mask) p (offsets nz size) (gauss nz size)) f =
    rsum_over (offsets nz size) (fun o => if known nx ny nz input p (shift p o)
      then f (input (place (shift p o)), let '(a, b, c) := o in gaussian nz size a b c) else 0).
  Proof.
    unfold usable, gauss. cbn zeta. rewrite combine_map, flat_map_concat_map, map_map, <- flat_map_concat_map, rsum_over_flat_map.
    apply rsum_over_ext. intros o _. pose proof (known_usable o) as K.
    destruct (inside nx ny nz (shift p o) && negb (reqz (zeroed 0 input mask (index nx ny (shift p o))))) eqn:E; rewrite <- K; [|reflexivity].
    cbn [rsum_over fold_right]. rewrite Rplus_0_r. rewrite index_place in *. do 2 f_equal.
    - apply andb_prop in E. destruct E as (_ & E). apply negb_true_iff, reqz_false in E. unfold zeroed in *. destruct (mask _); congruence.
    - destruct o as ((a, b), c). unfold gaussian. f_equal. rewrite mult_IZR. destruct (nz =? 1)%Z; rewrite !Z.pow_2_r; reflexivity.
  Qed.
  Variable qs : list R -> list R.
  Variable sched : nat -> list voxel.
  Variable rnd : nat -> voxel -> Z * Z.
  Hypothesis Hqs : forall l, Permutation (qs l) l.
  Hypothesis Hsize : (1 <= size)%Z.
  Hypothesis Hs : forall n, each_once nx ny nz (sched n).
  Hypothesis Hd : (0 < nx /\ 0 < ny /\ 0 < nz)%Z.
  Hypothesis Hfed : exists u, grid u /\ near u p /\ u <> p /\ input (place u) <> 0.
  Lemma single : exists out, inpaint_R qs nx ny nz 0 size sched rnd input mask 0 = Some out /\ out (place p) = weighted_mean nx ny nz size input p.
  Proof.
    unfold inpaint_R, Model_Inpaint.inpaint.
    destruct (count_mask nx ny nz mask) as [|c] eqn:C0.
    { exfalso. pose proof (count_zero nx ny nz mask C0 p Gp). rewrite (proj2 (Hmask p Gp) eq_refl) in H. discriminate. }
    cbn [Nat.eqb Model_Inpaint.complete].
    destruct (sweep_spec 0 (1 / 2) Rplus Rmult Rdiv reqz qs nx ny nz (gauss nz size) 0 size sched rnd Hs 0%nat (zeroed 0 input mask, mask)) as (st & -> & A & _).
    { intros v Gv _. cbn [fst]. unfold Model_Inpaint.kernel, euclidean. cbn [Z.eqb orb]. destruct (existsb _ _); [|discriminate].
      destruct (usable _ _ _ _ _ _ _ _); discriminate. }
    cbn [fst snd] in A.
    assert (W : kernel 0 (1 / 2) Rplus Rmult Rdiv reqz qs nx ny nz (gauss nz size) 0 size rnd 0 (zeroed 0 input mask) p = Write (weighted_mean nx ny nz size input p)).
    { assert (F : fed nx ny nz (zeroed 0 input mask) p).
      { destruct Hfed as (u & Gu & N & D & H). exists u. repeat split; auto. unfold zeroed.
        destruct (mask (place u)) eqn:E; auto. apply Hmask in E; auto. }
      pose proof (proj1 (fed_values nx ny nz (zeroed 0 input mask) p Gp) F) as N1.
      pose proof (values_mono nx ny nz _ p size Hsize N1) as NS. apply usable_nonempty in NS.
      unfold kernel, euclidean. cbn [Z.eqb orb]. apply fed_existsb in F; auto.
      match goal with |- context [existsb ?f ?l] => assert (Ex : existsb f l = true) by exact F; rewrite Ex end.
      destruct (usable reqz nx ny nz (zeroed 0 input mask) p (offsets nz size) (gauss nz size)) as [|x l] eqn:EU; [congruence|].
      match goal with |- Write ?y = _ => change y with (wsum (x :: l) / wtot (x :: l)) end. f_equal.
      rewrite <- EU, wsum_eq, wtot_eq, !usable_sum. unfold weighted_mean. cbn zeta. rewrite <- !offsets_sum. cbn [fst snd].
      f_equal; apply rsum_over_ext; intros ((a, b), e) _; destruct p as ((i, j), k); cbn [shift]; destruct (known _ _ _ _ _ _); lra. }
    pose proof (A p Gp) as Ap. unfold after in Ap. rewrite (proj2 (Hmask p Gp) eq_refl), W in Ap.
    assert (Z0 : count_mask nx ny nz (snd st) = 0%nat).
    { unfold count_mask. assert (N : forall x, In x (zrange 0 (total nx ny nz)) -> snd st x = false).
      { intros x Hx. apply in_zrange in Hx. destruct (place_onto nx ny nz Hd x) as (v & Gv & <-); [lia|].
        destruct (mask (place v)) eqn:E.
        - apply Hmask in E; auto. subst v. now injection Ap.
        - specialize (A v Gv). unfold after in A. rewrite E in A. now injection A. }
      clear -N. induction (zrange 0 (total nx ny nz)) as [|x l IH]; auto. cbn. rewrite N by now left. apply IH. intros y Hy. apply N. now right. }
    rewrite Z0. cbn [Nat.eqb]. destruct st as (o, m). eexists. split; [reflexivity|].
    unfold Model_Inpaint.smooth_if. cbn [Z.eqb]. now injection Ap.
  Qed.
End Single.
