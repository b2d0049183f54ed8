(** Proofs for inpainting. *)
From Verif Require Import Base CLoop Order Model_Inpaint Spec_Inpaint.
From Coq Require Import Reals Lra.
Local Open Scope Z_scope.

Lemma index_place nx ny v : index nx ny v = place nx ny v.
Proof. destruct v as ((i, j), k). cbn. ring. Qed.
Lemma inside_grid nx ny nz v : inside nx ny nz v = true <-> grid nx ny nz v.
Proof. destruct v as ((i, j), k). unfold inside, grid. lia. Qed.
Lemma place_inj nx ny nz u v : grid nx ny nz u -> grid nx ny nz v -> place nx ny u = place nx ny v -> u = v.
Proof.
  destruct u as ((i, j), k), v as ((a, b), c). cbn. intros (Hi & Hj & Hk) (Ha & Hb & Hc) H.
  assert (k * ny + j = c * ny + b) by nia. assert (i = a) by nia. subst a.
  assert (k = c) by nia. subst c. assert (j = b) by lia. now subst.
Qed.
Lemma place_range nx ny nz v : grid nx ny nz v -> 0 <= place nx ny v < nx * ny * nz.
Proof. destruct v as ((i, j), k). cbn. intros (Hi & Hj & Hk). assert (0 <= k * ny + j < ny * nz) by nia. nia. Qed.

Section Sweep.
  Context {V : Type}.
  Variables nx ny nz : Z.
  Implicit Types (u out : arr V) (m mask : arr bool).
  Local Notation place := (place nx ny).
  Local Notation grid := (grid nx ny nz).
  Variable f : voxel -> outcome V.

  (** The value and the mask bit of a voxel after it was visited. *)
  Definition after (out : arr V) m (v : voxel) : V * bool :=
    if m (place v) then match f v with Write x => (x, false) | _ => (out (place v), true) end else (out (place v), false).

  Lemma visit_fold l : forall out m, NoDup l -> (forall v, In v l -> grid v) ->
    (forall v, In v l -> m (place v) = true -> f v <> Undefined) ->
    exists out' m', fold_left (fun s v => visit nx ny f v s) l (Some (out, m)) = Some (out', m') /\
      (forall v, In v l -> (out' (place v), m' (place v)) = after out m v) /\
      (forall x, (forall v, In v l -> x <> place v) -> out' x = out x /\ m' x = m x).
  Proof.
    induction l as [|v l IH]; intros out m ND G U.
    - exists out, m. cbn. intuition.
    - inversion ND as [|? ? Nv NDl]; subst. cbn [fold_left].
      assert (Gl : forall w, In w l -> grid w) by (intros; apply G; now right).
      assert (Dv : forall w, In w l -> place w <> place v).
      { intros w Hw E. apply Nv. rewrite <- (place_inj nx ny nz w v); auto. apply G. now left. }
      set (st := visit nx ny f v (Some (out, m))).
      assert (Hst : exists o1 m1, st = Some (o1, m1) /\ (o1 (place v), m1 (place v)) = after out m v /\
                      forall x, x <> place v -> o1 x = out x /\ m1 x = m x).
      { unfold st, visit, after. rewrite index_place. destruct (m (place v)) eqn:E.
        - specialize (U v (or_introl eq_refl) E). destruct (f v) as [|y|] eqn:Ef; [| |now destruct U].
          + exists out, m. rewrite E. intuition.
          + eexists _, _. split; [reflexivity|]. rewrite !aset_eq. split; auto. intros x Hx. now rewrite !aset_ne.
        - exists out, m. rewrite E. intuition. }
      destruct Hst as (o1 & m1 & -> & Hv & Ho).
      destruct (IH o1 m1 NDl Gl) as (o2 & m2 & E2 & H2 & O2).
      { intros w Hw Hm. apply U; [now right|]. now rewrite <- (proj2 (Ho _ (Dv w Hw))). }
      exists o2, m2. split; [exact E2|]. split.
      + intros w [<-|Hw].
        * destruct (O2 (place v)) as (-> & ->); [intros w Hw; specialize (Dv w Hw); congruence|exact Hv].
        * rewrite H2 by auto. unfold after. destruct (Ho _ (Dv w Hw)) as (-> & ->). reflexivity.
      + intros x Hx. destruct (O2 x) as (-> & ->); [intros w Hw; apply Hx; now right|].
        apply Ho. apply Hx. now left.
  Qed.
End Sweep.

Section Smooth.
  Context {V : Type}.
  Variables nx ny nz : Z.
  Variable f : voxel -> outcome V.
  Variable mask : arr bool.
  Local Notation place := (place nx ny).
  Lemma smooth_fold l : forall out : arr V, NoDup l -> (forall v, In v l -> grid nx ny nz v) ->
    let out' := fold_left (fun u v => if mask (index nx ny v) then match f v with Write x => aset u (index nx ny v) x | _ => u end else u) l out in
    (forall v, In v l -> out' (place v) = fst (after nx ny f out mask v)) /\
    (forall x, (forall v, In v l -> x <> place v) -> out' x = out x).
  Proof.
    induction l as [|v l IH]; intros out ND G.
    - cbn. intuition.
    - inversion ND as [|? ? Nv NDl]; subst. cbn [fold_left].
      assert (Gl : forall w, In w l -> grid nx ny nz w) by (intros; apply G; now right).
      assert (Dv : forall w, In w l -> place w <> place v).
      { intros w Hw E. apply Nv. rewrite <- (place_inj nx ny nz w v); auto. apply G. now left. }
      match goal with |- context [fold_left _ l ?o] => set (o1 := o) end.
      assert (Hv : o1 (place v) = fst (after nx ny f out mask v) /\ forall x, x <> place v -> o1 x = out x).
      { unfold o1, after. rewrite index_place. destruct (mask (place v)) eqn:E; [|split; auto].
        destruct (f v); cbn [fst]; try rewrite aset_eq; split; auto. intros x Hx. now rewrite aset_ne. }
      destruct Hv as (Hv & Ho). destruct (IH o1 NDl Gl) as (H1 & H2). split.
      + intros w [<-|Hw].
        * rewrite H2; auto. intros w Hw E. apply (Dv w Hw). auto.
        * rewrite H1 by auto. unfold after. rewrite (Ho _ (Dv w Hw)). reflexivity.
      + intros x Hx. rewrite H2; [apply Ho, Hx; now left|]. intros w Hw. apply Hx. now right.
  Qed.
End Smooth.

(** * Facts that hold for every value type *)
Section Generic.
  Context {V : Type}.
  Variables (zero half : V) (add mul div : V -> V -> V) (of_nat : nat -> V) (eqz : V -> bool) (qs : list V -> list V).
  Variables nx ny nz : Z.
  Variables (weights : list V) (method size : Z).
  Local Notation place := (place nx ny).
  Local Notation grid := (grid nx ny nz).
  Section One.
    Variable sched : nat -> list voxel.
    Variable rnd : nat -> voxel -> Z * Z.
    Hypothesis Hs : forall n, each_once nx ny nz (sched n).
    Local Notation kernel := (kernel zero half add mul div eqz qs nx ny nz weights method size rnd).
    Local Notation sweep := (sweep zero half add mul div eqz qs nx ny nz weights method size sched rnd).
    Local Notation complete := (complete zero half add mul div eqz qs nx ny nz weights method size sched rnd).
    Local Notation iterate := (iterate zero half add mul div eqz qs nx ny nz weights method size sched rnd).
    Local Notation smooth_if := (smooth_if zero add div of_nat eqz nx ny nz method sched).
    Local Notation inpaint := (inpaint zero half add mul div of_nat eqz qs nx ny nz weights method size sched rnd).

    Lemma fold_none (g : voxel -> outcome V) l : fold_left (fun s v => visit nx ny g v s) l None = None.
    Proof. induction l; auto. Qed.
    Lemma visit_outside (g : voxel -> outcome V) x l : forall st st',
      fold_left (fun s v => visit nx ny g v s) l (Some st) = Some st' -> snd st x = false -> fst st' x = fst st x /\ snd st' x = false.
    Proof.
      induction l as [|v l IH]; cbn [fold_left]; intros st st' H Hx.
      - injection H as <-. auto.
      - destruct st as (o, m). cbn in Hx. unfold visit in H at 2. destruct (m (index nx ny v)) eqn:Em; [|apply (IH (o, m)); auto].
        destruct (g v) as [|y|] eqn:Eg; [apply (IH (o, m)); auto| |now rewrite fold_none in H].
        assert (Nx : x <> index nx ny v) by (intros ->; congruence).
        destruct (IH (aset o (index nx ny v) y, aset m (index nx ny v) false) st' H) as (A & B); [cbn; now rewrite aset_ne|].
        cbn in A. rewrite aset_ne in A by auto. auto.
    Qed.
    Lemma sweep_outside n st st' x : sweep n st = Some st' -> snd st x = false -> fst st' x = fst st x /\ snd st' x = false.
    Proof. apply visit_outside. Qed.
    Lemma complete_outside x : forall fuel n st st', complete fuel n st = Some st' -> snd st x = false -> fst st' x = fst st x /\ snd st' x = false.
    Proof.
      induction fuel; cbn [Model_Inpaint.complete]; intros n st st' H Hx; [injection H as <-; auto|].
      destruct (sweep n st) as [st1|] eqn:E1; [|discriminate]. destruct (sweep_outside _ _ _ x E1 Hx) as (A & B).
      destruct (_ =? _)%nat in H; [injection H as <-; auto|]. destruct (IHfuel _ _ _ H B) as (C & D). split; congruence.
    Qed.
    Lemma iterate_outside x : forall k n st st', iterate k n st = Some st' -> snd st x = false -> fst st' x = fst st x /\ snd st' x = false.
    Proof.
      induction k; cbn [Model_Inpaint.iterate]; intros n st st' H Hx; [injection H as <-; auto|].
      destruct (sweep n st) as [st1|] eqn:E1; [|discriminate]. destruct (sweep_outside _ _ _ x E1 Hx) as (A & B).
      destruct (IHk _ _ _ H B) as (C & D). split; congruence.
    Qed.
    Lemma smooth_if_outside n mask out x : mask x = false -> smooth_if n mask out x = out x.
    Proof.
      intros Hx. unfold Model_Inpaint.smooth_if, smooth. destruct (method =? 2); auto.
      match goal with |- fold_left ?g ?l _ _ = _ => set (F := g); generalize l end. intros l.
      assert (G : forall l u, u x = out x -> fold_left F l u x = out x).
      { clear l. induction l as [|v l IH]; intros u Hu; cbn [fold_left]; auto. apply IH. unfold F.
        destruct (mask (index nx ny v)) eqn:E; auto. destruct smoothing; auto. rewrite aset_ne; auto. congruence. }
      now apply G.
    Qed.
    Lemma inpaint_outside input mask iterations out x :
      inpaint input mask iterations = Some out -> mask x = false -> out x = input x.
    Proof.
      unfold Model_Inpaint.inpaint. intros H Hx.
      assert (Z0 : zeroed zero input mask x = input x) by (unfold zeroed; now rewrite Hx).
      destruct (_ =? 0)%nat in H; [injection H as <-; auto|].
      destruct complete as [(o, m)|] eqn:E; [|discriminate].
      destruct (complete_outside x _ _ _ _ E Hx) as (A & B). cbn [fst] in A. rewrite Z0 in A.
      destruct (_ =? 0)%nat in H.
      - injection H as <-. now rewrite smooth_if_outside.
      - destruct iterate as [(o2, m2)|] eqn:E2; [|discriminate]. injection H as <-. rewrite smooth_if_outside by auto.
        destruct (iterate_outside x _ _ _ _ E2 Hx) as (C & D). cbn [fst] in C. rewrite C. now rewrite smooth_if_outside.
    Qed.
    (** What a sweep does, voxel by voxel. *)
    Lemma sweep_spec n (st : arr V * arr bool) : (forall v, grid v -> snd st (place v) = true -> kernel n (fst st) v <> Undefined) ->
      exists st' : arr V * arr bool, sweep n st = Some st' /\
        (forall v, grid v -> (fst st' (place v), snd st' (place v)) = after nx ny (kernel n (fst st)) (fst st) (snd st) v) /\
        (forall x, (forall v, grid v -> x <> place v) -> fst st' x = fst st x /\ snd st' x = snd st x).
    Proof.
      intros U. destruct st as (o, m). destruct (Hs n) as (ND & Hin).
      destruct (visit_fold nx ny nz (kernel n o) (sched n) o m ND) as (o' & m' & E & H1 & H2).
      - intros v. apply Hin.
      - intros v Hv. apply U. now apply Hin.
      - exists (o', m'). split; [exact E|]. split.
        + intros v Hv. apply H1. now apply Hin.
        + intros x Hx. apply H2. intros v Hv. apply Hx. now apply Hin.
    Qed.
    Lemma smooth_if_spec n mask out v : grid v ->
      smooth_if n mask out (place v) =
      if method =? 2 then fst (after nx ny (smoothing zero add div of_nat eqz nx ny nz out) out mask v) else out (place v).
    Proof.
      intros Hv. unfold Model_Inpaint.smooth_if, smooth. destruct (method =? 2); auto. destruct (Hs n) as (ND & Hin).
      destruct (smooth_fold nx ny nz (smoothing zero add div of_nat eqz nx ny nz out) mask (sched n) out ND) as (H & _).
      - intros w. apply Hin.
      - apply H. now apply Hin.
    Qed.
  End One.

  (** ** The order in which voxels are visited does not matter *)
  Lemma usable_ext (o1 o2 : arr V) {W} v os (ws : list W) : (forall x, o1 x = o2 x) ->
    usable eqz nx ny nz o1 v os ws = usable eqz nx ny nz o2 v os ws.
  Proof.
    intros H. unfold usable. induction (combine os ws) as [|(o, w) l IH]; cbn [flat_map]; auto.
    rewrite IH. rewrite !H. reflexivity.
  Qed.
  Lemma values_ext (o1 o2 : arr V) v w : (forall x, o1 x = o2 x) ->
    values eqz nx ny nz o1 v w = values eqz nx ny nz o2 v w.
  Proof. intros H. unfold values. now rewrite (usable_ext o1 o2). Qed.
  Lemma smoothing_ext (o1 o2 : arr V) v : (forall x, o1 x = o2 x) ->
    smoothing zero add div of_nat eqz nx ny nz o1 v = smoothing zero add div of_nat eqz nx ny nz o2 v.
  Proof. intros H. unfold smoothing. now rewrite (values_ext o1 o2). Qed.
  Lemma kernel_ext rnd n (o1 o2 : arr V) v : (forall x, o1 x = o2 x) ->
    kernel zero half add mul div eqz qs nx ny nz weights method size rnd n o1 v =
    kernel zero half add mul div eqz qs nx ny nz weights method size rnd n o2 v.
  Proof.
    intros H. unfold kernel, median_rand, euclidean. rewrite (values_ext o1 o2 v 1 H), (values_ext o1 o2 v size H).
    rewrite (usable_ext o1 o2 v (offsets nz size) weights H).
    assert (E : forall l, existsb (fun o : voxel => let u := shift v o in inside nx ny nz u && negb (eqz (o1 (index nx ny u)))) l =
      existsb (fun o : voxel => let u := shift v o in inside nx ny nz u && negb (eqz (o2 (index nx ny u)))) l).
    { induction l as [|o l IH]; [reflexivity|]. cbn [existsb]. f_equal; [now rewrite H|exact IH]. }
    now rewrite E.
  Qed.
  Lemma visit_defined (f : voxel -> outcome V) l : forall out m st', NoDup l -> (forall v, In v l -> grid v) ->
    fold_left (fun s v => visit nx ny f v s) l (Some (out, m)) = Some st' ->
    forall v, In v l -> m (place v) = true -> f v <> Undefined.
  Proof.
    induction l as [|v l IH]; intros out m st' ND G H w Hw Hm; [destruct Hw|].
    inversion ND as [|? ? Nv NDl]; subst. cbn [fold_left] in H. unfold visit in H at 2. rewrite index_place in H.
    destruct Hw as [<-|Hw].
    - rewrite Hm in H. intros E. rewrite E in H. now rewrite fold_none in H.
    - assert (D : place w <> place v).
      { intros E. apply Nv. rewrite <- (place_inj nx ny nz w v); auto; apply G; [now right|now left]. }
      destruct (m (place v)); [|apply (IH _ _ _ NDl (fun u Hu => G u (or_intror Hu)) H w Hw Hm)].
      destruct (f v) eqn:Ef; [apply (IH _ _ _ NDl (fun u Hu => G u (or_intror Hu)) H w Hw Hm)| |now rewrite fold_none in H].
      apply (IH _ _ _ NDl (fun u Hu => G u (or_intror Hu)) H w Hw). now rewrite aset_ne.
  Qed.
  Definition same (s t : arr V * arr bool) : Prop := forall x, fst s x = fst t x /\ snd s x = snd t x.
  Lemma count_mask_ext (m m' : arr bool) : (forall x, m x = m' x) -> count_mask nx ny nz m = count_mask nx ny nz m'.
  Proof. intros H. unfold count_mask. now rewrite (filter_ext m m'). Qed.

  Section Two.
    Variables sched1 sched2 : nat -> list voxel.
    Variable rnd1 rnd2 : nat -> voxel -> Z * Z.
    Hypothesis H1 : forall n, each_once nx ny nz (sched1 n).
    Hypothesis H2 : forall n, each_once nx ny nz (sched2 n).
    Hypothesis HR : forall n v, rnd1 n v = rnd2 n v.
    Local Notation sweep1 := (sweep zero half add mul div eqz qs nx ny nz weights method size sched1 rnd1).
    Local Notation sweep2 := (sweep zero half add mul div eqz qs nx ny nz weights method size sched2 rnd2).
    Local Notation complete1 := (complete zero half add mul div eqz qs nx ny nz weights method size sched1 rnd1).
    Local Notation complete2 := (complete zero half add mul div eqz qs nx ny nz weights method size sched2 rnd2).
    Local Notation iterate1 := (iterate zero half add mul div eqz qs nx ny nz weights method size sched1 rnd1).
    Local Notation iterate2 := (iterate zero half add mul div eqz qs nx ny nz weights method size sched2 rnd2).
    Lemma sweep_same n s t s' : same s t -> sweep1 n s = Some s' -> exists t', sweep2 n t = Some t' /\ same s' t'.
    Proof.
      intros E Hr.
      pose (K1 := kernel zero half add mul div eqz qs nx ny nz weights method size rnd1 n (fst s)).
      pose (K2 := kernel zero half add mul div eqz qs nx ny nz weights method size rnd2 n (fst t)).
      assert (EK : forall v, K1 v = K2 v).
      { intros v. unfold K1, K2. rewrite (kernel_ext rnd1 n (fst s) (fst t)) by apply E.
        unfold kernel. now rewrite HR. }
      assert (U : forall v, grid v -> snd s (place v) = true -> K1 v <> Undefined).
      { intros v Hv. destruct s as (o, m). destruct (H1 n) as (ND & Hin).
        apply (visit_defined K1 (sched1 n) o m s'); auto; [intros w; apply Hin|now apply Hin]. }
      destruct (sweep_spec sched1 rnd1 H1 n s U) as (s1 & E1 & A1 & B1).
      rewrite Hr in E1. injection E1 as <-.
      destruct (sweep_spec sched2 rnd2 H2 n t) as (t1 & E2 & A2 & B2).
      { intros v Hv Hm. change (K2 v <> Undefined). rewrite <- EK. apply U; auto. now rewrite (proj2 (E _)). }
      exists t1. split; auto. intros x.
      destruct (in_dec Z.eq_dec x (map place (sched1 n))) as [Hin|Hout].
      - apply in_map_iff in Hin. destruct Hin as (v & <- & Hv). apply (H1 n) in Hv.
        specialize (A1 v Hv). specialize (A2 v Hv). 
        assert (F : (fst s' (place v), snd s' (place v)) = (fst t1 (place v), snd t1 (place v))).
        { rewrite A1, A2. unfold after. destruct (E (place v)) as (E3 & E4). rewrite E3, E4. fold (K1 v) (K2 v). now rewrite EK. }
        injection F as -> ->. auto.
      - assert (N : forall v, grid v -> x <> place v).
        { intros v Hv ->. apply Hout. apply in_map. now apply (H1 n). }
        destruct (B1 x N) as (-> & ->). destruct (B2 x N) as (-> & ->). apply E.
    Qed.
    Lemma complete_same : forall fuel n s t s', same s t -> complete1 fuel n s = Some s' -> exists t', complete2 fuel n t = Some t' /\ same s' t'.
    Proof.
      induction fuel; cbn [complete]; intros n s t s' E Hr.
      - injection Hr as <-. eauto.
      - destruct (sweep1 n s) as [s1|] eqn:E1; [|discriminate].
        destruct (sweep_same n s t s1 E E1) as (t1 & -> & E').
        rewrite <- (count_mask_ext (snd s1) (snd t1)) by apply E'.
        destruct (_ =? _)%nat; [injection Hr as <-; eauto|]. eapply IHfuel; eauto.
    Qed.
    Lemma iterate_same : forall k n s t s', same s t -> iterate1 k n s = Some s' -> exists t', iterate2 k n t = Some t' /\ same s' t'.
    Proof.
      induction k; cbn [iterate]; intros n s t s' E Hr.
      - injection Hr as <-. eauto.
      - destruct (sweep1 n s) as [s1|] eqn:E1; [|discriminate].
        destruct (sweep_same n s t s1 E E1) as (t1 & -> & E'). eapply IHk; eauto.
    Qed.
    Lemma smooth_same n n' mask o1 o2 : (forall x, o1 x = o2 x) ->
      forall x, smooth_if zero add div of_nat eqz nx ny nz method sched1 n mask o1 x = smooth_if zero add div of_nat eqz nx ny nz method sched2 n' mask o2 x.
    Proof.
      intros E x. destruct (in_dec Z.eq_dec x (map place (sched1 n))) as [Hin|Hout].
      - apply in_map_iff in Hin. destruct Hin as (v & <- & Hv). apply (H1 n) in Hv.
        rewrite !smooth_if_spec by auto. unfold after. rewrite (smoothing_ext o1 o2) by auto. now rewrite E.
      - assert (N : forall v, grid v -> x <> place v).
        { intros v Hv ->. apply Hout. apply in_map. now apply (H1 n). }
        unfold smooth_if, smooth. destruct (method =? 2); auto.
        destruct (H1 n) as (ND1 & I1), (H2 n') as (ND2 & I2).
        destruct (smooth_fold nx ny nz (smoothing zero add div of_nat eqz nx ny nz o1) mask (sched1 n) o1 ND1) as (_ & A); [apply I1|].
        destruct (smooth_fold nx ny nz (smoothing zero add div of_nat eqz nx ny nz o2) mask (sched2 n') o2 ND2) as (_ & B); [apply I2|].
        rewrite A, B; auto; intros v Hv; apply N; [now apply I2|now apply I1].
    Qed.
    Lemma inpaint_same input mask iterations o1 :
      inpaint zero half add mul div of_nat eqz qs nx ny nz weights method size sched1 rnd1 input mask iterations = Some o1 ->
      exists o2, inpaint zero half add mul div of_nat eqz qs nx ny nz weights method size sched2 rnd2 input mask iterations = Some o2 /\ forall x, o1 x = o2 x.
    Proof.
      unfold inpaint. set (c := count_mask nx ny nz mask). destruct (c =? 0)%nat.
      - intros H. injection H as <-. eauto.
      - destruct (complete1 c 0 _) as [(o, m)|] eqn:E; [|discriminate].
        destruct (complete_same c 0 _ (zeroed zero input mask, mask) _ (fun x => conj eq_refl eq_refl) E) as ((o', m') & -> & S).
        assert (So : forall x, o x = o' x) by (intros x; apply (S x)).
        destruct (iterations =? 0)%nat.
        + intros H. injection H as <-. eexists. split; [reflexivity|]. apply smooth_same. exact So.
        + destruct (iterate1 _ _ _) as [(p, mp)|] eqn:E2; [|discriminate]. intros H. injection H as <-.
          destruct (iterate_same iterations (c + 1) (smooth_if zero add div of_nat eqz nx ny nz method sched1 c mask o, mask) (smooth_if zero add div of_nat eqz nx ny nz method sched2 c mask o', mask) _ (fun x => conj (smooth_same c c mask o o' So x) eq_refl) E2) as ((p', mp') & -> & S2).
          eexists. split; [reflexivity|]. apply smooth_same. intros x. apply (S2 x).
    Qed.
  End Two.
End Generic.
