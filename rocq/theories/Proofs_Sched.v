From Verif Require Import Base Model_Mproc Model_Sched.

Section Sched.
  Context {Cell V L : Type}.
  Variable ceq : forall x y : Cell, {x = y} + {x <> y}.
  Notation mem := (@mem Cell V).
  Notation action := (@action Cell V L).
  Notation thread := (@thread Cell V L).

  Lemma apply_writes_out ws (m : mem) c :
    (forall v, ~ In (c, v) ws) -> apply_writes ceq m ws c = m c.
  Proof.
    unfold apply_writes. revert m; induction ws as [|[d v] ws IH]; intros m H; cbn; auto.
    rewrite IH. 2:{ intros v' Hin. apply (H v'). now right. }
    unfold write. destruct (ceq c d) as [->|]; auto.
    exfalso. apply (H v). now left.
  Qed.

  Lemma apply_writes_agree ws (m m' : mem) (F : Cell -> Prop) :
    (forall c, F c -> m c = m' c) ->
    forall c, F c -> apply_writes ceq m ws c = apply_writes ceq m' ws c.
  Proof.
    unfold apply_writes. revert m m'; induction ws as [|[d v] ws IH]; intros m m' H c Hc; cbn; auto.
    apply IH; auto. intros x Hx. unfold write. destruct (ceq x d); auto.
  Qed.

  Lemma run_actions_app (p q : list action) l (m : mem) :
    run_actions ceq (p ++ q) l m =
    let '(l', m') := run_actions ceq p l m in run_actions ceq q l' m'.
  Proof.
    revert l m; induction p as [|a p IH]; intros l m; cbn; auto.
    destruct (a l m) as [l' ws]. apply IH.
  Qed.

  Lemma run_actions_out (p : list action) l (m : mem) (F : Cell -> Prop) c :
    (forall a, In a p -> respects F a) -> ~ F c -> snd (run_actions ceq p l m) c = m c.
  Proof.
    revert l m; induction p as [|a p IH]; intros l m Hr Hc; cbn; auto.
    destruct (a l m) as [l' ws] eqn:E.
    rewrite IH; auto. 2:{ intros; apply Hr; now right. }
    apply apply_writes_out. intros v Hin. apply Hc.
    eapply (proj2 (Hr a (or_introl eq_refl)) l m c v). now rewrite E.
  Qed.

  Lemma run_actions_agree (p : list action) l (m m' : mem) (F : Cell -> Prop) :
    (forall a, In a p -> respects F a) ->
    (forall c, F c -> m c = m' c) ->
    fst (run_actions ceq p l m) = fst (run_actions ceq p l m') /\
    forall c, F c -> snd (run_actions ceq p l m) c = snd (run_actions ceq p l m') c.
  Proof.
    revert l m m'; induction p as [|a p IH]; intros l m m' Hr Hm; cbn; auto.
    rewrite (proj1 (Hr a (or_introl eq_refl)) l m m' Hm).
    destruct (a l m') as [l' ws].
    apply IH. { intros; apply Hr; now right. }
    now apply apply_writes_agree.
  Qed.

  (** Every reachable configuration: each thread is where running its prefix alone leads. *)
  Definition inv (F : nat -> Cell -> Prop) (m0 : mem) (ts0 : list thread)
      (m : mem) (ts : list thread) : Prop :=
    length ts = length ts0 /\
    (forall i l0 p0, nth_error ts0 i = Some (l0, p0) ->
       exists don l rest, nth_error ts i = Some (l, rest) /\ p0 = don ++ rest /\
         fst (run_actions ceq don l0 m0) = l /\
         forall c, F i c -> m c = snd (run_actions ceq don l0 m0) c) /\
    (forall c, (forall i, i < length ts0 -> ~ F i c) -> m c = m0 c).

  Lemma inv_init F m0 ts0 : inv F m0 ts0 m0 ts0.
  Proof.
    split; [|split]; auto.
    intros i l0 p0 H. exists [], l0, p0. cbn. auto.
  Qed.

  Lemma inv_step F m0 ts0 m ts i l a rest l' ws :
    separated F ts0 ->
    inv F m0 ts0 m ts ->
    nth_error ts i = Some (l, a :: rest) -> a l m = (l', ws) ->
    inv F m0 ts0 (apply_writes ceq m ws) (upd ts i (l', rest)).
  Proof.
    intros [Hresp Hdis] (Hlen & Hthr & Hout) Hi Ha.
    assert (Hilt : i < length ts) by (apply nth_error_Some; congruence).
    destruct (nth_error ts0 i) as [[l0 p0]|] eqn:E0.
    2:{ apply nth_error_None in E0. lia. }
    destruct (Hthr i l0 p0 E0) as (don & l1 & rest1 & H1 & Hp & Hl & Hm).
    rewrite Hi in H1. injection H1 as <- <-.
    assert (Hra : respects (F i) a).
    { apply (Hresp i _ a E0). cbn. rewrite Hp. apply in_or_app. right. now left. }
    assert (Hrdon : forall b, In b don -> respects (F i) b).
    { intros b Hb. apply (Hresp i _ b E0). cbn. rewrite Hp. apply in_or_app. now left. }
    split; [|split].
    - now rewrite upd_length.
    - intros j lj pj Hj. destruct (Nat.eq_dec i j) as [<-|Hne].
      + rewrite E0 in Hj. injection Hj as <- <-.
        exists (don ++ [a]), l', rest. split; [apply nth_error_upd_eq; exact Hilt|].
        split; [now rewrite <- app_assoc|].
        rewrite run_actions_app.
        destruct (run_actions ceq don l0 m0) as [ld md] eqn:Ed. cbn in Hl, Hm. subst ld.
        cbn. rewrite <- (proj1 Hra l m md Hm), Ha. cbn. split; auto.
        intros c Hc. apply apply_writes_agree with (F := F i); auto.
      + destruct (Hthr j lj pj Hj) as (don' & l2 & rest2 & H2 & Hp2 & Hl2 & Hm2).
        exists don', l2, rest2. split; [now rewrite nth_error_upd_ne|].
        split; auto. split; auto. intros c Hc. rewrite <- Hm2 by auto.
        apply apply_writes_out. intros v Hin.
        apply (Hdis i j c Hne); auto.
        eapply (proj2 Hra l m c v). now rewrite Ha.
    - intros c Hc. rewrite apply_writes_out; auto.
      intros v Hin. apply (Hc i); [lia|]. eapply (proj2 Hra l m c v). now rewrite Ha.
  Qed.

  Lemma inv_steps F m0 ts0 m ts m' ts' :
    separated F ts0 -> inv F m0 ts0 m ts -> steps ceq m ts m' ts' -> inv F m0 ts0 m' ts'.
  Proof.
    intros Hsep Hinv Hst. induction Hst; auto.
    apply IHHst. eapply inv_step; eauto.
  Qed.

  Lemma complete_run F m0 (ts0 : list thread) m ts :
    separated F ts0 -> steps ceq m0 ts0 m ts -> finished ts ->
    (forall i t c, nth_error ts0 i = Some t -> F i c ->
        m c = snd (run_actions ceq (snd t) (fst t) m0) c) /\
    (forall c, (forall i, i < length ts0 -> ~ F i c) -> m c = m0 c).
  Proof.
    intros Hsep Hst Hfin.
    destruct (inv_steps F m0 ts0 m0 ts0 m ts Hsep (inv_init F m0 ts0) Hst) as (Hlen & Hthr & Hout).
    split; auto. intros i [l0 p0] c Hi Hc. cbn.
    destruct (Hthr i l0 p0 Hi) as (don & l & rest & H1 & Hp & Hl & Hm).
    assert (rest = []) as ->. { apply (Hfin (l, rest)). eapply nth_error_In; eauto. }
    rewrite app_nil_r in Hp. subst. now apply Hm.
  Qed.

  Lemma run_sequential_spec F (ts : list thread) : forall m0,
    separated F ts ->
    (forall i t c, nth_error ts i = Some t -> F i c ->
        run_sequential ceq ts m0 c = snd (run_actions ceq (snd t) (fst t) m0) c) /\
    (forall c, (forall i, i < length ts -> ~ F i c) -> run_sequential ceq ts m0 c = m0 c).
  Proof.
    revert F. induction ts as [|[l p] ts IH]; intros F m0 [Hresp Hdis].
    - split; [intros i t c H; destruct i; discriminate|]. reflexivity.
    - assert (Hsep' : separated (fun i => F (S i)) ts).
      { split; [intros i t a Hi; apply (Hresp (S i)); exact Hi|].
        intros i j c Hij. apply Hdis. lia. }
      assert (H0 : forall a, In a p -> respects (F 0) a).
      { intros a Ha. apply (Hresp 0 (l, p) a eq_refl Ha). }
      set (m1 := snd (run_actions ceq p l m0)).
      destruct (IH (fun i => F (S i)) m1 Hsep') as [IH1 IH2].
      change (run_sequential ceq ((l, p) :: ts) m0) with (run_sequential ceq ts m1).
      split.
      + intros [|i] t c Hi Hc.
        * injection Hi as <-. cbn. rewrite IH2; [reflexivity|].
          intros j _ Hj. apply (Hdis 0 (S j) c ltac:(lia) Hc Hj).
        * cbn in Hi. rewrite (IH1 i t c Hi Hc).
          destruct t as [lt pt]. cbn.
          apply run_actions_agree with (F := F (S i)); auto.
          { intros a Ha. apply (Hresp (S i) (lt, pt) a Hi Ha). }
          intros x Hx. unfold m1. apply run_actions_out with (F := F 0); auto.
          intros H. apply (Hdis 0 (S i) x ltac:(lia) H Hx).
      + intros c Hc. rewrite IH2. 2:{ intros i Hi. apply (Hc (S i)). cbn. lia. }
        unfold m1. apply run_actions_out with (F := F 0); auto. apply (Hc 0). cbn. lia.
  Qed.

  Lemma schedule_independent F m0 (ts0 : list thread) m ts :
    (forall c, {exists i, i < length ts0 /\ F i c} + {forall i, i < length ts0 -> ~ F i c}) ->
    separated F ts0 -> steps ceq m0 ts0 m ts -> finished ts ->
    forall c, m c = run_sequential ceq ts0 m0 c.
  Proof.
    intros Hdec Hsep Hst Hfin c.
    destruct (complete_run F m0 ts0 m ts Hsep Hst Hfin) as [H1 H2].
    destruct (run_sequential_spec F ts0 m0 Hsep) as [H3 H4].
    destruct (Hdec c) as [Hex|Hno].
    - destruct Hex as (i & Hi & Hc).
      destruct (nth_error ts0 i) as [t|] eqn:E; [|apply nth_error_None in E; lia].
      rewrite (H1 i t c E Hc). symmetry. now apply H3 with (i := i).
    - rewrite H2, H4; auto.
  Qed.

  (** Progress: as long as some thread is unfinished the machine can step; a complete run exists. *)
  Lemma complete_run_exists (m : mem) (ts : list thread) :
    exists m' ts', steps ceq m ts m' ts' /\ finished ts'.
  Proof.
    remember (fold_right (fun t n => length (snd t) + n) 0 ts) as k eqn:Ek.
    revert m ts Ek; induction k as [|k IH]; intros m ts Ek.
    - exists m, ts. split; [constructor|]. intros t Ht.
      induction ts as [|u ts IHt]; [contradiction|]. cbn in Ek.
      destruct Ht as [->|Ht]; [destruct (snd t); cbn in *; auto; lia|]. apply IHt; auto. lia.
    - assert (Hex : exists i l a rest, nth_error ts i = Some (l, a :: rest)).
      { clear IH. induction ts as [|[l p] ts IHt]; cbn in Ek; [lia|].
        destruct p as [|a p].
        - cbn in Ek. destruct (IHt Ek) as (i & l' & a & r & H). exists (S i), l', a, r. exact H.
        - exists 0, l, a, p. reflexivity. }
      destruct Hex as (i & l & a & rest & Hi).
      destruct (a l m) as [l' ws] eqn:Ea.
      destruct (IH (apply_writes ceq m ws) (upd ts i (l', rest))) as (m' & ts' & Hst & Hf).
      { clear -Ek Hi. revert i k Ek Hi; induction ts as [|[l2 p2] ts IHt]; intros i k Ek Hi.
        - destruct i; discriminate.
        - destruct i as [|i]; cbn in *.
          + injection Hi as -> ->. cbn in Ek. lia.
          + destruct (fold_right (fun t n => length (snd t) + n) 0 ts) as [|k'] eqn:E.
            * exfalso. clear -E Hi. revert i Hi; induction ts as [|[l3 p3] ts IH]; intros [|i] H; cbn in *; try discriminate.
              { injection H as -> ->. cbn in E. lia. }
              { apply (IH ltac:(lia) i H). }
            * rewrite <- (IHt i k' eq_refl Hi). lia. }
      exists m', ts'. split; auto. eapply steps_one; eauto.
  Qed.
End Sched.

(** ** Jobs of distribute_jobs *)
Section Jobs.
  Context {V : Type}.
  Local Open Scope Z_scope.

  Definition footprint (idxs : list (list Z)) (i : nat) (c : cell) : Prop :=
    match nth_error idxs i with
    | Some idx => In (snd c) idx
    | None => False
    end.

  Lemma footprint_disjoint idxs :
    NoDup (concat idxs) ->
    forall i j c, i <> j -> footprint idxs i c -> footprint idxs j c -> False.
  Proof.
    induction idxs as [|idx idxs IH]; intros Hnd i j c Hij Hi Hj; unfold footprint in *.
    - destruct i; contradiction.
    - cbn in Hnd.
      assert (Hsplit : forall x, In x idx -> ~ In x (concat idxs)).
      { clear -Hnd. induction idx as [|y idx IH]; cbn in *; [contradiction|].
        inversion Hnd as [|? ? Hny Hnd']; subst. intros x [<-|Hx].
        - intros H. apply Hny. apply in_or_app. now right.
        - now apply IH. }
      assert (Hnd' : NoDup (concat idxs)).
      { clear -Hnd. induction idx; cbn in *; auto. inversion Hnd; auto. }
      destruct i as [|i], j as [|j]; cbn in *.
      + congruence.
      + destruct (nth_error idxs j) as [idxj|] eqn:E; [|contradiction].
        apply (Hsplit _ Hi). apply in_concat. exists idxj. split; auto. eapply nth_error_In; eauto.
      + destruct (nth_error idxs i) as [idxj|] eqn:E; [|contradiction].
        apply (Hsplit _ Hj). apply in_concat. exists idxj. split; auto. eapply nth_error_In; eauto.
      + apply (IH Hnd' i j c ltac:(congruence)); assumption.
  Qed.

  Lemma job_respects (f : list V -> list V) narr out idx a :
    In a (job_prog f narr out idx) -> respects (fun c => In (snd c) idx) a.
  Proof.
    intros H. unfold job_prog in H. apply in_app_or in H. destruct H as [H|H].
    - apply in_map_iff in H. destruct H as (c & <- & Hc). unfold read_action. split.
      + intros l m m' Hm. rewrite (Hm c); auto.
        unfold read_cells in Hc. apply in_flat_map in Hc. destruct Hc as (k & _ & Hc).
        apply in_map_iff in Hc. destruct Hc as (i & <- & Hi). exact Hi.
      + cbn. tauto.
    - apply in_map_iff in H. destruct H as ((k & i) & <- & Hki). unfold write_action. split.
      + reflexivity.
      + intros l m c v. cbn [fst snd]. destruct (nth_error (f l) k); cbn; [|tauto].
        intros [[= <- <-]|[]]. cbn. eapply in_combine_r; eauto.
  Qed.

  Lemma jobs_separated (f : list V -> list V) narr out n slcs :
    NoDup (concat (map (slc_indices n) slcs)) ->
    separated (footprint (map (slc_indices n) slcs)) (jobs f narr out n slcs).
  Proof.
    intros Hnd. split.
    - intros i t a Hi Ha. unfold jobs in Hi. rewrite nth_error_map in Hi.
      destruct (nth_error slcs i) as [s|] eqn:E; [|discriminate].
      injection Hi as <-. cbn in Ha. apply job_respects in Ha.
      unfold footprint. erewrite map_nth_error by eauto. exact Ha.
    - now apply footprint_disjoint.
  Qed.

  Lemma footprint_dec idxs c :
    {exists i, (i < length idxs)%nat /\ footprint idxs i c} +
    {forall i, (i < length idxs)%nat -> ~ footprint idxs i c}.
  Proof.
    induction idxs as [|idx idxs IH].
    - right. intros i Hi. cbn in Hi. lia.
    - destruct (in_dec Z.eq_dec (snd c) idx) as [Hin|Hni].
      + left. exists 0%nat. cbn. split; [lia|]. exact Hin.
      + destruct IH as [Hex|Hno].
        * left. destruct Hex as (i & Hi & H). exists (S i). cbn. split; [lia|]. exact H.
        * right. intros [|i] Hi; cbn in *; [exact Hni|]. apply Hno. lia.
  Qed.

  Lemma jobs_schedule_independent (f : list V -> list V) narr out n slcs m0 m ts :
    NoDup (concat (map (slc_indices n) slcs)) ->
    steps cell_eq m0 (jobs f narr out n slcs) m ts -> finished ts ->
    forall c, m c = run_sequential cell_eq (jobs f narr out n slcs) m0 c.
  Proof.
    intros Hnd Hst Hfin.
    apply schedule_independent with (F := footprint (map (slc_indices n) slcs)) (ts := ts); auto.
    - intros c. destruct (footprint_dec (map (slc_indices n) slcs) c) as [H|H].
      + left. unfold jobs. rewrite map_length in *. exact H.
      + right. unfold jobs. rewrite map_length in *. exact H.
    - now apply jobs_separated.
  Qed.

  (** What a single job computes. *)
  Lemma run_reads cs l (m : @mem cell V) q :
    run_actions cell_eq (map read_action cs ++ q) l m = run_actions cell_eq q (l ++ map m cs) m.
  Proof.
    revert l; induction cs as [|c cs IH]; intros l; cbn.
    - now rewrite app_nil_r.
    - rewrite IH. now rewrite <- app_assoc.
  Qed.

  Lemma run_writes (f : list V -> list V) out l (m : @mem cell V) ks :
    NoDup (map snd ks) ->
    let r := run_actions cell_eq (map (fun ki => write_action f out (fst ki) (snd ki)) ks) l m in
    (forall k i v, In (k, i) ks -> nth_error (f l) k = Some v -> snd r (out, i) = v) /\
    (forall a i, (a <> out \/ ~ In i (map snd ks)) -> snd r (a, i) = m (a, i)).
  Proof.
    revert m; induction ks as [|[k i] ks IH]; intros m Hnd r; subst r.
    - cbn. split; [tauto|reflexivity].
    - cbn [map] in *. inversion Hnd as [|? ? Hni Hnd']; subst.
      cbn [run_actions]. unfold write_action at 1 3. cbn [fst snd] in *.
      destruct (nth_error (f l) k) as [v0|] eqn:Ek.
      + cbn [apply_writes fold_left fst snd].
        destruct (IH (write cell_eq m (out, i) v0) Hnd') as [IH1 IH2].
        split.
        * intros k' i' v' [[= <- <-]|Hin] Hv.
          -- rewrite IH2 by (now right). unfold write.
             destruct (cell_eq (out, i) (out, i)); congruence.
          -- eapply IH1; eauto.
        * intros a j Haj. rewrite IH2.
          2:{ destruct Haj; [now left|right; intros H1; apply H; now right]. }
          unfold write. destruct (cell_eq (a, j) (out, i)) as [[= -> ->]|]; auto.
          exfalso. destruct Haj as [Ha|Ha]; [congruence|]. apply Ha. now left.
      + cbn [apply_writes fold_left].
        destruct (IH m Hnd') as [IH1 IH2]. split.
        * intros k' i' v' [[= <- <-]|Hin] Hv; [congruence|]. eapply IH1; eauto.
        * intros a j Haj. apply IH2. destruct Haj; [now left|right; intros H1; apply H; now right].
  Qed.

  Lemma job_result (f : list V -> list V) narr out idx (m : @mem cell V) :
    NoDup idx -> 
    let r := snd (run_actions cell_eq (job_prog f narr out idx) [] m) in
    let res := f (map m (read_cells narr idx)) in
    (forall k i v, nth_error idx k = Some i -> nth_error res k = Some v -> r (out, i) = v) /\
    (forall a i, (a <> out \/ ~ In i idx) -> r (a, i) = m (a, i)).
  Proof.
    intros Hnd r res. subst r. unfold job_prog. rewrite run_reads. cbn [app].
    assert (Hsnd : map snd (combine (seq 0 (length idx)) idx) = idx).
    { clear. generalize 0%nat. induction idx as [|x idx IH]; intros s; cbn; auto. now rewrite IH. }
    destruct (run_writes f out (map m (read_cells narr idx)) m
                (combine (seq 0 (length idx)) idx)) as [H1 H2].
    { now rewrite Hsnd. }
    split.
    - intros k i v Hk Hv. apply (H1 k i v); auto.
      clear -Hk. assert (G : forall s, In ((s + k)%nat, i) (combine (seq s (length idx)) idx)).
      { revert k Hk; induction idx as [|x idx IH]; intros k Hk s; [destruct k; discriminate|].
        destruct k as [|k]; cbn in *.
        - injection Hk as <-. left. f_equal. lia.
        - right. replace (s + S k)%nat with (S s + k)%nat by lia. now apply IH. }
      apply (G 0%nat).
    - intros a i Hai. apply H2. now rewrite Hsnd.
  Qed.

  Lemma elementwise_jobs (g : V -> V) n slcs m0 m ts :
    concat (map (slc_indices n) slcs) = zrange 0 n ->
    steps cell_eq m0 (jobs (map g) 1 0 n slcs) m ts -> finished ts ->
    (forall i, 0 <= i < n -> m (0%nat, i) = g (m0 (0%nat, i))) /\
    (forall a i, (a <> 0%nat \/ ~ 0 <= i < n) -> m (a, i) = m0 (a, i)).
  Proof.
    intros Hcov Hst Hfin.
    assert (Hnd : NoDup (concat (map (slc_indices n) slcs))).
    { rewrite Hcov. apply NoDup_zrange. }
    destruct (complete_run cell_eq _ m0 _ m ts (jobs_separated (map g) 1 0 n slcs Hnd) Hst Hfin) as [H1 H2].
    assert (Hjob : forall i a, 0 <= i < n -> exists s k,
      nth_error slcs k = Some s /\ In i (slc_indices n s) /\
      m (a, i) = snd (run_actions cell_eq (job_prog (map g) 1 0 (slc_indices n s)) [] m0) (a, i)).
    { intros i a Hi.
      assert (Hin : In i (concat (map (slc_indices n) slcs))) by (rewrite Hcov; now apply in_zrange).
      apply in_concat in Hin. destruct Hin as (idx & Hidx & Hin).
      apply in_map_iff in Hidx. destruct Hidx as (s & <- & Hs).
      apply In_nth_error in Hs. destruct Hs as (k & Hk).
      exists s, k. repeat split; auto.
      apply (H1 k (job (map g) 1 0 (slc_indices n s)) (a, i)).
      - unfold jobs. erewrite map_nth_error by eauto. reflexivity.
      - unfold footprint. erewrite map_nth_error by eauto. exact Hin. }
    assert (Hndj : forall s, In s slcs -> NoDup (slc_indices n s)).
    { intros s _. destruct s; cbn; [apply NoDup_zrange|].
      destruct (_ && _); repeat constructor. auto. }
    split.
    - intros i Hi. destruct (Hjob i 0%nat Hi) as (s & k & Hk & Hin & ->).
      destruct (job_result (map g) 1 0 (slc_indices n s) m0) as [J _].
      { apply Hndj. eapply nth_error_In; eauto. }
      apply In_nth_error in Hin. destruct Hin as (q & Hq).
      eapply J; eauto. unfold read_cells. cbn [seq flat_map]. rewrite app_nil_r.
      rewrite !map_map. now erewrite map_nth_error by eauto.
    - intros a i Hai. destruct (Z_le_dec 0 i) as [H0|H0], (Z_lt_dec i n) as [Hn|Hn].
      1:{ destruct (Hjob i a ltac:(lia)) as (s & k & Hk & Hin & ->).
          destruct (job_result (map g) 1 0 (slc_indices n s) m0) as [_ J].
          { apply Hndj. eapply nth_error_In; eauto. }
          apply J. destruct Hai; [now left|lia]. }
      all: apply H2; intros j Hj Hf; unfold footprint in Hf; rewrite nth_error_map in Hf;
        destruct (nth_error slcs j) as [s|] eqn:E; cbn in Hf; [|contradiction];
        assert (Hin : In i (concat (map (slc_indices n) slcs)))
          by (apply in_concat; exists (slc_indices n s); split; auto;
              apply in_map_iff; exists s; split; auto; eapply nth_error_In; eauto);
        rewrite Hcov in Hin; apply in_zrange in Hin; lia.
  Qed.
End Jobs.
