(** Consistent data, and threads sharing buffers. *)
From Coq Require Import Reals Lra Permutation.
From Verif Require Import Base CLoop Model_Prep Model_Ray Proofs_Prep Proofs_Ray Proofs_Morph Proofs_Solver Model_Accel Spec_Accel Proofs_Accel Proofs_AccelRun.
Local Open Scope R_scope.

Section Fixed.
  Variables dy dt n : Z.
  Variable theta : arr R.
  Variable cubic : R -> arr R -> arr R.
  Variable change apply : R -> R -> R.
  Hypothesis Hdy : (0 <= dy)%Z.
  Hypothesis Hdt : (0 < dt)%Z.
  Hypothesis Hn : (0 < n)%Z.
  Hypothesis Ho : Z.odd n = true.
  Hypothesis Hq : forall p, (0 <= p < dt)%Z -> quarter (theta p).
  Notation rot := (rotate n n cubic Nn).

  Lemma quarter_p p : (0 <= p < dt)%Z -> quarter (theta_p theta p).
  Proof. intros Hp. unfold theta_p. now apply fmod_quarter, Hq. Qed.

  Lemma nn_local t : local_op (n * n) (rot t).
  Proof. apply rotate_local; auto. discriminate. Qed.

  Lemma seen_quarter j : (0 <= j < n * n)%Z -> seen dt n n n theta j = dt.
  Proof.
    intros Hj. unfold seen. replace (j <? n * n)%Z with true by lia. apply how_many_all; [lia|].
    intros p Hp. destruct (quarter_cs _ (quarter_neg _ (quarter_p p Hp))) as (a & b & Ha & Hb & Hab).
    rewrite (warp_turned n _ a b) by auto. reflexivity.
  Qed.

  (** What the task of a projection hands back, when the correction adds [e] everywhere. *)
  Lemma back_quarter data recon s p j e : (0 <= j < n * n)%Z -> (0 <= p < dt)%Z ->
    (forall k, (0 <= k < n * n)%Z -> corrected n n change (rays_of dt n data s p) (rot (- theta_p theta p) (slice_of (n * n) recon s)) k =
                                   rot (- theta_p theta p) (slice_of (n * n) recon s) k + e) ->
    back dt n n n theta rot change data recon s p j = slice_of (n * n) recon s j + e.
  Proof.
    intros Hj Hp H. unfold back.
    rewrite (nn_local (theta_p theta p) _ (fun k => rot (- theta_p theta p) (slice_of (n * n) recon s) k + e)) by auto.
    destruct (quarter_cs _ (quarter_p p Hp)) as (a & b & Ha & Hb & Hab).
    unfold rotate. rewrite (warp_turned n _ a b) by auto.
    rewrite <- (turn_back n (theta_p theta p) 0 (slice_of (n * n) recon s) j) by auto using quarter_p.
    rewrite (warp_turned n (theta_p theta p) a b) by auto. reflexivity.
  Qed.

  Lemma total_const m (c : R) : (0 <= m)%Z -> total_to m (fun _ => c) = IZR m * c.
  Proof.
    intros H. rewrite total_zsum. revert m H. apply natlike_ind; [rewrite zsum_0 by lia; ring|].
    intros x Hx IH. unfold Z.succ. rewrite zsum_S, IH, plus_IZR by lia. ring.
  Qed.

  Lemma step_quarter data recon order s j e : (0 <= s < dy)%Z -> (0 <= j < n * n)%Z -> Permutation order (zrange 0 dt) ->
    (forall p k, (0 <= p < dt)%Z -> (0 <= k < n * n)%Z -> corrected n n change (rays_of dt n data s p) (rot (- theta_p theta p) (slice_of (n * n) recon s)) k =
                                   rot (- theta_p theta p) (slice_of (n * n) recon s) k + e) ->
    slice_of (n * n) (iteration dy dt n n n theta rot change apply data order recon) s j =
    apply (slice_of (n * n) recon s j) ((slice_of (n * n) recon s j + e) / IZR n).
  Proof.
    intros Hs Hj Hp He. rewrite step_at by (auto; try lia; intros; apply nn_local). rewrite seen_quarter by auto.
    replace ((dt =? 0) || (n =? 0))%Z with false by lia.
    rewrite (total_ext dt _ (fun _ => slice_of (n * n) recon s j + e)) by (intros p Hp'; now apply back_quarter; auto).
    rewrite total_const by lia. f_equal. assert (0 < IZR dt) by (apply IZR_lt; lia). assert (0 < IZR n) by (apply IZR_lt; lia). field. lra.
  Qed.
End Fixed.

(** ** Threads *)
Section Threads.
  Variable img : Type.
  Variable buf : Z -> Z -> img.
  Variable cache_of : Z -> Z.
  Notation run := (tstep_run img buf cache_of).

  Definition owner (e : tstep) : Z := match e with Fill p _ => p | Take p _ => p | Commit p => p end.
  Definition own (p : Z) (e : tstep) : bool := (owner e =? p)%Z.
  Definition takes (p : Z) (es : list tstep) : list Z := flat_map (fun e => match e with Take q s => if (q =? p)%Z then [s] else [] | _ => [] end) es.
  Definition commits (es : list tstep) : list Z := flat_map (fun e => match e with Commit q => [q] | _ => [] end) es.
  Definition last_fill (c : Z) (es : list tstep) : option img :=
    fold_left (fun o e => match e with Fill p s => if (cache_of p =? c)%Z then Some (buf p s) else o | _ => o end) es None.

  Lemma takes_app p a b : takes p (a ++ b) = takes p a ++ takes p b. Proof. apply flat_map_app. Qed.
  Lemma commits_app a b : commits (a ++ b) = commits a ++ commits b. Proof. apply flat_map_app. Qed.
  Lemma takes_own p es : takes p es = takes p (filter (own p) es).
  Proof.
    induction es as [|e es IH]; [reflexivity|]. cbn [filter]. unfold own at 1. destruct (owner e =? p)%Z eqn:E.
    - change (takes p (e :: es)) with (match e with Take q s => if (q =? p)%Z then [s] else [] | _ => [] end ++ takes p es). rewrite IH. reflexivity.
    - rewrite <- IH. change (takes p (e :: es)) with (match e with Take q s => if (q =? p)%Z then [s] else [] | _ => [] end ++ takes p es).
      destruct e; cbn in E; auto. now rewrite E.
  Qed.

  Variables dy : Z.
  Definition body (p : Z) : list tstep := flat_map (fun s => [Fill p s; Take p s]) (zrange 0 dy).

  Lemma takes_body p : takes p (body p) = zrange 0 dy.
  Proof.
    unfold body, takes. induction (zrange 0 dy) as [|s l IH]; [reflexivity|]. cbn. rewrite Z.eqb_refl. cbn. now rewrite IH.
  Qed.
  Lemma body_no_commit p : ~ In (Commit p) (body p).
  Proof. unfold body. rewrite in_flat_map. intros (s & _ & [H|[H|[]]]); discriminate. Qed.

  (** Program order: the step before Take p s is Fill p s. *)
  Lemma before_take l p a s b : flat_map (fun s => [Fill p s; Take p s]) l = a ++ Take p s :: b -> exists a', a = a' ++ [Fill p s].
  Proof.
    revert a. induction l as [|x l IH]; intros a H; [destruct a; discriminate|].
    cbn in H. destruct a as [|e1 a]; [discriminate|]. injection H as <- H.
    destruct a as [|e2 a]; cbn in H; injection H as H H2.
    - inversion H; subst. now exists [].
    - destruct (IH a H2) as (a' & ->). exists (Fill p x :: e2 :: a'). reflexivity.
  Qed.

  Lemma task_take p a s b : body p ++ [Commit p] = a ++ Take p s :: b -> exists a', a = a' ++ [Fill p s].
  Proof.
    intros H. destruct b as [|x b' _] using rev_ind.
    - apply app_inj_tail in H as [_ H]. discriminate.
    - rewrite app_comm_cons, app_assoc in H. apply app_inj_tail in H as [H _]. eapply before_take. exact H.
  Qed.

  Lemma filter_last {A} (f : A -> bool) l a z : filter f l = a ++ [z] -> exists x y, l = x ++ z :: y /\ filter f y = [].
  Proof.
    revert a. induction l as [|e l IH]; intros a H; [destruct a; discriminate|].
    cbn in H. destruct (f e) eqn:E.
    - destruct a as [|b a].
      + cbn in H. injection H as -> H. exists [], l. auto.
      + cbn in H. injection H as <- H. destruct (IH a H) as (x & y & -> & Hy). exists (e :: x), y. auto.
    - destruct (IH a H) as (x & y & -> & Hy). exists (e :: x), y. auto.
  Qed.

  Lemma last_fill_snoc c pre e : last_fill c (pre ++ [e]) = match e with Fill p s => if (cache_of p =? c)%Z then Some (buf p s) else last_fill c pre | _ => last_fill c pre end.
  Proof. unfold last_fill. rewrite fold_left_app. reflexivity. Qed.

  Lemma last_fill_app c p s x y : cache_of p = c -> (forall q s', In (Fill q s') y -> cache_of q <> c) -> last_fill c (x ++ Fill p s :: y) = Some (buf p s).
  Proof.
    intros Hc. induction y as [|e y IH] using rev_ind; intros Hy.
    - rewrite last_fill_snoc. now rewrite Hc, Z.eqb_refl.
    - rewrite app_comm_cons, app_assoc, last_fill_snoc. rewrite IH by (intros q s' H; apply (Hy q s'); apply in_or_app; now left).
      destruct e as [q s'|q s'|q]; auto. destruct (cache_of q =? c)%Z eqn:E; auto.
      exfalso. apply (Hy q s'); [apply in_or_app; right; now left|lia].
  Qed.

  Variable dt : Z.
  Variable es : list tstep.
  Hypothesis Hown : forall p, (0 <= p < dt)%Z -> filter (own p) es = task_steps dy p.
  Hypothesis Hrange : forall e, In e es -> (0 <= owner e < dt)%Z.
  Hypothesis Hexcl : forall a e1 b e2 c e3 d, es = a ++ e1 :: b ++ e2 :: c ++ e3 :: d ->
    owner e1 = owner e3 -> owner e2 <> owner e1 -> cache_of (owner e2) <> cache_of (owner e1).

  Definition whole (p : Z) : list (option img) := map (fun s => Some (buf p s)) (zrange 0 dy).
  Definition init : tstate img := {| cache := fun _ => None; loc := fun _ => []; committed := [] |}.

  Lemma prefix_state pre post : es = pre ++ post -> let st := fold_left run pre init in
    (forall c, cache img st c = last_fill c pre) /\
    (forall p, (0 <= p < dt)%Z -> loc img st p = map (fun s => Some (buf p s)) (takes p pre)) /\
    committed img st = map (fun p => (p, whole p)) (commits pre).
  Proof.
    revert post. induction pre as [|e pre IH] using rev_ind; intros post E.
    { cbn. repeat split; auto. }
    rewrite <- app_assoc in E. cbn [app] in E. destruct (IH _ E) as (H1 & H2 & H3). clear IH.
    rewrite fold_left_app. cbn [fold_left]. cbv zeta. set (st := fold_left run pre init) in *.
    assert (Hp : (0 <= owner e < dt)%Z) by (apply Hrange; rewrite E; apply in_or_app; right; now left).
    assert (Hf : filter (own (owner e)) pre ++ e :: filter (own (owner e)) post = task_steps dy (owner e)).
    { rewrite <- (Hown _ Hp), E, filter_app. cbn [filter]. replace (own (owner e) e) with true by (unfold own; lia). reflexivity. }
    destruct e as [p s|p s|p]; cbn [owner] in *.
    - repeat split; cbn [tstep_run cache loc committed].
      + intros c. rewrite last_fill_snoc. unfold aset. rewrite (Z.eqb_sym (cache_of p) c). destruct (c =? cache_of p)%Z; auto.
      + intros q Hq. rewrite takes_app. cbn. rewrite app_nil_r. now apply H2.
      + rewrite commits_app. cbn. now rewrite app_nil_r.
    - assert (G : cache img st (cache_of p) = Some (buf p s)).
      { rewrite H1. symmetry in Hf. unfold task_steps in Hf. destruct (task_take p _ s _ Hf) as (a' & Ha).
        destruct (filter_last _ _ _ _ Ha) as (x & y & Epre & Hy). rewrite Epre. apply last_fill_app; auto.
        intros q s' Hin Hc.
        assert (q <> p).
        { intros ->. assert (In (Fill p s') (filter (own p) y)) by (apply filter_In; split; auto; unfold own; cbn; lia).
          rewrite Hy in H. destruct H. }
        apply in_split in Hin as (y1 & y2 & ->).
        apply (Hexcl x (Fill p s) y1 (Fill q s') y2 (Take p s) post); cbn; auto.
        rewrite E, Epre, <- app_assoc. cbn. rewrite <- app_assoc. reflexivity. }
      repeat split; cbn [tstep_run cache loc committed].
      + intros c. rewrite last_fill_snoc. apply H1.
      + intros q Hq. rewrite takes_app. cbn [takes flat_map app]. rewrite app_nil_r. unfold aset. rewrite (Z.eqb_sym p q).
        destruct (q =? p)%Z eqn:Eq.
        * apply Z.eqb_eq in Eq. subst q. rewrite G, H2, map_app by auto. reflexivity.
        * cbn. rewrite app_nil_r. now apply H2.
      + rewrite commits_app. cbn. now rewrite app_nil_r.
    - repeat split; cbn [tstep_run cache loc committed].
      + intros c. rewrite last_fill_snoc. apply H1.
      + intros q Hq. rewrite takes_app. cbn. rewrite app_nil_r. now apply H2.
      + rewrite commits_app, map_app, H3. cbn [map commits flat_map app]. f_equal. f_equal. f_equal.
        rewrite H2 by auto. rewrite takes_own.
        assert (Ef : filter (own p) pre = body p).
        { unfold task_steps in Hf. fold (body p) in Hf.
          destruct (filter (own p) post) as [|z l _] using rev_ind.
          - apply app_inj_tail in Hf as [Hf _]. exact Hf.
          - exfalso. rewrite app_comm_cons, app_assoc in Hf. apply app_inj_tail in Hf as [Hf _].
            apply (body_no_commit p). rewrite <- Hf. apply in_or_app. right. now left. }
        rewrite Ef, takes_body. reflexivity.
  Qed.

  Lemma in_commits p l : In p (commits l) <-> In (Commit p) l.
  Proof.
    unfold commits. rewrite in_flat_map. split.
    - intros ([q s|q s|q] & Hq & H); try destruct H as []; subst; auto. destruct H.
    - intros H. exists (Commit p). split; auto. now left.
  Qed.

  Lemma commits_own p l : filter (Z.eqb p) (commits l) = commits (filter (own p) l).
  Proof.
    induction l as [|e l IH]; [reflexivity|]. change (e :: l) with ([e] ++ l). rewrite commits_app, !filter_app, commits_app, IH. f_equal.
    destruct e as [q s|q s|q]; cbn; unfold own; cbn.
    - destruct (q =? p)%Z; reflexivity.
    - destruct (q =? p)%Z; reflexivity.
    - rewrite (Z.eqb_sym q p). destruct (p =? q)%Z; reflexivity.
  Qed.

  Lemma commits_body p : commits (body p) = [].
  Proof. unfold body. induction (zrange 0 dy) as [|s l IH]; [reflexivity|]. cbn. exact IH. Qed.

  Lemma commits_perm : Permutation (commits es) (zrange 0 dt).
  Proof.
    apply NoDup_Permutation.
    - assert (G : forall l, (forall p, In p l -> length (filter (Z.eqb p) l) = 1%nat) -> NoDup l).
      { induction l as [|x l IH]; intros H; constructor.
        - intros Hin. specialize (H x (or_introl eq_refl)). cbn in H. rewrite Z.eqb_refl in H. cbn in H.
          assert (In x (filter (Z.eqb x) l)) by (apply filter_In; split; auto; lia). destruct (filter (Z.eqb x) l); [destruct H0|cbn in H; lia].
        - apply IH. intros p Hp. specialize (H p (or_intror Hp)). cbn in H. destruct (p =? x)%Z eqn:E; auto. cbn in H.
          assert (In p (filter (Z.eqb p) l)) by (apply filter_In; split; auto; lia). destruct (filter (Z.eqb p) l); [destruct H0|cbn in H; lia]. }
      apply G. intros p Hp. apply in_commits, Hrange in Hp as Hr. cbn in Hr. rewrite commits_own, Hown by auto.
      unfold task_steps. fold (body p). rewrite commits_app, commits_body. reflexivity.
    - apply NoDup_zrange.
    - intros p. rewrite in_commits, in_zrange. split; intros H.
      + apply Hrange in H. exact H.
      + assert (Hin : In (Commit p) (filter (own p) es)) by (rewrite Hown by auto; unfold task_steps; apply in_or_app; right; now left).
        apply filter_In in Hin. tauto.
  Qed.

  Lemma threads_ok : Permutation (threads_run img buf cache_of es) (map (fun p => (p, whole p)) (zrange 0 dt)).
  Proof.
    unfold threads_run. destruct (prefix_state es [] (eq_sym (app_nil_r es))) as (_ & _ & H). fold init. rewrite H.
    apply Permutation_map, commits_perm.
  Qed.
End Threads.
