(** An execution of a release build in which the device gets to the reset of an iteration last. *)
From Coq Require Import Reals Lra.
From Verif Require Import Base CLoop Spec_Accel Model_Accel Model_Cuda Proofs_Cuda Proofs_CudaRun.
Local Open Scope R_scope.

Section Race.
  Variables dy dt dx nx ny : Z.
  Variable theta : arr R.
  Variable covers : R -> Z -> bool.
  Variable value : R -> arr R -> Z -> R.
  Variable row : arr R -> Z -> Z -> arr R -> arr R.
  Variable apply : R -> R -> R.
  Variable data : arr R.
  Variable sum_dist : arr Z.
  Variable nw : Z.
  Hypothesis Hnw : (1 <= nw)%Z.
  Notation rotate_to := (npp nx ny covers value).
  Notation exec := (exec dy dt dx nx ny theta rotate_to row apply data sum_dist).
  Notation step := (step dy dt dx nx ny theta rotate_to row apply data sum_dist false nw).
  Notation steps := (steps dy dt dx nx ny theta rotate_to row apply data sum_dist false nw).
  Notation st mp q k mq wq m := {| st_main := mp; st_pending := q; st_work := k; st_mq := mq; st_wq := wq; st_mem := m |}.

  Lemma steps_trans a b c : steps a b -> steps b c -> steps a c.
  Proof. intros H1 H2. induction H2 as [b|b c d _ IH Hs]; auto. exact (steps_step _ _ _ _ _ _ _ _ _ _ _ _ _ _ _ _ (IH H1) Hs). Qed.
  Lemma steps_one a b c : step a b -> steps b c -> steps a c.
  Proof. intros H1 H2. apply (steps_trans a b c); auto. apply (steps_step _ _ _ _ _ _ _ _ _ _ _ _ _ _ a b); auto. apply steps_refl. Qed.

  Lemma zero_worker : worker nw 0. Proof. unfold worker. lia. Qed.

  Lemma run_ops ops : forall mp q k mq wq m, k 0%Z = map WEnq ops -> wq 0%Z = [] -> Forall (owned 0) ops ->
    exists k' wq' m', steps (st mp q k mq wq m) (st mp q k' mq wq' m') /\ k' 0%Z = [] /\ wq' 0%Z = [] /\
      (forall w, w <> 0%Z -> k' w = k w /\ wq' w = wq w) /\ m_recon m' = m_recon m.
  Proof.
    induction ops as [|o ops IH]; intros mp q k mq wq m Hk Hq Ho.
    - exists k, wq, m. repeat split; auto. apply steps_refl.
    - apply Forall_cons_iff in Ho as (Ho & Ho'). cbn [map] in Hk.
      destruct (IH mp q (aset k 0%Z (map WEnq ops)) mq (aset (aset wq 0%Z (wq 0%Z ++ [o])) 0%Z []) (exec o m)) as (k' & wq' & m' & S1 & H1 & H2 & H3 & H4);
        [apply aset_eq|apply aset_eq|auto|].
      exists k', wq', m'. split.
      + eapply steps_one; [apply (s_work_enq dy dt dx nx ny theta rotate_to row apply data sum_dist false nw 0 o (map WEnq ops)); auto using zero_worker|].
        eapply steps_one; [apply (s_device_worker dy dt dx nx ny theta rotate_to row apply data sum_dist false nw 0 o []); auto using zero_worker|].
        * rewrite aset_eq, Hq. reflexivity.
        * exact S1.
      + repeat split; auto.
        * destruct (H3 w) as (E & _); auto. now rewrite E, aset_ne.
        * destruct (H3 w) as (_ & E); auto. now rewrite E, !aset_ne.
        * rewrite H4. now destruct o.
  Qed.

  Lemma release_program p : task_program dy false 0 p = WSync :: map WEnq (ops_of (task_program dy false 0 p)).
  Proof.
    unfold task_program. cbn [app checked ops_of flat_map map]. do 3 f_equal.
    induction (zrange 0 dy) as [|s l IH]; [reflexivity|]. cbn [flat_map checked app ops_of map]. do 4 f_equal. exact IH.
  Qed.

  Lemma run_tasks l : forall mp k mq wq m, (forall w, worker nw w -> k w = [] /\ wq w = []) ->
    exists k' wq' m', steps (st mp l k mq wq m) (st mp [] k' mq wq' m') /\ (forall w, worker nw w -> k' w = [] /\ wq' w = []) /\ m_recon m' = m_recon m.
  Proof.
    induction l as [|p l IH]; intros mp k mq wq m Hi.
    - exists k, wq, m. repeat split; auto; try apply steps_refl; now apply Hi.
    - destruct (Hi 0%Z zero_worker) as (Hk & Hq).
      destruct (run_ops (ops_of (task_program dy false 0 p)) mp l
                  (aset (aset k 0%Z (task_program dy false 0 p)) 0%Z (map WEnq (ops_of (task_program dy false 0 p)))) mq wq m) as (k1 & wq1 & m1 & S1 & H1 & H2 & H3 & H4);
        [apply aset_eq|exact Hq|apply task_owned|].
      destruct (IH mp k1 mq wq1 m1) as (k2 & wq2 & m2 & S2 & H5 & H6).
      { intros w Hw. destruct (Z.eq_dec w 0) as [->|Hn]; auto. destruct (H3 w Hn) as (-> & ->). rewrite !aset_ne by auto. now apply Hi. }
      exists k2, wq2, m2. split; [|split; [auto|congruence]].
      eapply steps_one; [apply (s_take dy dt dx nx ny theta rotate_to row apply data sum_dist false nw 0 p [] l); auto using zero_worker|].
      eapply steps_one; [apply (s_work_sync dy dt dx nx ny theta rotate_to row apply data sum_dist false nw 0 (map WEnq (ops_of (task_program dy false 0 p)))); auto using zero_worker|].
      { rewrite aset_eq. apply release_program. }
      exact (steps_trans _ _ _ S1 S2).
  Qed.

  Lemma late_reset m : exists s, steps (start false 1 m) s /\ finished s /\
    forall k, (0 <= k < dy * (nx * ny))%Z -> sum_dist k <> 0%Z -> dx <> 0%Z -> m_recon (st_mem s) k = apply (m_recon m k) (0 / IZR (sum_dist k) / IZR dx).
  Proof.
    destruct (run_tasks (zrange 0 dt) [MJoin; MSyncW; MSync; MEnq Update; MSync] (fun _ => []) [Reset] (fun _ => []) m) as (k & wq & m' & S1 & Hi & Hr); [auto|].
    set (m1 := exec Reset m'). set (m2 := exec Update m1).
    exists (st [] [] k [] wq m2). split; [|split; [reflexivity|]].
    - unfold start. cbn [main_program iter_program app].
      eapply steps_one; [apply s_main_sync|]. eapply steps_one; [apply s_main_enq|]. cbn [app].
      eapply steps_one; [apply s_main_sync_workers; auto|]. eapply steps_one; [apply s_main_fork|].
      eapply steps_trans; [exact S1|].
      eapply steps_one; [apply s_main_join; intros w Hw; now apply Hi|].
      eapply steps_one; [apply s_main_sync_workers; intros w Hw; now apply Hi|].
      eapply steps_one; [apply s_device_main|]. eapply steps_one; [apply s_main_sync|].
      eapply steps_one; [apply s_main_enq|]. cbn [app].
      eapply steps_one; [apply s_device_main|]. eapply steps_one; [apply s_main_sync|]. apply steps_refl.
    - intros j Hj Hs Hx. cbn [st_mem]. unfold m2. cbn [Model_Cuda.exec m_recon]. rewrite update_kernel_at by apply NoDup_zrange.
      destruct (in_dec Z.eq_dec j (zrange 0 (dy * nx * ny))) as [H|H]; [|exfalso; apply H; apply in_zrange; lia].
      replace ((sum_dist j =? 0) || (dx =? 0))%Z with false by lia.
      unfold m1. cbn [Model_Cuda.exec m_recon m_update]. rewrite Hr. unfold memset.
      now replace ((0 <=? j) && (j <? dy * nx * ny))%Z with true by lia.
  Qed.
End Race.
