(** The CUDA solvers come to an end; the lock of the NPP stream. *)
From Coq Require Import Reals.
From Verif Require Import Base CLoop Model_Accel Model_Cuda Proofs_Cuda Proofs_CudaRun.
Local Open Scope nat_scope.

Definition nsum {A} (f : A -> nat) (l : list A) : nat := list_sum (map f l).
Lemma nsum_cons {A} (f : A -> nat) x l : nsum f (x :: l) = f x + nsum f l. Proof. reflexivity. Qed.
Lemma nsum_app {A} (f : A -> nat) l l' : nsum f (l ++ l') = nsum f l + nsum f l'.
Proof. unfold nsum. now rewrite map_app, list_sum_app. Qed.
Lemma nsum_one (f g : Z -> nat) l w : NoDup l -> In w l -> (forall x, x <> w -> f x = g x) -> nsum f l + g w = nsum g l + f w.
Proof.
  induction l as [|x l IH]; intros Hn Hw H; [easy|]. apply NoDup_cons_iff in Hn as (Hx & Hn). rewrite !nsum_cons.
  destruct Hw as [->|Hw].
  - assert (nsum f l = nsum g l); [|lia]. clear IH Hn. induction l as [|y l IH]; auto. rewrite !nsum_cons. rewrite IH by (intros F; apply Hx; now right).
    rewrite (H y); auto. intros ->. apply Hx. now left.
  - specialize (IH Hn Hw H). rewrite (H x); [lia|]. now intros ->.
Qed.

Section Live.
  Variables dy dt dx nx ny : Z.
  Variable theta : arr R.
  Variable rotate_to : R -> arr R -> arr R -> arr R.
  Variable row : arr R -> Z -> Z -> arr R -> arr R.
  Variable apply : R -> R -> R.
  Variable data : arr R.
  Variable sum_dist : arr Z.
  Variable debug : bool.
  Variable nw : Z.
  Notation step := (step dy dt dx nx ny theta rotate_to row apply data sum_dist debug nw).
  Notation worker := (worker nw).

  Lemma some_or_none {A} (f : Z -> list A) : (exists w x l, worker w /\ f w = x :: l) \/ (forall w, worker w -> f w = []).
  Proof.
    assert (G : forall l, (exists w x t, In w l /\ f w = x :: t) \/ (forall w, In w l -> f w = [])).
    { induction l as [|v l IH]; [now right|]. destruct (f v) as [|x t] eqn:E.
      - destruct IH as [(w & x & t & Hw & Ew)|IH]; [left; exists w, x, t; split; auto; now right|].
        right. intros w [<- |Hw]; auto.
      - left. exists v, x, t. split; auto. now left. }
    destruct (G (zrange 0 nw)) as [(w & x & t & Hw & E)|H].
    - left. apply in_zrange in Hw. now exists w, x, t.
    - right. intros w Hw. apply H. now apply in_zrange.
  Qed.

  Lemma can_step s : (1 <= nw)%Z -> st_main s <> [] -> exists s', step s s'.
  Proof.
    intros Hn Hm. destruct s as [mp q k mq wq m]. cbn in Hm.
    destruct mq as [|o mq]; [|eexists; apply s_device_main].
    destruct (some_or_none wq) as [(w & o & l & Hw & E)|Hq]; [eexists; now apply (s_device_worker dy dt dx nx ny theta rotate_to row apply data sum_dist debug nw w o l)|].
    destruct (some_or_none k) as [(w & a & l & Hw & E)|Hk].
    { destruct a as [|o].
      - eexists. apply (s_work_sync dy dt dx nx ny theta rotate_to row apply data sum_dist debug nw w l); auto.
      - eexists. now apply (s_work_enq dy dt dx nx ny theta rotate_to row apply data sum_dist debug nw w o l). }
    assert (W0 : worker 0) by (unfold Model_Cuda.worker; lia).
    destruct q as [|p q]; [|eexists; now apply (s_take dy dt dx nx ny theta rotate_to row apply data sum_dist debug nw 0%Z p [] q mp k [] wq m W0 (Hk 0%Z W0))].
    destruct mp as [|a mp]; [congruence|]. destruct a; eexists; now constructor.
  Qed.

  Definition wcost (a : waction) : nat := match a with WSync => 1 | WEnq _ => 2 end.
  Definition tcost : nat := 1 + nsum wcost (task_program dy debug 0 0).
  Definition mcost (a : maction) : nat := match a with MFork => 1 + length (zrange 0 dt) * tcost | MEnq _ => 2 | _ => 1 end.
  Definition measure (s : state) : nat :=
    nsum mcost (st_main s) + length (st_pending s) * tcost
    + nsum (fun w => nsum wcost (st_work s w) + length (st_wq s w)) (zrange 0 nw) + length (st_mq s).

  Lemma task_cost w p : nsum wcost (task_program dy debug w p) = nsum wcost (task_program dy debug 0 0).
  Proof.
    unfold task_program. rewrite !nsum_app.
    assert (E : forall o o', nsum wcost (checked debug o) = nsum wcost (checked debug o')) by (intros; now destruct debug).
    rewrite (E (ClearRot w) (ClearRot 0)), (E (ClearTmp w) (ClearTmp 0)). do 3 f_equal.
    induction (zrange 0 dy) as [|s l IH]; [reflexivity|]. cbn [flat_map]. rewrite !nsum_app, IH.
    rewrite (E (Forward w p s) (Forward 0 0 s)), (E (Pixels w p s) (Pixels 0 0 s)), (E (Backward w p s) (Backward 0 0 s)), (E (Sum w p s) (Sum 0 0 s)). lia.
  Qed.

  Lemma step_measure s s' : step s s' -> measure s' < measure s.
  Proof.
    intros Hs. unfold measure.
    destruct Hs as [rest q k wq m|o rest q k mq wq m|rest q k mq wq m Hw|rest k mq wq m|rest k mq wq m Hw|w p q1 q2 mp k mq wq m Hw Hk
        |w rest mp q k mq wq m Hw Hk Hq'|w o rest mp q k mq wq m Hw Hk|o rest mp q k wq m|w o rest mp q k mq wq m Hw Hq'];
      cbn [st_main st_pending st_work st_wq st_mq]; rewrite ?nsum_cons, ?app_length; cbn [mcost length]; try lia.
    - pose proof (nsum_one (fun v => nsum wcost (aset k w (task_program dy debug w p) v) + length (wq v))
        (fun v => nsum wcost (k v) + length (wq v)) (zrange 0 nw) w (NoDup_zrange 0 nw)) as X.
      cbv beta in X. rewrite aset_eq, Hk, task_cost in X. change (nsum wcost []) with 0 in X.
      specialize (X ltac:(now apply in_zrange) ltac:(intros v Hv; now rewrite aset_ne)). unfold tcost. nia.
    - pose proof (nsum_one (fun v => nsum wcost (aset k w rest v) + length (wq v))
        (fun v => nsum wcost (k v) + length (wq v)) (zrange 0 nw) w (NoDup_zrange 0 nw)) as X.
      cbv beta in X. rewrite aset_eq, Hk, nsum_cons in X. cbn [wcost] in X.
      specialize (X ltac:(now apply in_zrange) ltac:(intros v Hv; now rewrite aset_ne)). lia.
    - pose proof (nsum_one (fun v => nsum wcost (aset k w rest v) + length (aset wq w (wq w ++ [o]) v))
        (fun v => nsum wcost (k v) + length (wq v)) (zrange 0 nw) w (NoDup_zrange 0 nw)) as X.
      cbv beta in X. rewrite !aset_eq, Hk, nsum_cons, app_length in X. cbn [wcost length] in X.
      specialize (X ltac:(now apply in_zrange) ltac:(intros v Hv; now rewrite !aset_ne)). lia.
    - pose proof (nsum_one (fun v => nsum wcost (k v) + length (aset wq w rest v))
        (fun v => nsum wcost (k v) + length (wq v)) (zrange 0 nw) w (NoDup_zrange 0 nw)) as X.
      cbv beta in X. rewrite !aset_eq, Hq' in X. cbn [length] in X.
      specialize (X ltac:(now apply in_zrange) ltac:(intros v Hv; now rewrite !aset_ne)). lia.
  Qed.
End Live.

(** ** The lock *)
Section Lock.
  Variable stream : Z -> Z.
  Variables n c0 : Z.
  Notation reach := (lock_reach stream n c0).
  Definition thread (t : Z) : Prop := (0 <= t < n)%Z.
  Definition holds (p : pc) : bool := match p with SetStream | Check true | Rotate true | Release => true | _ => false end.
  Definition counts (p : pc) : nat := match p with SetStream | Check true | Rotate true | Release | Dec => 1 | _ => 0 end.

  Record lock_inv (s : lock_state) : Prop := {
    li_sync : k_sync s = Z.of_nat (nsum (fun t => counts (k_pc s t)) (zrange 0 n));
    li_one : forall t u, thread t -> thread u -> holds (k_pc s t) = true -> holds (k_pc s u) = true -> t = u;
    li_cur : forall t, thread t -> (k_pc s t = Check true \/ k_pc s t = Rotate true) -> k_stream s = stream t }.

  Lemma inv_start : lock_inv (lock_start c0).
  Proof.
    split; cbn.
    - unfold nsum. induction (zrange 0 n); auto.
    - discriminate.
    - intros t _ [H|H]; discriminate.
  Qed.

  Lemma counts_upd f t p : thread t -> nsum (fun u => counts (aset f t p u)) (zrange 0 n) + counts (f t) = nsum (fun u => counts (f u)) (zrange 0 n) + counts p.
  Proof.
    intros Ht. pose proof (nsum_one (fun u => counts (aset f t p u)) (fun u => counts (f u)) (zrange 0 n) t (NoDup_zrange 0 n)) as X.
    cbv beta in X. rewrite aset_eq in X. apply X; [now apply in_zrange|]. intros u Hu. now rewrite aset_ne.
  Qed.
  Lemma counts_in f t : thread t -> counts (f t) <= nsum (fun u => counts (f u)) (zrange 0 n).
  Proof.
    intros Ht. apply in_zrange in Ht. revert Ht. generalize (zrange 0 n). induction l as [|x l IH]; intros H; [easy|].
    rewrite nsum_cons. destruct H as [->|H]; [lia|]. specialize (IH H). lia.
  Qed.
  Lemma holds_counts p : holds p = true -> counts p = 1. Proof. destruct p as [| | | | | |[]|[]| |]; cbn; congruence. Qed.

  (** a step that neither takes the lock nor changes the stream *)
  Lemma quiet s t p y r : lock_inv s -> thread t ->
    (k_sync s + Z.of_nat (counts p) = y + Z.of_nat (counts (k_pc s t)))%Z ->
    (holds p = true -> holds (k_pc s t) = true) ->
    (p = Check true \/ p = Rotate true -> k_stream s = stream t) ->
    lock_inv {| k_stream := k_stream s; k_sync := y; k_pc := aset (k_pc s) t p; k_rotated := r |}.
  Proof.
    intros [I1 I2 I3] Ht Hy Hh Hc. split; cbn [k_stream k_sync k_pc].
    - pose proof (counts_upd (k_pc s) t p Ht). lia.
    - intros a b Ha Hb. destruct (Z.eq_dec a t) as [->|Ea], (Z.eq_dec b t) as [->|Eb]; rewrite ?aset_eq, ?aset_ne by auto; auto.
    - intros a Ha. destruct (Z.eq_dec a t) as [->|Ea]; rewrite ?aset_eq, ?aset_ne by auto; auto.
  Qed.

  Lemma inv_step s s' t : lock_inv s -> thread t -> lock_step stream t s s' -> lock_inv s'.
  Proof.
    intros I Ht Hs.
    destruct Hs as [c y f r H|c y f r H Hc|c y f r H Hc|c y f r H Hy|c y f r H Hy|c y f r H|c y f r H|c y f r H|c y f r b H Hc|c y f r b H Hc|c y f r b H|c y f r H].
    - apply (quiet _ t TestStream y r I Ht); cbn [k_pc k_sync]; rewrite ?H; cbn; try lia; try congruence; try (intros [F|F]; discriminate).
    - apply (quiet _ t Inc y r I Ht); cbn [k_pc k_sync]; rewrite ?H; cbn; try lia; try congruence; try (intros [F|F]; discriminate).
    - apply (quiet _ t TestSync y r I Ht); cbn [k_pc k_sync]; rewrite ?H; cbn; try lia; try congruence; try (intros [F|F]; discriminate).
    - apply (quiet _ t Inc y r I Ht); cbn [k_pc k_sync]; rewrite ?H; cbn; try lia; try congruence; try (intros [F|F]; discriminate).
    - apply (quiet _ t (Check false) y r I Ht); cbn [k_pc k_sync]; rewrite ?H; cbn; try lia; try congruence; try (intros [F|F]; discriminate).
    - destruct I as [I1 I2 I3]. cbn [k_stream k_sync k_pc] in *.
      assert (L : (y + 1 =? 1)%Z = true -> forall u, thread u -> holds (f u) = false).
      { intros E u Hu. destruct (holds (f u)) eqn:F; auto. apply holds_counts in F. pose proof (counts_in f u Hu). lia. }
      split; cbn [k_stream k_sync k_pc].
      + pose proof (counts_upd f t (if (y + 1 =? 1)%Z then SetStream else Dec) Ht) as X. rewrite H in X. cbn [counts] in X.
        destruct (y + 1 =? 1)%Z; cbn [counts] in X; lia.
      + intros a b Ha Hb. destruct (y + 1 =? 1)%Z eqn:E.
        * destruct (Z.eq_dec a t) as [->|Ea], (Z.eq_dec b t) as [->|Eb]; rewrite ?aset_eq, ?aset_ne by auto; auto; rewrite ?L by auto; congruence.
        * destruct (Z.eq_dec a t) as [->|Ea], (Z.eq_dec b t) as [->|Eb]; rewrite ?aset_eq, ?aset_ne by auto; cbn [holds]; auto; congruence.
      + intros a Ha. destruct (Z.eq_dec a t) as [->|Ea]; rewrite ?aset_eq, ?aset_ne by auto; auto.
        destruct (y + 1 =? 1)%Z; intros [F|F]; discriminate.
    - apply (quiet _ t TestStream (y - 1)%Z r I Ht); cbn [k_pc k_sync]; rewrite ?H; cbn; try lia; try congruence; try (intros [F|F]; discriminate).
    - destruct I as [I1 I2 I3]. cbn [k_stream k_sync k_pc] in *. split; cbn [k_stream k_sync k_pc].
      + pose proof (counts_upd f t (Check true) Ht) as X. rewrite H in X. cbn [counts] in X. lia.
      + intros a b Ha Hb. destruct (Z.eq_dec a t) as [->|Ea], (Z.eq_dec b t) as [->|Eb]; rewrite ?aset_eq, ?aset_ne by auto; auto.
        * intros _ F. apply I2; auto. now rewrite H.
        * intros F _. apply I2; auto. now rewrite H.
      + intros a Ha. destruct (Z.eq_dec a t) as [->|Ea]; rewrite ?aset_eq, ?aset_ne by auto; auto.
        intros F. exfalso. apply Ea. apply I2; auto; [destruct F as [-> | ->]; reflexivity|now rewrite H].
    - destruct b.
      + exfalso. apply Hc. destruct I as [_ _ I3]. apply I3; auto.
      + apply (quiet _ t Thrown y r I Ht); cbn [k_pc k_sync]; rewrite ?H; cbn; try lia; try congruence; try (intros [F|F]; discriminate).
    - destruct b; apply (quiet _ t (Rotate _) y r I Ht); cbn [k_pc k_sync k_stream]; rewrite ?H; cbn; try lia; try congruence.
    - destruct b; [apply (quiet _ t Release y _ I Ht)|apply (quiet _ t Idle y _ I Ht)]; cbn [k_pc k_sync k_stream]; rewrite ?H; cbn; try lia; try congruence; try (intros [F|F]; discriminate).
    - apply (quiet _ t Idle (y - 1)%Z r I Ht); cbn [k_pc k_sync]; rewrite ?H; cbn; try lia; try congruence; try (intros [F|F]; discriminate).
  Qed.

  Lemma reach_inv s : reach s -> lock_inv s.
  Proof. induction 1 as [|t s s' _ IH Ht Hs]; [apply inv_start|]. now apply (inv_step s s' t). Qed.
End Lock.
