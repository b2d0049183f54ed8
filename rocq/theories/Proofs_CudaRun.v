(** Executions of the CUDA solvers. *)
From Coq Require Import Reals Lra.
From Verif Require Import Base CLoop Model_Accel Model_Cuda Proofs_Accel Proofs_AccelRun Spec_Accel Proofs_Cuda.
Local Open Scope R_scope.

Definition lsum {A} (f : A -> R) (l : list A) : R := fold_right Rplus 0 (map f l).
Lemma lsum_cons {A} (f : A -> R) x l : lsum f (x :: l) = f x + lsum f l. Proof. reflexivity. Qed.
Lemma lsum_app {A} (f : A -> R) l l' : lsum f (l ++ l') = lsum f l + lsum f l'.
Proof. induction l as [|x l IH]; cbn [app]; [unfold lsum; cbn; ring|]. rewrite !lsum_cons, IH. ring. Qed.
Lemma lsum_ext {A} (f g : A -> R) l : (forall x, In x l -> f x = g x) -> lsum f l = lsum g l.
Proof. induction l as [|x l IH]; intros H; auto. rewrite !lsum_cons, H by now left. rewrite IH; auto. intros; apply H; now right. Qed.
Lemma lsum_zero {A} (f : A -> R) l : (forall x, In x l -> f x = 0) -> lsum f l = 0.
Proof. induction l as [|x l IH]; intros H; auto. rewrite lsum_cons, H by now left. rewrite IH; [ring|]. intros; apply H; now right. Qed.
(** sums that differ in one place *)
Lemma lsum_one (f g : Z -> R) l w : NoDup l -> In w l -> (forall x, x <> w -> f x = g x) -> lsum f l = lsum g l + (f w - g w).
Proof.
  induction l as [|x l IH]; intros Hn Hw H; [easy|]. apply NoDup_cons_iff in Hn as (Hx & Hn). rewrite !lsum_cons.
  destruct Hw as [->|Hw].
  - rewrite (lsum_ext f g l); [ring|]. intros y Hy. apply H. now intros ->.
  - rewrite (IH Hn Hw H). rewrite (H x); [ring|]. now intros ->.
Qed.
Lemma lsum_upd (f g : Z -> R) n w : (0 <= w < n)%Z -> (forall x, x <> w -> f x = g x) -> lsum f (zrange 0 n) = lsum g (zrange 0 n) + (f w - g w).
Proof. intros Hw H. apply lsum_one; auto; [apply NoDup_zrange|now apply in_zrange]. Qed.

Section Run.
  Variables dy dt dx nx ny : Z.
  Variable theta : arr R.
  Variable covers : R -> Z -> bool.
  Variable value : R -> arr R -> Z -> R.
  Variable row : arr R -> Z -> Z -> arr R -> arr R.
  Variable apply : R -> R -> R.
  Variable data : arr R.
  Variable sum_dist : arr Z.
  Notation N := (nx * ny)%Z.
  Notation rotate_to := (npp nx ny covers value).
  Hypothesis Hdy : (0 <= dy)%Z.
  Hypothesis Hdx : (0 <= dx)%Z.
  Hypothesis Hnx : (0 < nx)%Z.
  Hypothesis Hny : (0 < ny)%Z.
  Hypothesis Hle : (dx <= ny)%Z.
  Hypothesis Hvalue : forall t a b k, same_on N a b -> (0 <= k < N)%Z -> covers t k = true -> value t a k = value t b k.
  Hypothesis row_out : forall m p d a k, (k / nx)%Z <> d -> row m p d a k = a k.
  Hypothesis row_in : forall m p d a b k, (k / nx)%Z = d -> (forall j, (j / nx)%Z = d -> a j = b j) -> row m p d a k = row m p d b k.

  Notation exec := (exec dy dt dx nx ny theta rotate_to row apply data sum_dist).
  Definition zero_img : arr R := fun _ => 0.
  Definition rays (p s : Z) : arr R -> arr R := pixels_kernel (row (ptr (s * dt * dx) data) p) (zrange 0 dx).
  (** what projection p contributes to cell j of slice s *)
  Definition contrib (r : arr R) (p s j : Z) : R :=
    rotate_to (theta_p theta p) (rays p s (rotate_to (- theta_p theta p) (ptr (s * nx * ny) r) zero_img)) zero_img j.
  Definition part (r : arr R) (k p : Z) : R := contrib r p (k / N) (k mod N).
  Definition whole (r : arr R) (k : Z) : R := lsum (part r k) (zrange 0 dt).

  Lemma npp_ext t a b c e k : same_on N a b -> ((0 <= k < N)%Z -> c k = e k) -> (0 <= k < N)%Z -> rotate_to t a c k = rotate_to t b e k.
  Proof.
    intros Ha Hc Hk. unfold npp. replace ((0 <=? k) && (k <? N))%Z with true by lia. cbn [andb].
    destruct (covers t k) eqn:E; auto.
  Qed.
  Lemma npp_out t a c k : ~ (0 <= k < N)%Z -> rotate_to t a c k = c k.
  Proof. intros Hk. unfold npp. replace ((0 <=? k) && (k <? N))%Z with false by lia. reflexivity. Qed.

  Lemma row_range k : (0 <= k < N)%Z <-> (0 <= k / nx < ny)%Z.
  Proof.
    pose proof (Z.div_mod k nx ltac:(lia)). pose proof (Z.mod_pos_bound k nx Hnx). split; intros; nia.
  Qed.
  Lemma rays_ext p s a b : same_on N a b -> same_on N (rays p s a) (rays p s b).
  Proof.
    intros H k Hk. unfold rays. rewrite !(rows_at nx) by (auto using NoDup_zrange).
    destruct (in_dec Z.eq_dec (k / nx)%Z (zrange 0 dx)) as [Hi|Hi]; auto.
    apply row_in; auto. intros j Hj. apply H. apply row_range. rewrite Hj. now apply row_range.
  Qed.
  Lemma rays_out p s a k : ~ (0 <= k < N)%Z -> rays p s a k = a k.
  Proof.
    intros Hk. unfold rays. rewrite (rows_at nx) by (auto using NoDup_zrange).
    destruct (in_dec Z.eq_dec (k / nx)%Z (zrange 0 dx)) as [Hi|Hi]; auto. exfalso. apply Hk. apply in_zrange in Hi. apply row_range. lia.
  Qed.

  Lemma contrib_ext r r' p s j : (0 <= s < dy)%Z -> (0 <= j < N)%Z -> same_on (dy * N) r r' -> contrib r p s j = contrib r' p s j.
  Proof.
    intros Hs Hj H. unfold contrib. apply npp_ext; auto. apply rays_ext. intros k Hk. apply npp_ext; auto.
    intros i Hi. unfold ptr. apply H. nia.
  Qed.
  Lemma cell_parts k : (0 <= k < dy * N)%Z -> (0 <= k / N < dy)%Z /\ (0 <= k mod N < N)%Z /\ k = (k / N * N + k mod N)%Z.
  Proof.
    intros Hk. assert (HN : (0 < N)%Z) by nia. repeat split.
    - apply Z.div_pos; lia.
    - apply Z.div_lt_upper_bound; nia.
    - apply Z.mod_pos_bound; lia.
    - apply Z.mod_pos_bound; lia.
    - pose proof (Z.div_mod k N). lia.
  Qed.
  Lemma whole_ext r r' k : (0 <= k < dy * N)%Z -> same_on (dy * N) r r' -> whole r k = whole r' k.
  Proof.
    intros Hk H. destruct (cell_parts k Hk) as (H1 & H2 & _). unfold whole. apply lsum_ext. intros p _. now apply contrib_ext.
  Qed.

  (** ** What the operations of a worker will add *)
  Definition owned (w : Z) (o : op) : Prop :=
    match o with
    | Reset | Update => False
    | ClearRot v | ClearTmp v => v = w
    | Forward v _ s | Pixels v _ s | Backward v _ s | Sum v _ s => v = w
    end.
  Fixpoint yield (r : arr R) (ops : list op) (rot tmp : arr R) (k : Z) : R :=
    match ops with
    | [] => 0
    | Reset :: ops | Update :: ops => yield r ops rot tmp k
    | ClearRot _ :: ops => yield r ops (memset 0 (dy * nx * ny) rot) tmp k
    | ClearTmp _ :: ops => yield r ops rot (memset 0 (dy * nx * ny) tmp) k
    | Forward _ p s :: ops => yield r ops (at_ptr (s * nx * ny) (rotate_to (- theta_p theta p) (ptr (s * nx * ny) r)) rot) tmp k
    | Pixels _ p s :: ops => yield r ops (at_ptr (s * nx * ny) (rays p s) rot) tmp k
    | Backward _ p s :: ops => yield r ops rot (at_ptr (s * nx * ny) (rotate_to (theta_p theta p) (ptr (s * nx * ny) rot)) tmp) k
    | Sum _ p s :: ops => (if ((0 <=? k - s * nx * ny) && (k - s * nx * ny <? N))%Z then tmp k else 0) + yield r ops rot tmp k
    end.

  Lemma yield_app r a b rot tmp k (c : R) : (forall rot tmp, yield r b rot tmp k = c) -> yield r (a ++ b) rot tmp k = yield r a rot tmp k + c.
  Proof.
    intros Hb. revert rot tmp. induction a as [|o a IH]; intros rot tmp; cbn [app yield]; [rewrite Hb; ring|].
    destruct o; rewrite IH; ring.
  Qed.

  (** a worker's operation, executed *)
  Definition others (w : Z) (m m' : mem) : Prop := m_recon m' = m_recon m /\ (forall v, v <> w -> m_rot m' v = m_rot m v /\ m_tmp m' v = m_tmp m v).
  Lemma exec_owned w o m ops k : owned w o ->
    others w m (exec o m) /\
    m_update (exec o m) k + yield (m_recon m) ops (m_rot (exec o m) w) (m_tmp (exec o m) w) k =
    m_update m k + yield (m_recon m) (o :: ops) (m_rot m w) (m_tmp m w) k.
  Proof.
    intros Ho. unfold others. destruct o as [| |v|v|v p s|v p s|v p s|v p s]; cbn [owned] in Ho; try contradiction; subst v;
      cbn [Model_Cuda.exec m_recon m_update m_rot m_tmp yield]; (split; [split; auto; intros v Hv; split; auto; now apply aset_ne|]);
      rewrite ?aset_eq; try ring; try reflexivity.
    unfold at_ptr. rewrite atomic_adds_at, added_kernel by apply NoDup_zrange. unfold ptr.
    replace (s * nx * ny + (k - s * nx * ny))%Z with k by ring.
    destruct (in_dec Z.eq_dec (k - s * nx * ny)%Z (zrange 0 N)) as [Hi|Hi]; rewrite in_zrange in Hi.
    - replace ((0 <=? k - s * nx * ny) && (k - s * nx * ny <? N))%Z with true by lia. ring.
    - replace ((0 <=? k - s * nx * ny) && (k - s * nx * ny <? N))%Z with false by lia. ring.
  Qed.

  (** ** The operations of a task *)
  Definition ops_of (prog : list waction) : list op := flat_map (fun a => match a with WSync => [] | WEnq o => [o] end) prog.
  Definition slice_ops (w p s : Z) : list op := [Forward w p s; Pixels w p s; Backward w p s; Sum w p s].
  Lemma ops_of_app a b : ops_of (a ++ b) = ops_of a ++ ops_of b. Proof. apply flat_map_app. Qed.
  Lemma ops_checked debug o : ops_of (checked debug o) = [o]. Proof. now destruct debug. Qed.
  Lemma task_ops debug w p : ops_of (task_program dy debug w p) = ClearRot w :: ClearTmp w :: flat_map (slice_ops w p) (zrange 0 dy).
  Proof.
    unfold task_program. rewrite !ops_of_app, !ops_checked. cbn [ops_of flat_map app]. do 2 f_equal.
    induction (zrange 0 dy) as [|s l IH]; [reflexivity|]. cbn [flat_map]. rewrite ops_of_app, IH, !ops_of_app, !ops_checked. reflexivity.
  Qed.
  Lemma task_owned debug w p : Forall (owned w) (ops_of (task_program dy debug w p)).
  Proof.
    rewrite task_ops. repeat constructor. apply Forall_forall. intros o Ho. apply in_flat_map in Ho as (s & _ & Ho).
    destruct Ho as [<- |[<- |[<- |[<- |[]]]]]; reflexivity.
  Qed.

  Lemma slices_yield r w p k n a rot tmp : (Z.of_nat n = dy - a)%Z -> (0 <= a)%Z -> (0 <= k < dy * N)%Z ->
    (forall j, (a * N <= j < dy * N)%Z -> rot j = 0 /\ tmp j = 0) ->
    yield r (flat_map (slice_ops w p) (zrange a dy)) rot tmp k = if (a <=? k / N)%Z then part r k p else 0.
  Proof.
    revert a rot tmp. induction n as [|n IH]; intros a rot tmp Hn Ha Hk H0.
    - rewrite zrange_nil by lia. cbn [flat_map yield]. destruct (cell_parts k Hk) as (H1 & _). now replace (a <=? k / N)%Z with false by lia.
    - rewrite zrange_cons by lia. cbn [flat_map slice_ops app yield].
      assert (HN : (0 < N)%Z) by nia.
      assert (Eo : (a * nx * ny = a * N)%Z) by ring. rewrite Eo.
      set (rot1 := at_ptr (a * N) (rotate_to (- theta_p theta p) (ptr (a * N) r)) rot).
      set (rot2 := at_ptr (a * N) (rays p a) rot1).
      set (tmp1 := at_ptr (a * N) (rotate_to (theta_p theta p) (ptr (a * N) rot2)) tmp).
      assert (Hfar : forall j, ((a + 1) * N <= j < dy * N)%Z -> rot2 j = 0 /\ tmp1 j = 0).
      { intros j Hj. assert (~ (0 <= j - a * N < N)%Z) by nia.
        destruct (H0 j) as (E1 & E2); [nia|]. split.
        - unfold rot2, at_ptr. rewrite rays_out by auto. unfold rot1, at_ptr.
          replace (a * N + (j - a * N) - a * N)%Z with (j - a * N)%Z by ring. rewrite npp_out by auto.
          replace (a * N + (j - a * N))%Z with j by ring. exact E1.
        - unfold tmp1, at_ptr. rewrite npp_out by auto. replace (a * N + (j - a * N))%Z with j by ring. exact E2. }
      rewrite (IH (a + 1)%Z rot2 tmp1); auto; try lia.
      destruct (cell_parts k Hk) as (H1 & H2 & E).
      destruct (Z.eq_dec (k / N) a) as [Ea|Ea].
      + replace ((0 <=? k - a * N) && (k - a * N <? N))%Z with true by (symmetry; nia).
        replace (a + 1 <=? k / N)%Z with false by lia. replace (a <=? k / N)%Z with true by lia. rewrite Rplus_0_r.
        unfold tmp1, at_ptr, part, contrib. rewrite Ea, Eo. replace (k - a * N)%Z with (k mod N)%Z by nia.
        apply npp_ext; auto.
        * intros j Hj. unfold ptr at 1, rot2, at_ptr. replace (a * N + j - a * N)%Z with j by ring.
          apply rays_ext; auto. intros i Hi. unfold rot1, at_ptr. replace (a * N + i - a * N)%Z with i by ring.
          apply npp_ext; auto; [now intros ? ?|]. intros _. unfold zero_img. apply H0. nia.
        * intros _. unfold zero_img. apply H0. nia.
      + replace ((0 <=? k - a * N) && (k - a * N <? N))%Z with false.
        2: { symmetry. apply andb_false_iff. assert (k / N < a \/ a < k / N)%Z as [F|F] by lia; [left|right]; nia. }
        destruct (a <=? k / N)%Z eqn:E3.
        * replace (a + 1 <=? k / N)%Z with true by lia. ring.
        * replace (a + 1 <=? k / N)%Z with false by lia. ring.
  Qed.

  Lemma task_yield debug r w p k rot tmp : (0 <= k < dy * N)%Z -> yield r (ops_of (task_program dy debug w p)) rot tmp k = part r k p.
  Proof.
    intros Hk. rewrite task_ops. cbn [yield]. destruct (cell_parts k Hk) as (H1 & _).
    rewrite (slices_yield r w p k (Z.to_nat dy) 0); auto; try lia.
    - now replace (0 <=? k / N)%Z with true by lia.
    - intros j Hj. unfold memset. replace (dy * nx * ny)%Z with (dy * N)%Z by ring.
      now replace ((0 <=? j) && (j <? dy * N))%Z with true by lia.
  Qed.

  (** ** Executions *)
  Variable nw : Z.
  Variable debug : bool.
  Notation worker := (worker nw).
  Notation step := (step dy dt dx nx ny theta rotate_to row apply data sum_dist debug nw).
  Notation iter_program := (iter_program debug).
  Notation main_program := (main_program debug).

  Definition next (r : arr R) : arr R := fun k =>
    if ((0 <=? k) && (k <? dy * N))%Z
    then if ((sum_dist k =? 0) || (dx =? 0))%Z then r k else apply (r k) (whole r k / IZR (sum_dist k) / IZR dx)
    else r k.
  Lemma next_ext r r' : (forall k, r k = r' k) -> forall k, next r k = next r' k.
  Proof.
    intros H k. unfold next. destruct ((0 <=? k) && (k <? dy * N))%Z eqn:E; auto. rewrite H.
    destruct ((sum_dist k =? 0) || (dx =? 0))%Z; auto. rewrite (whole_ext r r'); auto; [lia|]. now intros ? _.
  Qed.

  Definition active (s : state) : Prop :=
    (forall w, worker w -> Forall (owned w) (st_wq s w ++ ops_of (st_work s w))) /\
    forall k, (0 <= k < dy * N)%Z ->
      m_update (st_mem s) k
      + lsum (fun w => yield (m_recon (st_mem s)) (st_wq s w ++ ops_of (st_work s w)) (m_rot (st_mem s) w) (m_tmp (st_mem s) w) k) (zrange 0 nw)
      + lsum (part (m_recon (st_mem s)) k) (st_pending s) = whole (m_recon (st_mem s)) k.
  Definition idle (s : state) : Prop := st_pending s = [] /\ (forall w, worker w -> st_work s w = [] /\ st_wq s w = []).
  Definition recon_is (r : arr R) (m : mem) : Prop := forall k, m_recon m k = r k.
  Definition update_zero (m : mem) : Prop := forall k, (0 <= k < dy * N)%Z -> m_update m k = 0.
  Definition update_whole (m : mem) : Prop := forall k, (0 <= k < dy * N)%Z -> m_update m k = whole (m_recon m) k.

  Variable r0 : arr R.
  Definition iter (j : nat) : arr R := Nat.iter j next r0.

  (** The main stream holds nothing or, without the checks of a debug build, the reset; the memory once it is done. *)
  Definition settled (s : state) : Prop := st_mq s = [] \/ debug = false /\ st_mq s = [Reset].
  Definition after (s : state) : mem := fold_left (fun m o => exec o m) (st_mq s) (st_mem s).
  Definition with_mem (s : state) (m : mem) : state :=
    {| st_main := st_main s; st_pending := st_pending s; st_work := st_work s; st_mq := st_mq s; st_wq := st_wq s; st_mem := m |}.

  Inductive phase : nat -> nat -> state -> Prop :=      (* iterations to come, iterations done *)
  | ph_start n j s : st_main s = main_program n -> idle s -> (st_mq s = [] \/ st_mq s = [Update]) -> recon_is (iter j) (after s) -> phase n j s
  | ph_reset n j s : st_main s = tl iter_program ++ main_program n -> idle s -> st_mq s = [] -> recon_is (iter j) (st_mem s) -> phase (S n) j s
  | ph_check n j s : debug = true -> st_main s = MSync :: MSyncW :: MFork :: MJoin :: MSyncW :: MSync :: MEnq Update :: main_program n -> idle s ->
      (st_mq s = [Reset] \/ st_mq s = []) -> update_zero (after s) -> recon_is (iter j) (after s) -> phase (S n) j s
  | ph_syncw n j s : st_main s = MSyncW :: MFork :: MJoin :: MSyncW :: MSync :: MEnq Update :: main_program n -> idle s ->
      settled s -> update_zero (after s) -> recon_is (iter j) (after s) -> phase (S n) j s
  | ph_fork n j s : st_main s = MFork :: MJoin :: MSyncW :: MSync :: MEnq Update :: main_program n -> idle s ->
      settled s -> update_zero (after s) -> recon_is (iter j) (after s) -> phase (S n) j s
  | ph_join n j s : st_main s = MJoin :: MSyncW :: MSync :: MEnq Update :: main_program n -> active (with_mem s (after s)) ->
      settled s -> recon_is (iter j) (after s) -> phase (S n) j s
  | ph_syncw' n j s : st_main s = MSyncW :: MSync :: MEnq Update :: main_program n -> active (with_mem s (after s)) ->
      st_pending s = [] -> (forall w, worker w -> st_work s w = []) -> settled s -> recon_is (iter j) (after s) -> phase (S n) j s
  | ph_sync' n j s : st_main s = MSync :: MEnq Update :: main_program n -> idle s ->
      settled s -> update_whole (after s) -> recon_is (iter j) (after s) -> phase (S n) j s
  | ph_update n j s : st_main s = MEnq Update :: main_program n -> idle s ->
      st_mq s = [] -> update_whole (st_mem s) -> recon_is (iter j) (st_mem s) -> phase (S n) j s
  | ph_end j s : st_main s = [] -> idle s -> st_mq s = [] -> recon_is (iter j) (st_mem s) -> phase O j s.

  Lemma zero_after_reset m : update_zero (exec Reset m).
  Proof.
    intros k Hk. cbn [Model_Cuda.exec m_update]. unfold memset. replace (dy * nx * ny)%Z with (dy * N)%Z by ring.
    now replace ((0 <=? k) && (k <? dy * N))%Z with true by lia.
  Qed.
  Lemma recon_after_update j m : update_whole m -> recon_is (iter j) m -> recon_is (iter (S j)) (exec Update m).
  Proof.
    intros Hu Hr k. cbn [Model_Cuda.exec m_recon]. rewrite update_kernel_at by apply NoDup_zrange.
    change (iter (S j)) with (next (iter j)). rewrite <- (next_ext _ _ Hr k). unfold next.
    replace (dy * nx * ny)%Z with (dy * N)%Z by ring.
    destruct (in_dec Z.eq_dec k (zrange 0 (dy * N)%Z)) as [Hi|Hi]; rewrite in_zrange in Hi.
    - replace ((0 <=? k) && (k <? dy * N))%Z with true by lia. now rewrite Hu.
    - now replace ((0 <=? k) && (k <? dy * N))%Z with false by lia.
  Qed.

  Lemma active_start s : idle s -> update_zero (st_mem s) ->
    active {| st_main := st_main s; st_pending := zrange 0 dt; st_work := st_work s; st_mq := st_mq s; st_wq := st_wq s; st_mem := st_mem s |}.
  Proof.
    intros (_ & Hi) Hz. split; cbn [st_wq st_work st_mem st_pending].
    - intros w Hw. destruct (Hi w Hw) as (-> & ->). constructor.
    - intros k Hk. rewrite (Hz k Hk). rewrite lsum_zero; [unfold whole; ring|].
      intros w Hw. apply in_zrange in Hw. destruct (Hi w Hw) as (-> & ->). reflexivity.
  Qed.
  Lemma active_end s : active s -> st_pending s = [] -> (forall w, worker w -> st_work s w = []) -> (forall w, worker w -> st_wq s w = []) -> update_whole (st_mem s).
  Proof.
    intros (_ & Ha) Hp Hw Hq k Hk. specialize (Ha k Hk). rewrite Hp in Ha. rewrite <- Ha. rewrite lsum_zero; [unfold lsum; cbn; ring|].
    intros w Hw'. apply in_zrange in Hw'. now rewrite Hw, Hq.
  Qed.

  (** Steps of workers and of the device on their streams keep [active]. *)
  Lemma active_take s w p q1 q2 main' : worker w -> st_work s w = [] -> st_pending s = q1 ++ p :: q2 -> active s ->
    active {| st_main := main'; st_pending := q1 ++ q2; st_work := aset (st_work s) w (task_program dy debug w p); st_mq := st_mq s; st_wq := st_wq s; st_mem := st_mem s |}.
  Proof.
    intros Hw Hk Hp (Ho & Ha). split; cbn [st_wq st_work st_mem st_pending].
    - intros v Hv. destruct (Z.eq_dec v w) as [->|E].
      + rewrite aset_eq. specialize (Ho w Hv). rewrite Hk in Ho. cbn in Ho. rewrite app_nil_r in Ho. apply Forall_app. split; auto. apply task_owned.
      + rewrite aset_ne by auto. now apply Ho.
    - intros k Hk'. specialize (Ha k Hk'). rewrite Hp in Ha. rewrite lsum_app, lsum_cons in Ha. rewrite lsum_app, <- Ha.
      rewrite (lsum_upd _ (fun v => yield (m_recon (st_mem s)) (st_wq s v ++ ops_of (st_work s v)) (m_rot (st_mem s) v) (m_tmp (st_mem s) v) k) nw w); auto.
      + cbv beta. rewrite aset_eq, Hk. rewrite (yield_app _ _ _ _ _ _ (part (m_recon (st_mem s)) k p)) by (intros; now apply task_yield).
        change (ops_of []) with (@nil op). rewrite app_nil_r. ring.
      + intros v Hv. now rewrite aset_ne.
  Qed.
  Lemma active_sync s w rest : worker w -> st_work s w = WSync :: rest -> active s ->
    active {| st_main := st_main s; st_pending := st_pending s; st_work := aset (st_work s) w rest; st_mq := st_mq s; st_wq := st_wq s; st_mem := st_mem s |}.
  Proof.
    intros Hw Hk (Ho & Ha). assert (E : forall v, ops_of (aset (st_work s) w rest v) = ops_of (st_work s v)).
    { intros v. destruct (Z.eq_dec v w) as [->|E]; [rewrite aset_eq, Hk|rewrite aset_ne by auto]; reflexivity. }
    split; cbn [st_wq st_work st_mem st_pending].
    - intros v Hv. rewrite E. auto.
    - intros k Hk'. rewrite <- (Ha k Hk'). f_equal. f_equal. apply lsum_ext. intros v _. now rewrite E.
  Qed.
  Lemma active_enq s w o rest : worker w -> st_work s w = WEnq o :: rest -> active s ->
    active {| st_main := st_main s; st_pending := st_pending s; st_work := aset (st_work s) w rest; st_mq := st_mq s;
              st_wq := aset (st_wq s) w (st_wq s w ++ [o]); st_mem := st_mem s |}.
  Proof.
    intros Hw Hk (Ho & Ha).
    assert (E : forall v, aset (st_wq s) w (st_wq s w ++ [o]) v ++ ops_of (aset (st_work s) w rest v) = st_wq s v ++ ops_of (st_work s v)).
    { intros v. destruct (Z.eq_dec v w) as [->|E]; [rewrite !aset_eq, Hk|rewrite !aset_ne by auto; reflexivity].
      rewrite <- app_assoc. reflexivity. }
    split; cbn [st_wq st_work st_mem st_pending].
    - intros v Hv. rewrite E. auto.
    - intros k Hk'. rewrite <- (Ha k Hk'). f_equal. f_equal. apply lsum_ext. intros v _. now rewrite E.
  Qed.
  Lemma active_exec s w o rest : worker w -> st_wq s w = o :: rest -> active s ->
    active {| st_main := st_main s; st_pending := st_pending s; st_work := st_work s; st_mq := st_mq s;
              st_wq := aset (st_wq s) w rest; st_mem := exec o (st_mem s) |} /\ m_recon (exec o (st_mem s)) = m_recon (st_mem s).
  Proof.
    intros Hw Hq (Ho & Ha). pose proof (Ho w Hw) as How. rewrite Hq in How. cbn [app] in How. apply Forall_cons_iff in How as (Ho1 & Ho2).
    pose proof (fun k => exec_owned w o (st_mem s) (rest ++ ops_of (st_work s w)) k Ho1) as X.
    destruct (X 0%Z) as ((Hr & Hb) & _). split; auto.
    split; cbn [st_wq st_work st_mem st_pending].
    - intros v Hv. destruct (Z.eq_dec v w) as [->|E]; [now rewrite aset_eq|rewrite aset_ne by auto; auto].
    - intros k Hk. rewrite Hr. rewrite <- (Ha k Hk). destruct (X k) as (_ & X2).
      rewrite (lsum_upd _ (fun v => yield (m_recon (st_mem s)) (st_wq s v ++ ops_of (st_work s v)) (m_rot (st_mem s) v) (m_tmp (st_mem s) v) k) nw w); auto.
      + cbv beta. rewrite aset_eq, Hq. cbn [app]. cbn [app] in X2. lra.
      + intros v Hv. rewrite aset_ne by auto. destruct (Hb v Hv) as (-> & ->). reflexivity.
  Qed.

  Lemma main_head n : main_program n = MSync :: tl (main_program n). Proof. destruct n; reflexivity. Qed.

  (** The device takes an operation of a worker only while the main stream is empty. *)
  Definition orderly (s s' : state) : Prop := forall w, worker w -> (length (st_wq s' w) < length (st_wq s w))%nat -> st_mq s = [].

  Lemma phase_step n j s s' : phase n j s -> step s s' -> (debug = true \/ orderly s s') -> exists n' j', phase n' j' s' /\ (n' + j' = n + j)%nat.
  Proof.
    intros Hp Hs Hor.
    destruct Hp as [n j s Hm Hi Hq Hr|n j s Hm Hi Hq Hr|n j s Hd Hm Hi Hq Hz Hr|n j s Hm Hi Hq Hz Hr|n j s Hm Hi Hq Hz Hr
                   |n j s Hm Ha Hq Hr|n j s Hm Ha Hpe Hw Hq Hr|n j s Hm Hi Hq Hz Hr|n j s Hm Hi Hq Hz Hr|j s Hm Hi Hq Hr].
    - (* start of an iteration *)
      rewrite main_head in Hm.
      destruct Hs as [rest q k wq m|o rest q k mq wq m|rest q k mq wq m Hw|rest k mq wq m|rest k mq wq m Hw|w p q1 q2 mp k mq wq m Hw Hk
        |w rest mp q k mq wq m Hw Hk Hq'|w o rest mp q k mq wq m Hw Hk|o rest mp q k wq m|w o rest mp q k mq wq m Hw Hq'];
        cbn [st_main st_mq st_mem] in *; try discriminate;
        try (destruct Hi as (Hi1 & Hi2); cbn in Hi1, Hi2; destruct (Hi2 w Hw); congruence);
        try (destruct Hi as (Hi1 & _); cbn in Hi1; destruct q1; discriminate).
      + destruct n as [|n].
        * exists O, j. split; auto. apply ph_end; auto. cbn. now inversion Hm.
        * exists (S n), j. split; auto. apply ph_reset; auto. cbn. now inversion Hm.
      + destruct Hq as [F|E]; [discriminate|]. injection E as -> ->. exists n, j. split; auto.
        apply ph_start; auto. cbn. now rewrite Hm, <- main_head.
    - destruct Hs as [rest q k wq m|o rest q k mq wq m|rest q k mq wq m Hw|rest k mq wq m|rest k mq wq m Hw|w p q1 q2 mp k mq wq m Hw Hk
        |w rest mp q k mq wq m Hw Hk Hq'|w o rest mp q k mq wq m Hw Hk|o rest mp q k wq m|w o rest mp q k mq wq m Hw Hq'];
        cbn [st_main st_mq st_mem] in *; try discriminate;
        try (destruct Hi as (Hi1 & Hi2); cbn in Hi1, Hi2; destruct (Hi2 w Hw); congruence);
        try (destruct Hi as (Hi1 & _); cbn in Hi1; destruct q1; discriminate).
      exists (S n), j. split; auto. subst mq. destruct (Bool.bool_dec debug true) as [Ed|Ed]; [|apply Bool.not_true_is_false in Ed].
      + assert (Ep : tl iter_program = MEnq Reset :: MSync :: MSyncW :: MFork :: MJoin :: MSyncW :: MSync :: [MEnq Update]) by (unfold Model_Cuda.iter_program; now rewrite Ed).
        rewrite Ep in Hm. injection Hm as -> ->. apply ph_check; auto. unfold after. cbn. apply zero_after_reset.
      + assert (Ep : tl iter_program = MEnq Reset :: MSyncW :: MFork :: MJoin :: MSyncW :: MSync :: [MEnq Update]) by (unfold Model_Cuda.iter_program; now rewrite Ed).
        rewrite Ep in Hm. injection Hm as -> ->. apply ph_syncw; auto.
        * now right.
        * unfold after. cbn. apply zero_after_reset.
    - destruct Hs as [rest q k wq m|o rest q k mq wq m|rest q k mq wq m Hw|rest k mq wq m|rest k mq wq m Hw|w p q1 q2 mp k mq wq m Hw Hk
        |w rest mp q k mq wq m Hw Hk Hq'|w o rest mp q k mq wq m Hw Hk|o rest mp q k wq m|w o rest mp q k mq wq m Hw Hq'];
        cbn [st_main st_mq st_mem] in *; try discriminate;
        try (destruct Hi as (Hi1 & Hi2); cbn in Hi1, Hi2; destruct (Hi2 w Hw); congruence);
        try (destruct Hi as (Hi1 & _); cbn in Hi1; destruct q1; discriminate).
      + exists (S n), j. split; auto. injection Hm as ->. apply ph_syncw; auto. now left.
      + exists (S n), j. split; auto. destruct Hq as [E|F]; [|discriminate]. injection E as -> ->. apply ph_check; auto.
    - destruct Hs as [rest q k wq m|o rest q k mq wq m|rest q k mq wq m Hw|rest k mq wq m|rest k mq wq m Hw|w p q1 q2 mp k mq wq m Hw Hk
        |w rest mp q k mq wq m Hw Hk Hq'|w o rest mp q k mq wq m Hw Hk|o rest mp q k wq m|w o rest mp q k mq wq m Hw Hq'];
        cbn [st_main st_mq st_mem] in *; try discriminate;
        try (destruct Hi as (Hi1 & Hi2); cbn in Hi1, Hi2; destruct (Hi2 w Hw); congruence);
        try (destruct Hi as (Hi1 & _); cbn in Hi1; destruct q1; discriminate).
      + exists (S n), j. split; auto. injection Hm as ->. apply ph_fork; auto.
      + exists (S n), j. split; auto. destruct Hq as [F|(Hd & E)]; [discriminate|]. cbn in E. injection E as -> ->. apply ph_syncw; auto. now left.
    - destruct Hs as [rest q k wq m|o rest q k mq wq m|rest q k mq wq m Hw|rest k mq wq m|rest k mq wq m Hw|w p q1 q2 mp k mq wq m Hw Hk
        |w rest mp q k mq wq m Hw Hk Hq'|w o rest mp q k mq wq m Hw Hk|o rest mp q k wq m|w o rest mp q k mq wq m Hw Hq'];
        cbn [st_main st_mq st_mem] in *; try discriminate;
        try (destruct Hi as (Hi1 & Hi2); cbn in Hi1, Hi2; destruct (Hi2 w Hw); congruence);
        try (destruct Hi as (Hi1 & _); cbn in Hi1; destruct q1; discriminate).
      + exists (S n), j. split; auto. injection Hm as ->. apply ph_join; auto.
        apply (active_start {| st_main := MJoin :: MSyncW :: MSync :: MEnq Update :: main_program n; st_pending := []; st_work := k; st_mq := mq; st_wq := wq; st_mem := (fold_left (fun m o => exec o m) mq m) |}); auto.
      + exists (S n), j. split; auto. destruct Hq as [F|(Hd & E)]; [discriminate|]. cbn in E. injection E as -> ->. apply ph_fork; auto. now left.
    - (* tasks running *)
      destruct Hs as [rest q k wq m|o rest q k mq wq m|rest q k mq wq m Hw|rest k mq wq m|rest k mq wq m Hw|w p q1 q2 mp k mq wq m Hw Hk
        |w rest mp q k mq wq m Hw Hk Hq'|w o rest mp q k mq wq m Hw Hk|o rest mp q k wq m|w o rest mp q k mq wq m Hw Hq'];
        cbn [st_main st_mq st_mem] in *; try discriminate; exists (S n), j; (split; [|reflexivity]).
      + injection Hm as ->. apply ph_syncw'; auto.
      + apply ph_join; auto. exact (active_take {| st_main := mp; st_pending := q1 ++ p :: q2; st_work := k; st_mq := mq; st_wq := wq; st_mem := (fold_left (fun m o => exec o m) mq m) |} w p q1 q2 mp Hw Hk eq_refl Ha).
      + apply ph_join; auto. exact (active_sync {| st_main := mp; st_pending := q; st_work := k; st_mq := mq; st_wq := wq; st_mem := (fold_left (fun m o => exec o m) mq m) |} w rest Hw Hk Ha).
      + apply ph_join; auto. exact (active_enq {| st_main := mp; st_pending := q; st_work := k; st_mq := mq; st_wq := wq; st_mem := (fold_left (fun m o => exec o m) mq m) |} w o rest Hw Hk Ha).
      + destruct Hq as [F|(Hd & E)]; [discriminate|]. cbn in E. injection E as -> ->. apply ph_join; auto. now left.
      + assert (mq = []) as ->.
        { destruct Hor as [Hd|Hor].
          - destruct Hq as [E|(F & _)]; [exact E|congruence].
          - apply (Hor w Hw). cbn. rewrite aset_eq, Hq'. cbn. lia. }
        destruct (active_exec {| st_main := mp; st_pending := q; st_work := k; st_mq := []; st_wq := wq; st_mem := m |} w o rest Hw Hq' Ha) as (Ha' & Er).
        apply ph_join; auto. unfold after in *. cbn [st_mem st_mq fold_left] in *. intros i. rewrite Er. apply Hr.
    - destruct Hs as [rest q k wq m|o rest q k mq wq m|rest q k mq wq m Hw'|rest k mq wq m|rest k mq wq m Hw'|w p q1 q2 mp k mq wq m Hw' Hk
        |w rest mp q k mq wq m Hw' Hk Hq'|w o rest mp q k mq wq m Hw' Hk|o rest mp q k wq m|w o rest mp q k mq wq m Hw' Hq'];
        cbn [st_main st_mq st_mem st_pending st_work] in *; try discriminate; exists (S n), j; (split; [|reflexivity]);
        try (rewrite (Hw w Hw') in Hk; discriminate).
      + injection Hm as ->. subst q. apply ph_sync'; auto.
        * split; auto.
        * apply (active_end _ Ha); auto.
      + destruct q1; discriminate.
      + destruct Hq as [F|(Hd & E)]; [discriminate|]. cbn in E. injection E as -> ->. apply ph_syncw'; auto. now left.
      + assert (mq = []) as ->.
        { destruct Hor as [Hd|Hor].
          - destruct Hq as [E|(F & _)]; [exact E|congruence].
          - apply (Hor w Hw'). cbn. rewrite aset_eq, Hq'. cbn. lia. }
        destruct (active_exec {| st_main := mp; st_pending := q; st_work := k; st_mq := []; st_wq := wq; st_mem := m |} w o rest Hw' Hq' Ha) as (Ha' & Er).
        apply ph_syncw'; auto. unfold after in *. cbn [st_mem st_mq fold_left] in *. intros i. rewrite Er. apply Hr.
    - destruct Hs as [rest q k wq m|o rest q k mq wq m|rest q k mq wq m Hw|rest k mq wq m|rest k mq wq m Hw|w p q1 q2 mp k mq wq m Hw Hk
        |w rest mp q k mq wq m Hw Hk Hq'|w o rest mp q k mq wq m Hw Hk|o rest mp q k wq m|w o rest mp q k mq wq m Hw Hq'];
        cbn [st_main st_mq st_mem] in *; try discriminate;
        try (destruct Hi as (Hi1 & Hi2); cbn in Hi1, Hi2; destruct (Hi2 w Hw); congruence);
        try (destruct Hi as (Hi1 & _); cbn in Hi1; destruct q1; discriminate).
      + exists (S n), j. split; auto. injection Hm as ->. apply ph_update; auto.
      + exists (S n), j. split; auto. destruct Hq as [F|(Hd & E)]; [discriminate|]. cbn in E. injection E as -> ->. apply ph_sync'; auto. now left.
    - destruct Hs as [rest q k wq m|o rest q k mq wq m|rest q k mq wq m Hw|rest k mq wq m|rest k mq wq m Hw|w p q1 q2 mp k mq wq m Hw Hk
        |w rest mp q k mq wq m Hw Hk Hq'|w o rest mp q k mq wq m Hw Hk|o rest mp q k wq m|w o rest mp q k mq wq m Hw Hq'];
        cbn [st_main st_mq st_mem] in *; try discriminate;
        try (destruct Hi as (Hi1 & Hi2); cbn in Hi1, Hi2; destruct (Hi2 w Hw); congruence);
        try (destruct Hi as (Hi1 & _); cbn in Hi1; destruct q1; discriminate).
      exists n, (S j). split; [|lia]. subst mq. injection Hm as -> ->. apply ph_start; auto. unfold after. cbn [st_mq st_mem app fold_left].
      now apply recon_after_update.
    - destruct Hs as [rest q k wq m|o rest q k mq wq m|rest q k mq wq m Hw|rest k mq wq m|rest k mq wq m Hw|w p q1 q2 mp k mq wq m Hw Hk
        |w rest mp q k mq wq m Hw Hk Hq'|w o rest mp q k mq wq m Hw Hk|o rest mp q k wq m|w o rest mp q k mq wq m Hw Hq'];
        cbn [st_main st_mq st_mem] in *; try discriminate;
        try (destruct Hi as (Hi1 & Hi2); cbn in Hi1, Hi2; destruct (Hi2 w Hw); congruence);
        try (destruct Hi as (Hi1 & _); cbn in Hi1; destruct q1; discriminate).
  Qed.

  Inductive osteps : state -> state -> Prop :=
  | os_refl s : osteps s s
  | os_step s t u : osteps s t -> step t u -> orderly t u -> osteps s u.

  Lemma phase_end n j s num_iter : phase n j s -> (n + j = num_iter)%nat -> finished s -> recon_is (iter num_iter) (st_mem s).
  Proof.
    intros Hp E Hf. unfold finished in Hf.
    destruct Hp as [n j s Hm Hi Hq Hr|n j s Hm Hi Hq Hr|n j s Hd Hm Hi Hq Hz Hr|n j s Hm Hi Hq Hz Hr|n j s Hm Hi Hq Hz Hr
                   |n j s Hm Ha Hq Hr|n j s Hm Ha Hpe Hw Hq Hr|n j s Hm Hi Hq Hz Hr|n j s Hm Hi Hq Hz Hr|j s Hm Hi Hq Hr];
      rewrite Hf in Hm; try discriminate.
    - destruct n; discriminate.
    - cbn in E. now subst.
  Qed.
  Lemma phase_first num_iter m : m_recon m = r0 -> phase num_iter O (start debug num_iter m).
  Proof. intros Hm. apply ph_start; [reflexivity|split; auto; now intros|now left|]. intros k. unfold after. cbn. now rewrite Hm. Qed.

  Lemma debug_result num_iter m s : debug = true -> m_recon m = r0 ->
    steps dy dt dx nx ny theta rotate_to row apply data sum_dist debug nw (start debug num_iter m) s -> finished s -> recon_is (iter num_iter) (st_mem s).
  Proof.
    intros Hd Hm Hs Hf.
    assert (G : forall a b, steps dy dt dx nx ny theta rotate_to row apply data sum_dist debug nw a b -> a = start debug num_iter m ->
       exists n j, phase n j b /\ (n + j = num_iter)%nat).
    { induction 1 as [b|a b c H IH Hc]; intros ->.
      - exists num_iter, O. split; [|lia]. now apply phase_first.
      - destruct (IH eq_refl) as (n & j & Hp & E). destruct (phase_step n j b c Hp Hc) as (n' & j' & Hp' & E'); auto. exists n', j'. split; auto. lia. }
    destruct (G _ _ Hs eq_refl) as (n & j & Hp & E). now apply (phase_end n j).
  Qed.
  Lemma orderly_result num_iter m s : m_recon m = r0 -> osteps (start debug num_iter m) s -> finished s -> recon_is (iter num_iter) (st_mem s).
  Proof.
    intros Hm Hs Hf.
    assert (G : forall a b, osteps a b -> a = start debug num_iter m -> exists n j, phase n j b /\ (n + j = num_iter)%nat).
    { induction 1 as [b|a b c H IH Hc Ho]; intros ->.
      - exists num_iter, O. split; [|lia]. now apply phase_first.
      - destruct (IH eq_refl) as (n & j & Hp & E). destruct (phase_step n j b c Hp Hc) as (n' & j' & Hp' & E'); auto. exists n', j'. split; auto. lia. }
    destruct (G _ _ Hs eq_refl) as (n & j & Hp & E). now apply (phase_end n j).
  Qed.
End Run.
