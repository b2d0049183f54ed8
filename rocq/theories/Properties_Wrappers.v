(** C107-C110: the wrappers of ASTRA, lprec and UFO (recon/wrappers.py) and recon_accelerated (recon/acceleration.py). *)
From Coq Require Import Reals Lra String.
From Verif Require Import Base Model_Prep Model_Mproc Model_Wrappers Proofs_Mproc Proofs_Wrappers Proofs_Lprec Proofs_Parallel Spec.
Local Open Scope Z_scope.

(** ** C107: ASTRA *)
Lemma Rabs_both x a : (Rabs x <= a)%R -> (- a <= x <= a)%R.
Proof. unfold Rabs. destruct (Rcase_abs x); intros H; lra. Qed.
(** A sinogram moved by s columns, zero where nothing comes from the detector *)
Definition moved_by (ndet s : Z) (sino : img) : img :=
  fun i j => if (0 <=? j - s) && (j - s <? ndet) then sino i (j - s) else 0%R.
Theorem C107_columns nang ndet center sino : (center <= 3 / 2 * IZR ndet)%R ->
  exists s, (Rabs (center + IZR s - IZR ndet / 2) <= 1 / 2)%R /\
    forall i j, 0 <= i < nang -> 0 <= j < ndet -> astra_sino nang ndet center sino i j = moved_by ndet s sino i j.
Proof.
  intros H. exists (np_round (IZR ndet / 2 - center)). pose proof (np_round_near (IZR ndet / 2 - center)) as N. split.
  - replace (center + IZR (np_round (IZR ndet / 2 - center)) - IZR ndet / 2)%R with (IZR (np_round (IZR ndet / 2 - center)) - (IZR ndet / 2 - center))%R by ring. exact N.
  - intros i j Hi Hj. apply astra_sino_moved; auto. apply Rabs_both in N. cut (- ndet - 1 < np_round (IZR ndet / 2 - center)); [lia|].
    apply lt_IZR. rewrite minus_IZR, opp_IZR. lra.
Qed.
(** An axis a whole number of columns off the middle is put right into the middle. *)
Theorem C107_whole nang ndet k sino i j : - ndet <= k -> 0 <= i < nang -> 0 <= j < ndet ->
  astra_sino nang ndet (IZR ndet / 2 - IZR k)%R sino i j = moved_by ndet k sino i j.
Proof.
  intros Hk Hi Hj. assert (E : np_round (IZR ndet / 2 - (IZR ndet / 2 - IZR k))%R = k).
  { replace (IZR ndet / 2 - (IZR ndet / 2 - IZR k))%R with (IZR k) by ring. apply np_round_int. }
  pose proof (astra_sino_moved nang ndet (IZR ndet / 2 - IZR k)%R sino i j) as G. cbv zeta in G. rewrite E in G. now apply G.
Qed.
(** Parts of a column are ignored: an axis half a column off the middle is treated as if it were in the middle. *)
Theorem C107_rounded_refuted nang ndet sino : astra_sino nang ndet (IZR ndet / 2 + 1 / 2)%R sino = astra_sino nang ndet (IZR ndet / 2)%R sino /\
  astra_sino nang ndet (IZR ndet / 2)%R sino = sino.
Proof.
  unfold astra_sino. replace (IZR ndet / 2 - IZR ndet / 2)%R with (IZR 0) by (cbn; ring). rewrite np_round_int. cbn [Z.eqb].
  assert (E : np_round (IZR ndet / 2 - (IZR ndet / 2 + 1 / 2))%R = 0).
  { replace (IZR ndet / 2 - (IZR ndet / 2 + 1 / 2))%R with (- / 2)%R by field. unfold np_round.
    replace (Int_part (- / 2)) with (-1) by (symmetry; apply Proofs_Ray.Int_part_spec; lra). rewrite (proj2 (Proofs_Rotation.rltb_false _ _)) by lra.
    rewrite (proj2 (Proofs_Rotation.rltb_false _ _)) by lra. reflexivity. }
  rewrite E. split; reflexivity.
Qed.
(** An axis far to the right of the detector is not handled: what is left are data of other angles, where nothing was measured. *)
Theorem C107_far_refuted : ~ (forall nang ndet center sino i j, 0 <= i < nang -> 0 <= j < ndet -> exists s,
  (Rabs (center + IZR s - IZR ndet / 2) <= 1 / 2)%R /\ astra_sino nang ndet center sino i j = moved_by ndet s sino i j).
Proof.
  intros H. destruct (H 3 2 4%R (fun i j => 1%R) 0 0 ltac:(lia) ltac:(lia)) as (s & Hs & E).
  assert (np_round (IZR 2 / 2 - 4) = -3) as N by (replace (IZR 2 / 2 - 4)%R with (IZR (-3)) by (cbn; field); apply np_round_int).
  unfold astra_sino in E. rewrite N in E. cbn in E. unfold roll_flat, moved_by in E.
  apply Rabs_both in Hs. assert (s = -3) as ->.
  { assert (-4 < s /\ s < -2) by (split; apply lt_IZR; cbn in *; lra). lia. }
  cbn in E. lra.
Qed.
Section AstraRuns.
  Variable gpu_t image : Type.
  Variable run : option gpu_t -> img -> R -> image -> option image.
  Variable cuda : bool.
  Variables nang ndet : Z.
  Variables (n cpu : Z) (tomo : Z -> img) (center : Z -> R) (recon : Z -> image).
  Notation input i := (if cuda then tomo i else astra_sino nang ndet (center i) (tomo i)).
  Notation astra := (astra gpu_t image run cuda nang ndet cpu).
  (** Without a list of GPUs (or with a CPU projector) every slice is made from its own sinogram, centre and start; exceptions are passed on. *)
  Theorem C107_slices gpus : cuda = false \/ gpus = None -> (forall i, run None (input i) (center i) (recon i) <> None) ->
    exists r, astra gpus n tomo center recon = Ok r /\ (forall i, 0 <= i < n -> run None (input i) (center i) (recon i) = Some (r i)) /\
              forall i, ~ 0 <= i < n -> r i = recon i.
  Proof.
    intros Hg Hr. unfold Model_Wrappers.astra. replace (if cuda then gpus else None) with (@None (list gpu_t)) by (destruct cuda, Hg; congruence).
    destruct (rec_all gpu_t image run cuda nang ndet tomo center None (zrange 0 n) (NoDup_zrange 0 n) recon) as (A & B & C); [intros; apply Hr|].
    destruct (astra_rec gpu_t image run cuda nang ndet None tomo center (zrange 0 n) recon) as [ok r]. cbn in *. subst ok. exists r. split; [reflexivity|].
    split; intros i Hi; [apply B|apply C]; rewrite in_zrange; lia.
  Qed.
  Theorem C107_raises gpus i : cuda = false \/ gpus = None -> 0 <= i < n -> (forall a, run None (input i) (center i) a = None) -> exists e, astra gpus n tomo center recon = Raise e.
  Proof.
    intros Hg Hi Hr. unfold Model_Wrappers.astra. replace (if cuda then gpus else None) with (@None (list gpu_t)) by (destruct cuda, Hg; congruence).
    assert (E : forall l r, In i l -> fst (astra_rec gpu_t image run cuda nang ndet None tomo center l r) = false).
    { induction l as [|a l IH]; intros r Hl; [destruct Hl|]. destruct Hl as [->|Hl]; cbn [astra_rec].
      - change (slice_input cuda nang ndet tomo center i) with (input i). rewrite Hr. reflexivity.
      - destruct (run None _ _ _); [now apply IH|reflexivity]. }
    specialize (E (zrange 0 n) recon ltac:(rewrite in_zrange; lia)). destruct (astra_rec _ _ _ _ _ _ _ _ _ _ _) as [ok r]. cbn in E. subst. eexists. reflexivity.
  Qed.
  (** With GPUs every slice is made by one of them. *)
  Theorem C107_gpus gpus : cuda = true -> gpus <> [] -> 1 <= n -> 1 <= cpu ->
    (forall g i, In g gpus -> run (Some g) (tomo i) (center i) (recon i) <> None) ->
    exists r, astra (Some gpus) n tomo center recon = Ok r /\
      (forall i, 0 <= i < n -> exists g, In g gpus /\ run (Some g) (tomo i) (center i) (recon i) = Some (r i)) /\ forall i, ~ 0 <= i < n -> r i = recon i.
  Proof.
    intros Hc Hg Hn Hp Hr. unfold Model_Wrappers.astra, astra_gpus. rewrite Hc.
    set (k := Z.of_nat (length gpus)). assert (Hk : 1 <= k) by (unfold k; destruct gpus; [easy|]; cbn; lia).
    destruct (recon_slices_cover cpu n (Some k) None) as (m & slcs & E & Cov); auto.
    { intros z Hz. injection Hz as <-. lia. }
    { intros z Hz. discriminate. }
    rewrite E. assert (L : (length slcs <= length gpus)%nat).
    { destruct (slices_balanced cpu n (Some k) m slcs) as (E1 & E2 & _); auto; [intros z Hz; injection Hz as <-; lia|].
      unfold default_ncore in E1. replace (k =? 0) with false in E1 by lia. unfold k in *. lia. }
    destruct gpus as [|g0 gpus0] eqn:Eg; [easy|]. rewrite <- Eg in *.
    set (js := map (fun gs => (fst gs, slc_indices n (snd gs))) (combine gpus slcs)).
    assert (J : concat (map snd js) = zrange 0 n).
    { unfold js. rewrite map_map. cbn. rewrite <- Cov. f_equal. clear - L. revert slcs L. induction gpus as [|g gpus IH]; intros [|s slcs] L; cbn in *; auto; try lia.
      f_equal. apply IH. lia. }
    assert (JG : forall g, In g (map fst js) -> In g gpus).
    { intros g H. unfold js in H. rewrite map_map in H. apply in_map_iff in H as ([g' s] & <- & H). apply in_combine_l in H. exact H. }
    assert (F : fold_left (fun r gs => snd (astra_rec gpu_t image run true nang ndet (Some (fst gs)) tomo center (slc_indices n (snd gs)) r)) (combine gpus slcs) recon =
                fold_left (fun r gs => snd (astra_rec gpu_t image run true nang ndet (Some (fst gs)) tomo center (snd gs) r)) js recon).
    { unfold js. clear. generalize recon. induction (combine gpus slcs) as [|gs l IH]; intros r; [reflexivity|]. cbn. apply IH. }
    assert (ND : NoDup (concat (map snd js))) by (rewrite J; apply NoDup_zrange).
    destruct (jobs_all gpu_t image run true nang ndet tomo center recon js ND (fun g i Hgi => Hr g i (JG g Hgi)) recon (fun i _ => eq_refl)) as [A B].
    unfold Ok at 1. cbv beta iota. rewrite F. eexists. split; [reflexivity|]. split.
    - intros i Hi. destruct (A i) as (g & G1 & G2); [rewrite J; apply in_zrange; lia|]. exists g. split; [now apply JG|exact G2].
    - intros i Hi. apply B. rewrite J, in_zrange. lia.
  Qed.
  (** But exceptions on GPUs are lost: the call returns as if it had worked, with the start image as the result. *)
  Theorem C107_lost_refuted gpus : cuda = true -> gpus <> [] -> 1 <= n -> 1 <= cpu -> (forall g s c a, run (Some g) s c a = None) ->
    astra (Some gpus) n tomo center recon = Ok recon.
  Proof.
    intros Hc Hg Hn Hp Hr. unfold Model_Wrappers.astra, astra_gpus. rewrite Hc.
    destruct (recon_slices_cover cpu n (Some (Z.of_nat (length gpus))) None) as (m & slcs & E & _); auto.
    { intros z Hz. injection Hz as <-. lia. }
    { intros z Hz. discriminate. }
    rewrite E. destruct gpus as [|g0 gpus0] eqn:Eg; [easy|]. rewrite <- Eg in *. unfold Ok at 1. cbv beta iota. f_equal.
    clear - Hr. generalize (combine gpus slcs). induction l as [|gs l IH]; [reflexivity|]. cbn [fold_left]. rewrite rec_none; auto.
  Qed.
  (** An empty list of GPUs is refused. *)
  Theorem C107_no_gpus : cuda = true -> exists e, astra (Some []) n tomo center recon = Raise e.
  Proof.
    intros Hc. unfold Model_Wrappers.astra, astra_gpus. rewrite Hc. destruct (get_ncore_slices _ _ _ _) as [e|[m s]]; eexists; reflexivity.
  Qed.
End AstraRuns.
(** Options: what is given counts, the rest are the defaults; 'method' has to be given. *)
Theorem C107_options {V} needed (defaults opts d : dict V) : astra_options needed defaults opts = Ok d ->
  (forall o, In o needed -> lookup o opts <> None) /\
  forall o, lookup o d = match lookup o opts with Some v => Some v | None => lookup o defaults end.
Proof.
  unfold astra_options. destruct (forallb _ needed) eqn:E; [|discriminate]. intros H. injection H as <-. split.
  - intros o Ho. rewrite forallb_forall in E. specialize (E o Ho). unfold has in E. destruct (lookup o opts); [discriminate|easy].
  - intros o. apply fill_lookup.
Qed.
Theorem C107_needed {V} needed (defaults opts : dict V) o : In o needed -> lookup o opts = None -> astra_options needed defaults opts = Raise ValueError.
Proof.
  intros Ho Hn. unfold astra_options. destruct (forallb _ needed) eqn:E; [|reflexivity]. rewrite forallb_forall in E. specialize (E o Ho). unfold has in E. rewrite Hn in E. discriminate.
Qed.
(** The defaults are written into the dictionary of the caller. *)
Theorem C107_callers_refuted {V} (v w : V) : ~ (forall needed (defaults opts d : dict V), astra_options needed defaults opts = Ok d -> d = opts).
Proof.
  intros H. specialize (H ["method"%string] [("num_iter"%string, v)] [("method"%string, w)] _ eq_refl). discriminate.
Qed.
Example C107_example : astra_sino 2 4 3 (fun i j => IZR (10 * i + j)) 1 0 = 11%R /\ astra_sino 2 4 3 (fun i j => IZR (10 * i + j)) 1 3 = 0%R /\
  astra_options ["method"%string] [("num_iter"%string, 1); ("proj_type"%string, 2)] [("method"%string, 5); ("num_iter"%string, 7)] =
  Ok [("method"%string, 5); ("num_iter"%string, 7); ("proj_type"%string, 2)].
Proof.
  assert (W : forall i j, 0 <= i < 2 -> 0 <= j < 4 -> astra_sino 2 4 3 (fun i j => IZR (10 * i + j)) i j = moved_by 4 (-1) (fun i j => IZR (10 * i + j)) i j).
  { intros i j Hi Hj. replace 3%R with (IZR 4 / 2 - IZR (-1))%R by (cbn; field). apply C107_whole; lia. }
  rewrite !W by lia. repeat split; reflexivity.
Qed.
Print Assumptions C107_columns.
Print Assumptions C107_whole.
Print Assumptions C107_rounded_refuted.
Print Assumptions C107_far_refuted.
Print Assumptions C107_slices.
Print Assumptions C107_raises.
Print Assumptions C107_gpus.
Print Assumptions C107_lost_refuted.
Print Assumptions C107_no_gpus.
Print Assumptions C107_options.
Print Assumptions C107_needed.
Print Assumptions C107_callers_refuted.

(** ** C108: lprec *)
(** The batches are the slices in order, none is empty and none is too large for the memory. *)
Theorem C108_batches N Ns ngpus : 1 <= N <= 4096 -> 1 <= Ns -> 1 <= ngpus -> exists ids, lp_ids N Ns ngpus = Ok ids /\
  concat (map (fun p => zrange (fst p) (snd p)) ids) = zrange 0 Ns /\
  forall p, In p ids -> 0 <= fst p < snd p /\ snd p <= Ns /\ (snd p - fst p) * (N * N) <= 2 ^ 24 /\ (snd p - fst p) * ngpus < Ns + ngpus.
Proof.
  intros HN Hs Hg. unfold lp_ids. replace (ngpus =? 0) with false by lia. set (b := lp_batch N Ns ngpus).
  assert (B1 : 1 <= 2 ^ 24 / (N * N)) by (apply Z.div_le_lower_bound; nia).
  assert (B2 : 1 <= (Ns + ngpus - 1) / ngpus) by (apply Z.div_le_lower_bound; lia).
  assert (Hb : 1 <= b) by (unfold b, lp_batch; lia). replace (b =? 0) with false by lia.
  pose proof (batches_chained b Ns ((Ns + b - 1) / b) ltac:(lia) ltac:(lia) eq_refl) as Ch.
  eexists. split; [reflexivity|]. split; [now apply chained_indices|].
  intros [x y] Hp. destruct (chained_bounds _ _ _ Ch) as [_ B]. specialize (B x y Hp). cbn [fst snd]. split; [lia|]. split; [lia|].
  apply in_map_iff in Hp as (k & E & _). injection E as <- <-.
  assert (L : Z.min Ns ((k + 1) * b) - k * b <= b) by nia. assert (b <= 2 ^ 24 / (N * N)) by (unfold b, lp_batch; lia).
  assert (b <= (Ns + ngpus - 1) / ngpus) by (unfold b, lp_batch; lia).
  pose proof (Z.mul_div_le (2 ^ 24) (N * N) ltac:(nia)). pose proof (Z.mul_div_le (Ns + ngpus - 1) ngpus ltac:(lia)). nia.
Qed.
(** A detector with more than 4096 columns cannot be used at all. *)
Theorem C108_wide_refuted N Ns ngpus : 4097 <= N -> 1 <= Ns -> 1 <= ngpus -> lp_ids N Ns ngpus = Raise ZeroDivisionError.
Proof.
  intros HN Hs Hg. unfold lp_ids. replace (ngpus =? 0) with false by lia.
  assert (E : lp_batch N Ns ngpus = 0).
  { unfold lp_batch. rewrite Z.div_small by nia. assert (0 <= (Ns + ngpus - 1) / ngpus) by (apply Z.div_pos; lia). lia. }
  rewrite E. reflexivity.
Qed.
Section Queue.
  Variables image sinogram : Type.
  Variable method : list image -> list sinogram -> list image.
  Variable tomo : list sinogram.
  Variable ngpus : nat.
  Variables (N : Z) (ids : list (Z * Z)) (recon0 : list image).
  Notation steps := (steps image sinogram method tomo ngpus (start ngpus ids recon0)).
  Notation step := (step image sinogram method tomo ngpus).
  (** Task t is using GPU number k *)
  Definition on_gpu (k : nat) (t : (Z * Z) * phase image) : Prop := snd t = Running k \/ snd t = Stored k.
  Hypothesis same_length : forall a b, length (method a b) = length a.
  Hypothesis Hsize : 1 <= N <= 4096.
  Hypothesis Hone : (1 <= ngpus)%nat.
  Hypothesis Hdata : (1 <= length recon0)%nat.
  Hypothesis Hids : lp_ids N (Z.of_nat (length recon0)) (Z.of_nat ngpus) = Ok ids.
  Lemma queue_chained : chained 0 (Z.of_nat (length recon0)) ids.
  Proof.
    pose proof Hids as H. unfold lp_ids in H. destruct (_ =? 0); [discriminate|]. destruct (Z.eqb_spec (lp_batch N (Z.of_nat (length recon0)) (Z.of_nat ngpus)) 0); [discriminate|].
    injection H as <-. apply batches_chained; auto; [|lia]. unfold lp_batch in *.
    assert (0 <= 2 ^ 24 / (N * N)) by (apply Z.div_pos; nia). assert (0 <= (Z.of_nat (length recon0) + Z.of_nat ngpus - 1) / Z.of_nat ngpus) by (apply Z.div_pos; lia). lia.
  Qed.
  (** In all interleavings: a GPU works for one task at a time, *)
  Theorem C108_exclusive st i j k t u : steps st -> nth_error (tasks st) i = Some t -> nth_error (tasks st) j = Some u -> on_gpu k t -> on_gpu k u -> (k < ngpus)%nat /\ i = j.
  Proof.
    intros H Hi Hj Ht Hu. pose proof (inv_steps image sinogram method same_length tomo ngpus ids recon0 queue_chained st H) as [I1 I2 I3 I4 I5 I6 I7 I8 I9 I10 I11].
    assert (U : forall t, on_gpu k t -> (fun t => match snd t with Running k | Stored k => [k] | _ => [] end) t = [k]) by (intros [p ph] [E|E]; cbn in E; subst; reflexivity).
    split.
    - assert (B : nth k (busy st) false = true).
      { apply I5. unfold used. apply in_flat_map. exists t. split; [eapply nth_error_In; eauto|]. rewrite (U t Ht). now left. }
      destruct (Nat.ltb_spec k ngpus); auto. rewrite nth_overflow in B by lia. discriminate.
    - destruct (Nat.lt_total i j) as [L|[L|L]]; auto; exfalso.
      + apply nth_error_split in Hj as (l1 & l2 & E & El). rewrite E in *. rewrite used_app in I4. apply NoDup_split in I4 as (_ & _ & D).
        apply (D k).
        * unfold used. apply in_flat_map. exists t. split; [|rewrite (U t Ht); now left]. rewrite nth_error_app1 in Hi by lia. eapply nth_error_In; eauto.
        * unfold used. apply in_flat_map. exists u. split; [now left|rewrite (U u Hu); now left].
      + apply nth_error_split in Hi as (l1 & l2 & E & El). rewrite E in *. rewrite used_app in I4. apply NoDup_split in I4 as (_ & _ & D).
        apply (D k).
        * unfold used. apply in_flat_map. exists u. split; [|rewrite (U u Hu); now left]. rewrite nth_error_app1 in Hj by lia. eapply nth_error_In; eauto.
        * unfold used. apply in_flat_map. exists t. split; [now left|rewrite (U t Ht); now left].
  Qed.
  (** every task finds a free one, *)
  Theorem C108_free st : steps st -> ~ step st None.
  Proof. intros H. apply (inv_no_crash image sinogram method same_length tomo ngpus ids recon0). now apply (inv_steps image sinogram method same_length tomo ngpus ids recon0 queue_chained). Qed.
  (** the call ends, whatever is done next, *)
  Theorem C108_ends st : steps st -> final st \/ exists st', step st (Some st').
  Proof. intros H. apply (inv_progress image sinogram method same_length tomo ngpus ids recon0 st Hone). now apply (inv_steps image sinogram method same_length tomo ngpus ids recon0 queue_chained). Qed.
  (** after five steps for every batch (taken, on a GPU, computed, stored, collected), *)
  Inductive after : nat -> state image -> Prop :=
  | after_none : after 0 (start ngpus ids recon0)
  | after_step n st st' : after n st -> step st (Some st') -> after (S n) st'.
  Lemma after_steps n st : after n st -> steps st.
  Proof. induction 1; [apply steps_refl|eapply steps_snoc; eauto]. Qed.
  Theorem C108_length n st : after n st -> (n <= 5 * length ids)%nat /\ (final st -> n = 5 * length ids)%nat.
  Proof.
    intros H. assert (E : (n + rest image st = 5 * length ids)%nat).
    { induction H as [|n st st' H IH Hs]; [unfold rest; cbn; lia|]. rewrite (rest_step image sinogram method same_length tomo ngpus st st' Hs) in IH; [lia|].
      apply (i_coll image sinogram method tomo ngpus ids recon0 st). apply (inv_steps image sinogram method same_length tomo ngpus ids recon0 queue_chained). eapply after_steps; eauto. }
    split; [lia|]. intros F. rewrite (rest_final image sinogram method same_length tomo recon0 st F) in E. lia.
  Qed.
  (** and every batch is then what the method makes of its sinograms and its start. *)
  Theorem C108_result st : steps st -> final st -> recon st = concat (map (fun p => method (cut p recon0) (cut p tomo)) ids).
  Proof.
    intros H1 H2. apply (inv_final image sinogram method same_length tomo ngpus ids recon0 queue_chained); auto. now apply (inv_steps image sinogram method same_length tomo ngpus ids recon0 queue_chained).
  Qed.
End Queue.
(** Two calls at the same time (recon with two cores) share the list of busy GPUs, and the second one clears it: both use the same GPU. *)
Theorem C108_two_calls_refuted : ~ (forall ngpus ids1 ids2 (r1 r2 : list unit) (st1 st2 : state unit) k t u,
  lp_ids 10 (Z.of_nat (length r1)) (Z.of_nat ngpus) = Ok ids1 -> lp_ids 10 (Z.of_nat (length r2)) (Z.of_nat ngpus) = Ok ids2 ->
  steps2 unit unit (fun a _ => a) [] ngpus (start ngpus ids1 r1, start ngpus ids2 r2) (st1, st2) ->
  In t (tasks st1) -> In u (tasks st2) -> on_gpu unit k t -> on_gpu unit k u -> False).
Proof.
  intros H. apply (H 1%nat [(0, 1)] [(0, 1)] [tt] [tt] (St [] [((0, 1), Running 0)] [true] [tt] 0 0) (St [] [((0, 1), Running 0)] [true] [tt] 0 0) 0%nat ((0, 1), Running 0) ((0, 1), Running 0)); try reflexivity.
  - set (m := fun (a _ : list unit) => a). set (S0 := St (image := unit) [(0, 1)] [] [false] [tt] 0 0). set (B0 := St (image := unit) [] [((0, 1), Begin)] [false] [tt] 0 0).
    set (R1 := fun b => St (image := unit) [] [((0, 1), Running 0)] [b] [tt] 0 0). set (S1 := St (image := unit) [(0, 1)] [] [true] [tt] 0 0).
    change (steps2 unit unit m [] 1 (S0, S0) (R1 true, R1 true)).
    apply (steps2_snoc unit unit m [] 1 (S0, S0) (R1 false, B0)); [apply (steps2_snoc unit unit m [] 1 (S0, S0) (R1 false, S0));
      [apply (steps2_snoc unit unit m [] 1 (S0, S0) (R1 true, S1)); [apply (steps2_snoc unit unit m [] 1 (S0, S0) (B0, S0)); [apply (steps2_snoc unit unit m [] 1 (S0, S0) (S0, S0));
        [apply steps2_refl|]|]|]|]|].
    + apply (left_step unit unit m [] 1 S0 B0 S0). apply (take unit unit m [] 1 (0, 1) [] [] [false] [tt] 0 0). cbn. lia.
    + apply (left_step unit unit m [] 1 B0 (R1 true) S0). apply (acquire unit unit m [] 1 [] [] (0, 1) [] [false] [tt] 0 0 0). reflexivity.
    + exact (right_reset unit unit m [] 1 (R1 true) S1 eq_refl).
    + apply (right_step unit unit m [] 1 (R1 false) S0 B0). apply (take unit unit m [] 1 (0, 1) [] [] [false] [tt] 0 0). cbn. lia.
    + apply (right_step unit unit m [] 1 (R1 false) B0 (R1 true)). apply (acquire unit unit m [] 1 [] [] (0, 1) [] [false] [tt] 0 0 0). reflexivity.
  - now left.
  - now left.
  - now left.
  - now left.
Qed.
Example C108_example : lp_ids 2048 10 2 = Ok [(0, 4); (4, 8); (8, 10)] /\ lp_ids 64 10 3 = Ok [(0, 4); (4, 8); (8, 10)] /\ lp_ids 8192 10 3 = Raise ZeroDivisionError.
Proof. repeat split. Qed.
Print Assumptions C108_batches.
Print Assumptions C108_wide_refuted.
Print Assumptions C108_exclusive.
Print Assumptions C108_free.
Print Assumptions C108_ends.
Print Assumptions C108_length.
Print Assumptions C108_result.
Print Assumptions C108_two_calls_refuted.

(** ** C109: UFO *)
(** The middle width x width pixels of the size x size image: the margins differ by at most one. *)
Theorem C109_crop size width array : 1 <= width <= size -> exists lo hi, lo + width + hi = size /\ 0 <= lo <= hi /\ hi <= lo + 1 /\
  forall r, ufo_slice size width width width array = Ok r -> forall i j, 0 <= i < width -> 0 <= j < width -> r i j = array (lo + i) (lo + j).
Proof.
  intros H. exists ((size - width) / 2), (size - width - (size - width) / 2). split; [lia|]. split; [lia|]. split; [lia|].
  unfold ufo_slice, ufo_crop. rewrite !Z.quot_div_nonneg by lia. unfold clip.
  replace ((size - width) / 2 <? 0) with false by lia. replace ((size + width) / 2 <? 0) with false by lia.
  replace (Z.min ((size - width) / 2) size) with ((size - width) / 2) by lia.
  replace (Z.max 0 (Z.min ((size + width) / 2) size - (size - width) / 2)) with width by lia.
  intros r E i j Hi Hj. destruct (_ && _) in E; [|discriminate]. injection E as <-. destruct (Z.eqb_spec width 1); f_equal; lia.
Qed.
Theorem C109_defined size width array : 1 <= width <= size -> exists r, ufo_slice size width width width array = Ok r.
Proof.
  intros H. unfold ufo_slice, ufo_crop. rewrite !Z.quot_div_nonneg by lia. unfold clip.
  replace ((size - width) / 2 <? 0) with false by lia. replace ((size + width) / 2 <? 0) with false by lia.
  replace (Z.min ((size - width) / 2) size) with ((size - width) / 2) by lia.
  replace (Z.max 0 (Z.min ((size + width) / 2) size - (size - width) / 2)) with width by lia.
  rewrite Z.eqb_refl. eexists. reflexivity.
Qed.
(** A grid that is not as large as the detector is wide is refused. *)
Theorem C109_grid size width gx gy array : 2 <= width <= size -> gx <> width \/ gy <> width -> ufo_slice size width gx gy array = Raise ValueError.
Proof.
  intros H Hg. unfold ufo_slice, ufo_crop. rewrite !Z.quot_div_nonneg by lia. unfold clip.
  replace ((size - width) / 2 <? 0) with false by lia. replace ((size + width) / 2 <? 0) with false by lia.
  replace (Z.min ((size - width) / 2) size) with ((size - width) / 2) by lia.
  replace (Z.max 0 (Z.min ((size + width) / 2) size - (size - width) / 2)) with width by lia.
  replace (((width =? gx) || (width =? 1)) && ((width =? gy) || (width =? 1))) with false by lia. reflexivity.
Qed.
(** An image that is smaller than the detector is wide by two pixels is accepted: its last pixel fills the whole slice. *)
Theorem C109_small_refuted width array : 3 <= width -> exists r, ufo_slice (width - 2) width width width array = Ok r /\
  forall i j, r i j = array (width - 3) (width - 3).
Proof.
  intros H. unfold ufo_slice, ufo_crop. replace (width - 2 - width) with (-2) by lia. change (Z.quot (-2) 2) with (-1). rewrite Z.quot_div_nonneg by lia.
  unfold clip. cbn [Z.ltb Z.compare]. replace (Z.max 0 (-1 + (width - 2))) with (width - 3) by lia.
  replace ((width - 2 + width) / 2 <? 0) with false by lia.
  replace (Z.max 0 (Z.min ((width - 2 + width) / 2) (width - 2) - (width - 3))) with 1 by lia.
  replace (((1 =? width) || (1 =? 1)) && ((1 =? width) || (1 =? 1))) with true by lia. eexists. split; [reflexivity|]. intros i j. cbn [Z.eqb Pos.eqb]. rewrite Z.add_0_r. reflexivity.
Qed.
(** For evenly spaced angles the angles between the projections are right; the object is turned by the offset less the first angle. *)
Theorem C109_angles offset theta0 h k : ufo_angle offset (fun k => theta0 + IZR k * h)%R k = (offset - theta0 + (theta0 + IZR k * h))%R.
Proof. unfold ufo_angle. cbn. ring. Qed.
(** The first two are always right. *)
Theorem C109_first offset theta k : k = 0 \/ k = 1 -> ufo_angle offset theta k = (offset - theta 0%Z + theta k)%R.
Proof. intros [-> | ->]; unfold ufo_angle; cbn; ring. Qed.
(** For others they are wrong. *)
Theorem C109_angles_refuted offset : ~ (forall theta, exists turn, forall k, 0 <= k <= 2 -> ufo_angle offset theta k = (turn + theta k)%R).
Proof.
  intros H. destruct (H (fun k => IZR (k * k))) as (t & E). pose proof (E 0 ltac:(lia)) as E0. pose proof (E 2 ltac:(lia)) as E2. unfold ufo_angle in *. cbn in *. lra.
Qed.
Example C109_example : ufo_crop 8 5 = (1, 6) /\ ufo_crop 512 300 = (106, 406).
Proof. split; reflexivity. Qed.
Print Assumptions C109_crop.
Print Assumptions C109_defined.
Print Assumptions C109_grid.
Print Assumptions C109_small_refuted.
Print Assumptions C109_angles.
Print Assumptions C109_first.
Print Assumptions C109_angles_refuted.

(** ** C110: recon_accelerated *)
(** A function of the user is called, the known name means the package, and everything else raises ValueError. *)
Theorem C110_choice {F} (peri : option F) impl f : recon_accelerated peri impl = Ok f <->
  impl = Callable f \/ ((impl = NoImpl \/ impl = Named "tomoperi") /\ peri = Some f).
Proof.
  unfold recon_accelerated, known_implementations, search_implementation, get_func. destruct impl as [|s|g|]; cbn.
  - destruct peri as [p|]; split; intros H.
    + injection H as ->. auto.
    + destruct H as [H|[_ H]]; [discriminate|]. injection H as ->. reflexivity.
    + discriminate.
    + destruct H as [H|[_ H]]; discriminate.
  - rewrite orb_false_r. destruct (String.eqb_spec s "tomoperi") as [->|N]; cbn.
    + destruct peri as [p|]; split; intros H.
      * injection H as ->. auto.
      * destruct H as [H|[_ H]]; [discriminate|]. injection H as ->. reflexivity.
      * discriminate.
      * destruct H as [H|[_ H]]; discriminate.
    + split; [discriminate|]. intros [H|[[H|H] _]]; try discriminate. injection H as H. congruence.
  - split; intros H; [injection H as ->; auto|]. destruct H as [H|[[H|H] _]]; try discriminate. injection H as ->. reflexivity.
  - split; [discriminate|]. intros [H|[[H|H] _]]; discriminate.
Qed.
Theorem C110_raises {F} (peri : option F) impl e : recon_accelerated peri impl = Raise e -> e = ValueError.
Proof.
  unfold recon_accelerated, known_implementations, search_implementation, get_func. destruct impl as [|s|g|]; cbn.
  - destruct peri; [discriminate|]. intros H. now injection H as <-.
  - rewrite orb_false_r. destruct (String.eqb_spec s "tomoperi") as [->|N]; cbn; [destruct peri; [discriminate|]|]; intros H; now injection H as <-.
  - discriminate.
  - intros H. now injection H as <-.
Qed.
Example C110_example : recon_accelerated (Some 3) NoImpl = Ok 3 /\ recon_accelerated None (Callable 4) = Ok 4 /\ recon_accelerated (Some 3) (Named "astra") = Raise ValueError.
Proof. repeat split. Qed.
Print Assumptions C110_choice.
Print Assumptions C110_raises.
