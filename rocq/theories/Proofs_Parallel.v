From Coq Require String.
Import String.StringSyntax.
From Verif Require Import Base Model_Mproc Model_Sched Model_Recon Spec.
From Verif Require Import Proofs_Mproc Proofs_Sched Proofs_Recon.
Local Open Scope Z_scope.

Lemma recon_slices_cover cpu n ncore nchunk :
  1 <= n -> 1 <= cpu -> none_or_ge 0 ncore -> none_or_ge 0 nchunk ->
  exists k slcs, get_ncore_slices cpu n ncore nchunk = Ok (k, slcs) /\ covers_in_order n slcs.
Proof.
  intros Hn Hcpu Hk Hc.
  destruct (ncore_slices_ok cpu n ncore nchunk Hn Hcpu Hk) as (k & l & E).
  exists k, l. split; auto. eapply ncore_slices_cover; eauto.
Qed.

Lemma empty_axis_rejected cpu ncore :
  1 <= cpu -> none_or_ge 0 ncore ->
  get_ncore_slices cpu 0 ncore None = Raise ZeroDivisionError /\
  distribute_slices cpu 0 ncore None = Raise ZeroDivisionError.
Proof.
  intros Hcpu Hk. split.
  - unfold get_ncore_slices. replace (Z.min (default_ncore cpu ncore) 0) with 0; [reflexivity|].
    unfold default_ncore. destruct ncore as [k|]; [|lia]. specialize (Hk k eq_refl).
    destruct (k =? 0) eqn:?; lia.
  - unfold distribute_slices, get_ncore_nchunk. cbn [Z.ltb Z.compare].
    change (cdiv 0 1) with 0.
    assert (H : (if 0 <? match ncore with Some k => if cpu <? k then cpu else k | None => cpu end then 0
            else match ncore with Some k => if cpu <? k then cpu else k | None => cpu end) = 0).
    { destruct ncore as [k|]; [specialize (Hk k eq_refl); destruct (cpu <? k) eqn:?|];
        match goal with |- context[0 <? ?x] => destruct (0 <? x) eqn:? end; lia. }
    rewrite H. reflexivity.
Qed.

Lemma default_split_balanced cpu n ncore k slcs :
  1 <= n -> 1 <= cpu -> none_or_ge 0 ncore ->
  get_ncore_slices cpu n ncore None = Ok (k, slcs) ->
  k = Z.min (default_ncore cpu ncore) n /\
  Z.of_nat (length slcs) = k /\
  covers_in_order n slcs /\
  (forall s, In s slcs -> exists a b, s = Range a b /\ 1 <= b - a /\ n / k <= b - a <= n / k + 1).
Proof.
  intros Hn Hcpu Hk E.
  destruct (slices_balanced cpu n ncore k slcs Hn Hcpu Hk E) as (H1 & H2 & H3).
  split; [exact H1|]. split; [exact H2|]. split; [|exact H3].
  eapply (ncore_slices_cover cpu n ncore None); eauto. discriminate.
Qed.

Lemma chunks_for_all_cores cpu n ncore :
  1 <= n -> 1 <= cpu -> none_or_ge 1 ncore ->
  exists k c, get_ncore_nchunk cpu n ncore None = Ok (k, c) /\
    1 <= k <= cpu /\ 1 <= c <= n /\ n <= k * c.
Proof.
  intros Hn Hcpu Hk.
  destruct (ncore_nchunk_ok cpu n ncore None Hn Hcpu Hk ltac:(discriminate))
    as (k & c & E & H1 & H2 & _ & H3).
  specialize (H3 eq_refl). exists k, c. repeat split; auto; lia.
Qed.

Lemma worker_build np_int cpu n ncore nchunk nproc r slcs :
  1 <= nproc -> 0 <= r < nproc -> (nchunk = None -> np_int = true) ->
  build_slices n (default_ncore cpu ncore) nchunk = Ok slcs ->
  get_worker_ncore_slices np_int cpu n ncore nchunk nproc r =
  Ok (default_ncore cpu ncore, worker_part slcs nproc r).
Proof.
  intros Hp Hr Hnp E. unfold get_worker_ncore_slices.
  assert (E2 : match nchunk with
               | None => if np_int then build_slices n (default_ncore cpu ncore) nchunk
                         else if default_ncore cpu ncore =? 0 then Raise ZeroDivisionError
                              else Raise AttributeError
               | Some _ => build_slices n (default_ncore cpu ncore) nchunk
               end = Ok slcs).
  { destruct nchunk; auto. now rewrite Hnp. }
  rewrite E2. unfold Ok at 1. cbv beta iota zeta.
  destruct (1 <? nproc) eqn:E1.
  - unfold worker_part. destruct (r =? 0); reflexivity.
  - assert (nproc = 1) as -> by lia. assert (r = 0) as -> by lia.
    unfold worker_part. cbn [Z.eqb]. rewrite Z.div_1_r, Z.mod_1_r, Z.mul_0_r, Z.add_0_r.
    cbn [Z.to_nat skipn]. rewrite Nat2Z.id, firstn_all. reflexivity.
Qed.

Lemma build_slices_ok n k nchunk :
  1 <= k -> exists l, build_slices n k nchunk = Ok l.
Proof.
  intros Hk. unfold build_slices. destruct nchunk as [c|].
  - destruct (c =? 0); eauto.
  - replace (k =? 0) with false by lia. replace (k <? 0) with false by lia. eauto.
Qed.

Lemma default_ncore_pos cpu ncore : 1 <= cpu -> none_or_ge 0 ncore -> 1 <= default_ncore cpu ncore.
Proof.
  intros H Hk. unfold default_ncore. destruct ncore as [k|]; [|lia].
  specialize (Hk k eq_refl). destruct (k =? 0) eqn:?; lia.
Qed.

Lemma ranks_partition_slices np_int cpu n ncore nchunk nproc :
  1 <= nproc -> 1 <= cpu -> none_or_ge 0 ncore ->
  (nchunk = None -> np_int = true) ->
  exists k slcs, build_slices n (default_ncore cpu ncore) nchunk = Ok slcs /\
    k = default_ncore cpu ncore /\
    exists parts,
      (forall r, 0 <= r < nproc ->
         get_worker_ncore_slices np_int cpu n ncore nchunk nproc r = Ok (k, parts r)) /\
      concat (map parts (zrange 0 nproc)) = slcs.
Proof.
  intros Hp Hcpu Hk Hnp.
  destruct (build_slices_ok n (default_ncore cpu ncore) nchunk (default_ncore_pos _ _ Hcpu Hk)) as (l & E).
  exists (default_ncore cpu ncore), l. split; auto. split; auto.
  exists (worker_part l nproc). split.
  - intros r Hr. now apply worker_build.
  - now apply worker_parts_all.
Qed.

Lemma ranks_cover_axis np_int cpu n ncore nchunk nproc :
  1 <= nproc -> 1 <= cpu -> 0 <= n -> none_or_ge 0 ncore -> none_or_ge 0 nchunk ->
  (nchunk = None -> np_int = true) ->
  exists parts,
      (forall r, 0 <= r < nproc ->
         exists k, get_worker_ncore_slices np_int cpu n ncore nchunk nproc r = Ok (k, parts r)) /\
      covers_in_order n (concat (map parts (zrange 0 nproc))).
Proof.
  intros Hp Hcpu Hn Hk Hc Hnp.
  destruct (ranks_partition_slices np_int cpu n ncore nchunk nproc Hp Hcpu Hk Hnp)
    as (k & l & E & -> & parts & H1 & H2).
  exists parts. split; [eauto|]. rewrite H2. unfold covers_in_order.
  eapply build_slices_cover; eauto.
Qed.

Lemma worker_np_int cpu n ncore nproc r :
  1 <= cpu -> none_or_ge 0 ncore ->
  get_worker_ncore_slices false cpu n ncore None nproc r = Raise AttributeError.
Proof.
  intros Hcpu Hk. unfold get_worker_ncore_slices.
  pose proof (default_ncore_pos _ _ Hcpu Hk).
  replace (default_ncore cpu ncore =? 0) with false by lia. reflexivity.
Qed.

Lemma distribute_cover cpu n ncore nchunk k slcs :
  1 <= n -> 1 <= cpu -> none_or_ge 1 ncore -> none_or_ge 0 nchunk ->
  distribute_slices cpu n ncore nchunk = Ok (k, slcs) -> covers_in_order n slcs.
Proof.
  intros Hn Hcpu Hk Hc E.
  destruct (distribute_slices_cover cpu n ncore nchunk Hn Hcpu Hk Hc) as (k' & l' & E' & H).
  unfold Ok in *. rewrite E in E'. injection E' as -> ->. exact H.
Qed.

Lemma covers_nodup n slcs : covers_in_order n slcs -> NoDup (concat (map (slc_indices n) slcs)).
Proof. unfold covers_in_order. intros ->. apply NoDup_zrange. Qed.

Lemma distribute_schedule_independent V (f : list V -> list V) narr out cpu n ncore nchunk k slcs m0 m :
  1 <= n -> 1 <= cpu -> none_or_ge 1 ncore -> none_or_ge 0 nchunk ->
  distribute_slices cpu n ncore nchunk = Ok (k, slcs) ->
  some_schedule cell_eq m0 (jobs f narr out n slcs) m ->
  forall c, m c = run_sequential cell_eq (jobs f narr out n slcs) m0 c.
Proof.
  intros Hn Hcpu Hk Hc E (ts & Hst & Hfin).
  eapply jobs_schedule_independent; eauto.
  apply covers_nodup. eapply distribute_cover; eauto.
Qed.

Lemma in_place_schedule_independent
  Cell V L (ceq : forall x y : Cell, {x = y} + {x <> y}) (F : nat -> Cell -> Prop)
         (ts : list (@thread Cell V L)) m0 m :
  (forall c, {exists i, (i < length ts)%nat /\ F i c} + {forall i, (i < length ts)%nat -> ~ F i c}) ->
  separated F ts -> some_schedule ceq m0 ts m ->
  (forall c, m c = run_sequential ceq ts m0 c) /\
  (forall c, (forall i, (i < length ts)%nat -> ~ F i c) -> m c = m0 c).
Proof.
  intros Hdec Hsep (ts' & Hst & Hfin). split.
  - eapply schedule_independent; eauto.
  - eapply (proj2 (complete_run ceq F m0 ts m ts' Hsep Hst Hfin)).
Qed.

Lemma any_split_any_schedule V (g : V -> V) cpu n ncore nchunk k slcs m0 m :
  1 <= n -> 1 <= cpu -> none_or_ge 1 ncore -> none_or_ge 0 nchunk ->
  distribute_slices cpu n ncore nchunk = Ok (k, slcs) ->
  some_schedule cell_eq m0 (jobs (map g) 1 0 n slcs) m ->
  (forall i, 0 <= i < n -> m (0%nat, i) = g (m0 (0%nat, i))) /\
  (forall a i, (a <> 0%nat \/ ~ 0 <= i < n) -> m (a, i) = m0 (a, i)).
Proof.
  intros Hn Hcpu Hk Hc E (ts & Hst & Hfin).
  eapply elementwise_jobs; eauto. eapply distribute_cover; eauto.
Qed.

Lemma some_schedule_completes
  Cell V L (ceq : forall x y : Cell, {x = y} + {x <> y}) (ts : list (@thread Cell V L)) m0 :
  exists m, some_schedule ceq m0 ts m.
Proof.
  destruct (complete_run_exists ceq m0 ts) as (m & ts' & H & Hf). exists m, ts'. auto.
Qed.

(** C05 *)
Lemma returned_means_all_ran J (w : J -> outcome) h fuel died jobs order l :
  Permutation order jobs ->
  distribute true died w h fuel order = Returned l -> Permutation l jobs.
Proof.
  intros P H. unfold distribute in H. destruct died; [discriminate|].
  destruct (run_pool w order) as [[l0 q] [e|]] eqn:E; [discriminate|].
  apply clear_queue_perm in H. apply run_pool_perm in E. destruct E as [E _].
  now rewrite H, E.
Qed.

Lemma failure_raises J (w : J -> outcome) h fuel died jobs order :
  Permutation order jobs ->
  (exists j e, In j jobs /\ w j = Fail e) ->
  exists e, distribute true died w h fuel order = Raised e.
Proof.
  intros P (j & e & Hj & He). unfold distribute. destruct died; [eauto|].
  destruct (run_pool w order) as [[l0 q] f] eqn:E.
  destruct f as [e'|]; [eauto|]. exfalso.
  eapply run_pool_fail; eauto. exists j, e. split; auto.
  eapply Permutation_in; [symmetry|]; eauto.
Qed.

Lemma run_pool_nofail J (w : J -> outcome) order :
  (forall j, In j order -> forall e, w j <> Fail e) ->
  exists l q, run_pool w order = (l, q, None).
Proof.
  induction order as [|j t IH]; intros H; cbn; [eauto|].
  destruct IH as (l & q & E). { intros i Hi. apply H. now right. }
  rewrite E. destruct (w j) eqn:Ew; eauto. exfalso. eapply H; [now left|exact Ew].
Qed.

Lemma host_fallback_completes J (w : J -> outcome) h fuel jobs order :
  Permutation order jobs ->
  (forall j, In j jobs -> forall e, w j <> Fail e) ->
  (forall k j, h k j = Done) -> (length jobs <= fuel)%nat ->
  exists l, distribute true false w h fuel order = Returned l /\ Permutation l jobs.
Proof.
  intros P Hw Hh Hf. unfold distribute.
  destruct (run_pool_nofail J w order) as (l & q & E).
  { intros j Hj. apply Hw. eapply Permutation_in; eauto. }
  rewrite E. exists (l ++ q). split.
  - apply clear_queue_total; auto.
    apply run_pool_queue_length in E. apply Permutation_length in P. lia.
  - apply run_pool_perm in E. destruct E as [E _]. now rewrite E.
Qed.

Lemma single_core_drops_job :
  exists (h : nat -> Z -> outcome) jobs l,
    distribute false false (fun _ => Done) h 10 jobs = Returned l /\ ~ Permutation l jobs.
Proof.
  exists (fun _ j => if j =? 1 then OnHost else Done), [0; 1], [0]. split; [reflexivity|].
  intros H. apply Permutation_length in H. discriminate.
Qed.

Lemma host_livelock :
  exists (w : Z -> outcome) h jobs, forall fuel,
    distribute true false w h fuel jobs = OutOfFuel.
Proof.
  exists (fun _ => OnHost), (fun _ _ => OnHost), [0]. intros fuel. cbn.
  now apply clear_queue_livelock.
Qed.

(** C06 *)
Lemma verdict_history_independent h1 h2 c :
  fst (recon_validate (table_after h1) c) = fst (recon_validate (table_after h2) c).
Proof. now rewrite !validate_verdict. Qed.

Local Open Scope string_scope.
Lemma acceptable_examples :
  acceptable mlem_call /\
  ~ acceptable {| c_alg := AlgName "gridrec"; c_kwargs := ["num_iter"]; c_dy := 4; c_dt := 9;
                  c_ntheta := 9; c_center := CenterNone |}.
Proof.
  split.
  - unfold acceptable. cbn. repeat split. eexists. split; [reflexivity|].
    intros k [<-|[]]. cbn. tauto.
  - unfold acceptable. cbn. intros (_ & _ & v & [= <-] & H).
    specialize (H "num_iter" (or_introl eq_refl)). cbn in H.
    repeat (destruct H as [H|H]; [discriminate|]). exact H.
Qed.

Lemma table_grows k :
  exists v, lookup (table_after (repeat mlem_call k)) "mlem" = Some v /\ length v = (3 + 6 * k)%nat.
Proof.
  pose proof (table_growth k) as H.
  destruct (lookup (table_after (repeat mlem_call k)) "mlem") as [v|]; [eauto|contradiction].
Qed.
Local Close Scope string_scope.

(** C07 *)
Lemma plan_cover cpu n ncore nchunk k slcs :
  1 <= n -> 1 <= cpu -> none_or_ge 0 ncore -> none_or_ge 0 nchunk ->
  dist_plan cpu n true ncore nchunk = Ok (k, slcs) -> covers_in_order n slcs.
Proof.
  intros Hn Hcpu Hk Hc E.
  destruct (dist_plan_cover cpu n ncore nchunk Hn Hcpu Hk Hc) as (k' & l' & E' & H & _).
  unfold Ok in *. rewrite E in E'. injection E' as -> ->. exact H.
Qed.

Lemma plan_always_exists cpu n ncore nchunk :
  1 <= n -> 1 <= cpu -> none_or_ge 0 ncore -> none_or_ge 0 nchunk ->
  exists k slcs, dist_plan cpu n true ncore nchunk = Ok (k, slcs) /\ 1 <= k /\ covers_in_order n slcs.
Proof.
  intros Hn Hcpu Hk Hc.
  destruct (dist_plan_cover cpu n ncore nchunk Hn Hcpu Hk Hc) as (k' & l' & E' & H & H1).
  exists k', l'. auto.
Qed.

Lemma each_slice_once V (d : V) (g : list V -> V) cpu n ncore nchunk k slcs m0 m :
  1 <= n -> 1 <= cpu -> none_or_ge 0 ncore -> none_or_ge 0 nchunk ->
  dist_plan cpu n true ncore nchunk = Ok (k, slcs) ->
  some_schedule cell_eq m0 (recon_jobs d (kernel_per_slice g) n slcs) m ->
  covers_in_order n slcs /\
  (forall i, 0 <= i < n -> m (2%nat, i) = g [m0 (0%nat, i); m0 (1%nat, i); m0 (2%nat, i)]) /\
  (forall a i, a <> 2%nat -> m (a, i) = m0 (a, i)).
Proof.
  intros Hn Hcpu Hk Hc E (ts & Hst & Hfin).
  pose proof (plan_cover _ _ _ _ _ _ Hn Hcpu Hk Hc E) as Hcov. split; auto.
  eapply per_slice_result; eauto.
Qed.

(** C08 *)
Lemma env_leak str (parse : str -> option Z) show nonempty :
  (forall z, parse (show z) = Some z) ->
  exists c1 c2,
    env_after str parse show nonempty 8 [c1] None <> None /\
    fst (env_step str parse show nonempty 8 c2 None) = Ok 8 /\
    fst (env_step str parse show nonempty 8 c2 (env_after str parse show nonempty 8 [c1] None)) = Ok 1.
Proof. intros H. do 2 eexists. exact (env_leak_limits str parse show nonempty H). Qed.

Lemma env_poison str (parse : str -> option Z) show nonempty :
  (forall z, nonempty (show z) = true) -> (forall z, parse (show z) = Some z) ->
  exists bad, forall cpu, 1 <= cpu -> forall c,
    1 <= e_n str c -> e_ncore str c = None -> e_nchunk str c = None -> e_rest str c = true ->
    fst (env_step str parse show nonempty cpu c
           (env_after str parse show nonempty cpu [bad] None)) = Raise ValueError.
Proof.
  intros H0 H. eexists. intros cpu Hcpu c H1 H2 H3 H4.
  exact (env_poisoned str parse show nonempty H0 H c H1 H2 H3 H4 cpu Hcpu).
Qed.

(** C29, C41 *)
Lemma gridrec_common_center V (d : V) (g : list V -> V) cpu n ncore nchunk k slcs m0 m c :
  1 <= n -> 1 <= cpu -> none_or_ge 0 ncore -> none_or_ge 0 nchunk ->
  dist_plan cpu n true ncore nchunk = Ok (k, slcs) ->
  (forall i, 0 <= i < n -> m0 (1%nat, i) = c) ->
  some_schedule cell_eq m0 (recon_jobs d (kernel_pair_center d g) n slcs) m ->
  forall i, 0 <= i < n -> m (2%nat, i) = g [m0 (0%nat, i); c; m0 (2%nat, i)].
Proof.
  intros Hn Hcpu Hk Hc E Heq (ts & Hst & Hfin).
  pose proof (plan_cover _ _ _ _ _ _ Hn Hcpu Hk Hc E) as Hcov.
  exact (pair_center_result d g n slcs m0 m ts c Hcov Heq Hst Hfin).
Qed.

Lemma art_common_center V (d : V) (g : list V -> V) cpu n ncore nchunk k slcs m0 m c :
  1 <= n -> 1 <= cpu -> none_or_ge 0 ncore -> none_or_ge 0 nchunk ->
  dist_plan cpu n true ncore nchunk = Ok (k, slcs) ->
  (forall i, 0 <= i < n -> m0 (1%nat, i) = c) ->
  some_schedule cell_eq m0 (recon_jobs d (kernel_first_center d g) n slcs) m ->
  forall i, 0 <= i < n -> m (2%nat, i) = g [m0 (0%nat, i); c; m0 (2%nat, i)].
Proof.
  intros Hn Hcpu Hk Hc E Heq (ts & Hst & Hfin).
  pose proof (plan_cover _ _ _ _ _ _ Hn Hcpu Hk Hc E) as Hcov.
  exact (first_center_result d g n slcs m0 m ts c Hcov Heq Hst Hfin).
Qed.

Definition center_of (r : list Z) : Z := nth 1 r 0.

Lemma gridrec_center_refuted :
  exists (g : list Z -> Z) (m0 : cell -> Z), forall s1 s2 m1 m2,
    dist_plan 8 2 true (Some 1) None = Ok (1, s1) ->
    dist_plan 8 2 true (Some 2) None = Ok (2, s2) ->
    some_schedule cell_eq m0 (recon_jobs 0 (kernel_pair_center 0 g) 2 s1) m1 ->
    some_schedule cell_eq m0 (recon_jobs 0 (kernel_pair_center 0 g) 2 s2) m2 ->
    m1 (2%nat, 1) <> m2 (2%nat, 1).
Proof.
  exists center_of, (fun c => snd c). intros s1 s2 m1 m2 E1 E2 (t1 & H1 & F1) (t2 & H2 & F2).
  assert (s1 = [Range 0 2]) as -> by (vm_compute in E1; congruence).
  assert (s2 = [Range 0 1; Range 1 2]) as -> by (vm_compute in E2; congruence).
  assert (A1 : m1 (2%nat, 1) = 0).
  { destruct (pure_jobs_result _ 3 2 2 [Range 0 2] _ m1 t1 eq_refl H1 F1) as [R _].
    apply (R (Range 0 2) 1%nat 1 0); [now left|reflexivity|reflexivity]. }
  assert (A2 : m2 (2%nat, 1) = 1).
  { destruct (pure_jobs_result _ 3 2 2 [Range 0 1; Range 1 2] _ m2 t2 eq_refl H2 F2) as [R _].
    apply (R (Range 1 2) 0%nat 1 1); [right; now left|reflexivity|reflexivity]. }
  lia.
Qed.

Lemma art_center_refuted :
  exists (g : list Z -> Z) (m0 : cell -> Z), forall s1 s2 m1 m2,
    dist_plan 8 2 true (Some 1) None = Ok (1, s1) ->
    dist_plan 8 2 true (Some 2) None = Ok (2, s2) ->
    some_schedule cell_eq m0 (recon_jobs 0 (kernel_first_center 0 g) 2 s1) m1 ->
    some_schedule cell_eq m0 (recon_jobs 0 (kernel_first_center 0 g) 2 s2) m2 ->
    m1 (2%nat, 1) <> m2 (2%nat, 1).
Proof.
  exists center_of, (fun c => snd c). intros s1 s2 m1 m2 E1 E2 (t1 & H1 & F1) (t2 & H2 & F2).
  assert (s1 = [Range 0 2]) as -> by (vm_compute in E1; congruence).
  assert (s2 = [Range 0 1; Range 1 2]) as -> by (vm_compute in E2; congruence).
  assert (A1 : m1 (2%nat, 1) = 0).
  { destruct (pure_jobs_result _ 3 2 2 [Range 0 2] _ m1 t1 eq_refl H1 F1) as [R _].
    apply (R (Range 0 2) 1%nat 1 0); [now left|reflexivity|reflexivity]. }
  assert (A2 : m2 (2%nat, 1) = 1).
  { destruct (pure_jobs_result _ 3 2 2 [Range 0 1; Range 1 2] _ m2 t2 eq_refl H2 F2) as [R _].
    apply (R (Range 1 2) 0%nat 1 1); [right; now left|reflexivity|reflexivity]. }
  lia.
Qed.

(** C42 *)
Lemma local_prior_result V (d : V) prior (g : list V -> V -> V) n slcs m0 m ts :
  covers_in_order n slcs ->
  steps cell_eq m0 (recon_jobs d (kernel_local_prior d prior g) n slcs) m ts -> finished ts ->
  forall s k i, In s slcs -> nth_error (slc_indices n s) k = Some i ->
    m (2%nat, i) = g [m0 (0%nat, i); m0 (1%nat, i); m0 (2%nat, i)] (prior k).
Proof.
  intros Hcov Hst Hfin s k i Hs Hk.
  destruct (pure_jobs_result _ 3 2 n slcs m0 m ts Hcov Hst Hfin) as [H1 _].
  eapply H1; eauto. rewrite columns_reads by lia. unfold kernel_local_prior.
  assert (Hlen : (k < length (slc_indices n s))%nat) by (apply nth_error_Some; congruence).
  rewrite map_length.
  erewrite map_nth_error.
  2:{ rewrite (nth_error_nth' _ 0%nat) by (rewrite seq_length; lia). rewrite seq_nth by lia. reflexivity. }
  cbn [Nat.add]. do 2 f_equal. apply nth_error_nth. erewrite map_nth_error by eauto. reflexivity.
Qed.

Lemma prior_single_chunk V (d : V) (prior : nat -> V) (g : list V -> V -> V) n m0 m :
  1 <= n ->
  some_schedule cell_eq m0 (recon_jobs d (kernel_local_prior d prior g) n [Range 0 n]) m ->
  forall i, 0 <= i < n ->
    m (2%nat, i) = g [m0 (0%nat, i); m0 (1%nat, i); m0 (2%nat, i)] (prior (Z.to_nat i)).
Proof.
  intros Hn (ts & Hst & Hfin) i Hi.
  eapply local_prior_result with (slcs := [Range 0 n]) (s := Range 0 n); eauto.
  - unfold covers_in_order. cbn [map concat slc_indices]. rewrite Z.min_id, app_nil_r. reflexivity.
  - now left.
  - cbn [slc_indices]. rewrite Z.min_id. rewrite nth_error_zrange by lia. f_equal. lia.
Qed.

Lemma prior_misaligned V (d : V) (prior : nat -> V) (g : list V -> V -> V) cpu n k slcs m0 m :
  1 <= n <= cpu ->
  dist_plan cpu n true None None = Ok (k, slcs) ->
  some_schedule cell_eq m0 (recon_jobs d (kernel_local_prior d prior g) n slcs) m ->
  forall i, 0 <= i < n ->
    m (2%nat, i) = g [m0 (0%nat, i); m0 (1%nat, i); m0 (2%nat, i)] (prior 0%nat).
Proof.
  intros Hn E (ts & Hst & Hfin) i Hi.
  assert (Hcov : covers_in_order n slcs).
  { eapply plan_cover; [| | | |exact E]; try lia; intros ? [=]. }
  destruct (in_cover n slcs i Hcov Hi) as (s & q & Hs & Hq).
  assert (Hlen : length (slc_indices n s) = 1%nat).
  { unfold dist_plan in E.
    destruct (get_ncore_slices cpu n None None) as [e|[k0 l]] eqn:E0; [discriminate|].
    injection E as <- <-. apply filter_In in Hs. destruct Hs as [Hs _].
    destruct (slices_balanced cpu n None k0 l ltac:(lia) ltac:(lia) ltac:(discriminate) E0) as (Hk & _ & Hb).
    cbn in Hk. assert (k0 = n) as -> by lia.
    destruct (Hb s Hs) as (a & b & -> & Hb1 & Hb2).
    assert (Hlow : n / n = 1) by (apply Z.div_same; lia).
    pose proof (ncore_slices_cover cpu n None None n l ltac:(lia) ltac:(discriminate) E0) as Hc0.
    (* sizes: all chunks have size n/n or n/n + 1; exactly one leftover class is possible *)
    unfold get_ncore_slices, build_slices in E0. cbn [default_ncore] in E0.
    replace (Z.min cpu n) with n in E0 by lia.
    replace (n =? 0) with false in E0 by lia. replace (n <? 0) with false in E0 by lia.
    assert (El : consecutive (0 :: cumsum 0 (chunk_sizes n n)) = l) by (unfold Ok in E0; congruence).
    rewrite <- El in Hs. apply In_nth_error in Hs. destruct Hs as (j & Hj).
    assert (Hjl : (j < length (chunk_sizes n n))%nat).
    { rewrite <- (consecutive_length (chunk_sizes n n) 0). apply nth_error_Some. congruence. }
    destruct (nth_error (chunk_sizes n n) j) as [x|] eqn:Ex; [|apply nth_error_None in Ex; lia].
    destruct (consecutive_sizes _ 0 _ _ Ex) as (a' & Ha).
    rewrite Ha in Hj. injection Hj as -> <-.
    assert (x = 1).
    { unfold chunk_sizes in Ex. rewrite nth_error_map in Ex.
      destruct (nth_error (zrange 0 n) j) as [y|] eqn:Ey; [|discriminate].
      injection Ex as <-. apply nth_error_In in Ey. apply in_zrange in Ey.
      rewrite Z.mod_same, Hlow by lia. replace (y <? 0) with false by lia. reflexivity. }
    subst x. cbn [slc_indices] in Hq |- *. rewrite zrange_length.
    assert (a < Z.min (a + 1) n).
    { assert (Hin : In i (zrange a (Z.min (a + 1) n))) by (eapply nth_error_In; eauto).
      apply in_zrange in Hin. lia. }
    lia. }
  assert (q = 0%nat) as ->.
  { assert (q < length (slc_indices n s))%nat by (apply nth_error_Some; congruence). lia. }
  eapply local_prior_result; eauto.
Qed.

(** C43 *)
Lemma zero_ncore_rejected cpu n :
  1 <= n -> 1 <= cpu -> distribute_slices cpu n (Some 0) None = Raise ZeroDivisionError.
Proof.
  intros Hn Hcpu. unfold distribute_slices, get_ncore_nchunk.
  replace (cpu <? 0) with false by lia. cbn [Z.ltb Z.compare].
  assert (Hq : cdiv n 1 = n). { pose proof (cdiv_spec n (b := 1%Z) ltac:(lia)). lia. }
  rewrite Hq. replace (n <? 0) with false by lia. reflexivity.
Qed.

(** Example of an interleaving for C04. *)
Lemma two_jobs_interleaved :
  let slcs := [Range 0 1; Range 1 2] in
  distribute_slices 2 2 None None = Ok (2, slcs) /\
  some_schedule cell_eq (fun c => snd c) (jobs (map (fun x => x + 7)) 1 0 2 slcs)
    (fun c => if cell_eq c (0%nat, 0) then 7 else if cell_eq c (0%nat, 1) then 8 else snd c).
Proof.
  split; [reflexivity|].
  eexists. split.
  - eapply steps_one with (i := 1%nat); [reflexivity|reflexivity|].
    eapply steps_one with (i := 0%nat); [reflexivity|reflexivity|].
    eapply steps_one with (i := 1%nat); [reflexivity|reflexivity|].
    eapply steps_one with (i := 0%nat); [reflexivity|reflexivity|].
    apply steps_done.
  - intros t [<-|[<-|[]]]; reflexivity.
Qed.
