(** Work splitting, scheduling, validation, process state: C01-C08, C29, C41-C45. *)
From Coq Require String.
Import String.StringSyntax.
From Verif Require Import Base Model_Mproc Model_Sched Model_Recon Spec.
From Verif Require Import Proofs_Mproc Proofs_Sched Proofs_Recon Proofs_Parallel.
Local Open Scope Z_scope.

(** ** C01 *)
Theorem C01_recon_slices_cover : forall cpu n ncore nchunk,
  1 <= n -> 1 <= cpu -> none_or_ge 0 ncore -> none_or_ge 0 nchunk ->
  exists k slcs, get_ncore_slices cpu n ncore nchunk = Ok (k, slcs) /\ covers_in_order n slcs.
Proof. exact recon_slices_cover. Qed.
Print Assumptions C01_recon_slices_cover.

Example C01_recon_slices_cover_ex :
  get_ncore_slices 8 10 (Some 4) None = Ok (4, [Range 0 3; Range 3 6; Range 6 8; Range 8 10]) /\
  get_ncore_slices 8 10 None (Some 4) = Ok (8, [Range 0 4; Range 4 8; Range 8 12]).
Proof. split; reflexivity. Qed.

Theorem C01_distribute_slices_cover : forall cpu n ncore nchunk,
  1 <= n -> 1 <= cpu -> none_or_ge 1 ncore -> none_or_ge 0 nchunk ->
  exists k slcs, distribute_slices cpu n ncore nchunk = Ok (k, slcs) /\ covers_in_order n slcs.
Proof. exact distribute_slices_cover. Qed.
Print Assumptions C01_distribute_slices_cover.

Example C01_distribute_slices_cover_ex :
  distribute_slices 4 10 None None = Ok (4, [Range 0 3; Range 3 6; Range 6 9; Range 9 12]) /\
  distribute_slices 4 3 (Some 2) (Some 0) = Ok (2, [Index 0; Index 1; Index 2]).
Proof. split; reflexivity. Qed.

Theorem C01_empty_axis_rejected : forall cpu ncore,
  1 <= cpu -> none_or_ge 0 ncore ->
  get_ncore_slices cpu 0 ncore None = Raise ZeroDivisionError /\
  distribute_slices cpu 0 ncore None = Raise ZeroDivisionError.
Proof. exact empty_axis_rejected. Qed.
Print Assumptions C01_empty_axis_rejected.

(** ** C02 *)
Theorem C02_default_split_balanced : forall cpu n ncore k slcs,
  1 <= n -> 1 <= cpu -> none_or_ge 0 ncore ->
  get_ncore_slices cpu n ncore None = Ok (k, slcs) ->
  k = Z.min (default_ncore cpu ncore) n /\
  Z.of_nat (length slcs) = k /\
  covers_in_order n slcs /\
  (forall s, In s slcs -> exists a b, s = Range a b /\ 1 <= b - a /\ n / k <= b - a <= n / k + 1).
Proof. exact default_split_balanced. Qed.
Print Assumptions C02_default_split_balanced.

Example C02_default_split_balanced_ex :
  get_ncore_slices 64 7 (Some 3) None = Ok (3, [Range 0 3; Range 3 5; Range 5 7]).
Proof. reflexivity. Qed.

Theorem C02_chunks_for_all_cores : forall cpu n ncore,
  1 <= n -> 1 <= cpu -> none_or_ge 1 ncore ->
  exists k c, get_ncore_nchunk cpu n ncore None = Ok (k, c) /\
    1 <= k <= cpu /\ 1 <= c <= n /\ n <= k * c.
Proof. exact chunks_for_all_cores. Qed.
Print Assumptions C02_chunks_for_all_cores.

(** ** C03 *)
Theorem C03_ranks_partition_slices : forall np_int cpu n ncore nchunk nproc,
  1 <= nproc -> 1 <= cpu -> none_or_ge 0 ncore ->
  (nchunk = None -> np_int = true) ->
  exists k slcs, build_slices n (default_ncore cpu ncore) nchunk = Ok slcs /\
    k = default_ncore cpu ncore /\
    exists parts,
      (forall r, 0 <= r < nproc ->
         get_worker_ncore_slices np_int cpu n ncore nchunk nproc r = Ok (k, parts r)) /\
      concat (map parts (zrange 0 nproc)) = slcs.
Proof. exact ranks_partition_slices. Qed.
Print Assumptions C03_ranks_partition_slices.

Theorem C03_ranks_cover_axis : forall np_int cpu n ncore nchunk nproc,
  1 <= nproc -> 1 <= cpu -> 0 <= n -> none_or_ge 0 ncore -> none_or_ge 0 nchunk ->
  (nchunk = None -> np_int = true) ->
  exists parts,
      (forall r, 0 <= r < nproc ->
         exists k, get_worker_ncore_slices np_int cpu n ncore nchunk nproc r = Ok (k, parts r)) /\
      covers_in_order n (concat (map parts (zrange 0 nproc))).
Proof. exact ranks_cover_axis. Qed.
Print Assumptions C03_ranks_cover_axis.

Example C03_ranks_ex :
  get_worker_ncore_slices true 4 9 None (Some 2) 2 0 = Ok (4, [Range 0 2; Range 2 4; Range 4 6]) /\
  get_worker_ncore_slices true 4 9 None (Some 2) 2 1 = Ok (4, [Range 6 8; Range 8 10]).
Proof. split; reflexivity. Qed.

(** With a numpy that no longer has the alias np.int the default split always raises. *)
Theorem C03_default_split_refuted : forall cpu n ncore nproc r,
  1 <= cpu -> none_or_ge 0 ncore ->
  get_worker_ncore_slices false cpu n ncore None nproc r = Raise AttributeError.
Proof. exact worker_np_int. Qed.
Print Assumptions C03_default_split_refuted.

(** ** C04 *)
Theorem C04_schedule_independent : forall V (f : list V -> list V) narr out cpu n ncore nchunk k slcs m0 m,
  1 <= n -> 1 <= cpu -> none_or_ge 1 ncore -> none_or_ge 0 nchunk ->
  distribute_slices cpu n ncore nchunk = Ok (k, slcs) ->
  some_schedule cell_eq m0 (jobs f narr out n slcs) m ->
  forall c, m c = run_sequential cell_eq (jobs f narr out n slcs) m0 c.
Proof. exact distribute_schedule_independent. Qed.
Print Assumptions C04_schedule_independent.

(** The same for arbitrary, possibly in-place, job programs that stay inside their own slice. *)
Theorem C04_schedule_independent_in_place :
  forall Cell V L (ceq : forall x y : Cell, {x = y} + {x <> y}) (F : nat -> Cell -> Prop)
         (ts : list (@thread Cell V L)) m0 m,
  (forall c, {exists i, (i < length ts)%nat /\ F i c} + {forall i, (i < length ts)%nat -> ~ F i c}) ->
  separated F ts -> some_schedule ceq m0 ts m ->
  (forall c, m c = run_sequential ceq ts m0 c) /\
  (forall c, (forall i, (i < length ts)%nat -> ~ F i c) -> m c = m0 c).
Proof. exact in_place_schedule_independent. Qed.
Print Assumptions C04_schedule_independent_in_place.

Theorem C04_any_split_any_schedule : forall V (g : V -> V) cpu n ncore nchunk k slcs m0 m,
  1 <= n -> 1 <= cpu -> none_or_ge 1 ncore -> none_or_ge 0 nchunk ->
  distribute_slices cpu n ncore nchunk = Ok (k, slcs) ->
  some_schedule cell_eq m0 (jobs (map g) 1 0 n slcs) m ->
  (forall i, 0 <= i < n -> m (0%nat, i) = g (m0 (0%nat, i))) /\
  (forall a i, (a <> 0%nat \/ ~ 0 <= i < n) -> m (a, i) = m0 (a, i)).
Proof. exact any_split_any_schedule. Qed.
Print Assumptions C04_any_split_any_schedule.

(** Schedules always exist, from every configuration. *)
Theorem C04_some_schedule_completes :
  forall Cell V L (ceq : forall x y : Cell, {x = y} + {x <> y}) (ts : list (@thread Cell V L)) m0,
  exists m, some_schedule ceq m0 ts m.
Proof. exact some_schedule_completes. Qed.
Print Assumptions C04_some_schedule_completes.

(** Two jobs, executed with their writes interleaved the other way round. *)
Example C04_ex :
  let slcs := [Range 0 1; Range 1 2] in
  distribute_slices 2 2 None None = Ok (2, slcs) /\
  some_schedule cell_eq (fun c => snd c) (jobs (map (fun x => x + 7)) 1 0 2 slcs)
    (fun c => if cell_eq c (0%nat, 0) then 7 else if cell_eq c (0%nat, 1) then 8 else snd c).
Proof. exact two_jobs_interleaved. Qed.

(** ** C05 *)
Theorem C05_returned_means_all_ran : forall J (w : J -> outcome) h fuel died jobs order l,
  Permutation order jobs ->
  distribute true died w h fuel order = Returned l -> Permutation l jobs.
Proof. exact returned_means_all_ran. Qed.
Print Assumptions C05_returned_means_all_ran.

Theorem C05_failure_raises : forall J (w : J -> outcome) h fuel died jobs order,
  Permutation order jobs ->
  (exists j e, In j jobs /\ w j = Fail e) ->
  exists e, distribute true died w h fuel order = Raised e.
Proof. exact failure_raises. Qed.
Print Assumptions C05_failure_raises.

Theorem C05_host_fallback_completes : forall J (w : J -> outcome) h fuel jobs order,
  Permutation order jobs ->
  (forall j, In j jobs -> forall e, w j <> Fail e) ->
  (forall k j, h k j = Done) -> (length jobs <= fuel)%nat ->
  exists l, distribute true false w h fuel order = Returned l /\ Permutation l jobs.
Proof. exact host_fallback_completes. Qed.
Print Assumptions C05_host_fallback_completes.

Example C05_ex :
  distribute true false (fun j => if j =? 2 then OnHost else Done) (fun _ _ => Done) 5 [3; 1; 2]
  = Returned [3; 1; 2] /\
  distribute true false (fun j => if j =? 2 then Fail UserError else Done) (fun _ _ => Done) 5 [3; 1; 2]
  = Raised UserError.
Proof. split; reflexivity. Qed.

(** ** C44
    On one core (or in debug mode) a job asking for the host is dropped and the call still returns. *)
Theorem C44_single_core_refuted :
  exists (h : nat -> Z -> outcome) jobs l,
    distribute false false (fun _ => Done) h 10 jobs = Returned l /\ ~ Permutation l jobs.
Proof. exact single_core_drops_job. Qed.
Print Assumptions C44_single_core_refuted.

(** A job that keeps asking for the host makes the call loop for ever. *)
Theorem C44_termination_refuted :
  exists (w : Z -> outcome) h jobs, forall fuel,
    distribute true false w h fuel jobs = OutOfFuel.
Proof. exact host_livelock. Qed.
Print Assumptions C44_termination_refuted.

(** ** C06 *)
Theorem C06_validation_exact_any_history : forall history c,
  (acceptable c -> fst (recon_validate (table_after history) c) = Ok tt) /\
  (~ acceptable c -> fst (recon_validate (table_after history) c) = Raise ValueError).
Proof. exact validate_exact. Qed.
Print Assumptions C06_validation_exact_any_history.

Theorem C06_verdict_history_independent : forall history1 history2 c,
  fst (recon_validate (table_after history1) c) = fst (recon_validate (table_after history2) c).
Proof. exact verdict_history_independent. Qed.
Print Assumptions C06_verdict_history_independent.

Local Open Scope string_scope.
Example C06_ex :
  acceptable mlem_call /\
  ~ acceptable {| c_alg := AlgName "gridrec"; c_kwargs := ["num_iter"]; c_dy := 4; c_dt := 9;
                  c_ntheta := 9; c_center := CenterNone |}.
Proof. exact acceptable_examples. Qed.

(** The module level keyword table is not left alone: each call adds six words to it. *)
Theorem C06_table_unchanged_refuted : forall k,
  exists v, lookup (table_after (repeat mlem_call k)) "mlem" = Some v /\ length v = (3 + 6 * k)%nat.
Proof. exact table_grows. Qed.
Print Assumptions C06_table_unchanged_refuted.
Local Close Scope string_scope.

(** ** C07 *)
Theorem C07_each_slice_once_any_schedule :
  forall V (d : V) (g : list V -> V) cpu n ncore nchunk k slcs m0 m,
  1 <= n -> 1 <= cpu -> none_or_ge 0 ncore -> none_or_ge 0 nchunk ->
  dist_plan cpu n true ncore nchunk = Ok (k, slcs) ->
  some_schedule cell_eq m0 (recon_jobs d (kernel_per_slice g) n slcs) m ->
  covers_in_order n slcs /\
  (forall i, 0 <= i < n -> m (2%nat, i) = g [m0 (0%nat, i); m0 (1%nat, i); m0 (2%nat, i)]) /\
  (forall a i, a <> 2%nat -> m (a, i) = m0 (a, i)).
Proof. exact each_slice_once. Qed.
Print Assumptions C07_each_slice_once_any_schedule.

Theorem C07_plan_always_exists : forall cpu n ncore nchunk,
  1 <= n -> 1 <= cpu -> none_or_ge 0 ncore -> none_or_ge 0 nchunk ->
  exists k slcs, dist_plan cpu n true ncore nchunk = Ok (k, slcs) /\ 1 <= k /\ covers_in_order n slcs.
Proof. exact plan_always_exists. Qed.
Print Assumptions C07_plan_always_exists.

Example C07_ex :
  dist_plan 4 6 true None (Some 4) = Ok (2, [Range 0 4; Range 4 8]).
Proof. reflexivity. Qed.

(** ** C08 *)
Theorem C08_env_restored :
  forall str (parse : str -> option Z) show nonempty,
  (forall z, nonempty (show z) = true) ->
  forall cpu n rest_pos ncore nchunk body env k env',
  quiet str body ->
  dist_recon_env str parse show nonempty cpu n rest_pos ncore nchunk body env = (Ok k, env') ->
  env' = env.
Proof. exact env_restored_ok. Qed.
Print Assumptions C08_env_restored.

Theorem C08_env_restored_any_history :
  forall str (parse : str -> option Z) show nonempty,
  (forall z, nonempty (show z) = true) ->
  forall cpu h env,
  (forall c, In c h -> quiet str (e_body str c)) ->
  (forall h1 c h2, h = h1 ++ c :: h2 ->
     exists k, fst (env_step str parse show nonempty cpu c
                      (env_after str parse show nonempty cpu h1 env)) = Ok k) ->
  env_after str parse show nonempty cpu h env = env.
Proof. exact env_history_ok. Qed.
Print Assumptions C08_env_restored_any_history.

Example C08_ex :
  dist_recon_env Z (fun z => Some z) (fun z => z) (fun _ => true) 8 10 true (Some 4) None
    (fun e => (Ok tt, e)) (Some 2) = (Ok 2, Some 2).
Proof. reflexivity. Qed.

(** ** C45: when the algorithm raises, the variable keeps the thread count of the failed
    call, and later calls are limited by it. *)
Theorem C45_env_after_exception_refuted :
  forall str (parse : str -> option Z) show nonempty,
  (forall z, parse (show z) = Some z) ->
  exists c1 c2,
    env_after str parse show nonempty 8 [c1] None <> None /\
    fst (env_step str parse show nonempty 8 c2 None) = Ok 8 /\
    fst (env_step str parse show nonempty 8 c2 (env_after str parse show nonempty 8 [c1] None)) = Ok 1.
Proof. exact env_leak. Qed.
Print Assumptions C45_env_after_exception_refuted.

(** One call on a stack with a zero dimension makes all later calls raise. *)
Theorem C45_env_poisoned_refuted :
  forall str (parse : str -> option Z) show nonempty,
  (forall z, nonempty (show z) = true) -> (forall z, parse (show z) = Some z) ->
  exists bad, forall cpu, 1 <= cpu -> forall c,
    1 <= e_n str c -> e_ncore str c = None -> e_nchunk str c = None -> e_rest str c = true ->
    fst (env_step str parse show nonempty cpu c
           (env_after str parse show nonempty cpu [bad] None)) = Raise ValueError.
Proof. exact env_poison. Qed.
Print Assumptions C45_env_poisoned_refuted.

Theorem C08_numexpr_threads_restored : forall cpu maxt p s,
  1 <= s <= maxt -> snd (exec_prog cpu maxt p s) = s.
Proof. exact exec_prog_restores. Qed.
Print Assumptions C08_numexpr_threads_restored.

Example C08_numexpr_ex :
  exec_prog 8 64 (PWith (Some 3) (PSeq (PWith None PSkip) PRaise)) 5 = (true, 5).
Proof. reflexivity. Qed.

(** ** C29 *)
(** Partial: with one common centre the slices do not influence each other. *)
Theorem C29_gridrec_common_center_partial :
  forall V (d : V) (g : list V -> V) cpu n ncore nchunk k slcs m0 m c,
  1 <= n -> 1 <= cpu -> none_or_ge 0 ncore -> none_or_ge 0 nchunk ->
  dist_plan cpu n true ncore nchunk = Ok (k, slcs) ->
  (forall i, 0 <= i < n -> m0 (1%nat, i) = c) ->
  some_schedule cell_eq m0 (recon_jobs d (kernel_pair_center d g) n slcs) m ->
  forall i, 0 <= i < n -> m (2%nat, i) = g [m0 (0%nat, i); c; m0 (2%nat, i)].
Proof. exact gridrec_common_center. Qed.
Print Assumptions C29_gridrec_common_center_partial.

(** Missing part of C29: with one centre per slice the slice results depend on the core count. *)
Theorem C29_gridrec_own_center_refuted :
  exists (g : list Z -> Z) (m0 : cell -> Z), forall s1 s2 m1 m2,
    dist_plan 8 2 true (Some 1) None = Ok (1, s1) ->
    dist_plan 8 2 true (Some 2) None = Ok (2, s2) ->
    some_schedule cell_eq m0 (recon_jobs 0 (kernel_pair_center 0 g) 2 s1) m1 ->
    some_schedule cell_eq m0 (recon_jobs 0 (kernel_pair_center 0 g) 2 s2) m2 ->
    m1 (2%nat, 1) <> m2 (2%nat, 1).
Proof. exact gridrec_center_refuted. Qed.
Print Assumptions C29_gridrec_own_center_refuted.

Example C29_plans_exist :
  dist_plan 8 2 true (Some 1) None = Ok (1, [Range 0 2]) /\
  dist_plan 8 2 true (Some 2) None = Ok (2, [Range 0 1; Range 1 2]).
Proof. split; reflexivity. Qed.

(** ** C41: ART and the forward projector with one centre per slice *)
Theorem C41_art_common_center_partial :
  forall V (d : V) (g : list V -> V) cpu n ncore nchunk k slcs m0 m c,
  1 <= n -> 1 <= cpu -> none_or_ge 0 ncore -> none_or_ge 0 nchunk ->
  dist_plan cpu n true ncore nchunk = Ok (k, slcs) ->
  (forall i, 0 <= i < n -> m0 (1%nat, i) = c) ->
  some_schedule cell_eq m0 (recon_jobs d (kernel_first_center d g) n slcs) m ->
  forall i, 0 <= i < n -> m (2%nat, i) = g [m0 (0%nat, i); c; m0 (2%nat, i)].
Proof. exact art_common_center. Qed.
Print Assumptions C41_art_common_center_partial.

Theorem C41_art_own_center_refuted :
  exists (g : list Z -> Z) (m0 : cell -> Z), forall s1 s2 m1 m2,
    dist_plan 8 2 true (Some 1) None = Ok (1, s1) ->
    dist_plan 8 2 true (Some 2) None = Ok (2, s2) ->
    some_schedule cell_eq m0 (recon_jobs 0 (kernel_first_center 0 g) 2 s1) m1 ->
    some_schedule cell_eq m0 (recon_jobs 0 (kernel_first_center 0 g) 2 s2) m2 ->
    m1 (2%nat, 1) <> m2 (2%nat, 1).
Proof. exact art_center_refuted. Qed.
Print Assumptions C41_art_own_center_refuted.

(** ** C42: the Tikhonov prior *)
(** In a single chunk every slice meets its own prior ... *)
Theorem C42_prior_single_chunk_partial :
  forall V (d : V) (prior : nat -> V) (g : list V -> V -> V) n m0 m,
  1 <= n ->
  some_schedule cell_eq m0 (recon_jobs d (kernel_local_prior d prior g) n [Range 0 n]) m ->
  forall i, 0 <= i < n ->
    m (2%nat, i) = g [m0 (0%nat, i); m0 (1%nat, i); m0 (2%nat, i)] (prior (Z.to_nat i)).
Proof. exact prior_single_chunk. Qed.
Print Assumptions C42_prior_single_chunk_partial.

(** ... but with one slice per chunk (the default as soon as there are as many cores as slices)
    every slice is regularised with the prior of slice 0. *)
Theorem C42_prior_alignment_refuted :
  forall V (d : V) (prior : nat -> V) (g : list V -> V -> V) cpu n k slcs m0 m,
  1 <= n <= cpu ->
  dist_plan cpu n true None None = Ok (k, slcs) ->
  some_schedule cell_eq m0 (recon_jobs d (kernel_local_prior d prior g) n slcs) m ->
  forall i, 0 <= i < n ->
    m (2%nat, i) = g [m0 (0%nat, i); m0 (1%nat, i); m0 (2%nat, i)] (prior 0%nat).
Proof. exact prior_misaligned. Qed.
Print Assumptions C42_prior_alignment_refuted.

(** ** C43: invalid core and chunk counts *)
(** Refuted: a core count of -1 or a negative chunk size is accepted and no work is done. *)
Theorem C43_negative_ncore_refuted : forall cpu n,
  1 <= n -> 1 <= cpu -> distribute_slices cpu n (Some (-1)) None = Ok (-1, []).
Proof. exact distribute_negative_ncore. Qed.
Print Assumptions C43_negative_ncore_refuted.

Theorem C43_negative_nchunk_refuted : forall cpu n ncore c,
  1 <= n -> c < 0 -> exists k, distribute_slices cpu n ncore (Some c) = Ok (k, []).
Proof. exact distribute_negative_nchunk. Qed.
Print Assumptions C43_negative_nchunk_refuted.

(** What is rejected: zero cores in the default split. *)
Theorem C43_zero_ncore_rejected_partial : forall cpu n,
  1 <= n -> 1 <= cpu -> distribute_slices cpu n (Some 0) None = Raise ZeroDivisionError.
Proof. exact zero_ncore_rejected. Qed.
Print Assumptions C43_zero_ncore_rejected_partial.
