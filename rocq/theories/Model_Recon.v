(** Model of the reconstruction front end tomopy/recon/algorithm.py and of the failure handling
    of tomopy/util/mproc.py. *)
From Coq Require String.
Import String.StringSyntax.
From Verif Require Import Base Model_Mproc Model_Sched.
Notation string := String.string.
Local Open Scope string_scope.

(** ** Keyword tables (algorithm.py 71-103) *)
Definition table := list (string * list string).

Definition allowed_accelerated_kwargs : table :=
  [("mlem", ["accelerated"; "pool_size"; "interpolation"; "device"; "grid_size"; "block_size"]);
   ("sirt", ["accelerated"; "pool_size"; "interpolation"; "device"; "grid_size"; "block_size"])].

Definition allowed_recon_kwargs0 : table :=
  [("art", ["num_gridx"; "num_gridy"; "num_iter"]);
   ("bart", ["num_gridx"; "num_gridy"; "num_iter"; "num_block"; "ind_block"]);
   ("fbp", ["num_gridx"; "num_gridy"; "filter_name"; "filter_par"]);
   ("gridrec", ["num_gridx"; "num_gridy"; "filter_name"; "filter_par"]);
   ("mlem", ["num_gridx"; "num_gridy"; "num_iter"]);
   ("osem", ["num_gridx"; "num_gridy"; "num_iter"; "num_block"; "ind_block"]);
   ("ospml_hybrid", ["num_gridx"; "num_gridy"; "num_iter"; "reg_par"; "num_block"; "ind_block"]);
   ("ospml_quad", ["num_gridx"; "num_gridy"; "num_iter"; "reg_par"; "num_block"; "ind_block"]);
   ("pml_hybrid", ["num_gridx"; "num_gridy"; "num_iter"; "reg_par"]);
   ("pml_quad", ["num_gridx"; "num_gridy"; "num_iter"; "reg_par"]);
   ("sirt", ["num_gridx"; "num_gridy"; "num_iter"]);
   ("tv", ["num_gridx"; "num_gridy"; "num_iter"; "reg_par"]);
   ("grad", ["num_gridx"; "num_gridy"; "num_iter"; "reg_par"]);
   ("tikh", ["num_gridx"; "num_gridy"; "num_iter"; "reg_data"; "reg_par"])].

(** Keys of the dictionary returned by _get_algorithm_kwargs (algorithm.py 476-499). *)
Definition default_keys : list string :=
  ["num_gridx"; "num_gridy"; "filter_name"; "filter_par"; "num_iter"; "reg_par"; "reg_data";
   "num_block"; "ind_block"; "options"; "accelerated"; "pool_size"; "interpolation"; "device";
   "grid_size"; "block_size"].

Local Close Scope string_scope.

Fixpoint lookup (t : table) (k : string) : option (list string) :=
  match t with
  | [] => None
  | (k', v) :: r => if String.eqb k k' then Some v else lookup r k
  end.

(** [t[k] += ext] on the list object stored under [k]. *)
Fixpoint extend (t : table) (k : string) (ext : list string) : table :=
  match t with
  | [] => []
  | (k', v) :: r => if String.eqb k k' then (k', v ++ ext) :: r else (k', v) :: extend r k ext
  end.

Definition mem_str (x : string) (l : list string) : bool := existsb (String.eqb x) l.

(** ** The arguments of recon that its validation looks at (algorithm.py 106-114) *)
Inductive alg_arg : Type :=
| AlgName (s : string)     (* a str *)
| AlgCallable              (* an object with __call__ *)
| AlgOther.                (* anything else, e.g. the default None *)

(** The centre argument: None, something of size one, or an array with [len] entries on its
    first axis and a size different from one. *)
Inductive center_arg : Type :=
| CenterNone | CenterScalar | CenterArr (len : Z).

Record call : Type := {
  c_alg : alg_arg;
  c_kwargs : list string;      (* names of the keyword arguments given *)
  c_dy : Z;                    (* number of slices, tomo.shape[0] after init_tomo *)
  c_dt : Z;                    (* number of projections, tomo.shape[1] *)
  c_ntheta : Z;                (* len(theta) *)
  c_center : center_arg }.

(** sim/project.py 470-475 (get_center) followed by len(). *)
Definition center_len (c : call) : Z :=
  match c_center c with
  | CenterNone | CenterScalar => c_dy c
  | CenterArr n => n
  end.

(** recon up to the call of _dist_recon (algorithm.py 263-320).  The table is the module level
    dictionary allowed_recon_kwargs; copy.copy at line 276 copies the dictionary but not the lists
    in it, so [+=] at line 278 extends the list of the module level dictionary.
    Conversions of keyword values (293-300) are not modelled. *)
Definition recon_validate (t : table) (c : call) : result unit * table :=
  if negb (c_dt c =? c_ntheta c)%Z then (Raise ValueError, t)                 (* 265-267 *)
  else
    let after_center (t' : table) :=
      if negb (c_dy c =? center_len c)%Z then (Raise ValueError, t')          (* 318-320 *)
      else (Ok tt, t') in
    match c_alg c with
    | AlgName a =>
        let t' := match lookup allowed_accelerated_kwargs a with              (* 277-278 *)
                  | Some ext => extend t a ext
                  | None => t
                  end in
        match lookup t' a with
        | None => (Raise ValueError, t')                                      (* 281-284 *)
        | Some allowed =>
            if negb (forallb (fun k => mem_str k allowed) (c_kwargs c))
            then (Raise ValueError, t')                                       (* 287-290 *)
            else if negb (forallb (fun k => mem_str k default_keys) allowed)
            then (Raise KeyError, t')                                         (* 303-304 *)
            else after_center t'
        end
    | AlgCallable => after_center t                                           (* 306-309 *)
    | AlgOther => (Raise ValueError, t)                                       (* 310-313 *)
    end.

(** The table after a history of calls. *)
Definition table_after (h : list call) : table :=
  fold_left (fun t c => snd (recon_validate t c)) h allowed_recon_kwargs0.

(** ** Environment variable handling of _dist_recon (algorithm.py 392-468) *)
Section Env.
  Variable str : Type.                 (* contents of an environment variable *)
  Variable parse : str -> option Z.    (* int(...) ; None is a ValueError *)
  Variable show : Z -> str.            (* "{}".format(ncore) *)
  Variable nonempty : str -> bool.     (* truth value of a string *)

  (** Number of threads and usable slices before the environment is consulted (393-411).
      [rest_pos] says that all dimensions of the projection stack other than the slice axis are
      positive: a chunk is used when the smallest dimension of [tomo[slc]] is positive. *)
  Definition usable (n : Z) (rest_pos : bool) (s : slc) : bool :=
    match s with
    | Range a b => rest_pos && (0 <? Z.of_nat (length (slc_indices n (Range a b))))%Z
    | Index _ => rest_pos
    end.

  Definition dist_plan (cpu n : Z) (rest_pos : bool) (ncore nchunk : option Z)
    : result (Z * list slc) :=
    match get_ncore_slices cpu n ncore nchunk with
    | inl e => Raise e
    | inr (k, slcs) =>
        let k1 := if (Z.of_nat (length slcs) <? k)%Z then Z.of_nat (length slcs) else k in
        let use := filter (usable n rest_pos) slcs in
        let nreal := Z.of_nat (length use) in
        let k2 := if (nreal <? k1)%Z then nreal else k1 in
        Ok (k2, use)
    end.

  (** Limit by the variable, 414-420. *)
  Definition limit_ncore (env : option str) (k : Z) : result Z :=
    match env with
    | None => Ok k
    | Some s => match parse s with
                | None => Raise ValueError
                | Some p => Ok (if (p <? k)%Z then p else k)
                end
    end.

  (** Lines 461-466: put the old value back, or delete the variable when it was absent and is now
      set to a non-empty string. *)
  Definition restore_env (old now : option str) : option str :=
    match old with
    | Some s => Some s
    | None => match now with
              | Some t => if nonempty t then None else now
              | None => None
              end
    end.

  (** _dist_recon as a transformer of the environment variable.  [body] is the outcome of running
      the algorithm on the chunks; it may itself change the variable.  A pool with fewer than one
      worker is rejected by concurrent.futures (437, 450).  Result: outcome (the number of threads
      used) and new value of the variable. *)
  Definition dist_recon_env (cpu n : Z) (rest_pos : bool) (ncore nchunk : option Z)
      (body : option str -> result unit * option str) (env : option str)
    : result Z * option str :=
    match dist_plan cpu n rest_pos ncore nchunk with
    | inl e => (Raise e, env)
    | inr (k, use) =>
        match limit_ncore env k with
        | inl e => (Raise e, env)
        | inr k' =>
            let env1 := Some (show k') in                                     (* 425 *)
            if (k' <? 1)%Z then (Raise ValueError, env1)                      (* 437, 450 *)
            else match body env1 with
                 | (inl e, env2) => (Raise e, env2)                           (* 446, 458 *)
                 | (inr _, env2) => (Ok k', restore_env env env2)             (* 461-466 *)
                 end
        end
    end.

  (** One call of a history: problem size, requested cores and what the algorithm does. *)
  Record env_call : Type := {
    e_n : Z; e_rest : bool; e_ncore : option Z; e_nchunk : option Z;
    e_body : option str -> result unit * option str }.

  Definition env_step (cpu : Z) (c : env_call) (env : option str) : result Z * option str :=
    dist_recon_env cpu (e_n c) (e_rest c) (e_ncore c) (e_nchunk c) (e_body c) env.

  Definition env_after (cpu : Z) (h : list env_call) (env : option str) : option str :=
    fold_left (fun e c => snd (env_step cpu c e)) h env.
End Env.

(** ** numexpr thread count (mproc.py 405-418) *)
(** Code using the context manager: nested blocks, sequences, and raising anywhere. *)
Inductive prog : Type :=
| PSkip
| PRaise
| PSeq (p q : prog)
| PWith (nthreads : option Z) (p : prog).

(** ne.set_num_threads: rejects counts outside 1..maxt, otherwise sets and returns the old. *)
Definition ne_set (maxt n : Z) : option Z := if ((1 <=? n) && (n <=? maxt))%Z then Some n else None.

(** Result: raised?, thread count afterwards. *)
Fixpoint exec_prog (cpu maxt : Z) (p : prog) (s : Z) : bool * Z :=
  match p with
  | PSkip => (false, s)
  | PRaise => (true, s)
  | PSeq p q => let '(r, s1) := exec_prog cpu maxt p s in
                if r then (true, s1) else exec_prog cpu maxt q s1
  | PWith n p =>
      let k := match n with None => cpu | Some k => if (cpu <? k)%Z then cpu else k end in
      match ne_set maxt k with
      | None => (true, s)                                 (* __enter__ raises *)
      | Some s1 =>
          let '(r, _) := exec_prog cpu maxt p s1 in
          match ne_set maxt s with                        (* __exit__ *)
          | Some s2 => (r, s2)
          | None => (true, snd (exec_prog cpu maxt p s1))
          end
      end
  end.

(** ** Job failures in distribute_jobs (mproc.py 294-331, 368-398) *)
Section Failures.
  Context {J : Type}.

  (** What a job does when executed: finish, raise RunOnHostException, raise something else. *)
  Inductive outcome : Type := Done | OnHost | Fail (e : err).

  (** Jobs that finished, in order. *)
  Definition log := list J.

  Inductive run_result : Type :=
  | Returned (l : log)        (* distribute_jobs returned normally *)
  | Raised (e : err)
  | OutOfFuel.                (* still looping *)

  (** The pool executes the jobs in some order (mproc.py 294-320); failures surface in
      [res.get()], jobs asking for the host end up in the queue (385-386). *)
  Fixpoint run_pool (w : J -> outcome) (order : list J) : log * list J * option err :=
    match order with
    | [] => ([], [], None)
    | j :: t =>
        let '(l, q, f) := run_pool w t in
        match w j with
        | Done => (j :: l, q, f)
        | OnHost => (l, j :: q, f)
        | Fail e => (l, q, Some e)
        end
    end.

  (** clear_queue (mproc.py 395-398): pop and run until the queue is empty; a job that asks for
      the host again is put back at the end.  [h k j] is the outcome of the k-th execution on the
      host. *)
  Fixpoint clear_queue (h : nat -> J -> outcome) (k : nat) (fuel : nat) (q : list J) (l : log)
    : run_result :=
    match q with
    | [] => Returned l
    | j :: t =>
        match fuel with
        | O => OutOfFuel
        | S fuel' =>
            match h k j with
            | Done => clear_queue h (S k) fuel' t (l ++ [j])
            | OnHost => clear_queue h (S k) fuel' (t ++ [j]) l
            | Fail e => Raised e
            end
        end
    end.

  (** Single core path (mproc.py 324-326): every job is run on the host once; the queue of jobs that
      asked for the host is not looked at again. *)
  Fixpoint run_single (h : nat -> J -> outcome) (k : nat) (jobs : list J) (l : log) : run_result :=
    match jobs with
    | [] => Returned l
    | j :: t =>
        match h k j with
        | Done => run_single h (S k) t (l ++ [j])
        | OnHost => run_single h (S k) t l
        | Fail e => Raised e
        end
    end.

  (** distribute_jobs, mproc.py 294-326.  [died] : a worker process ended with a non-zero exit code
      before the map was finished (306-309). *)
  Definition distribute (multi died : bool) (w : J -> outcome) (h : nat -> J -> outcome)
      (fuel : nat) (order : list J) : run_result :=
    if multi then
      if died then Raised RuntimeError
      else match run_pool w order with
           | (_, _, Some e) => Raised e
           | (l, q, None) => clear_queue h 0 fuel q l
           end
    else run_single h 0 order [].
End Failures.

(** ** Chunk level semantics of the reconstruction kernels *)
Section Kernels.
  Context {V : Type}.

  (** The k-th entries of [narr] arrays that are concatenated in [l]. *)
  Definition columns (d : V) (narr : nat) (l : list V) : list (list V) :=
    let len := length l / narr in
    map (fun k => map (fun a => nth (a * len + k) l d) (seq 0 narr)) (seq 0 len).

  (** _dist_recon hands tomo[slc], center[slc] and recon[slc] to the algorithm (algorithm.py
      427-454): a job reads the arrays 0 (tomo), 1 (center), 2 (recon) and writes array 2.
      [K] is the algorithm on the rows [tomo_s; center_s; recon_s] of its chunk. *)
  Definition recon_jobs (d : V) (K : list (list V) -> list V) (n : Z) (slcs : list slc) :=
    jobs (fun l => K (columns d 3 l)) 3 2 n slcs.

  (** bart.c 94, osem.c 95, fbp.c 80, grad.c 122, ospml_*.c 93, tv.c 155: slice [s] of the chunk is
      computed with its own sinogram, centre and start image. *)
  Definition kernel_per_slice (g : list V -> V) : list (list V) -> list V := map g.

  (** art.c 86 (and project.c 79): the centre of the first slice of the chunk is used for all its
      slices.  Row layout [tomo; center; recon]. *)
  Definition kernel_first_center (d : V) (g : list V -> V) (rows : list (list V)) : list V :=
    let c0 := nth 1 (nth 0 rows []) d in
    map (fun r => g [nth 0 r d; c0; nth 2 r d]) rows.

  (** gridrec.c 312-315: slices are processed in pairs (s, s+1) and only center[s] is used. *)
  Definition kernel_pair_center (d : V) (g : list V -> V) (rows : list (list V)) : list V :=
    map (fun k => let r := nth k rows [] in
                  g [nth 0 r d; nth 1 (nth (2 * (k / 2)) rows []) d; nth 2 r d])
        (seq 0 (length rows)).

  (** tikh.c 194 with reg_data passed as a keyword argument (algorithm.py 430, 440-442, 452-453,
      extern/recon.py 523): the prior is not sliced, so slice [k] of a chunk is regularised with
      reg_data[k]. *)
  Definition kernel_local_prior (d : V) (prior : nat -> V) (g : list V -> V -> V)
      (rows : list (list V)) : list V :=
    map (fun k => g (nth k rows []) (prior k)) (seq 0 (length rows)).
End Kernels.
