(** Concurrent execution of the jobs of distribute_jobs (mproc.py 201-331) and of
    _dist_recon (recon/algorithm.py 392-468).

    A job is a thread: a local state and a list of atomic actions.  An action reads the shared
    memory and returns writes.  The pool (mp.Pool.map_async, ThreadPoolExecutor) is modelled by
    all interleavings of the actions, a superset of what a pool with any number of workers can
    do.  Atomicity of a single element read or write is assumed. *)
From Verif Require Import Base Model_Mproc.

Section Sched.
  Context {Cell V L : Type}.
  Variable ceq : forall x y : Cell, {x = y} + {x <> y}.

  Definition mem := Cell -> V.
  Definition action := L -> mem -> L * list (Cell * V).
  Definition thread := (L * list action)%type.

  Definition write (m : mem) (c : Cell) (v : V) : mem :=
    fun x => if ceq x c then v else m x.

  Definition apply_writes (m : mem) (ws : list (Cell * V)) : mem :=
    fold_left (fun m w => write m (fst w) (snd w)) ws m.

  (** One thread executed without interruption. *)
  Fixpoint run_actions (p : list action) (l : L) (m : mem) : L * mem :=
    match p with
    | [] => (l, m)
    | a :: q => let '(l', ws) := a l m in run_actions q l' (apply_writes m ws)
    end.

  (** The single core path, mproc.py 324-326: one job after another. *)
  Definition run_sequential (ts : list thread) (m : mem) : mem :=
    fold_left (fun m t => snd (run_actions (snd t) (fst t) m)) ts m.

  (** All interleavings. *)
  Inductive steps : mem -> list thread -> mem -> list thread -> Prop :=
  | steps_done m ts : steps m ts m ts
  | steps_one m ts i l a rest l' ws m2 ts2 :
      nth_error ts i = Some (l, a :: rest) ->
      a l m = (l', ws) ->
      steps (apply_writes m ws) (upd ts i (l', rest)) m2 ts2 ->
      steps m ts m2 ts2.

  Definition finished (ts : list thread) : Prop := forall t, In t ts -> snd t = [].

  (** An action stays inside a footprint: what it does depends only on cells of the footprint,
      and it writes only there. *)
  Definition respects (F : Cell -> Prop) (a : action) : Prop :=
    (forall l m m', (forall c, F c -> m c = m' c) -> a l m = a l m') /\
    (forall l m c v, In (c, v) (snd (a l m)) -> F c).

  Definition separated (F : nat -> Cell -> Prop) (ts : list thread) : Prop :=
    (forall i t a, nth_error ts i = Some t -> In a (snd t) -> respects (F i) a) /\
    (forall i j c, i <> j -> F i c -> F j c -> False).
End Sched.

(** ** The jobs of distribute_jobs *)
Section Jobs.
  Context {V : Type}.

  (** A cell is one hyperplane of one shared array: (array number, index along the split axis).
      slice_axis (mproc.py 391-392) cuts every array along the same axis with the same slice. *)
  Definition cell := (nat * Z)%type.

  Definition cell_eq (x y : cell) : {x = y} + {x <> y}.
  Proof. decide equality; [apply Z.eq_dec | apply Nat.eq_dec]. Defined.

  (** _arg_parser (mproc.py 368-386) for a function that returns an array: read the slices of the
      [narr] input arrays, compute, then copy the result element by element into the same slice
      of the output array [out] ([out] = [narr - 1] when the caller passed no [out], 263-269).
      The local state is the list of values read so far. *)
  Definition read_action (c : cell) : @action cell V (list V) :=
    fun l m => (l ++ [m c], []).

  Definition write_action (f : list V -> list V) (out : nat) (k : nat) (i : Z) : @action cell V (list V) :=
    fun l m => match nth_error (f l) k with
               | Some v => (l, [((out, i), v)])
               | None => (l, [])
               end.

  Definition read_cells (narr : nat) (idx : list Z) : list cell :=
    flat_map (fun a => map (fun i => (a, i)) idx) (seq 0 narr).

  Definition job_prog (f : list V -> list V) (narr out : nat) (idx : list Z) : list action :=
    map read_action (read_cells narr idx) ++
    map (fun ki => write_action f out (fst ki) (snd ki)) (combine (seq 0 (length idx)) idx).

  Definition job (f : list V -> list V) (narr out : nat) (idx : list Z) : @thread cell V (list V) :=
    ([], job_prog f narr out idx).

  (** All jobs of a call, mproc.py 283-289. *)
  Definition jobs (f : list V -> list V) (narr out : nat) (n : Z) (slcs : list slc) :=
    map (fun s => job f narr out (slc_indices n s)) slcs.
End Jobs.
