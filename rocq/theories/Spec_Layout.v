(** Vocabulary for the properties about memory layout (C105, C106). *)
From Verif Require Import Base CLoop Model_Layout.
Local Open Scope Z_scope.

(** An array without empty axes whose elements lie inside an existing block of memory. *)
Definition is_array {V} (d : V) (h : heap V) (v : view) : Prop :=
  (vbuf v < length h)%nat /\ length (vstrides v) = length (vshape v) /\
  Forall (fun n => 1 <= n) (vshape v) /\
  Forall (fun p => 0 <= p < blen (getbuf d h (vbuf v))) (map (pos v) (indices (vshape v))).

(** No two elements share a place in memory (so the array can be written to). *)
Definition writable (v : view) : Prop := NoDup (map (pos v) (indices (vshape v))).

(** The elements lie one behind the other in memory. *)
Definition in_memory_order (v : view) : Prop :=
  map (pos v) (indices (vshape v)) = map (Z.add (voff v)) (zrange 0 (prod (vshape v))).

(** The array is its whole block, in memory order. *)
Definition whole {V} (d : V) (h : heap V) (v : view) : Prop :=
  in_memory_order v /\ voff v = 0 /\ blen (getbuf d h (vbuf v)) = prod (vshape v).

(** Nobody can tell the two memories apart through array [v]. *)
Definition unchanged {V} (d : V) (h h' : heap V) (v : view) : Prop :=
  elements d h' v = elements d h v.

(** What a parallel call is meant to return: the result of the jobs, or, if they return nothing,
    the last array as they leave it. *)
Definition outcome {V} (F : jobs V) (vals : list (list Z * list V)) : list V :=
  match F vals with
  | (_, Some l) => l
  | (ls, None) => last ls []
  end.

(** The jobs return as many values as the arrays have elements. *)
Definition keeps_sizes {V} (F : jobs V) (vals : list (list Z * list V)) : Prop :=
  Forall2 (fun l val => length l = length (snd val)) (fst (F vals)) vals /\
  forall l, snd (F vals) = Some l -> length l = length (snd (last vals ([], []))).

(** A chain of parallel calls, each on the array the one before returned. *)
Fixpoint chain {V} (d : V) (Fs : list (jobs V)) (h : heap V) (v : view)
  : result (heap V * view) :=
  match Fs with
  | [] => Ok (h, v)
  | F :: t =>
      match distribute_jobs d F h [v] None with
      | inl e => Raise e
      | inr (h', w) => chain d t h' w
      end
  end.

(** What the chain is meant to return. *)
Fixpoint chain_outcome {V} (shape : list Z) (Fs : list (jobs V)) (l : list V) : list V :=
  match Fs with
  | [] => l
  | F :: t => chain_outcome shape t (outcome F [(shape, l)])
  end.

(** Every call of the chain keeps the number of elements. *)
Fixpoint chain_sizes {V} (shape : list Z) (Fs : list (jobs V)) (l : list V) : Prop :=
  match Fs with
  | [] => True
  | F :: t => keeps_sizes F [(shape, l)] /\ chain_sizes shape t (outcome F [(shape, l)])
  end.
