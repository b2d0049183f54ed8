(** Small vocabulary used in the statements of the property theorems. *)
From Verif Require Import Base Model_Mproc Model_Sched.
Local Open Scope Z_scope.

(** A list of slices contains each index 0 .. n-1 exactly once, in increasing order, and nothing
    else. *)
Definition covers_in_order (n : Z) (slcs : list slc) : Prop :=
  concat (map (slc_indices n) slcs) = zrange 0 n.

(** An optional setting is absent or at least [lo]. *)
Definition none_or_ge (lo : Z) (o : option Z) : Prop := forall k, o = Some k -> lo <= k.

(** [m] can be the shared memory when all jobs of [ts] have run to completion, in some
    interleaving, starting with memory [m0]. *)
Definition some_schedule {Cell V L} (ceq : forall x y : Cell, {x = y} + {x <> y})
    (m0 : Cell -> V) (ts : list (@thread Cell V L)) (m : Cell -> V) : Prop :=
  exists ts', steps ceq m0 ts m ts' /\ finished ts'.
