(** Vocabulary for the vector solver in machine arithmetic: what a pass should add to a pixel, given the rays.  A ray is
    the list of the pixels (x, y) it crosses with the lengths in them, and its direction (vx, vy). *)
From Verif Require Import Base Model_RayF Spec_SolverF Spec_PrepF.
From Coq Require Import Reals.
From Flocq Require Import Core BinarySingleNaN.

Definition rayV : Type := list (Z * Z * b32) * (b32 * b32).
(** What the field (f1, f2) gives on a ray: the sum of its components along the ray times the lengths, starting from [a] *)
Definition seenV (a : b32) (f1 f2 : Z -> Z -> b32) (r : rayV) : b32 :=
  dotF a (map (fun '(x, y, w) => (fadd (fmul (f1 x y) (fst (snd r))) (fmul (f2 x y) (snd (snd r))), w)) (fst r)).
(** Lengths of the parts of a ray in pixel (x, y) *)
Definition lengthsV (x y : Z) (r : rayV) : list b32 := map snd (filter (fun '(x', y', _) => (x' =? x) && (y' =? y))%Z (fst r)).
(** Correction of a ray with measurement [b]: (b - seen) / (sum of the squares of the lengths); none if that sum is zero *)
Definition squaresV (r : rayV) : b32 := dotF (B754_zero false) (map (fun '(_, w) => (w, w)) (fst r)).
Definition shareV (f1 f2 : Z -> Z -> b32) (b : b32) (r : rayV) : b32 := fdiv (fsub b (seenV (B754_zero false) f1 f2 r)) (squaresV r).
(** What the ray contributes to pixel (x, y), for the component whose part of the direction is v *)
Definition correctionsV (f1 f2 : Z -> Z -> b32) (x y : Z) (b v : b32) (r : rayV) : list b32 :=
  if Beqb (squaresV r) (B754_zero false) then [] else map (fun w => fmul (fmul (shareV f1 f2 b r) w) v) (lengthsV x y r).
(** Voxel of an object of shape (slices, gx, gy) that pixel (x, y) of plane s is, for a stack of planes along an axis: along axis 0 the
    planes are the slices; along axis 1 the plane number is the last index, along axis 2 the middle one, and y is the slice. *)
Definition voxelV (gx gy axis s x y : Z) : Z :=
  (let '(slice, row, column) := if axis =? 0 then (s, x, y) else if axis =? 1 then (y, x, s) else (y, s, x) in (slice * gx + row) * gy + column)%Z.
(** The exact sum of [seenV], the sum of the sizes of its terms, and the length of the ray *)
Definition exactV (f1 f2 : Z -> Z -> b32) (r : rayV) : R :=
  fold_right (fun '(x, y, w) s => (B2R (f1 x y) * B2R (fst (snd r)) + B2R (f2 x y) * B2R (snd (snd r))) * B2R w + s)%R 0%R (fst r).
Definition sizeV (f1 f2 : Z -> Z -> b32) (r : rayV) : R :=
  fold_right (fun '(x, y, w) s => (Rabs (B2R (f1 x y) * B2R (fst (snd r))) + Rabs (B2R (f2 x y) * B2R (snd (snd r)))) * Rabs (B2R w) + s)%R 0%R (fst r).
Definition lengthV (r : rayV) : R := fold_right (fun '(_, w) s => Rabs (B2R w) + s)%R 0%R (fst r).
