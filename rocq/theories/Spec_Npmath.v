(** Vocabulary for C117-C119. *)
From Verif Require Import Base Model_Npmath.
From Coq Require Import Reals Sorted.
Local Open Scope R_scope.

(** Some three of the points are not on a line. *)
Definition spanning (l : list point) : Prop :=
  exists p q r, In p l /\ In q l /\ In r l /\ (fst q - fst p) * (snd r - snd p) <> (fst r - fst p) * (snd q - snd p).
(** An affine map of the plane: the images of (x, y) under two rows. *)
Definition moved (a b : row3) (p : point) : point := (apply3 a p, apply3 b p).
Definition shifted (d p : point) : point := (fst p + fst d, snd p + snd d).
Definition sum (l : list R) : R := fold_right Rplus 0 l.

(** A sorting routine of real numbers. *)
Definition sorts_numbers (sort : list R -> list R) : Prop := forall l, Permutation (sort l) l /\ StronglySorted Rle (sort l).
(** Number of the elements of a list that are less, or not greater, than a number. *)
Definition below (l : list R) (v : R) : nat := count (fun x => if Rlt_dec x v then true else false) l.
Definition up_to (l : list R) (v : R) : nat := count (fun x => if Rle_dec x v then true else false) l.
(** Pixel of an image of h rows and w columns *)
Definition inside (h w r c : Z) : Prop := (0 <= r < h)%Z /\ (0 <= c < w)%Z.
Definition times (k : R) (im : Z -> Z -> R) : Z -> Z -> R := fun r c => k * im r c.
