(** Vocabulary for normalize_bg and remove_stripe_sf in machine arithmetic. *)
From Verif Require Import Base Model_RayF.
From Coq Require Import Reals.
From Flocq Require Import Core BinarySingleNaN.
Local Open Scope R_scope.

(** Sum of floats, rounded after each addition, from left to right and starting from +0; the exact sum; the exact mean *)
Definition sumF (l : list b32) : b32 := fold_left fadd l (B754_zero false).
Definition sumR (l : list R) : R := fold_right Rplus 0 l.
Definition meanR (l : list R) : R := sumR l / INR (length l).
(** The straight line through (0, a) and (n - 1, b) *)
Definition lineR (n : Z) (a b : R) (j : Z) : R := a + (b - a) / (IZR n - 1) * IZR j.
(** A row repeated at both ends *)
Definition edge (n k : Z) : Z := Z.min (Z.max k 0) (n - 1).
