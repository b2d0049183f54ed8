(** Vocabulary for the solvers in machine arithmetic: what is assumed of the C library and of the sizes, and what is compared. *)
From Verif Require Import Base CLoop Model_Ray Model_RayF Model_SolverF.
From Coq Require Import Reals.
From Flocq Require Import Core BinarySingleNaN.
Local Open Scope R_scope.

(** The C library: finite values, |fmodf| < 6.29, |sinf|, |cosf| <= 1 *)
Definition libm (fmodf sinf cosf : b32 -> b32) : Prop := forall x, is_finite x = true ->
  (is_finite (fmodf x) = true /\ Rabs (B2R (fmodf x)) <= 629 / 100) /\ (is_finite (sinf x) = true /\ Rabs (B2R (sinf x)) <= 1) /\ (is_finite (cosf x) = true /\ Rabs (B2R (cosf x)) <= 1).
(** relative error of at most 1/1000 *)
Definition close (f : b32 -> b32) (h : R -> R) (x : b32) : Prop := Rabs (B2R (f x) - h (B2R x)) <= Rabs (h (B2R x)) / 1000.
(** Sizes for which all indices fit in an int; every angle is a number *)
Record sizes_ok (g : geomF) : Prop := mkSizes {
  ok_dy : (1 <= dyF g)%Z; ok_dt : (1 <= dtF g)%Z; ok_dx : (1 <= dxF g)%Z; ok_gx : (1 <= gxF g <= 2 ^ 15)%Z; ok_gy : (1 <= gyF g <= 2 ^ 15)%Z;
  ok_data : (ndata g < 2 ^ 31)%Z; ok_rec : (nrec g < 2 ^ 31)%Z; ok_theta : forall p, (0 <= p < dtF g)%Z -> is_finite (thetaF g p) = true }.
(** Sizes for which the work buffers are long enough (C120) *)
Record small_ok (g : geomF) : Prop := mkSmall {
  ok_dx' : (dxF g <= 2 ^ 13)%Z; ok_gx' : (gxF g <= 2 ^ 13)%Z; ok_gy' : (gyF g <= 2 ^ 13)%Z;
  ok_center : forall s, (0 <= s < dyF g)%Z -> is_finite (centerF g s) = true /\ Rabs (B2R (centerF g s)) <= 8000 }.
(** A property of the first n cells *)
Definition inP (P : b32 -> Prop) (n : Z) (a : arr b32) : Prop := forall i, (0 <= i < n)%Z -> P (a i).
(** Two calls with the same angles, detector and grid (numbers of slices and centres may differ) *)
Record same_rays (g g' : geomF) : Prop := mkSame { sr_t : dtF g = dtF g'; sr_x : dxF g = dxF g'; sr_gx : gxF g = gxF g'; sr_gy : gyF g = gyF g'; sr_th : thetaF g = thetaF g' }.
(** n cells from o on and n cells from o' on are equal, bit for bit *)
Definition win (n o o' : Z) (a a' : arr b32) : Prop := forall i, (0 <= i < n)%Z -> a (i + o)%Z = a' (i + o')%Z.
(** Not negative: +0, a positive number, +infinity or NaN (the sign bit is not set; NaN has none here) *)
Definition nn (x : b32) : Prop := Bsign x = false.
(** The quadrants in which calc_quadrant has to return 1 *)
Definition upward (v : R) : Prop := 0 <= sin v * cos v.
(** Sums of products as the loops compute them, and exactly *)
Definition dotF (a : b32) (l : list (b32 * b32)) : b32 := fold_left (fun a '(x, w) => fadd a (fmul x w)) l a.
Fixpoint dotR (l : list (b32 * b32)) : R := match l with [] => 0 | (x, w) :: l => B2R x * B2R w + dotR l end.
Fixpoint absR (l : list (b32 * b32)) : R := match l with [] => 0 | (x, w) :: l => Rabs (B2R x * B2R w) + absR l end.
