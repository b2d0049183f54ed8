(** Vocabulary for C95-C97: images as functions of the cell number. *)
From Coq Require Import Reals.
From Verif Require Import Base CLoop.
Local Open Scope R_scope.

Definition total_to (n : Z) (f : Z -> R) : R := fold_right Rplus 0 (map f (zrange 0 n)).
Definition cells_ok (n : Z) (P : R -> Prop) (a : Z -> R) : Prop := forall k, (0 <= k < n)%Z -> P (a k).
Definition same_on (n : Z) (a b : Z -> R) : Prop := forall k, (0 <= k < n)%Z -> a k = b k.

(** Properties of an operator on images of [n] cells. *)
Definition local_op (n : Z) (op : (Z -> R) -> Z -> R) : Prop := forall a b, same_on n a b -> same_on n (op a) (op b).
Definition positive_op (n : Z) (op : (Z -> R) -> Z -> R) : Prop := forall a, cells_ok n (Rle 0) a -> cells_ok n (Rle 0) (op a).
Definition linear_op (n : Z) (op : (Z -> R) -> Z -> R) : Prop :=
  forall c e a b, same_on n (op (fun k => c * a k + e * b k)) (fun k => c * op a k + e * op b k).

(** A slice with rays of [nx] consecutive cells: the total of ray [d], and the image with the correction of the rays
    below [dx]: each ray with a non-zero total gets [change] of the measured value and its total added to its cells. *)
Definition ray_total (nx : Z) (img : Z -> R) (d : Z) : R := total_to nx (fun i => img (d * nx + i)%Z).
Definition corrected (nx dx : Z) (change : R -> R -> R) (measured img : Z -> R) (k : Z) : R :=
  img k + (if (k <? dx * nx)%Z then
             if Req_EM_T (ray_total nx img (k / nx)) 0 then 0 else change (measured (k / nx)%Z) (ray_total nx img (k / nx))
           else 0).

(** number of the [n] first cases in which [P] holds *)
Definition how_many (n : Z) (P : Z -> bool) : Z := Z.of_nat (length (filter P (zrange 0 n))).

(** A volume is a stack of slices of [n] cells, the measurements a stack of [dt] projections of [dx] rays each. *)
Definition slice_of (n : Z) (v : Z -> R) (s : Z) : Z -> R := fun k => v (s * n + k)%Z.
Definition rays_of (dt dx : Z) (data : Z -> R) (s p : Z) : Z -> R := fun d => data (s * dt * dx + (p * dx + d))%Z.

(** Cells of a square image of [n] rows, relative to row and column [n / 2]; the cells in the largest disc around it. *)
Definition from_center (n k : Z) : Z * Z := (k mod n - n / 2, k / n - n / 2)%Z.
Definition in_disc (n k : Z) : Prop := let '(u, v) := from_center n k in (u * u + v * v <= (n - 1) / 2 * ((n - 1) / 2))%Z.
(** multiples of a right angle *)
Definition quarter (t : R) : Prop := exists q, t = IZR q * (PI / 2).

(** Position, relative to row [nx / 2] and column [ny / 2], of the point that a turn by [t] brings to cell [k] of an image
    of nx rows of ny cells: (column, row), with rows counted downwards. *)
Definition came_from (nx ny : Z) (t : R) (k : Z) : R * R :=
  let u := IZR (k mod ny - ny / 2) in let v := IZR (k / ny - nx / 2) in
  (cos t * u - sin t * v + IZR (ny / 2), sin t * u + cos t * v + IZR (nx / 2)).
Definition inside_img (nx ny x y : Z) : Prop := (0 <= x < ny /\ 0 <= y < nx)%Z.
