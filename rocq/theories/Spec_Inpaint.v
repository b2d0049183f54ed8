(** Vocabulary for the inpainting properties: images as functions of a position in memory, C order with
    the first dimension outermost, so voxel (i, j, k) of a nz x ny x nx array is element (k*ny + j)*nx + i. *)
From Verif Require Import Base CLoop.
From Coq Require Import Reals.
Local Open Scope Z_scope.

Definition grid (nx ny nz : Z) (v : Z * Z * Z) : Prop := let '(i, j, k) := v in 0 <= i < nx /\ 0 <= j < ny /\ 0 <= k < nz.
Definition place (nx ny : Z) (v : Z * Z * Z) : Z := let '(i, j, k) := v in (k * ny + j) * nx + i.
Definition near (u v : Z * Z * Z) : Prop :=
  let '(i, j, k) := u in let '(a, b, c) := v in Z.abs (i - a) <= 1 /\ Z.abs (j - b) <= 1 /\ Z.abs (k - c) <= 1.
(** A way to visit every voxel once. *)
Definition each_once (nx ny nz : Z) (l : list (Z * Z * Z)) : Prop := NoDup l /\ forall v, In v l <-> grid nx ny nz v.
(** Masked voxels joined to a known non-zero value by a chain of neighbouring masked voxels. *)
Inductive joined (nx ny nz : Z) (image : arr R) (mask : arr bool) : Z * Z * Z -> Prop :=
  | joined_data u v : grid nx ny nz u -> grid nx ny nz v -> near u v -> mask (place nx ny v) = true ->
      mask (place nx ny u) = false -> image (place nx ny u) <> 0%R -> joined nx ny nz image mask v
  | joined_step u v : joined nx ny nz image mask u -> grid nx ny nz v -> near u v -> mask (place nx ny v) = true ->
      joined nx ny nz image mask v.
(** Sum of [f] over the offsets of a window of half-width [w], in two or three dimensions. *)
Definition rsum_over {A} (l : list A) (f : A -> R) : R := fold_right (fun x s => (f x + s)%R) 0%R l.
Definition window_sum (nz w : Z) (f : Z -> Z -> Z -> R) : R :=
  let s := zrange (- w) (w + 1) in
  rsum_over s (fun a => rsum_over s (fun b => if nz =? 1 then f a b 0 else rsum_over s (fun c => f a b c))).
(** A voxel with a known non-zero value, when only [p] is masked. *)
Definition known (nx ny nz : Z) (image : arr R) (p u : Z * Z * Z) : bool :=
  let '(i, j, k) := u in let '(a, b, c) := p in
  (0 <=? i) && (i <? nx) && (0 <=? j) && (j <? ny) && (0 <=? k) && (k <? nz) &&
  negb ((i =? a) && (j =? b) && (k =? c)) && (if Req_EM_T (image (place nx ny u)) 0 then false else true).
(** Gaussian weight of an offset; the variance is the number of elements of the window. *)
Definition gaussian (nz w a b c : Z) : R :=
  exp (- IZR (a * a + b * b + c * c) / (2 * IZR ((2 * w + 1) ^ (if nz =? 1 then 2 else 3))))%R.
(** Weighted mean of the known values around [p]. *)
Definition weighted_mean (nx ny nz w : Z) (image : arr R) (p : Z * Z * Z) : R :=
  let at_ a b c : Z * Z * Z := let '(i, j, k) := p in (i + a, j + b, k + c) in
  let keep a b c (x : R) := if known nx ny nz image p (at_ a b c) then x else 0%R in
  (window_sum nz w (fun a b c => keep a b c (gaussian nz w a b c * image (place nx ny (at_ a b c)))) /
   window_sum nz w (fun a b c => keep a b c (gaussian nz w a b c)))%R.
