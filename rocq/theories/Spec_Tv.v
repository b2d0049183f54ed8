(** What tv.c (C73) is meant to do: total variation, its certificate of optimality, the primal-dual iteration. *)
From Verif Require Import Base CLoop Model_Prep Model_Ray Model_Solver Model_Grad Proofs_Prep Proofs_Morph Proofs_Ray Properties_Ray Proofs_Solver Proofs_Art Proofs_Subsets Proofs_Bart Proofs_Em Proofs_Unit Properties_Solver Proofs_Lsq Proofs_Grad Properties_Grad.
From Coq Require Import Reals Lra Psatz.
Local Open Scope R_scope.

(** ** Vocabulary *)
(** Sum over the cells (row iy, column ix of the flat image, rows of ngridx) that have a right and a lower neighbour. *)
Definition cell_total (g : geom) (f : Z -> R) : R := total (ngridy g - 1) (fun iy => total (ngridx g - 1) (fun ix => f (iy * ngridx g + ix)%Z)).
Definition right_diff (x : Z -> R) (k : Z) : R := x (k + 1)%Z - x k.
Definition down_diff (g : geom) (x : Z -> R) (k : Z) : R := x (k + ngridx g)%Z - x k.
Definition total_variation (g : geom) (x : Z -> R) : R := cell_total g (fun k => sqrt (right_diff x k ^ 2 + down_diff g x k ^ 2)).
(** The factor between the image of the caller and the image inside the loop. *)
Definition unit_of (g : geom) : R := sqrt (2 / IZR (dx g * dt g)).
(** What the loop minimises, in the units of the caller. *)
Definition tv_cost (g : geom) (data : arr R) (lambda : R) (s : Z) (x : Z -> R) : R := misfit g data s x / 2 + lambda / unit_of g * total_variation g x.
Definition delta (i j : Z) : R := if (i =? j)%Z then 1 else 0.
(** Transposed differences of a field (px, py) on the cells. *)
Definition transposed (g : geom) (px py : Z -> R) (j : Z) : R :=
  cell_total g (fun k => px k * (delta j (k + 1) - delta j k) + py k * (delta j (k + ngridx g) - delta j k)).
Definition back_residual (g : geom) (data : arr R) (s : Z) (x : Z -> R) (j : Z) : R :=
  total (dt g) (fun p => total (dx g) (fun d => (ray_sum (rays g s p d) x - data (ind_data g s p d)) * inside_length (rays g s p d) j)).
Definition is_cell (g : geom) (k : Z) : Prop := exists iy ix, (0 <= iy < ngridy g - 1 /\ 0 <= ix < ngridx g - 1)%Z /\ k = (iy * ngridx g + ix)%Z.
(** A field that proves x optimal. *)
Definition certificate (g : geom) (data : arr R) (lambda : R) (s : Z) (x px py : Z -> R) : Prop :=
  (forall k, is_cell g k -> px k ^ 2 + py k ^ 2 <= lambda ^ 2 /\
     px k * right_diff x k + py k * down_diff g x k = lambda * sqrt (right_diff x k ^ 2 + down_diff g x k ^ 2)) /\
  (forall j, is_pixel g j -> transposed g px py j + unit_of g * back_residual g data s x j = 0).
(** The step length 0.35 of tv.c is short enough for differences and rays together, with a margin. *)
Definition short_step (g : geom) (s : Z) (theta : R) : Prop := forall v,
  (35 / 100) ^ 2 * (cell_total g (fun k => right_diff v k ^ 2 + down_diff g v k ^ 2) +
    unit_of g ^ 2 * total (dt g) (fun p => total (dx g) (fun d => ray_sum (rays g s p d) v ^ 2))) <= theta ^ 2 * total (npix g) (fun j => v j ^ 2).

(** The primal-dual iteration: extrapolated image, image, dual of the differences, dual of the rays. *)
Record pd : Type := mkPd { bar : Z -> R; img : Z -> R; dual_x : Z -> R; dual_y : Z -> R; dual_ray : Z -> Z -> R }.
Definition pd_start (x : Z -> R) : pd := mkPd x x (fun _ => 0) (fun _ => 0) (fun _ _ => 0).
(** Length of (a, b) relative to lambda, at least 1. *)
Definition excess (lambda a b : R) : R := Rmax 1 (sqrt (a ^ 2 + b ^ 2) / lambda).
Definition pd_next (g : geom) (data : arr R) (lambda : R) (s : Z) (st : pd) (st' : pd) : Prop :=
  let c := 35 / 100 in
  (forall k, is_cell g k ->
     let a := dual_x st k + c * right_diff (bar st) k in let b := dual_y st k + c * down_diff g (bar st) k in
     dual_x st' k = a / excess lambda a b /\ dual_y st' k = b / excess lambda a b) /\
  (forall p d, is_ray g p d -> dual_ray st' p d = (dual_ray st p d + c * (unit_of g * ray_sum (rays g s p d) (bar st) - data (ind_data g s p d))) / (1 + c)) /\
  (forall j, is_pixel g j -> img st' j = img st j -
     c * (transposed g (dual_x st') (dual_y st') j + unit_of g * total (dt g) (fun p => total (dx g) (fun d => dual_ray st' p d * inside_length (rays g s p d) j)))) /\
  (forall j, is_pixel g j -> bar st' j = 2 * img st' j - img st j).

