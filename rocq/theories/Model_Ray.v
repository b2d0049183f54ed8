(** libtomo/recon/utils.c: tracing one ray through the pixel grid, in exact real arithmetic.
    Pairs of float arrays that are always written together ((ax, ay), (bx, by), (coorx, coory)) are
    one array of pairs. *)
From Verif Require Import Base CLoop Model_Prep.
From Coq Require Import Reals.
Local Open Scope R_scope.

(** while(cond) body; with a bound on the number of rounds. *)
Fixpoint while {S} (fuel : nat) (cond : S -> bool) (body : S -> S) (s : S) : S :=
  match fuel with
  | O => s
  | Datatypes.S f => if cond s then while f cond body (body s) else s
  end.

(** (int) x: rounds toward zero. *)
Definition trunc (x : R) : Z := if rltb x 0 then (- Int_part (- x))%Z else Int_part x.

(** ** preprocessing (66-86) *)
Definition grid (r : Z) (i : Z) : R := - IZR r / 2 + IZR i.                     (* 72, 77 *)
Definition mov (num_pixels : Z) (center : R) : R :=                             (* 80-85 *)
  let m := (IZR num_pixels - 1) / 2 - center in
  let m := if rltb (m - IZR (Int_part m)) (1 / 100) then m + 1 / 100 else m in
  m + 1 / 2.

(** ** calc_quadrant (90-113), without the rounding of the single precision product *)
Definition ipi_c : Z := 340870420.
Definition calc_quadrant (theta_p : R) : bool :=
  let theta_i := trunc (theta_p * IZR ipi_c) in
  let theta_i := if (theta_i <? 0)%Z then trunc (IZR theta_i + 2 * PI * IZR ipi_c) else theta_i in
  ((0 <=? theta_i)%Z && rltb (IZR theta_i) (1 / 2 * PI * IZR ipi_c))
  || (negb (rltb (IZR theta_i) (PI * IZR ipi_c)) && rltb (IZR theta_i) (3 / 2 * PI * IZR ipi_c)).

(** ** calc_coords (117-138).  A zero denominator makes the slope infinite; every coordinate is then
    infinite or NaN and fails all comparisons: [None]. *)
Record line := mkLine { srcx : R; srcy : R; detx : R; dety : R }.
Definition ray_line (xi yi sin_p cos_p : R) : line :=                           (* 121-124 *)
  mkLine (xi * cos_p - yi * sin_p) (xi * sin_p + yi * cos_p)
         (- xi * cos_p - yi * sin_p) (- xi * sin_p + yi * cos_p).
Definition coordx (rz : Z) (l : line) (n : Z) : option R :=                     (* 126, 131 *)
  if Req_EM_T (srcy l - dety l) 0 then None
  else Some ((srcx l - detx l) / (srcy l - dety l) * (grid rz n - srcy l) + srcx l).
Definition coordy (ry : Z) (l : line) (n : Z) : option R :=                     (* 125, 136 *)
  if Req_EM_T (srcx l - detx l) 0 then None
  else Some ((srcy l - dety l) / (srcx l - detx l) * (grid ry n - srcx l) + srcy l).

(** ** trim_coords (142-174) *)
Definition margin : R := 1 / 100.
Definition inside (r : Z) (x : R) : bool :=
  negb (rltb x (grid r 0 + margin)) && negb (rltb (grid r r - margin) x).
Definition trim_step (r : Z) (coord : Z -> option R) (pt : Z -> R -> R * R) (n : Z) (s : Z * arr (R * R)) : Z * arr (R * R) :=
  let '(size, a) := s in
  match coord n with
  | Some x => if inside r x then ((size + 1)%Z, aset a size (pt n x)) else s
  | None => s
  end.
Definition trim_a (ry rz : Z) (l : line) (a0 : arr (R * R)) : Z * arr (R * R) :=   (* 152-160 *)
  for_ (rz + 1) (trim_step ry (coordx rz l) (fun n x => (x, grid rz n))) (0%Z, a0).
Definition trim_b (ry rz : Z) (l : line) (b0 : arr (R * R)) : Z * arr (R * R) :=   (* 165-173 *)
  for_ (ry + 1) (trim_step rz (coordy ry l) (fun n y => (grid ry n, y))) (0%Z, b0).

(** ** sort_intersections (178-255): [cond] is ind_condition <> 0. *)
Record sorting := mkSorting { si : Z; sj : Z; sk : Z; sc : arr (R * R) }.
Section Sort.
  Variable cond : bool.
  Variables (asize : Z) (a : arr (R * R)) (bsize : Z) (b : arr (R * R)).
  Definition sel (i : Z) : R * R := if cond then a i else a (asize - 1 - i)%Z.
  Definition take_a (s : sorting) : sorting := mkSorting (si s + 1) (sj s) (sk s + 1) (aset (sc s) (sk s) (sel (si s))).
  Definition take_b (s : sorting) : sorting := mkSorting (si s) (sj s + 1) (sk s + 1) (aset (sc s) (sk s) (b (sj s))).
  Definition sort_intersections (c0 : arr (R * R)) : Z * arr (R * R) :=
    let fuel := Z.to_nat (asize + bsize) in
    let s := mkSorting 0 0 0 c0 in
    let s := while fuel (fun s => (si s <? asize)%Z && (sj s <? bsize)%Z)
               (fun s => if rltb (fst (sel (si s))) (fst (b (sj s))) then take_a s else take_b s) s in
    let s := while fuel (fun s => (si s <? asize)%Z) take_a s in
    let s := while fuel (fun s => (sj s <? bsize)%Z) take_b s in
    ((asize + bsize)%Z, sc s).
End Sort.

(** ** calc_dist (259-327) *)
Definition seg_dist (c : arr (R * R)) (n : Z) : R :=                            (* 277-289 *)
  sqrt ((fst (c (n + 1)%Z) - fst (c n)) * (fst (c (n + 1)%Z) - fst (c n))
        + (snd (c (n + 1)%Z) - snd (c n)) * (snd (c (n + 1)%Z) - snd (c n))).
Definition pixel (r : Z) (u v : R) : Z :=                                       (* 306-309, 314-317 *)
  let x := 1 / 2 * (v + u) + 1 / 2 * IZR r in
  (trunc x - (if rltb x (IZR (trunc x)) then 1 else 0))%Z.
Definition seg_indx (ry : Z) (c : arr (R * R)) (n : Z) : Z := pixel ry (fst (c n)) (fst (c (n + 1)%Z)).
Definition seg_indy (rz : Z) (c : arr (R * R)) (n : Z) : Z := pixel rz (snd (c n)) (snd (c (n + 1)%Z)).
Definition seg_indi (ry rz : Z) (c : arr (R * R)) (n : Z) : Z :=                (* 322 *)
  (seg_indy rz c n + seg_indx ry c n * rz)%Z.

(** ** One ray: the body shared by all solvers (e.g. art.c 104-123). *)
Record traced := mkTraced { csize : Z; coor : arr (R * R) }.
Definition trace (ry rz : Z) (quadrant : bool) (l : line) (z : arr (R * R)) : traced :=
  let '(asize, a) := trim_a ry rz l z in
  let '(bsize, b) := trim_b ry rz l z in
  let '(cs, c) := sort_intersections quadrant asize a bsize b z in
  mkTraced cs c.

(** The pixels and weights used by the update loops for(n = 0; n < csize - 1; n++). *)
Definition segments (ry rz : Z) (t : traced) : list (Z * R) :=
  map (fun n => (seg_indi ry rz (coor t) n, seg_dist (coor t) n)) (zrange 0 (csize t - 1)).

(** fmodf (art.c 95) *)
Definition fmod (x m : R) : R := x - m * IZR (trunc (x / m)).

(** Line of detector pixel d at angle theta (art.c 95-107); [z] is the initial content of the work
    buffers. *)
Definition pixel_line (ry rz dx : Z) (center theta : R) (d : Z) : line :=
  ray_line (- IZR ry - IZR rz) (1 / 2 * (1 - IZR dx) + IZR d + mov dx center) (sin theta) (cos theta).
Definition ray_trace (ry rz dx : Z) (center theta : R) (d : Z) : traced :=
  let theta_p := fmod theta (2 * PI) in
  trace ry rz (calc_quadrant theta_p) (pixel_line ry rz dx center theta_p d) (fun _ => (0, 0)).
Definition ray (ry rz dx : Z) (center theta : R) (d : Z) : list (Z * R) :=
  segments ry rz (ray_trace ry rz dx center theta d).
