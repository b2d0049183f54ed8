(** libtomo/recon/utils.c: tracing one ray through the pixel grid as in Model_Ray.v, but in the arithmetic of the machine:
    IEEE binary32 with rounding to nearest even, infinities and NaN (Flocq's binary_float 24 128; payloads of NaN are not
    distinguished).  sinf, cosf and fmodf are parameters (any values).  Assumed: every operation is rounded to float
    (FLT_EVAL_METHOD 0, no fused multiply-add, no -ffast-math; the build sets none of these by itself except
    -march=native on request).  Ints are exact; conversions of floats to int that C leaves undefined are [None]. *)
From Verif Require Import Base CLoop Model_Ray.
From Flocq Require Import Core BinarySingleNaN.
Local Open Scope Z_scope.

Notation b32 := (binary_float 24 128).
Notation b64 := (binary_float 53 1024).
Section Types.
  Local Instance p32 : FLX.Prec_gt_0 24 := eq_refl.
  Local Instance e32 : Prec_lt_emax 24 128 := eq_refl.
  Definition fadd : b32 -> b32 -> b32 := Bplus mode_NE.
  Definition fsub : b32 -> b32 -> b32 := Bminus mode_NE.
  Definition fmul : b32 -> b32 -> b32 := Bmult mode_NE.
  Definition fdiv : b32 -> b32 -> b32 := Bdiv mode_NE.
  Definition fsqrt : b32 -> b32 := Bsqrt mode_NE.
  Definition fneg : b32 -> b32 := Bopp.
  (** Comparisons: false if an operand is NaN *)
  Definition flt : b32 -> b32 -> bool := Bltb.
  Definition fle : b32 -> b32 -> bool := Bleb.
  Definition fin (x : b32) : bool := is_finite x.
  (** (float) z, the constants 0.5f and 0.01f = 10737418 * 2^-30 *)
  Definition of_int (z : Z) : b32 := binary_normalize 24 128 p32 e32 mode_NE z 0 false.
  Definition half : b32 := binary_normalize 24 128 p32 e32 mode_NE 1 (-1) false.
  Definition c001 : b32 := binary_normalize 24 128 p32 e32 mode_NE 10737418 (-30) false.
  (** (int) x *)
  Definition to_int (x : b32) : option Z :=
    let z := Btrunc x in
    if fin x && (- 2 ^ 31 <=? z) && (z <? 2 ^ 31) then Some z else None.
  (** float to double and back *)
  Local Instance p64 : FLX.Prec_gt_0 53 := eq_refl.
  Local Instance e64 : Prec_lt_emax 53 1024 := eq_refl.
  Definition to64 (x : b32) : b64 :=
    match x with
    | B754_finite s m e _ => binary_normalize 53 1024 p64 e64 mode_NE (cond_Zopp s (Zpos m)) e s
    | B754_zero s => B754_zero s | B754_infinity s => B754_infinity s | B754_nan => B754_nan
    end.
  Definition to32 (x : b64) : b32 :=
    match x with
    | B754_finite s m e _ => binary_normalize 24 128 p32 e32 mode_NE (cond_Zopp s (Zpos m)) e s
    | B754_zero s => B754_zero s | B754_infinity s => B754_infinity s | B754_nan => B754_nan
    end.
  Definition dadd : b64 -> b64 -> b64 := Bplus mode_NE.
  Definition dsub : b64 -> b64 -> b64 := Bminus mode_NE.
  Definition half64 : b64 := binary_normalize 53 1024 p64 e64 mode_NE 1 (-1) false.
  Definition dfloor (x : b64) : b64 := Bnearbyint mode_DN x.
End Types.

(** ** preprocessing (66-86) *)
Definition gridF (r i : Z) : b32 := fadd (fmul (of_int (- r)) half) (of_int i).            (* 72, 77 *)
Definition movF (num_pixels : Z) (center : b32) : b32 :=                                   (* 80-85 *)
  let m := fsub (fmul (fsub (of_int num_pixels) (of_int 1)) half) center in
  let m := if Bltb (dsub (to64 m) (dfloor (to64 m))) (to64 c001) then fadd m c001 else m in
  to32 (dadd (to64 m) half64).

(** ** calc_coords (117-138) *)
Record lineF := mkLineF { fsrcx : b32; fsrcy : b32; fdetx : b32; fdety : b32 }.
Definition ray_lineF (xi yi sin_p cos_p : b32) : lineF :=                                  (* 121-124 *)
  mkLineF (fsub (fmul xi cos_p) (fmul yi sin_p)) (fadd (fmul xi sin_p) (fmul yi cos_p))
          (fsub (fmul (fneg xi) cos_p) (fmul yi sin_p)) (fadd (fmul (fneg xi) sin_p) (fmul yi cos_p)).
Definition slopeF (l : lineF) : b32 := fdiv (fsub (fsrcy l) (fdety l)) (fsub (fsrcx l) (fdetx l)).      (* 125 *)
Definition islopeF (l : lineF) : b32 := fdiv (fsub (fsrcx l) (fdetx l)) (fsub (fsrcy l) (fdety l)).     (* 126 *)
Definition coordxF (rz : Z) (l : lineF) (n : Z) : b32 := fadd (fmul (islopeF l) (fsub (gridF rz n) (fsrcy l))) (fsrcx l).   (* 131 *)
Definition coordyF (ry : Z) (l : lineF) (n : Z) : b32 := fadd (fmul (slopeF l) (fsub (gridF ry n) (fsrcx l))) (fsrcy l).    (* 136 *)

(** ** trim_coords (142-174) *)
Definition insideF (r : Z) (x : b32) : bool := fle (fadd (gridF r 0) c001) x && fle x (fsub (gridF r r) c001).
Definition pointF : Type := b32 * b32.
Definition trim_stepF (r : Z) (coord : Z -> b32) (pt : Z -> pointF) (n : Z) (s : Z * arr pointF) : Z * arr pointF :=
  let '(size, a) := s in if insideF r (coord n) then ((size + 1)%Z, aset a size (pt n)) else s.
Definition trim_aF (ry rz : Z) (cx : Z -> b32) (a0 : arr pointF) : Z * arr pointF :=       (* 152-160 *)
  for_ (rz + 1) (trim_stepF ry cx (fun n => (cx n, gridF rz n))) (0%Z, a0).
Definition trim_bF (ry rz : Z) (cy : Z -> b32) (b0 : arr pointF) : Z * arr pointF :=       (* 165-173 *)
  for_ (ry + 1) (trim_stepF rz cy (fun n => (gridF ry n, cy n))) (0%Z, b0).

(** ** sort_intersections (178-255): [cond] is ind_condition <> 0. *)
Record sortingF := mkSortingF { fi : Z; fj : Z; fk : Z; fc : arr pointF }.
Section Sort.
  Variable cond : bool.
  Variables (asize : Z) (a : arr pointF) (bsize : Z) (b : arr pointF).
  Definition selF (i : Z) : pointF := if cond then a i else a (asize - 1 - i)%Z.
  Definition take_aF (s : sortingF) : sortingF := mkSortingF (fi s + 1) (fj s) (fk s + 1) (aset (fc s) (fk s) (selF (fi s))).
  Definition take_bF (s : sortingF) : sortingF := mkSortingF (fi s) (fj s + 1) (fk s + 1) (aset (fc s) (fk s) (b (fj s))).
  Definition sort_intersectionsF (c0 : arr pointF) : Z * arr pointF :=
    let fuel := Z.to_nat (asize + bsize) in
    let s := mkSortingF 0 0 0 c0 in
    let s := while fuel (fun s => (fi s <? asize)%Z && (fj s <? bsize)%Z)
               (fun s => if flt (fst (selF (fi s))) (fst (b (fj s))) then take_aF s else take_bF s) s in
    let s := while fuel (fun s => (fi s <? asize)%Z) take_aF s in
    let s := while fuel (fun s => (fj s <? bsize)%Z) take_bF s in
    ((asize + bsize)%Z, fc s).
End Sort.

(** ** calc_dist (259-327) *)
Definition seg_distF (c : arr pointF) (n : Z) : b32 :=                                     (* 277-289 *)
  let dx := fsub (fst (c (n + 1)%Z)) (fst (c n)) in let dy := fsub (snd (c (n + 1)%Z)) (snd (c n)) in
  fsqrt (fadd (fmul dx dx) (fmul dy dy)).
Definition pixelF (r : Z) (u v : b32) : option Z :=                                        (* 306-309, 314-317 *)
  let mid := fmul half (fadd v u) in
  let x := fadd mid (fmul half (of_int r)) in
  match to_int x with
  | None => None
  | Some k => let i := of_int k in to_int (fsub i (of_int (if flt x i then 1 else 0)))
  end.
Definition seg_indxF (ry : Z) (c : arr pointF) (n : Z) : option Z := pixelF ry (fst (c n)) (fst (c (n + 1)%Z)).
Definition seg_indyF (rz : Z) (c : arr pointF) (n : Z) : option Z := pixelF rz (snd (c n)) (snd (c (n + 1)%Z)).
Definition seg_indiF (ry rz : Z) (c : arr pointF) (n : Z) : option Z :=                    (* 322 *)
  match seg_indyF rz c n, seg_indxF ry c n with Some j, Some i => Some (j + i * rz)%Z | _, _ => None end.

(** ** One ray: the body shared by all solvers (e.g. art.c 102-123); [z] is the content of the work buffers before. *)
Record tracedF := mkTracedF { fasize : Z; fbsize : Z; fcsize : Z; fcoor : arr pointF }.
Definition traceF (ry rz : Z) (quadrant : bool) (cx cy : Z -> b32) (za zb zc : arr pointF) : tracedF :=
  let '(asize, a) := trim_aF ry rz cx za in
  let '(bsize, b) := trim_bF ry rz cy zb in
  let '(cs, c) := sort_intersectionsF quadrant asize a bsize b zc in
  mkTracedF asize bsize cs c.
Definition pixel_lineF (ry rz dx : Z) (center sin_p cos_p : b32) (d : Z) : lineF :=        (* art.c 105-107 *)
  let xi := of_int (- ry - rz) in
  let yi := fadd (fadd (fmul half (of_int (1 - dx))) (of_int d)) (movF dx center) in
  ray_lineF xi yi sin_p cos_p.
Definition ray_traceF (ry rz dx : Z) (center sin_p cos_p : b32) (quadrant : bool) (d : Z) (za zb zc : arr pointF) : tracedF :=
  let l := pixel_lineF ry rz dx center sin_p cos_p d in
  traceF ry rz quadrant (coordxF rz l) (coordyF ry l) za zb zc.
