(** libtomo/misc/inpainter.c (line numbers below) and misc/corr.py inpainter_morph (996-1156).
    The 2-D and the 3-D kernels are the same code up to the list of offsets visited and the length given
    to qsort, so they share definitions; dimZ = 1 selects the 2-D one (635, as in the C code).  Values are
    of any type with the operations used.  The parallel loops over voxels (640, 730, ...) are a list of
    voxels in any order, rand() is any function of the sweep and the voxel.  Not modelled: int overflow of
    window_fullength, malloc failure, a mask array smaller than the image (shapes are not compared). *)
From Verif Require Import Base CLoop.
From Coq Require Import Reals.
Local Open Scope Z_scope.

Definition voxel := (Z * Z * Z)%type.
(** What a kernel does to its voxel; [Undefined] is qsort with a negative length or rand() % 0. *)
Inductive outcome (V : Type) := Keep | Write (v : V) | Undefined.
Arguments Keep {V}. Arguments Write {V}. Arguments Undefined {V}.

Section Inpaint.
  Context {V : Type}.
  Variables (zero half : V) (add mul div : V -> V -> V) (of_nat : nat -> V) (eqz : V -> bool) (qs : list V -> list V).
  Variables dimX dimY dimZ : Z.
  Definition index (v : voxel) : Z := let '(i, j, k) := v in dimX * dimY * k + j * dimX + i.   (* 79, 290 *)
  Definition inside (v : voxel) : bool :=                                                      (* 92, 311 *)
    let '(i, j, k) := v in ((i >=? 0) && (i <? dimX)) && ((j >=? 0) && (j <? dimY)) && ((k >=? 0) && (k <? dimZ)).
  Definition shift (v o : voxel) : voxel := let '(i, j, k) := v in let '(a, b, c) := o in (i + a, j + b, k + c).
  (** Offsets in the order of the loops (85-89, 304-310); in 2-D there is no k. *)
  Definition offsets (w : Z) : list voxel :=
    let s := zrange (- w) (w + 1) in
    flat_map (fun a => flat_map (fun b => if dimZ =? 1 then [(a, b, 0)] else map (fun c => (a, b, c)) s) s) s.
  Variable weights : list V.                                                                   (* Gauss_weights *)
  Variable out : arr V.                                                                        (* Output, not written in a sweep *)
  (** The non-zero values at the offsets [os], in order, each with the entry of [ws] at its position. *)
  Definition usable {W} (v : voxel) (os : list voxel) (ws : list W) : list (V * W) :=
    flat_map (fun '(o, w) => let u := shift v o in
      if inside u && negb (eqz (out (index u))) then [(out (index u), w)] else []) (combine os ws).
  Definition values (v : voxel) (w : Z) : list V := map fst (usable v (offsets w) (offsets w)).
  (** mean_smoothing_2D, _3D (67-107, 278-326) *)
  Definition smoothing (v : voxel) : outcome V :=
    let l := values v 1 in
    match l with [] => Keep | _ => Write (div (fold_left add l zero) (of_nat (length l))) end.
  (** eucl_weighting_inpainting_2D, _3D (109-183, 328-414); [size] is W_halfsize. *)
  Definition euclidean (size : Z) (v : voxel) : outcome V :=
    if existsb (fun o => let u := shift v o in inside u && negb (eqz (out (index u)))) (offsets 1) then
      match usable v (offsets size) weights with
      | [] => Keep
      | l => Write (div (fold_left (fun s '(x, w) => add s (mul x w)) l zero) (fold_left (fun s '(_, w) => add s w) l zero))
      end
    else Keep.
  (** median_rand_inpainting_2D, _3D (185-273, 416-523); [r] are the two results of rand(). *)
  Definition median_rand (median : bool) (size : Z) (r : Z * Z) (v : voxel) : outcome V :=
    if eqz (fold_left add (values v 1) zero) then Keep
    else
      let vals := values v size in
      let counter := length vals in
      if (counter =? 0)%nat then Undefined
      else if median then
        let sorted := if dimZ =? 1
                      then qs (firstn (counter - 1) vals) ++ skipn (counter - 1) vals          (* 253 *)
                      else qs (vals ++ repeat zero (length (offsets size) - counter)) in       (* 503 *)
        Write (nth (counter / 2)%nat sorted zero)
      else
        Write (mul half (add (nth (Z.to_nat (fst r mod Z.of_nat counter)) vals zero)
                             (nth (Z.to_nat (snd r mod Z.of_nat counter)) vals zero))).
End Inpaint.

Section Main.
  Context {V : Type}.
  Variables (zero half : V) (add mul div : V -> V -> V) (of_nat : nat -> V) (eqz : V -> bool) (qs : list V -> list V).
  Variables dimX dimY dimZ : Z.
  Variables (weights : list V) (method size : Z).
  Variable sched : nat -> list voxel.                 (* order of the voxels in the n-th parallel loop *)
  Variable rnd : nat -> voxel -> Z * Z.               (* rand() in the n-th parallel loop *)
  Definition kernel (n : nat) (out : arr V) (v : voxel) : outcome V :=                         (* 645-661 *)
    if (method =? 1) || (method =? 2) then median_rand zero half add mul eqz qs dimX dimY dimZ out (method =? 1) size (rnd n v) v
    else euclidean zero add mul div eqz dimX dimY dimZ weights out size v.
  Local Notation index := (index dimX dimY).
  (** One voxel: Updated and M_upd change only at the voxel itself. *)
  Definition visit (f : voxel -> outcome V) (v : voxel) (st : option (arr V * arr bool)) : option (arr V * arr bool) :=
    match st with
    | None => None
    | Some (updated, m) =>
        if m (index v) then
          match f v with
          | Keep => Some (updated, m)
          | Write x => Some (aset updated (index v) x, aset m (index v) false)
          | Undefined => None
          end
        else Some (updated, m)
    end.
  (** 640-664: Output and Updated are equal before the sweep; Output becomes Updated. *)
  Definition sweep (n : nat) (st : arr V * arr bool) : option (arr V * arr bool) :=
    fold_left (fun s v => visit (kernel n (fst st)) v s) (sched n) (Some st).
  Definition total : Z := dimX * dimY * dimZ.
  Definition count_mask (m : arr bool) : nat := length (filter m (zrange 0 total)).
  (** 636-682, with the early exit *)
  Fixpoint complete (fuel n : nat) (st : arr V * arr bool) : option (arr V * arr bool) :=
    match fuel with
    | O => Some st
    | S fuel =>
        match sweep n st with
        | None => None
        | Some st => if (count_mask (snd st) =? 0)%nat then Some st else complete fuel (S n) st
        end
    end.
  (** 686-700: the mask is reset, mean_smoothing does not clear it. *)
  Definition smooth (n : nat) (mask : arr bool) (out : arr V) : arr V :=
    fold_left (fun u v => if mask (index v) then
                            match smoothing zero add div of_nat eqz dimX dimY dimZ out v with Write x => aset u (index v) x | _ => u end
                          else u) (sched n) out.
  Definition smooth_if (n : nat) (mask : arr bool) (out : arr V) : arr V := if method =? 2 then smooth n mask out else out.
  (** 710-735: the mask is reset once, before the loop *)
  Fixpoint iterate (iterations n : nat) (st : arr V * arr bool) : option (arr V * arr bool) :=
    match iterations with
    | O => Some st
    | S k => match sweep n st with None => None | Some st => iterate k (S n) st end
    end.
  Definition zeroed (input : arr V) (mask : arr bool) : arr V := fun x => if mask x then zero else input x.   (* 566-575 *)
  (** Inpainter_morph_main (526-880); parallel loops are numbered in the order they are executed. *)
  Definition inpaint (input : arr V) (mask : arr bool) (iterations : nat) : option (arr V) :=
    let n := count_mask mask in
    if (n =? 0)%nat then Some (zeroed input mask)
    else
      match complete n 0 (zeroed input mask, mask) with
      | None => None
      | Some (out, _) =>
          let out := smooth_if n mask out in
          if (iterations =? 0)%nat then Some out
          else match iterate iterations (n + 1) (out, mask) with
               | None => None
               | Some (out, _) => Some (smooth_if (n + 1 + iterations) mask out)
               end
      end.
End Main.

(** Gauss_weights (592-622), exact *)
Definition gauss (dimZ size : Z) : list R :=
  let full := (if dimZ =? 1 then (2 * size + 1) ^ 2 else (2 * size + 1) ^ 3) in
  map (fun '(a, b, c) => exp (- (IZR (a ^ 2 + b ^ 2 + c ^ 2)) / IZR (2 * full))%R) (offsets dimZ size).
Definition reqz (x : R) : bool := if Req_EM_T x 0 then true else false.
Definition inpaint_R (qs : list R -> list R) (dimX dimY dimZ method size : Z) sched rnd input mask iterations : option (arr R) :=
  inpaint 0%R (1 / 2)%R Rplus Rmult Rdiv INR reqz qs dimX dimY dimZ (gauss dimZ size) method size sched rnd input mask iterations.

(** ** inpainter_morph of misc/corr.py (996-1156) for 3-D data.  A volume is indexed by (z, y, x); [f nx ny nz]
    stands for extern.c_inpainter with the given size, type and iterations. *)
Section Morph.
  Context {V : Type} (f : Z -> Z -> Z -> arr V -> arr bool -> option (arr V)).
  Definition volume (A : Type) := Z -> Z -> Z -> A.
  Definition flat {A} (dy dx : Z) (a : volume A) : arr A := fun p => a (p / (dy * dx)) (p / dx mod dy) (p mod dx).  (* ascontiguousarray *)
  (** arr[tuple(slices_list)].squeeze() with [rows] x [cols] elements left, made contiguous (1100-1106) *)
  Definition slice2d {A} (axis m cols : Z) (a : volume A) : arr A := fun p =>
    let r := p / cols in let c := p mod cols in
    if axis =? 0 then a m r c else if axis =? 1 then a r m c else a r c m.
  (** out[m, :, :] = out2d and so on (1117-1122) *)
  Definition store2d (axis m cols : Z) (o : arr V) (out : volume V) : volume V := fun z y x =>
    if axis =? 0 then if z =? m then o (y * cols + x) else out z y x
    else if axis =? 1 then if y =? m then o (z * cols + x) else out z y x
    else if x =? m then o (z * cols + y) else out z y x.
  Definition inpainter_morph (axis : option Z) (dz dy dx : Z) (a : volume V) (mask : volume bool) (out : volume V) : result (option (volume V)) :=
    match axis with
    | Some axis =>
        if (axis <? 0) || (axis >? 2) then Raise ValueError                                    (* 1089-1091 *)
        else if (dz =? 0) || (dy =? 0) || (dx =? 0) then Raise ValueError                      (* 1095-1096 *)
        else
          let n := if axis =? 0 then dz else if axis =? 1 then dy else dx in
          let rows := if axis =? 0 then dy else dz in
          let cols := if axis =? 2 then dy else dx in
          (* squeeze() drops every dimension of size one, so the unpacking of the shape fails *)
          if (rows =? 1) || (cols =? 1) then Raise ValueError                                  (* 1104 *)
          else Ok (for_ n (fun m out =>
                     match out, f cols rows 1 (slice2d axis m cols a) (slice2d axis m cols mask) with
                     | Some out, Some o => Some (store2d axis m cols o out)
                     | _, _ => None
                     end) (Some out))
    | None =>
        if (dz =? 0) || (dy =? 0) || (dx =? 0) then Raise ValueError
        else Ok (match f dx dy dz (flat dy dx a) (flat dy dx mask) with
                 | Some o => Some (fun z y x => o (z * (dy * dx) + y * dx + x))
                 | None => None
                 end)
    end.
End Morph.
