(** libtomo/misc/median_filt3d.c.  The four kernels (2D/3D, float/uint16) differ only in the value
    type, so they are one definition over a value type [V] with the comparison [lt] handed to qsort
    and the test [far a m] for |a - m| >= mu_threshold.  [qs] is qsort: any function that
    sorts (see [sorts] in Order).  The filter size (int) powf(2 * radius + 1, 3) is taken as the exact cube. *)
From Verif Require Import Base Order CLoop Model_Float Model_Corr.
Local Open Scope Z_scope.

Section Kernel.
  Context {V : Type} (qs : list V -> list V) (dflt : V).

  (** i1 = i + i_m; if((i1 < 0) || (i1 >= dimX)) i1 = i; (87-89, 92-94, 97-99) *)
  Definition neighbour (dim i d : Z) : Z :=
    let i1 := i + d in if (i1 <? 0) || (i1 >=? dim) then i else i1.

  Definition idx3 (dimX dimY i j k : Z) : Z := dimX * dimY * k + j * dimX + i.
  Definition offsets (radius : Z) : list Z := zrange (- radius) (radius + 1).

  (** medfilt3D_* 84-105: the values gathered into ValVec. *)
  Definition gather3 (inp : arr V) (radius dimX dimY dimZ i j k : Z) : list V :=
    flat_map (fun im => flat_map (fun jm => map (fun km =>
        inp (idx3 dimX dimY (neighbour dimX i im) (neighbour dimY j jm) (neighbour dimZ k km)))
      (offsets radius)) (offsets radius)) (offsets radius).

  (** medfilt2D_* 142-158 *)
  Definition gather2 (inp : arr V) (radius dimX dimY i j : Z) : list V :=
    flat_map (fun im => map (fun jm =>
        inp (neighbour dimY j jm * dimX + neighbour dimX i im))
      (offsets radius)) (offsets radius).

  (** 107-123, 159-172: sort, take the middle, write.  [thr] is [None] when mu_threshold == 0. *)
  Definition write_median (thr : option (V -> V -> bool)) (inp : arr V) (w : list V) (index : Z) (out : arr V) : arr V :=
    let med := nth (length w / 2) (qs w) dflt in
    match thr with
    | None => aset out index med
    | Some far => if far (inp index) med then aset out index med else out
    end.

  Definition voxel3 (thr : option (V -> V -> bool)) (inp : arr V) (radius dimX dimY dimZ : Z)
      (out : arr V) (c : Z * Z * Z) : arr V :=
    let '(i, j, k) := c in
    write_median thr inp (gather3 inp radius dimX dimY dimZ i j k) (idx3 dimX dimY i j k) out.
  Definition voxel2 (thr : option (V -> V -> bool)) (inp : arr V) (radius dimX dimY : Z)
      (out : arr V) (c : Z * Z) : arr V :=
    let '(i, j) := c in
    write_median thr inp (gather2 inp radius dimX dimY i j) (j * dimX + i) out.

  Definition voxels3 (dimX dimY dimZ : Z) : list (Z * Z * Z) :=
    flat_map (fun k => flat_map (fun j => map (fun i => (i, j, k)) (zrange 0 dimX)) (zrange 0 dimY)) (zrange 0 dimZ).

  Definition voxels2 (dimX dimY : Z) : list (Z * Z) :=
    flat_map (fun j => map (fun i => (i, j)) (zrange 0 dimX)) (zrange 0 dimY).

  (** medianfilter_main_* (282-416): the voxels are visited by an OpenMP team; every visit writes
      one cell of Output and reads only Input, so a run is determined by the order of the
      visits.  [order] is any permutation of [voxels3]. *)
  Definition run3 (thr : option (V -> V -> bool)) (inp : arr V) (radius dimX dimY dimZ : Z)
      (order : list (Z * Z * Z)) (out : arr V) : arr V :=
    fold_left (voxel3 thr inp radius dimX dimY dimZ) order out.
  (** 304-318 and 371-385, used when dimZ == 0. *)
  Definition run2 (thr : option (V -> V -> bool)) (inp : arr V) (radius dimX dimY : Z)
      (order : list (Z * Z)) (out : arr V) : arr V :=
    fold_left (voxel2 thr inp radius dimX dimY) order out.
End Kernel.

(** The loop over all voxels in program order (one thread). *)
Definition main3 {V} qs (dflt : V) thr inp radius dimX dimY dimZ (out : arr V) : arr V :=
  for_ dimZ (fun k out => for_ dimY (fun j out => for_ dimX (fun i out =>
    voxel3 qs dflt thr inp radius dimX dimY dimZ out (i, j, k)) out) out) out.

(** Thresholds: float kernel (119) and uint16 kernel (226), the latter for the threshold p / q. *)
Definition thr_float (mu : f32) : option (f32 -> f32 -> bool) :=
  if feq mu fzero then None else Some (fun a m => fle mu (fabs (fsub a m))).
Definition thr_uint16 (p q : Z) : option (Z -> Z -> bool) :=
  if p =? 0 then None else Some (fun a m => p <=? q * Z.abs (a - m)).

(** corr.py 392, 452: kernel_half_size = (max(int(size), 3) - 1) // 2 *)
Definition kernel_half_size (size : Z) : Z := (Z.max size 3 - 1) / 2.

(** median_filter3d (corr.py 355-410) and remove_outlier3d (413-471) on float32 and uint16
    data: [out0] is np.empty_like resp. np.copy of the input. *)
Definition median_filter3d {V} qs (dflt : V) (inp out0 : arr V) (size dx dy dz : Z) : result (arr V) :=
  if (dz =? 0) || (dy =? 0) || (dx =? 0) then Raise ValueError
  else Ok (main3 qs dflt None inp (kernel_half_size size) dx dy dz out0).
Definition remove_outlier3d {V} qs (dflt : V) thr (inp : arr V) (size dx dy dz : Z) : result (arr V) :=
  if (dz =? 0) || (dy =? 0) || (dx =? 0) then Raise ValueError
  else Ok (main3 qs dflt thr inp (kernel_half_size size) dx dy dz inp).
