(** prep/stripe.py: stripes_detect3d (984-1055), stripes_mask3d (1058-1184) and libtomo/prep/stripes_detect3d.c.  Arrays are
    flat; indices are long (no overflow).  The loops run in parallel: the voxels are processed in any order.  Weights and data are
    exact reals (0.1428F as a decimal); the thresholds (int) of the mask are computed in binary32 as in the code. *)
From Verif Require Import Base CLoop Model_Prep FloatR.
From Coq Require Import Reals.
Local Open Scope Z_scope.

Definition voxel : Type := Z * Z * Z.   (* i (horizontal), j (depth), k (vertical) *)

Section Volume.
  Variables dimX dimY dimZ : Z.
  Definition idx (i j k : Z) : Z := dimX * dimY * k + (j * dimX + i).
  Definition at_voxel {A} (a : arr A) (v : voxel) : A := let '(i, j, k) := v in a (idx i j k).
  Definition voxels : list voxel :=
    flat_map (fun k => flat_map (fun j => map (fun i => (i, j, k)) (zrange 0 dimX)) (zrange 0 dimY)) (zrange 0 dimZ).
  (** A parallel loop whose iterations are done in the order [order]. *)
  Definition run {A} (order : list voxel) (body : voxel -> arr A -> arr A) (out : arr A) : arr A :=
    fold_left (fun o v => body v o) order out.
  (** x + m, or x - m when this is outside (e.g. 144-146) *)
  Definition mirror (dim x m : Z) : Z := if (x + m <? 0) || (dim <=? x + m) then x - m else x + m.

  Section Detect.
    Local Open Scope R_scope.
    (** gradient3D_local (66-116) *)
    Definition gradient3d (input : arr R) (axis step : Z) (v : voxel) (output : arr R) : arr R :=
      let '(i, j, k) := v in
      let next := fun x dim => (if (dim <=? x + step)%Z then x - step else x + step)%Z in
      aset output (idx i j k)
        (if (axis =? 0)%Z then input (idx (next i dimX) j k) - input (idx i j k)
         else if (axis =? 1)%Z then input (idx i (next j dimY) k) - input (idx i j k)
         else input (idx i j (next k dimZ)) - input (idx i j k)).
    (** ratio_mean_stride3d (118-213) *)
    Definition sum_over (l : list Z) (f : Z -> R) : R := fold_right Rplus 0 (map f l).
    Definition mean_plate (input : arr R) (radius i j k : Z) : R :=
      sum_over (zrange (- radius) (radius + 1)) (fun jm =>
        sum_over (zrange (- radius) (radius + 1)) (fun km => Rabs (input (idx i (mirror dimY j jm) (mirror dimZ k km)))))
      / IZR ((2 * radius + 1) * (2 * radius + 1)).
    Definition mean_right (input : arr R) (radius i j k : Z) : R :=
      sum_over (zrange (-1) 2) (fun jm =>
        sum_over (zrange 1 (radius + 1)) (fun im =>
          Rabs (input (idx (if (dimX <=? i + im)%Z then i - im else i + im)%Z (mirror dimY j jm) k))))
      / IZR (radius * 3).
    Definition mean_left (input : arr R) (radius i j k : Z) : R :=
      sum_over (zrange (-1) 2) (fun jm =>
        sum_over (zrange (- radius) 0) (fun im =>
          Rabs (input (idx (if (i + im <? 0)%Z then i - im else i + im)%Z (mirror dimY j jm) k))))
      / IZR (radius * 3).
    (** 196-212: [old] is what output holds before. *)
    Definition ratio_value (plate horiz horiz2 old : R) : R :=
      let out := if negb (rltb horiz plate) && negb (if Req_EM_T horiz 0 then true else false) then plate / horiz else old in
      let out := if rltb horiz plate && negb (if Req_EM_T plate 0 then true else false) then horiz / plate else out in
      let min_val := 0 in
      let min_val := if negb (rltb horiz2 plate) && negb (if Req_EM_T horiz2 0 then true else false) then plate / horiz2 else min_val in
      let min_val := if rltb horiz2 plate && negb (if Req_EM_T plate 0 then true else false) then horiz2 / plate else min_val in
      if rltb min_val out then min_val else out.
    Definition ratio_mean (input : arr R) (radius : Z) (v : voxel) (output : arr R) : arr R :=
      let '(i, j, k) := v in
      aset output (idx i j k)
        (ratio_value (mean_plate input radius i j k) (mean_right input radius i j k) (mean_left input radius i j k) (output (idx i j k))).
    (** vertical_median_stride3d (223-251); [qs] is qsort *)
    Variable qs : list R -> list R.
    Definition vertical_median (input : arr R) (half mid : Z) (v : voxel) (output : arr R) : arr R :=
      let '(i, j, k) := v in
      aset output (idx i j k) (nth (Z.to_nat mid) (qs (map (fun km => input (idx i j (mirror dimZ k km))) (zrange (- half) (half + 1)))) 0).
    (** mean_stride3d (253-306) *)
    Definition mean_stride (input : arr R) (v : voxel) (output : arr R) : arr R :=
      let '(i, j, k) := v in
      let low := fun x => (if x - 1 <? 0 then x + 1 else x - 1)%Z in
      let high := fun x dim => (if dim <=? x + 1 then low x else x + 1)%Z in
      aset output (idx i j k)
        (1428 / 10000 * (input (idx i j k) + input (idx (low i) j k) + input (idx (high i dimX) j k) + input (idx i (low j) k) +
                         input (idx i (high j dimY) k) + input (idx i j (low k)) + input (idx i j (high k dimZ)))).
    (** stripesdetect3d_main_float (483-573): [temp] is what malloc returned, [output] the array given by the caller.  The middle
        index (498) is (int) (0.5F * (2 half + 1)) - 1 = half - 1. *)
    Definition detect3d (o1 o2 o3 o4 : list voxel) (input : arr R) (half radius : Z) (temp output : arr R) : arr R :=
      let temp := run o1 (mean_stride input) temp in
      let output := run o2 (gradient3d input 0 2) output in
      let temp := run o3 (ratio_mean output radius) temp in
      run o4 (vertical_median temp half (half - 1)) output.
  End Detect.

  Section Mask.
    Definition hits (mask : arr bool) (l : list Z) (pos : Z -> Z) : Z := Z.of_nat (count (fun m => mask (pos m)) l).
    (** (int) ((0.01F * sensitivity) * n) (324-325); 0.01F = 10737418 / 2^30 *)
    Definition allowed (sensitivity : R) (n : Z) : Z := Int_part (rnd (rnd (IZR 10737418 / 2 ^ 30 * sensitivity) * rnd (IZR n)))%R.
    (** remove_inconsistent_stripes (308-376) *)
    Definition remove_inconsistent (mask : arr bool) (length_min depth_min : Z) (sensitivity : R) (switch_dim : Z) (v : voxel) (out : arr bool) : arr bool :=
      let '(i, j, k) := v in
      if switch_dim =? 0 then
        if mask (idx i j k) then
          if hits mask (zrange (- (length_min / 2)) (length_min / 2 + 1)) (fun m => idx i j (mirror dimZ k m)) <? allowed sensitivity length_min
          then aset out (idx i j k) false else out
        else out
      else
        if mask (idx i j k) then
          if negb (depth_min =? 0) then
            if allowed sensitivity depth_min <? hits mask (zrange (- (depth_min / 2)) (depth_min / 2 + 1)) (fun m => idx i (mirror dimY j m) k)
            then aset out (idx i j k) false else out
          else out
        else out.
    (** remove_short_stripes (378-404) *)
    Definition remove_short (mask : arr bool) (length_min : Z) (v : voxel) (out : arr bool) : arr bool :=
      let '(i, j, k) := v in
      if mask (idx i j k) then
        if hits mask (zrange (- (length_min / 2)) (length_min / 2 + 1)) (fun m => idx i j (mirror dimZ k m)) <? length_min / 2
        then aset out (idx i j k) false else out
      else out.
    (** merge_stripes (406-485) *)
    Definition merge (mask : arr bool) (width_min : Z) (v : voxel) (out : arr bool) : arr bool :=
      let '(i, j, k) := v in
      let half := width_min / 2 in
      let vert := 2 * width_min in
      if mask (idx i j k) then out else
        let left := existsb (fun x => mask (idx (if i + x <? 0 then i - x else i + x) j k)) (zrange (- half) 1) in
        let right := existsb (fun x => mask (idx (if dimX <=? i + x then i - x else i + x) j k)) (zrange 0 (half + 1)) in
        let out := if left && right then aset out (idx i j k) true else out in
        if out (idx i j k) then out else
          let up := existsb (fun x => mask (idx i j (if k + x <? 0 then k - x else k + x))) (zrange (- vert) 1) in
          let down := existsb (fun x => mask (idx i j (if dimZ <=? k + x then k - x else k + x))) (zrange 0 (vert + 1)) in
          if up && down then aset out (idx i j k) true else out.
    (** 613-634 *)
    Definition below (input : arr R) (threshold : R) (v : voxel) (mask : arr bool) : arr bool :=
      let '(i, j, k) := v in aset mask (idx i j k) (negb (rltb threshold (input (idx i j k)))).
    (** stripesmask3d_main_float (578-723).  memcpy copies the dimX dimY dimZ elements; since all of them are copied and nothing else is read
        the arrays themselves are copied here.  [orders n] is the order of the n-th parallel loop. *)
    Definition merges (orders : nat -> list voxel) (width_min : Z) (n : nat) (out : arr bool) : arr bool :=
      fold_left (fun out m => run (orders (4 + m)%nat) (merge out width_min) out) (seq 0 n) out.
    Definition mask3d (orders : nat -> list voxel) (input : arr R) (threshold : R) (length_min depth_min width_min : Z) (sensitivity : R)
        (mask : arr bool) : arr bool :=
      let out := run (orders 0%nat) (below input threshold) mask in
      let out := run (orders 1%nat) (remove_inconsistent out length_min depth_min sensitivity 1) out in
      let out := run (orders 2%nat) (remove_inconsistent out length_min depth_min sensitivity 0) out in
      let out := run (orders 3%nat) (remove_short out length_min) out in
      merges orders width_min (Z.to_nat width_min) out.
  End Mask.
End Volume.

(** The checks of stripes_detect3d (1026-1047) for an array of shape [shape], and of stripes_mask3d (1124-1168). *)
Definition py_stripes_detect3d (qs : list R -> list R) (o1 o2 o3 o4 : list voxel) (shape : list Z) (tomo : arr R) (size radius : Z) (temp out : arr R) : result (arr R) :=
  match shape with
  | [dz; dy; dx] =>
      if (dz =? 0) || (dy =? 0) || (dx =? 0) then Raise ValueError
      else if (size <=? 0) || (dz / 2 <? size) then Raise ValueError
      else Ok (detect3d dx dy dz qs o1 o2 o3 o4 tomo size radius temp out)
  | _ => Raise ValueError
  end.
Definition py_stripes_mask3d (orders : nat -> list voxel) (shape : list Z) (weights : arr R) (threshold : R) (min_length min_depth min_width : Z)
    (sensitivity : R) (temp : arr bool) : result (arr bool) :=
  match shape with
  | [dz; dy; dx] =>
      if (dz =? 0) || (dy =? 0) || (dx =? 0) then Raise ValueError
      else if (min_length <=? 0) || (dz <=? min_length) then Raise ValueError
      else if (min_depth <? 0) || (dy <=? min_depth) then Raise ValueError
      else if (min_width <=? 0) || (dx <=? min_width) then Raise ValueError
      else if rltb 0 sensitivity && negb (rltb 100 sensitivity) then
        Ok (mask3d dx dy dz orders weights threshold min_length min_depth min_width sensitivity temp)
      else Raise ValueError
  | _ => Raise ValueError
  end.
