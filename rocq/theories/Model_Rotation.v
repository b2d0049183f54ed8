(** recon/rotation.py: finding the rotation centre.  Exact real arithmetic (images are float32 in the code, np.int16(x) is
    the integer part of x).  Images have one function per row; library routines that are not modelled are parameters:
    spline interpolation, registration and reconstruction. *)
From Verif Require Import Base CLoop Cplx Model_Prep Model_Sim Model_Corr.
From Coq Require Import Reals.
Local Open Scope R_scope.

Definition img := Z -> Z -> R.
Definition rsum (l : list R) : R := fold_right Rplus 0 l.
(** All pixels of an image of ny rows of nx pixels. *)
Definition pixels (ny nx : Z) (a : img) : list R := flat_map (fun i => map (a i) (zrange 0 nx)) (zrange 0 ny).
Definition list_max (l : list R) : R := match l with [] => 0 | x :: t => fold_right Rmax x t end.
Definition list_min (l : list R) : R := match l with [] => 0 | x :: t => fold_right Rmin x t end.

(** ** find_center (82-202) *)
(** _adjust_hist_min (166-171), _adjust_hist_max (174-179) *)
Definition adjust_hist_min (v : R) : R := if rltb v 0 then 2 * v else 1 / 2 * v.
Definition adjust_hist_max (v : R) : R := if rltb v 0 then 1 / 2 * v else 2 * v.
(** np.histogram(a, bins=n, range=[lo, hi]): limits that are equal are moved apart; values outside are not counted; the last
    bin is closed. *)
Definition hist_limits (lo hi : R) : result (R * R) :=
  if rltb hi lo then Raise ValueError else if Req_EM_T lo hi then Ok (lo - 1 / 2, hi + 1 / 2) else Ok (lo, hi).
Definition bin_of (n : Z) (lo hi x : R) : option Z :=
  if rltb x lo || rltb hi x then None
  else Some (Z.min (n - 1) (Int_part ((x - lo) / (hi - lo) * IZR n))).
Definition in_bin (n : Z) (lo hi : R) (k : Z) (x : R) : bool :=
  match bin_of n lo hi x with Some b => (b =? k)%Z | None => false end.
Definition histogram (n : Z) (lo hi : R) (l : list R) : result (list Z) :=
  match hist_limits lo hi with
  | inl e => Raise e
  | inr (lo, hi) => Ok (map (fun k => Z.of_nat (count (in_bin n lo hi k) l)) (zrange 0 n))
  end.
Definition log2 (x : R) : R := ln x / ln 2.
Definition tiny : R := 1 / 10 ^ 12.
(** 199-200 *)
Definition entropy (size : R) (hist : list Z) : R :=
  - rsum (map (fun c => let h := IZR c / size + tiny in h * log2 h) hist).
(** circ_mask(rec, axis=0) of one slice (160, 196): ratio = 1 and val = 0; the argument ratio of find_center is not passed on. *)
Definition masked (mask : flag) (n : Z) (a : img) : img :=
  match mask with IsTrue => fun i j => if get_mask n n 1 1 i j then a i j else 0 | _ => a end.
(** _adjust_hist_limits (151-163): [rec] is the n x n reconstruction without a given centre. *)
Definition adjust_hist_limits (n : Z) (mask : flag) (rec : img) : R * R :=
  let l := pixels n n (masked mask n rec) in (adjust_hist_min (list_min l), adjust_hist_max (list_max l)).
(** _find_center_cost (182-202): [rec] is the reconstruction with the centre on trial. *)
Definition find_center_cost (n : Z) (rec : img) (hmin hmax : R) (mask : flag) (ratio : R) : result R :=
  match histogram 64 hmin hmax (pixels n n (masked mask n rec)) with
  | inl e => Raise e
  | inr hist => Ok (entropy (IZR (n * n)) hist)
  end.
(** The function that find_center gives to scipy's minimize (139-147): [recon c] is the reconstruction with centre c (None: not given). *)
Definition find_center_objective (n : Z) (recon : option R -> img) (mask : flag) (ratio : R) (c : R) : result R :=
  let '(hmin, hmax) := adjust_hist_limits n mask (recon None) in
  find_center_cost n (recon (Some c)) hmin hmax mask ratio.
(** Slice and start (128-131). *)
Definition default_index (dy : Z) (ind : option Z) : Z := match ind with Some i => i | None => (dy / 2)%Z end.
Definition default_init (dx : Z) (init : option R) : R := match init with Some c => c | None => IZR (dx / 2) end.

(** ** find_center_vo (205-388) *)
Section Vo.
  (** ndimage.shift(a, (0, s), order=3) for a shift that is not an integer. *)
  Variable interp : R -> img -> img.
  Variables nrow ncol : Z.

  (** The stack of the sinogram and its moved mirror image (278-296). *)
  Definition moved (shift_col : R) (sino2 sino3 : img) : img :=
    let f := Int_part shift_col in
    if Req_EM_T shift_col (IZR f) then
      let a := fun i j => sino2 i ((j - f) mod ncol)%Z in                                         (* np.roll, 281 *)
      if (0 <=? f)%Z then fun i j => if in_slice ncol (0, f)%Z j then sino3 i j else a i j         (* 283 *)
      else fun i j => if in_slice ncol (f, ncol) j then sino3 i j else a i j                       (* 285 *)
    else
      let a := interp shift_col sino2 in
      if rltb shift_col 0 then fun i j => if in_slice ncol (f, ncol) j then sino3 i j else a i j   (* 294-295 *)
      else fun i j => if in_slice ncol (0, ceil shift_col)%Z j then sino3 i j else a i j.          (* 291-292 *)
  Definition vstack (a b : img) : img := fun i j => if (i <? nrow)%Z then a i j else b (i - nrow)%Z j.
End Vo.

(** np.fft.fft2 of an image, np.fft.fftshift *)
Definition fft2 (n0 n1 : Z) (a : img) (u v : Z) : cplx :=
  csum n0 (fun i => csum n1 (fun j => (cr (a i j) * (turn n0 (- (u * i)) * turn n1 (- (v * j))))%C)).
Definition fftshift {A} (n0 n1 : Z) (f : Z -> Z -> A) : Z -> Z -> A := fun i j => f ((i - n0 / 2) mod n0)%Z ((j - n1 / 2) mod n1)%Z.
Definition cabs (z : cplx) : R := sqrt (re z * re z + im z * im z).
Definition fliplr (ncol : Z) (a : img) : img := fun i j => a i (ncol - 1 - j)%Z.
Definition flipud (nrow : Z) (a : img) : img := fun i j => a (nrow - 1 - i)%Z j.

(** _calculate_metric (274-299) *)
Definition calculate_metric (interp : R -> img -> img) (nrow ncol : Z) (sino1 sino2 sino3 mask : img) (shift_col : R) : R :=
  let mat := vstack nrow sino1 (moved interp ncol shift_col sino2 sino3) in
  let f := fftshift (2 * nrow) ncol (fft2 (2 * nrow) ncol mat) in
  rsum (pixels (2 * nrow) ncol (fun i j => cabs (f i j) * mask i j)) / IZR (2 * nrow * ncol).

(** _create_mask (355-388); nrow >= 1, ncol >= 1, radius > 0 *)
Definition mid (n : Z) : Z := (ceil (IZR n / 2) - 1)%Z.                                            (* 377-378 *)
Definition clipz (lo hi x : Z) : Z := Z.min hi (Z.max lo x).
Definition wedge (nrow ncol : Z) (radius : R) (i : Z) : Z :=                                       (* 375-376, 382 *)
  let du := 1 / IZR ncol in
  let dv := (IZR nrow - 1) / (IZR nrow * 2 * PI) in
  ceil ((IZR (i - mid nrow) * dv / radius) / du).
Definition create_mask (nrow ncol : Z) (radius : R) (drop : Z) : img :=
  let drop := Z.min drop (ceil (5 / 100 * IZR nrow)) in                                            (* 379 *)
  fun i j =>
    let pos := wedge nrow ncol radius i in
    let pos1 := clipz 0 (ncol - 1) (Z.min (- pos + mid ncol) (pos + mid ncol)) in
    let pos2 := clipz 0 (ncol - 1) (Z.max (- pos + mid ncol) (pos + mid ncol)) in
    if in_slice ncol (mid ncol - 1, mid ncol + 2)%Z j then 0                                       (* 387 *)
    else if in_slice nrow (mid nrow - drop, mid nrow + drop + 1)%Z i then 0                        (* 386 *)
    else if in_slice ncol (pos1, pos2 + 1)%Z j then 1 else 0.                                      (* 385 *)

(** np.arange(start, stop, step), step > 0; np.clip; int() *)
Definition arange (start stop step : R) : list R := map (fun k => start + IZR k * step) (zrange 0 (ceil ((stop - start) / step))).
Definition rclip (lo hi x : R) : R := Rmin hi (Rmax lo x).
Definition trunc (x : R) : Z := if rltb x 0 then ceil x else Int_part x.
(** np.argmin: the first of the least; an empty list is refused. *)
Fixpoint argmin_from (best : R) (pos k : nat) (l : list R) : nat :=
  match l with [] => pos | x :: t => if rltb x best then argmin_from x k (S k) t else argmin_from best pos (S k) t end.
Definition argmin (l : list R) : result nat := match l with [] => Raise ValueError | x :: t => Ok (argmin_from x 0 1 t) end.
Definition best_of (metric : R -> R) (list_cor : list R) (cen : R) : result R :=
  match argmin (map (fun c => metric (2 * (c - cen))) list_cor) with
  | inl e => Raise e
  | inr k => Ok (nth k list_cor 0)
  end.

(** The metric of a sinogram (312-316, 343-345); distribute_jobs calls it once per shift (nchunk=1, see Model_Mproc). *)
Definition sino_metric (interp : R -> img -> img) (nrow ncol : Z) (ratio : R) (drop : Z) (sino : img) : R -> R :=
  calculate_metric interp nrow ncol sino (fliplr ncol sino) (flipud nrow sino)
    (create_mask (2 * nrow) ncol (1 / 2 * ratio * IZR ncol) drop).
(** _search_coarse (302-330) *)
Definition cen_fliplr (ncol : Z) : R := (IZR ncol - 1) / 2.
Definition coarse_bound (ncol : Z) (s : R) : Z := trunc (rclip 0 (IZR ncol - 1) (s + cen_fliplr ncol) - cen_fliplr ncol).
Definition coarse_list (ncol : Z) (smin smax : R) : list R :=
  let start_cor := IZR (ncol / 2 + coarse_bound ncol smin) in
  let stop_cor := IZR (ncol / 2 + coarse_bound ncol smax) in
  arange start_cor (stop_cor + 1 / 2) (1 / 2).
Definition search_coarse (metric : R -> R) (ncol : Z) (smin smax : R) : result R :=
  best_of metric (coarse_list ncol smin smax) (cen_fliplr ncol).
(** _search_fine (333-352) *)
Definition fine_srad (ncol : Z) (srad : R) : R := rclip 1 (IZR ncol / 4) (Rabs srad).
Definition fine_step (ncol : Z) (srad step : R) : R := rclip (1 / 10) (fine_srad ncol srad) (Rabs step).
Definition fine_init (ncol : Z) (srad init_cen : R) : R := rclip (fine_srad ncol srad) (IZR ncol - fine_srad ncol srad - 1) init_cen.
Definition fine_list (ncol : Z) (srad step init_cen : R) : list R :=
  let r := fine_srad ncol srad in
  let h := fine_step ncol srad step in
  map (fun x => fine_init ncol srad init_cen + x) (arange (- r) (r + h) h).
Definition search_fine (metric : R -> R) (ncol : Z) (srad step init_cen : R) : result R :=
  best_of metric (fine_list ncol srad step init_cen) (cen_fliplr ncol).

(** The sinogram that is searched (240-249): [tomo t y x]; an index is taken as python does. *)
Definition pick (height : Z) (ind : option Z) (tomo : Z -> img) : img :=
  match ind with
  | Some i => fun t x => tomo t (if (i <? 0)%Z then i + height else i)%Z x
  | None =>
      let ind := (height / 2)%Z in
      if (10 <? height)%Z then fun t x => rsum (map (fun y => tomo t y x) (zrange (ind - 5) (ind + 5))) / 10
      else fun t x => tomo t ind x
  end.
(** 254-271; [smooth] and [smooth2] are the two gaussian filters, [bin4] is downsample with level 2 of the last axis. *)
Definition find_center_vo (interp : R -> img -> img) (smooth smooth2 bin4 : img -> img) (depth height width : Z) (tomo : Z -> img)
    (ind : option Z) (smin smax srad step ratio : R) (drop : Z) : result R :=
  let t := pick height ind tomo in
  let fine := search_fine (sino_metric interp depth width ratio drop (smooth2 t)) width srad step in
  if (4000000 <? depth * width)%Z then
    match search_coarse (sino_metric interp depth (width / 4) ratio drop (bin4 (smooth t))) (width / 4) (smin / 4) (smax / 4) with
    | inl e => Raise e
    | inr c => fine (c * 4)
    end
  else
    match search_coarse (sino_metric interp depth width ratio drop (smooth t)) width smin smax with
    | inl e => Raise e
    | inr c => fine c
    end.

(** ** find_center_pc (391-435): [shifted s a] is ndimage.shift(a, [0, s], mode='constant', cval=0), [register] is skimage's
    phase_cross_correlation (the shift along the second axis that moves its second argument onto the first). *)
Definition find_center_pc (shifted : R -> img -> img) (register : img -> img -> R) (ncol : Z) (rotc_guess : option R)
    (proj1 proj2 : img) : R :=
  let imgshift := match rotc_guess with None => 0 | Some g => g - (IZR ncol - 1) / 2 end in
  let proj1 := shifted (- imgshift) proj1 in
  let proj2 := fliplr ncol (shifted (- imgshift) proj2) in
  (IZR ncol + register proj1 proj2 - 1) / 2 + imgshift.

(** ** write_center (438-578) *)
(** 547-550: cen_range = (start, end, step), step > 0 *)
Definition center_list (dx : Z) (cen_range : option (R * R * R)) : list R :=
  match cen_range with
  | None => arange (IZR dx / 2 - 5) (IZR dx / 2 + 5) (1 / 2)
  | Some (a, b, h) => arange a b h
  end.
(** '{0:.2f}'.format(c) as the integer number of hundredths, ties to even. *)
Definition round_even (x : R) : Z :=
  let f := Int_part x in
  if rltb (x - IZR f) (1 / 2) then f else if rltb (1 / 2) (x - IZR f) then (f + 1)%Z else if Z.even f then f else (f + 1)%Z.
Definition hundredths (c : R) : Z := round_even (100 * c).
(** 577-578: the images are written one after the other; a name that is used again is overwritten (write_tiff, util/misc.py 88-113). *)
Definition write_files {I} (centers : list R) (images : list I) (disk : Z -> option I) : Z -> option I :=
  fold_left (fun d '(c, im) => fun name => if (name =? hundredths c)%Z then Some im else d name) (combine centers images) disk.
(** The stack holds the same sinogram once per centre (552-558); [recon cs] are the reconstructions of a chunk of the stack with the
    centres cs.  With nchunk=1 (567) every slice is a chunk of its own (Model_Mproc). *)
Definition write_center {I} (recon : list R -> list I) (mask_image : I -> I) (dx : Z) (cen_range : option (R * R * R)) (mask : flag)
    (disk : Z -> option I) : Z -> option I :=
  let centers := center_list dx cen_range in
  let images := flat_map (fun c => recon [c]) centers in
  let images := match mask with IsTrue => map mask_image images | _ => images end in               (* 570-571 *)
  write_files centers images disk.

(** ** mask_empty_slice (581-610); None is a value that is not a finite number *)
Definition mean (l : list R) : R := rsum l / IZR (Z.of_nat (length l)).
Definition std (l : list R) : R := sqrt (mean (map (fun x => (x - mean l) * (x - mean l)) l)).
Definition mask_empty_slice (nt ny nx : Z) (threshold : R) (tomo : Z -> img) : list bool :=
  let projs_sum : img := fun y x => rsum (map (fun t => tomo t y x) (zrange 0 nt)) in              (* 600 *)
  let m := list_max (pixels ny nx projs_sum) in
  if Req_EM_T m 0 then map (fun _ => false) (zrange 0 ny) else                                     (* 601: divided by zero *)
  let projs_sum : img := fun y x => projs_sum y x / m in
  let sumsum := map (fun x => rsum (map (fun y => projs_sum y x) (zrange 0 ny))) (zrange 0 nx) in  (* 603 *)
  let m2 := list_max sumsum in
  if Req_EM_T m2 0 then map (fun _ => false) (zrange 0 ny) else                                    (* 604 *)
  let std_ref := std (map (fun x => x / m2) sumsum) * threshold in
  map (fun y => rltb (std (map (projs_sum y) (zrange 0 nx))) std_ref) (zrange 0 ny).
