(** prep/alignment.py, exact reals.  Parameters: reconstruction, projection, correlation and warping of the images in the
    iterative alignment; the detection of slit corners of one image, the computation and application of the affine
    transform in the drift correction.  map_coordinates (order=1) is bilinear interpolation, its coordinates are always
    clipped before.  Not modelled: writing of files, printing, int16 overflow of row numbers beyond 32767, float32
    rounding of coordinates, add_jitter and add_noise (random), tilt (not implemented). *)
From Verif Require Import Base Model_Prep Model_Solver.
From Coq Require Import Reals.
Local Open Scope R_scope.

Definition img : Type := Z -> Z -> R.
Definition pixels (h w : Z) (f : img) : list R := flat_map (fun r => map (f r) (zrange 0 w)) (zrange 0 h).

(** ** scale (460-479) *)
Fixpoint lmax (x : R) (l : list R) : R := match l with [] => x | y :: l => lmax (Rmax x y) l end.
Fixpoint lmin (x : R) (l : list R) : R := match l with [] => x | y :: l => lmin (Rmin x y) l end.
(** The factor; numpy's max of an empty array raises. *)
Definition scale_factor (h w : Z) (prj : list img) : result R :=
  match flat_map (pixels h w) prj with [] => Raise ValueError | x :: l => Ok (Rmax (Rabs (lmax x l)) (Rabs (lmin x l))) end.
(** prj /= scl in place; None: division by zero, all values NaN *)
Definition scaled (scl : R) (prj : list img) : option (list img) := if Req_EM_T scl 0 then None else Some (map (fun f r c => f r c / scl) prj).
(** prj *= scl *)
Definition rescaled (scl : R) (prj : list img) : list img := map (fun f r c => f r c * scl) prj.

(** ** blur_edges (482-514): the mask *)
Definition radius (dy dz r c : Z) : R := sqrt (Rsqr (IZR r - IZR dy / 2) + Rsqr (IZR c - IZR dz / 2)).
Definition blur_mask (rad_max low high rad : R) : number :=
  let rmin := low * rad_max in let rmax := high * rad_max in
  let mask := Some 0 in
  let mask := if rltb rad rmin then Some 1 else mask in
  let mask := if rltb rmax rad then Some 0 else mask in
  if negb (rltb rad rmin) && negb (rltb rmax rad) then ndiv (Some (rmax - rad)) (Some (rmax - rmin)) else mask.

(** ** align_seq (89-213), align_joint (216-359), shift_images (517-536) *)
(** np.pad with zeros: pad = (columns, rows) on either side *)
Definition pad_image (h w p0 p1 : Z) (f : img) : img := fun r c =>
  if (p1 <=? r)%Z && (r <? h + p1)%Z && (p0 <=? c)%Z && (c <? w + p0)%Z then f (r - p1)%Z (c - p0)%Z else 0.
Section Align.
  Context {Rec : Type}.
  Variable recon : list img -> Rec.
  Variable recon_from : Rec -> list img -> Rec.
  Variable init : Rec.
  Variable project : Rec -> list img.
  Variable correlate : img -> img -> R * R.
  Variable warp : R * R -> img -> img.
  Variable blur : list img -> list img.                       (* identity if blur=False *)
  Definition zipmap {A B C} (f : A -> B -> C) (l : list A) (m : list B) : list C := map (fun '(a, b) => f a b) (combine l m).
  Definition add2 (p q : R * R) : R * R := (fst p + fst q, snd p + snd q).
  (** One iteration (170-200): images and accumulated shifts (sx, sy) *)
  Definition seq_iter (st : list img * list (R * R)) : list img * list (R * R) :=
    let '(prj, s) := st in
    let sim := project (recon prj) in
    let shift := zipmap correlate (blur prj) (blur sim) in
    (zipmap (fun d f => warp (snd d, fst d) f) shift prj, zipmap add2 s shift).
  (** One iteration (307-343): reconstruction, images and accumulated shifts *)
  Definition joint_iter (prj : list img) (st : Rec * list img * list (R * R)) : Rec * list img * list (R * R) :=
    let '(rec, copy, s) := st in
    let rec := recon_from rec copy in
    let sim := project rec in
    let shift := zipmap correlate (blur copy) (blur sim) in
    let s := zipmap add2 s shift in
    (rec, zipmap (fun d f => warp (snd d, fst d) f) s prj, s).
  (** The results: the caller's array after the call, the images returned, the shifts; None: all values NaN *)
  Definition align_seq (h w p0 p1 : Z) (iters : nat) (prj : list img) : result (option (list img * list img * list (R * R))) :=
    match scale_factor h w prj with
    | inl e => Raise e
    | inr scl => match scaled scl prj with
      | None => Ok None
      | Some caller =>
        let '(out, s) := Nat.iter iters seq_iter (map (pad_image h w p0 p1) caller, map (fun _ => (0, 0)) caller) in
        Ok (Some (caller, rescaled scl out, s))
      end
    end.
  Definition align_joint (h w p0 p1 : Z) (iters : nat) (prj : list img) : result (option (list img * list img * list (R * R))) :=
    match scale_factor h w prj with
    | inl e => Raise e
    | inr scl => match scaled scl prj with
      | None => Ok None
      | Some caller =>
        let padded := map (pad_image h w p0 p1) caller in
        let '(_, _, s) := Nat.iter iters (joint_iter padded) (init, padded, map (fun _ => (0, 0)) caller) in
        Ok (Some (caller, rescaled scl padded, s))
      end
    end.
  Definition shift_images (h w : Z) (prj : list img) (s : list (R * R)) : result (option (list img)) :=
    match scale_factor h w prj with
    | inl e => Raise e
    | inr scl => match scaled scl prj with
      | None => Ok None
      | Some caller => Ok (Some (rescaled scl (zipmap (fun d f => warp (snd d, fst d) f) s caller)))
      end
    end.
End Align.

(** ** find_slits_corners_aps_1id (617-636): quadrants and their origins *)
Record quadrant := Quadrant { row_from : Z; row_to : Z; col_from : Z; col_to : Z; origin_x : Z; origin_y : Z }.
Definition quadrants (rows cols : Z) : list quadrant :=
  let cx := (cols / 2)%Z in let cy := (rows / 2)%Z in
  [ Quadrant 0 cy 0 cx 0 0;
    Quadrant cy rows 0 cx 0 cy;
    Quadrant cy rows cx cols cx cy;
    Quadrant 0 (Z.min cx rows) (Z.min cy cols) cols cy 0 ].             (* img[0:cnt[0], cnt[1]:], origin [cnt[1], 0] *)
(** calc_slit_box_aps_1id (705-732); corners (x, y).  The result is (xl, xu, yl, yu). *)
Definition floor (x : R) : Z := Int_part x.
Definition ceil (x : R) : Z := (- Int_part (- x))%Z.
Definition slit_box (c : R * R) (cs : list (R * R)) (inclip : Z * Z * Z * Z) : Z * Z * Z * Z :=
  let '(i0, i1, i2, i3) := inclip in
  let xs := map fst cs in let ys := map snd cs in
  ((floor (lmin (fst c) xs) + i0)%Z, (ceil (lmax (fst c) xs) - i1)%Z, (floor (lmin (snd c) ys) + i2)%Z, (ceil (lmax (snd c) ys) - i3)%Z).

(** ** detector_drift_adjust_aps_1id (757-873) *)
Section Drift.
  Definition corners : Type := list R.
  Definition quick_diff (a b : corners) : R := fold_right Rmax 0 (map (fun '(x, y) => Rabs (x - y)) (combine a b)).
  Variable ref : corners.
  Variable nimg : nat.
  (** Corners found in an image with given sizes of the two median filters *)
  Variable detect : nat -> Z * Z -> corners.
  Definition kernels (k2 k1 : Z) : list (Z * Z) :=
    flat_map (fun i => map (fun j => (k2 + 2 * i, k1 + 2 * j)%Z) (zrange 0 15)) (zrange 0 15).
  Definition drift_state : Type := list (corners * bool).                  (* proj_cnrs and cnrs_found *)
  Definition first_pass (k2 k1 : Z) : drift_state :=
    map (fun n => let c := detect n (k2, k1) in (c, rltb (quick_diff c ref) 15)) (seq 0 nimg).
  (** One pass over the images not found yet (827-842) *)
  Definition pass (k : Z * Z) (st : drift_state) : drift_state :=
    map (fun '(n, (cnr, found)) => if (found : bool) then (cnr, found) else
      let new := detect n k in
      if rltb (quick_diff new cnr) (1/10) && rltb (quick_diff new ref) 15 then (cnr, true) else (new, false)) (combine (seq 0 nimg) st).
  Definition all_found (st : drift_state) : bool := forallb snd st.
  Definition give_up (st : drift_state) : drift_state := map (fun '(cnr, found) => if (found : bool) then (cnr, found) else (ref, found)) st.
  (** The loop (813-845), cut off after [fuel] rounds *)
  Fixpoint drift_loop (fuel : nat) (ks : list (Z * Z)) (counter : nat) (st : drift_state) : option (result drift_state) :=
    if all_found st then Some (Ok st) else
    match fuel with
    | O => None
    | S fuel =>
      if Nat.ltb (length ks) counter then Some (Ok (give_up st))
      else match nth_error ks counter with
        | None => Some (Raise IndexError)
        | Some k => drift_loop fuel ks (S counter) (pass k st)
        end
    end.
  (** Nothing is detected in an empty stack: np.stack([]) raises. *)
  Definition drift_corners (fuel : nat) (k2 k1 : Z) : option (result (list corners)) :=
    match nimg with
    | O => Some (Raise ValueError)
    | _ => match drift_loop fuel (kernels k2 k1) 0 (first_pass k2 k1) with
      | None => None
      | Some (inl e) => Some (Raise e)
      | Some (inr st) => Some (Ok (map fst st))
      end
    end.
End Drift.

(** ** Distortion correction (957-1071) *)
Definition clip (lo hi x : R) : R := Rmin hi (Rmax lo x).
(** scipy.ndimage.map_coordinates(order=1) at a point inside the image; the second neighbour of the last pixel is reflected *)
Definition reflect (n i : Z) : Z := if (i <? n)%Z then i else (2 * n - 1 - i)%Z.
Definition bilinear (h w : Z) (f : img) (y x : R) : R :=
  let r := floor y in let c := floor x in
  let dy := y - IZR r in let dx := x - IZR c in
  let at_ := fun i j => f (reflect h i) (reflect w j) in
  (1 - dy) * (1 - dx) * at_ r c + (1 - dy) * dx * at_ r (c + 1)%Z + dy * (1 - dx) * at_ (r + 1)%Z c + dy * dx * at_ (r + 1)%Z (c + 1)%Z.
(** sum(factor * ru ** i for i, factor in enumerate(list_fact)) *)
Definition radial (list_fact : list R) (ru : R) : R := rsum (map (fun '(i, f) => f * ru ^ i) (combine (seq 0 (length list_fact)) list_fact)).
Section Distortion.
  Variables xcenter ycenter : R.
  Variable list_fact : list R.
  (** _unwarp_image_backward (957-988): coordinates of a pixel *)
  Definition xd (w r c : Z) : R :=
    let xu := IZR c - xcenter in let yu := IZR r - ycenter in
    clip 0 (IZR (w - 1)) (xcenter + radial list_fact (sqrt (xu ^ 2 + yu ^ 2)) * xu).
  Definition yd (h r c : Z) : R :=
    let xu := IZR c - xcenter in let yu := IZR r - ycenter in
    clip 0 (IZR (h - 1)) (ycenter + radial list_fact (sqrt (xu ^ 2 + yu ^ 2)) * yu).
  Definition unwarp (h w : Z) (f : img) : img := fun r c => bilinear h w f (yd h r c) (xd w r c).
  (** distortion_correction_proj (919-954) through _distortion_correction_proj (991-995) *)
  Definition correct_proj (h w : Z) (tomo : list img) : list img := map (unwarp h w) tomo.
  (** distortion_correction_sino (998-1041): only the rows yd_min .. yd_max - 1 are used *)
  Definition correct_sino (h w ind : Z) (tomo : list img) : result (list (Z -> R)) :=
    match map (yd h ind) (zrange 0 w) with
    | [] => Raise ValueError                                               (* np.amin of an empty array *)
    | y0 :: ys =>
      let yd_min := floor (lmin y0 ys) in
      let yd_max := Z.min h (ceil (lmax y0 ys) + 1) in                     (* the slice stops at the end of the image *)
      Ok (map (fun f c => bilinear (yd_max - yd_min) w (fun r c => f (r + yd_min)%Z c) (yd h ind c - IZR yd_min) (xd w ind c)) tomo)
    end.
End Distortion.
(** load_distortion_coefs (1044-1071): the words of each line *)
Fixpoint last_words (lines : list (list R)) : result (list R) :=
  match lines with
  | [] => Ok []
  | l :: lines => match rev l with [] => Raise IndexError | x :: _ => match last_words lines with inl e => Raise e | inr xs => Ok (x :: xs) end end
  end.
Definition load_coefs (lines : list (list R)) : result (R * R * list R) :=
  match last_words lines with inl e => Raise e | inr (x :: y :: l) => Ok (x, y, l) | inr _ => Raise IndexError end.
