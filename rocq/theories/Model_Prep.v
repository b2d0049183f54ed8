(** prep/normalize.py and libtomo/prep/prep.c (normalize_bg) in exact real arithmetic.  The bit-level
    model of one normalised pixel is in Model_Corr. *)
From Verif Require Import Base Order CLoop.
From Coq Require Import Reals.
Local Open Scope R_scope.

Definition rltb (x y : R) : bool := if Rlt_dec x y then true else false.

(** ** Averaging over frames *)
Inductive averaging := AvgMean | AvgMedian | AvgOther.

Definition rsum (l : list R) : R := fold_right Rplus 0 l.
Definition rmean (l : list R) : R := rsum l / INR (length l).
(** np.median: middle element or mean of the two middle elements. *)
Definition rmedian (l : list R) : R :=
  let s := isort rltb l in
  let n := length s in
  if Nat.odd n then nth (n / 2) s 0 else (nth (n / 2 - 1) s 0 + nth (n / 2) s 0) / 2.

(** Images are functions from pixels to values; [P] is the pixel index. *)
Definition frame_avg {P} (avg : list R -> R) (fs : list (P -> R)) (px : P) : R := avg (map (fun f => f px) fs).

(** ** normalize (normalize.py 98-164) *)
Definition small : R := / 1000000.
Definition norm_px (cutoff : option R) (f d a : R) : R :=
  let denom := f - d in
  let denom := if rltb denom small then small else denom in
  let o := (a - d) / denom in
  match cutoff with Some c => if rltb c o then c else o | None => o end.

(** [flats], [darks] non-empty (numpy would return NaN otherwise). *)
Definition normalize {T P} (avg : averaging) (cutoff : option R) (flats darks : list (P -> R)) (arr : T -> P -> R)
  : result (T -> P -> R) :=
  match avg with
  | AvgMean => Ok (fun t px => norm_px cutoff (frame_avg rmean flats px) (frame_avg rmean darks px) (arr t px))
  | AvgMedian => Ok (fun t px => norm_px cutoff (frame_avg rmedian flats px) (frame_avg rmedian darks px) (arr t px))
  | AvgOther => Raise ValueError
  end.

(** ** minus_log (normalize.py 72-95) for positive arguments *)
Definition minus_log (x : R) : R := - ln x.

(** ** normalize_roi (normalize.py 168-204): one projection of size d1 x d2, region
    roi = [r0, r1, r2, r3], 0 <= r0 < r2 <= d1 and 0 <= r1 < r3 <= d2. *)
Definition roi_values (r0 r1 r2 r3 : Z) (proj : Z -> Z -> R) : list R :=
  flat_map (fun i => map (proj i) (zrange r1 r3)) (zrange r0 r2).
Definition normalize_roi (r0 r1 r2 r3 : Z) (proj : Z -> Z -> R) : Z -> Z -> R :=
  let bg := rmean (roi_values r0 r1 r2 r3 proj) in
  if Req_EM_T bg 0 then proj else fun i j => proj i j / bg.

(** ** normalize_nf (normalize.py 245-338) *)
Local Open Scope Z_scope.
(** int(np.round(d / 2)): ties to even. *)
Definition round_half (d : Z) : Z :=
  if Z.even d then d / 2 else if Z.even (d / 2) then d / 2 else d / 2 + 1.

(** (tstart, tend) for each flat location (326-328). *)
Fixpoint nf_segs (total tstart : Z) (locs : list Z) : list (Z * Z) :=
  match locs with
  | [] => []
  | l :: r =>
      match r with
      | [] => [(tstart, total)]
      | l2 :: _ => let tend := round_half (l2 - l) + l in (tstart, tend) :: nf_segs total tend r
      end
  end.

(** Python slice bound for an axis of length n. *)
Definition clip (n i : Z) : Z := if i <? 0 then Z.max 0 (i + n) else Z.min i n.
Definition in_slice (n : Z) (s : Z * Z) (t : Z) : bool := (clip n (fst s) <=? t) && (t <? clip n (snd s)).

(** Flats of group m (319-321); [None] is NaN, the median of an empty group. *)
Definition nf_flat {P} (flats : list (P -> R)) (num_flats m : Z) (px : P) : option R :=
  let per := Z.of_nat (length flats) / num_flats in
  match firstn (Z.to_nat per) (skipn (Z.to_nat (m * per)) flats) with
  | [] => None
  | g => Some (frame_avg rmedian g px)
  end.
Definition nf_px (cutoff : option R) (f : option R) (d a : R) : option R :=
  match f with Some f => Some (norm_px cutoff f d a) | None => None end.

Definition nf_step {P} (total : Z) (value : Z -> Z -> P -> option R)
    (out : Z -> P -> option R) (mseg : Z * (Z * Z)) : Z -> P -> option R :=
  fun t px => if in_slice total (snd mseg) t then value (fst mseg) t px else out t px.

Definition normalize_nf {P} (avg : averaging) (cutoff : option R) (flats darks : list (P -> R)) (locs : list Z)
    (total : Z) (tomo : Z -> P -> R) (out0 : Z -> P -> option R) : result (Z -> P -> option R) :=
  match avg with
  | AvgOther => Raise ValueError
  | AvgMedian => Raise TypeError              (* np.median has no argument dtype (305) *)
  | AvgMean =>
      let n := Z.of_nat (length locs) in
      if n =? 0 then Raise ZeroDivisionError                                  (* 315 *)
      else
        let value m t px := nf_px cutoff (nf_flat flats n m px) (frame_avg rmean darks px) (tomo t px) in
        Ok (fold_left (nf_step total value) (combine (zrange 0 n) (nf_segs total 0 locs)) out0)
  end.

(** ** normalize_bg (libtomo/prep/prep.c 46-87), on the flat memory of dx projections of dy rows of
    dz pixels; [nair] >= 1, dz >= 2. *)
Local Open Scope R_scope.
Definition bg_row (dz nair : Z) (i : Z) (data : arr R) : arr R :=
  let '(l, r) := for_ nair (fun j lr => (fst lr + data (i + j)%Z, snd lr + data (i + dz - 1 - j)%Z)) (0, 0) in
  let l := l / IZR nair in
  let r := r / IZR nair in
  let l := if Rle_dec l 0 then 1 else l in
  let r := if Rle_dec r 0 then 1 else r in
  let slope := (r - l) / IZR (dz - 1) in
  for_ dz (fun j d => aset d (i + j) (d (i + j)%Z / (l + slope * IZR j))) data.
Definition normalize_bg (dx dy dz nair : Z) (data : arr R) : arr R :=
  for_ dx (fun m d => for_ dy (fun n d => bg_row dz nair (m * (dz * dy) + n * dz) d) d) data.
