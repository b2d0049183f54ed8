(** prep/stripe.py: detection of stripes and the methods built on it (697-982), exact reals; [None] is a value that is
    not finite.  A sinogram is the list of its columns.  scipy's uniform_filter1d and numpy's polyfit are parameters,
    RectBivariateSpline (kx = ky = 1, evaluated at knots of the first axis) is linear interpolation along a row.
    Not modelled: the int16 overflow of ndrop beyond 131071 columns, RectBivariateSpline raising for one projection. *)
From Verif Require Import Base Order Model_Prep Model_Solver Model_Ospml Model_Stripe.
From Coq Require Import Reals.
Local Open Scope R_scope.

(** Order used by numpy for sorting: NaN last. *)
Definition nltb (a b : number) : bool := match a, b with Some x, Some y => rltb x y | Some _, None => true | None, _ => false end.
Definition dilate (mask : list bool) : list bool :=                                   (* binary_dilation, iterations=1 *)
  let m := fun c => if (c <? 0)%Z then false else nth (Z.to_nat c) mask false in
  map (fun c => m (c - 1)%Z || m c || m (c + 1)%Z) (zrange 0 (Z.of_nat (length mask))).
Definition clear_ends (mask : list bool) : list bool :=                               (* listmask[0:2] = listmask[-2:] = 0 *)
  let n := Z.of_nat (length mask) in
  map (fun c => if (c <? 2)%Z || (n - 2 <=? c)%Z then false else nth (Z.to_nat c) mask false) (zrange 0 n).

Section Detect.
  (** numpy.polyfit(x, y, 1) for the points: (slope, intercept) *)
  Variable polyfit : list (R * R) -> R * R.
  (** _detect_stripe (697-719) *)
  Definition detect_stripe (listdata : list R) (snr : R) : result (list bool) :=
    let numdata := Z.of_nat (length listdata) in
    let listsorted := rev (isort rltb listdata) in
    let ndrop := (numdata / 4)%Z in
    let points := map (fun i => (IZR i, nth (Z.to_nat i) listsorted 0)) (zrange ndrop (numdata - ndrop - 1)) in
    match points with
    | [] => Raise TypeError
    | _ =>
      let '(slope, intercept) := polyfit points in
      let numt1 := intercept + slope * IZR (numdata - 1) in
      let noiselevel := Rmax (Rabs (numt1 - intercept)) (1 / 1000000) in
      let val1 := Rabs (nth 0 listsorted 0 - intercept) / noiselevel in
      let val2 := Rabs (nth (Z.to_nat (numdata - 1)) listsorted 0 - numt1) / noiselevel in
      let upper_thresh := intercept + noiselevel * snr * (1 / 2) in
      let lower_thresh := numt1 - noiselevel * snr * (1 / 2) in
      Ok (map (fun x => (negb (rltb val1 snr) && rltb upper_thresh x) || (negb (rltb val2 snr) && negb (rltb lower_thresh x))) listdata)
    end.

  (** 736-740, 949-953: quotient of the means of the sorted and the smoothed columns without the extreme rows *)
  Definition drop_mean (ndrop nrow : Z) (col : list R) : R :=
    rmean (firstn (Z.to_nat (nrow - ndrop - ndrop)) (skipn (Z.to_nat ndrop) col)).
  Definition quotient (a b : R) : R := if Req_EM_T b 0 then 1 else a / b.
  Definition smooth_sorted (size : Z) (sino : list (list R)) : list (list R) := median_filter rltb 0 size 1 (map (isort rltb) sino).
  Definition factors (drop_ratio : R) (size nrow : Z) (sino : list (list R)) : list R :=
    let drop_ratio := Rmax 0 (Rmin (8 / 10) drop_ratio) in
    let ndrop := Int_part (1 / 2 * drop_ratio * IZR nrow) in
    map (fun '(a, b) => quotient (drop_mean ndrop nrow a) (drop_mean ndrop nrow b)) (combine (map (isort rltb) sino) (smooth_sorted size sino)).
  Definition normalised (norm : bool) (facts : list R) (sino : list (list R)) : list (list number) :=
    map (fun '(col, f) => map (fun x => if norm then ndiv (Some x) (Some f) else Some x) col) (combine sino facts).

  Variables sort_value sort_index : list (Z * number) -> list (Z * number).
  (** _rs_large (722-752) *)
  Definition rs_large (snr : R) (size : Z) (drop_ratio : R) (norm : bool) (nrow : Z) (sino : list (list R)) : result (list (list number)) :=
    let sinosmooth := smooth_sorted size sino in
    let listfact := factors drop_ratio size nrow sino in
    match detect_stripe listfact snr with
    | inl e => Raise e
    | inr mask =>
      let mask := dilate mask in
      let sinogram := normalised norm listfact sino in
      let corrected := rs_sort sort_value sort_index (fun _ => map (map Some) sinosmooth) sinogram in
      Ok (map (fun '(b, (col, cor)) => if (b : bool) then cor else col) (combine mask (combine sinogram corrected)))
    end.

  (** Interpolation of the masked columns from the nearest columns left and right (822-829, 961-973) *)
  Section Interpolate.
    Context {V : Type}.
    Variable mix : Z -> Z -> V -> V -> V.               (* distance to the left and to the right column, their values *)
    Definition known_left (mask : list bool) (c : Z) : option Z :=
      hd_error (rev (filter (fun k => negb (nth (Z.to_nat k) mask false)) (zrange 0 c))).
    Definition known_right (mask : list bool) (c : Z) : option Z :=
      hd_error (filter (fun k => negb (nth (Z.to_nat k) mask false)) (zrange (c + 1) (Z.of_nat (length mask)))).
    Definition interpolate (mask : list bool) (sino : list (list V)) : list (list V) :=
      map (fun c =>
        let col := nth (Z.to_nat c) sino [] in
        if nth (Z.to_nat c) mask false then
          match known_left mask c, known_right mask c with
          | Some l, Some r => map (fun '(x, y) => mix (c - l) (r - c) x y) (combine (nth (Z.to_nat l) sino []) (nth (Z.to_nat r) sino []))
          | _, _ => col
          end
        else col) (zrange 0 (Z.of_nat (length sino))).
  End Interpolate.
  Definition mix_r (a b : Z) (x y : R) : R := (IZR b * x + IZR a * y) / IZR (a + b).
  Definition mix_n (a b : Z) (x y : number) : number := match x, y with Some x, Some y => Some (mix_r a b x y) | _, _ => None end.
  (** _rs_interpolation (940-974) *)
  Definition rs_interpolation (snr : R) (size : Z) (drop_ratio : R) (norm : bool) (nrow : Z) (sino : list (list R)) : result (list (list number)) :=
    let listfact := factors drop_ratio size nrow sino in
    match detect_stripe listfact snr with
    | inl e => Raise e
    | inr mask => Ok (interpolate mix_n (clear_ends (dilate mask)) (normalised norm listfact sino))
    end.
  (** scipy.ndimage.uniform_filter1d(column, 10) *)
  Variable uniform_filter : list R -> list R.
  (** _rs_dead (802-833) *)
  Definition list_median_filter (size : Z) (l : list R) : list R := map (fun col => nth 0 col 0) (median_filter rltb 0 size 1 (map (fun x => [x]) l)).
  Definition rs_dead (snr : R) (size : Z) (norm : bool) (nrow : Z) (sino : list (list R)) : result (list (list number)) :=
    let listdiff := map (fun col => rsum (map (fun '(x, y) => Rabs (x - y)) (combine col (uniform_filter col)))) sino in
    let listfact := map (fun '(a, b) => quotient a b) (combine listdiff (list_median_filter size listdiff)) in
    match detect_stripe listfact snr with
    | inl e => Raise e
    | inr mask =>
      let sinogram := interpolate mix_r (clear_ends (dilate mask)) sino in
      if norm then rs_large snr size (1 / 10) true nrow sinogram else Ok (map (map Some) sinogram)
    end.
  (** _remove_all_stripe (886-892), one sinogram *)
  Definition remove_all_stripe (snr : R) (la_size sm_size dim nrow : Z) (sino : list (list R)) : result (list (list number)) :=
    match rs_dead snr la_size true nrow sino with
    | inl e => Raise e
    | inr s => Ok (rs_sort sort_value sort_index (sort_filter nltb (Some 0) sm_size dim) s)
    end.
End Detect.
(** _rs_filter (488-503); [lowpass] is the Fourier filter of one column *)
Definition rs_filter (sort_value sort_index : list (Z * R) -> list (Z * R)) (lowpass : list R -> list R) (size dim : Z) (sino : list (list R)) : list (list R) :=
  let smooth := map lowpass sino in
  let sharp := map (fun '(a, b) => map (fun '(x, y) => x - y) (combine a b)) (combine sino smooth) in
  let cor := rs_sort sort_value sort_index (sort_filter rltb 0 size dim) smooth in
  map (fun '(a, b) => map (fun '(x, y) => x + y) (combine a b)) (combine cor sharp).
