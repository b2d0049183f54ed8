(** sim/propagate.py: propagation of the wave and raster scans, exact reals. *)
From Verif Require Import Base.
From Coq Require Import Reals.
Local Open Scope Z_scope.

(** ** Raster scans *)
(** np.arange(0, stop, step) for integers *)
Definition arange (stop step : Z) : result (list Z) := if step =? 0 then Raise ZeroDivisionError else Ok (pyrange 0 stop step).
(** The loop of _rect_scan_coords (150-151), cut off after [fuel] iterations: None if it has not ended by then. *)
Fixpoint trim (fuel : nat) (probe proj shift : Z) (x : list Z) : option (list Z) :=
  if Z.of_nat (length x) * shift >? proj - probe + shift then
    match fuel with O => None | S fuel => trim fuel probe proj shift (removelast x) end
  else Some x.
(** _rect_scan_coords (129-154), one axis; the two axes are treated alike. *)
Definition scan_coords (fuel : nat) (probe proj shift : Z) : result (option (list Z)) :=
  match arange proj shift with inl e => Raise e | inr x => Ok (trim fuel probe proj shift x) end.

Section Scan.
  Context {V : Type}.
  Variable mul : V -> V -> V.
  Definition picture : Type := Z -> Z -> V.
  (** Extent of a[i : i + s] in an axis of length n, 0 <= i *)
  Definition extent (n i s : Z) : Z := Z.max 0 (Z.min n (i + s) - i).
  (** probe * proj[i:i+sx, j:j+sy]; None: the shapes differ *)
  Definition expose (sx sy px py : Z) (probe proj : picture) (i j : Z) : option picture :=
    if (extent px i sx =? sx) && (extent py j sy =? sy) then Some (fun a b => mul (probe a b) (proj (i + a) (j + b))) else None.
  (** _rect_scan_probe (157-190) *)
  Definition default_shift (shift : option Z) (s : Z) : Z := match shift with Some k => k | None => s / 2 end.
  Definition scan_probe (fuel : nat) (sx sy px py : Z) (shift_x shift_y : option Z) (probe proj : picture) : result (option (list (option picture))) :=
    match scan_coords fuel sx px (default_shift shift_x sx) with
    | inl e => Raise e
    | inr x =>
      match arange py (default_shift shift_y sy) with          (* both ranges are built before the loops *)
      | inl e => Raise e
      | inr y0 =>
        match x, trim fuel sy py (default_shift shift_y sy) y0 with
        | Some x, Some y => Ok (Some (flat_map (fun i => map (fun j => expose sx sy px py probe proj i j) y) x))
        | _, _ => Ok None
        end
      end
    end.
End Scan.

Local Open Scope R_scope.
(** calc_intensity (193-218); the Fourier transform is a parameter.  Any other mode leaves the result unbound. *)
Inductive regime := Near | Far | OtherRegime.
Definition calc_intensity (power : picture (V := R) -> picture (V := R)) (mode : regime) (fuel : nat) (sx sy px py : Z) (shift_x shift_y : option Z)
    (probe proj : picture (V := R)) : result (option (list (option (picture (V := R))))) :=
  match scan_probe Rmult fuel sx sy px py shift_x shift_y probe proj with
  | inl e => Raise e
  | inr None => Ok None
  | inr (Some psi) =>
    match mode with
    | Near => Ok (Some (map (option_map (fun f => fun a b => Rabs (f a b) ^ 2)) psi))
    | Far => Ok (Some (map (option_map power) psi))
    | OtherRegime => Raise UnboundLocalError
    end
  end.

(** ** probe_gauss (97-126) for a positive width *)
Definition probe_gauss (nx ny : Z) (fwhm : option R) (center : option (R * R)) (max_int : R) (i j : Z) : R :=
  let fwhm := match fwhm with Some f => f | None => IZR (Z.max nx ny / 2) end in
  let '(x0, y0) := match center with Some c => c | None => (IZR (nx / 2), IZR (ny / 2)) end in
  max_int * exp (-4 * ln 2 * (Rsqr (IZR i - x0 + 1/2) + Rsqr (IZR j - y0 + 1/2)) / Rsqr fwhm).

(** ** propagate_tie (67-94) *)
(** np.gradient along one axis of n >= 2 points with spacing h *)
Definition gradient (n : Z) (h : R) (f : Z -> R) (i : Z) : R :=
  if (i =? 0)%Z then (f 1%Z - f 0%Z) / h
  else if (i =? n - 1)%Z then (f (n - 1)%Z - f (n - 2)%Z) / h
  else (f (i + 1)%Z - f (i - 1)%Z) / (2 * h).
Definition propagate_tie (nx ny : Z) (mu delta : Z -> Z -> R) (pixel_size dist : R) : result (Z -> Z -> R) :=
  if (nx <? 2)%Z || (ny <? 2)%Z then Raise ValueError else
  let i1 := fun i j => exp (- mu i j) in
  let dx := fun i j => gradient nx pixel_size (fun i => delta i j) i in
  let dy := fun i j => gradient ny pixel_size (fun j => delta i j) j in
  let d2x := fun i j => gradient nx pixel_size (fun i => i1 i j * dx i j) i in
  let d2y := fun i j => gradient ny pixel_size (fun j => i1 i j * dy i j) j in
  Ok (fun i j => i1 i j + dist * (d2x i j + d2y i j)).
