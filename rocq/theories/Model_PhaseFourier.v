(** prep/phase.py with its Fourier transforms: the filter of the padded projection, the constants and the pad width.

    Exact reals; fft2 and ifft2 (util/misc/fft_impl) are the exact sums, ifft2 divided by the size.  Not modelled: float32
    rounding of the buffer and of the coordinates. *)
From Coq Require Import Reals.
From Verif Require Import Base Cplx Model_Phase Model_StripeFourier.
Local Open Scope R_scope.

(** SPEED_OF_LIGHT (71), PLANCK_CONSTANT (73) *)
Definition speed_of_light : R := 299792458 * 100.
Definition planck_constant : R := 658211928 / 10 ^ 27.
(** _wavelength (76-77) *)
Definition wavelength (energy : R) : R := 2 * pi_phase * planck_constant * speed_of_light / energy.
(** np.ceil in _calc_pad_width (193) *)
Definition pad_pixels (pixel_size dist energy : R) : Z := (- Int_part (- (pi_phase * wavelength energy * dist / (pixel_size * pixel_size))))%Z.
(** phase_filter.max() (136) *)
Definition image_max (h w : Z) (f : Z -> Z -> R) : R :=
  fold_right Rmax (f 0%Z 0%Z) (flat_map (fun i => map (f i) (zrange 0 w)) (zrange 0 h)).
(** normalized_phase_filter (119-120, 136) for a buffer of [h] rows and [w] columns *)
Definition normalised_filter (pixel_size dist energy alpha : R) (h w i j : Z) : R :=
  let f := phase_filter pixel_size (wavelength energy * dist) alpha h w in f i j / image_max h w f.
(** fft2, product, ifft2, real part (143-145) *)
Definition fourier_filter (h w : Z) (g : Z -> Z -> R) (prj : Z -> Z -> R) (r c : Z) : R :=
  re (idft2 h w (fun v u => (dft2 h w (fun y x => cr (prj y x)) v u * cr (g v u))%C) r c).
(** retrieve_phase (80-130), one chunk; [prj] is the initial buffer *)
Definition retrieve_phase_fft (pixel_size dist energy alpha : R) (pad : bool) (dy dz : Z) (tomo : list (Z -> Z -> R)) (prj : Z -> Z -> R)
  : list (Z -> Z -> R) :=
  retrieve_phase dy dz (pad_pixels pixel_size dist energy) pad
    (fun h w => fourier_filter h w (normalised_filter pixel_size dist energy alpha h w)) tomo prj.
