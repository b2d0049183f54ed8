(** prep/stripe.py: the Fourier filters of remove_stripe_based_filtering, remove_stripe_based_fitting and remove_stripe_fw.

    Exact reals; fft and ifft (scipy.fft / mkl_fft) are the exact sums, ifft divided by the length.  One sinogram is
    modelled; the loop over sinograms is the same as in the sorting technique.  savgol_filter and the wavelet transforms of
    pywt are parameters. *)
From Coq Require Import Reals.
From Verif Require Import Base Cplx Model_Prep Model_Stripe Model_StripeLarge.
Local Open Scope R_scope.

Definition dft (M : Z) (x : Z -> cplx) (k : Z) : cplx := csum M (fun j => (x j * turn M (- (j * k)))%C).
Definition idft (M : Z) (x : Z -> cplx) (j : Z) : cplx := (cr (/ IZR M) * dft_backward M x j)%C.

(** ** remove_stripe_based_filtering *)

(** signal.windows.gaussian (479): symmetric, std = sigma *)
Definition gaussian (M : Z) (sigma : R) (k : Z) : R :=
  let n := IZR k - (IZR M - 1) / 2 in exp (- (n * n) / (2 * (sigma * sigma))).
(** _create_listsign (483-485): np.power(-1.0, j) *)
Definition sign_of (j : Z) : R := if Z.even j then 1 else -1.
(** np.pad(mode='reflect') (493): index of the element that position [i] of the padded list holds, for pad < n *)
Definition pad_reflect (n pad i : Z) : Z := let j := (i - pad)%Z in if (j <? 0)%Z then (- j)%Z else if (j <? n)%Z then j else (2 * (n - 1) - j)%Z.
(** ifft(fft(list * sign) * window) * sign, real part (497-498), of a list of length [M] *)
Definition window_filter (M : Z) (window : Z -> R) (x : Z -> R) (j : Z) : R :=
  re (idft M (fun k => (dft M (fun l => (cr (x l) * cr (sign_of l))%C) k * cr (window k))%C) j * cr (sign_of j))%C.
(** min(150, int(0.1 * n)) (507, 645); 0.1 is slightly more than 1/10 in double precision, the product is truncated to n // 10 *)
Definition pad_size (n : Z) : Z := Z.min 150 (n / 10).
(** one column of the sinogram (496-498): pad, filter, cut *)
Definition lowpass (sigma : R) (col : list R) : list R :=
  let n := Z.of_nat (length col) in let pad := pad_size n in let M := (n + 2 * pad)%Z in
  map (fun j => window_filter M (gaussian M sigma) (fun i => nth (Z.to_nat (pad_reflect n pad i)) col 0) (j + pad)) (zrange 0 n).
(** _remove_stripe_based_filtering (506-517), one sinogram *)
Definition remove_stripe_based_filtering (sort_value sort_index : list (Z * R) -> list (Z * R)) (sigma : R) (size : option Z) (dim : Z)
    (sino : list (list R)) : list (list R) :=
  let size := match size with Some s => s | None => default_size (Z.of_nat (length sino)) end in
  rs_filter sort_value sort_index (lowpass sigma) size dim sino.

(** ** remove_stripe_based_fitting: images are functions of row and column *)
Section Fitting.
  Variables nrow ncol : Z.

  (** _create_2d_window (558-586) *)
  Definition win2d (sigmax sigmay : R) (pad y x : Z) : R :=
    let height := (nrow + 2 * pad)%Z in let width := (ncol + 2 * pad)%Z in
    let cx := IZR x - (IZR width - 1) / 2 in let cy := IZR y - (IZR height - 1) / 2 in
    exp (- (cx * cx / (2 * sigmax * sigmax) + cy * cy / (2 * sigmay * sigmay))).

  (** np.pad of the columns with 'edge' (617) and of the rows with 'mean' (618) *)
  Definition clip (n i : Z) : Z := Z.max 0 (Z.min i (n - 1)).
  Definition column_mean (mat : Z -> Z -> R) (x : Z) : R := rsum (map (fun y => mat y x) (zrange 0 nrow)) / IZR nrow.
  Definition matpad (pad : Z) (mat : Z -> Z -> R) (y x : Z) : R :=
    let c := clip ncol (x - pad) in
    if ((0 <=? y - pad) && (y - pad <? nrow))%Z then mat (y - pad)%Z c else column_mean mat c.

  (** fft2, ifft2 *)
  Definition dft2 (H W : Z) (m : Z -> Z -> cplx) (v u : Z) : cplx :=
    csum H (fun y => csum W (fun x => (m y x * (turn H (- (y * v)) * turn W (- (x * u))))%C)).
  Definition idft2 (H W : Z) (m : Z -> Z -> cplx) (y x : Z) : cplx :=
    (cr (/ (IZR H * IZR W)) * csum H (fun v => csum W (fun u => (m v u * (turn H (y * v) * turn W (x * u)))%C)))%C.

  (** _create_matsign (589-594) and _2d_filter (597-621) *)
  Definition filter_2d (win : Z -> Z -> R) (pad : Z) (mat : Z -> Z -> R) (y x : Z) : R :=
    let H := (nrow + 2 * pad)%Z in let W := (ncol + 2 * pad)%Z in
    let sign y x := cr (sign_of (x + y)) in
    re (idft2 H W (fun v u => (dft2 H W (fun y x => (cr (matpad pad mat y x) * sign y x)%C) v u * cr (win v u))%C) (y + pad) (x + pad)
        * sign (y + pad)%Z (x + pad)%Z)%C.

  (** _rs_fit (624-639): [savgol] window_length polyorder column *)
  Variable savgol : Z -> Z -> (Z -> R) -> Z -> R.
  Definition mean_2d (mat : Z -> Z -> R) : R := rsum (map (fun y => rsum (map (fun x => mat y x) (zrange 0 ncol))) (zrange 0 nrow)) / (IZR nrow * IZR ncol).
  Definition rs_fit (order : Z) (win : Z -> Z -> R) (pad : Z) (sino : Z -> Z -> R) (y x : Z) : R :=
    let nrow1 := (if nrow mod 2 =? 0 then nrow - 1 else nrow)%Z in                                (* 629-631 *)
    let order := (if nrow1 <=? order then nrow1 - 1 else order)%Z in                              (* 632-633 *)
    let sinofit := fun y x => savgol nrow1 order (fun y => sino y x) y in                         (* 634 *)
    let smooth := filter_2d win pad sinofit in                                                    (* 635 *)
    let num1 := mean_2d sinofit in let num2 := mean_2d smooth in                                  (* 636-637 *)
    sino y x / sinofit y x * (num1 * smooth y x / num2).                                          (* 638-639 *)
  (** _remove_stripe_based_fitting (642-650), one sinogram *)
  Definition remove_stripe_based_fitting (order : Z) (sigmax sigmay : R) (sino : Z -> Z -> R) : Z -> Z -> R :=
    let pad := pad_size nrow in rs_fit order (win2d sigmax sigmay pad) pad sino.
End Fitting.

(** ** remove_stripe_fw *)

(** damping of the vertical details (164-166): the factor of row [k] of the shifted spectrum of [my] rows *)
Definition damp (my : Z) (sigma : R) (k : Z) : R :=
  let y_hat := IZR (- my + 2 * k + 1) / 2 in 1 - exp (- (y_hat * y_hat) / (2 * (sigma * sigma))).
(** fftshift, ifftshift along an axis of [n] elements: what element [k] of the result is *)
Definition fftshift {A} (n : Z) (x : Z -> A) (k : Z) : A := x ((k - n / 2) mod n)%Z.
Definition ifftshift {A} (n : Z) (x : Z -> A) (k : Z) : A := x ((k + n / 2) mod n)%Z.
(** 160-170: fftshift and ifftshift work along both axes *)
Definition damp_band (my mx : Z) (sigma : R) (cV : Z -> Z -> R) (y x : Z) : R :=
  let f := fun k x => dft my (fun y => cr (cV y x)) k in
  let f := fftshift my (fun k => fftshift mx (f k)) in
  let f := fun k x => (f k x * cr (damp my sigma k))%C in
  let f := ifftshift my (fun k => ifftshift mx (f k)) in
  re (idft my (fun k => f k x) y).

(** the default level (121-123): int(ceil(log2(max(tomo.shape)))) *)
Definition default_level (dx dy dz : Z) : Z := Z.log2_up (Z.max dx (Z.max dy dz)).

Section Wavelet.
  (** pywt.dwt2 and pywt.idwt2 on arrays with their shapes; the three details are horizontal, vertical, diagonal *)
  Record band : Type := { rows : Z; cols : Z; at_ : Z -> Z -> R }.
  Variable dwt2 : band -> band * (band * band * band).
  Variable idwt2 : band * (band * band * band) -> band.

  Definition damped (sigma : R) (c : band) : band := {| rows := rows c; cols := cols c; at_ := damp_band (rows c) (cols c) sigma (at_ c) |}.
  (** sli[0:a, 0:b] (174) *)
  Definition crop (a b : Z) (c : band) : band := {| rows := Z.min a (rows c); cols := Z.min b (cols c); at_ := at_ c |}.
  (** the levels, from the outside in: decompose (151-155), damp (158-170), reconstruct (173-175) *)
  Fixpoint fw_levels (level : nat) (sigma : R) (sli : band) : band :=
    match level with
    | O => sli
    | S level =>
        let '(sli, (cH, cV, cD)) := dwt2 sli in
        let sli := fw_levels level sigma sli in
        idwt2 (crop (rows cH) (cols cH) sli, (cH, damped sigma cV, cD))
    end.
  (** _remove_stripe_fw (134-176), one sinogram of [dx] rows and [dz] columns *)
  Definition remove_stripe_fw (dx dz : Z) (level : nat) (sigma : R) (pad : bool) (sino : Z -> Z -> R) (y x : Z) : R :=
    let nx := (if pad then dx + dx / 8 else dx)%Z in
    let xshift := ((nx - dx) / 2)%Z in
    let sli := {| rows := nx; cols := dz;
                  at_ := fun y x => if ((xshift <=? y) && (y <? dx + xshift))%Z then sino (y - xshift)%Z x else 0 |} in
    at_ (fw_levels level sigma sli) (y + xshift)%Z x.
End Wavelet.
