(** prep/phase.py.  The Fourier transforms are a parameter: [F] maps the padded buffer to the real part of
    the filtered buffer.  The reciprocal grid and the filter are over exact reals.  Not modelled: float32
    rounding of the coordinates, np.log2 (taken as exact), the pad value (its cells are always overwritten). *)
From Verif Require Import Base.
From Coq Require Import Reals.
Local Open Scope Z_scope.

Section Buffer.
  Context {V : Type}.
  Definition image := Z -> Z -> V.
  (** First element of a[s:] for an axis of length n, and the element a[i]. *)
  Definition slice_from (n s : Z) : Z := if s <? 0 then Z.max 0 (n + s) else Z.min s n.
  Definition at_index (n i : Z) : Z := if i <? 0 then n + i else i.
  Variables dy dz px py : Z.
  Definition height : Z := dy + 2 * px.
  Definition width : Z := dz + 2 * py.
  Definition put_frame (frame prj : image) : image := fun r c =>                               (* 138 *)
    if (px <=? r) && (r <? dy + px) && (py <=? c) && (c <? dz + py) then frame (r - px) (c - py) else prj r c.
  Definition top (prj : image) : image := fun r c => if r <? px then prj px c else prj r c.    (* 139 *)
  Definition bottom (prj : image) : image := fun r c =>                                        (* 140 *)
    if slice_from height (- px) <=? r then prj (at_index height (- px - 1)) c else prj r c.
  Definition left (prj : image) : image := fun r c => if c <? py then prj r py else prj r c.   (* 141 *)
  Definition right (prj : image) : image := fun r c =>                                         (* 142 *)
    if slice_from width (- py) <=? c then prj r (at_index width (- py - 1)) else prj r c.
  Definition load (frame prj : image) : image := right (left (bottom (top (put_frame frame prj)))).
  (** _retrieve_phase (133-148): the frames of a chunk, the buffer is reused. *)
  Variable F : image -> image.
  Variable pad : bool.
  Definition crop (proj : image) : image := if pad then fun r c => proj (r + px) (c + py) else proj.
  Definition retrieve (tomo : list image) (prj : image) : list image * image :=
    fold_left (fun '(done, prj) frame => let prj := load frame prj in (done ++ [crop (F prj)], prj)) tomo ([], prj).
End Buffer.

(** _calc_pad_width (192-194); [pad_pix] is its first line. *)
Definition pad_width (dim pad_pix : Z) : Z := (2 ^ Z.log2_up (dim + pad_pix) - dim) / 2.
(** _calc_pad (152-185) *)
Definition pad_widths (pad : bool) (dy dz pad_pix : Z) : Z * Z := if pad then (pad_width dy pad_pix, pad_width dz pad_pix) else (0, 0).
(** retrieve_phase (111-130): the widths are those of _calc_pad, the buffer has the padded size; [F] may depend on the size. *)
Definition retrieve_phase {V} (dy dz pad_pix : Z) (pad : bool) (F : Z -> Z -> (Z -> Z -> V) -> Z -> Z -> V) (tomo : list (Z -> Z -> V)) (prj : Z -> Z -> V) : list (Z -> Z -> V) :=
  let '(py, pz) := pad_widths pad dy dz pad_pix in
  fst (retrieve dy dz py pz (F (dy + 2 * py) (dz + 2 * pz)) pad tomo prj).

Local Open Scope R_scope.
(** _reciprocal_coord (225-245), element i of num_grid *)
Definition reciprocal_coord (pixel_size : R) (num_grid i : Z) : R :=
  let n := (num_grid - 1)%Z in IZR (- n + 2 * i) * (1 / 2 / (IZR n * pixel_size)).
(** _reciprocal_grid (201-222) *)
Definition reciprocal_grid (pixel_size : R) (nx ny i j : Z) : R := Rsqr (reciprocal_coord pixel_size nx i) + Rsqr (reciprocal_coord pixel_size ny j).
(** _paganin_filter_factor (188-189); [wd] is wavelength * dist and [pi] the constant of the module. *)
Definition pi_phase : R := 314159265359 / 100000000000.
Definition filter_factor (wd alpha w2 : R) : R := 1 / (wd * w2 / (4 * pi_phase) + alpha).
(** numpy.fft.fftshift of an axis of length n: a roll by n // 2 *)
Definition fftshift_index (n i : Z) : Z := ((i - n / 2) mod n)%Z.
(** phase_filter (117-118) *)
Definition phase_filter (pixel_size wd alpha : R) (nx ny i j : Z) : R :=
  filter_factor wd alpha (reciprocal_grid pixel_size nx ny (fftshift_index nx i) (fftshift_index ny j)).
