(** misc/npmath.py, the enhancement of images in misc/corr.py (913-993) and the affine correction at the end of
    detector_drift_adjust_aps_1id (prep/alignment.py 852-873), exact reals.  Parameters: np.sort, the median filter of
    scipy.signal, scipy.linalg.lstsq (any solution with the least sum of squares) and the interpolation of
    scipy.ndimage.affine_transform between pixels.  Not modelled: the pool of processes (results are taken in the order
    of the images), rounding. *)
From Verif Require Import Base Model_Prep Model_Solver Model_Align.
From Coq Require Import Reals.
Local Open Scope R_scope.

(** ** gauss1d (63-79) *)
Definition gauss1d (A mu sigma x : R) : R := A * exp (- (x - mu) ^ 2 / (2 * sigma ^ 2)).

(** ** discrete_cdf (82-120) *)
Section Cdf.
  Variable sort : list R -> list R.                                  (* np.sort *)
  (** x[np.arange(0, len(x), k)] for k > 0 *)
  Definition every (k : Z) (x : list R) : list R := map (fun i => nth (Z.to_nat i) x 0) (pyrange 0 (Z.of_nat (length x)) k).
  (** 112-113: len(x) / steps divides ints; the quotient is exact below 2^53 *)
  Definition thin (steps : option Z) (x : list R) : result (list R) :=
    match steps with
    | None => Ok x
    | Some s =>
        if (s <? Z.of_nat (length x))%Z then
          if (s =? 0)%Z then Raise ZeroDivisionError
          else let k := ceil (IZR (Z.of_nat (length x)) / IZR s) in
               if (k =? 0)%Z then Raise ZeroDivisionError             (* np.arange with step 0 *)
               else Ok (every k x)
        else Ok x
    end.
  Definition twice {A} (l : list A) : list A := flat_map (fun v => [v; v]) l.   (* np.tile(x, (2, 1)).flatten(order='F') *)
  Definition discrete_cdf (data : list R) (steps : option Z) : result (list R * list number) :=
    let x := sort data in
    match x with
    | [] => Ok ([], [])                                                          (* 107-108 *)
    | _ =>
      match thin steps x with
      | inl e => Raise e
      | inr x =>
          match x with
          | [] => Raise IndexError                                               (* y[-1] *)
          | _ =>
            let n := Z.of_nat (length x) in
            Ok (twice x, flat_map (fun y => [ndiv (Some (IZR y)) (Some (IZR (n - 1))); ndiv (Some (IZR (y + 1))) (Some (IZR (n - 1)))]) (zrange 0 n))
          end
      end
    end.
End Cdf.

(** ** calc_affine_transform (123-154) *)
Definition point : Type := R * R.
Definition row3 : Type := R * R * R.
(** A row of the matrix times (x, y, 1) *)
Definition apply3 (a : row3) (p : point) : R := let '(a, b, c) := a in a * fst p + b * snd p + c.
Record matrix3 := mkM { m_x : row3; m_y : row3; m_1 : row3 }.
(** Sum of the squares of pad(src) * X - pad(tgt), with the columns of X as the rows of the matrix (.T) *)
Definition sq (x : R) : R := x * x.
Definition residual (src tgt : list point) (m : matrix3) : R :=
  fold_right Rplus 0 (map (fun '(p, q) => sq (apply3 (m_x m) p - fst q) + sq (apply3 (m_y m) p - snd q) + sq (apply3 (m_1 m) p - 1)) (combine src tgt)).
(** What lstsq guarantees *)
Definition lstsq (src tgt : list point) (m : matrix3) : Prop := forall m', residual src tgt m <= residual src tgt m'.

(** ** detector_drift_adjust_aps_1id, 852-873: [cnrs] and [ref] are lists of corners (x, y) = (column, row);
    affine_transform takes the pixel (r, c) of the result from the place matrix * (r, c) + offset of the image. *)
Section Apply.
  Variable interp : img -> R -> R -> R.
  Definition affine_transform (m : matrix3) (im : img) : img :=
    fun r c => let p := (IZR r, IZR c) in interp im (apply3 (m_x m) p) (apply3 (m_y m) p).
  (** calc_affine_transform(proj_cnrs[n], slit_cnr_ref), applied to image n *)
  Definition corrected (cnrs ref : list point) (im out : img) : Prop :=
    exists m, lstsq cnrs ref m /\ forall r c, out r c = affine_transform m im r c.
End Apply.

(** ** enhance_projs_aps_1id (corr.py 913-993), one image of h x w pixels *)
Section Enhance.
  Variable sort : list R -> list R.                                  (* np.sort *)
  Variable medfilt : img -> img.                                     (* medfilt2d(img, kernel_size=median_ks) *)
  Variables h w : Z.
  (** searchsorted, side='left': the place of the first element that is not less *)
  Fixpoint searchsorted (a : list R) (v : R) : Z :=
    match a with [] => 0%Z | x :: a => if rltb x v then (1 + searchsorted a v)%Z else 0%Z end.
  (** _calc_histequal_wgt (978-993) *)
  Definition histequal_wgt (im : img) : img :=
    fun r c => IZR (searchsorted (sort (pixels h w im)) (im r c) + 1) / IZR (h * w).
  (** _enhance_img (952-975) *)
  Definition enhance_raw (im : img) : img := fun r c => medfilt im r c ^ 2 * histequal_wgt im r c.
  Definition enhance (im : img) : result (Z -> Z -> number) :=
    match pixels h w (enhance_raw im) with
    | [] => Raise ValueError                                         (* max of an empty array *)
    | x :: l => Ok (fun r c => ndiv (Some (enhance_raw im r c)) (Some (lmax x l)))
    end.
  Definition enhance_projs (ims : list img) : result (list (Z -> Z -> number)) :=
    match ims with
    | [] => Raise ValueError                                         (* np.stack([]) *)
    | _ => fold_right (fun im acc => match enhance im, acc with inl e, _ => Raise e | _, inl e => Raise e | inr o, inr l => Ok (o :: l) end) (Ok []) ims
    end.
End Enhance.
