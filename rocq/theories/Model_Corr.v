(** misc/corr.py: value corrections.  Arrays of float32 are lists or index functions of
    [f32]; see Model_Float. *)
From Verif Require Import Base Order Model_Float Model_Mproc.
Local Open Scope Z_scope.

(** ** adjust_range (corr.py 90-115) *)
(** np.max, np.min of an array: an error when empty, NaN as soon as an entry is NaN. *)
Definition max2 (a y : f32) : f32 :=
  if is_nan a then a else if is_nan y then y else if flt a y then y else a.
Definition min2 (a y : f32) : f32 :=
  if is_nan a then a else if is_nan y then y else if flt y a then y else a.
Definition np_max (l : list f32) : result f32 :=
  match l with [] => Raise ValueError | x :: t => Ok (fold_left max2 t x) end.
Definition np_min (l : list f32) : result f32 :=
  match l with [] => Raise ValueError | x :: t => Ok (fold_left min2 t x) end.

(** Float arrays only (on integer arrays the limits would be truncated). *)
Definition adjust_range (l : list f32) (dmin dmax : option f32) : result (list f32) :=
  match np_max l, np_min l with
  | inr mx, inr mn =>
      let hi := match dmax with Some v => v | None => mx end in              (* 107-108 *)
      let lo := match dmin with Some v => v | None => mn end in              (* 109-110 *)
      let l1 := if flt hi mx then map (fun x => if flt hi x then hi else x) l else l in  (* 111-112 *)
      match np_min l1 with
      | inr mn1 => Ok (if flt mn1 lo then map (fun x => if flt x lo then lo else x) l1 else l1) (* 113-114 *)
      | inl e => Raise e
      end
  | inl e, _ => Raise e
  | _, inl e => Raise e
  end.

(** ** remove_nan (corr.py 506-530), remove_neg (corr.py 533-556) *)
Definition remove_nan (val : f32) (l : list f32) : list f32 :=
  map (fun x => if negb (feq x x) then val else x) l.
Definition remove_neg (val : f32) (l : list f32) : list f32 :=
  map (fun x => if flt x fzero then val else x) l.

(** ** remove_outlier, remove_outlier1d (corr.py 610, 667): where(arr-tmp>=dif,tmp,arr).
    [tmp] is what scipy.ndimage.median_filter wrote. *)
Definition outlier_px (dif a t : f32) : f32 := if fle dif (fsub a t) then t else a.
Definition remove_outlier (dif : f32) (arr tmp : list f32) : list f32 :=
  map (fun at_ => outlier_px dif (fst at_) (snd at_)) (combine arr tmp).

(** ** median_filter_nonfinite (corr.py 281-352) *)
Definition img := Z -> Z -> f32.
Definition img_set (p : img) (x y : Z) (v : f32) : img :=
  fun i j => if (i =? x) && (j =? y) then v else p i j.

(** np.median of a non-empty list without NaN: middle element, or the mean of the two middle
    elements computed in float32 (sum, then division by two). *)
Definition f_two : f32 := S754_finite false 8388608 (-22).
Definition np_median (w : list f32) : f32 :=
  let s := isort flt w in
  let n := length s in
  if Nat.odd n then nth (n / 2) s S754_nan
  else fdiv (fadd (nth (n / 2 - 1) s S754_nan) (nth (n / 2) s S754_nan)) f_two.

(** projection_copy[x_lower:x_higher, y_lower:y_higher] (329-335), d1 x d2 image. *)
Definition mfn_window (p : img) (d1 d2 size x y : Z) : list f32 :=
  flat_map (fun i => map (fun j => p i j)
              (zrange (Z.max 0 (y - size / 2)) (Z.min d2 (y + size / 2 + 1))))
           (zrange (Z.max 0 (x - size / 2)) (Z.min d1 (x + size / 2 + 1))).

Definition mfn_repair (copy : img) (d1 d2 size x y : Z) : result f32 :=
  match filter is_fin (mfn_window copy d1 d2 size x y) with
  | [] => Raise ValueError                                                    (* 337-341 *)
  | w => Ok (np_median w)                                                     (* 343-345 *)
  end.

(** The loop over the non-finite pixels; an exception leaves the repairs made so far. *)
Fixpoint mfn_loop (copy : img) (d1 d2 size : Z) (idx : list (Z * Z)) (p : img) : result unit * img :=
  match idx with
  | [] => (Ok tt, p)
  | (x, y) :: t =>
      match mfn_repair copy d1 d2 size x y with
      | inl e => (Raise e, p)
      | inr v => mfn_loop copy d1 d2 size t (img_set p x y v)                 (* 348 *)
      end
  end.

(** np.nonzero: row-major order (323). *)
Definition all_pixels (d1 d2 : Z) : list (Z * Z) :=
  flat_map (fun i => map (fun j => (i, j)) (zrange 0 d2)) (zrange 0 d1).
Definition nonfinite_idx (p : img) (d1 d2 : Z) : list (Z * Z) :=
  filter (fun ij => negb (is_fin (p (fst ij) (snd ij)))) (all_pixels d1 d2).

Definition mfn_projection (d1 d2 size : Z) (p : img) : result unit * img :=
  mfn_loop p d1 d2 size (nonfinite_idx p d1 d2) p.

(** for projection in arr (322); the callback does nothing. *)
Fixpoint mfn_stack (d1 d2 size : Z) (ps : list img) : result unit * list img :=
  match ps with
  | [] => (Ok tt, [])
  | p :: t =>
      match mfn_projection d1 d2 size p with
      | (inl e, p') => (Raise e, p' :: t)
      | (inr _, p') => let '(r, t') := mfn_stack d1 d2 size t in (r, p' :: t')
      end
  end.

(** ** circ_mask (corr.py 852-910) *)
(** _get_mask: pixel (i, j) of a dx x dy slice, ratio = p / q.  The source computes
    x*x + y*y < ratio*ratio*r2 with y = 0.5 - dx/2 + i, x = 0.5 - dy/2 + j and r = min(dx, dy)/2;
    here both sides are multiplied by 4 q^2 (exact arithmetic). *)
Definition get_mask (dx dy p q i j : Z) : bool :=
  let y := 2 * i + 1 - dx in
  let x := 2 * j + 1 - dy in
  let r := if dx <? dy then dx else dy in
  q * q * (x * x + y * y) <? p * p * (r * r).

Definition vol (V : Type) := Z -> Z -> Z -> V.

(** arr.swapaxes(0, axis). *)
Definition swapaxes0 {V} (axis : Z) (a : vol V) : vol V :=
  if axis =? 1 then fun i j k => a j i k
  else if axis =? 2 then fun i j k => a k j i
  else a.
Definition swapdims0 (axis : Z) (d : Z * Z * Z) : Z * Z * Z :=
  let '(d0, d1, d2) := d in
  if axis =? 1 then (d1, d0, d2) else if axis =? 2 then (d2, d1, d0) else d.

Definition circ_mask {V} (d : Z * Z * Z) (axis p q : Z) (val : V) (a : vol V) : vol V :=
  let b := swapaxes0 axis a in
  let '(_, dy, dz) := swapdims0 axis d in
  let m : vol V := fun i j k => if get_mask dy dz p q j k then b i j k else val in
  swapaxes0 axis m.

(** ** Filters that submit one task per slice and never look at the futures
    (gaussian_filter corr.py 148-164, median_filter 188-203, remove_outlier 587-603,
    remove_ring 845-849).  [task s] is the filtered slice or the exception of the task; the output
    array starts with arbitrary content [out0] (np.empty_like). *)
Definition unobserved_filter {V} (task : Z -> result V) (n : Z) (out0 : Z -> V) : result (Z -> V) :=
  Ok (fun s => if (0 <=? s) && (s <? n) then
                 match task s with inr v => v | inl _ => out0 s end
               else out0 s).

(** ** Kernel selection in median_filter3d / remove_outlier3d (corr.py 385-410, 447-471) *)
Inductive dtype := DFloat32 | DUint16 | DOther.
Definition converted (t : dtype) : dtype := match t with DOther => DFloat32 | t => t end.   (* 386-387 *)
Inductive kernel3d := KFloat32 | KUint16.
(** [input_type] is read before the conversion (385) and tested afterwards (402). *)
Definition selected_kernel (t : dtype) : kernel3d :=
  match t with DFloat32 => KFloat32 | _ => KUint16 end.
Definition kernel_for (t : dtype) : option kernel3d :=
  match t with DFloat32 => Some KFloat32 | DUint16 => Some KUint16 | DOther => None end.

(** ** normalize (prep/normalize.py 98-164), one pixel in float32.  [f] and [d] are the averaged
    flat and dark values. *)
Definition f_1em6 : f32 := S754_finite false 8796093 (-43).      (* np.float32(1e-6) *)
Definition denom_px (f d : f32) : f32 :=
  let x := fsub f d in if flt x f_1em6 then f_1em6 else x.                    (* 157-158 *)
Definition normalize_px (cutoff : option f32) (f d a : f32) : f32 :=
  let o := fdiv (fsub a d) (denom_px f d) in                                  (* 159-160 *)
  match cutoff with
  | Some c => if flt c o then c else o                                        (* 161-163 *)
  | None => o
  end.
