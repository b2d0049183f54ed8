(** The border between Python and C: util/dtype.py 116-166, util/extern/*.py, the prototypes in include/libtomo/*.h,
    and the part of recon (recon/algorithm.py 262-500) that prepares the arguments.  An array is known by its identity,
    the type of its elements and its shape; arrays are C contiguous (Model_Layout has the others). *)
From Verif Require Import Base Model_Recon.
From Coq Require Import Reals String.
Local Open Scope string_scope.
Local Open Scope Z_scope.
Local Open Scope list_scope.

Inductive elem := F32 | F64 | I32 | I64 | B8 | U16.
Record ndarray := mkArr { ident : nat; elem_of : elem; shape : list Z }.
(** number of elements *)
Definition size (a : ndarray) : Z := Z.max 0 (fold_right Z.mul 1 (shape a)).
(** Python values given to the wrappers: an array, an integer (int, numpy integer or integer array without
    dimensions), a float, a numpy.float32 scalar, a string, True or False. *)
Inductive pyval := Arr (a : ndarray) | Num (z : Z) | Flt (x : R) | F32scalar (x : R) | Str (s : string) | Flag (b : bool).

(** C types and values. *)
Inductive ctype := Pfloat | Pint | Pbool | Pushort | Pchar | Int | Float.
Inductive cval := Ptr (a : ndarray) | I (z : Z) | Fl (x : R) | S (s : string).
Definition carg : Type := ctype * cval.

(** ctypes.c_int keeps the low 32 bits. *)
Definition wrap32 (z : Z) : Z := (z + 2 ^ 31) mod 2 ^ 32 - 2 ^ 31.

(** dtype.py 117-119, 122-124, 131-133, 136-137, 142-145, 148-149, 152-153.  data_as gives the address of the elements
    whatever their type is; numpy scalars have no attribute ctypes. *)
Definition pointer (t : ctype) (v : pyval) : result carg :=
  match v with Arr a => Ok (t, Ptr a) | _ => Raise AttributeError end.
Definition as_c_float_p := pointer Pfloat.
Definition as_c_bool_p := pointer Pbool.
Definition as_c_uint16_p := pointer Pushort.
Definition as_c_int_p (v : pyval) : result carg :=
  match v with
  | Arr a => Ok (Pint, Ptr (mkArr (ident a) I32 (shape a)))                       (* astype(np.intc, copy=False) *)
  | _ => Raise AttributeError
  end.
Definition as_c_int (v : pyval) : result carg :=
  match v with
  | Num z => Ok (Int, I (wrap32 z))
  | Flag b => Ok (Int, I (if b then 1 else 0))
  | _ => Raise TypeError
  end.
Definition as_c_float (v : pyval) : result carg :=
  match v with
  | Num z => Ok (Float, Fl (IZR z))
  | Flt x | F32scalar x => Ok (Float, Fl x)
  | Flag b => Ok (Float, Fl (if b then 1%R else 0%R))
  | _ => Raise TypeError
  end.
Definition as_c_char_p (v : pyval) : result carg :=
  match v with Str s => Ok (Pchar, S s) | _ => Raise AttributeError end.

(** Arguments are evaluated from left to right. *)
Fixpoint arguments (l : list (result carg)) : result (list carg) :=
  match l with
  | [] => Ok []
  | inl e :: _ => Raise e
  | inr a :: l => match arguments l with inl e => Raise e | inr l => Ok (a :: l) end
  end.
Record ccall := mkCall { c_fn : string; c_args : list carg }.
Definition call_c (fn : string) (l : list (result carg)) : result ccall :=
  match arguments l with inl e => Raise e | inr l => Ok (mkCall fn l) end.

Definition kwargs : Type := list (string * pyval).
Fixpoint get (kw : kwargs) (k : string) : option pyval :=
  match kw with [] => None | (k', v) :: l => if String.eqb k' k then Some v else get l k end.
(** f(kwargs[k]) *)
Definition on (f : pyval -> result carg) (kw : kwargs) (k : string) : result carg :=
  match get kw k with Some v => f v | None => Raise KeyError end.
(** kwargs[k] = v *)
Definition put (kw : kwargs) (k : string) (v : pyval) : kwargs := (k, v) :: kw.

(** if len(a.shape) == 2: ... else: dy, dt, dx = a.shape (e.g. extern/recon.py 186-191) *)
Definition dims (a : ndarray) : result (Z * Z * Z) :=
  match shape a with
  | [dt; dx] => Ok (1, dt, dx)
  | [dy; dt; dx] => Ok (dy, dt, dx)
  | _ => Raise ValueError
  end.
Definition with_dims {A} (a : ndarray) (f : Z -> Z -> Z -> result A) : result A :=
  match dims a with inl e => Raise e | inr (dy, dt, dx) => f dy dt dx end.

(** The nine arguments with which the calls in c_art, c_bart, c_fbp, c_mlem, ... (extern/recon.py 194-553), c_gridrec
    (extern/gridrec.py 72-82) and c_accel_mlem, c_accel_sirt (extern/accel.py 80-92, 111-123) begin. *)
Definition common (tomo center recon theta : ndarray) (dy dt dx : Z) (kw : kwargs) : list (result carg) :=
  [as_c_float_p (Arr tomo); as_c_int (Num dy); as_c_int (Num dt); as_c_int (Num dx); as_c_float_p (Arr center);
   as_c_float_p (Arr theta); as_c_float_p (Arr recon); on as_c_int kw "num_gridx"; on as_c_int kw "num_gridy"].
(** np.arange(1, dtype='int32') *)
Definition arange1 (fresh : nat) : ndarray := mkArr fresh I32 [1].

Section Recon.
  Variables (fresh : nat) (tomo center recon theta : ndarray).
  Definition call_with (fn : string) (kw : kwargs) (rest : list (result carg)) : result ccall :=
    with_dims tomo (fun dy dt dx => call_c fn (common tomo center recon theta dy dt dx kw ++ rest)).
  Definition c_art kw := call_with "art" kw [on as_c_int kw "num_iter"].                             (* 185-205 *)
  Definition blocks kw := [on as_c_int kw "num_block"; on as_c_int_p kw "ind_block"].
  Definition c_bart kw := call_with "bart" kw (on as_c_int kw "num_iter" :: blocks kw).              (* 208-230 *)
  Definition c_fbp kw := call_with "fbp" kw [on as_c_char_p kw "filter_name"; on as_c_float_p kw "filter_par"].   (* 233-254 *)
  Definition c_osem kw := call_with "osem" kw (on as_c_int kw "num_iter" :: blocks kw).              (* 292-314 *)
  Definition c_accel (fn : string) kw := call_with fn kw                                             (* accel.py 66-125 *)
    [on as_c_int kw "num_iter"; on as_c_int kw "pool_size"; on as_c_char_p kw "interpolation"; on as_c_char_p kw "device";
     on as_c_int_p kw "grid_size"; on as_c_int_p kw "block_size"].
  (** kwargs['ind_block'] = np.arange(1, dtype='int32'); kwargs['num_block'] = 1 *)
  Definition one_block kw := put (put kw "ind_block" (Arr (arange1 fresh))) "num_block" (Num 1).
  (** if kwargs['accelerated'] *)
  Definition if_accelerated {A} kw (yes no : result A) : result A :=
    match get kw "accelerated" with
    | None => Raise KeyError
    | Some (Flag true) => yes
    | Some _ => no                                  (* False; other values that count as true are not modelled *)
    end.
  Definition c_mlem kw := if_accelerated kw (c_accel "cxx_mlem" kw) (c_osem (one_block kw)).         (* 257-289 *)
  Definition c_sirt kw := if_accelerated kw (c_accel "cxx_sirt" kw) (c_bart (one_block kw)).         (* 430-460 *)
  Definition penalised fn kw := call_with fn kw (on as_c_int kw "num_iter" :: on as_c_float_p kw "reg_par" :: blocks kw).
  Definition c_ospml_hybrid kw := penalised "ospml_hybrid" kw.                                       (* 317-341 *)
  Definition c_ospml_quad kw := penalised "ospml_quad" kw.                                           (* 344-367 *)
  Definition c_pml_hybrid kw := penalised "ospml_hybrid" (one_block kw).                             (* 370-397 *)
  Definition c_pml_quad kw := penalised "ospml_quad" (one_block kw).                                 (* 400-426 *)
  Definition c_tv kw := call_with "tv" kw [on as_c_int kw "num_iter"; on as_c_float_p kw "reg_par"]. (* 462-483 *)
  Definition c_grad kw := call_with "grad" kw [on as_c_int kw "num_iter"; on as_c_float_p kw "reg_par"].          (* 486-507 *)
  Definition c_tikh kw := call_with "tikh" kw                                                        (* 510-532 *)
    [on as_c_int kw "num_iter"; on as_c_float_p kw "reg_data"; on as_c_float_p kw "reg_par"].
  Definition c_gridrec kw := call_with "gridrec" kw [on as_c_char_p kw "filter_name"; on as_c_float_p kw "filter_par"].   (* gridrec.py 63-82 *)
  (** getattr(extern, 'c_' + algorithm) (algorithm.py 362-373) *)
  Definition wrapper (alg : string) : option (kwargs -> result ccall) :=
    if String.eqb alg "art" then Some c_art else if String.eqb alg "bart" then Some c_bart else if String.eqb alg "fbp" then Some c_fbp
    else if String.eqb alg "gridrec" then Some c_gridrec else if String.eqb alg "mlem" then Some c_mlem else if String.eqb alg "osem" then Some c_osem
    else if String.eqb alg "ospml_hybrid" then Some c_ospml_hybrid else if String.eqb alg "ospml_quad" then Some c_ospml_quad
    else if String.eqb alg "pml_hybrid" then Some c_pml_hybrid else if String.eqb alg "pml_quad" then Some c_pml_quad
    else if String.eqb alg "sirt" then Some c_sirt else if String.eqb alg "tv" then Some c_tv else if String.eqb alg "grad" then Some c_grad
    else if String.eqb alg "tikh" then Some c_tikh else None.
End Recon.

(** ** The other wrappers *)
(** extern/recon.py 88-116, 119-149, 152-182: np.require keeps or copies tomo; the copy is written back and stands for tomo. *)
Definition c_project (obj center tomo theta : ndarray) : result ccall :=
  with_dims obj (fun oy ox oz => with_dims tomo (fun dy dt dx => call_c "project"
    [as_c_float_p (Arr obj); as_c_int (Num oy); as_c_int (Num ox); as_c_int (Num oz); as_c_float_p (Arr tomo);
     as_c_int (Num dy); as_c_int (Num dt); as_c_int (Num dx); as_c_float_p (Arr center); as_c_float_p (Arr theta)])).
Definition c_project2 (objx objy center tomo theta : ndarray) : result ccall :=
  with_dims objx (fun oy ox oz => with_dims tomo (fun dy dt dx => call_c "project2"
    [as_c_float_p (Arr objx); as_c_float_p (Arr objy); as_c_int (Num oy); as_c_int (Num ox); as_c_int (Num oz);
     as_c_float_p (Arr tomo); as_c_int (Num dy); as_c_int (Num dt); as_c_int (Num dx); as_c_float_p (Arr center);
     as_c_float_p (Arr theta)])).
Definition c_project3 (objx objy objz center tomo theta : ndarray) (axis : pyval) : result ccall :=
  with_dims objx (fun oy ox oz => with_dims tomo (fun dy dt dx => call_c "project3"
    [as_c_float_p (Arr objx); as_c_float_p (Arr objy); as_c_float_p (Arr objz); as_c_int (Num oy); as_c_int (Num ox);
     as_c_int (Num oz); as_c_float_p (Arr tomo); as_c_int (Num dy); as_c_int (Num dt); as_c_int (Num dx);
     as_c_float_p (Arr center); as_c_float_p (Arr theta); as_c_int axis])).
(** 535-556, 559-588, 591-627 *)
Definition c_vector (tomo center recon1 recon2 theta : ndarray) (kw : kwargs) : result ccall :=
  with_dims tomo (fun dy dt dx => call_c "vector"
    [as_c_float_p (Arr tomo); as_c_int (Num dy); as_c_int (Num dt); as_c_int (Num dx); as_c_float_p (Arr center);
     as_c_float_p (Arr theta); as_c_float_p (Arr recon1); as_c_float_p (Arr recon2); on as_c_int kw "num_gridx";
     on as_c_int kw "num_gridy"; on as_c_int kw "num_iter"]).
Definition c_vector2 (tomo1 tomo2 center1 center2 recon1 recon2 recon3 theta1 theta2 : ndarray) (axis1 axis2 : pyval)
    (kw : kwargs) : result ccall :=
  with_dims tomo1 (fun dy dt dx => call_c "vector2"
    [as_c_float_p (Arr tomo1); as_c_float_p (Arr tomo2); as_c_int (Num dy); as_c_int (Num dt); as_c_int (Num dx);
     as_c_float_p (Arr center1); as_c_float_p (Arr center2); as_c_float_p (Arr theta1); as_c_float_p (Arr theta2);
     as_c_float_p (Arr recon1); as_c_float_p (Arr recon2); as_c_float_p (Arr recon3); on as_c_int kw "num_gridx";
     on as_c_int kw "num_gridy"; on as_c_int kw "num_iter"; as_c_int axis1; as_c_int axis2]).
Definition c_vector3 (tomo1 tomo2 tomo3 center1 center2 center3 recon1 recon2 recon3 theta1 theta2 theta3 : ndarray)
    (axis1 axis2 axis3 : pyval) (kw : kwargs) : result ccall :=
  with_dims tomo1 (fun dy dt dx => call_c "vector3"
    [as_c_float_p (Arr tomo1); as_c_float_p (Arr tomo2); as_c_float_p (Arr tomo3); as_c_int (Num dy); as_c_int (Num dt);
     as_c_int (Num dx); as_c_float_p (Arr center1); as_c_float_p (Arr center2); as_c_float_p (Arr center3);
     as_c_float_p (Arr theta1); as_c_float_p (Arr theta2); as_c_float_p (Arr theta3); as_c_float_p (Arr recon1);
     as_c_float_p (Arr recon2); as_c_float_p (Arr recon3); on as_c_int kw "num_gridx"; on as_c_int kw "num_gridy";
     on as_c_int kw "num_iter"; as_c_int axis1; as_c_int axis2; as_c_int axis3]).
(** dx, dy, dz = a.shape *)
Definition shape3 (a : ndarray) {A} (f : Z -> Z -> Z -> result A) : result A :=
  match shape a with [x; y; z] => f x y z | _ => Raise ValueError end.
(** extern/prep.py 69-78, 81-101 *)
Definition c_normalize_bg (tomo : ndarray) (air : pyval) : result ccall :=
  shape3 tomo (fun dt dy dx => call_c "normalize_bg"
    [as_c_float_p (Arr tomo); as_c_int (Num dt); as_c_int (Num dy); as_c_int (Num dx); as_c_int air]).
Definition c_remove_stripe_sf (tomo : ndarray) (sz : pyval) : result ccall :=
  shape3 tomo (fun dx dy dz => call_c "remove_stripe_sf"
    [as_c_float_p (Arr tomo); as_c_int (Num dx); as_c_int (Num dy); as_c_int (Num dz); as_c_int sz; as_c_int (Num 0);
     as_c_int (Num dy)]).
(** 103-123, 125-153, called by prep/stripe.py 1040-1056, 1160-1184 with the three sizes dz, dy, dx in reverse order *)
Definition c_stripes_detect3d (input output : ndarray) (sz radius ncore dx dy dz : pyval) : result ccall :=
  call_c "stripesdetect3d_main_float"
    [as_c_float_p (Arr input); as_c_float_p (Arr output); as_c_int sz; as_c_int radius; as_c_int ncore; as_c_int dx;
     as_c_int dy; as_c_int dz].
Definition c_stripesmask3d (input output : ndarray) (threshold len depth width sens ncore dx dy dz : pyval) : result ccall :=
  call_c "stripesmask3d_main_float"
    [as_c_float_p (Arr input); as_c_bool_p (Arr output); as_c_float threshold; as_c_int len; as_c_int depth; as_c_int width;
     as_c_float sens; as_c_int ncore; as_c_int dx; as_c_int dy; as_c_int dz].
(** extern/misc.py 69-90 *)
Definition c_sample (mode : pyval) (arr : ndarray) (dx dy dz level axis : pyval) (out : ndarray) : result ccall :=
  call_c "sample" [as_c_int mode; as_c_float_p (Arr arr); as_c_int dx; as_c_int dy; as_c_int dz; as_c_int level; as_c_int axis;
                   as_c_float_p (Arr out)].
(** 93-112, *args as built by misc/corr.py 831-843 *)
Definition c_remove_ring (rec : ndarray) (a : list pyval) : result ccall :=
  match a, shape rec with
  | [x; y; dx; dy; dz; tmax; tmin; thresh; thmin; rw; mode], iend :: _ => call_c "remove_ring"
      [as_c_float_p (Arr rec); as_c_float x; as_c_float y; as_c_int dx; as_c_int dy; as_c_int dz; as_c_float tmax;
       as_c_float tmin; as_c_float thresh; as_c_int thmin; as_c_int rw; as_c_int mode; as_c_int (Num 0); as_c_int (Num iend)]
  | _, _ => Raise IndexError
  end.
(** 115-165 *)
Definition c_median (fn : string) (ptr : pyval -> result carg) (input output : ndarray) (khs absdif ncore dx dy dz : pyval) : result ccall :=
  call_c fn [ptr (Arr input); ptr (Arr output); as_c_int khs; as_c_float absdif; as_c_int ncore; as_c_int dx; as_c_int dy; as_c_int dz].
Definition c_median_filt3d_float32 := c_median "medianfilter_main_float" as_c_float_p.
Definition c_median_filt3d_uint16 := c_median "medianfilter_main_uint16" as_c_uint16_p.
(** 168-195 *)
Definition c_inpainter (input mask output : ndarray) (iter khs method ncore dx dy dz : pyval) : result ccall :=
  call_c "Inpainter_morph_main"
    [as_c_float_p (Arr input); as_c_bool_p (Arr mask); as_c_float_p (Arr output); as_c_int iter; as_c_int khs; as_c_int method;
     as_c_int ncore; as_c_int dx; as_c_int dy; as_c_int dz].

(** ** The C side: parameters of the functions (recon.h, gridrec.h, accel.h, project.h, prep.h, stripe.h, remove_ring.h,
    median_filt3d.h, inpainter.h; for sample the definition in morph.c, as morph.h has other names) *)
Definition params_common : list (string * ctype) :=
  [("data", Pfloat); ("dy", Int); ("dt", Int); ("dx", Int); ("center", Pfloat); ("theta", Pfloat); ("recon", Pfloat);
   ("ngridx", Int); ("ngridy", Int)].
Definition params_accel : list (string * ctype) :=
  params_common ++ [("num_iter", Int); ("pool_size", Int); ("interp", Pchar); ("device", Pchar); ("grid_size", Pint); ("block_size", Pint)].
Definition prototypes : list (string * list (string * ctype)) :=
  [("art", params_common ++ [("num_iter", Int)]);
   ("bart", params_common ++ [("num_iter", Int); ("num_block", Int); ("ind_block", Pint)]);
   ("fbp", params_common ++ [("fname", Pchar); ("filter_par", Pfloat)]);
   ("grad", params_common ++ [("num_iter", Int); ("reg_pars", Pfloat)]);
   ("osem", params_common ++ [("num_iter", Int); ("num_block", Int); ("ind_block", Pint)]);
   ("ospml_hybrid", params_common ++ [("num_iter", Int); ("reg_pars", Pfloat); ("num_block", Int); ("ind_block", Pint)]);
   ("ospml_quad", params_common ++ [("num_iter", Int); ("reg_pars", Pfloat); ("num_block", Int); ("ind_block", Pint)]);
   ("tv", params_common ++ [("num_iter", Int); ("reg_pars", Pfloat)]);
   ("tikh", params_common ++ [("num_iter", Int); ("reg_data", Pfloat); ("reg_pars", Pfloat)]);
   ("gridrec", params_common ++ [("fname", Pchar); ("filter_par", Pfloat)]);
   ("cxx_mlem", params_accel); ("cxx_sirt", params_accel);
   ("vector", [("data", Pfloat); ("dy", Int); ("dt", Int); ("dx", Int); ("center", Pfloat); ("theta", Pfloat); ("recon1", Pfloat);
               ("recon2", Pfloat); ("ngridx", Int); ("ngridy", Int); ("num_iter", Int)]);
   ("vector2", [("data1", Pfloat); ("data2", Pfloat); ("dy", Int); ("dt", Int); ("dx", Int); ("center1", Pfloat); ("center2", Pfloat);
                ("theta1", Pfloat); ("theta2", Pfloat); ("recon1", Pfloat); ("recon2", Pfloat); ("recon3", Pfloat); ("ngridx", Int);
                ("ngridy", Int); ("num_iter", Int); ("axis1", Int); ("axis2", Int)]);
   ("vector3", [("data1", Pfloat); ("data2", Pfloat); ("data3", Pfloat); ("dy", Int); ("dt", Int); ("dx", Int); ("center1", Pfloat);
                ("center2", Pfloat); ("center3", Pfloat); ("theta1", Pfloat); ("theta2", Pfloat); ("theta3", Pfloat);
                ("recon1", Pfloat); ("recon2", Pfloat); ("recon3", Pfloat); ("ngridx", Int); ("ngridy", Int); ("num_iter", Int);
                ("axis1", Int); ("axis2", Int); ("axis3", Int)]);
   ("project", [("obj", Pfloat); ("oy", Int); ("ox", Int); ("oz", Int); ("data", Pfloat); ("dy", Int); ("dt", Int); ("dx", Int);
                ("center", Pfloat); ("theta", Pfloat)]);
   ("project2", [("objx", Pfloat); ("objy", Pfloat); ("oy", Int); ("ox", Int); ("oz", Int); ("data", Pfloat); ("dy", Int);
                 ("dt", Int); ("dx", Int); ("center", Pfloat); ("theta", Pfloat)]);
   ("project3", [("objx", Pfloat); ("objy", Pfloat); ("objz", Pfloat); ("oy", Int); ("ox", Int); ("oz", Int); ("data", Pfloat);
                 ("dy", Int); ("dt", Int); ("dx", Int); ("center", Pfloat); ("theta", Pfloat); ("axis", Int)]);
   ("normalize_bg", [("data", Pfloat); ("dx", Int); ("dy", Int); ("dz", Int); ("nair", Int)]);
   ("remove_stripe_sf", [("data", Pfloat); ("dx", Int); ("dy", Int); ("dz", Int); ("size", Int); ("istart", Int); ("iend", Int)]);
   ("stripesdetect3d_main_float", [("Input", Pfloat); ("Output", Pfloat); ("window_halflength_vertical", Int); ("ratio_radius", Int);
      ("ncores", Int); ("dimX", Int); ("dimY", Int); ("dimZ", Int)]);
   ("stripesmask3d_main_float", [("Input", Pfloat); ("Output", Pbool); ("threshold_val", Float); ("stripe_length_min", Int);
      ("stripe_depth_min", Int); ("stripe_width_min", Int); ("sensitivity", Float); ("ncores", Int); ("dimX", Int); ("dimY", Int);
      ("dimZ", Int)]);
   ("sample", [("mode", Int); ("data", Pfloat); ("dx", Int); ("dy", Int); ("dz", Int); ("level", Int); ("axis", Int); ("out", Pfloat)]);
   ("remove_ring", [("data", Pfloat); ("center_x", Float); ("center_y", Float); ("dx", Int); ("dy", Int); ("dz", Int);
      ("thresh_max", Float); ("thresh_min", Float); ("threshold", Float); ("angular_min", Int); ("ring_width", Int);
      ("int_mode", Int); ("istart", Int); ("iend", Int)]);
   ("medianfilter_main_float", [("Input", Pfloat); ("Output", Pfloat); ("radius", Int); ("mu_threshold", Float); ("ncores", Int);
      ("dimX", Int); ("dimY", Int); ("dimZ", Int)]);
   ("medianfilter_main_uint16", [("Input", Pushort); ("Output", Pushort); ("radius", Int); ("mu_threshold", Float); ("ncores", Int);
      ("dimX", Int); ("dimY", Int); ("dimZ", Int)]);
   ("Inpainter_morph_main", [("Input", Pfloat); ("Mask", Pbool); ("Output", Pfloat); ("iterations", Int); ("W_halfsize", Int);
      ("method_type", Int); ("ncores", Int); ("dimX", Int); ("dimY", Int); ("dimZ", Int)])].
Definition prototype (fn : string) : list (string * ctype) :=
  match find (fun e => String.eqb (fst e) fn) prototypes with Some e => snd e | None => [] end.

(** ** recon up to the calls of the C functions (algorithm.py 263-345, 394-440) *)
(** _get_algorithm_kwargs (471-500); the fresh arrays get identities from [fresh] on *)
Section Prepare.
  Variable fresh : nat.
  Variables dy dt dx : Z.                      (* tomo.shape after init_tomo *)
  Definition kwargs_defaults : kwargs :=
    [("num_gridx", Num dx); ("num_gridy", Num dx); ("filter_name", Str "shepp"); ("filter_par", Arr (mkArr fresh F32 [2]));
     ("num_iter", Num 1); ("reg_par", Arr (mkArr (fresh + 1) F32 [10])); ("reg_data", Arr (mkArr (fresh + 2) F32 [dy; dx; dx]));
     ("num_block", Num 1); ("ind_block", Arr (mkArr (fresh + 3) I32 [dt])); ("accelerated", Flag false); ("pool_size", Num 0);
     ("interpolation", Str "NN"); ("device", Str "gpu"); ("grid_size", Arr (mkArr (fresh + 4) I32 [3]));
     ("block_size", Arr (mkArr (fresh + 5) I32 [3]))].
  (** 292-300: other values become arrays (integers and flags still behave as such); reg_par, filter_par and reg_data become
      float32 arrays unless they are numpy.float32 scalars. *)
  Definition float_key (k : string) : bool := (String.eqb k "reg_par") || (String.eqb k "filter_par") || (String.eqb k "reg_data").
  Definition convert (k : string) (v : pyval) : result pyval :=
    if float_key k then
      match v with
      | F32scalar x => Ok v
      | Arr a => Ok (Arr (mkArr (ident a) F32 (shape a)))
      | Num _ | Flt _ | Flag _ => Ok (Arr (mkArr (fresh + 6) F32 []))
      | Str _ => Raise ValueError
      end
    else Ok v.
  Fixpoint convert_all (allowed : list string) (user : kwargs) : result kwargs :=
    match user with
    | [] => Ok []
    | (k, v) :: l =>
        if negb (mem_str k allowed) then Raise ValueError                                            (* 288-290 *)
        else match convert k v with
             | inl e => Raise e
             | inr v => match convert_all allowed l with inl e => Raise e | inr l => Ok ((k, v) :: l) end
             end
    end.
  (** 303-304: kwargs.setdefault *)
  Definition set_defaults (allowed : list string) (kw : kwargs) : kwargs :=
    kw ++ flat_map (fun k => match get kw k, get kwargs_defaults k with None, Some v => [(k, v)] | _, _ => [] end) allowed.
  (** [allowed] is the list of the algorithm (266-280; C06 has how it comes about). *)
  Definition allowed_for (alg : string) : list string :=
    match lookup allowed_recon_kwargs0 alg with Some l => l | None => [] end
    ++ match lookup allowed_accelerated_kwargs alg with Some l => l | None => [] end.
  Definition recon_kwargs (alg : string) (user : kwargs) : result kwargs :=
    match convert_all (allowed_for alg) user with inl e => Raise e | inr kw => Ok (set_defaults (allowed_for alg) kw) end.

  (** np.empty, np.full (350-358): sizes that are not integers or negative raise *)
  Definition new_recon (kw : kwargs) : result ndarray :=
    match get kw "num_gridx", get kw "num_gridy" with
    | Some (Num gx), Some (Num gy) => if (gx <? 0) || (gy <? 0) then Raise ValueError else Ok (mkArr (fresh + 7) F32 [dy; gx; gy])
    | Some (Num _), Some _ | Some _, Some (Num _) => Raise TypeError
    | _, _ => Raise TypeError
    end.
  (** _init_recon (348-360): the shape of init_recon is not looked at *)
  Definition init_recon (kw : kwargs) (init : option ndarray) : result ndarray :=
    match init with
    | None => new_recon kw
    | Some a => Ok (mkArr (ident a) F32 (shape a))
    end.
  (** a[lo:hi] along the first axis *)
  Definition rows (a : ndarray) (lo hi : Z) : ndarray :=
    match shape a with
    | n :: l => mkArr (ident a) (elem_of a) (Z.max 0 (Z.min n hi - Z.min n lo) :: l)
    | [] => a
    end.
  (** The call made for the slices lo:hi (435-439, 453-457): theta and the keywords are given whole. *)
  Definition recon_call (alg : string) (tomo theta center : ndarray) (init : option ndarray) (user : kwargs) (lo hi : Z) : result ccall :=
    match recon_kwargs alg user with
    | inl e => Raise e
    | inr kw =>
        match init_recon kw init with
        | inl e => Raise e
        | inr recon =>
            match wrapper (fresh + 8) (rows tomo lo hi) (rows center lo hi) (rows recon lo hi) theta alg with
            | None => Raise AttributeError
            | Some w => w kw
            end
        end
    end.
End Prepare.
