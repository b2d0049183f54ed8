(** sim/project.py: angles, projection of an object with the python interface, and the noise models.  Exact
    real arithmetic (the code converts objects, angles and centres to float32). *)
From Verif Require Import Base CLoop Model_Prep Model_Ray Model_Solver.
From Coq Require Import Reals.
Local Open Scope R_scope.

(** np.linspace(a, b, num) *)
Definition linspace (a b : R) (num : Z) : result (list R) :=
  if (num <? 0)%Z then Raise ValueError
  else Ok (map (fun i => if (num =? 1)%Z then a else a + IZR i * ((b - a) / IZR (num - 1))) (zrange 0 num)).
(** angles (241-261) *)
Definition angles (nang : Z) (ang1 ang2 : R) : result (list R) := linspace (ang1 * PI / 180) (ang2 * PI / 180) nang.

(** _round_to_even (264-265) *)
Definition ceil (x : R) : Z := (- Int_part (- x))%Z.
Definition round_to_even (x : R) : Z := (ceil (x / 2) * 2)%Z.

(** The argument pad is compared with `is`: only the two constants count. *)
Inductive flag := IsTrue | IsFalse | IsOther.
(** dx (308-311); neither branch assigns it for other values. *)
Definition width (pad : flag) (ox oz : Z) : result Z :=
  match pad with
  | IsTrue => Ok (round_to_even (sqrt (IZR (ox * ox + oz * oz)) + 2))
  | IsFalse => Ok ox
  | IsOther => Raise UnboundLocalError
  end.

(** get_center (470-475): None, a number (or array of one element), an array. *)
Inductive center_arg := NoCenter | OneCenter (c : R) | Centers (c : arr R).
Definition get_center (dx : Z) (center : center_arg) : arr R :=
  match center with
  | NoCenter => fun _ => 1 * (IZR dx / 2)
  | OneCenter c => fun _ => 1 * c
  | Centers c => c
  end.

(** c_project on the slices a <= s < b of the volume (extern/recon.py 86-117): the arrays start at slice a. *)
Definition from {A} (off : Z) (v : arr A) : arr A := fun i => v (i + off)%Z.
Definition job (ox oz dt dx : Z) (center theta : arr R) (obj : arr R) (slc : Z * Z) (tomo : arr R) : arr R :=
  let '(a, b) := slc in
  let g := mkGeom ox oz (b - a) dt dx (from a center) theta in
  let part := project g (from (a * (ox * oz)) obj) (from (a * dt * dx) tomo) in
  fun i => if ((a * dt * dx <=? i) && (i <? b * dt * dx))%Z then part (i - a * dt * dx)%Z else tomo i.

(** swapaxes(tomo, 0, 1) of an array of shape (n0, n1, n2), as a new flat array. *)
Definition swapaxes01 (n0 n1 n2 : Z) (v : arr R) : arr R :=
  fun i => v ((i / n2) mod n0 * n1 * n2 + i / n2 / n0 * n2 + i mod n2)%Z.

(** project (268-334); [chunks] are the slices of distribute_jobs (any order), obj has shape (oy, ox, oz). *)
Record array3 := mkArray3 { shape0 : Z; shape1 : Z; shape2 : Z; values : arr R }.
Definition py_project (chunks : list (Z * Z)) (oy ox oz : Z) (obj : arr R) (dt : Z) (theta : arr R) (center : center_arg)
    (emission : bool) (pad : flag) (sinogram_order : bool) : result array3 :=
  match width pad ox oz with
  | inl e => Raise e
  | inr dx =>
      let tomo := fold_left (fun t c => job ox oz dt dx (get_center dx center) theta obj c t) chunks (fun _ => 0) in  (* 313-323 *)
      let tomo := if emission then tomo else fun i => exp (- tomo i) in                                              (* 325-327 *)
      Ok (if sinogram_order then mkArray3 oy dt dx tomo
          else mkArray3 dt oy dx (swapaxes01 oy dt dx tomo))                                                         (* 328-332 *)
  end.

(** ** Noise.  The random draws are parameters. *)
Section Noise.
  Variables n0 n1 n2 : Z.
  Definition indices : list Z := zrange 0 (n0 * n1 * n2).
  (** tomo.max() *)
  Definition amax (v : arr R) : R := fold_right Rmax (v 0%Z) (map v indices).
  (** The functions return the result and what the array given by the caller holds afterwards (floating point arrays; with
      integers add_gaussian raises and the other results are converted). *)
  (** add_drift (80-107): a new array. *)
  Definition drift (amp period mean : R) (p : Z) : R :=
    amp * sin (2 * PI / period * IZR p) + mean + (if (n0 =? 1)%Z then 0 else 0 + IZR p * ((1 - 0) / IZR (n0 - 1))).
  Definition add_drift (amp period mean : R) (v : arr R) : arr R * arr R :=
    (fun i => drift amp period mean (i / n2 / n1)%Z * v i, v).
  (** add_gaussian (110-133): the array given by the caller is changed (tomo +=) and returned. *)
  Definition add_gaussian (mean : R) (std : option R) (randn : arr R) (v : arr R) : arr R * arr R :=
    let std := match std with Some s => s | None => amax v * (5 / 100) end in
    let r := fun i => v i + (std * randn i + mean) in (r, r).
  (** add_rings (153-180): sensitivity has shape (1, n1, n2); a new array. *)
  Definition add_rings (sensitivity : arr R) (v : arr R) : arr R * arr R :=
    (fun i => v i * sensitivity (i mod (n1 * n2))%Z, v).
  (** add_salt_pepper (183-208): the array given by the caller is changed and returned. *)
  Definition add_salt_pepper (prob : R) (val : option R) (rand : arr R) (v : arr R) : arr R * arr R :=
    let val := match val with Some x => x | None => amax v end in
    let r := fun i => if rltb (rand i) prob then val else v i in (r, r).
  (** add_zingers (211-238): a new array. *)
  Definition add_zingers (f sat : R) (uniform : arr R) (v : arr R) : arr R * arr R :=
    (fun i => if rltb f (uniform i) then v i else sat, v).
End Noise.
