(** misc/phantom.py (272-455): phantoms made of ellipsoids.  Coordinates are exact reals; the values added to the
    voxels are of any type [V] with an addition, so that they can be reals or float32.  A coordinate divided by
    zero is [None] and not inside.  Not modelled: the image files of the other functions, integer dtypes (numpy
    refuses to add a float in place), sizes that are not tuples. *)
From Verif Require Import Base Model_Solver.
From Coq Require Import Reals.
Local Open Scope R_scope.

Record ellipsoid {V : Type} := Ellipsoid { A_ : V; a_ : R; b_ : R; c_ : R; x0_ : R; y0_ : R; z0_ : R; phi_ : R; theta_ : R; psi_ : R }.
Arguments ellipsoid : clear implicits.
Definition point : Type := (R * R * R)%type.
Definition radians (d : R) : R := d * (PI / 180).

(** np.mgrid[-1:1:n j], element i of one axis (_define_coords, 393-402); numpy leaves the step at 1 if n = 1. *)
Definition coord (n i : Z) : R := let step := if (n =? 1)%Z then 1 else (1 - -1) / IZR (n - 1) in IZR i * step + -1.

Section Geometry.
  Context {V : Type}.
  Variable p : ellipsoid V.
  (** _rotation_matrix (371-390) times a vector (tensordot, 409) *)
  Definition rotate (v : point) : point :=
    let '(x, y, z) := v in
    let cphi := cos (radians (phi_ p)) in let sphi := sin (radians (phi_ p)) in
    let ctheta := cos (radians (theta_ p)) in let stheta := sin (radians (theta_ p)) in
    let cpsi := cos (radians (psi_ p)) in let spsi := sin (radians (psi_ p)) in
    ((cpsi * cphi - ctheta * sphi * spsi) * x + (cpsi * sphi + ctheta * cphi * spsi) * y + (spsi * stheta) * z,
     (- spsi * cphi - ctheta * sphi * cpsi) * x + (- spsi * sphi + ctheta * cphi * cpsi) * y + (cpsi * stheta) * z,
     (stheta * sphi) * x + (- stheta * cphi) * y + ctheta * z).
  (** _transform (404-416) *)
  Definition transform (v : point) : number * number * number :=
    let '(x, y, z) := rotate v in
    (ndiv (Some (x - x0_ p)) (Some (a_ p)), ndiv (Some (y - y0_ p)) (Some (b_ p)), ndiv (Some (z - z0_ p)) (Some (c_ p))).
  (** _ellipsoid (357-363): the mask *)
  Definition inside (v : point) : bool :=
    let '(x, y, z) := transform v in
    match nadd (nadd (nmul x x) (nmul y y)) (nmul z z) with Some s => if Rle_dec s 1 then true else false | None => false end.
End Geometry.

Section Phantom.
  Context {V : Type}.
  Variable zero : V.
  Variable plus : V -> V -> V.
  Definition volume : Type := Z -> Z -> Z -> V.
  (** _ellipsoid (366-368), shape and coordinates those of [out] *)
  Definition add_ellipsoid (nx ny nz : Z) (out : volume) (p : ellipsoid V) : volume :=
    fun i j k => if inside p (coord nx i, coord ny j, coord nz k) then plus (out i j k) (A_ p) else out i j k.
  (** phantom (305-333).  np.zeros rejects negative sizes; _define_coords needs three axes; a fourth one is rejected by
      the first ellipsoid. *)
  Definition phantom (size : list Z) (params : list (ellipsoid V)) : result volume :=
    if existsb (fun n => n <? 0)%Z size then Raise ValueError
    else match size with
    | [nx; ny; nz] => Ok (fold_left (add_ellipsoid nx ny nz) params (fun _ _ _ => zero))
    | _ :: _ :: _ :: _ => match params with [] => Ok (fun _ _ _ => zero) | _ => Raise ValueError end
    | _ => Raise IndexError
    end.
End Phantom.

(** _array_to_params (437-455): one row; additional columns are ignored, missing ones are missing keys. *)
Definition to_params (row : list R) : result (ellipsoid R) :=
  match row with
  | A :: a :: b :: c :: x0 :: y0 :: z0 :: phi :: theta :: psi :: _ => Ok (Ellipsoid _ A a b c x0 y0 z0 phi theta psi)
  | _ => Raise KeyError
  end.
(** _get_shepp_array (419-434) *)
Definition shepp_array : list (list R) :=
  [ [1;        6900/10000; 920/1000; 810/1000;   0;          0;       0;   90; 90;  90];
    [-(8/10);  6624/10000; 874/1000; 780/1000;   0;  -(184/10000);    0;   90; 90;  90];
    [-(2/10);  1100/10000; 310/1000; 220/1000;  22/100;      0;       0; -108; 90; 100];
    [-(2/10);  1600/10000; 410/1000; 280/1000; -(22/100);    0;       0;  108; 90; 100];
    [1/10;     2100/10000; 250/1000; 410/1000;   0;     35/100; -(15/100); 90; 90;  90];
    [1/10;      460/10000;  46/1000;  50/1000;   0;       1/10;  25/100;   90; 90;  90];
    [1/10;      460/10000;  46/1000;  50/1000;   0;    -(1/10);  25/100;   90; 90;  90];
    [1/10;      460/10000;  23/1000;  50/1000; -(8/100); -(605/1000); 0;   90; 90;  90];
    [1/10;      230/10000;  23/1000;  20/1000;   0;   -(606/1000);    0;   90; 90;  90];
    [1/10;      230/10000;  46/1000;  20/1000;  6/100; -(605/1000);   0;   90; 90;  90] ].
Fixpoint all_params (rows : list (list R)) : result (list (ellipsoid R)) :=
  match rows with
  | [] => Ok []
  | r :: rows => match to_params r with inl e => Raise e | inr p => match all_params rows with inl e => Raise e | inr ps => Ok (p :: ps) end end
  end.
(** shepp3d (284-302); _totuple (272-281) is the identity for tuples *)
Definition shepp3d (size : list Z) : result (volume (V := R)) :=
  match all_params shepp_array with
  | inl e => Raise e
  | inr ps => match phantom 0 Rplus size ps with inl e => Raise e | inr v => Ok (fun i j k => Rmax 0 (v i j k)) end
  end.
