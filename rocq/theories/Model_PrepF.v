(** libtomo/prep/prep.c (normalize_bg) and libtomo/prep/stripe.c (remove_stripe_sf) in machine arithmetic, as in
    Model_SolverF.v: binary32, 32 bit ints, arrays with bounds, [None] for undefined behaviour.  The comparisons with the
    double 0. (prep.c 71, 75) are those of floats.  The pointer data has dx * dy * dz cells. *)
From Verif Require Import Base CLoop Model_Ray Model_RayF Model_SolverF Model_PmlF.
From Flocq Require Import Core BinarySingleNaN.
Local Open Scope Z_scope.

(** ** prep.c 46-89 *)
Section Bg.
  Variables (dx dy dz nair : Z).
  Notation n := (dx * dy * dz).
  (** 61-65 *)
  Definition air_sums (i : Z) (data : arr b32) : option (b32 * b32) :=
    let? e := cint (i + dz) in
    ofor 0 nair (fun j '(l, r) =>
      let? x := load n data (i + j) in
      let? y := load n data (e - 1 - j) in
      Some (fadd l x, fadd r y)) (zeroF, zeroF).
  (** 67-78: the mean, one if it is not positive *)
  Definition air_level (sum : b32) : b32 :=
    let a := fdiv sum (of_int nair) in if fle a zeroF then of_int 1 else a.
  (** 57-87: one row *)
  Definition bg_rowF (i : Z) (data : arr b32) : option (arr b32) :=
    let? a := air_sums i data in
    let l := air_level (fst a) in
    let r := air_level (snd a) in
    let slope := fdiv (fsub r l) (of_int (dz - 1)) in                                       (* 80 *)
    ofor 0 dz (fun j data =>
      let? x := load n data (i + j) in
      store n data (i + j) (fdiv x (fadd l (fmul slope (of_int j))))) data.
  Definition normalize_bgF (data : arr b32) : option (arr b32) :=
    ofor 0 dx (fun m data =>
      let? w := cint (dz * dy) in
      let? iproj := cint (m * w) in
      ofor 0 dy (fun k data => let? i := cint (iproj + k * dz) in bg_rowF i data) data) data.
End Bg.

(** ** stripe.c 48-103 *)
Section Sf.
  Variables (dx dy dz size : Z).
  Notation n := (dx * dy * dz).
  Definition sf_ind (s p j : Z) : option Z := cint (j + s * dz + p * dy * dz).
  (** 62-70 *)
  Definition sf_averageF (s : Z) (data : arr b32) : option (arr b32) :=
    ofor 0 dz (fun j => ofor 0 dx (fun p a =>
      let? k := sf_ind s p j in
      let? x := load n data k in
      let? v := load dz a j in
      store dz a j (fadd v (fdiv x (of_int dx))))) calloc.
  (** 74-87 *)
  Definition sf_clamp (k : Z) : Z := let k := if k <? 0 then 0 else k in if dz - 1 <? k then dz - 1 else k.
  Definition sf_smoothF (avg : arr b32) : option (arr b32) :=
    ofor 0 dz (fun i a =>
      let? a := store dz a i zeroF in
      let? a := ofor 0 size (fun j a =>
        let? k := cint (i + j) in
        let? h := cdiv size 2 in
        let? x := load dz avg (sf_clamp (k - h)) in
        let? v := load dz a i in
        store dz a i (fadd v x)) a in
      let? v := load dz a i in
      store dz a i (fdiv v (of_int size))) calloc.
  (** 90-98 *)
  Definition sf_subtractF (avg smooth : arr b32) (s : Z) (data : arr b32) : option (arr b32) :=
    ofor 0 dx (fun p => ofor 0 dz (fun j data =>
      let? k := sf_ind s p j in
      let? x := load n data k in
      let? a := load dz avg j in
      let? m := load dz smooth j in
      store n data k (fsub x (fsub a m)))) data.
  Definition sf_sliceF (s : Z) (data : arr b32) : option (arr b32) :=
    let? avg := sf_averageF s data in
    let? smooth := sf_smoothF avg in
    sf_subtractF avg smooth s data.
  Definition remove_stripe_sfF (istart iend : Z) (data : arr b32) : option (arr b32) := ofor istart iend sf_sliceF data.
End Sf.
