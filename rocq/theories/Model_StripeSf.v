(** libtomo/prep/stripe.c (46-96) on the flat memory of dx projections of dy slices of dz pixels, exact reals. *)
From Verif Require Import Base CLoop Model_Solver.
From Coq Require Import Reals.
Local Open Scope R_scope.

Section Sf.
  Variables dx dy dz size : Z.
  Definition sf_index (p s j : Z) : Z := (j + s * dz + p * dy * dz)%Z.
  Definition average_row (data : arr R) (s : Z) : arr R :=                                     (* 60-67 *)
    for_ dz (fun j row => for_ dx (fun p row => aset row j (row j + data (sf_index p s j) / IZR dx)) row) (fun _ => 0).
  Definition smooth_row (average : arr R) : arr R :=                                           (* 71-83 *)
    for_ dz (fun i row =>
      let row := aset row i 0 in
      let row := for_ size (fun j row =>
        let k := (i + j - size / 2)%Z in
        let k := if (k <? 0)%Z then 0%Z else k in
        let k := if (k >? dz - 1)%Z then (dz - 1)%Z else k in
        aset row i (row i + average k)) row in
      aset row i (row i / IZR size)) (fun _ => 0).
  Definition sf_slice (s : Z) (data : arr R) : arr R :=                                        (* 86-93 *)
    let average := average_row data s in
    let smooth := smooth_row average in
    for_ dx (fun p data => for_ dz (fun j data =>
      aset data (sf_index p s j) (data (sf_index p s j) - (average j - smooth j))) data) data.
  Definition remove_stripe_sf (istart iend : Z) (data : arr R) : arr R := for_range istart iend sf_slice data.
End Sf.
