(** libtomo/recon/ospml_hybrid.c and ospml_quad.c (also used as pml_hybrid and pml_quad) in machine arithmetic, as in
    Model_SolverF.v; line numbers of ospml_hybrid.c (ospml_quad.c is the same text without rg and gammag).  sqrt and fabs
    are the double functions of math.h, so operands next to them are converted to double.  simdata, sum_dist, E, F and G
    come from calloc.  wg, mg, rg, gammag and indg are written before they are read in each region and are locals here. *)
From Verif Require Import Base CLoop Model_Ray Model_RayF Model_SolverF.
From Flocq Require Import Core BinarySingleNaN.
Local Open Scope Z_scope.

Section Double.
  #[local] Existing Instance p64.
  #[local] Existing Instance e64.
  Definition dsqrt : b64 -> b64 := Bsqrt mode_NE.
  Definition dabs : b64 -> b64 := Babs.
End Double.
Definition fopp : b32 -> b32 := Bopp.
Definition calloc : arr b32 := fun _ => zeroF.

(** Weights: totalwg is float, 1 / sqrt(2) / totalwg is a double that is rounded to float (175-183, 214-219, 310-313) *)
Definition total_w (a b : Z) : b32 := to32 (dadd (of_int64 a) (ddiv (of_int64 b) (dsqrt (of_int64 2)))).
Definition near_w (total : b32) : b32 := fdiv (of_int 1) total.
Definition diag_w (total : b32) : b32 := to32 (ddiv (ddiv (of_int64 1) (dsqrt (of_int64 2))) (to64 total)).
Definition weighF (total : b32) (near diag : list Z) : list (Z * b32) :=
  map (fun o => (o, near_w total)) near ++ map (fun o => (o, diag_w total)) diag.
Definition visitsF (gx gy : Z) : list (Z * list (Z * b32)) :=
  let inner := total_w 4 4 in let edge := total_w 3 2 in let corner := total_w 2 1 in
  flat_map (fun n => map (fun m => (m + n * gy, weighF inner [1; -1; gy; -gy] [gy + 1; gy - 1; -gy + 1; -gy - 1]))
     (zrange 1 (gy - 1))) (zrange 1 (gx - 1))                                               (* inner, 186-211 *)
  ++ map (fun m => (m, weighF edge [1; -1; gy] [gy + 1; gy - 1])) (zrange 1 (gy - 1))        (* top, 222-241 *)
  ++ map (fun m => (m + (gx - 1) * gy, weighF edge [1; -1; -gy] [-gy + 1; -gy - 1])) (zrange 1 (gy - 1))    (* bottom, 244-263 *)
  ++ map (fun n => (n * gy, weighF edge [1; gy; -gy] [gy + 1; -gy + 1])) (zrange 1 (gx - 1))                (* left, 266-285 *)
  ++ map (fun n => (gy - 1 + n * gy, weighF edge [-1; gy; -gy] [gy - 1; -gy - 1])) (zrange 1 (gx - 1))      (* right, 288-307 *)
  ++ [(0, weighF corner [1; gy] [gy + 1]);                                                  (* 315-330 *)
      (gy - 1, weighF corner [-1; gy] [gy - 1]);                                            (* 332-347 *)
      ((gx - 1) * gy, weighF corner [1; -gy] [-gy + 1]);                                    (* 349-364 *)
      (gy - 1 + (gx - 1) * gy, weighF corner [-1; -gy] [-gy - 1])].                         (* 366-381 *)

(** 1 / (1 + fabs(rg / reg_pars[1])) (206) *)
Definition gammaF (delta x y : b32) : b32 :=
  to32 (ddiv (of_int64 1) (dadd (of_int64 1) (dabs (to64 (fdiv (fsub x y) delta))))).
(** (-G + sqrt(G * G - 8 * E * F)) / (4 * F) (398-399) *)
Definition discF (e f gg : b32) : b32 := fsub (fmul gg gg) (fmul (fmul (of_int 8) e) f).
Definition rootF (e f gg : b32) : b32 :=
  to32 (ddiv (dadd (to64 (fopp gg)) (dsqrt (to64 (discF e f gg)))) (to64 (fmul (of_int 4) f))).

Section Pml.
  Variables (fmodf sinf cosf : b32 -> b32) (junk : arr pointF * arr pointF * arr pointF).
  Variable g : geomF.
  Variable hybrid : bool.                                                                   (* ospml_hybrid or ospml_quad *)
  Variables (nreg : Z) (reg : arr b32).                                                     (* reg_pars *)
  Variables (data : arr b32) (num_block : Z) (ind_block : arr Z).

  (** 202-209 for one neighbour *)
  Definition coefF (w x y : b32) : option b32 :=
    let? beta := load nreg reg 0 in
    let k := fmul (fmul (of_int 2) beta) w in
    if hybrid then let? delta := load nreg reg 1 in Some (fmul k (gammaF delta x y)) else Some k.
  Definition pen_pxF (s : Z) (recon : arr b32) (ind0 : Z) (nb : list (Z * b32)) (st : arr b32 * arr b32) : option (arr b32 * arr b32) :=
    let? ind1 := cint (ind0 + s * gxF g * gyF g) in
    ofold (fun '(o, w) '(F, G) =>
      let? indg := cint (ind1 + o) in
      let? x := load (nrec g) recon ind1 in
      let? y := load (nrec g) recon indg in
      let? k := coefF w x y in
      let? f := load (npixF g) F ind0 in
      let? F := store (npixF g) F ind0 (fadd f k) in
      let? gg := load (npixF g) G ind0 in
      let? G := store (npixF g) G ind0 (fsub gg (fmul k (fadd x y))) in
      Some (F, G)) nb st.
  Definition penaltyF (s : Z) (recon : arr b32) : option (arr b32 * arr b32) :=
    ofold (fun '(ind0, nb) => pen_pxF s recon ind0 nb) (visitsF (gxF g) (gyF g)) (calloc, calloc).

  (** One ray (124-171): simdata, sum_dist and E *)
  Definition pml_rayF (s : Z) (center : b32) (recon : arr b32) (p d : Z) (st : arr b32 * arr b32 * arr b32) : option (arr b32 * arr b32 * arr b32) :=
    let '(simdata, sum_dist, E) := st in
    let? segs := segsF fmodf sinf cosf junk g center p d in
    let? simdata := simdataF g segs s p d recon simdata in
    let? sum_dist := ofold (fun '(i, w) a => let? v := load (npixF g) a i in store (npixF g) a i (fadd v w)) segs sum_dist in
    if nez (sum_sq segs) then
      let? k := ind_dataF g s p d in
      let? ind_recon := cint (s * gxF g * gyF g) in
      let? b := load (ndata g) data k in
      let? v := load (ndata g) simdata k in
      let upd := fdiv b v in
      let? E := ofold (fun '(i, w) a =>
        let? v := load (npixF g) a i in
        let? x := load (nrec g) recon (i + ind_recon) in
        store (npixF g) a i (fsub v (fmul (fmul x upd) w))) segs E in
      Some (simdata, sum_dist, E)
    else Some (simdata, sum_dist, E).
  (** 384-389 and 391-403 *)
  Definition add_sumF (sum_dist G : arr b32) : option (arr b32) :=
    ofor 0 (npixF g) (fun n G =>
      let? v := load (npixF g) G n in
      let? sd := load (npixF g) sum_dist n in
      store (npixF g) G n (fadd v sd)) G.
  Definition pml_newF (s : Z) (E F G recon : arr b32) : option (arr b32) :=
    ofor 0 (gxF g) (fun n => ofor 0 (gyF g) (fun m recon =>
      let? q := cint (m + n * gyF g) in
      let? f := load (npixF g) F q in
      if nez f then
        let? ind0 := cint (q + s * gxF g * gyF g) in
        let? gg := load (npixF g) G q in
        let? e := load (npixF g) E q in
        store (nrec g) recon ind0 (rootF e f gg)
      else Some recon)) recon.
  (** One subset (101-408) *)
  Definition pml_blockF (s : Z) (center : b32) (os : Z) (st : Z * (arr b32 * arr b32)) : option (Z * (arr b32 * arr b32)) :=
    let '(start, (recon, simdata)) := st in
    let? blocksize := cdiv (dtF g) num_block in
    let? remainder := crem (dtF g) num_block in
    let stop := start + blocksize + (if os <? remainder then 1 else 0) in
    let? r := ofor start stop (fun q st =>
      let? p := pickF g num_block ind_block q in
      ofor 0 (dxF g) (pml_rayF s center recon p) st) (simdata, calloc, calloc) in
    let '(simdata, sum_dist, E) := r in
    let? FG := penaltyF s recon in
    let? G := add_sumF sum_dist (snd FG) in
    let? recon := pml_newF s E (fst FG) G recon in
    Some (stop, (recon, simdata)).
  Definition pml_sliceF (s : Z) (st : arr b32 * arr b32) : option (arr b32 * arr b32) :=
    let? center := load (dyF g) (centerF g) s in
    let? r := ofor 0 num_block (pml_blockF s center) (0, st) in
    Some (snd r).
  Definition pmlF (num_iter : Z) (recon : arr b32) : option (arr b32) :=
    if emptyF g then Some recon else
    let? _ := cdiv (dtF g) num_block in
    ofor 0 num_iter (fun _ recon => let? r := ofor 0 (dyF g) pml_sliceF (recon, calloc) in Some (fst r)) recon.
End Pml.
