(** libtomo/recon: calc_quadrant, calc_simdata (utils.c), project.c, fbp.c, art.c, bart.c (also used as SIRT) and osem.c
    (also used as MLEM) in machine arithmetic: IEEE binary32 as in Model_RayF.v, 32 bit ints, arrays with bounds.
    [None] is undefined behaviour: an access outside an array, a conversion to int that does not fit, an int overflow in
    an index (the largest intermediate value is the index itself), a division of ints by zero.  malloc never fails; assert is compiled away
    (C54 covers it).  fmodf, sinf and cosf are parameters.  The contents of the work buffers of the ray tracing before a
    ray are the parameter [junk]. *)
From Verif Require Import Base CLoop Model_Ray Model_RayF.
From Flocq Require Import Core BinarySingleNaN.
Local Open Scope Z_scope.

Definition obind {A B} (x : option A) (f : A -> option B) : option B := match x with Some a => f a | None => None end.
Notation "'let?' x := a 'in' b" := (obind a (fun x => b)) (at level 200, x pattern, right associativity).
Fixpoint ofold {S X} (f : X -> S -> option S) (l : list X) (s : S) : option S :=
  match l with [] => Some s | x :: l => let? s' := f x s in ofold f l s' end.
Definition ofor {S} (a b : Z) (f : Z -> S -> option S) (s : S) : option S := ofold f (zrange a b) s.
Fixpoint omap {A B} (f : A -> option B) (l : list A) : option (list B) :=
  match l with [] => Some [] | x :: l => let? y := f x in let? r := omap f l in Some (y :: r) end.

(** Arrays of n elements; ints *)
Definition load {A} (n : Z) (a : arr A) (i : Z) : option A := if (0 <=? i) && (i <? n) then Some (a i) else None.
Definition store {A} (n : Z) (a : arr A) (i : Z) (v : A) : option (arr A) := if (0 <=? i) && (i <? n) then Some (aset a i v) else None.
Definition cint (z : Z) : option Z := if (- 2 ^ 31 <=? z) && (z <? 2 ^ 31) then Some z else None.
Definition cdiv (a b : Z) : option Z := if b =? 0 then None else cint (Z.quot a b).
Definition crem (a b : Z) : option Z := if b =? 0 then None else cint (Z.rem a b).
Definition zeroF : b32 := B754_zero false.
Definition nez (x : b32) : bool := negb (Beqb x zeroF).                                     (* x != 0.0f *)
(** memset(a, 0, n * sizeof(float)) *)
Definition memsetF (n : Z) (a : arr b32) : arr b32 := fun i => if (0 <=? i) && (i <? n) then zeroF else a i.

(** ** calc_quadrant (utils.c 91-113).  double arithmetic where C has a double operand (M_PI) *)
Section Double.
  #[local] Existing Instance p64.
  #[local] Existing Instance e64.
  Definition dmul : b64 -> b64 -> b64 := Bmult mode_NE.
  Definition ddiv : b64 -> b64 -> b64 := Bdiv mode_NE.
  Definition of_int64 (z : Z) : b64 := binary_normalize 53 1024 p64 e64 mode_NE z 0 false.
  Definition M_PI : b64 := binary_normalize 53 1024 p64 e64 mode_NE 884279719003555 (-48) false.
  Definition onehalf64 : b64 := binary_normalize 53 1024 p64 e64 mode_NE 3 (-1) false.
  Definition to_int64 (x : b64) : option Z :=                                               (* (int32_t) x *)
    let z := Btrunc x in if is_finite x && (- 2 ^ 31 <=? z) && (z <? 2 ^ 31) then Some z else None.
End Double.
Definition turns (k : b64) : b64 := dmul (dmul k M_PI) (of_int64 ipi_c).                    (* k * M_PI * ipi_c *)
Definition calc_quadrantF (theta_p : b32) : option bool :=
  let? theta_i := to_int (fmul theta_p (of_int ipi_c)) in                                   (* 106 *)
  let? theta_i := if theta_i <? 0 then to_int64 (dadd (of_int64 theta_i) (turns (of_int64 2))) else Some theta_i in   (* 107 *)
  let t := of_int64 theta_i in
  Some ((0 <=? theta_i) && Bltb t (turns half64)
        || Bleb (turns (of_int64 1)) t && Bltb t (turns onehalf64)).                        (* 109-110 *)

(** ** Sizes and inputs *)
Record geomF := mkGeomF { dyF : Z; dtF : Z; dxF : Z; gxF : Z; gyF : Z; centerF : arr b32; thetaF : arr b32 }.
Definition ndata (g : geomF) : Z := dyF g * dtF g * dxF g.
Definition npixF (g : geomF) : Z := gxF g * gyF g.
Definition nrec (g : geomF) : Z := dyF g * npixF g.
Definition emptyF (g : geomF) : bool := (dyF g =? 0) || (dtF g =? 0) || (dxF g =? 0).

Section Solvers.
  Variables (fmodf sinf cosf : b32 -> b32) (junk : arr pointF * arr pointF * arr pointF).
  Variable g : geomF.
  Definition ind_dataF (s p d : Z) : option Z := cint (d + p * dxF g + s * dtF g * dxF g).
  (** indi and dist of one ray (e.g. osem.c 118-147); [buf] is the size of ax, ay, bx, by, coorx, coory, dist and indi. *)
  Definition traced_of (buf : Z) (t : tracedF) : option (list (Z * b32)) :=
    if (fasize t <=? buf) && (fbsize t <=? buf) && (fcsize t <=? buf)
    then omap (fun n => let? i := seg_indiF (gxF g) (gyF g) (fcoor t) n in let? i := cint i in Some (i, seg_distF (fcoor t) n)) (zrange 0 (fcsize t - 1))
    else None.
  Definition segsF (center : b32) (p d : Z) : option (list (Z * b32)) :=
    let? th := load (dtF g) (thetaF g) p in
    let theta_p := fmodf th in
    let? q := calc_quadrantF theta_p in
    let '(za, zb, zc) := junk in
    traced_of (gxF g + gyF g) (ray_traceF (gxF g) (gyF g) (dxF g) center (sinf theta_p) (cosf theta_p) q d za zb zc).
  (** calc_simdata (utils.c 359-369) *)
  Definition simdataF (segs : list (Z * b32)) (s p d : Z) (model simdata : arr b32) : option (arr b32) :=
    let? index_model := cint (s * gxF g * gyF g) in
    let? index_data := ind_dataF s p d in
    ofold (fun '(i, w) simdata =>
      let? m := load (nrec g) model (i + index_model) in
      let? v := load (ndata g) simdata index_data in
      store (ndata g) simdata index_data (fadd v (fmul m w))) segs simdata.

  (** ** project.c 50-138: buffers of ox + oz + 2 elements (dist and indi: ox + oz + 1, for csize - 1 values), center[0], fmod and the
      offset in double *)
  Definition project_lineF (center sin_p cos_p : b32) (d : Z) : lineF :=
    let xi := of_int (- gxF g - gyF g) in
    let yi := to32 (dadd (dadd (ddiv (of_int64 (1 - dxF g)) (of_int64 2)) (of_int64 d)) (to64 (movF (dxF g) center))) in   (* 97 *)
    ray_lineF xi yi sin_p cos_p.
  Definition project_segs (center : b32) (p d : Z) : option (list (Z * b32)) :=
    let? th := load (dtF g) (thetaF g) p in
    let theta_p := fmodf th in
    let? q := calc_quadrantF theta_p in
    let '(za, zb, zc) := junk in
    let l := project_lineF center (sinf theta_p) (cosf theta_p) d in
    traced_of (gxF g + gyF g + 2) (traceF (gxF g) (gyF g) q (coordxF (gyF g) l) (coordyF (gxF g) l) za zb zc).
  Definition projectF (obj data : arr b32) : option (arr b32) :=
    if emptyF g then Some data else
    let? center := load (dyF g) (centerF g) 0 in
    ofor 0 (dtF g) (fun p => ofor 0 (dxF g) (fun d data =>
      let? segs := project_segs center p d in
      ofor 0 (dyF g) (fun s data => simdataF segs s p d obj data) data)) data.

  (** ** fbp.c 47-142 *)
  Definition fbpF (data recon : arr b32) : option (arr b32) :=
    if emptyF g then Some recon else
    ofor 0 (dyF g) (fun s recon =>
      let? center := load (dyF g) (centerF g) s in
      ofor 0 (dtF g) (fun p => ofor 0 (dxF g) (fun d recon =>
        let? segs := segsF center p d in
        let? ind_recon := cint (s * gxF g * gyF g) in
        let? k := ind_dataF s p d in
        ofold (fun '(i, w) recon =>
          let? b := load (ndata g) data k in
          let? v := load (nrec g) recon (i + ind_recon) in
          store (nrec g) recon (i + ind_recon) (fadd v (fmul b w))) segs recon)) recon) recon.

  (** ** art.c 48-168 *)
  Definition sum_sq (segs : list (Z * b32)) : b32 := fold_left (fun a '(_, w) => fadd a (fmul w w)) segs zeroF.
  Definition art_sliceF (data : arr b32) (segs : list (Z * b32)) (p d s : Z) (st : arr b32 * arr b32) : option (arr b32 * arr b32) :=
    let '(recon, simdata) := st in
    let? simdata := simdataF segs s p d recon simdata in
    let? k := ind_dataF s p d in
    let? ind_recon := cint (s * gxF g * gyF g) in
    let? b := load (ndata g) data k in
    let? v := load (ndata g) simdata k in
    let upd := fdiv (fsub b v) (sum_sq segs) in
    let? recon := ofold (fun '(i, w) recon =>
      let? x := load (nrec g) recon (i + ind_recon) in
      store (nrec g) recon (i + ind_recon) (fadd x (fmul upd w))) segs recon in
    Some (recon, simdata).
  Definition artF (data : arr b32) (num_iter : Z) (recon simdata : arr b32) : option (arr b32) :=
    if emptyF g then Some recon else
    let? r := ofor 0 num_iter (fun _ '(recon, simdata) =>
      let simdata := memsetF (ndata g) simdata in
      let? center := load (dyF g) (centerF g) 0 in
      ofor 0 (dtF g) (fun p => ofor 0 (dxF g) (fun d st =>
        let? segs := segsF center p d in
        if nez (sum_sq segs) then ofor 0 (dyF g) (art_sliceF data segs p d) st else Some st)) (recon, simdata)) (recon, simdata) in
    Some (fst r).

  (** ** bart.c 48-200 and osem.c 49-203 *)
  Record ruleF := mkRuleF {
    upd_of : b32 -> b32 -> b32 -> b32;        (* from data, simdata and sum_dist2 *)
    new_of : b32 -> b32 -> b32 -> b32 }.      (* from recon, update and sum_dist *)
  Definition bart_ruleF : ruleF := mkRuleF (fun b s q => fdiv (fsub b s) q) (fun x u sd => fadd x (fdiv u sd)).   (* bart.c 164, 178 *)
  Definition osem_ruleF : ruleF := mkRuleF (fun b s _ => fdiv b s) (fun x u sd => fmul x (fdiv u sd)).            (* osem.c 165, 180 *)
  Section Subsets.
    Variables (ru : ruleF) (data : arr b32) (num_block : Z) (ind_block : arr Z).
    Definition os_rayF (s : Z) (center : b32) (recon : arr b32) (p d : Z) (st : arr b32 * arr b32 * arr b32) : option (arr b32 * arr b32 * arr b32) :=
      let '(simdata, sum_dist, update) := st in
      let? segs := segsF center p d in
      let? simdata := simdataF segs s p d recon simdata in
      let? sum_dist := ofold (fun '(i, w) a => let? v := load (npixF g) a i in store (npixF g) a i (fadd v w)) segs sum_dist in
      if nez (sum_sq segs) then
        let? k := ind_dataF s p d in
        let? b := load (ndata g) data k in
        let? v := load (ndata g) simdata k in
        let upd := upd_of ru b v (sum_sq segs) in
        let? update := ofold (fun '(i, w) a => let? v := load (npixF g) a i in store (npixF g) a i (fadd v (fmul upd w))) segs update in
        Some (simdata, sum_dist, update)
      else Some (simdata, sum_dist, update).
    Definition os_correctF (s : Z) (sum_dist update recon : arr b32) : option (arr b32) :=
      ofor 0 (npixF g) (fun n recon =>
        let? sd := load (npixF g) sum_dist n in
        if nez sd then
          let? ind_recon := cint (s * gxF g * gyF g) in
          let? u := load (npixF g) update n in
          let? x := load (nrec g) recon (n + ind_recon) in
          store (nrec g) recon (n + ind_recon) (new_of ru x u sd)
        else Some recon) recon.
    Definition pickF (q : Z) : option Z := if num_block =? 1 then Some q else load (dtF g) ind_block q.
    Definition os_blockF (s : Z) (center : b32) (os : Z) (st : Z * (arr b32 * arr b32 * arr b32 * arr b32)) : option (Z * (arr b32 * arr b32 * arr b32 * arr b32)) :=
      let '(start, (recon, simdata, sum_dist, update)) := st in
      let? blocksize := cdiv (dtF g) num_block in
      let? remainder := crem (dtF g) num_block in
      let stop := start + blocksize + (if os <? remainder then 1 else 0) in
      let sum_dist := memsetF (npixF g) sum_dist in
      let update := memsetF (npixF g) update in
      let? r := ofor start stop (fun q st =>
        let? p := pickF q in
        ofor 0 (dxF g) (os_rayF s center recon p) st) (simdata, sum_dist, update) in
      let '(simdata, sum_dist, update) := r in
      let? recon := os_correctF s sum_dist update recon in
      Some (stop, (recon, simdata, sum_dist, update)).
    Definition os_sliceF (s : Z) (st : arr b32 * arr b32 * arr b32 * arr b32) : option (arr b32 * arr b32 * arr b32 * arr b32) :=
      let? center := load (dyF g) (centerF g) s in
      let? r := ofor 0 num_block (os_blockF s center) (0, st) in
      Some (snd r).
    Definition os_solveF (num_iter : Z) (recon simdata sum_dist update : arr b32) : option (arr b32) :=
      if emptyF g then Some recon else
      let? _ := cdiv (dtF g) num_block in
      let? r := ofor 0 num_iter (fun _ '(recon, simdata, sum_dist, update) =>
        ofor 0 (dyF g) os_sliceF (recon, memsetF (ndata g) simdata, sum_dist, update)) (recon, simdata, sum_dist, update) in
      let '(recon, _, _, _) := r in Some recon.
  End Subsets.
End Solvers.
