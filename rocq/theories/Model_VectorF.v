(** libtomo/recon: vector (vector.c 48-202), project2 and project3 (project.c 140-347) with calc_dist2, calc_simdata2 and
    calc_simdata3 (utils.c 331-429) in machine arithmetic, as in Model_SolverF.v: IEEE binary32 and binary64, 32 bit ints, arrays
    with bounds, [None] for undefined behaviour.  Not modelled: vector2 and vector3.  pow(x, 2) is taken to be x * x (which
    is exact in double for a float x) and the float nearest to the double sqrt of a float is taken to be its float root. *)
From Verif Require Import Base CLoop Model_Ray Model_RayF Model_SolverF Model_PmlF.
From Flocq Require Import Core BinarySingleNaN.
Local Open Scope Z_scope.

(** ** calc_dist2 (utils.c 331-355): i1 and i2 are ints here *)
Definition pixel2F (r : Z) (u v : b32) : option Z :=
  let mid := fmul half (fadd v u) in                                                        (* 346-347; factors in the order of calc_dist *)
  let x := fadd mid (fmul half (of_int r)) in                                               (* 348-349 *)
  let? k := to_int x in                                                                     (* 350-351 *)
  Some (k - (if flt x (of_int k) then 1 else 0)).                                           (* 352-353 *)
Definition seg2F (ry rz : Z) (c : arr pointF) (n : Z) : option (Z * Z * b32) :=
  let? x := pixel2F ry (fst (c n)) (fst (c (n + 1))) in
  let? y := pixel2F rz (snd (c n)) (snd (c (n + 1))) in
  Some (x, y, seg_distF c n).

(** ** Direction of a ray (vector.c 120-122, project.c 197-199, 302-304): squares, sum and root in double *)
Definition directionF (l : lineF) : b32 * b32 :=
  let ex := fsub (fsrcx l) (fdetx l) in
  let ey := fsub (fsrcy l) (fdety l) in
  let dv := to32 (dsqrt (dadd (dmul (to64 ex) (to64 ex)) (dmul (to64 ey) (to64 ey)))) in
  (fdiv ex dv, fdiv ey dv).

Section Vector.
  Variables (fmodf sinf cosf : b32 -> b32) (junk : arr pointF * arr pointF * arr pointF).
  Variable g : geomF.
  (** One ray (vector.c 103-141, project.c 181-219): [buf] is the size of ax, ay, bx, by, coorx and coory; dist, indx and indy hold csize - 1
      values and have at least buf - 1 elements. *)
  Definition traced2_of (buf : Z) (t : tracedF) : option (list (Z * Z * b32)) :=
    if (fasize t <=? buf) && (fbsize t <=? buf) && (fcsize t <=? buf)
    then omap (seg2F (gxF g) (gyF g) (fcoor t)) (zrange 0 (fcsize t - 1))
    else None.
  Definition ray2F (buf : Z) (center : b32) (p d : Z) : option (list (Z * Z * b32) * (b32 * b32)) :=
    let? th := load (dtF g) (thetaF g) p in
    let theta_p := fmodf th in
    let? q := calc_quadrantF theta_p in
    let '(za, zb, zc) := junk in
    let l := project_lineF g center (sinf theta_p) (cosf theta_p) d in
    let? segs := traced2_of buf (traceF (gxF g) (gyF g) q (coordxF (gyF g) l) (coordyF (gxF g) l) za zb zc) in
    Some (segs, directionF l).

  (** Voxel of pixel (x, y) of plane s (utils.c 383-384, 404-405, 414-415, 424-425) *)
  Definition locF (axis s x y : Z) : option Z :=
    cint (if axis =? 0 then y + x * gyF g + s * gxF g * gyF g
          else if axis =? 1 then s + x * gyF g + y * gxF g * gyF g
          else x + s * gyF g + y * gxF g * gyF g).
  (** calc_simdata2 (utils.c 373-387) is the case axis = 0; [nobj] is the number of elements of the models. *)
  Definition simdata2F (nobj : Z) (segs : list (Z * Z * b32)) (v : b32 * b32) (axis s p d : Z) (mx my simdata : arr b32) : option (arr b32) :=
    ofold (fun '(x, y, w) simdata =>
      let? k := ind_dataF g s p d in
      let? i := locF axis s x y in
      let? a := load nobj mx i in
      let? b := load nobj my i in
      let? c := load (ndata g) simdata k in
      store (ndata g) simdata k (fadd c (fmul (fadd (fmul a (fst v)) (fmul b (snd v))) w))) segs simdata.
  (** calc_simdata3 (utils.c 391-429) *)
  Definition simdata3F (nobj : Z) (segs : list (Z * Z * b32)) (v : b32 * b32) (axis s p d : Z) (mx my mz simdata : arr b32) : option (arr b32) :=
    if axis =? 0 then simdata2F nobj segs v 0 s p d mx my simdata
    else if axis =? 1 then simdata2F nobj segs v 1 s p d my mz simdata
    else if axis =? 2 then simdata2F nobj segs v 2 s p d mx mz simdata
    else Some simdata.

  (** ** project2 (project.c 140-242), project3 (244-347): center[0] *)
  Definition project2F (nobj : Z) (objx objy data : arr b32) : option (arr b32) :=
    if emptyF g then Some data else
    let? center := load (dyF g) (centerF g) 0 in
    ofor 0 (dtF g) (fun p => ofor 0 (dxF g) (fun d data =>
      let? r := ray2F (gxF g + gyF g + 2) center p d in
      ofor 0 (dyF g) (fun s data => simdata2F nobj (fst r) (snd r) 0 s p d objx objy data) data)) data.
  Definition project3F (nobj : Z) (objx objy objz : arr b32) (axis : Z) (data : arr b32) : option (arr b32) :=
    if emptyF g then Some data else
    let? center := load (dyF g) (centerF g) 0 in
    ofor 0 (dtF g) (fun p => ofor 0 (dxF g) (fun d data =>
      let? r := ray2F (gxF g + gyF g + 2) center p d in
      ofor 0 (dyF g) (fun s data => simdata3F nobj (fst r) (snd r) axis s p d objx objy objz data) data)) data.

  (** ** vector (vector.c 48-202) *)
  Variable data : arr b32.
  Definition stateV : Type := (arr b32 * arr b32) * (arr b32 * arr b32).                     (* (simdata, sum_dist), (update1, update2) *)
  Definition pixF (x y : Z) : option Z := cint (y + x * gyF g).
  Definition sum_sq2 (segs : list (Z * Z * b32)) : b32 := fold_left (fun a '(_, w) => fadd a (fmul w w)) segs zeroF.   (* 149-152 *)
  Definition addF (f : b32 -> b32) (segs : list (Z * Z * b32)) (a : arr b32) : option (arr b32) :=
    ofold (fun '(x, y, w) a => let? i := pixF x y in let? v := load (npixF g) a i in store (npixF g) a i (fadd v (f w))) segs a.
  Definition vec_rayF (s : Z) (center : b32) (r1 r2 : arr b32) (p d : Z) (st : stateV) : option stateV :=
    let '((simdata, sum_dist), (update1, update2)) := st in
    let? r := ray2F (gxF g + gyF g) center p d in
    let '(segs, (vx, vy)) := r in
    let? simdata := simdata2F (nrec g) segs (vx, vy) 0 s p d r1 r2 simdata in              (* 144-146 *)
    let? sum_dist := addF (fun w => w) segs sum_dist in                                     (* 153 *)
    if nez (sum_sq2 segs) then                                                              (* 157 *)
      let? k := ind_dataF g s p d in
      let? b := load (ndata g) data k in
      let? c := load (ndata g) simdata k in
      let upd := fdiv (fsub b c) (sum_sq2 segs) in                                          (* 160 *)
      let? update1 := addF (fun w => fmul (fmul upd w) vx) segs update1 in                  (* 163 *)
      let? update2 := addF (fun w => fmul (fmul upd w) vy) segs update2 in                  (* 164 *)
      Some ((simdata, sum_dist), (update1, update2))
    else Some ((simdata, sum_dist), (update1, update2)).
  (** recon[n + m * ngridy + s * ngridx * ngridy] += update[n + m * ngridy] / sum_dist[n + m * ngridy] (170-179): no test for zero *)
  Definition bumpF (s m n : Z) (sum_dist update r : arr b32) : option (arr b32) :=
    let? i := cint (n + m * gyF g) in
    let? j := cint (n + m * gyF g + s * gxF g * gyF g) in
    let? u := load (npixF g) update i in
    let? sd := load (npixF g) sum_dist i in
    let? x := load (nrec g) r j in
    store (nrec g) r j (fadd x (fdiv u sd)).
  Definition vec_sliceF (s : Z) (st : (arr b32 * arr b32) * arr b32) : option ((arr b32 * arr b32) * arr b32) :=
    let '((r1, r2), simdata) := st in
    let? center := load (dyF g) (centerF g) s in
    let zeros := fun _ => zeroF in                                                          (* calloc (94-96) *)
    let? r := ofor 0 (dtF g) (fun p => ofor 0 (dxF g) (vec_rayF s center r1 r2 p)) ((simdata, zeros), (zeros, zeros)) in
    let '((simdata, sum_dist), (update1, update2)) := r in
    let? r := ofor 0 (gxF g) (fun m => ofor 0 (gyF g) (fun n '(r1, r2) =>
      let? r1 := bumpF s m n sum_dist update1 r1 in
      let? r2 := bumpF s m n sum_dist update2 r2 in
      Some (r1, r2))) (r1, r2) in
    Some (r, simdata).
  Definition vectorF (num_iter : Z) (recon1 recon2 : arr b32) : option (arr b32 * arr b32) :=
    ofor 0 num_iter (fun _ r =>
      let? t := ofor 0 (dyF g) vec_sliceF (r, fun _ => zeroF) in                            (* calloc (85) *)
      Some (fst t)) (recon1, recon2).
End Vector.
