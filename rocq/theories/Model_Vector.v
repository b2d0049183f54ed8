(** Vector fields: project2 and project3 (libtomo/recon/project.c 140-347), vector, vector2 and vector3
    (libtomo/recon/vector.c) with their helpers in utils.c, over exact reals.  Work arrays come from calloc
    and are zero. *)
From Verif Require Import Base CLoop Model_Prep Model_Ray Model_Solver.
From Coq Require Import Reals.
Local Open Scope R_scope.

(** calc_dist2 (utils.c 331-355): pixel coordinates and length of every segment. *)
Definition segments2 (ry rz : Z) (t : traced) : list (Z * Z * R) :=
  map (fun n => (seg_indx ry (coor t) n, seg_indy rz (coor t) n, seg_dist (coor t) n)) (zrange 0 (csize t - 1)).
Definition rays2 (g : geom) (c p d : Z) : list (Z * Z * R) :=
  segments2 (ngridx g) (ngridy g) (ray_trace (ngridx g) (ngridy g) (dx g) (center g c) (theta g p) d).
(** (vx, vy) (vector.c 115-122, project.c 192-199) *)
Definition direction (l : line) : R * R :=
  let dv := sqrt ((srcx l - detx l) * (srcx l - detx l) + (srcy l - dety l) * (srcy l - dety l)) in
  ((srcx l - detx l) / dv, (srcy l - dety l) / dv).
Definition ray_dir (g : geom) (c p d : Z) : R * R :=
  direction (pixel_line (ngridx g) (ngridy g) (dx g) (center g c) (fmod (theta g p) (2 * PI)) d).

(** Index of the voxel met at pixel (x, y) of plane s (utils.c 383-384, 404-405, 414-415, 424-425;
    vector.c 174-176, 336-338, 442-444, 606-608). *)
Definition loc (g : geom) (axis s x y : Z) : Z :=
  (if axis =? 0 then y + x * ngridy g + s * ngridx g * ngridy g
   else if axis =? 1 then s + x * ngridy g + y * ngridx g * ngridy g
   else x + s * ngridy g + y * ngridx g * ngridy g)%Z.

(** A field has three component arrays; the two components met by rays along an axis. *)
Record field := mkField { comp1 : arr R; comp2 : arr R; comp3 : arr R }.
Definition fst_of (axis : Z) (f : field) : arr R := if (axis =? 1)%Z then comp2 f else comp1 f.
Definition snd_of (axis : Z) (f : field) : arr R := if (axis =? 0)%Z then comp2 f else comp3 f.

(** calc_simdata2 (utils.c 373-387): axis = 0.  calc_simdata3 (391-429): nothing is added for an axis that is
    not 0, 1 or 2. *)
Definition simdata2 (g : geom) (segs : list (Z * Z * R)) (v : R * R) (axis s idx : Z) (mx my simdata : arr R) : arr R :=
  fold_left (fun sd '(x, y, w) =>
    aset sd idx (sd idx + (mx (loc g axis s x y) * fst v + my (loc g axis s x y) * snd v) * w)) segs simdata.
Definition known_axis (axis : Z) : bool := ((axis =? 0) || (axis =? 1) || (axis =? 2))%Z.
Definition simdata3 (g : geom) (segs : list (Z * Z * R)) (v : R * R) (axis s idx : Z) (f : field) (simdata : arr R) : arr R :=
  if known_axis axis then simdata2 g segs v axis s idx (fst_of axis f) (snd_of axis f) simdata else simdata.

(** ** project2 (project.c 140-242), project3 (244-347): center[0] for every plane (172, 277) *)
Definition project2 (g : geom) (objx objy data : arr R) : arr R :=
  if empty g then data else
  for_ (dt g) (fun p => for_ (dx g) (fun d => for_ (dy g) (fun s =>
    simdata2 g (rays2 g 0 p d) (ray_dir g 0 p d) 0 s (ind_data g s p d) objx objy))) data.
Definition project3 (g : geom) (f : field) (axis : Z) (data : arr R) : arr R :=
  if empty g then data else
  for_ (dt g) (fun p => for_ (dx g) (fun d => for_ (dy g) (fun s =>
    simdata3 g (rays2 g 0 p d) (ray_dir g 0 p d) axis s (ind_data g s p d) f))) data.

(** ** vector2 and vector3 *)
(** sum_dist2 += dist[n] * dist[n]; sum_dist[..] += dist[n] (vector.c 309-314) *)
Definition sum_dist2_of (segs : list (Z * Z * R)) : R := fold_left (fun a '(_, _, w) => a + w * w) segs 0.
Definition add_dist2 (g : geom) (segs : list (Z * Z * R)) (sum_dist : arr R) : arr R :=
  fold_left (fun r '(x, y, w) => aset r (y + x * ngridy g)%Z (r (y + x * ngridy g)%Z + w)) segs sum_dist.
(** update[..] += upd * dist[n] * v (vector.c 321-325) *)
Definition add_update (g : geom) (segs : list (Z * Z * R)) (upd v : R) (update : arr R) : arr R :=
  fold_left (fun r '(x, y, w) => aset r (y + x * ngridy g)%Z (r (y + x * ngridy g)%Z + upd * w * v)) segs update.

Section Pass.
  Variable g : geom.
  Variable data : arr R.
  Variable axis : Z.     (* simulated axis *)
  Variable target : Z.   (* axis whose components and voxels are updated *)
  (** Body of the detector loop (269-326). *)
  Definition pass_ray (s : Z) (f : field) (p d : Z) (st : arr R * arr R * arr R * arr R) : arr R * arr R * arr R * arr R :=
    let '(simdata, sum_dist, update1, update2) := st in
    let segs := rays2 g s p d in
    let v := ray_dir g s p d in
    let simdata := simdata3 g segs v axis s (ind_data g s p d) f simdata in
    let sum_dist := add_dist2 g segs sum_dist in
    if Req_EM_T (sum_dist2_of segs) 0 then (simdata, sum_dist, update1, update2)
    else let upd := (data (ind_data g s p d) - simdata (ind_data g s p d)) / sum_dist2_of segs in
         (simdata, sum_dist, add_update g segs upd (fst v) update1, add_update g segs upd (snd v) update2).
  (** Final double loop (330-342, 436-448). *)
  Definition bump (s : Z) (sum_dist update : arr R) (r : arr R) : arr R :=
    for_ (ngridx g) (fun m => for_ (ngridy g) (fun n r =>
      if Req_EM_T (sum_dist (n + m * ngridy g)%Z) 0 then r
      else aset r (loc g target s m n)
             (r (loc g target s m n) + update (n + m * ngridy g)%Z / sum_dist (n + m * ngridy g)%Z))) r.
  Definition pass_store (s : Z) (sum_dist update1 update2 : arr R) (f : field) : field :=
    if (target =? 0)%Z then mkField (bump s sum_dist update1 (comp1 f)) (bump s sum_dist update2 (comp2 f)) (comp3 f)
    else if (target =? 1)%Z then mkField (comp1 f) (bump s sum_dist update1 (comp2 f)) (bump s sum_dist update2 (comp3 f))
    else mkField (bump s sum_dist update1 (comp1 f)) (comp2 f) (bump s sum_dist update2 (comp3 f)).
  Definition pass_slice (s : Z) (st : field * arr R) : field * arr R :=
    let '(f, simdata) := st in
    let '(simdata, sum_dist, update1, update2) :=
      for_ (dt g) (fun p => for_ (dx g) (fun d => pass_ray s f p d)) (simdata, fun _ => 0, fun _ => 0, fun _ => 0) in
    (pass_store s sum_dist update1 update2 f, simdata).
  Definition pass (f : field) : field := fst (for_ (dy g) pass_slice (f, fun _ => 0)).
End Pass.
(** vector2 (vector.c 204-471): both sweeps use theta1 and center1 (250, 263, 356, 369); theta2 and center2 (in
    [g2]) are not read. *)
Definition vector2 (g1 g2 : geom) (data1 data2 : arr R) (num_iter axis1 axis2 : Z) (f : field) : field :=
  for_ num_iter (fun _ f => pass g1 data2 axis2 2 (pass g1 data1 axis1 1 f)) f.
(** vector3 (vector.c 473-847): likewise for three data sets (520, 533, 626, 639, 732, 745). *)
Definition vector3 (g1 g2 g3 : geom) (data1 data2 data3 : arr R) (num_iter axis1 axis2 axis3 : Z) (f : field) : field :=
  for_ num_iter (fun _ f => pass g1 data3 axis3 2 (pass g1 data2 axis2 1 (pass g1 data1 axis1 0 f))) f.

(** ** vector (vector.c 48-202): the final division is not guarded; a value that is not a number is [None]. *)
Section Vector.
  Variable g : geom.
  Variable data : arr R.
  Definition n_simdata2 (segs : list (Z * Z * R)) (v : R * R) (s idx : Z) (mx my simdata : arr number) : arr number :=
    fold_left (fun sd '(x, y, w) =>
      aset sd idx (nadd (sd idx) (nmul (nadd (nmul (mx (loc g 0 s x y)) (Some (fst v))) (nmul (my (loc g 0 s x y)) (Some (snd v)))) (Some w))))
      segs simdata.
  Definition n_add_update (segs : list (Z * Z * R)) (upd : number) (v : R) (update : arr number) : arr number :=
    fold_left (fun r '(x, y, w) =>
      aset r (y + x * ngridy g)%Z (nadd (r (y + x * ngridy g)%Z) (nmul (nmul upd (Some w)) (Some v)))) segs update.
  Definition vec_ray (s : Z) (r1 r2 : arr number) (p d : Z) (st : arr number * arr R * arr number * arr number)
    : arr number * arr R * arr number * arr number :=
    let '(simdata, sum_dist, update1, update2) := st in
    let segs := rays2 g s p d in
    let v := ray_dir g s p d in
    let simdata := n_simdata2 segs v s (ind_data g s p d) r1 r2 simdata in                                   (* 144-146 *)
    let sum_dist := add_dist2 g segs sum_dist in                                                             (* 149-154 *)
    if Req_EM_T (sum_dist2_of segs) 0 then (simdata, sum_dist, update1, update2)
    else let upd := ndiv (nsub (Some (data (ind_data g s p d))) (simdata (ind_data g s p d))) (Some (sum_dist2_of segs)) in
         (simdata, sum_dist, n_add_update segs upd (fst v) update1, n_add_update segs upd (snd v) update2).
  Definition vec_bump (s : Z) (sum_dist : arr R) (update : arr number) (r : arr number) : arr number :=      (* 170-179 *)
    for_ (ngridx g) (fun m => for_ (ngridy g) (fun n r =>
      aset r (loc g 0 s m n) (nadd (r (loc g 0 s m n)) (ndiv (update (n + m * ngridy g)%Z) (Some (sum_dist (n + m * ngridy g)%Z)))))) r.
  Definition vec_slice (s : Z) (st : arr number * arr number * arr number) : arr number * arr number * arr number :=
    let '(r1, r2, simdata) := st in
    let '(simdata, sum_dist, update1, update2) :=
      for_ (dt g) (fun p => for_ (dx g) (fun d => vec_ray s r1 r2 p d)) (simdata, fun _ => 0, fun _ => Some 0, fun _ => Some 0) in
    (vec_bump s sum_dist update1 r1, vec_bump s sum_dist update2 r2, simdata).
  Definition vec_iter (r : arr number * arr number) : arr number * arr number :=
    fst (for_ (dy g) vec_slice (r, fun _ => Some 0)).
  Definition vector (num_iter : Z) (r : arr number * arr number) : arr number * arr number :=
    for_ num_iter (fun _ => vec_iter) r.
End Vector.
(** Model note: recon/vector.py calls these with ngridx = ngridy = tomo.shape[2] and zero arrays of shape
    (tomo.shape[0], tomo.shape[2], tomo.shape[2]) (76-83, 97-107, 123-135). *)
Definition square_geom (dy dt dx : Z) (center theta : arr R) : geom := mkGeom dx dx dy dt dx center theta.
