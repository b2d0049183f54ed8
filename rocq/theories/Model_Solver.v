(** libtomo/recon: project.c, fbp.c, art.c, bart.c, osem.c over exact reals.  The intersection of one
    ray with the grid is [ray] (Model_Ray).  Arrays are flat; malloc'ed work arrays hold arbitrary values
    until memset. *)
From Verif Require Import Base CLoop Model_Prep Model_Ray.
From Coq Require Import Reals.
Local Open Scope R_scope.

(** Geometry arguments of the solvers. *)
Record geom := mkGeom { ngridx : Z; ngridy : Z; dy : Z; dt : Z; dx : Z; center : arr R; theta : arr R }.
Definition npix (g : geom) : Z := (ngridx g * ngridy g)%Z.
Definition ind_data (g : geom) (s p d : Z) : Z := (d + p * dx g + s * dt g * dx g)%Z.
(** Ray of pixel d of projection p; c is the index into center[]. *)
Definition rays (g : geom) (c p d : Z) : list (Z * R) :=
  ray (ngridx g) (ngridy g) (dx g) (center g c) (theta g p) d.
Definition empty (g : geom) : bool := ((dy g =? 0) || (dt g =? 0) || (dx g =? 0))%Z%bool.

(** memset(a, 0, n * sizeof(float)) *)
Definition memset0 {A} (zero : A) (n : Z) (a : arr A) : arr A :=
  fun i => if ((0 <=? i) && (i <? n))%Z then zero else a i.

(** calc_simdata (utils.c 359-369) *)
Definition calc_simdata (segs : list (Z * R)) (index_model index_data : Z) (model simdata : arr R) : arr R :=
  fold_left (fun sd '(i, w) => aset sd index_data (sd index_data + model (i + index_model)%Z * w)) segs simdata.
(** for(n = 0; n < csize - 1; n++) recon[indi[n] + ind_recon] += k * dist[n]; *)
Definition add_scaled (segs : list (Z * R)) (ind_recon : Z) (k : R) (recon : arr R) : arr R :=
  fold_left (fun r '(i, w) => aset r (i + ind_recon)%Z (r (i + ind_recon)%Z + k * w)) segs recon.
(** sum_dist2 (art.c 126-130) *)
Definition sum_dist2 (segs : list (Z * R)) : R := fold_left (fun a '(_, w) => a + w * w) segs 0.

(** ** project (project.c 50-138): center[0] for every slice (79). *)
Definition project (g : geom) (obj data : arr R) : arr R :=
  if empty g then data else
  for_ (dt g) (fun p => for_ (dx g) (fun d => for_ (dy g) (fun s =>
    calc_simdata (rays g 0 p d) (s * npix g) (ind_data g s p d) obj))) data.

(** ** fbp (fbp.c 46-140): center[s] (77-80). *)
Definition fbp (g : geom) (data recon : arr R) : arr R :=
  if empty g then recon else
  for_ (dy g) (fun s => for_ (dt g) (fun p => for_ (dx g) (fun d =>
    add_scaled (rays g s p d) (s * npix g) (data (ind_data g s p d))))) recon.

(** ** art (art.c 48-170): center[0] for every slice (86). *)
Definition art_slice (g : geom) (data : arr R) (segs : list (Z * R)) (p d s : Z) (st : arr R * arr R) : arr R * arr R :=
  let '(recon, simdata) := st in
  let simdata := calc_simdata segs (s * npix g) (ind_data g s p d) recon simdata in                      (* 138-140 *)
  let upd := (data (ind_data g s p d) - simdata (ind_data g s p d)) / sum_dist2 segs in                  (* 145 *)
  (add_scaled segs (s * npix g) upd recon, simdata).                                                     (* 146-149 *)
Definition art_ray (g : geom) (data : arr R) (p d : Z) (st : arr R * arr R) : arr R * arr R :=
  let segs := rays g 0 p d in
  if Req_EM_T (sum_dist2 segs) 0 then st else for_ (dy g) (art_slice g data segs p d) st.
Definition art_iter (g : geom) (data : arr R) (st : arr R * arr R) : arr R * arr R :=
  for_ (dt g) (fun p => for_ (dx g) (fun d => art_ray g data p d))
    (fst st, memset0 0 (dy g * dt g * dx g) (snd st)).
Definition art (g : geom) (data : arr R) (num_iter : Z) (recon simdata : arr R) : arr R :=
  if empty g then recon else fst (for_ num_iter (fun _ => art_iter g data) (recon, simdata)).

(** ** bart.c and osem.c.  A division by zero gives a value that is not a number of the model: [None]
    (infinity or NaN; what is computed from it is not modelled further). *)
Notation number := (option R).
Definition nadd (a b : number) : number := match a, b with Some x, Some y => Some (x + y) | _, _ => None end.
Definition nsub (a b : number) : number := match a, b with Some x, Some y => Some (x - y) | _, _ => None end.
Definition nmul (a b : number) : number := match a, b with Some x, Some y => Some (x * y) | _, _ => None end.
Definition ndiv (a b : number) : number :=
  match a, b with Some x, Some y => if Req_EM_T y 0 then None else Some (x / y) | _, _ => None end.

(** for(j = a; j < b; j++) *)
Definition for_range {S} (a b : Z) (body : Z -> S -> S) (s : S) : S := fold_left (fun s j => body j s) (zrange a b) s.

Definition n_simdata (segs : list (Z * R)) (index_model index_data : Z) (model simdata : arr number) : arr number :=
  fold_left (fun sd '(i, w) => aset sd index_data (nadd (sd index_data) (nmul (model (i + index_model)%Z) (Some w)))) segs simdata.
Definition n_add_scaled (segs : list (Z * R)) (k : number) (update : arr number) : arr number :=
  fold_left (fun r '(i, w) => aset r i (nadd (r i) (nmul k (Some w)))) segs update.
Definition add_dist (segs : list (Z * R)) (sum_dist : arr R) : arr R :=                    (* sum_dist[indi[n]] += dist[n] *)
  fold_left (fun r '(i, w) => aset r i (r i + w)) segs sum_dist.

(** The two solvers differ in the value spread along a ray and in the final correction. *)
Record rule := mkRule { value : R -> number -> R -> number;       (* data, simdata, sum_dist2 *)
                        correct : number -> number -> R -> number }. (* recon, update, sum_dist <> 0 *)
Definition bart_rule : rule :=
  mkRule (fun b s s2 => ndiv (nsub (Some b) s) (Some s2))                                  (* bart.c 164 *)
         (fun x u sd => nadd x (ndiv u (Some sd))).                                        (* bart.c 178 *)
Definition osem_rule : rule :=
  mkRule (fun b s _ => ndiv (Some b) s)                                                    (* osem.c 165 *)
         (fun x u sd => nmul x (ndiv u (Some sd))).                                        (* osem.c 180 *)

Section OrderedSubsets.
  Variable g : geom.
  Variable rl : rule.
  Variable data : arr R.
  Variable num_block : Z.
  Variable ind_block : arr Z.

  (** State inside a block: simdata, sum_dist, update. *)
  Definition os_ray (s : Z) (recon : arr number) (p d : Z) (st : arr number * arr R * arr number) : arr number * arr R * arr number :=
    let '(simdata, sum_dist, update) := st in
    let segs := rays g s p d in
    let simdata := n_simdata segs (s * npix g) (ind_data g s p d) recon simdata in         (* bart.c 148-150 *)
    let sum_dist := add_dist segs sum_dist in                                              (* 153-158 *)
    let update :=                                                                          (* 161-169 *)
      if Req_EM_T (sum_dist2 segs) 0 then update
      else n_add_scaled segs (value rl (data (ind_data g s p d)) (simdata (ind_data g s p d)) (sum_dist2 segs)) update in
    (simdata, sum_dist, update).
  Definition pick (q : Z) : Z := if (num_block =? 1)%Z then q else ind_block q.            (* 112 *)
  (** for(q = subset_start; ...) for(d = 0; ...) (110-171) *)
  Definition os_rays (s : Z) (recon : arr number) (a b : Z) (st : arr number * arr R * arr number) : arr number * arr R * arr number :=
    for_range a b (fun q => for_ (dx g) (fun d => os_ray s recon (pick q) d)) st.
  (** 173-180: for(n = 0; n < ngridx * ngridy; n++) *)
  Definition os_correct (s : Z) (sum_dist : arr R) (update recon : arr number) : arr number :=
    for_ (npix g) (fun n r =>
      if Req_EM_T (sum_dist n) 0 then r
      else aset r (n + s * npix g)%Z (correct rl (r (n + s * npix g)%Z) (update n) (sum_dist n))) recon.
  (** One subset; work arrays sum_dist and update are cleared (106-107). *)
  Definition os_block (s a b : Z) (st : arr number * arr number * arr R * arr number) : arr number * arr number * arr R * arr number :=
    let '(recon, simdata, sum_dist, update) := st in
    let '(simdata, sum_dist, update) :=
      os_rays s recon a b (simdata, memset0 0 (npix g) sum_dist, memset0 (Some 0) (npix g) update) in
    (os_correct s sum_dist update recon, simdata, sum_dist, update).
  (** The subset loop (98-181) without the assertion. *)
  Definition subset_len (os : Z) : Z := (dt g / num_block + (if os <? dt g mod num_block then 1 else 0))%Z.
  Definition os_slice (s : Z) (st : arr number * arr number * arr R * arr number) : arr number * arr number * arr R * arr number :=
    snd (for_ num_block (fun os '(subset_end, st) =>
           let subset_start := subset_end in
           let subset_end := (subset_start + subset_len os)%Z in
           (subset_end, os_block s subset_start subset_end st)) (0%Z, st)).
  Definition os_iter (st : arr number * arr number * arr R * arr number) : arr number * arr number * arr R * arr number :=
    let '(recon, simdata, sum_dist, update) := st in
    for_ (dy g) os_slice (recon, memset0 (Some 0) (dy g * dt g * dx g) simdata, sum_dist, update).
  Definition os_solve (num_iter : Z) (recon simdata : arr number) (sum_dist : arr R) (update : arr number) : arr number :=
    if empty g then recon
    else fst (fst (fst (for_ num_iter (fun _ => os_iter) (recon, simdata, sum_dist, update)))).
  (** Values of subset_end tested by assert(subset_end < dt) (bart.c 103, osem.c 104). *)
  Definition subset_ends : list Z :=
    map (fun k => fold_right Z.add 0%Z (map subset_len (zrange 0 (k + 1)))) (zrange 0 num_block).
End OrderedSubsets.
Definition bart g := os_solve g bart_rule.
Definition osem g := os_solve g osem_rule.
(** sirt and mlem without acceleration: one block, ind_block = arange(1) (extern/recon.py 274-290, 439-455). *)
Definition sirt g data := bart g data 1 (fun q => q).
Definition mlem g data := osem g data 1 (fun q => q).
