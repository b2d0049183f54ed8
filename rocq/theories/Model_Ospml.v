(** libtomo/recon/ospml_quad.c and ospml_hybrid.c over exact reals; line numbers of ospml_hybrid.c
    (ospml_quad.c is the same text without gammag).  A division by zero or the root of a negative number
    gives [None], as in Model_Solver. *)
From Verif Require Import Base CLoop Model_Prep Model_Ray Model_Solver.
From Coq Require Import Reals.
Local Open Scope R_scope.

(** gammag[q] for recon[ind1] and recon[indg[q]]: absent in ospml_quad.c; ospml_hybrid.c 204-206 and
    the eight copies of these lines. *)
Definition nabs (a : number) : number := match a with Some x => Some (Rabs x) | None => None end.
Definition quad_gamma (x y : number) : number := Some 1.
Definition hybrid_gamma (delta : R) (x y : number) : number :=
  ndiv (Some 1) (nadd (Some 1) (nabs (ndiv (nsub x y) (Some delta)))).

(** (-G + sqrt(G * G - 8 * E * F)) / (4 * F) (398-399) for F <> 0. *)
Definition nroot (e f gg : number) : number :=
  match e, f, gg with
  | Some e, Some f, Some gg =>
      let disc := gg * gg - 8 * e * f in
      if rltb disc 0 then None else Some ((- gg + sqrt disc) / (4 * f))
  | _, _, _ => None
  end.

(** Neighbour lists (offset, weight) of the regions. *)
Definition w_inner : R := 4 + 4 / sqrt 2.                                                   (* 175 *)
Definition w_edge : R := 3 + 2 / sqrt 2.                                                    (* 214 *)
Definition w_corner : R := 2 + 1 / sqrt 2.                                                  (* 310 *)
Definition weigh (total : R) (near diag : list Z) : list (Z * R) :=
  map (fun o => (o, 1 / total)) near ++ map (fun o => (o, 1 / sqrt 2 / total)) diag.
Definition visits (gx gy : Z) : list (Z * list (Z * R)) :=
  (flat_map (fun n => map (fun m => (m + n * gy, weigh w_inner [1; -1; gy; -gy] [gy + 1; gy - 1; -gy + 1; -gy - 1]))
     (zrange 1 (gy - 1))) (zrange 1 (gx - 1))                                               (* inner, 186-211 *)
  ++ map (fun m => (m, weigh w_edge [1; -1; gy] [gy + 1; gy - 1])) (zrange 1 (gy - 1))       (* top, 222-241 *)
  ++ map (fun m => (m + (gx - 1) * gy, weigh w_edge [1; -1; -gy] [-gy + 1; -gy - 1])) (zrange 1 (gy - 1))   (* bottom, 244-263 *)
  ++ map (fun n => (n * gy, weigh w_edge [1; gy; -gy] [gy + 1; -gy + 1])) (zrange 1 (gx - 1))               (* left, 266-285 *)
  ++ map (fun n => (gy - 1 + n * gy, weigh w_edge [-1; gy; -gy] [gy - 1; -gy - 1])) (zrange 1 (gx - 1))     (* right, 288-307 *)
  ++ [(0, weigh w_corner [1; gy] [gy + 1]);                                                 (* 315-330 *)
      (gy - 1, weigh w_corner [-1; gy] [gy - 1]);                                           (* 332-347 *)
      ((gx - 1) * gy, weigh w_corner [1; -gy] [-gy + 1]);                                   (* 349-364 *)
      (gy - 1 + (gx - 1) * gy, weigh w_corner [-1; -gy] [-gy - 1])])%Z.                     (* 366-381 *)

Section Ospml.
  Variable gam : number -> number -> number.
  Variable beta : R.                                                                        (* reg_pars[0] *)
  Variable g : geom.
  Variable data : arr R.
  Variable num_block : Z.
  Variable ind_block : arr Z.
  Let N := npix g.

  (** 202-209 for one pixel: F[ind0] += ..., G[ind0] -= ... *)
  Definition pen_px (s : Z) (recon : arr number) (ind0 : Z) (nb : list (Z * R)) (st : arr number * arr number) : arr number * arr number :=
    let x := recon (ind0 + s * N)%Z in
    fold_left (fun '(F, G) '(o, w) =>
      let y := recon (ind0 + s * N + o)%Z in
      let k := nmul (Some (2 * beta * w)) (gam x y) in
      (aset F ind0 (nadd (F ind0) k), aset G ind0 (nsub (G ind0) (nmul k (nadd x y))))) nb st.
  Definition penalty (s : Z) (recon : arr number) (st : arr number * arr number) : arr number * arr number :=
    fold_left (fun st '(ind0, nb) => pen_px s recon ind0 nb st) (visits (ngridx g) (ngridy g)) st.

  (** One ray (112-171); state simdata, sum_dist, E. *)
  Definition pml_ray (s : Z) (recon : arr number) (p d : Z) (st : arr number * arr R * arr number) : arr number * arr R * arr number :=
    let '(simdata, sum_dist, E) := st in
    let segs := rays g s p d in
    let simdata := n_simdata segs (s * N) (ind_data g s p d) recon simdata in               (* 148-150 *)
    let sum_dist := add_dist segs sum_dist in                                               (* 153-158 *)
    let E :=                                                                                (* 161-170 *)
      if Req_EM_T (sum_dist2 segs) 0 then E
      else let upd := ndiv (Some (data (ind_data g s p d))) (simdata (ind_data g s p d)) in
           fold_left (fun E '(i, w) => aset E i (nsub (E i) (nmul (nmul (recon (i + s * N)%Z) upd) (Some w)))) segs E in
    (simdata, sum_dist, E).
  (** One ordered subset (104-402); calloc'ed work arrays are zero. *)
  Definition nzero : arr number := fun _ => Some 0.
  Definition pml_block (s a b : Z) (st : arr number * arr number) : arr number * arr number :=
    let '(recon, simdata) := st in
    let '(simdata, sum_dist, E) :=
      for_range a b (fun q => for_ (dx g) (fun d => pml_ray s recon (pick num_block ind_block q) d))
        (simdata, (fun _ => 0), nzero) in
    let '(F, G) := penalty s recon (nzero, nzero) in                                        (* 174-381 *)
    let G := for_ N (fun n G => aset G n (nadd (G n) (Some (sum_dist n)))) G in             (* 383-388 *)
    let recon :=                                                                            (* 390-402 *)
      for_ (ngridx g) (fun n => for_ (ngridy g) (fun m r =>
        let q := (m + n * ngridy g)%Z in
        match F q with
        | Some f => if Req_EM_T f 0 then r else aset r (q + s * N)%Z (nroot (E q) (F q) (G q))
        | None => aset r (q + s * N)%Z None
        end)) recon in
    (recon, simdata).
  Definition pml_slice (s : Z) (st : arr number * arr number) : arr number * arr number :=  (* 93-408 *)
    snd (for_ num_block (fun os '(subset_end, st) =>
           let subset_start := subset_end in
           let subset_end := (subset_start + subset_len g num_block os)%Z in
           (subset_end, pml_block s subset_start subset_end st)) (0%Z, st)).
  Definition pml_iter (recon : arr number) : arr number := fst (for_ (dy g) pml_slice (recon, nzero)).
  Definition ospml (num_iter : Z) (recon : arr number) : arr number :=
    if empty g then recon else for_ num_iter (fun _ => pml_iter) recon.
End Ospml.
Definition ospml_quad beta := ospml quad_gamma beta.
Definition ospml_hybrid beta delta := ospml (hybrid_gamma delta) beta.
(** pml_quad, pml_hybrid: one block (extern/recon.py 377-378, 406-407). *)
Definition pml_quad beta g data := ospml_quad beta g data 1 (fun q => q).
Definition pml_hybrid beta delta g data := ospml_hybrid beta delta g data 1 (fun q => q).
