(** libtomo/recon/grad.c, tikh.c and tv.c over exact reals.  A division by zero gives [None], as in Model_Solver.
    sum_dist is computed but never read and is left out; prox1 of grad.c and tikh.c is read only where it has just
    been written and is a local. *)
From Verif Require Import Base CLoop Model_Prep Model_Ray Model_Solver.
From Coq Require Import Reals.
Local Open Scope R_scope.

(** for(n = 0; n < csize - 1; n++) a[ind_recon + indi[n]] += k * dist[n]; *)
Definition n_add_at (segs : list (Z * R)) (ind_recon : Z) (k : number) (a : arr number) : arr number :=
  fold_left (fun a '(i, w) => aset a (ind_recon + i)%Z (nadd (a (ind_recon + i)%Z) (nmul k (Some w)))) segs a.
(** for(iy = 0; iy < ny; iy++) for(ix = 0; ix < nx; ix++) with the index iy * ngridx + ix *)
Definition for_grid {S} (stride ny nx : Z) (body : Z -> S -> S) (s : S) : S :=
  for_ ny (fun iy => for_ nx (fun ix => body (iy * stride + ix)%Z)) s.
(** r (grad.c 94, tv.c 100) *)
Definition scale_r (g : geom) : R := 1 / sqrt (IZR (dx g * dt g) / 2).
(** "scale initial guess" (grad.c 96-103, tv.c 102-109) and "scale result" (grad.c 233-240, tv.c 260-267) *)
Definition scale_in (g : geom) (recon : arr number) : arr number :=
  for_ (dy g) (fun s => for_grid (ngridx g) (ngridy g) (ngridx g) (fun k m =>
    aset m (s * npix g + k)%Z (ndiv (m (s * npix g + k)%Z) (Some (scale_r g))))) recon.
Definition scale_out (g : geom) (recon : arr number) : arr number :=
  for_ (dy g) (fun s => for_grid (ngridx g) (ngridy g) (ngridx g) (fun k m =>
    aset m (s * npix g + k)%Z (nmul (m (s * npix g + k)%Z) (Some (scale_r g))))) recon.

Section Grad.
  Variable g : geom.
  Variable data : arr R.
  (** reg_pars[0]; tikh.c: reg_pars[1] and reg_data.  grad.c is the case [None]. *)
  Variable reg0 : R.
  Variable prior : option (R * arr R).
  Let N := npix g.
  Let r := scale_r g.

  (** One ray (grad.c 142-184): simdata, grad *)
  Definition gd_ray (recon : arr number) (s p d : Z) (st : arr number * arr number) : arr number * arr number :=
    let '(simdata, grad) := st in
    let segs := rays g s p d in
    let simdata := n_simdata segs (s * N) (ind_data g s p d) recon simdata in
    let prox1 := nsub (nmul (simdata (ind_data g s p d)) (Some r)) (Some (data (ind_data g s p d))) in
    (simdata, if Req_EM_T (sum_dist2 segs) 0 then grad else n_add_at segs (s * N) (nmul (Some (2 * r)) prox1) grad).
  (** grad.c 112-186: simdata and grad are cleared *)
  Definition gd_gradient (recon : arr number) (st : arr number * arr number) : arr number * arr number :=
    for_ (dy g) (fun s => for_ (dt g) (fun p => for_ (dx g) (fun d => gd_ray recon s p d)))
      (memset0 (Some 0) (dy g * dt g * dx g) (fst st), memset0 (Some 0) (dy g * N) (snd st)).
  (** tikh.c 188-195 *)
  Definition add_prior (recon grad : arr number) : arr number :=
    match prior with
    | None => grad
    | Some (reg1, reg_data) => for_ (dy g) (fun s => for_grid (ngridx g) (ngridy g) (ngridx g) (fun k m =>
        aset m (s * N + k)%Z (nadd (m (s * N + k)%Z) (nmul (Some (2 * reg1)) (nsub (recon (s * N + k)%Z) (Some (reg_data (s * N + k)%Z))))))) grad
    end.
  (** lambda[s] (grad.c 188-218); 1e-3 is exact *)
  Definition gd_lambda (i : Z) (recon recon0 grad grad0 : arr number) (s : Z) : number :=
    if rltb reg0 0 then
      if (i =? 0)%Z then Some (1 / 1000) else
      let '(lambda, upd) := for_grid (ngridx g) (ngridy g) (ngridx g) (fun k '(lambda, upd) =>
        let dg := nsub (grad (s * N + k)%Z) (grad0 (s * N + k)%Z) in
        (nadd lambda (nmul (nsub (recon (s * N + k)%Z) (recon0 (s * N + k)%Z)) dg), nadd upd (nmul dg dg))) (Some 0, Some 0) in
      ndiv lambda upd
    else Some reg0.
  (** grad.c 222-230 *)
  Definition gd_update (lambda : Z -> number) (grad recon : arr number) : arr number :=
    for_ (dy g) (fun s => for_grid (ngridx g) (ngridy g) (ngridx g) (fun k m =>
      aset m (s * N + k)%Z (nsub (m (s * N + k)%Z) (nmul (lambda s) (grad (s * N + k)%Z))))) recon.
  (** One iteration (111-231, saving the previous one at 220-221); the state is recon, recon0, grad0, and the work arrays simdata and grad. *)
  Definition gd_state : Type := arr number * arr number * arr number * arr number * arr number.
  Definition gd_iter (i : Z) (st : gd_state) : gd_state :=
    let '(recon, recon0, grad0, simdata, grad) := st in
    let '(simdata, grad) := gd_gradient recon (simdata, grad) in
    let grad := add_prior recon grad in
    let lambda := gd_lambda i recon recon0 grad grad0 in
    (gd_update lambda grad recon, recon, grad, simdata, grad).
  (** grad.c 50-259: the work arrays hold anything; grad0 is cleared, recon0 is a copy of recon (105-107) *)
  Definition gd_solve (num_iter : Z) (recon simdata grad grad0 : arr number) : arr number :=
    if empty g then recon else
    let recon := scale_in g recon in
    let '(recon, _, _, _, _) := for_ num_iter gd_iter (recon, recon, memset0 (Some 0) (dy g * N) grad0, simdata, grad) in
    scale_out g recon.
End Grad.
Definition grad g data reg0 := gd_solve g data reg0 None.
Definition tikh g data reg0 reg1 reg_data := gd_solve g data reg0 (Some (reg1, reg_data)).

(** ** tv.c *)
Section Tv.
  Variable g : geom.
  Variable data : arr R.
  Variable lambda : R.                                                                          (* reg_pars[0] *)
  Let N := npix g.
  Let r := scale_r g.
  Definition tv_c : R := 35 / 100.                                                              (* 99 *)
  (** prox0 += c * grad(recon) (128-139) *)
  Definition tv_ascend (s : Z) (recon : arr number) (st : arr number * arr number) : arr number * arr number :=
    for_grid (ngridx g) (ngridy g - 1) (ngridx g - 1) (fun k '(px, py) =>
      let i := (s * N + k)%Z in
      (aset px i (nadd (px i) (nmul (Some tv_c) (nsub (recon (i + 1)%Z) (recon i)))),
       aset py i (nadd (py i) (nmul (Some tv_c) (nsub (recon (i + ngridx g)%Z) (recon i)))))) st.
  (** upd (143-148) *)
  Definition tv_norm (x y : number) : number :=
    match x, y with
    | Some x, Some y => match ndiv (Some (sqrt (x * x + y * y))) (Some lambda) with
                        | Some u => Some (if rltb u 1 then 1 else u)
                        | None => None
                        end
    | _, _ => None
    end.
  (** prox0 = prox0 / max(1, |prox0| / lambda) (129, 140-151) *)
  Definition tv_shrink (s : Z) (st : arr number * arr number) : arr number * arr number :=
    for_grid (ngridx g) (ngridy g - 1) (ngridx g - 1) (fun k '(px, py) =>
      let i := (s * N + k)%Z in let upd := tv_norm (px i) (py i) in
      (aset px i (ndiv (px i) upd), aset py i (ndiv (py i) upd))) st.
  (** One ray (176-219): simdata, prox1, adjdata *)
  Definition tv_ray (recon : arr number) (s p d : Z) (st : arr number * arr number * arr number) : arr number * arr number * arr number :=
    let '(simdata, prox1, adjdata) := st in
    let segs := rays g s p d in let i := ind_data g s p d in
    let simdata := n_simdata segs (s * N) i recon simdata in
    let prox1 := aset prox1 i (ndiv (nsub (nadd (prox1 i) (nmul (nmul (Some tv_c) (simdata i)) (Some r))) (Some (tv_c * data i))) (Some (1 + tv_c))) in
    (simdata, prox1, if Req_EM_T (sum_dist2 segs) 0 then adjdata else n_add_at segs (s * N) (nmul (Some r) (prox1 i)) adjdata).
  (** memcpy of slice s (223-225) *)
  Definition copy_slice (s : Z) (from to : arr number) : arr number :=
    fun i => if ((s * N <=? i) && (i <? s * N + N))%Z then from i else to i.
  (** update (227-248) *)
  Definition tv_descend (s : Z) (adjdata px py update : arr number) : arr number :=
    for_ (ngridy g) (fun iy => for_ (ngridx g) (fun ix u =>
      let i := (s * N + (iy * ngridx g + ix))%Z in
      let u := aset u i (nsub (u i) (nmul (Some tv_c) (adjdata i))) in
      let u := if (ix =? 0)%Z then aset u i (nadd (u i) (nmul (Some tv_c) (px i)))
               else aset u i (nadd (u i) (nmul (Some tv_c) (nsub (px i) (px (i - 1)%Z)))) in
      if (iy =? 0)%Z then aset u i (nadd (u i) (nmul (Some tv_c) (py i)))
      else aset u i (nadd (u i) (nmul (Some tv_c) (nsub (py i) (py (i - ngridx g)%Z)))))) update.
  (** recon = 2 * update - recon (250-256) *)
  Definition tv_extrapolate (s : Z) (update recon : arr number) : arr number :=
    for_grid (ngridx g) (ngridy g) (ngridx g) (fun k m =>
      aset m (s * N + k)%Z (nsub (nmul (Some 2) (update (s * N + k)%Z)) (m (s * N + k)%Z))) recon.
  (** recon, update, prox0x, prox0y, prox1, simdata, adjdata *)
  Definition tv_state : Type := arr number * arr number * arr number * arr number * arr number * arr number * arr number.
  (** One slice (124-257) *)
  Definition tv_slice (s : Z) (st : tv_state) : tv_state :=
    let '(recon, update, px, py, prox1, simdata, adjdata) := st in
    let '(px, py) := tv_ascend s recon (px, py) in
    let '(px, py) := tv_shrink s (px, py) in
    let '(simdata, prox1, adjdata) := for_ (dt g) (fun p => for_ (dx g) (fun d => tv_ray recon s p d)) (simdata, prox1, adjdata) in
    let recon := copy_slice s update recon in
    let update := tv_descend s adjdata px py update in
    let recon := tv_extrapolate s update recon in
    (recon, update, px, py, prox1, simdata, adjdata).
  (** One iteration (117-258): simdata and adjdata are cleared *)
  Definition tv_iter (st : tv_state) : tv_state :=
    let '(recon, update, px, py, prox1, simdata, adjdata) := st in
    for_ (dy g) tv_slice (recon, update, px, py, prox1, memset0 (Some 0) (dy g * dt g * dx g) simdata, memset0 (Some 0) (dy g * N) adjdata).
  (** 111-114: update is a copy of recon, the dual variables are cleared *)
  Definition tv_init (recon px py prox1 simdata adjdata : arr number) : tv_state :=
    (recon, recon, memset0 (Some 0) (dy g * N) px, memset0 (Some 0) (dy g * N) py, memset0 (Some 0) (dy g * dt g * dx g) prox1, simdata, adjdata).
  Definition tv (num_iter : Z) (recon px py prox1 simdata adjdata : arr number) : arr number :=
    if empty g then recon else
    let '(recon, _, _, _, _, _, _) := for_ num_iter (fun _ => tv_iter) (tv_init (scale_in g recon) px py prox1 simdata adjdata) in
    scale_out g recon.
End Tv.
