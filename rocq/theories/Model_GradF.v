(** libtomo/recon/grad.c, tikh.c and tv.c in machine arithmetic, as in Model_SolverF.v.  Line numbers of grad.c unless
    another file is named; the text of tikh.c is that of grad.c up to the loop over reg_data.  Arrays that are
    overwritten as a whole by memset or memcpy before they are read start as [calloc] or as the copied array.  lambda[s] is
    a local while it is summed up.  A multiplication followed by an addition is rounded twice. *)
From Verif Require Import Base CLoop Model_Ray Model_RayF Model_SolverF Model_PmlF.
From Flocq Require Import Core BinarySingleNaN.
Local Open Scope Z_scope.

(** x < y for floats and doubles *)
Definition fltb (x y : b32) : bool := Bltb x y.
Definition dltb (x y : b64) : bool := Bltb x y.
(** 1 / sqrt(dx * dt / 2.0), rounded to float (94; tv.c 100) *)
Definition step_r (n : Z) : b32 := to32 (ddiv (of_int64 1) (dsqrt (ddiv (of_int64 n) (of_int64 2)))).

Section Grad.
  Variables (fmodf sinf cosf : b32 -> b32) (junk : arr pointF * arr pointF * arr pointF).
  Variable g : geomF.
  Variable data : arr b32.

  (** for iy < ngridy, for ix < ngridx: index ind_recon + iy * ngridx + ix *)
  Definition pixelsF {St} (s : Z) (f : Z -> St -> option St) (st : St) : option St :=
    let? base := cint (s * gxF g * gyF g) in
    ofor 0 (gyF g) (fun iy => ofor 0 (gxF g) (fun ix st => let? q := cint (base + iy * gxF g + ix) in f q st)) st.
  (** recon /= r and recon *= r (97-103, 234-240) *)
  Definition scaleF (op : b32 -> b32) (s : Z) (recon : arr b32) : option (arr b32) :=
    pixelsF s (fun q a => let? x := load (nrec g) a q in store (nrec g) a q (op x)) recon.

  (** One ray (143-184; tv.c 172-220).  [res]: prox1 from its old value, simdata and data; [back]: what is added to the
      back projection for prox1 and a length. *)
  Section Ray.
    Variables (res : b32 -> b32 -> b32 -> b32) (back : b32 -> b32 -> b32).
    Definition stateR : Type := arr b32 * arr b32 * arr b32 * arr b32.                      (* simdata, prox1, sum_dist, grad *)
    Definition radon_rayF (s : Z) (center : b32) (recon : arr b32) (p d : Z) (st : stateR) : option stateR :=
      let '(simdata, prox1, sum_dist, grad) := st in
      let? segs := segsF fmodf sinf cosf junk g center p d in
      let? simdata := simdataF g segs s p d recon simdata in
      let? k := ind_dataF g s p d in
      let? o := load (ndata g) prox1 k in
      let? v := load (ndata g) simdata k in
      let? b := load (ndata g) data k in
      let? prox1 := store (ndata g) prox1 k (res o v b) in
      let? sum_dist := ofold (fun '(i, w) a => let? v := load (npixF g) a i in store (npixF g) a i (fadd v w)) segs sum_dist in
      if nez (sum_sq segs) then
        let? ind_recon := cint (s * gxF g * gyF g) in
        let? grad := ofold (fun '(i, w) a =>
          let? v := load (nrec g) a (i + ind_recon) in
          let? q := load (ndata g) prox1 k in
          store (nrec g) a (i + ind_recon) (fadd v (back q w))) segs grad in
        Some (simdata, prox1, sum_dist, grad)
      else Some (simdata, prox1, sum_dist, grad).
    (** All rays of a slice (117-187; tv.c 153-222) *)
    Definition radon_sliceF (recon : arr b32) (s : Z) (st : arr b32 * arr b32 * arr b32) : option (arr b32 * arr b32 * arr b32) :=
      let '(simdata, prox1, grad) := st in
      let? center := load (dyF g) (centerF g) s in
      let? r := ofor 0 (dtF g) (fun p => ofor 0 (dxF g) (radon_rayF s center recon p)) (simdata, prox1, calloc, grad) in
      let '(simdata, prox1, _, grad) := r in
      Some (simdata, prox1, grad).
  End Ray.

  (** ** grad.c and tikh.c *)
  Variables (nreg : Z) (reg : arr b32).                                                     (* reg_pars *)
  Variable prior : option (Z * arr b32).                                                    (* tikh.c: reg_data and its size *)
  Definition grad_res (r : b32) (_ v b : b32) : b32 := fsub (fmul v r) b.                   (* 170 *)
  Definition grad_back (r q w : b32) : b32 := fmul (fmul (fmul (of_int 2) r) q) w.          (* 182-183 *)
  (** tikh.c 188-195 *)
  Definition priorF (recon : arr b32) (s : Z) (grad : arr b32) : option (arr b32) :=
    match prior with
    | None => Some grad
    | Some (n, reg_data) => pixelsF s (fun q grad =>
        let? v := load (nrec g) grad q in
        let? alpha := load nreg reg 1 in
        let? x := load (nrec g) recon q in
        let? y := load n reg_data q in
        store (nrec g) grad q (fadd v (fmul (fmul (of_int 2) alpha) (fsub x y)))) grad
    end.
  (** 189-218 *)
  Definition first_step : b32 := to32 (ddiv (of_int64 1) (of_int64 1000)).                  (* 1e-3 *)
  Definition bb_stepF (recon recon0 grad grad0 : arr b32) (s : Z) : option b32 :=
    let? r := pixelsF s (fun q '(lam, upd) =>
      let? x := load (nrec g) recon q in
      let? x0 := load (nrec g) recon0 q in
      let? y := load (nrec g) grad q in
      let? y0 := load (nrec g) grad0 q in
      let dg := fsub y y0 in
      Some (fadd lam (fmul (fsub x x0) dg), dadd upd (to64 (fmul dg dg)))) (zeroF, of_int64 0) in
    Some (to32 (ddiv (to64 (fst r)) (snd r))).
  Definition stepF (i : Z) (recon recon0 grad grad0 : arr b32) (s : Z) (lambda : arr b32) : option (arr b32) :=
    let? p := load nreg reg 0 in
    let? v := if fltb p (of_int 0) then if i =? 0 then Some first_step else bb_stepF recon recon0 grad grad0 s else Some p in
    store (dyF g) lambda s v.
  (** 223-230 *)
  Definition descendF (lambda grad : arr b32) (s : Z) (recon : arr b32) : option (arr b32) :=
    pixelsF s (fun q a =>
      let? l := load (dyF g) lambda s in
      let? y := load (nrec g) grad q in
      let? x := load (nrec g) a q in
      store (nrec g) a q (fsub x (fmul l y))) recon.
  Definition stateG : Type := arr b32 * arr b32 * arr b32 * arr b32 * arr b32.              (* recon, recon0, grad0, prox1, lambda *)
  Definition grad_iterF (r : b32) (i : Z) (st : stateG) : option stateG :=
    let '(recon, recon0, grad0, prox1, lambda) := st in
    let? t := ofor 0 (dyF g) (radon_sliceF (grad_res r) (grad_back r) recon) (calloc, prox1, calloc) in
    let '(_, prox1, grad) := t in
    let? grad := ofor 0 (dyF g) (priorF recon) grad in
    let? lambda := ofor 0 (dyF g) (stepF i recon recon0 grad grad0) lambda in
    let? recon' := ofor 0 (dyF g) (descendF lambda grad) recon in
    Some (recon', recon, grad, prox1, lambda).
  Definition gradF (num_iter : Z) (lambda recon : arr b32) : option (arr b32) :=
    if emptyF g then Some recon else
    let? _ := cint (ndata g) in
    let? _ := cint (nrec g) in
    let? n := cint (dxF g * dtF g) in
    let r := step_r n in
    let? recon := ofor 0 (dyF g) (scaleF (fun x => fdiv x r)) recon in
    let? st := ofor 0 num_iter (grad_iterF r) (recon, recon, calloc, calloc, lambda) in
    let '(recon, _, _, _, _) := st in
    ofor 0 (dyF g) (scaleF (fun x => fmul x r)) recon.

  (** ** tv.c *)
  Definition tv_c : b32 := to32 (ddiv (of_int64 35) (of_int64 100)).                        (* c = 0.35, 99 *)
  Definition tv_res (r o v b : b32) : b32 :=                                                (* 203-205 *)
    fdiv (fsub (fadd o (fmul (fmul tv_c v) r)) (fmul tv_c b)) (fadd (of_int 1) tv_c).
  Definition tv_back (r q w : b32) : b32 := fmul (fmul r q) w.                              (* 219 *)
  (** for iy < ngridy - 1, for ix < ngridx - 1 *)
  Definition insideF {St} (s : Z) (f : Z -> St -> option St) (st : St) : option St :=
    let? base := cint (s * gxF g * gyF g) in
    ofor 0 (gyF g - 1) (fun iy => ofor 0 (gxF g - 1) (fun ix st => let? q := cint (base + iy * gxF g + ix) in f q st)) st.
  (** 130-139: prox0x, prox0y *)
  Definition tv_gradF (recon : arr b32) (s : Z) (st : arr b32 * arr b32) : option (arr b32 * arr b32) :=
    insideF s (fun q '(px, py) =>
      let? x := load (nrec g) recon q in
      let? xr := load (nrec g) recon (q + 1) in
      let? v := load (nrec g) px q in
      let? px := store (nrec g) px q (fadd v (fmul tv_c (fsub xr x))) in
      let? xd := load (nrec g) recon (q + gxF g) in
      let? v := load (nrec g) py q in
      let? py := store (nrec g) py q (fadd v (fmul tv_c (fsub xd x))) in
      Some (px, py)) st.
  (** 140-151 *)
  Definition shrink (lambda x y : b32) : b64 :=
    let upd := ddiv (dsqrt (to64 (fadd (fmul x x) (fmul y y)))) (to64 lambda) in
    if dltb upd (of_int64 1) then of_int64 1 else upd.
  Definition over (x : b32) (u : b64) : b32 := to32 (ddiv (to64 x) u).
  Definition tv_shrinkF (lambda : b32) (s : Z) (st : arr b32 * arr b32) : option (arr b32 * arr b32) :=
    insideF s (fun q '(px, py) =>
      let? x := load (nrec g) px q in
      let? y := load (nrec g) py q in
      let u := shrink lambda x y in
      let? px := store (nrec g) px q (over x u) in
      let? py := store (nrec g) py q (over y u) in
      Some (px, py)) st.
  (** 229-249 *)
  Definition tv_backF (px py adj : arr b32) (s : Z) (update : arr b32) : option (arr b32) :=
    let? base := cint (s * gxF g * gyF g) in
    ofor 0 (gyF g) (fun iy => ofor 0 (gxF g) (fun ix update =>
      let? q := cint (base + iy * gxF g + ix) in
      let? u := load (nrec g) update q in
      let? a := load (nrec g) adj q in
      let u := fsub u (fmul tv_c a) in
      let? x := load (nrec g) px q in
      let? u := if ix =? 0 then Some (fadd u (fmul tv_c x))
                else let? x' := load (nrec g) px (q - 1) in Some (fadd u (fmul tv_c (fsub x x'))) in
      let? y := load (nrec g) py q in
      let? u := if iy =? 0 then Some (fadd u (fmul tv_c y))
                else let? y' := load (nrec g) py (q - gxF g) in Some (fadd u (fmul tv_c (fsub y y'))) in
      store (nrec g) update q u)) update.
  (** 224-225 and 252-256: recon = update (before the step), recon = 2 * update - recon *)
  Definition copyF (src : arr b32) (s : Z) (dst : arr b32) : option (arr b32) :=
    let? base := cint (s * gxF g * gyF g) in
    ofor 0 (npixF g) (fun i a => let? v := load (nrec g) src (base + i) in store (nrec g) a (base + i) v) dst.
  Definition tv_overF (update : arr b32) (s : Z) (recon : arr b32) : option (arr b32) :=
    pixelsF s (fun q a =>
      let? u := load (nrec g) update q in
      let? x := load (nrec g) a q in
      store (nrec g) a q (fsub (fmul (of_int 2) u) x)) recon.
  Definition stateT : Type := arr b32 * arr b32 * arr b32 * arr b32 * arr b32 * arr b32 * arr b32.
    (* recon, update, prox0x, prox0y, prox1, simdata, adjdata *)
  Definition tv_sliceF (r lambda : b32) (s : Z) (st : stateT) : option stateT :=
    let '(recon, update, px, py, prox1, simdata, adj) := st in
    let? P := tv_gradF recon s (px, py) in
    let? P := tv_shrinkF lambda s P in
    let '(px, py) := P in
    let? t := radon_sliceF (tv_res r) (tv_back r) recon s (simdata, prox1, adj) in
    let '(simdata, prox1, adj) := t in
    let? recon := copyF update s recon in
    let? update := tv_backF px py adj s update in
    let? recon := tv_overF update s recon in
    Some (recon, update, px, py, prox1, simdata, adj).
  Definition tv_iterF (r lambda : b32) (st : arr b32 * arr b32 * arr b32 * arr b32 * arr b32) : option (arr b32 * arr b32 * arr b32 * arr b32 * arr b32) :=
    let '(recon, update, px, py, prox1) := st in
    let? t := ofor 0 (dyF g) (tv_sliceF r lambda) (recon, update, px, py, prox1, calloc, calloc) in
    let '(recon, update, px, py, prox1, _, _) := t in
    Some (recon, update, px, py, prox1).
  Definition tvF (num_iter : Z) (recon : arr b32) : option (arr b32) :=
    if emptyF g then Some recon else
    let? _ := cint (ndata g) in
    let? _ := cint (nrec g) in
    let? lambda := load nreg reg 0 in
    let? n := cint (dxF g * dtF g) in
    let r := step_r n in
    let? recon := ofor 0 (dyF g) (scaleF (fun x => fdiv x r)) recon in
    let? st := ofor 0 num_iter (fun _ => tv_iterF r lambda) (recon, recon, calloc, calloc, calloc) in
    let '(recon, _, _, _, _) := st in
    ofor 0 (dyF g) (scaleF (fun x => fmul x r)) recon.
End Grad.
