(** Model of the accelerated solvers of libtomo/accel: mlem.cc and sirt.cc of accel/cxx with what they use of
    utils.hh, data.hh and common.hh.  Only the OpenCV (CPU) path is modelled.

    Numbers are exact reals, so every value is finite and the tests std::isfinite(upd) (mlem.cc 161, sirt.cc 162),
    update == update (mlem.cc 226) and std::isfinite(update) (sirt.cc 227) hold and are left out.  Arrays are functions
    of the index.  cv::warpAffine is modelled for nearest neighbour and linear interpolation by the real coordinates
    of the inverse map (OpenCV rounds them to a fixed point grid first); cubic interpolation is a parameter. *)
From Coq Require Import Reals Lra.
From Verif Require Import Base CLoop Model_Ray.
Local Open Scope R_scope.

(** ** Rotation of a slice (utils.hh 173-198) *)

(** The three modes of GetOpenCVInterpolationMode (utils.hh 161-169). *)
Inductive interp : Type := Nn | Linear | Cubic.

(** Coordinate of the rotation centre along an axis of length [n]: cv::Point holds ints, the double computed in
    utils.hh 178-180 is truncated. *)
Definition rot_center (n : Z) : Z := trunc (IZR n / 2 + (if Z.even n then 1 / 2 else 0)).

Section Warp.
  Variables nx ny : Z.

  (** Position in the source of the pixel in column [x] and row [y] of the destination: the inverse of
      cv::getRotationMatrix2D (utils.hh 181-182); a slice is a matrix of nx rows and ny columns (utils.hh 193). *)
  Definition src_x (theta : R) (x y : Z) : R :=
    cos theta * IZR (x - rot_center ny) - sin theta * IZR (y - rot_center nx) + IZR (rot_center ny).
  Definition src_y (theta : R) (x y : Z) : R :=
    sin theta * IZR (x - rot_center ny) + cos theta * IZR (y - rot_center nx) + IZR (rot_center nx).

  (** A source pixel; cv::warpAffine uses zero outside of the image. *)
  Definition fetch {A} (zero : A) (src : arr A) (x y : Z) : A :=
    if ((0 <=? x) && (x <? ny) && (0 <=? y) && (y <? nx))%Z then src (y * ny + x)%Z else zero.

  (** cv::INTER_NEAREST *)
  Definition nearest (v : R) : Z := Int_part (v + 1 / 2).
  Definition warp_nn {A} (zero : A) (theta : R) (src : arr A) : arr A :=
    fun k => fetch zero src (nearest (src_x theta (k mod ny)%Z (k / ny)%Z)) (nearest (src_y theta (k mod ny)%Z (k / ny)%Z)).

  (** cv::INTER_LINEAR *)
  Definition frac (v : R) : R := v - IZR (Int_part v).
  Definition bilinear (src : arr R) (u v : R) : R :=
    let x := Int_part u in let y := Int_part v in
    (1 - frac v) * ((1 - frac u) * fetch 0 src x y + frac u * fetch 0 src (x + 1)%Z y) +
    frac v * ((1 - frac u) * fetch 0 src x (y + 1)%Z + frac u * fetch 0 src (x + 1)%Z (y + 1)%Z).
  Definition warp_linear (theta : R) (src : arr R) : arr R :=
    fun k => bilinear src (src_x theta (k mod ny)%Z (k / ny)%Z) (src_y theta (k mod ny)%Z (k / ny)%Z).

  (** cxx_rotate_ip on floats (utils.hh 188-198) *)
  Variable cubic : R -> arr R -> arr R.
  Definition rotate (m : interp) (theta : R) (src : arr R) : arr R :=
    match m with
    | Nn => warp_nn 0 theta src
    | Linear => warp_linear theta src
    | Cubic => cubic theta src
    end.
End Warp.

(** ** The solvers *)
Section Solver.
  Variables dy dt dx nx ny : Z.
  Variable theta : arr R.
  Variable rot_op : R -> arr R -> arr R.      (* cxx_rotate_ip with the selected interpolation *)
  Variable change : R -> R -> R.              (* upd from data and sum: data / sum (mlem.cc 160), data - sum (sirt.cc 161) *)
  Variable apply : R -> R -> R.               (* recon and the scaled update: *= (mlem.cc 227), += (sirt.cc 228) *)

  (** mlem.cc 136, sirt.cc 137, utils.hh 239 *)
  Definition theta_p (p : Z) : R := fmod (theta p + PI / 2) (2 * PI).

  (** cxx_compute_sum_dist (utils.hh 214-245) *)
  Definition count_pass (ones : arr Z) (sum_dist : arr Z) : arr Z :=
    for_ dy (fun s sum_dist =>
      for_ dx (fun d sum_dist =>
        for_ nx (fun n sum_dist =>
          aset sum_dist (s * nx * ny + d * nx + n)%Z
            (sum_dist (s * nx * ny + d * nx + n) + (if 0 <? ones (d * nx + n) then 1 else 0))%Z)
        sum_dist) sum_dist) sum_dist.
  Definition compute_sum_dist : arr Z :=
    for_ dt (fun p sum_dist => count_pass (warp_nn nx ny 0%Z (- theta_p p) (fun _ => 1%Z)) sum_dist) (fun _ => 0%Z).

  (** One ray: mlem.cc 155-166, sirt.cc 156-167. *)
  Definition row_sum (rot : arr R) (d : Z) : R := for_ nx (fun i sum => sum + rot (d * nx + i)%Z) 0.
  Definition ray_step (data : arr R) (p d : Z) (rot : arr R) : arr R :=
    let sum := row_sum rot d in
    if Req_EM_T sum 0 then rot
    else let upd := change (data (p * dx + d)%Z) sum in
         for_ nx (fun i rot => aset rot (d * nx + i)%Z (rot (d * nx + i)%Z + upd)) rot.

  (** mlem_cpu_compute_projection (mlem.cc 128-187, sirt.cc 129-188) up to the lock: the task of projection [p]
      returns its tmp_update.  [data] and [recon] are the whole volumes. *)
  Definition slice_task (data recon : arr R) (p s : Z) : arr R :=
    let rot := rot_op (- theta_p p) (fun k => recon (s * nx * ny + k)%Z) in                     (* 150 *)
    let rot := for_ dx (ray_step (fun k => data (s * dt * dx + k)%Z) p) rot in                  (* 153-167 *)
    rot_op (theta_p p) rot.                                                                     (* 170 *)
  Definition projection_task (data recon : arr R) (p : Z) : arr R :=
    for_ dy (fun s tmp_update =>
      let tmp := slice_task data recon p s in
      for_ (nx * ny) (fun i tmp_update => aset tmp_update (s * nx * ny + i)%Z (tmp_update (s * nx * ny + i)%Z + tmp i)) tmp_update)
    (fun _ => 0).

  (** The locked part (mlem.cc 177-186, sirt.cc 178-187). *)
  Definition commit (tmp_update update : arr R) : arr R :=
    for_ dy (fun s update =>
      for_ (nx * ny) (fun i update => aset update (s * nx * ny + i)%Z (update (s * nx * ny + i)%Z + tmp_update (s * nx * ny + i)%Z)) update)
    update.

  (** One iteration (mlem.cc 208-235, sirt.cc 209-236).  [order] is the order in which the tasks of the thread pool
      take the lock (data.hh 186-216); recon is not written while the tasks run. *)
  Definition iteration (data : arr R) (order : list Z) (recon : arr R) : arr R :=
    let update := fold_left (fun update p => commit (projection_task data recon p) update) order (fun _ => 0) in
    for_ (dy * nx * ny) (fun ii recon =>
      if ((compute_sum_dist ii =? 0) || (dx =? 0))%Z then recon
      else aset recon ii (apply (recon ii) (update ii / IZR (compute_sum_dist ii) / IZR dx))) recon.

  (** num_iter iterations, each with its own order *)
  Definition solve (data : arr R) (num_iter : Z) (orders : Z -> list Z) (recon : arr R) : arr R :=
    for_ num_iter (fun i recon => iteration data (orders i) recon) recon.
End Solver.

(** mlem_cpu (mlem.cc 191-238) and sirt_cpu (sirt.cc 192-239); the center argument has no name there and is not used. *)
Definition mlem_cpu (cubic : R -> arr R -> arr R) (data : arr R) (dy dt dx : Z) (center theta : arr R) (recon : arr R)
    (nx ny num_iter : Z) (m : interp) (orders : Z -> list Z) : arr R :=
  solve dy dt dx nx ny theta (rotate nx ny cubic m) Rdiv Rmult data num_iter orders recon.
Definition sirt_cpu (cubic : R -> arr R -> arr R) (data : arr R) (dy dt dx : Z) (center theta : arr R) (recon : arr R)
    (nx ny num_iter : Z) (m : interp) (orders : Z -> list Z) : arr R :=
  solve dy dt dx nx ny theta (rotate nx ny cubic m) Rminus Rplus data num_iter orders recon.

(** ** Threads sharing the buffers (data.hh 186-216, 247-310; mlem.cc 133-187)

    cpu_data holds pool_size caches, each with a buffer rot (and tmp); a task uses the cache of number
    GetThisThreadID() % pool_size.  The steps of a task on a slice are: rotate into the buffer and work on it, then
    add the back rotated buffer to its own tmp_update; at the end the tmp_update is committed under the lock.  A
    schedule is any list of such steps. *)
Section Threads.
  Variable img : Type.                        (* contents of a buffer *)
  Variable tasks_buf : Z -> Z -> img.         (* p s: what task p puts into the buffer for slice s *)

  Inductive tstep : Type :=
  | Fill (p s : Z)       (* mlem.cc 147-167 *)
  | Take (p s : Z)       (* mlem.cc 170-174 *)
  | Commit (p : Z).      (* mlem.cc 177-186 *)

  (** A task is complete when its buffers of all slices are committed: [loc p] is the list of buffer contents task p has
      taken so far, [done] the list of what has been committed. *)
  Record tstate : Type := { cache : Z -> option img; loc : Z -> list (option img); committed : list (Z * list (option img)) }.

  Variable cache_of : Z -> Z.                 (* number of the cache a task uses: thread id modulo pool size *)

  Definition tstep_run (st : tstate) (e : tstep) : tstate :=
    match e with
    | Fill p s => {| cache := aset (cache st) (cache_of p) (Some (tasks_buf p s)); loc := loc st; committed := committed st |}
    | Take p s => {| cache := cache st; loc := aset (loc st) p (loc st p ++ [cache st (cache_of p)]); committed := committed st |}
    | Commit p => {| cache := cache st; loc := loc st; committed := committed st ++ [(p, loc st p)] |}
    end.

  Definition threads_run (es : list tstep) : list (Z * list (option img)) :=
    committed (fold_left tstep_run es {| cache := fun _ => None; loc := fun _ => []; committed := [] |}).

  (** The steps of task [p] in program order (mlem.cc 139-186). *)
  Definition task_steps (dy p : Z) : list tstep :=
    flat_map (fun s => [Fill p s; Take p s]) (zrange 0 dy) ++ [Commit p].
End Threads.
