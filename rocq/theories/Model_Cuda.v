(** The CUDA path of the accelerated solvers (source/libtomo/accel/gpu/{mlem,sirt,utils}.cu, accel/{data,utils}.hh).

    Simplifications: float and int are exact (as in [Model_Accel]; no NaN, so the tests upd == upd and
    update[i] == update[i] are true); int does not overflow; one row of cuda_*_pixels_kernel, one cell of the update
    kernels and one atomicAdd are single steps; a kernel in a stream is a single step of the device (that its threads
    may run in any order, also interleaved with the atomicAdds of others, is shown separately); the NPP rotation is a
    parameter that writes some cells and leaves the others of its destination as they are; every call of CUDA
    succeeds; there is one device and one call of mlem_cuda or sirt_cuda at a time. *)
From Coq Require Import Reals.
From Verif Require Import Base CLoop Model_Accel.
Local Open Scope R_scope.

(** ** Grids *)

(** The indices visited by a thread: for(i = first; i < n; i += stride) (mlem.cu 73-76, 98-101, utils.hh 529-531). *)
Definition thread_indices (n stride first : Z) : list Z :=
  map (fun k => first + k * stride)%Z (zrange 0 ((n - first + stride - 1) / stride)).
(** All threads of a launch <<<grid, block>>>, block by block. *)
Definition launch (n grid block : Z) : list Z :=
  flat_map (fun b => flat_map (fun t => thread_indices n (block * grid) (b * block + t)) (zrange 0 block)) (zrange 0 grid).
(** GpuData::compute_grid (data.hh 392-395), ComputeGridSize (utils.hh 297-300); C division *)
Definition compute_grid (m_grid m_block size : Z) : Z :=
  if (m_grid <? 1)%Z then Z.quot (size + m_block - 1) m_block else m_grid.
Definition ComputeGridSize (size block_size : Z) : Z := Z.quot (size + block_size - 1) block_size.
(** The three nested loops of cuda_sum_dist_compute (utils.cu 81-99) for a thread of a three-dimensional grid, and all
    its threads. *)
Definition thread_cells (nx dx dy : Z) (stride first : Z * Z * Z) : list (Z * Z * Z) :=
  let '(nxstride, dxstride, dystride) := stride in let '(nx0, dx0, dy0) := first in
  flat_map (fun s => flat_map (fun d => map (fun n => (s, d, n)) (thread_indices nx nxstride nx0))
                              (thread_indices dx dxstride dx0)) (thread_indices dy dystride dy0).
Definition launch3 (nx dx dy : Z) (grid block : Z * Z * Z) : list (Z * Z * Z) :=
  let '(gx, gy, gz) := grid in let '(bx, by_, bz) := block in
  flat_map (fun iz => flat_map (fun iy => flat_map (fun ix =>
    thread_cells nx dx dy (bx * gx, by_ * gy, bz * gz)%Z (ix, iy, iz))
    (zrange 0 (gx * bx))) (zrange 0 (gy * by_))) (zrange 0 (gz * bz)).

(** ** Kernels.  [order] is the order in which the steps of the threads happen. *)

(** A row of cuda_mlem_pixels_kernel (mlem.cu 76-89) is [ray_step nx dx Rdiv]; a row of cuda_sirt_pixels_kernel
    (sirt.cu 76-84) has no test of the sum. *)
Definition sirt_row (nx dx : Z) (data : arr R) (p d : Z) (rot : arr R) : arr R :=
  let upd := data (p * dx + d)%Z - row_sum nx rot d in
  for_ nx (fun i rot => aset rot (d * nx + i)%Z (rot (d * nx + i)%Z + upd)) rot.
Definition mlem_row (nx dx : Z) (data : arr R) (p d : Z) (rot : arr R) : arr R := ray_step dx nx Rdiv data p d rot.
Definition pixels_kernel (row : Z -> arr R -> arr R) (order : list Z) (rot : arr R) : arr R :=
  fold_left (fun rot d => row d rot) order rot.

(** cuda_mlem_update_kernel (mlem.cu 94-106), cuda_sirt_update_kernel (sirt.cu 89-101) *)
Definition update_kernel (apply : R -> R -> R) (update : arr R) (sum_dist : arr Z) (dx : Z) (order : list Z) (recon : arr R) : arr R :=
  fold_left (fun recon i =>
    if (negb (sum_dist i =? 0) && negb (dx =? 0))%Z
    then aset recon i (apply (recon i) (update i / IZR (sum_dist i) / IZR dx)) else recon) order recon.

(** atomicAdds: (cell, what is added), in the order in which they happen *)
Definition atomic_adds (adds : list (Z * R)) (dst : arr R) : arr R :=
  fold_left (fun dst '(i, x) => aset dst i (dst i + x)) adds dst.
(** the adds of cuda_atomic_sum_kernel with factor 1 (utils.hh 526-533) *)
Definition atomic_sum_kernel (src : arr R) (order : list Z) : list (Z * R) := map (fun i => (i, 1 * src i)) order.

(** cuda_sum_dist_compute (utils.cu 77-100) *)
Definition sum_dist_kernel (nx ny : Z) (ones : arr Z) (order : list (Z * Z * Z)) (sum_dist : arr Z) : arr Z :=
  fold_left (fun sum_dist '(s, d, n) =>
    let i := (s * nx * ny + d * nx + n)%Z in
    aset sum_dist i (sum_dist i + (if 0 <? ones (d * nx + n) then 1 else 0))%Z) order sum_dist.

(** cudaMemsetAsync (utils.hh 417-421) with [value] in every byte of int32 cells *)
Definition memset {A} (v : A) (size : Z) (a : arr A) : arr A := fun k => if ((0 <=? k) && (k <? size))%Z then v else a k.
Definition bytes_of (value : Z) : Z := (value * (1 + 256 + 65536 + 16777216))%Z.

Section Npp.
  Variables nx ny : Z.
  (** The NPP rotation of an image of nx * ny cells by an angle: the cells that get a value, and that value. *)
  Variable covers : R -> Z -> bool.
  Variable source : R -> Z -> Z.               (* nearest neighbour: the cell it comes from *)
  Variable value : R -> arr R -> Z -> R.

  (** cuda_rotate_ip for floats (utils.cu 425-434, 263-345) *)
  Definition npp (t : R) (src dst : arr R) : arr R :=
    fun k => if ((0 <=? k) && (k <? nx * ny))%Z && covers t k then value t src k else dst k.
  (** cuda_rotate_ip for integers with GPU_NN (utils.cu 415-423, 181-255) *)
  Definition npp_nn (t : R) (src dst : arr Z) : arr Z :=
    fun k => if ((0 <=? k) && (k <? nx * ny))%Z && covers t k then src (source t k) else dst k.

  (** cuda_compute_sum_dist (utils.cu 104-147).  [rot] and [tmp] are what the fresh buffers contain; [orders p] is the order
      of the threads.  The buffer rot is cleared with size nx * nx (130). *)
  Definition cuda_compute_sum_dist (dt : Z) (theta : arr R) (orders : Z -> list (Z * Z * Z)) (rot tmp garbage : arr Z) (size : Z) : arr Z :=
    let tmp := memset (bytes_of 1) (nx * ny) tmp in
    let sum_dist := memset 0%Z size garbage in
    snd (for_ dt (fun p '(rot, sum_dist) =>
           let rot := memset 0%Z (nx * nx) rot in
           let rot := npp_nn (- theta_p theta p) tmp rot in
           (rot, sum_dist_kernel nx ny rot (orders p) sum_dist)) (rot, sum_dist)).
End Npp.

(** ** Streams

    The host thread of mlem_cuda (mlem.cu 201-240), [nw] worker threads of the pool, each with a stream of its own and its own
    buffers rot and tmp (data.hh 330-353; one stream per GpuData), and the device, which takes the operations of each stream in order. *)
Section Streams.
  Variables dy dt dx nx ny : Z.
  Variable theta : arr R.
  Variable rotate_to : R -> arr R -> arr R -> arr R.       (* cuda_rotate_ip: angle, src, dst *)
  Variable row : arr R -> Z -> Z -> arr R -> arr R.        (* a row of the pixels kernel: data of the slice, p, d *)
  Variable apply : R -> R -> R.
  Variable data : arr R.
  Variable sum_dist : arr Z.

  Record mem : Type := { m_recon : arr R; m_update : arr R; m_rot : Z -> arr R; m_tmp : Z -> arr R }.

  Inductive op : Type :=
  | Reset                  (* gpu_memset(update, 0, recon_pixels, main_stream): mlem.cu 212, sirt.cu 209 *)
  | Update                 (* mlem.cu 229-230 *)
  | ClearRot (w : Z)       (* GpuData::reset (data.hh 408-413) *)
  | ClearTmp (w : Z)
  | Forward (w p s : Z)    (* mlem.cu 142-143 *)
  | Pixels (w p s : Z)     (* 147 *)
  | Backward (w p s : Z)   (* 151-152 *)
  | Sum (w p s : Z).       (* 156 *)

  (** an operation on the array that starts at cell [o] of [a] *)
  Definition at_ptr {A} (o : Z) (f : arr A -> arr A) (a : arr A) : arr A := fun k => f (fun j => a (o + j)%Z) (k - o)%Z.
  Definition ptr {A} (o : Z) (a : arr A) : arr A := fun j => a (o + j)%Z.

  Definition exec (o : op) (m : mem) : mem :=
    match o with
    | Reset => {| m_recon := m_recon m; m_update := memset 0 (dy * nx * ny) (m_update m); m_rot := m_rot m; m_tmp := m_tmp m |}
    | Update => {| m_recon := update_kernel apply (m_update m) sum_dist dx (zrange 0 (dy * nx * ny)) (m_recon m);
                   m_update := m_update m; m_rot := m_rot m; m_tmp := m_tmp m |}
    | ClearRot w => {| m_recon := m_recon m; m_update := m_update m;
                       m_rot := aset (m_rot m) w (memset 0 (dy * nx * ny) (m_rot m w)); m_tmp := m_tmp m |}
    | ClearTmp w => {| m_recon := m_recon m; m_update := m_update m; m_rot := m_rot m;
                       m_tmp := aset (m_tmp m) w (memset 0 (dy * nx * ny) (m_tmp m w)) |}
    | Forward w p s =>
        {| m_recon := m_recon m; m_update := m_update m;
           m_rot := aset (m_rot m) w (at_ptr (s * nx * ny) (rotate_to (- theta_p theta p) (ptr (s * nx * ny) (m_recon m))) (m_rot m w));
           m_tmp := m_tmp m |}
    | Pixels w p s =>
        {| m_recon := m_recon m; m_update := m_update m;
           m_rot := aset (m_rot m) w (at_ptr (s * nx * ny) (pixels_kernel (row (ptr (s * dt * dx) data) p) (zrange 0 dx)) (m_rot m w));
           m_tmp := m_tmp m |}
    | Backward w p s =>
        {| m_recon := m_recon m; m_update := m_update m; m_rot := m_rot m;
           m_tmp := aset (m_tmp m) w (at_ptr (s * nx * ny) (rotate_to (theta_p theta p) (ptr (s * nx * ny) (m_rot m w))) (m_tmp m w)) |}
    | Sum w p s =>
        {| m_recon := m_recon m;
           m_update := at_ptr (s * nx * ny) (atomic_adds (atomic_sum_kernel (ptr (s * nx * ny) (m_tmp m w)) (zrange 0 (nx * ny)))) (m_update m);
           m_rot := m_rot m; m_tmp := m_tmp m |}
    end.

  (** Actions of the host threads. *)
  Inductive waction : Type := WSync | WEnq (o : op).
  Inductive maction : Type :=
  | MSync              (* stream_sync( *main_stream ) *)
  | MEnq (o : op)
  | MSyncW             (* GpuData::sync (data.hh 448-453): the streams of all workers *)
  | MFork              (* execute (data.hh 186-216): a task for every projection *)
  | MJoin.

  (** A build with DEBUG synchronises the stream in every CUDA_CHECK_LAST_STREAM_ERROR (macros.hh 339-360). *)
  Variable debug : bool.
  Definition checked (o : op) : list waction := if debug then [WEnq o; WSync] else [WEnq o].

  (** mlem_gpu_compute_projection (mlem.cu 110-163) run by worker [w] *)
  Definition task_program (w p : Z) : list waction :=
    [WSync] ++ checked (ClearRot w) ++ checked (ClearTmp w) ++
    flat_map (fun s => checked (Forward w p s) ++ checked (Pixels w p s) ++ checked (Backward w p s) ++ checked (Sum w p s)) (zrange 0 dy).

  (** One iteration (mlem.cu 201-235); gpu_memset contains the check of line 420 of utils.hh. *)
  Definition iter_program : list maction :=
    [MSync; MEnq Reset] ++ (if debug then [MSync] else []) ++ [MSyncW; MFork; MJoin; MSyncW; MSync; MEnq Update].
  (** All iterations and the last synchronisation (mlem.cu 238-241) *)
  Fixpoint main_program (n : nat) : list maction :=
    match n with O => [MSync] | S n => iter_program ++ main_program n end.

  Variable nw : Z.
  Record state : Type := {
    st_main : list maction;           (* what the main thread still has to do *)
    st_pending : list Z;              (* projections no worker has taken *)
    st_work : Z -> list waction;      (* what worker w still has to do *)
    st_mq : list op;                  (* operations in the main stream *)
    st_wq : Z -> list op;             (* and in that of worker w *)
    st_mem : mem }.

  Definition worker (w : Z) : Prop := (0 <= w < nw)%Z.
  Inductive step : state -> state -> Prop :=
  | s_main_sync rest q k wq m : step
      {| st_main := MSync :: rest; st_pending := q; st_work := k; st_mq := []; st_wq := wq; st_mem := m |}
      {| st_main := rest; st_pending := q; st_work := k; st_mq := []; st_wq := wq; st_mem := m |}
  | s_main_enq o rest q k mq wq m : step
      {| st_main := MEnq o :: rest; st_pending := q; st_work := k; st_mq := mq; st_wq := wq; st_mem := m |}
      {| st_main := rest; st_pending := q; st_work := k; st_mq := mq ++ [o]; st_wq := wq; st_mem := m |}
  | s_main_sync_workers rest q k mq wq m : (forall w, worker w -> wq w = []) -> step
      {| st_main := MSyncW :: rest; st_pending := q; st_work := k; st_mq := mq; st_wq := wq; st_mem := m |}
      {| st_main := rest; st_pending := q; st_work := k; st_mq := mq; st_wq := wq; st_mem := m |}
  | s_main_fork rest k mq wq m : step
      {| st_main := MFork :: rest; st_pending := []; st_work := k; st_mq := mq; st_wq := wq; st_mem := m |}
      {| st_main := rest; st_pending := zrange 0 dt; st_work := k; st_mq := mq; st_wq := wq; st_mem := m |}
  | s_main_join rest k mq wq m : (forall w, worker w -> k w = []) -> step
      {| st_main := MJoin :: rest; st_pending := []; st_work := k; st_mq := mq; st_wq := wq; st_mem := m |}
      {| st_main := rest; st_pending := []; st_work := k; st_mq := mq; st_wq := wq; st_mem := m |}
  | s_take w p q1 q2 mp k mq wq m : worker w -> k w = [] -> step       (* an idle worker takes any of the tasks *)
      {| st_main := mp; st_pending := q1 ++ p :: q2; st_work := k; st_mq := mq; st_wq := wq; st_mem := m |}
      {| st_main := mp; st_pending := q1 ++ q2; st_work := aset k w (task_program w p); st_mq := mq; st_wq := wq; st_mem := m |}
  | s_work_sync w rest mp q k mq wq m : worker w -> k w = WSync :: rest -> wq w = [] -> step
      {| st_main := mp; st_pending := q; st_work := k; st_mq := mq; st_wq := wq; st_mem := m |}
      {| st_main := mp; st_pending := q; st_work := aset k w rest; st_mq := mq; st_wq := wq; st_mem := m |}
  | s_work_enq w o rest mp q k mq wq m : worker w -> k w = WEnq o :: rest -> step
      {| st_main := mp; st_pending := q; st_work := k; st_mq := mq; st_wq := wq; st_mem := m |}
      {| st_main := mp; st_pending := q; st_work := aset k w rest; st_mq := mq; st_wq := aset wq w (wq w ++ [o]); st_mem := m |}
  | s_device_main o rest mp q k wq m : step
      {| st_main := mp; st_pending := q; st_work := k; st_mq := o :: rest; st_wq := wq; st_mem := m |}
      {| st_main := mp; st_pending := q; st_work := k; st_mq := rest; st_wq := wq; st_mem := exec o m |}
  | s_device_worker w o rest mp q k mq wq m : worker w -> wq w = o :: rest -> step
      {| st_main := mp; st_pending := q; st_work := k; st_mq := mq; st_wq := wq; st_mem := m |}
      {| st_main := mp; st_pending := q; st_work := k; st_mq := mq; st_wq := aset wq w rest; st_mem := exec o m |}.

  (** The start: all streams empty, recon copied to the device (data.hh 417-440, synchronised by destroy_streams), the other
      buffers contain anything. *)
  Definition start (num_iter : nat) (m : mem) : state :=
    {| st_main := main_program num_iter; st_pending := []; st_work := fun _ => []; st_mq := []; st_wq := fun _ => []; st_mem := m |}.
  Inductive steps : state -> state -> Prop :=
  | steps_refl s : steps s s
  | steps_step s t u : steps s t -> step t u -> steps s u.
  Definition finished (s : state) : Prop := st_main s = [].
End Streams.

(** ** The stream of NPP (utils.cu 59-62, 186-209, 253-254; the same in 268-291, 343-344)

    nppSetStream sets one stream for all threads.  [sync] is _npp_stream_sync; [k_rotated] records, for every call of NPP,
    the stream the caller wanted and the one the call used. *)
Section NppLock.
  Variable stream : Z -> Z.       (* the stream of each thread *)

  Inductive pc : Type :=
  | Idle                          (* between two rotations *)
  | TestStream                    (* 192: nppGetStream() != stream *)
  | TestSync                      (* 193: _npp_stream_sync == 0 *)
  | Inc                           (* 196 *)
  | SetStream                     (* 198-200 *)
  | Dec                           (* 204 *)
  | Check (decrement : bool)      (* 208-209 *)
  | Rotate (decrement : bool)     (* 241-242 *)
  | Release                       (* 253-254 *)
  | Thrown.
  Record lock_state : Type := { k_stream : Z; k_sync : Z; k_pc : Z -> pc; k_rotated : list (Z * Z) }.

  Inductive lock_step (t : Z) : lock_state -> lock_state -> Prop :=
  | l_call c y f r : f t = Idle -> lock_step t {| k_stream := c; k_sync := y; k_pc := f; k_rotated := r |}
      {| k_stream := c; k_sync := y; k_pc := aset f t TestStream; k_rotated := r |}
  | l_other c y f r : f t = TestStream -> c <> stream t -> lock_step t {| k_stream := c; k_sync := y; k_pc := f; k_rotated := r |}
      {| k_stream := c; k_sync := y; k_pc := aset f t Inc; k_rotated := r |}
  | l_own c y f r : f t = TestStream -> c = stream t -> lock_step t {| k_stream := c; k_sync := y; k_pc := f; k_rotated := r |}
      {| k_stream := c; k_sync := y; k_pc := aset f t TestSync; k_rotated := r |}
  | l_free c y f r : f t = TestSync -> y = 0%Z -> lock_step t {| k_stream := c; k_sync := y; k_pc := f; k_rotated := r |}
      {| k_stream := c; k_sync := y; k_pc := aset f t Inc; k_rotated := r |}
  | l_pass c y f r : f t = TestSync -> y <> 0%Z -> lock_step t {| k_stream := c; k_sync := y; k_pc := f; k_rotated := r |}
      {| k_stream := c; k_sync := y; k_pc := aset f t (Check false); k_rotated := r |}
  | l_inc c y f r : f t = Inc -> lock_step t {| k_stream := c; k_sync := y; k_pc := f; k_rotated := r |}
      {| k_stream := c; k_sync := y + 1; k_pc := aset f t (if (y + 1 =? 1)%Z then SetStream else Dec); k_rotated := r |}
  | l_dec c y f r : f t = Dec -> lock_step t {| k_stream := c; k_sync := y; k_pc := f; k_rotated := r |}
      {| k_stream := c; k_sync := y - 1; k_pc := aset f t TestStream; k_rotated := r |}
  | l_set c y f r : f t = SetStream -> lock_step t {| k_stream := c; k_sync := y; k_pc := f; k_rotated := r |}
      {| k_stream := stream t; k_sync := y; k_pc := aset f t (Check true); k_rotated := r |}
  | l_wrong c y f r b : f t = Check b -> c <> stream t -> lock_step t {| k_stream := c; k_sync := y; k_pc := f; k_rotated := r |}
      {| k_stream := c; k_sync := y; k_pc := aset f t Thrown; k_rotated := r |}
  | l_right c y f r b : f t = Check b -> c = stream t -> lock_step t {| k_stream := c; k_sync := y; k_pc := f; k_rotated := r |}
      {| k_stream := c; k_sync := y; k_pc := aset f t (Rotate b); k_rotated := r |}
  | l_rotate c y f r b : f t = Rotate b -> lock_step t {| k_stream := c; k_sync := y; k_pc := f; k_rotated := r |}
      {| k_stream := c; k_sync := y; k_pc := aset f t (if b then Release else Idle); k_rotated := (stream t, c) :: r |}
  | l_release c y f r : f t = Release -> lock_step t {| k_stream := c; k_sync := y; k_pc := f; k_rotated := r |}
      {| k_stream := c; k_sync := y - 1; k_pc := aset f t Idle; k_rotated := r |}.

  (** threads 0 .. n-1; line 187 has set some stream before *)
  Definition lock_start (c : Z) : lock_state := {| k_stream := c; k_sync := 0; k_pc := fun _ => Idle; k_rotated := [] |}.
  Inductive lock_reach (n c : Z) : lock_state -> Prop :=
  | lr_start : lock_reach n c (lock_start c)
  | lr_step t s s' : lock_reach n c s -> (0 <= t < n)%Z -> lock_step t s s' -> lock_reach n c s'.
End NppLock.
