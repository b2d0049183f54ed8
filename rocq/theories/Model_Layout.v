(** Model of how tomopy hands arrays to worker processes and to C routines: numpy views on
    buffers, the shared memory helpers of util/dtype.py, distribute_jobs of util/mproc.py and
    the array arguments of the C wrappers of util/extern. *)
From Verif Require Import Base CLoop.
Local Open Scope Z_scope.

(** ** numpy arrays *)

(** A block of memory: [bshared] says whether it is a multiprocessing RawArray; [blen] is the
    number of elements, [bdata] its contents in memory order. *)
Record buffer (V : Type) := Buf { bshared : bool; blen : Z; bdata : arr V }.
Arguments Buf {V}. Arguments bshared {V}. Arguments blen {V}. Arguments bdata {V}.

(** All blocks of memory; a block is named by its position. *)
Definition heap (V : Type) := list (buffer V).

(** An ndarray: the block it lives in, the position of its first element, its shape, its
    strides (counted in elements) and whether its dtype is float32 (the only thing
    dtype.as_float32 looks at). *)
Record view := View
  { vbuf : nat; voff : Z; vshape : list Z; vstrides : list Z; vf32 : bool }.

(** Position of an element relative to the first one. *)
Fixpoint dot (idx strides : list Z) : Z :=
  match idx, strides with
  | i :: idx', s :: strides' => i * s + dot idx' strides'
  | _, _ => 0
  end.

Definition prod (shape : list Z) : Z := fold_right Z.mul 1 shape.

(** Strides of a new array in C order. *)
Fixpoint c_strides (shape : list Z) : list Z :=
  match shape with
  | [] => []
  | _ :: t => prod t :: c_strides t
  end.

(** All indices of an array, last axis fastest. *)
Fixpoint indices (shape : list Z) : list (list Z) :=
  match shape with
  | [] => [[]]
  | n :: t => flat_map (fun i => map (cons i) (indices t)) (zrange 0 n)
  end.

Definition pos (v : view) (idx : list Z) : Z := voff v + dot idx (vstrides v).

Section Heap.
Context {V : Type} (d : V).

Definition getbuf (h : heap V) (b : nat) : buffer V := nth b h (Buf false 0 (fun _ => d)).

Definition at_ (h : heap V) (v : view) (idx : list Z) : V := bdata (getbuf h (vbuf v)) (pos v idx).

(** What a user of the array sees: all elements, last axis fastest. *)
Definition elements (h : heap V) (v : view) : list V := map (at_ h v) (indices (vshape v)).

(** [v[:] = l], element by element. *)
Definition write_data (v : view) (l : list V) (m : arr V) : arr V :=
  fold_left (fun m '(idx, x) => aset m (pos v idx) x) (combine (indices (vshape v)) l) m.

Definition write (h : heap V) (v : view) (l : list V) : heap V :=
  let b := getbuf h (vbuf v) in
  upd h (vbuf v) (Buf (bshared b) (blen b) (write_data v l (bdata b))).

(** A new array with the given strides, in ordinary or shared memory (its contents are set by
    the caller; [d] stands for what happened to be in memory). *)
Definition alloc (h : heap V) (shared : bool) (shape strides : list Z) (f32 : bool)
  : heap V * view :=
  (h ++ [Buf shared (prod shape) (fun _ => d)], View (length h) 0 shape strides f32).

(** ** Layout tests and copies of numpy *)

(** arr.flags.c_contiguous: axes of length one do not matter, an empty array is contiguous. *)
Fixpoint contig_strides (shape strides : list Z) : bool :=
  match shape, strides with
  | n :: shape', s :: strides' =>
      ((n =? 1) || (s =? prod shape')) && contig_strides shape' strides'
  | _, _ => true
  end.
Definition contig (shape strides : list Z) : bool :=
  existsb (Z.eqb 0) shape || contig_strides shape strides.

(** dtype.is_contiguous, dtype.py 213-214. *)
Definition is_contiguous (v : view) : bool := contig (vshape v) (vstrides v).

(** np.copy / ndarray.copy() / np.require("AC") and np.ascontiguousarray when they copy: a new
    array in C order.  [shared] and [f32]: where it lives and its dtype. *)
Definition copy_c (h : heap V) (shared f32 : bool) (v : view) : heap V * view :=
  let '(h1, w) := alloc h shared (vshape v) (c_strides (vshape v)) f32 in
  (write h1 w (elements h v), w).

(** np.require(arr, requirements="AC"), np.ascontiguousarray(arr): the array itself when it is
    contiguous (alignment, the "A", always holds for the arrays considered). *)
Definition require_c (h : heap V) (v : view) : heap V * view :=
  if is_contiguous v then (h, v) else copy_c h false (vf32 v) v.

(** Order of the axes in a new array made "like" another one (numpy's order='K'), slowest axis
    first: C order if the old one is contiguous, Fortran order if it is Fortran contiguous,
    else by decreasing size of the strides, axes with equal strides in C order. *)
Fixpoint insert_axis (strides : list Z) (k : nat) (l : list nat) : list nat :=
  match l with
  | [] => [k]
  | j :: t =>
      if Z.abs (nth j strides 0) <? Z.abs (nth k strides 0) then k :: j :: t
      else j :: insert_axis strides k t
  end.
Definition sort_axes (strides : list Z) (n : nat) : list nat :=
  fold_left (fun l k => insert_axis strides k l) (seq 0 n) [].
Definition keep_order (shape strides : list Z) : list nat :=
  let n := length shape in
  if contig shape strides then seq 0 n
  else if contig (rev shape) (rev strides) then rev (seq 0 n)
  else sort_axes strides n.

Fixpoint position (k : nat) (l : list nat) : nat :=
  match l with
  | [] => 0%nat
  | j :: t => if Nat.eqb j k then 0%nat else S (position k t)
  end.

(** Strides of a new array with the given shape whose axes are stored in the given order. *)
Definition order_strides (shape : list Z) (axes : list nat) : list Z :=
  let s := c_strides (map (fun k => nth k shape 0) axes) in
  map (fun k => nth (position k axes) s 0) (seq 0 (length shape)).

Definition keep_strides (v : view) : list Z :=
  order_strides (vshape v) (keep_order (vshape v) (vstrides v)).

(** np.empty_like(arr). *)
Definition empty_like (h : heap V) (v : view) : heap V * view :=
  alloc h false (vshape v) (keep_strides v) (vf32 v).

(** np.array(arr, dtype) and np.asarray(arr, dtype) with another dtype: a converted copy "like"
    the old array.  [conv] is the conversion of one value. *)
Definition convert (conv : V -> V) (h : heap V) (v : view) : heap V * view :=
  let '(h1, w) := alloc h false (vshape v) (keep_strides v) true in
  (write h1 w (map conv (elements h v)), w).

(** dtype.as_float32 of an ndarray, dtype.py 83-103. *)
Definition as_float32 (conv : V -> V) (h : heap V) (v : view) : heap V * view :=
  if vf32 v then (h, v) else convert conv h v.

(** np.swapaxes(arr, 0, 1): no copy. *)
Definition swap01 {A} (l : list A) : list A :=
  match l with
  | a :: b :: t => b :: a :: t
  | _ => l
  end.
Definition swapaxes01 (v : view) : view :=
  View (vbuf v) (voff v) (swap01 (vshape v)) (swap01 (vstrides v)) (vf32 v).

(** arr[start:start + count*step:step] on the first axis: no copy. *)
Definition slice0 (v : view) (start count step : Z) : view :=
  match vshape v, vstrides v with
  | _ :: shape', s :: strides' =>
      View (vbuf v) (voff v + start * s) (count :: shape') (step * s :: strides') (vf32 v)
  | _, _ => v
  end.

(** ** Shared memory helpers *)

(** dtype.is_sharedmem, dtype.py 190-201: the chain of bases ends in a RawArray. *)
Definition is_sharedmem (h : heap V) (v : view) : bool := bshared (getbuf h (vbuf v)).

(** dtype.as_sharedmem, dtype.py 168-183. *)
Definition as_sharedmem (h : heap V) (copy : bool) (v : view) : heap V * view :=
  if negb copy && is_sharedmem h v then (h, v) else copy_c h true (vf32 v) v.

(** dtype.get_shared_mem, dtype.py 204-210: the RawArray itself. *)
Definition get_shared_mem (v : view) : nat := vbuf v.

(** dtype.to_numpy_array of a RawArray, dtype.py 186-187: np.frombuffer gives all its elements,
    reshape raises unless their number is that of the shape.  The dtype is taken to be the one
    the block was made with. *)
Definition to_numpy_array (h : heap V) (b : nat) (shape : list Z) (f32 : bool) : result view :=
  if blen (getbuf h b) =? prod shape then Ok (View b 0 shape (c_strides shape) f32)
  else Raise ValueError.

(** dtype.to_numpy_array of an ndarray (the shared_out of mproc.py 277, used at 329 and 383):
    np.frombuffer raises unless the array is contiguous and then starts at its first
    element. *)
Definition to_numpy_array_of (w : view) : result view :=
  if is_contiguous w then Ok (View (vbuf w) (voff w) (vshape w) (c_strides (vshape w)) (vf32 w))
  else Raise ValueError.

(** ** distribute_jobs *)

(** What all jobs together do, as a function of the arrays they are given (shape and elements
    of each): the elements of the arrays after the jobs, which may have changed them in place,
    and the result the jobs returned, if they returned one.  The splitting into jobs and their
    schedule are the subject of Model_Mproc.v and Model_Parallel.v (C01, C04). *)
Definition jobs := list (list Z * list V) -> list (list V) * option (list V).

(** mproc.py 259-262: every array is put into shared memory. *)
Fixpoint share_all (h : heap V) (arrs : list view) : heap V * list view :=
  match arrs with
  | [] => (h, [])
  | v :: t =>
      let '(h1, w) := as_sharedmem h false v in
      let '(h2, ws) := share_all h1 t in
      (h2, w :: ws)
  end.

(** The arrays the jobs work on: to_numpy_array(a, INTYPE, INSHAPE[idx]), mproc.py 377.  The
    shape is that of the caller's array. *)
Fixpoint rebuild_all (h : heap V) (arrs shareds : list view) : result (list view) :=
  match arrs, shareds with
  | v :: t, w :: ws =>
      match to_numpy_array h (get_shared_mem w) (vshape v) (vf32 v) with
      | inl e => Raise e
      | inr x =>
          match rebuild_all h t ws with
          | inl e => Raise e
          | inr xs => Ok (x :: xs)
          end
      end
  | _, _ => Ok []
  end.

Definition value (h : heap V) (v : view) : list Z * list V := (vshape v, elements h v).

Fixpoint write_all (h : heap V) (vs : list view) (ls : list (list V)) : heap V :=
  match vs, ls with
  | v :: vs', l :: ls' => write_all (write h v l) vs' ls'
  | _, _ => h
  end.

Definition dummy_view : view := View 0 0 [] [] true.

(** mproc.py 236-331.  [arrs] is not empty and no axis of an array has length zero. *)
Definition distribute_jobs (F : jobs) (h : heap V) (arrs : list view) (out : option view)
  : result (heap V * view) :=
  let '(h1, shareds) := share_all h arrs in
  match out with
  | None =>
      match rebuild_all h1 arrs shareds with
      | inl e => Raise e
      | inr ws =>
          let '(ls, res) := F (map (value h1) ws) in
          let h2 := write_all h1 ws ls in
          let w := last ws dummy_view in
          let h3 := match res with Some l => write h2 w l | None => h2 end in
          Ok (h3, w)
      end
  | Some o =>
      let '(h2, so) := as_sharedmem h1 false o in
      match rebuild_all h2 arrs shareds, to_numpy_array_of so with
      | inl e, _ => Raise e
      | _, inl e => Raise e
      | inr ws, inr w =>
          let '(ls, res) := F (map (value h2) ws) in
          let h3 := write_all h2 ws ls in
          let h4 := match res with Some l => write h3 w l | None => h3 end in
          Ok (write h4 o (elements h4 w), o)
      end
  end.

(** ** Arrays handed to C *)

(** A C routine given the pointer to the first element reads the elements behind it in memory
    order (as_c_float_p and the like, dtype.py 121-149: arr.ctypes.data_as). *)
Definition c_read (h : heap V) (v : view) (n : Z) : list V :=
  map (fun k => bdata (getbuf h (vbuf v)) (voff v + k)) (zrange 0 n).

(** Writing [l] from the pointer onwards. *)
Definition c_write (h : heap V) (v : view) (l : list V) : heap V :=
  let b := getbuf h (vbuf v) in
  upd h (vbuf v)
    (Buf (bshared b) (blen b)
       (fold_left (fun m '(k, x) => aset m (voff v + k) x)
          (combine (zrange 0 (Z.of_nat (length l))) l) (bdata b))).

(** init_tomo, algorithm.py 337-347. *)
Definition init_tomo (conv : V -> V) (h : heap V) (tomo : view) (sinogram_order sharedmem : bool)
  : heap V * view :=
  let '(h1, t1) := as_float32 conv h tomo in
  let t2 := if sinogram_order then t1 else swapaxes01 t1 in
  if sharedmem then as_sharedmem h1 (negb (is_contiguous t2)) t2
  else require_c h1 t2.

(** The angles handed to C: dtype.as_float32(theta) (algorithm.py 471-473, project.py 302,
    vector.py 71) and its pointer (extern/recon.py, gridrec.py 80).  The same holds for an array
    of rotation centres (project.py 475).  [n] is the number of angles the routine reads. *)
Definition theta_to_c (conv : V -> V) (h : heap V) (theta : view) (n : Z) : list V :=
  let '(h1, t) := as_float32 conv h theta in c_read h1 t n.

(** The objects of project2 and project3: dtype.as_float32 (project.py 370-371, 436-438) and
    the pointer (extern/recon.py 141-142, 176-178). *)
Definition object_to_c (conv : V -> V) (h : heap V) (obj : view) : list V :=
  let '(h1, o) := as_float32 conv h obj in c_read h1 o (prod (vshape o)).

(** stripes_detect3d (stripe.py 1033-1055) and inpainter_morph without an axis (corr.py 1067-1154):
    a contiguous input and an output in C order.  [G] is the C routine. *)
Definition filter_c_order (conv : V -> V) (G : list V -> list V) (h : heap V) (a : view)
  : heap V * view :=
  let '(h1, a1) := as_float32 conv h a in
  let '(h2, out) := alloc h1 false (vshape a1) (c_strides (vshape a1)) true in
  let '(h3, a3) := require_c h2 a1 in
  (c_write h3 out (G (c_read h3 a3 (prod (vshape a1)))), out).

(** median_filter3d of a float32 array, corr.py 385-411: the output is np.empty_like(arr). *)
Definition median_filter3d (G : list V -> list V) (h : heap V) (a : view) : heap V * view :=
  let '(h2, out) := empty_like h a in
  let '(h3, a3) := require_c h2 a in
  (c_write h3 out (G (c_read h3 a3 (prod (vshape a)))), out).

(** c_remove_stripe_sf (extern/prep.py 82-100); c_project's treatment of tomo is the same
    (extern/recon.py 86-117): the routine works in place on a contiguous array, which is then
    copied to the caller's. *)
Definition c_remove_stripe_sf (G : list V -> list V) (h : heap V) (tomo : view) : heap V :=
  let '(h1, t) := require_c h tomo in
  let h2 := c_write h1 t (G (c_read h1 t (prod (vshape tomo)))) in
  write h2 tomo (elements h2 t).

(** remove_ring (corr.py 805-849): the routine works in place on a copy of the input, or on
    the array the caller gives as [out].  All chunks together. *)
Definition remove_ring (conv : V -> V) (G : list V -> list V) (h : heap V) (rec : view)
    (out : option view) : heap V * view :=
  let '(h1, r) := as_float32 conv h rec in
  let '(h2, o) := match out with
                  | None => copy_c h1 false true r
                  | Some o => as_float32 conv h1 o
                  end in
  (c_write h2 o (G (c_read h2 o (prod (vshape r)))), o).

End Heap.
Arguments jobs : clear implicits.
