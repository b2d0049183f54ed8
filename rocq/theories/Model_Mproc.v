(** Model of tomopy/util/mproc.py: work splitting, job distribution, thread settings. *)
From Verif Require Import Base.
Local Open Scope Z_scope.

(** A slice object as built with [np.s_]: a half open range or a single index
    (mproc.py 151-157, 174-182, 285-289). *)
Inductive slc : Type :=
| Range (a b : Z)
| Index (i : Z).

(** Indices of an axis of length [n] selected by a slice with non-negative bounds.
    numpy clips the upper bound of a range to the axis length and raises for a single
    index out of range (modelled as selecting nothing; theorems show it does not occur). *)
Definition slc_indices (n : Z) (s : slc) : list Z :=
  match s with
  | Range a b => zrange a (Z.min b n)
  | Index i => if (0 <=? i) && (i <? n) then [i] else []
  end.

(** np.cumsum (mproc.py 150, 173). *)
Fixpoint cumsum (acc : Z) (l : list Z) : list Z :=
  match l with
  | [] => []
  | x :: t => (acc + x) :: cumsum (acc + x) t
  end.

(** [offsets[i]:offsets[i+1]] for all i (mproc.py 151, 174-175). *)
Fixpoint consecutive (l : list Z) : list slc :=
  match l with
  | a :: ((b :: _) as t) => Range a b :: consecutive t
  | _ => []
  end.

(** sizes: [chunk_size] everywhere, plus one on the first [leftover] entries
    (mproc.py 144-148, 167-171). *)
Definition chunk_sizes (axis_size ncore : Z) : list Z :=
  let chunk_size := axis_size / ncore in
  let leftover := axis_size mod ncore in
  map (fun i => if i <? leftover then chunk_size + 1 else chunk_size) (zrange 0 ncore).

(** The three ways of building the slice list, mproc.py 142-157 (identical text at 165-182).
    A non-positive ncore makes [axis_size // ncore] raise (zero) or [np.ones] raise
    (negative). *)
Definition build_slices (axis_size ncore : Z) (nchunk : option Z) : result (list slc) :=
  match nchunk with
  | None =>
      if ncore =? 0 then Raise ZeroDivisionError
      else if ncore <? 0 then Raise ValueError
      else Ok (consecutive (0 :: cumsum 0 (chunk_sizes axis_size ncore)))
  | Some c =>
      if c =? 0 then Ok (map Index (zrange 0 axis_size))
      else Ok (map (fun o => Range o (o + c)) (pyrange 0 axis_size c))
  end.

(** [not ncore] : None or 0 mean "all CPUs". *)
Definition default_ncore (cpu : Z) (ncore : option Z) : Z :=
  match ncore with
  | None => cpu
  | Some k => if k =? 0 then cpu else k
  end.

(** get_ncore_slices, mproc.py 139-158. [cpu] is mp.cpu_count(). *)
Definition get_ncore_slices (cpu axis_size : Z) (ncore nchunk : option Z)
  : result (Z * list slc) :=
  let k := Z.min (default_ncore cpu ncore) axis_size in
  match build_slices axis_size k nchunk with
  | inl e => Raise e
  | inr l => Ok (k, l)
  end.

(** get_worker_ncore_slices, mproc.py 161-198. [np_int] says whether numpy still has the
    alias np.int (removed in numpy 1.24), used at lines 169 and 172; [nproc], [rank] are the
    communicator size and the rank (1 and 0 without mpi4py). *)
Definition get_worker_ncore_slices (np_int : bool) (cpu axis_size : Z)
    (ncore nchunk : option Z) (nproc rank : Z) : result (Z * list slc) :=
  let k := default_ncore cpu ncore in
  let slcs := match nchunk with
              | None => if np_int then build_slices axis_size k nchunk
                        else if k =? 0 then Raise ZeroDivisionError else Raise AttributeError
              | Some _ => build_slices axis_size k nchunk
              end in
  match slcs with
  | inl e => Raise e
  | inr l =>
      if 1 <? nproc then
        let len := Z.of_nat (length l) in
        let nsplit := len / nproc in
        let nmodulo := len mod nproc in
        let offset := nsplit * rank in
        let '(nsplit', offset') :=
          if rank =? 0 then (nsplit + nmodulo, offset) else (nsplit, offset + nmodulo) in
        Ok (k, firstn (Z.to_nat nsplit') (skipn (Z.to_nat offset') l))
      else Ok (k, l)
  end.

(** get_ncore_nchunk, mproc.py 123-136. [math.ceil(a / b)] is modelled exactly (the code
    divides in double precision; exact below 2^53). *)
Definition get_ncore_nchunk (cpu axis_size : Z) (ncore nchunk : option Z)
  : result (Z * Z) :=
  let nchunk1 := match nchunk with
                 | Some c => if negb (c =? 0) && (axis_size <? c) then Some axis_size else Some c
                 | None => None
                 end in
  let ncore1 := match ncore with
                | None => cpu
                | Some k => if cpu <? k then cpu else k
                end in
  let div := match nchunk1 with
             | Some c => if c =? 0 then 1 else c
             | None => 1
             end in
  let q := if 0 <? div then cdiv axis_size div else cdiv (- axis_size) (- div) in
  let ncore2 := if q <? ncore1 then q else ncore1 in
  match nchunk1 with
  | Some c => Ok (ncore2, c)
  | None => if ncore2 =? 0 then Raise ZeroDivisionError
            else if 0 <? ncore2 then Ok (ncore2, cdiv axis_size ncore2)
            else Ok (ncore2, cdiv (- axis_size) (- ncore2))
  end.

(** The slices of map_args in distribute_jobs, mproc.py 283-289. *)
Definition map_slices (axis_size nchunk : Z) : list slc :=
  if nchunk =? 0 then map Index (pyrange 0 axis_size 1)
  else map (fun i => Range i (i + nchunk)) (pyrange 0 axis_size nchunk).

(** The slices distribute_jobs works on, mproc.py 246-247, 283-289. *)
Definition distribute_slices (cpu axis_size : Z) (ncore nchunk : option Z)
  : result (Z * list slc) :=
  match get_ncore_nchunk cpu axis_size ncore nchunk with
  | inl e => Raise e
  | inr (k, c) => Ok (k, map_slices axis_size c)
  end.
