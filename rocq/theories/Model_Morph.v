(** misc/morph.py and libtomo/misc/morph.c. *)
From Verif Require Import Base CLoop Model_Prep.
From Coq Require Import Reals.
Local Open Scope Z_scope.

(** ** downsample / upsample (morph.c 50-121, 123-192), flat memory, real arithmetic.
    The state is (out, ind). *)
Section Sample.
  Variable data : arr R.
  Variable binsize : Z.

  (** out[i + j + k] += data[ind] / binsize; ind++; *)
  Definition down_step (o : Z) (s : arr R * Z) : arr R * Z :=
    let '(out, ind) := s in (aset out o (out o + data ind / IZR binsize)%R, ind + 1).
  (** out[ind] = data[i + j + k]; ind++; *)
  Definition up_step (o : Z) (s : arr R * Z) : arr R * Z :=
    let '(out, ind) := s in (aset out ind (data o), ind + 1).

  Definition downsample0 (dx dy dz : Z) (out : arr R) : arr R * Z :=           (* 62-82 *)
    let dx := dx / binsize in
    for_ dx (fun m s => let i := m * (dy * dz) in
      for_ binsize (fun p s => for_ dy (fun n s => let j := n * dz in
        for_ dz (fun k s => down_step (i + j + k) s) s) s) s) (out, 0).
  Definition downsample1 (dx dy dz : Z) (out : arr R) : arr R * Z :=           (* 83-102 *)
    let dy := dy / binsize in
    for_ dx (fun m s => let i := m * (dy * dz) in
      for_ dy (fun n s => let j := n * dz in
        for_ binsize (fun p s => for_ dz (fun k s => down_step (i + j + k) s) s) s) s) (out, 0).
  Definition downsample2 (dx dy dz : Z) (out : arr R) : arr R * Z :=           (* 103-121 *)
    let dz := dz / binsize in
    for_ dx (fun m s => let i := m * (dy * dz) in
      for_ dy (fun n s => let j := n * dz in
        for_ dz (fun k s => for_ binsize (fun p s => down_step (i + j + k) s) s) s) s) (out, 0).

  Definition upsample0 (dx dy dz : Z) (out : arr R) : arr R * Z :=             (* 135-154 *)
    for_ dx (fun m s => let i := m * (dy * dz) in
      for_ binsize (fun p s => for_ dy (fun n s => let j := n * dz in
        for_ dz (fun k s => up_step (i + j + k) s) s) s) s) (out, 0).
  Definition upsample1 (dx dy dz : Z) (out : arr R) : arr R * Z :=             (* 155-173 *)
    for_ dx (fun m s => let i := m * (dy * dz) in
      for_ dy (fun n s => let j := n * dz in
        for_ binsize (fun p s => for_ dz (fun k s => up_step (i + j + k) s) s) s) s) (out, 0).
  Definition upsample2 (dx dy dz : Z) (out : arr R) : arr R * Z :=             (* 174-192 *)
    for_ dx (fun m s => let i := m * (dy * dz) in
      for_ dy (fun n s => let j := n * dz in
        for_ dz (fun k s => for_ binsize (fun p s => up_step (i + j + k) s) s) s) s) (out, 0).
End Sample.

(** morph.py 233-252 and morph.c 194-208: the output starts with zeros, binsize = 2^level;
    other axis values leave the output untouched. *)
Definition zeros : arr R := fun _ => 0%R.
Definition downsample (level axis dx dy dz : Z) (data : arr R) : arr R :=
  let b := 2 ^ level in
  if axis =? 0 then fst (downsample0 data b dx dy dz zeros)
  else if axis =? 1 then fst (downsample1 data b dx dy dz zeros)
  else if axis =? 2 then fst (downsample2 data b dx dy dz zeros)
  else zeros.
Definition upsample (level axis dx dy dz : Z) (data : arr R) : arr R :=
  let b := 2 ^ level in
  if axis =? 0 then fst (upsample0 data b dx dy dz zeros)
  else if axis =? 1 then fst (upsample1 data b dx dy dz zeros)
  else if axis =? 2 then fst (upsample2 data b dx dy dz zeros)
  else zeros.

(** ** Python slicing of a list with optional bounds; slice assignment with numpy's broadcasting of
    a source of length one. *)
Section Slices.
  Context {A : Type}.
  Definition sbound (n : Z) (d : Z) (o : option Z) : Z := match o with Some i => clip n i | None => d end.
  Definition pyslice (l : list A) (a b : option Z) : list A :=
    let n := Z.of_nat (length l) in
    let lo := sbound n 0 a in
    firstn (Z.to_nat (sbound n n b - lo)) (skipn (Z.to_nat lo) l).
  Definition assign (out : list A) (a b : option Z) (src : list A) : result (list A) :=
    let n := Z.of_nat (length out) in
    let lo := sbound n 0 a in
    let hi := Z.max lo (sbound n n b) in
    let put s := firstn (Z.to_nat lo) out ++ s ++ skipn (Z.to_nat hi) out in
    if Z.of_nat (length src) =? hi - lo then Ok (put src)
    else match src with
         | [x] => Ok (put (repeat x (Z.to_nat (hi - lo))))
         | _ => Raise ValueError
         end.
End Slices.

Definition bind {A B} (r : result A) (f : A -> result B) : result B :=
  match r with inr a => f a | inl e => Raise e end.

(** ** pad (morph.py 73-160): the array is the list of its slices along [axis]; [out0] is the
    uninitialised output. *)
Inductive pad_mode (A : Type) := PadConstant (c : A) | PadEdge.
Arguments PadConstant {A}. Arguments PadEdge {A}.

Definition pad {A} (mode : pad_mode A) (npad : Z) (arr out0 : list A) : result (list A) :=
  let n := Z.of_nat (length arr) in
  bind (assign out0 (Some npad) (Some (npad + n)) arr) (fun o =>               (* 140 / 153 *)
  match mode with
  | PadConstant c =>
      bind (assign o (Some 0) (Some npad) [c]) (fun o =>                       (* 144 / 155 *)
      assign o (Some (npad + n)) None [c])                                     (* 145 / 156 *)
  | PadEdge =>
      bind (assign o (Some 0) (Some npad) (pyslice arr (Some 0) (Some 1))) (fun o =>            (* 147 / 158 *)
      assign o (Some (npad + n)) None (pyslice arr (Some (n - 1)) (Some n)))                     (* 149 / 159 *)
  end).

(** _get_npad (163-164): int(np.ceil((dim * np.sqrt(2) - dim) / 2)), exact. *)
Definition ceil (x : R) : Z := (- Int_part (- x))%Z.
Definition get_npad (dim : Z) : Z := ceil ((IZR dim * sqrt 2 - IZR dim) / 2).

(** Argument checks (103-119): mode word and keyword words. *)
Definition pad_args_ok (mode : option nat) (kwargs : list nat) : bool :=
  (* words: 0 = 'constant', 1 = 'edge', 2 = 'constant_values'; None: mode is not a string *)
  match mode with
  | Some 0%nat => forallb (fun k => Nat.eqb k 2) kwargs
  | Some 1%nat => match kwargs with [] => true | _ => false end
  | _ => false
  end.

(** ** sino_360_to_180 (morph.py 311-353): one row of output projection t, [a] = row of data[t],
    [b] = the same row of data[n + t]. *)
Definition linspace (x y : R) (n : Z) : list R :=
  map (fun i => if n =? 1 then x else (x + IZR i * ((y - x) / IZR (n - 1)))%R) (zrange 0 n).
Definition mulw (w l : list R) : list R := map (fun p => (fst p * snd p)%R) (combine w l).
Definition addl (u v : list R) : list R := map (fun p => (fst p + snd p)%R) (combine u v).

Definition stitch_left (ov : Z) (a b out0 : list R) : result (list R) :=
  let dz := Z.of_nat (length a) in
  let w := linspace 0 1 ov in
  bind (assign out0 (Some (- dz + ov)) None (pyslice a (Some ov) None)) (fun o =>
  bind (assign o None (Some (dz - ov)) (rev (pyslice b (Some ov) None))) (fun o =>
  assign o (Some (dz - ov)) (Some dz)
    (addl (mulw w (pyslice a None (Some ov))) (rev (mulw w (pyslice b None (Some ov))))))).
Definition stitch_right (ov : Z) (a b out0 : list R) : result (list R) :=
  let dz := Z.of_nat (length a) in
  let w := linspace 1 0 ov in
  bind (assign out0 None (Some (dz - ov)) (pyslice a None (Some (- ov)))) (fun o =>
  bind (assign o (Some (- dz + ov)) None (rev (pyslice b None (Some (- ov))))) (fun o =>
  assign o (Some (dz - ov)) (Some dz)
    (addl (mulw w (pyslice a (Some (- ov)) None)) (rev (mulw w (pyslice b (Some (- ov)) None)))))).

(** Whole volume: projections t < n = dx // 2 from data[t] and data[n + t]; [rotation] true = left. *)
Definition sino_360_to_180 (left : bool) (ov dx : Z) (data : Z -> list R) (out0 : Z -> list R) (t : Z) : result (list R) :=
  let n := dx / 2 in
  if left then stitch_left ov (data t) (data (n + t)) (out0 t)
  else stitch_right ov (data t) (data (n + t)) (out0 t).
