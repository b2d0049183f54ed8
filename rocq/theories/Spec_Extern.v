(** Vocabulary for C114-C116: what a parameter of a C function means, how many elements of an array a C function
    may touch. *)
From Coq Require Import Reals String.
From Verif Require Import Base Model_Recon Model_Extern.
Local Open Scope string_scope.
Local Open Scope Z_scope.

(** Two arrays have the same first n elements. *)
Definition agree {A} (n : Z) (a b : Z -> A) : Prop := forall i, 0 <= i < n -> a i = b i.
(** [b] is [a] outside its first n elements. *)
Definition untouched {A} (n : Z) (a b : Z -> A) : Prop := forall i, i < 0 \/ n <= i -> b i = a i.

(** The least power of two that is at least 16 and at least dx. *)
Definition is_padded (dx pdim : Z) : Prop :=
  (exists k : nat, pdim = 2 ^ Z.of_nat k) /\ 16 <= pdim /\ dx <= pdim /\ (pdim = 16 \/ pdim < 2 * dx).

(** Number of leading elements that the C function [fn] may read or write of the array given for the parameter [p]:
    [v] are its integer parameters, [fname] the name of the filter and [pdim] the padded width of gridrec. *)
Definition filter_cells (fname : string) (dt pdim : Z) : Z :=
  if String.eqb fname "custom" then pdim / 2
  else if String.eqb fname "custom2d" then dt * (pdim / 2)
  else if String.eqb fname "butterworth" then 2
  else if String.eqb fname "hann" || String.eqb fname "hamming" || String.eqb fname "parzen" then 1 else 0.
Definition needed (fn fname : string) (pdim : Z) (v : string -> Z) (p : string) : Z :=
  if String.eqb p "data" then v "dy" * v "dt" * v "dx"
  else if String.eqb p "recon" || String.eqb p "reg_data" then v "dy" * v "ngridx" * v "ngridy"
  else if String.eqb p "theta" then v "dt"
  else if String.eqb p "center" then (if String.eqb fn "art" then 1 else v "dy")
  else if String.eqb p "ind_block" then (if v "num_block" =? 1 then 0 else v "dt")
  else if String.eqb p "reg_pars" then (if String.eqb fn "ospml_hybrid" || String.eqb fn "tikh" then 2 else 1)
  else if String.eqb p "filter_par" then (if String.eqb fn "gridrec" then filter_cells fname (v "dt") pdim else 0)
  else if String.eqb p "grid_size" || String.eqb p "block_size" then 3
  else 0.
(** The integer parameters given one by one. *)
Definition ints (dy dt dx ngridx ngridy num_block : Z) (k : string) : Z :=
  if String.eqb k "dy" then dy else if String.eqb k "dt" then dt else if String.eqb k "dx" then dx
  else if String.eqb k "ngridx" then ngridx else if String.eqb k "ngridy" then ngridy
  else if String.eqb k "num_block" then num_block else 0.

(** ** What a C function receives *)
(** The int that c_int makes of an integer: equal to it modulo 2^32. *)
Definition as_int (z c : Z) : Prop := - 2 ^ 31 <= c < 2 ^ 31 /\ (c - z) mod 2 ^ 32 = 0.
(** [c] is the C value of type [t] for the Python value [v]. *)
Definition carried (v : pyval) (t : ctype) (c : cval) : Prop :=
  match t, v, c with
  | Pfloat, Arr a, Ptr b | Pbool, Arr a, Ptr b | Pushort, Arr a, Ptr b => b = a
  | Pint, Arr a, Ptr b => ident b = ident a /\ shape b = shape a /\ elem_of b = I32
  | Pchar, Str s, S s' => s' = s
  | Int, Num z, I z' => as_int z z'
  | Int, Flag b, I z' => z' = if b then 1 else 0
  | Float, Num z, Fl x => x = IZR z
  | Float, Flt y, Fl x | Float, F32scalar y, Fl x => x = y
  | Float, Flag b, Fl x => x = if b then 1%R else 0%R
  | _, _, _ => False
  end.
(** The call [c] has one argument for every parameter of its function; each has the type of the parameter and carries
    a value that is meant for it. *)
Definition binds (meant : string -> pyval -> Prop) (c : ccall) : Prop :=
  List.length (c_args c) = List.length (prototype (c_fn c)) /\
  forall n p t, nth_error (prototype (c_fn c)) n = Some (p, t) ->
    exists v cv, nth_error (c_args c) n = Some (t, cv) /\ carried v t cv /\ meant p v.

(** The function of the library for an algorithm. *)
Definition target (alg : string) (accelerated : bool) : string :=
  if String.eqb alg "mlem" then (if accelerated then "cxx_mlem" else "osem")
  else if String.eqb alg "sirt" then (if accelerated then "cxx_sirt" else "bart")
  else if String.eqb alg "pml_hybrid" then "ospml_hybrid" else if String.eqb alg "pml_quad" then "ospml_quad" else alg.
(** Algorithms without subsets that run as ones with a single subset. *)
Definition single (alg : string) : bool :=
  String.eqb alg "mlem" || String.eqb alg "sirt" || String.eqb alg "pml_hybrid" || String.eqb alg "pml_quad".
(** The keyword for a parameter. *)
Definition key_of (p : string) : string :=
  if String.eqb p "ngridx" then "num_gridx" else if String.eqb p "ngridy" then "num_gridy"
  else if String.eqb p "reg_pars" then "reg_par" else if String.eqb p "fname" then "filter_name"
  else if String.eqb p "interp" then "interpolation" else p.
(** slices, projections, pixels of a stack of sinograms or of a single one *)
Definition stack_dims (a : ndarray) (n : Z * Z * Z) : Prop :=
  match shape a, n with
  | [dt; dx], (one, dt', dx') => one = 1 /\ dt' = dt /\ dx' = dx
  | [dy; dt; dx], (dy', dt', dx') => dy' = dy /\ dt' = dt /\ dx' = dx
  | _, _ => False
  end.
Definition fst3 (n : Z * Z * Z) : Z := fst (fst n).
Definition snd3 (n : Z * Z * Z) : Z := snd (fst n).
Definition thd3 (n : Z * Z * Z) : Z := snd n.
(** What the parameters of the reconstruction functions mean. *)
Definition meant_recon (tomo center recon theta : ndarray) (kw : kwargs) (alg : string) (p : string) (v : pyval) : Prop :=
  if String.eqb p "data" then v = Arr tomo else if String.eqb p "center" then v = Arr center
  else if String.eqb p "theta" then v = Arr theta else if String.eqb p "recon" then v = Arr recon
  else if String.eqb p "dy" then exists n, stack_dims tomo n /\ v = Num (fst3 n)
  else if String.eqb p "dt" then exists n, stack_dims tomo n /\ v = Num (snd3 n)
  else if String.eqb p "dx" then exists n, stack_dims tomo n /\ v = Num (thd3 n)
  else if single alg && String.eqb p "num_block" then v = Num 1
  else if single alg && String.eqb p "ind_block" then exists a, v = Arr a
  else get kw (key_of p) = Some v.
(** Parameters given one by one. *)
Definition meant_by (l : list (string * pyval)) (p : string) (v : pyval) : Prop := get l p = Some v.

(** The values a call gives to a parameter by name. *)
Fixpoint place {A} (l : list (string * A)) (p : string) : option nat :=
  match l with [] => None | (q, _) :: l => if String.eqb q p then Some O else option_map Datatypes.S (place l p) end.
Definition value_of (c : ccall) (p : string) : option cval :=
  match place (prototype (c_fn c)) p with Some n => option_map snd (nth_error (c_args c) n) | None => None end.
Definition int_of (c : ccall) (p : string) : Z := match value_of c p with Some (I z) => z | _ => 0 end.
Definition string_of (c : ccall) (p : string) : string := match value_of c p with Some (S s) => s | _ => "" end.
(** Parameters given one by one, the others by keyword. *)
Definition meant_or (kw : kwargs) (l : list (string * pyval)) (p : string) (v : pyval) : Prop :=
  match get l p with Some u => v = u | None => get kw (key_of p) = Some v end.

(** ** Calls of recon whose arrays are long enough *)
Definition opt (user : kwargs) (k : string) (d : Z) : Z := match get user k with Some (Num z) => z | _ => d end.
(** elements of the array that recon makes of a value *)
Definition cells (v : pyval) : Z := match v with Arr a => size a | _ => 1 end.
(** The stack, angles and centres have passed the checks of recon; what the caller gives besides is as large as the
    documentation of the algorithm asks.  [lo], [hi]: the slices of one call of the C function. *)
Record fair (alg : string) (dy dt dx : Z) (tomo theta center : ndarray) (init : option ndarray) (user : kwargs) (lo hi : Z) : Prop := {
  f_tomo : shape tomo = [dy; dt; dx] /\ elem_of tomo = F32;
  f_theta : shape theta = [dt] /\ elem_of theta = F32;
  f_center : shape center = [dy] /\ elem_of center = F32;
  f_dims : 1 <= dy < 2 ^ 31 /\ 1 <= dt < 2 ^ 31 /\ 1 <= dx < 2 ^ 31;
  f_slices : 0 <= lo < hi /\ hi <= dy;
  f_grid : forall k v, k = "num_gridx" \/ k = "num_gridy" -> get user k = Some v -> exists z, v = Num z /\ 1 <= z < 2 ^ 31;
  f_init : forall a, init = Some a -> shape a = [dy; opt user "num_gridx" dx; opt user "num_gridy" dx];
  f_blocks : forall v, get user "num_block" = Some v -> exists z, v = Num z /\ 1 <= z < 2 ^ 31;
  f_ind : forall v, get user "ind_block" = Some v -> opt user "num_block" 1 = 1 \/ dt <= cells v;
  f_reg : forall v, get user "reg_par" = Some v ->
            (if String.eqb alg "ospml_hybrid" || String.eqb alg "pml_hybrid" || String.eqb alg "tikh" then 2 else 1) <= cells v;
  f_data : match get user "reg_data" with
           | None => alg = "tikh" -> opt user "num_gridx" dx * opt user "num_gridy" dx <= dx * dx
           | Some v => (hi - lo) * opt user "num_gridx" dx * opt user "num_gridy" dx <= cells v
           end;
  f_filter : forall pdim, alg = "gridrec" -> is_padded dx pdim ->
               filter_cells (match get user "filter_name" with Some (Str s) => s | _ => "shepp" end) dt pdim
               <= (match get user "filter_par" with Some v => cells v | None => 2 end);
  f_cuda : forall k v, k = "grid_size" \/ k = "block_size" -> get user k = Some v -> 3 <= cells v }.
(** The element type of a pointer type *)
Definition elem_for (t : ctype) : elem := match t with Pint => I32 | Pbool => B8 | Pushort => U16 | _ => F32 end.

(** What the documentation of recon says of options that are not given. *)
Definition documented (dy dt dx : Z) (k : string) (v : pyval) : Prop :=
  let array t s := exists i, v = Arr (mkArr i t s) in
  if String.eqb k "num_gridx" || String.eqb k "num_gridy" then v = Num dx
  else if String.eqb k "num_iter" || String.eqb k "num_block" then v = Num 1
  else if String.eqb k "pool_size" then v = Num 0
  else if String.eqb k "accelerated" then v = Flag false
  else if String.eqb k "filter_name" then v = Str "shepp"
  else if String.eqb k "interpolation" then v = Str "NN" else if String.eqb k "device" then v = Str "gpu"
  else if String.eqb k "ind_block" then array I32 [dt]
  else if String.eqb k "filter_par" then array F32 [2]
  else if String.eqb k "reg_par" then array F32 [10]
  else if String.eqb k "reg_data" then array F32 [dy; dx; dx]
  else if String.eqb k "grid_size" || String.eqb k "block_size" then array I32 [3]
  else False.
(** [v] is the option [u] of the caller: numbers for parameters that are arrays become arrays of one element. *)
Definition same_option (k : string) (u v : pyval) : Prop :=
  match u with
  | Arr b => exists a, v = Arr a /\ ident a = ident b /\ shape a = shape b
  | F32scalar _ => v = u
  | _ => if String.eqb k "reg_par" || String.eqb k "filter_par" || String.eqb k "reg_data" then exists i, v = Arr (mkArr i F32 [])
         else v = u
  end.
(** [part] is the slices lo:hi of [a]. *)
Definition part_of (a part : ndarray) (lo hi : Z) (rest : list Z) : Prop :=
  ident part = ident a /\ elem_of part = F32 /\ shape part = (hi - lo) :: rest.
Definition meant_call (alg : string) (dy dt dx : Z) (tomo theta center : ndarray) (init : option ndarray) (user : kwargs) (lo hi : Z)
    (p : string) (v : pyval) : Prop :=
  if String.eqb p "data" then exists a, v = Arr a /\ part_of tomo a lo hi [dt; dx]
  else if String.eqb p "center" then exists a, v = Arr a /\ part_of center a lo hi []
  else if String.eqb p "theta" then v = Arr theta
  else if String.eqb p "recon" then exists a, v = Arr a /\ elem_of a = F32 /\ shape a = [hi - lo; opt user "num_gridx" dx; opt user "num_gridy" dx] /\
    forall i, init = Some i -> ident a = ident i
  else if String.eqb p "dy" then v = Num (hi - lo) else if String.eqb p "dt" then v = Num dt else if String.eqb p "dx" then v = Num dx
  else if single alg && String.eqb p "num_block" then v = Num 1
  else if single alg && String.eqb p "ind_block" then exists a, v = Arr a
  else match get user (key_of p) with Some u => same_option (key_of p) u v | None => documented dy dt dx (key_of p) v end.
