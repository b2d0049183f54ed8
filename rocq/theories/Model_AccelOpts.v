(** Model of the choice of device, interpolation and pool size of the accelerated solvers: GetChoice,
    GetOpenCVInterpolationMode, GetNppInterpolationMode (utils.hh), DeviceOption, GetDevice, CreateThreadPool (common.hh),
    RuntimeOptions (data.hh) and cxx_mlem / cxx_sirt (mlem.cc, sirt.cc).

    Strings are lists of bytes; the locale is "C".  What is printed is left out. *)
From Coq Require Import String Ascii.
From Verif Require Import Base.
Local Open Scope Z_scope.

(** ** Strings *)
Definition code (c : ascii) : Z := Z.of_N (N_of_ascii c).
Definition chr (z : Z) : ascii := ascii_of_N (Z.to_N z).
Fixpoint str_map (f : ascii -> ascii) (s : string) : string :=
  match s with EmptyString => EmptyString | String c s => String (f c) (str_map f s) end.
(** toupper, tolower *)
Definition upper (c : ascii) : ascii := if (97 <=? code c) && (code c <=? 122) then chr (code c - 32) else c.
Definition lower (c : ascii) : ascii := if (65 <=? code c) && (code c <=? 90) then chr (code c + 32) else c.
Definition is_digit (c : ascii) : bool := (48 <=? code c) && (code c <=? 57).
Definition is_space (c : ascii) : bool := (code c =? 32) || ((9 <=? code c) && (code c <=? 13)).

(** find_first_of and find_last_of of the digits, from position [i] *)
Fixpoint first_digit (i : Z) (s : string) : option Z :=
  match s with EmptyString => None | String c s => if is_digit c then Some i else first_digit (i + 1) s end.
Fixpoint last_digit (i : Z) (s : string) : option Z :=
  match s with
  | EmptyString => None
  | String c s => match last_digit (i + 1) s with Some l => Some l | None => if is_digit c then Some i else None end
  end.
Definition str_length (s : string) : Z := Z.of_nat (String.length s).

(** operator>> into an int: white space is skipped, then a sign and decimal digits are read (libstdc++ and libc++ stop at the first
    other character).  Without digits the value is zero, values that do not fit are replaced by the closest int. *)
Fixpoint read_digits (acc : Z) (s : string) : Z :=
  match s with EmptyString => acc | String c s' => if is_digit c then read_digits (10 * acc + (code c - 48)) s' else acc end.
Fixpoint skip_spaces (s : string) : string :=
  match s with EmptyString => EmptyString | String c s' => if is_space c then skip_spaces s' else s end.
Definition clamp_int (z : Z) : Z := Z.max (- 2 ^ 31) (Z.min z (2 ^ 31 - 1)).
Definition read_int (s : string) : Z :=
  match skip_spaces s with
  | EmptyString => 0
  | String c s' =>
      if code c =? 45 then clamp_int (- read_digits 0 s')          (* '-' *)
      else if code c =? 43 then clamp_int (read_digits 0 s')       (* '+' *)
      else clamp_int (read_digits 0 (String c s'))
  end.

(** ** Interpolation: GetChoice (utils.hh 66-106); [None] is abort() *)
Definition get_choice (choices : list (Z * string)) (str_var : string) : option Z :=
  match find (fun itr => String.eqb (str_map upper (snd itr)) (str_map upper str_var)) choices with    (* 79-86 *)
  | Some itr => Some (fst itr)
  | None =>
      let var := read_int str_var in                                                                    (* 87-88 *)
      match find (fun itr => var =? fst itr) choices with                                               (* 90-97 *)
      | Some _ => Some var
      | None => None                                                                                    (* 98-105 *)
      end
  end.
(** utils.hh 161-169 with cv::INTER_NEAREST, INTER_LINEAR, INTER_CUBIC *)
Definition opencv_choices : list (Z * string) := [(0, "NN"%string); (1, "LINEAR"%string); (2, "CUBIC"%string)].
(** utils.hh 260-269 with NPPI_INTER_NN, NPPI_INTER_LINEAR, NPPI_INTER_CUBIC *)
Definition npp_choices : list (Z * string) := [(1, "NN"%string); (2, "LINEAR"%string); (4, "CUBIC"%string)].

(** ** Device *)
Record build : Type := { use_opencv : bool; use_cuda : bool; num_devices : Z }.
Definition option_t : Type := Z * string.      (* index, key *)

(** is_numeric (common.hh 214-229) *)
Definition is_numeric (val : string) : bool :=
  if 0 <? str_length val then
    match first_digit 0 val with
    | None => false
    | Some f => if str_length val <=? 2 then true else match last_digit 0 val with Some l => negb (f =? l) | None => true end
    end
  else false.
(** operator== with a string (common.hh 147-151) *)
Definition matches (itr : option_t) (cmp : string) : bool :=
  if negb (is_numeric cmp) then String.eqb (snd itr) (str_map lower cmp) else fst itr =? read_int cmp.

(** How a call ends that does not return normally. *)
Inductive stop : Type := Uncaught (* exception outside of the try block *) | Abort | DivByZero | BadIterator.

(** GetDevice (common.hh 235-349).  [pythreads] is the environment variable TOMOPY_PYTHON_THREADS or the number of cores. *)
Definition get_device (b : build) (pythreads : Z) (preferred : string) : stop + option_t :=
  let options := (if use_opencv b then [(0, "cpu"%string)] else []) ++                                  (* 242-244 *)
                 (if use_cuda b && (0 <? num_devices b) then [(1, "gpu"%string)] else []) in            (* 246-259 *)
  let default_key := if use_cuda b && (0 <? num_devices b) then "gpu"%string else "cpu"%string in
  match options with
  | [] => inl Uncaught                                                                                  (* 267-271 *)
  | _ =>
      match find (fun itr => matches itr default_key) options with                                      (* 274-276 *)
      | None => inl BadIterator
      | Some d =>
          if pythreads =? 0 then inl DivByZero                                                          (* 284, 327 *)
          else match find (fun itr => matches itr preferred) options with                               (* 332-335 *)
               | Some o => inr o
               | None => match find (fun itr => matches itr (snd d)) options with                       (* 337-340 *)
                         | Some o => inr o
                         | None => inl BadIterator
                         end
               end
      end
  end.

(** ** Pool size: CreateThreadPool (common.hh 55-79).  [hw] is the number of cores, [env] the variable TOMOPY_NUM_THREADS. *)
Definition as_unsigned (z : Z) : Z := z mod 2 ^ 32.
Definition pool (b : build) (hw pythreads : Z) (env : option Z) (pool_size : Z) : Z :=
  let pool_size := as_unsigned pool_size in                                                             (* data.hh 70 *)
  let pool_size :=
    if pool_size <=? 0 then
      let max_threads := if use_cuda b then as_unsigned (hw + hw) / Z.max pythreads 1 else hw / Z.max pythreads 1 in
      Z.max (match env with Some e => e | None => max_threads end) 1
    else pool_size in
  Z.max pool_size 1.

(** ** cxx_mlem, cxx_sirt (mlem.cc 69-123, sirt.cc 68-122): the solvers are given by what they make of the image and whether
    they finish or throw.  The result is the return value and the image. *)
Inductive ending (img : Type) : Type := Stopped (s : stop) | Returned (status : Z) (recon : img).
Arguments Stopped {img} s.
Arguments Returned {img} status recon.
Section Dispatch.
  Variable img : Type.
  Variables cpu gpu : Z -> Z -> img -> bool * img.     (* interpolation mode, pool size, image *)

  (** data.hh 68-88: the interpolation stays -1 if no branch is compiled in *)
  Definition interpolation (b : build) (key interp : string) : stop + Z :=
    if String.eqb key "cpu" && use_opencv b then match get_choice opencv_choices interp with Some i => inr i | None => inl Abort end
    else if String.eqb key "gpu" && use_cuda b then match get_choice npp_choices interp with Some i => inr i | None => inl Abort end
    else inr (-1).

  Definition run_cxx (b : build) (hw pythreads : Z) (env : option Z) (pool_size : Z) (interp device : string) (recon : img) : ending img :=
    match get_device b pythreads device with
    | inl s => Stopped s
    | inr o =>
        match interpolation b (snd o) interp with
        | inl s => Stopped s
        | inr i =>
            let p := pool b hw pythreads env pool_size in
            let done r := if fst r : bool then Returned 0 (snd r) else Returned 1 (snd r) in         (* 109-116 *)
            if String.eqb (snd o) "gpu" then (if use_cuda b then done (gpu i p recon) else Returned 0 recon)
            else (if use_opencv b then done (cpu i p recon) else Returned 0 recon)
        end
    end.

  (** c_accel_mlem, c_accel_sirt (util/extern/accel.py 66-125) and _dist_recon: the value returned is dropped, the caller sees the image.
      None: the process ends. *)
  Definition py_accel (b : build) (hw pythreads : Z) (env : option Z) (pool_size : Z) (interp device : string) (recon : img) : option img :=
    match run_cxx b hw pythreads env pool_size interp device recon with Stopped _ => None | Returned _ r => Some r end.
End Dispatch.
