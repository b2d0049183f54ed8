(** Model of recon/wrappers.py (ASTRA, UFO, lprec) and recon/acceleration.py: everything around the external packages.  These are
    parameters: what they make of a sinogram and an image. *)
From Coq Require Import Reals String.
From Verif Require Import Base Model_Prep Model_Mproc.
Local Open Scope Z_scope.

(** ** Options (default_options, needed_options 68-86; astra 135-142) *)
Section Options.
  Variable V : Type.
  Definition dict : Type := list (string * V).
  Fixpoint lookup (k : string) (d : dict) : option V :=
    match d with [] => None | (k', v) :: d => if String.eqb k k' then Some v else lookup k d end.
  Definition has (k : string) (d : dict) : bool := match lookup k d with Some _ => true | None => false end.
  (** 140-142; the dictionary is the one of the caller, it is changed *)
  Definition fill_defaults (defaults opts : dict) : dict :=
    fold_left (fun d kv => if has (fst kv) d then d else d ++ [kv]) defaults opts.
  (** 135-142: an option that is needed and not there raises ValueError *)
  Definition astra_options (needed : list string) (defaults opts : dict) : result dict :=
    if forallb (fun o => has o opts) needed then Ok (fill_defaults defaults opts) else Raise ValueError.
End Options.
Arguments lookup {V} k d. Arguments has {V} k d. Arguments fill_defaults {V} defaults opts. Arguments astra_options {V} needed defaults opts.

(** ** ASTRA *)
Definition img : Type := Z -> Z -> R.
(** int(np.round(x)): halves to the even number *)
Definition np_round (x : R) : Z :=
  let f := Int_part x in
  if rltb (x - IZR f) (1 / 2) then f else if rltb (1 / 2) (x - IZR f) then f + 1 else if Z.even f then f else f + 1.
(** np.roll without an axis (195): the rows are rolled as one long row *)
Definition roll_flat (nang ndet shft : Z) (sino : img) : img :=
  fun r c => let k := (r * ndet + c - shft) mod (nang * ndet) in sino (k / ndet) (k mod ndet).
(** 193-203: the sinogram for a CPU projector *)
Definition astra_sino (nang ndet : Z) (center : R) (sino : img) : img :=
  let shft := np_round (IZR ndet / 2 - center) in
  if shft =? 0 then sino
  else
    let l := if shft <? 0 then 0 else shft in
    let r := if ndet <? ndet + shft then ndet else ndet + shft in
    fun i j => if in_slice ndet (0, l) j || in_slice ndet (r, ndet) j then 0%R else roll_flat nang ndet shft sino i j.

Section Astra.
  (** ASTRA on the GPU of the given number (None: no GPU index): sinogram, centre (used for proj_type 'cuda' only) and image; None: it raises. *)
  Variable gpu_t image : Type.
  Variable run : option gpu_t -> img -> R -> image -> option image.
  Variable cuda : bool.
  Variables nang ndet : Z.
  Definition slice_input (tomo : Z -> img) (center : Z -> R) (i : Z) : img :=
    if cuda then tomo i else astra_sino nang ndet (center i) (tomo i).
  (** astra_rec (166-215) for the slices of a list, in order; the first exception ends it.  The flag tells whether it got through. *)
  Fixpoint astra_rec (g : option gpu_t) (tomo : Z -> img) (center : Z -> R) (l : list Z) (recon : Z -> image) : bool * (Z -> image) :=
    match l with
    | [] => (true, recon)
    | i :: l =>
        match run g (slice_input tomo center i) (center i) (recon i) with
        | None => (false, recon)
        | Some a => astra_rec g tomo center l (fun k => if k =? i then a else recon k)
        end
    end.
  (** 150-160: one thread per GPU, the futures are dropped.  The threads work on different slices, so they are run one after the other. *)
  Definition astra_gpus (cpu : Z) (gpus : list gpu_t) (n : Z) (tomo : Z -> img) (center : Z -> R) (recon : Z -> image) : result (Z -> image) :=
    match get_ncore_slices cpu n (Some (Z.of_nat (length gpus))) None with
    | inl e => Raise e
    | inr (_, slcs) =>
        match gpus with
        | [] => Raise ValueError                        (* ThreadPoolExecutor(0) *)
        | _ => Ok (fold_left (fun r gs => snd (astra_rec (Some (fst gs)) tomo center (slc_indices n (snd gs)) r)) (combine gpus slcs) recon)
        end
    end.
  (** astra (149-163); RuntimeError stands for whatever ASTRA raises. *)
  Definition astra (cpu : Z) (gpu_list : option (list gpu_t)) (n : Z) (tomo : Z -> img) (center : Z -> R) (recon : Z -> image) : result (Z -> image) :=
    match (if cuda then gpu_list else None) with
    | Some gpus => astra_gpus cpu gpus n tomo center recon
    | None => let '(ok, r) := astra_rec None tomo center (zrange 0 n) recon in if ok then Ok r else Raise RuntimeError
    end.
End Astra.

(** ** lprec *)
(** 409-411: slices for one GPU at a time.  The quotients are of small integers, the floats are exact enough for int and ceil. *)
Definition lp_batch (N Ns ngpus : Z) : Z := Z.min (2 ^ 24 / (N * N)) ((Ns + ngpus - 1) / ngpus).
(** 420-422 *)
Definition lp_ids (N Ns ngpus : Z) : result (list (Z * Z)) :=
  if ngpus =? 0 then Raise ZeroDivisionError
  else
    let b := lp_batch N Ns ngpus in
    if b =? 0 then Raise ZeroDivisionError
    else Ok (map (fun k => (k * b, Z.min Ns ((k + 1) * b))) (zrange 0 ((Ns + b - 1) / b))).
Definition cut {A} (ids : Z * Z) (l : list A) : list A := firstn (Z.to_nat (snd ids - fst ids)) (skipn (Z.to_nat (fst ids)) l).
Definition paste {A} (a : Z) (x l : list A) : list A := firstn (Z.to_nat a) l ++ x ++ skipn (Z.to_nat a + length x) l.

Section Lprec.
  Variables image sinogram : Type.
  (** lpmethod(lp, recon[ids], tomo[ids], num_iter, reg_par, gpu): the same on every GPU *)
  Variable method : list image -> list sinogram -> list image.
  Variable tomo : list sinogram.
  Variable ngpus : nat.

  (** Where the thread of a task is: before the lock (449), with GPU number k before lpmethod has finished (459), with the result stored before
      BUSYGPUS[k] = 0 (460), or at its end with the value it returns. *)
  Inductive phase : Type := Begin | Running (k : nat) | Stored (k : nat) | Finished (r : list image).
  Record state : Type := St
    { waiting : list (Z * Z);                     (* tasks of e.map that no thread has taken *)
      tasks : list ((Z * Z) * phase);             (* tasks that were taken, first to last *)
      busy : list bool;                           (* BUSYGPUS *)
      recon : list image;
      collected : nat; shift : Z }.               (* the loop of the main thread, 435-438 *)
  Definition holds (t : (Z * Z) * phase) : bool := match snd t with Finished _ => false | _ => true end.
  Definition start (ids : list (Z * Z)) (recon : list image) : state := St ids [] (repeat false ngpus) recon 0 0.
  Fixpoint first_free (b : list bool) : option nat :=
    match b with [] => None | false :: _ => Some 0%nat | true :: b => match first_free b with Some k => Some (S k) | None => None end end.
  Inductive step : state -> option state -> Prop :=
  (** a free thread of the pool takes the next task *)
  | take ids w ts b r c s : (length (filter holds ts) < ngpus)%nat ->
      step (St (ids :: w) ts b r c s) (Some (St w (ts ++ [(ids, Begin)]) b r c s))
  (** 449-455: under the lock; gpu_id is not defined if all are busy *)
  | acquire w ts1 ids ts2 b r c s k : first_free b = Some k ->
      step (St w (ts1 ++ (ids, Begin) :: ts2) b r c s) (Some (St w (ts1 ++ (ids, Running k) :: ts2) (upd b k true) r c s))
  | crash w ts1 ids ts2 b r c s : first_free b = None -> step (St w (ts1 ++ (ids, Begin) :: ts2) b r c s) None
  (** 459 *)
  | compute w ts1 ids k ts2 b r c s :
      step (St w (ts1 ++ (ids, Running k) :: ts2) b r c s)
           (Some (St w (ts1 ++ (ids, Stored k) :: ts2) b (paste (fst ids) (method (cut ids r) (cut ids tomo)) r) c s))
  (** 460-462 in one step: the slices read at the end belong to this task only *)
  | release w ts1 ids k ts2 b r c s :
      step (St w (ts1 ++ (ids, Stored k) :: ts2) b r c s) (Some (St w (ts1 ++ (ids, Finished (cut ids r)) :: ts2) (upd b k false) r c s))
  (** 435-438: the results are fetched in order *)
  | collect w ts b r c s ids x : nth_error ts c = Some (ids, Finished x) ->
      step (St w ts b r c s) (Some (St w ts b (paste s x r) (S c) (s + Z.of_nat (length x)))).
  Inductive steps : state -> state -> Prop :=
  | steps_refl st : steps st st
  | steps_snoc st st1 st2 : steps st st1 -> step st1 (Some st2) -> steps st st2.
  (** All tasks are finished and collected: the call returns. *)
  Definition final (st : state) : Prop := waiting st = [] /\ collected st = length (tasks st) /\ forall t, In t (tasks st) -> holds t = false.

  (** Two calls at the same time: they have their own tasks and the same BUSYGPUS, which the later one sets to zero (431-432). *)
  Inductive step2 : state * state -> state * state -> Prop :=
  | left_step st1 st1' st2 : step st1 (Some st1') -> step2 (st1, st2) (st1', St (waiting st2) (tasks st2) (busy st1') (recon st2) (collected st2) (shift st2))
  | right_step st1 st2 st2' : step st2 (Some st2') -> step2 (st1, st2) (St (waiting st1) (tasks st1) (busy st2') (recon st1) (collected st1) (shift st1), st2')
  | right_reset st1 st2 : tasks st2 = [] ->
      step2 (st1, st2) (St (waiting st1) (tasks st1) (repeat false ngpus) (recon st1) (collected st1) (shift st1),
                        St (waiting st2) (tasks st2) (repeat false ngpus) (recon st2) (collected st2) (shift st2)).
  Inductive steps2 : state * state -> state * state -> Prop :=
  | steps2_refl st : steps2 st st
  | steps2_snoc st st1 st2 : steps2 st st1 -> step2 st1 st2 -> steps2 st st2.
End Lprec.
Arguments Begin {image}. Arguments Running {image} k. Arguments Stored {image} k. Arguments Finished {image} r.
Arguments St {image} waiting tasks busy recon collected shift.
Arguments waiting {image} s. Arguments tasks {image} s. Arguments busy {image} s. Arguments recon {image} s. Arguments collected {image} s. Arguments shift {image} s.
Arguments holds {image} t. Arguments final {image} st. Arguments start {image} ngpus ids recon.

(** ** UFO (_process_data 218-241, ufo_fbp and ufo_dfi 244-329) *)
(** int(array.shape[0] / 2 - width / 2), int(array.shape[0] / 2 + width / 2): halves are exact, int drops them *)
Definition ufo_crop (size width : Z) : Z * Z := (Z.quot (size - width) 2, Z.quot (size + width) 2).
(** slices[i, :, :] = array[frm:to, frm:to] for a grid of [gx] rows and [gy] columns; an axis of length one is repeated (numpy) *)
Definition ufo_slice (size width gx gy : Z) (array : img) : result img :=
  let '(frm, to) := ufo_crop size width in
  let lo := clip size frm in
  let n := Z.max 0 (clip size to - lo) in
  if ((n =? gx) || (n =? 1)) && ((n =? gy) || (n =? 1))
  then Ok (fun i j => array (lo + (if n =? 1 then 0 else i)) (lo + (if n =? 1 then 0 else j)))
  else Raise ValueError.
(** The angles the back projection uses: angle_step = theta[1] - theta[0] (253), angle_offset = pi (269; none for dfi) *)
Definition ufo_angle (offset : R) (theta : Z -> R) (k : Z) : R := (offset + IZR k * (theta 1%Z - theta 0%Z))%R.

(** ** recon_accelerated (acceleration.py 69-203) *)
Inductive implementation (F : Type) : Type := NoImpl | Named (s : string) | Callable (f : F) | OtherImpl.
Arguments NoImpl {F}. Arguments Named {F} s. Arguments Callable {F} f. Arguments OtherImpl {F}.
Definition known_implementations : list string := ["tomoperi"%string].
(** importlib.util.find_spec returns None for a missing package and raises nothing: the first name is taken (177-185) *)
Definition search_implementation (known : list string) : result string := match known with [] => Raise ValueError | k :: _ => Ok k end.
(** _get_func (192-203): [peri] is tomopy_peri's function if it is installed *)
Definition get_func {F} (peri : option F) (name : string) : result F :=
  if String.eqb name "tomoperi" then match peri with Some f => Ok f | None => Raise ValueError end else Raise TypeError.   (* a string is not callable *)
Definition recon_accelerated {F} (peri : option F) (impl : implementation F) : result F :=
  match impl with
  | NoImpl => match search_implementation known_implementations with inl e => Raise e | inr k => get_func peri k end
  | Named s => if existsb (String.eqb s) known_implementations then get_func peri s else Raise ValueError
  | Callable f => Ok f
  | OtherImpl => Raise ValueError
  end.
