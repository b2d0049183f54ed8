(** prep/stripe.py, remove_stripe_ti (212-329), exact reals; [None] is a value that is not finite (0/0, x/0).
    A vector is a function with its length given separately.  A sinogram is [sino p r]: projection p, pixel r.
    Not modelled: replacing NaN in the input (284: finite input; 309: np.isnan(..) is True never holds), the
    cast to float32. *)
From Verif Require Import Base Model_Prep Model_Solver Model_Ospml.
From Coq Require Import Reals.
Local Open Scope R_scope.

Definition nvec := Z -> number.
Definition nsum (n : Z) (f : Z -> number) : number := fold_right nadd (Some 0) (map f (zrange 0 n)).
(** numpy.convolve(a, b), full; [la], [lb] are the lengths *)
Definition convolve (la : Z) (a : nvec) (lb : Z) (b : nvec) : nvec := fun k =>
  nsum la (fun i => if (0 <=? k - i)%Z && (k - i <? lb)%Z then nmul (a i) (b (k - i)%Z) else Some 0).
Definition ndot (n : Z) (a b : nvec) : number := nsum n (fun i => nmul (a i) (b i)).
Definition vadd (a b : nvec) : nvec := fun i => nadd (a i) (b i).
Definition vsub (a b : nvec) : nvec := fun i => nsub (a i) (b i).
Definition vscale (k : number) (a : nvec) : nvec := fun i => nmul k (a i).
Definition vneg (a : nvec) : nvec := fun i => nmul (Some (-1)) (a i).

(** _kernel(m, 1) (229-243) *)
Definition kernel (m : Z) : list R := if (m =? 1)%Z then [1; -1] else if (m =? 2)%Z then [-1; 2; -1] else [-1; 3; -3; 1].
Section Cgm.
  Variable h : list R.
  Variable n : Z.                                                        (* number of pixels *)
  Let lh := Z.of_nat (length h).
  Definition h_at (i : Z) : number := nth_error h (Z.to_nat i).
  (** _ringMatXvec (246-250); an x shorter than h makes the second convolution raise *)
  Definition matxvec (x : nvec) : nvec :=
    let s := convolve n x lh (fun i => h_at (lh - 1 - i)) in
    let u := fun i => s (i + (lh - 1))%Z in
    convolve (n - (lh - 1)) u lh h_at.
  (** norm(r) < 0.0000001 (261) *)
  Definition small_norm (r : nvec) : bool :=
    match ndot n r r with Some d => rltb (sqrt d) (1 / 10000000) | None => false end.
  Variables (alpha : number) (f : nvec).
  Definition op (x : nvec) : nvec := vadd (matxvec x) (vscale alpha x).
  Record cg := mkCg { cr : nvec; cw : nvec; cz : nvec; ca : number; cx : nvec }.
  Definition cg_start : cg :=                                            (* 254-258 *)
    let x0 := fun _ => Some 0 in
    let r := vsub f (op x0) in
    let w := vneg r in
    let z := op w in
    let a := ndiv (ndot n r w) (ndot n w z) in
    mkCg r w z a (vadd x0 (vscale a w)).
  (** 260-269 with [fuel] iterations left; the boolean says whether the loop was left by break *)
  Fixpoint cg_loop (fuel : nat) (s : cg) : nvec * bool :=
    match fuel with
    | O => (cx s, false)
    | S fuel =>
      let r := vsub (cr s) (vscale (ca s) (cz s)) in
      if small_norm r then (cx s, true) else
      let B := ndiv (ndot n r (cz s)) (ndot n (cw s) (cz s)) in
      let w := vadd (vneg r) (vscale B (cw s)) in
      let z := op w in
      let a := ndiv (ndot n r w) (ndot n w z) in
      cg_loop fuel (mkCg r w z a (vadd (cx s) (vscale a w)))
    end.
  Definition max_iterations : nat := Z.to_nat 1000000.
  Definition ring_cgm : nvec := fst (cg_loop max_iterations cg_start).
End Cgm.

Section Ti.
  Variables (npix nproj : Z) (sino : Z -> Z -> R).
  Definition proj_sum (p : Z) : R := rsum (map (fun r => sino p r) (zrange 0 npix)).
  (** _get_parameter (273-274) of projections a .. b-1 *)
  Definition get_parameter (a b : Z) : number :=
    let sums := map proj_sum (zrange a b) in
    let mx := fold_right Rmax (hd 0 sums) sums in let mn := fold_right Rmin (hd 0 sums) sums in
    ndiv (Some 1) (Some (2 * (mx - mn))).
  (** mean over the projections a .. b-1 of each pixel (290, 317) *)
  Definition block_mean (a b : Z) : nvec := fun r => Some (rmean (map (fun p => sino p r) (zrange a b))).
  (** the correction of a block (286-292, 316-320) *)
  Definition correction (m a b : Z) : nvec :=
    let h := kernel m in
    ring_cgm h npix (get_parameter a b) (vneg (matxvec h npix (block_mean a b))).
  (** _ring (277-299) *)
  Definition ring (m : Z) : Z -> nvec := fun p r => nadd (Some (sino p r)) (correction m 0 nproj r).
  (** _ringb (302-329) *)
  Definition ringb (m step : Z) : result (Z -> nvec) :=
    if (step =? 0)%Z then Raise ZeroDivisionError else
    let nblock := Z.quot nproj step in
    Ok (fold_left (fun new k => fun p r =>
         if (k * step <=? p)%Z && (p <? (k + 1) * step)%Z then nadd (Some (sino p r)) (correction m (k * step) ((k + 1) * step) r) else new p r)
       (zrange 0 nblock) (fun _ _ => Some 1)).
  Definition nmin (a b : number) : number := match a, b with Some x, Some y => Some (Rmin x y) | _, _ => None end.
  Definition nmin_all (q : Z -> nvec) : number :=
    let vals := flat_map (fun p => map (fun r => q p r) (zrange 0 npix)) (zrange 0 nproj) in
    fold_right nmin (hd None vals) vals.
  Definition nsqrt (a : number) : number := match a with Some x => if rltb x 0 then None else Some (sqrt x) | None => None end.
  (** 217-219, 224-226 *)
  Definition combine_rings (alpha : R) (d1 d2 : Z -> nvec) : Z -> nvec :=
    let q := fun p r => nmul (d1 p r) (d2 p r) in
    fun p r => nsqrt (nadd (q p r) (nmul (Some alpha) (nabs (nmin_all q)))).
  (** _remove_stripe_ti (212-227), one sinogram *)
  Definition remove_stripe_ti (nblock : Z) (alpha : R) : result (Z -> nvec) :=
    if (nblock =? 0)%Z then Ok (combine_rings alpha (ring 1) (ring 2))
    else
      let size := Z.quot nproj nblock in
      match ringb 1 size, ringb 2 size with
      | inr d1, inr d2 => Ok (combine_rings alpha d1 d2)
      | inl e, _ | _, inl e => Raise e
      end.
End Ti.
