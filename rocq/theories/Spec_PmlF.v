(** What one pass of pml_quad or pml_hybrid computes for a pixel of a slice, stated per pixel: sums over the rays that meet
    the pixel and over its neighbours in the grid. *)
From Verif Require Import Base CLoop Model_Ray Model_RayF Model_SolverF Spec_SolverF Model_PmlF.
From Coq Require Import Reals.
From Flocq Require Import Core BinarySingleNaN.
Local Open Scope Z_scope.

(** NaN, or not above zero; NaN, or not below b *)
Definition npos (x : b32) : Prop := match x with B754_zero _ | B754_nan => True | B754_infinity s | B754_finite s _ _ _ => s = true end.
Definition lb {prec emax} (b : R) (x : binary_float prec emax) : Prop := match x with B754_nan => True | B754_infinity s => s = false | _ => (b <= B2R x)%R end.

Section Slice.
  Variable segs : Z -> Z -> list (Z * b32).                      (* pixels and lengths on the ray of an angle and a detector pixel *)
  Variables dt dx gx gy : Z.
  Variable data : Z -> Z -> b32.                                 (* measurements, by angle and detector pixel *)
  Variables (hybrid : bool) (beta delta : b32).
  Variable img : Z -> b32.

  (** Rays: all angles, all detector pixels *)
  Definition rays {A} (f : Z -> Z -> list A) : list A := flat_map (fun p => flat_map (f p) (zrange 0 dx)) (zrange 0 dt).
  Definition lengths (i p d : Z) : list b32 := map snd (filter (fun '(j, _) => j =? i) (segs p d)).
  Definition simulated (p d : Z) : b32 := dotF zeroF (map (fun '(j, w) => (img j, w)) (segs p d)).
  Definition pix_length (i : Z) : b32 := fold_left fadd (rays (lengths i)) zeroF.
  Definition pix_e (i : Z) : b32 := fold_left (fun v '(u, w) => fsub v (fmul (fmul (img i) u) w))
    (rays (fun p d => if nez (sum_sq (segs p d)) then map (fun w => (fdiv (data p d) (simulated p d), w)) (lengths i p d) else [])) zeroF.

  (** Neighbours of row n and column m that are in the grid; the weight is that of a pixel inside, on an edge or at a corner *)
  Definition offsets (n m : Z) : list (Z * Z) :=
    filter (fun '(a, b) => (0 <=? n + a) && (n + a <? gx) && (0 <=? m + b) && (m + b <? gy))
      [(0, 1); (0, -1); (1, 0); (-1, 0); (1, 1); (1, -1); (-1, 1); (-1, -1)].
  Definition total (n m : Z) : b32 :=
    match length (offsets n m) with 8%nat => total_w 4 4 | 5%nat => total_w 3 2 | _ => total_w 2 1 end.
  Definition weight (n m a b : Z) : b32 := if (a =? 0) || (b =? 0) then near_w (total n m) else diag_w (total n m).
  Definition coef (w x y : b32) : b32 :=
    let k := fmul (fmul (of_int 2) beta) w in if hybrid then fmul k (gammaF delta x y) else k.
  Definition pix_fg (n m : Z) : b32 * b32 :=
    let x := img (m + n * gy) in
    fold_left (fun '(f, gg) '(a, b) =>
      let y := img (m + b + (n + a) * gy) in let k := coef (weight n m a b) x y in
      (fadd f k, fsub gg (fmul k (fadd x y)))) (offsets n m) (zeroF, zeroF).

  Definition pix_new (i : Z) : b32 :=
    let '(f, gg) := pix_fg (i / gy) (i mod gy) in
    if nez f then rootF (pix_e i) f (fadd gg (pix_length i)) else img i.
End Slice.
(** num passes over one slice *)
Fixpoint passes segs dt dx gx gy data hybrid beta delta (num : nat) (img : Z -> b32) : Z -> b32 :=
  match num with
  | O => img
  | S num => pix_new segs dt dx gx gy data hybrid beta delta (passes segs dt dx gx gy data hybrid beta delta num img)
  end.
