(** What grad, tikh and tv compute for a slice, stated per pixel. *)
From Verif Require Import Base CLoop Model_Ray Model_RayF Model_SolverF Spec_SolverF Model_PmlF Spec_PmlF.
From Coq Require Import Reals.
From Flocq Require Import Core BinarySingleNaN.
Local Open Scope Z_scope.

Section Slice.
  Variable segs : Z -> Z -> list (Z * b32).                      (* pixels and lengths on the ray of an angle and a detector pixel *)
  Variables dt dx gx gy : Z.
  Variable data : Z -> Z -> b32.                                 (* measurements, by angle and detector pixel *)
  Variable r : b32.                                              (* scale *)
  (** Sum of back (q p d) w over the pieces w of the rays (p, d) in pixel i *)
  Definition back_sum (back : b32 -> b32 -> b32) (q : Z -> Z -> b32) (i : Z) : b32 :=
    fold_left (fun v '(u, w) => fadd v (back u w)) (rays dt dx (fun p d => if nez (sum_sq (segs p d)) then map (fun w => (q p d, w)) (lengths segs i p d) else [])) zeroF.

  (** ** grad and tikh: x is the image over r, y the gradient; x0 and y0 are those of the iteration before *)
  Variable first : b32.                                          (* first step *)
  Variable par : b32.                                            (* reg_pars[0] *)
  Variable prior : option (b32 * (Z -> b32)).                    (* tikh: reg_pars[1] and the slice of reg_data *)
  Definition gradient (x : Z -> b32) (i : Z) : b32 :=
    let y := back_sum (fun q w => fmul (fmul (fmul (of_int 2) r) q) w) (fun p d => fsub (fmul (simulated segs x p d) r) (data p d)) i in
    match prior with None => y | Some (alpha, ref) => fadd y (fmul (fmul (of_int 2) alpha) (fsub (x i) (ref i))) end.
  Definition bb (x x0 y y0 : Z -> b32) : b32 :=
    let pix := zrange 0 (gx * gy) in
    let num := fold_left (fun a i => fadd a (fmul (fsub (x i) (x0 i)) (fsub (y i) (y0 i)))) pix zeroF in
    let den := fold_left (fun a i => dadd a (to64 (fmul (fsub (y i) (y0 i)) (fsub (y i) (y0 i))))) pix (of_int64 0) in
    to32 (ddiv (to64 num) den).
  Definition step (k : nat) (x x0 y y0 : Z -> b32) : b32 :=
    if Bltb par (of_int 0) then match k with O => first | _ => bb x x0 y y0 end else par.
  Definition grad_next (k : nat) (st : (Z -> b32) * (Z -> b32) * (Z -> b32)) : (Z -> b32) * (Z -> b32) * (Z -> b32) :=
    let '(x, x0, y0) := st in
    let y := gradient x in let l := step k x x0 y y0 in
    (fun i => fsub (x i) (fmul l (y i)), x, y).
  Fixpoint grad_run (num : nat) (img : Z -> b32) : (Z -> b32) * (Z -> b32) * (Z -> b32) :=
    match num with
    | O => (fun i => fdiv (img i) r, fun i => fdiv (img i) r, fun _ => zeroF)
    | S k => grad_next k (grad_run k img)
    end.
  Definition grad_image (num : nat) (img : Z -> b32) (i : Z) : b32 := fmul (fst (fst (grad_run num img)) i) r.

  (** ** tv: x over-relaxed image, u image, (vx, vy) dual variable of the penalty, q of the data *)
  Variable c : b32.
  Definition inside (i : Z) : bool := (i / gx <? gy - 1) && (i mod gx <? gx - 1).
  Record tv_state := mkTv { tx : Z -> b32; tu : Z -> b32; tvx : Z -> b32; tvy : Z -> b32; tq : Z -> Z -> b32 }.
  Definition clip (x y : b32) : b64 :=
    let n := ddiv (dsqrt (to64 (fadd (fmul x x) (fmul y y)))) (to64 par) in if Bltb n (of_int64 1) then of_int64 1 else n.
  Definition clipped (a x y : b32) : b32 := to32 (ddiv (to64 a) (clip x y)).
  Definition ascent_x (st : tv_state) (i : Z) : b32 := fadd (tvx st i) (fmul c (fsub (tx st (i + 1)) (tx st i))).
  Definition ascent_y (st : tv_state) (i : Z) : b32 := fadd (tvy st i) (fmul c (fsub (tx st (i + gx)) (tx st i))).
  Definition dual_x (st : tv_state) (i : Z) : b32 := if inside i then clipped (ascent_x st i) (ascent_x st i) (ascent_y st i) else tvx st i.
  Definition dual_y (st : tv_state) (i : Z) : b32 := if inside i then clipped (ascent_y st i) (ascent_x st i) (ascent_y st i) else tvy st i.
  Definition dual_q (st : tv_state) (p d : Z) : b32 :=
    fdiv (fsub (fadd (tq st p d) (fmul (fmul c (simulated segs (tx st) p d)) r)) (fmul c (data p d))) (fadd (of_int 1) c).
  Definition primal (st : tv_state) (i : Z) : b32 :=
    let vx := dual_x st in let vy := dual_y st in
    let a := fsub (tu st i) (fmul c (back_sum (fun q w => fmul (fmul r q) w) (dual_q st) i)) in
    let a := fadd a (fmul c (if i mod gx =? 0 then vx i else fsub (vx i) (vx (i - 1)))) in
    fadd a (fmul c (if i / gx =? 0 then vy i else fsub (vy i) (vy (i - gx)))).
  Definition tv_next (st : tv_state) : tv_state :=
    mkTv (fun i => fsub (fmul (of_int 2) (primal st i)) (tu st i)) (primal st) (dual_x st) (dual_y st) (dual_q st).
  Fixpoint tv_run (num : nat) (img : Z -> b32) : tv_state :=
    match num with
    | O => mkTv (fun i => fdiv (img i) r) (fun i => fdiv (img i) r) (fun _ => zeroF) (fun _ => zeroF) (fun _ _ => zeroF)
    | S k => tv_next (tv_run k img)
    end.
  Definition tv_image (num : nat) (img : Z -> b32) (i : Z) : b32 := fmul (tx (tv_run num img) i) r.
End Slice.

(** Zero of either sign; NaN *)
Definition is_zero {prec emax} (x : binary_float prec emax) : Prop := match x with B754_zero _ => True | _ => False end.
