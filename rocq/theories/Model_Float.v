(** IEEE binary32 values and the operations of numpy/numexpr/C on them.
    The value type and the correctly rounded operations are those of the standard library
    (Coq.Floats.SpecFloat); NaN payloads and exception flags are not modelled. *)
From Verif Require Import Base.
From Coq Require Export SpecFloat.

Notation f32 := spec_float.

(** x < y, x <= y, x == y as in C and numpy: false when an operand is NaN. *)
Definition flt (x y : f32) : bool := SFltb x y.
Definition fle (x y : f32) : bool := SFleb x y.
Definition feq (x y : f32) : bool := SFeqb x y.
Definition fsub (x y : f32) : f32 := SFsub 24 128 x y.
Definition fadd (x y : f32) : f32 := SFadd 24 128 x y.
Definition fdiv (x y : f32) : f32 := SFdiv 24 128 x y.
Definition fabs (x : f32) : f32 := SFabs x.
Definition fvalid (x : f32) : bool := valid_binary 24 128 x.

Definition is_nan (x : f32) : bool := match x with S754_nan => true | _ => false end.
Definition is_fin (x : f32) : bool :=
  match x with S754_zero _ | S754_finite _ _ _ => true | _ => false end.

Definition fzero : f32 := S754_zero false.
