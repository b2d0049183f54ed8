(** The window of gridrec and the differential equation of the prolate spheroidal wave functions: polynomials with
    rational coefficients, checked by computation. *)
From Coq Require Import QArith Qreals Qabs Reals Lra.
From Verif Require Import Base Model_Gridrec Proofs_Gridrec Proofs_Gridimg Proofs_Poly Proofs_Filters Spec_Gridrec.
Local Open Scope R_scope.

(** ** the differential equation *)
Definition residual (chi c2 : Q) (f : poly) : poly :=
  let f1 := pderiv f in let f2 := pderiv f1 in
  padd (padd f2 (pscale (-1) (pshift (pshift f2)))) (padd (pscale (-2) (pshift f1)) (padd (pscale chi f) (pscale (- c2) (pshift (pshift f))))).
Lemma residual_spec chi c2 f x : pe (residual chi c2 f) x =
  (1 - x * x) * pe (pderiv (pderiv f)) x - 2 * x * pe (pderiv f) x + (Q2R chi - Q2R c2 * (x * x)) * pe f x.
Proof.
  unfold residual. repeat rewrite ?pe_add, ?pe_scale, ?pe_shift. rewrite Q2R_opp.
  replace (Q2R (-1)) with (-1) by (unfold Q2R; cbn; lra). replace (Q2R (-2)) with (-2) by (unfold Q2R; cbn; lra). ring.
Qed.
Definition chi : Q := 621625 # 100000.
Definition res_poly : poly := residual chi 49 window_poly.
Definition res_even : poly := firstn 12 (fst (halves res_poly)).
Lemma res_checks : (peq (fst (halves res_poly)) res_even = true /\ pzero (snd (halves res_poly)) = true) /\
  (peq (expand (form res_even)) res_even = true /\ peq (expand (pascal 11)) [1%Q] = true) /\ below (56 # 100000) (form res_even) (pascal 11) = true.
Proof. split; [split|split; [split|]]; vm_compute; reflexivity. Qed.
Lemma residual_bound x : -1 <= x <= 1 -> Rabs (pe res_poly x) <= 56 / 100000.
Proof.
  intros Hx. destruct res_checks as ((C1 & C2) & (C3 & C4) & C5).
  rewrite halves_spec, (pzero_sound _ _ C2), (peq_sound _ _ _ C1), Rmult_0_r, Rplus_0_r.
  replace (56 / 100000) with (Q2R (56 # 100000)) by (unfold Q2R; cbn; lra).
  apply (bound_sound _ _ (form res_even) (pascal 11)); auto. nra.
Qed.
