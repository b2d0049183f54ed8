From Verif Require Import Base Order CLoop Model_Ray Proofs_Ray Model_RayF Model_SolverF Spec_SolverF Proofs_FloatB Proofs_RayF Proofs_RayF2 Proofs_RayF3 Proofs_RayF4 Proofs_SolverF Proofs_SolverF2 Proofs_SolverF3 Proofs_SolverF6 Model_PmlF Proofs_GradF4 Model_VectorF Spec_PrepF Proofs_PrepF Proofs_VectorF Proofs_VectorF2 Spec_VectorF Proofs_VectorF3 Proofs_VectorF4.
From Coq Require Import Reals Lra Psatz.
From Flocq Require Import Core BinarySingleNaN.
Local Open Scope Z_scope.

(** ** Slices do not influence each other *)
Section Local.
  Variables (fmodf sinf cosf : b32 -> b32) (junk : arr pointF * arr pointF * arr pointF) (g : geomF).
  Hypothesis Hx : 1 <= gxF g <= 2 ^ 15.
  Hypothesis Hy : 1 <= gyF g <= 2 ^ 15.
  Notation kd s p d := (d + p * dxF g + s * dtF g * dxF g).
  Notation jr s x y := (y + x * gyF g + s * gxF g * gyF g).
  Definition same (s : Z) (a b : arr b32) : Prop := forall x y, 0 <= x < gxF g -> 0 <= y < gyF g -> a (jr s x y) = b (jr s x y).
  Lemma newV_ext data data' c s q1 q2 r1 r2 x y v : (forall p d, 0 <= p < dtF g -> 0 <= d < dxF g -> exists r, ray2F fmodf sinf cosf junk g (gxF g + gyF g) c p d = Some r) ->
    same s q1 r1 -> same s q2 r2 -> (forall p d, 0 <= p < dtF g -> 0 <= d < dxF g -> data (kd s p d) = data' (kd s p d)) ->
    newV fmodf sinf cosf junk g data c s q1 q2 x y v = newV fmodf sinf cosf junk g data' c s r1 r2 x y v.
  Proof.
    intros R S1 S2 Hd. unfold newV. f_equal. f_equal. rewrite !flat_map_concat_map. f_equal. apply map_ext_in. intros (p & d) Hpd. apply in_all in Hpd. cbn [fst snd] in *. destruct Hpd as (Hp & Hd'). rewrite (Hd p d Hp Hd').
    destruct (R p d Hp Hd') as ((segs & (vx & vy)) & Er). unfold ray0. cbn [fst snd]. rewrite Er. pose proof (ray2_in fmodf sinf cosf junk g Hx Hy _ _ _ _ _ _ Er) as So. unfold correctionsV, shareV.
    replace (seenV (B754_zero false) (fun x0 y0 => q1 (jr s x0 y0)) (fun x0 y0 => q2 (jr s x0 y0)) (segs, (vx, vy))) with (seenV (B754_zero false) (fun x0 y0 => r1 (jr s x0 y0)) (fun x0 y0 => r2 (jr s x0 y0)) (segs, (vx, vy))); auto.
    unfold seenV. f_equal. apply map_ext_in. intros ((x0 & y0) & w0) Hw. destruct (So _ _ _ Hw) as (A1 & A2). now rewrite (S1 x0 y0 A1 A2), (S2 x0 y0 A1 A2).
  Qed.
  Theorem slices_apart data data' s : 0 <= s < dyF g -> (forall p d, 0 <= p < dtF g -> 0 <= d < dxF g -> data (kd s p d) = data' (kd s p d)) ->
    forall n : nat, forall q1 q2 r1 r2 q1' q2' r1' r2', same s q1 r1 -> same s q2 r2 ->
    vectorF fmodf sinf cosf junk g data (Z.of_nat n) q1 q2 = Some (q1', q2') -> vectorF fmodf sinf cosf junk g data' (Z.of_nat n) r1 r2 = Some (r1', r2') -> same s q1' r1' /\ same s q2' r2'.
  Proof.
    intros Hs Hd. induction n as [|n IH]; intros q1 q2 r1 r2 q1' q2' r1' r2' S1 S2 E1 E2.
    - unfold vectorF, ofor in E1, E2. change (zrange 0 (Z.of_nat 0)) with (@nil Z) in E1, E2. cbn [ofold] in E1, E2. apply some_eq in E1, E2. apply pair_eq in E1, E2. cbn [fst snd] in E1, E2. destruct E1 as (-> & ->), E2 as (-> & ->). auto.
    - rewrite Nat2Z.inj_succ in E1, E2. unfold Z.succ in E1, E2. rewrite passes in E1, E2 by lia. destruct (vectorF fmodf sinf cosf junk g data (Z.of_nat n) q1 q2) as [(a1 & a2)|] eqn:G0; [|discriminate E1]. destruct (vectorF fmodf sinf cosf junk g data' (Z.of_nat n) r1 r2) as [(b1 & b2)|] eqn:G1; [|discriminate E2]. cbn [obind] in E1, E2. cbn [fst snd] in E1, E2. destruct (IH _ _ _ _ _ _ _ _ S1 S2 G0 G1) as (T1 & T2).
      destruct (pass_value fmodf sinf cosf junk g data Hx Hy s _ _ _ _ Hs E1) as (R1 & W1). destruct (pass_value fmodf sinf cosf junk g data' Hx Hy s _ _ _ _ Hs E2) as (R2 & W2).
      split; intros x y H1 H2; destruct (W1 x y H1 H2) as (A1 & A2), (W2 x y H1 H2) as (B1 & B2).
      + rewrite A1, B1, (T1 x y H1 H2). f_equal. now apply newV_ext.
      + rewrite A2, B2, (T2 x y H1 H2). f_equal. now apply newV_ext.
  Qed.
End Local.
