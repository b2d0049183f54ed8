From Verif Require Import Base Order CLoop Model_Ray Proofs_Ray Model_RayF Model_SolverF Spec_SolverF Proofs_FloatB Proofs_RayF Proofs_RayF2 Proofs_RayF3 Proofs_RayF4 Proofs_SolverF Proofs_SolverF2 Proofs_SolverF3 Proofs_SolverF6 Model_PmlF Proofs_GradF4 Model_VectorF Spec_PrepF Proofs_PrepF Proofs_VectorF Proofs_VectorF2 Spec_VectorF Proofs_VectorF3 Proofs_VectorF4.
From Coq Require Import Reals Lra Psatz.
From Flocq Require Import Core BinarySingleNaN.
Local Open Scope Z_scope.

Section Project.
  Variables (fmodf sinf cosf : b32 -> b32) (junk : arr pointF * arr pointF * arr pointF) (g : geomF).
  Hypothesis Hx : 1 <= gxF g <= 2 ^ 15.
  Hypothesis Hy : 1 <= gyF g <= 2 ^ 15.
  Notation ray_ b := (ray2F fmodf sinf cosf junk g b).
  Notation kd s p d := (d + p * dxF g + s * dtF g * dxF g).
  Notation jr s x y := (y + x * gyF g + s * gxF g * gyF g).
  Lemma sim_vox nobj segs v axis s p d mx my a r : axis = 0 \/ axis = 1 \/ axis = 2 -> simdata2F g nobj segs v axis s p d mx my a = Some r ->
    r (kd s p d) = seenV (a (kd s p d)) (fun x y => mx (voxelV (gxF g) (gyF g) axis s x y)) (fun x y => my (voxelV (gxF g) (gyF g) axis s x y)) (segs, v).
  Proof.
    intros Ax E. rewrite (proj2 (sim2_cell fmodf sinf cosf _ _ _ _ _ _ _ _ _ _ _ _ E)). unfold seenV. cbn [fst snd]. f_equal. revert a E. unfold simdata2F. induction segs as [|((x & y) & w) l IH]; cbn [ofold map]; intros a E; auto. ob E. rewrite (IH _ E). f_equal.
    ob E0. ob E0. rewrite E2. unfold locF in E2. apply cint_some in E2. subst a2. assert (Q : voxelV (gxF g) (gyF g) axis s x y = (if axis =? 0 then y + x * gyF g + s * gxF g * gyF g else if axis =? 1 then s + x * gyF g + y * gxF g * gyF g else x + s * gyF g + y * gxF g * gyF g)) by (unfold voxelV; destruct Ax as [->|[->| ->]]; cbn [Z.eqb Pos.eqb]; ring). rewrite Q. reflexivity.
  Qed.
  Theorem project2_value nobj objx objy data r s p d : project2F fmodf sinf cosf junk g nobj objx objy data = Some r -> 0 <= s < dyF g -> 0 <= p < dtF g -> 0 <= d < dxF g ->
    exists ry, ray_ (gxF g + gyF g + 2) (centerF g 0) p d = Some ry /\ r (kd s p d) = seenV (data (kd s p d)) (fun x y => objx (jr s x y)) (fun x y => objy (jr s x y)) ry.
  Proof.
    intros E Hs Hp Hd. unfold project2F in E. replace (emptyF g) with false in E by (unfold emptyF; lia). ob E. apply load_some in E0. destruct E0 as (_ & ->).
    apply (proj_value fmodf sinf cosf junk g Hx Hy (fun segs v s p d data => simdata2F g nobj segs v 0 s p d objx objy data) (fun a ry s (_ : unit) => seenV a (fun x y => objx (jr s x y)) (fun x y => objy (jr s x y)) ry) tt _ _ _ _ s p d E); auto.
    intros segs v s' p' d' a' r' _ _ G. split; [apply (proj1 (sim2_cell fmodf sinf cosf _ _ _ _ _ _ _ _ _ _ _ _ G))|]. apply (map_loc0 fmodf sinf cosf _ _ _ _ _ _ _ _ _ _ _ G).
  Qed.
  Theorem project3_value nobj objx objy objz axis data r s p d : axis = 0 \/ axis = 1 \/ axis = 2 -> project3F fmodf sinf cosf junk g nobj objx objy objz axis data = Some r -> 0 <= s < dyF g -> 0 <= p < dtF g -> 0 <= d < dxF g ->
    exists ry, ray_ (gxF g + gyF g + 2) (centerF g 0) p d = Some ry /\
      r (kd s p d) = seenV (data (kd s p d)) (fun x y => (if axis =? 1 then objy else objx) (voxelV (gxF g) (gyF g) axis s x y)) (fun x y => (if axis =? 0 then objy else objz) (voxelV (gxF g) (gyF g) axis s x y)) ry.
  Proof.
    intros Ax E Hs Hp Hd. unfold project3F in E. replace (emptyF g) with false in E by (unfold emptyF; lia). ob E. apply load_some in E0. destruct E0 as (_ & ->).
    apply (proj_value fmodf sinf cosf junk g Hx Hy (fun segs v s p d data => simdata3F g nobj segs v axis s p d objx objy objz data) (fun a ry s (_ : unit) => seenV a (fun x y => (if axis =? 1 then objy else objx) (voxelV (gxF g) (gyF g) axis s x y)) (fun x y => (if axis =? 0 then objy else objz) (voxelV (gxF g) (gyF g) axis s x y)) ry) tt _ _ _ _ s p d E); auto.
    intros segs v s' p' d' a' r' _ _ G. unfold simdata3F in G. destruct Ax as [->|[->| ->]]; cbn [Z.eqb Pos.eqb] in *; (split; [apply (proj1 (sim2_cell fmodf sinf cosf _ _ _ _ _ _ _ _ _ _ _ _ G))|]; refine (sim_vox _ _ _ _ _ _ _ _ _ _ _ _ G); auto).
  Qed.
  Lemma rays_same p d : match ray_ (gxF g + gyF g + 2) (centerF g 0) p d with Some r => project_segs fmodf sinf cosf junk g (centerF g 0) p d = Some (map (flat g) (fst r)) /\ seg2_ok g (fst r) | None => project_segs fmodf sinf cosf junk g (centerF g 0) p d = None end.
  Proof.
    unfold ray2F, project_segs. destruct (load _ _ p) as [th|]; cbn [obind]; auto. destruct (calc_quadrantF _) as [q|]; cbn [obind]; auto. destruct junk as ((za & zb) & zc).
    match goal with |- context [traced2_of _ ?b (traceF _ _ _ ?cx ?cy _ _ _)] => destruct (traced2_same g b q cx cy za zb zc Hx Hy) as [(N1 & N2)|(s2 & Es & Et & S2)] end; [rewrite N1, N2; reflexivity|]. rewrite Es, Et. cbn [obind fst]. auto.
  Qed.
End Project.

Section Nan.
  Variables (fmodf sinf cosf : b32 -> b32) (junk : arr pointF * arr pointF * arr pointF) (g : geomF) (data : arr b32).
  Hypothesis Hx : 1 <= gxF g <= 2 ^ 15.
  Hypothesis Hy : 1 <= gyF g <= 2 ^ 15.
  Notation jr s x y := (y + x * gyF g + s * gxF g * gyF g).
  Lemma fadd_nan x : fadd x B754_nan = B754_nan.
  Proof. destruct x as [[|]|[|]| |[|] ? ? ?]; reflexivity. Qed.
  Theorem vector_nan n r1 r2 r1' r2' s x y : 1 <= n -> 0 <= s < dyF g -> 0 <= x < gxF g -> 0 <= y < gyF g ->
    vectorF fmodf sinf cosf junk g data n r1 r2 = Some (r1', r2') ->
    (forall p d r, 0 <= p < dtF g -> 0 <= d < dxF g -> ray2F fmodf sinf cosf junk g (gxF g + gyF g) (centerF g s) p d = Some r -> lengthsV x y r = []) ->
    r1' (jr s x y) = B754_nan /\ r2' (jr s x y) = B754_nan.
  Proof.
    intros Hn Hs H1 H2 E U. replace n with (n - 1 + 1) in E by lia. rewrite passes in E by lia. ob E. destruct a as (q1 & q2). cbn [fst snd] in E.
    destruct (pass_value fmodf sinf cosf junk g data Hx Hy s _ _ _ _ Hs E) as (R & W). destruct (W x y H1 H2) as (-> & ->).
    assert (L : forall pd, In pd (list_prod (zrange 0 (dtF g)) (zrange 0 (dxF g))) -> lengthsV x y (ray0 fmodf sinf cosf junk g (centerF g s) pd) = []).
    { intros (p & d) Hpd. apply in_all in Hpd. cbn [fst snd] in Hpd. destruct Hpd as (Hp & Hd). destruct (R p d Hp Hd) as (r & Er). unfold ray0. cbn [fst snd]. rewrite Er. eauto. }
    assert (Fl : forall f : Z * Z -> list b32, (forall pd, In pd (list_prod (zrange 0 (dtF g)) (zrange 0 (dxF g))) -> f pd = []) -> flat_map f (list_prod (zrange 0 (dtF g)) (zrange 0 (dxF g))) = []).
    { intros f. generalize (list_prod (zrange 0 (dtF g)) (zrange 0 (dxF g))). induction l as [|pd l IH]; cbn; intros H; auto. rewrite H, IH; auto. }
    assert (Nn : forall v, newV fmodf sinf cosf junk g data (centerF g s) s q1 q2 x y v = B754_nan).
    { intros v. unfold newV. rewrite !Fl; [reflexivity| |]; intros pd Hpd; rewrite ?(L pd Hpd); auto. unfold correctionsV. rewrite (L pd Hpd). cbn [map]. now destruct (Beqb _ _). }
    rewrite !Nn, !fadd_nan. auto.
  Qed.
End Nan.
