From Verif Require Import Base Order CLoop Model_Ray Proofs_Ray Model_RayF Model_SolverF Spec_SolverF Proofs_FloatB Proofs_RayF Proofs_RayF2 Proofs_RayF3 Proofs_RayF4 Proofs_SolverF Proofs_SolverF2 Proofs_SolverF3 Proofs_SolverF6 Model_PmlF Proofs_GradF4 Model_VectorF Spec_PrepF Proofs_PrepF Proofs_VectorF Proofs_VectorF2 Spec_VectorF Proofs_VectorF3.
From Coq Require Import Reals Lra Psatz.
From Flocq Require Import Core BinarySingleNaN.
Local Open Scope Z_scope.

Section Pass.
  Variables (fmodf sinf cosf : b32 -> b32) (junk : arr pointF * arr pointF * arr pointF) (g : geomF) (data : arr b32).
  Hypothesis Hx : 1 <= gxF g <= 2 ^ 15.
  Hypothesis Hy : 1 <= gyF g <= 2 ^ 15.
  Notation buf := (gxF g + gyF g).
  Notation ray_ b := (ray2F fmodf sinf cosf junk g b).
  Notation kd s p d := (d + p * dxF g + s * dtF g * dxF g).
  Notation jr s x y := (y + x * gyF g + s * gxF g * gyF g).
  Notation all := (list_prod (zrange 0 (dtF g)) (zrange 0 (dxF g))).
  Lemma in_all pd : In pd all -> 0 <= fst pd < dtF g /\ 0 <= snd pd < dxF g.
  Proof. destruct pd as (p & d). intros H. apply in_prod_iff in H. destruct H as (H1 & H2). apply in_zrange in H1, H2. cbn [fst snd]. lia. Qed.
  Definition ray0 (c : b32) (pd : Z * Z) : rayV := match ray_ buf c (fst pd) (snd pd) with Some r => r | None => ([], (zeroF, zeroF)) end.
  Definition newV (c : b32) (s : Z) (r1 r2 : arr b32) (x y : Z) (v : rayV -> b32) : b32 :=
    fdiv (sumF (flat_map (fun pd => correctionsV (fun x y => r1 (jr s x y)) (fun x y => r2 (jr s x y)) x y (data (kd s (fst pd) (snd pd))) (v (ray0 c pd)) (ray0 c pd)) all))
         (sumF (flat_map (fun pd => lengthsV x y (ray0 c pd)) all)).
  Lemma slice_value s r1 r2 sd r1' r2' sd' : vec_sliceF fmodf sinf cosf junk g data s ((r1, r2), sd) = Some ((r1', r2'), sd') ->
    (forall p d, 0 <= p < dtF g -> 0 <= d < dxF g -> sd (kd s p d) = zeroF) ->
    (forall p d, 0 <= p < dtF g -> 0 <= d < dxF g -> exists r, ray_ buf (centerF g s) p d = Some r) /\
    forall x y, 0 <= x < gxF g -> 0 <= y < gyF g ->
      r1' (jr s x y) = fadd (r1 (jr s x y)) (newV (centerF g s) s r1 r2 x y (fun r => fst (snd r))) /\
      r2' (jr s x y) = fadd (r2 (jr s x y)) (newV (centerF g s) s r1 r2 x y (fun r => snd (snd r))).
  Proof.
    intros E Z0. unfold vec_sliceF in E. ob E. apply load_some in E0. destruct E0 as (_ & ->). ob E. destruct a as ((sd1 & su) & (u1 & u2)). ob E. destruct a as (q1 & q2). apply some_eq in E. apply pair_eq in E. destruct E as (E & _). apply pair_eq in E. cbn [fst snd] in E. destruct E as (-> & ->).
    pose proof (proj2 (bumps_cell g _ _ _ _ _ _ _ _ E1)) as B. rewrite ofor_prod in E0.
    assert (W : forall x y, 0 <= x < gxF g -> 0 <= y < gyF g -> _) by (intros x y H1 H2; exact (rays_cell fmodf sinf cosf junk g data Hx Hy s (centerF g s) r1 r2 x y all H1 H2 (NoDup_prod _ _ (NoDup_zrange _ _) (NoDup_zrange _ _)) in_all _ _ _ _ _ _ _ _ E0 (fun pd H => Z0 _ _ (proj1 (in_all pd H)) (proj2 (in_all pd H))))).
    split.
    - intros p d Hp Hd. destruct (W 0 0 ltac:(lia) ltac:(lia)) as (W0 & _). apply (W0 (p, d)). apply in_prod; apply in_zrange; lia.
    - intros x y H1 H2. destruct (B x y H1 H2) as (B1 & B2). destruct (W x y H1 H2) as (_ & W1 & W2 & W3). rewrite B1, B2, W1, W2, W3. unfold newV, sumF, ray0. auto.
  Qed.
  Definition keep (s : Z) (st st' : (arr b32 * arr b32) * arr b32) : Prop :=
    (forall x y, 0 <= x < gxF g -> 0 <= y < gyF g -> fst (fst st') (jr s x y) = fst (fst st) (jr s x y) /\ snd (fst st') (jr s x y) = snd (fst st) (jr s x y)) /\
    (forall p d, 0 <= p < dtF g -> 0 <= d < dxF g -> snd st' (kd s p d) = snd st (kd s p d)).
  Lemma slice_keep s s' st st' : s' <> s -> vec_sliceF fmodf sinf cosf junk g data s' st = Some st' -> keep s st st'.
  Proof.
    intros N E. destruct st as ((r1 & r2) & sd). unfold vec_sliceF in E. ob E. ob E. destruct a0 as ((sd1 & su) & (u1 & u2)). ob E. destruct a0 as (q1 & q2). apply some_eq in E. subst st'.
    pose proof (proj1 (bumps_cell g _ _ _ _ _ _ _ _ E2)) as B. split; cbn [fst snd]; [intros x y H1 H2; apply B; auto|]. intros p d Hp Hd. rewrite ofor_prod in E1.
    change (fst (fst ((sd1, su), (u1, u2))) (kd s p d) = sd (kd s p d)). eapply (ofold_inv (fun t : stateV => fst (fst t) (kd s p d) = sd (kd s p d))); [exact E1|auto|].
    intros (p' & d') ((t1 & t2) & (t3 & t4)) ((v1 & v2) & (v3 & v4)) Hpd I F. apply in_all in Hpd. cbn [fst snd] in *.
    rewrite (proj1 (ray_cell fmodf sinf cosf junk g data Hx Hy s' a r1 r2 p' d' _ _ _ _ _ _ _ _ 0 0 ltac:(lia) ltac:(lia) F)); auto. intros Q. apply data_inj in Q; lia.
  Qed.
  Theorem pass_value s r1 r2 r1' r2' : 0 <= s < dyF g -> vectorF fmodf sinf cosf junk g data 1 r1 r2 = Some (r1', r2') ->
    (forall p d, 0 <= p < dtF g -> 0 <= d < dxF g -> exists r, ray_ buf (centerF g s) p d = Some r) /\
    forall x y, 0 <= x < gxF g -> 0 <= y < gyF g ->
      r1' (jr s x y) = fadd (r1 (jr s x y)) (newV (centerF g s) s r1 r2 x y (fun r => fst (snd r))) /\
      r2' (jr s x y) = fadd (r2 (jr s x y)) (newV (centerF g s) s r1 r2 x y (fun r => snd (snd r))).
  Proof.
    intros Hs E. unfold vectorF in E. unfold ofor at 1 in E. change (zrange 0 1) with [0] in E. cbn [ofold] in E. ob E. apply some_eq in E. subst a. ob E0. apply some_eq in E0. destruct a as (rr & sdf). cbn [fst] in E0. subst rr.
    destruct (ofor_only (keep s) 0 (dyF g) s _ _ _ Hs E) as (t1 & t2 & K1 & F & K2).
    - intros t. split; intros; auto.
    - intros t u v (A1 & A2) (B1 & B2). split; intros; [destruct (A1 x y), (B1 x y); auto; split; congruence|]. rewrite B2, A2; auto.
    - intros j t u Hj N F. apply (slice_keep s j); auto.
    - destruct t1 as ((q1 & q2) & sq), t2 as ((w1 & w2) & sw). destruct (slice_value s q1 q2 sq w1 w2 sw F) as (V0 & V1).
      + intros p d Hp Hd. rewrite (proj2 K1); auto.
      + split; auto. intros x y H1 H2. destruct (V1 x y H1 H2) as (V2 & V3). destruct (proj1 K2 x y H1 H2) as (K3 & K4). cbn [fst snd] in K3, K4. rewrite K3, K4, V2, V3. destruct (proj1 K1 x y H1 H2) as (K5 & K6). cbn [fst snd] in K5, K6. rewrite K5, K6.
        assert (Q : forall v, newV (centerF g s) s q1 q2 x y v = newV (centerF g s) s r1 r2 x y v); [|rewrite !Q; auto]. intros v. unfold newV. f_equal. f_equal. rewrite !flat_map_concat_map. f_equal. apply map_ext_in. intros (p & d) Hpd. apply in_all in Hpd. cbn [fst snd] in *. destruct Hpd as (Hp & Hd).
        destruct (V0 p d Hp Hd) as ((segs & (vx & vy)) & Er). unfold ray0. cbn [fst snd]. rewrite Er. pose proof (ray2_in fmodf sinf cosf junk g Hx Hy _ _ _ _ _ _ Er) as So. unfold correctionsV, shareV.
        replace (seenV (B754_zero false) (fun x0 y0 => q1 (jr s x0 y0)) (fun x0 y0 => q2 (jr s x0 y0)) (segs, (vx, vy))) with (seenV (B754_zero false) (fun x0 y0 => r1 (jr s x0 y0)) (fun x0 y0 => r2 (jr s x0 y0)) (segs, (vx, vy))); auto.
        unfold seenV. f_equal. apply map_ext_in. intros ((x0 & y0) & w0) Hw. destruct (So _ _ _ Hw) as (A1 & A2). destruct (proj1 K1 x0 y0 A1 A2) as (K7 & K8). cbn [fst snd] in K7, K8. now rewrite K7, K8.
  Qed.
  Theorem passes n m r1 r2 : 0 <= n -> 0 <= m -> vectorF fmodf sinf cosf junk g data (n + m) r1 r2 = let? r := vectorF fmodf sinf cosf junk g data n r1 r2 in vectorF fmodf sinf cosf junk g data m (fst r) (snd r).
  Proof.
    intros Hn Hm. unfold vectorF, ofor at 1 3. rewrite <- (@zrange_app 0 n (n + m)), ofold_app by lia. destruct (ofold _ (zrange 0 n) (r1, r2)) as [(a & b)|]; cbn [obind fst snd]; auto. unfold ofor at 2.
    replace (zrange n (n + m)) with (map (fun i => n + i) (zrange 0 m)); [rewrite ofold_map; reflexivity|]. unfold zrange. rewrite map_map. replace (n + m - n) with (m - 0) by lia. apply map_ext. intros i. lia.
  Qed.
  (** ** project2 and project3 *)
  Lemma proj_value {O} (sim : list (Z * Z * b32) -> b32 * b32 -> Z -> Z -> Z -> arr b32 -> option (arr b32)) (val : b32 -> rayV -> Z -> O -> b32) (o : O) b c data0 r s p d :
    ofor 0 (dtF g) (fun p => ofor 0 (dxF g) (fun d data => let? r := ray_ b c p d in ofor 0 (dyF g) (fun s data => sim (fst r) (snd r) s p d data) data)) data0 = Some r ->
    (forall segs v s p d a r, seg2_ok g segs -> 0 <= s < dyF g -> sim segs v s p d a = Some r -> (forall j, j <> kd s p d -> r j = a j) /\ r (kd s p d) = val (a (kd s p d)) (segs, v) s o) ->
    0 <= s < dyF g -> 0 <= p < dtF g -> 0 <= d < dxF g -> exists ry, ray_ b c p d = Some ry /\ r (kd s p d) = val (data0 (kd s p d)) ry s o.
  Proof.
    intros E Hv Hs Hp Hd. set (k := kd s p d).
    assert (exists ry, ray_ b c p d = Some ry) as (ry & Er).
    { destruct (ofor_at _ p _ _ _ Hp E) as (u & v & _ & E1 & _). destruct (ofor_at _ d _ _ _ Hd E1) as (u' & v' & _ & E2 & _). ob E2. eauto. }
    exists ry. split; auto. destruct ry as (segs & v).
    rewrite (ofor_prod (fun p d data => let? r := ray_ b c p d in ofor 0 (dyF g) (fun s data => sim (fst r) (snd r) s p d data) data)) in E.
    apply (ofold_once (fun a : arr b32 => a k) (fun w => val w (segs, v) s o) _ (p, d) _ _ _ E); [apply in_prod; apply in_zrange; lia|apply NoDup_prod; apply NoDup_zrange| |].
    - intros (p' & d') a a' Hpd N F. apply in_all in Hpd. cbn [fst snd] in *. ob F. destruct a0 as (sg & vv). cbn [fst snd] in F. pose proof (ray2_in fmodf sinf cosf junk g Hx Hy _ _ _ _ _ _ E0) as So. eapply (ofor_inv (fun t : arr b32 => t k = a k)); [exact F|auto|].
      intros s' t t' Hs' I G. rewrite (proj1 (Hv _ _ _ _ _ _ _ So Hs' G)); auto. unfold k. intros Q. apply data_inj in Q; try lia. apply N. f_equal; lia.
    - intros a a' F. cbn [fst snd] in F. rewrite Er in F. cbn [obind fst snd] in F. pose proof (ray2_in fmodf sinf cosf junk g Hx Hy _ _ _ _ _ _ Er) as So.
      apply (ofold_once (fun a : arr b32 => a k) (fun w => val w (segs, v) s o) _ s _ _ _ F); [apply in_zrange; lia|apply NoDup_zrange| |].
      + intros s' t t' Hs' N G. apply in_zrange in Hs'. rewrite (proj1 (Hv _ _ _ _ _ _ _ So Hs' G)); auto. unfold k. intros Q. apply data_inj in Q; lia.
      + intros t t' G. apply (proj2 (Hv _ _ _ _ _ _ _ So Hs G)).
  Qed.
End Pass.
