From Verif Require Import Base Order CLoop Model_Ray Proofs_Ray Model_RayF Model_SolverF Spec_SolverF Proofs_FloatB Proofs_RayF Proofs_RayF2 Proofs_RayF3 Proofs_RayF4 Proofs_SolverF Proofs_SolverF2 Proofs_SolverF3 Proofs_SolverF4 Proofs_SolverF6 Model_PmlF Proofs_PmlF5 Proofs_GradF4 Model_VectorF Proofs_VectorF.
From Coq Require Import Reals Lra Psatz.
From Flocq Require Import Core BinarySingleNaN.
Local Open Scope R_scope.

Lemma half64_ok n : (Z.abs n <= 2 ^ 31)%Z -> is_finite (ddiv (of_int64 n) (of_int64 2)) = true /\ B2R (ddiv (of_int64 n) (of_int64 2)) = IZR n / 2.
Proof.
  intros Hn. destruct (of_int64_ok n ltac:(lia)) as (Fn & Vn). destruct (of_int64_ok 2 ltac:(lia)) as (F2 & V2).
  pose proof (Bdiv_correct 53 1024 p64 e64 mode_NE (of_int64 n) (of_int64 2) ltac:(rewrite V2; lra)) as C. fold (ddiv (of_int64 n) (of_int64 2)) in C. rewrite Vn, V2 in C. change (round radix2 (SpecFloat.fexp 53 1024) (round_mode mode_NE) (IZR n / 2)) with (rd64 (IZR n / 2)) in C.
  rewrite (rd64_rep (IZR n / 2)) in C; [|replace (IZR n / 2) with (IZR n * bpow radix2 (-1)) by (cbn; lra); apply rep64_dyadic; lia].
  rewrite Rlt_bool_true in C; [destruct C as (C1 & C2 & _); rewrite C2; auto|]. pose proof (big1024 (2 ^ 31) ltac:(lia)).
  assert (Rabs (IZR n) <= IZR (2 ^ 31)) by (rewrite <- abs_IZR; apply IZR_le; lia). unfold Rdiv. rewrite Rabs_mult, (Rabs_right (/ 2)) by lra. pose proof (Rabs_pos (IZR n)). lra.
Qed.
Lemma yi2_ok dx center d : (0 <= d < dx)%Z -> (dx <= 2 ^ 13)%Z -> fin center = true -> Rabs (V center) <= 8000 ->
  let yi := to32 (dadd (dadd (ddiv (of_int64 (1 - dx)) (of_int64 2)) (of_int64 d)) (to64 (movF dx center))) in fin yi = true /\ Rabs (V yi) <= IZR (2 ^ 14).
Proof.
  intros Hd Hx Fc Bc. cbv zeta. destruct (half64_ok (1 - dx) ltac:(lia)) as (Fh & Eh). destruct (of_int64_ok d ltac:(lia)) as (Fd & Ed).
  assert (B1 : Rabs (B2R (ddiv (of_int64 (1 - dx)) (of_int64 2)) + B2R (of_int64 d)) <= IZR (2 ^ 12)).
  { rewrite Eh, Ed, minus_IZR. assert (0 <= IZR d <= IZR (dx - 1)) by (split; apply IZR_le; lia). rewrite minus_IZR in H. assert (1 <= IZR dx <= IZR (2 ^ 13)) by (split; apply IZR_le; lia).
    change (IZR (2 ^ 13)) with 8192 in *. change (IZR (2 ^ 12)) with 4096. apply Rabs_le. lra. }
  destruct (dadd_ok _ _ _ Fh Fd (rep64_IZR (2 ^ 12) ltac:(lia)) B1 (big1024 (2 ^ 12) ltac:(lia))) as (F1 & Bp & _).
  destruct (mov_ok dx center ltac:(lia) Fc Bc) as (Fm & Bm). destruct (to64_val _ Fm) as (F6 & V6). apply abs_inv in Bm. apply abs_inv in Bp. change (IZR (2 ^ 12)) with 4096 in Bp.
  match goal with |- context [dadd ?a (to64 _)] => set (p := a) in * end.
  assert (B2 : Rabs (B2R p + B2R (to64 (movF dx center))) <= IZR (2 ^ 14)) by (rewrite V6; change (IZR (2 ^ 14)) with 16384; apply Rabs_le; lra).
  destruct (dadd_ok _ _ _ F1 F6 (rep64_IZR (2 ^ 14) ltac:(lia)) B2 (big1024 (2 ^ 14) ltac:(lia))) as (Fy & By & _).
  apply to32_ok; auto; [apply rep_IZR; lia|apply IZR_le; lia|apply huge_big; lia].
Qed.
Lemma src_ok xi yi sin_p cos_p : fin xi = true -> Rabs (V xi) <= IZR (2 ^ 14) -> fin yi = true -> Rabs (V yi) <= IZR (2 ^ 14) -> fin sin_p = true -> fin cos_p = true -> Rabs (V sin_p) <= 1 -> Rabs (V cos_p) <= 1 ->
  let l := ray_lineF xi yi sin_p cos_p in fin (fsrcx l) = true /\ fin (fsrcy l) = true /\ Rabs (V (fsrcx l)) <= 32768 /\ Rabs (V (fsrcy l)) <= 32768.
Proof.
  intros Fi Bi Fy By Fs Fo Bs Bo. cbv zeta. unfold ray_lineF. cbn [fsrcx fsrcy].
  destruct (mul_unit xi cos_p (2 ^ 14) Fi Fo ltac:(lia) Bi Bo) as (P1 & Q1). destruct (mul_unit yi sin_p (2 ^ 14) Fy Fs ltac:(lia) By Bs) as (P2 & Q2).
  destruct (mul_unit xi sin_p (2 ^ 14) Fi Fs ltac:(lia) Bi Bs) as (P3 & Q3). destruct (mul_unit yi cos_p (2 ^ 14) Fy Fo ltac:(lia) By Bo) as (P4 & Q4).
  change (IZR (2 ^ 14)) with 16384 in *. apply abs_inv in Q1, Q2, Q3, Q4.
  assert (B3 : Rabs (V (fmul xi cos_p) - V (fmul yi sin_p)) <= IZR (2 ^ 15)) by (change (IZR (2 ^ 15)) with 32768; apply Rabs_le; lra).
  assert (B4 : Rabs (V (fmul xi sin_p) + V (fmul yi cos_p)) <= IZR (2 ^ 15)) by (change (IZR (2 ^ 15)) with 32768; apply Rabs_le; lra).
  destruct (fsub_ok _ _ _ P1 P2 (rep_IZR (2 ^ 15) ltac:(lia)) B3 (huge_big (2 ^ 15) ltac:(lia))) as (G1 & H1).
  destruct (fadd_ok _ _ _ P3 P4 (rep_IZR (2 ^ 15) ltac:(lia)) B4 (huge_big (2 ^ 15) ltac:(lia))) as (G2 & H2).
  rewrite H1, H2. repeat split; auto; apply (rd_abs_le _ (IZR (2 ^ 15))); auto; apply rep_IZR; lia.
Qed.

Section Safe.
  Variables (fmodf sinf cosf : b32 -> b32) (junk : arr pointF * arr pointF * arr pointF).
  Hypothesis Lm : libm fmodf sinf cosf.
  Variable g : geomF.
  Hypothesis Hg : sizes_ok g.
  Notation ray_ := (ray2F fmodf sinf cosf junk g).
  Lemma pray2_ok center p d : (0 <= p < dtF g)%Z -> exists segs v, ray_ (gxF g + gyF g + 2)%Z center p d = Some (segs, v) /\ seg2_ok g segs.
  Proof.
    intros Hp. destruct (pray_ok fmodf sinf cosf junk Lm g Hg center p d Hp) as (segs & E & _). pose proof Hg as [? ? ? ? ? ? ? Ht]. unfold project_segs in E. unfold ray2F. ob E. rewrite E0. cbn [obind]. ob E. rewrite E1. cbn [obind].
    destruct junk as ((za & zb) & zc). match type of E with traced_of _ _ (traceF _ _ _ ?cx ?cy _ _ _) = _ => destruct (traced2_same g (gxF g + gyF g + 2) a0 cx cy za zb zc ltac:(lia) ltac:(lia)) as [(N & _)|(s2 & E2 & _ & S2)] end; [congruence|].
    rewrite E2. cbn [obind]. eauto.
  Qed.
  Lemma vray_ok (Hs : small_ok g) s p d : (0 <= s < dyF g)%Z -> (0 <= p < dtF g)%Z -> (0 <= d < dxF g)%Z -> exists segs v, ray_ (gxF g + gyF g)%Z (centerF g s) p d = Some (segs, v) /\ seg2_ok g segs.
  Proof.
    intros Hss Hp Hd. pose proof Hg as [? ? ? ? ? ? ? Ht]. destruct Hs as [? ? ? Hc]. unfold ray2F. rewrite load_ok by auto. cbn [obind]. destruct (Lm _ (Ht p Hp)) as ((Ff & Bf) & _).
    destruct (Lm _ Ff) as (_ & (Fs & Bs) & (Fc & Bc)). destruct (quadrant_defined _ Ff Bf) as (q & ->). cbn [obind]. destruct junk as ((za & zb) & zc). destruct (Hc s Hss) as (Fce & Bce).
    set (l := project_lineF g (centerF g s) (sinf (fmodf (thetaF g p))) (cosf (fmodf (thetaF g p))) d).
    assert (A : fin (fsrcx l) = true /\ fin (fsrcy l) = true /\ Rabs (V (fsrcx l)) <= 32768 /\ Rabs (V (fsrcy l)) <= 32768).
    { destruct (of_int_ok (- gxF g - gyF g)) as (Fi & Ei); [lia|]. destruct (yi2_ok (dxF g) (centerF g s) d) as (Fy & By); auto; try lia.
      apply src_ok; auto. rewrite Ei, <- abs_IZR. apply IZR_le. lia. }
    destruct A as (A1 & A2 & A3 & A4).
    destruct (traced_ok g Hg (gxF g + gyF g) q (coordxF (gyF g) l) (coordyF (gxF g) l) za zb zc) as (sg & E & _).
    { destruct (trace_sizes (gxF g) (gyF g) q (coordxF (gyF g) l) (coordyF (gxF g) l) za zb zc ltac:(lia) ltac:(lia)) as (_ & _ & ->). apply buffers; auto; lia. }
    destruct (traced2_same g (gxF g + gyF g) q (coordxF (gyF g) l) (coordyF (gxF g) l) za zb zc ltac:(lia) ltac:(lia)) as [(N & _)|(s2 & E2 & _ & S2)]; [congruence|].
    rewrite E2. cbn [obind]. eauto.
  Qed.
  (** ** Indices *)
  Definition in_box (axis nobj : Z) : Prop := forall s x y, (0 <= s < dyF g)%Z -> (0 <= x < gxF g)%Z -> (0 <= y < gyF g)%Z -> exists i, locF g axis s x y = Some i /\ (0 <= i < nobj)%Z.
  Lemma box0 nobj : (nrec g <= nobj)%Z -> in_box 0 nobj.
  Proof.
    intros Hn s x y Hs Hx Hy. pose proof Hg as [? ? ? ? ? ? ? Ht]. unfold locF. cbn [Z.eqb]. assert (R : (0 <= y + x * gyF g < npixF g)%Z) by (unfold npixF; nia). pose proof (rec_ok g s _ Hs R).
    rewrite cint_ok by lia. eexists. split; [reflexivity|]. lia.
  Qed.
  Lemma box12 axis nobj : (axis <> 0)%Z -> dyF g = gxF g -> dyF g = gyF g -> (nrec g <= nobj)%Z -> in_box axis nobj.
  Proof.
    intros N E1 E2 Hn s x y Hs Hx Hy. pose proof Hg as [? ? ? ? ? ? ? Ht]. unfold locF, nrec, npixF in *. replace (axis =? 0)%Z with false by lia. rewrite <- E1, <- E2 in *. set (n := dyF g) in *.
    assert (B1 : (0 <= s + x * n + y * n * n < n * (n * n))%Z). { assert (0 <= s + x * n <= n * n - 1)%Z by nia. assert (0 <= y * (n * n) <= (n - 1) * (n * n))%Z by nia. lia. }
    assert (B2 : (0 <= x + s * n + y * n * n < n * (n * n))%Z). { assert (0 <= x + s * n <= n * n - 1)%Z by nia. assert (0 <= y * (n * n) <= (n - 1) * (n * n))%Z by nia. lia. }
    destruct (axis =? 1)%Z; rewrite cint_ok by lia; eexists; (split; [reflexivity|lia]).
  Qed.
  Lemma sim2_ok nobj segs v axis s p d mx my a : in_box axis nobj -> seg2_ok g segs -> (0 <= s < dyF g)%Z -> (0 <= p < dtF g)%Z -> (0 <= d < dxF g)%Z -> exists r, simdata2F g nobj segs v axis s p d mx my a = Some r.
  Proof.
    intros Hb Hseg Hs Hp Hd. unfold simdata2F. match goal with |- exists r, ofold ?f segs a = Some r => destruct (ofold_ok (fun _ => True) f segs a) as (r & E & _) end; eauto.
    intros ((x & y) & w) u Hx _. destruct (Hseg _ _ _ Hx) as (H1 & H2). destruct (Hb s x y Hs H1 H2) as (i & -> & Hi). rewrite (ind_data_ok g Hg s p d) by auto. cbn [obind]. rewrite !load_ok by auto. cbn [obind]. pose proof (ind_ok g Hg s p d Hs Hp Hd).
    rewrite load_ok by auto. cbn [obind]. rewrite store_ok by auto. eauto.
  Qed.
  Theorem project2_safe nobj objx objy data : (nrec g <= nobj)%Z -> exists r, project2F fmodf sinf cosf junk g nobj objx objy data = Some r.
  Proof.
    intros Hn. pose proof Hg as [? ? ? ? ? ? ? Ht]. unfold project2F. rewrite (emptyF_no g Hg), load_ok by lia. cbn [obind].
    match goal with |- exists r, ofor 0 ?n ?f ?s = _ => destruct (ofor_ok (fun _ => True) 0 n f s) as (r & E & _) end; eauto. intros p u Hp _. apply ofor_ok; auto. intros d u1 Hd _.
    destruct (pray2_ok (centerF g 0%Z) p d Hp) as (segs & v & -> & Hseg). cbn [obind fst snd]. apply ofor_ok; auto. intros s u2 Hs _. destruct (sim2_ok nobj segs v 0 s p d objx objy u2) as (r & ->); eauto using box0.
  Qed.
  Theorem project3_safe nobj objx objy objz axis data : (axis = 0 \/ dyF g = gxF g /\ dyF g = gyF g)%Z -> (nrec g <= nobj)%Z -> exists r, project3F fmodf sinf cosf junk g nobj objx objy objz axis data = Some r.
  Proof.
    intros Ha Hn. pose proof Hg as [? ? ? ? ? ? ? Ht]. unfold project3F. rewrite (emptyF_no g Hg), load_ok by lia. cbn [obind].
    match goal with |- exists r, ofor 0 ?n ?f ?s = _ => destruct (ofor_ok (fun _ => True) 0 n f s) as (r & E & _) end; eauto. intros p u Hp _. apply ofor_ok; auto. intros d u1 Hd _.
    destruct (pray2_ok (centerF g 0%Z) p d Hp) as (segs & v & -> & Hseg). cbn [obind fst snd]. apply ofor_ok; auto. intros s u2 Hs _. unfold simdata3F.
    destruct (Z.eqb_spec axis 0) as [->|N0]; [destruct (sim2_ok nobj segs v 0 s p d objx objy u2) as (r & ->); eauto using box0|]. destruct Ha as [|(E1 & E2)]; [contradiction|].
    destruct (Z.eqb_spec axis 1) as [->|N1]; [destruct (sim2_ok nobj segs v 1 s p d objy objz u2) as (r & ->); eauto using box12|].
    destruct (Z.eqb_spec axis 2) as [->|N2]; [destruct (sim2_ok nobj segs v 2 s p d objx objz u2) as (r & ->); eauto using box12|]. eauto.
  Qed.
  (** ** vector *)
  Hypothesis Hs : small_ok g.
  Lemma addF_ok f segs a : seg2_ok g segs -> exists r, addF g f segs a = Some r.
  Proof.
    intros Hseg. unfold addF. match goal with |- exists r, ofold ?f segs a = Some r => destruct (ofold_ok (fun _ => True) f segs a) as (r & E & _) end; eauto.
    intros ((x & y) & w) u Hx _. destruct (Hseg _ _ _ Hx) as (H1 & H2). pose proof Hg as [? ? ? ? ? ? ? Ht]. unfold pixF. assert (R : (0 <= y + x * gyF g < npixF g)%Z) by (unfold npixF; nia). assert (npixF g <= 2 ^ 30)%Z by (unfold npixF; nia).
    rewrite cint_ok by lia. cbn [obind]. rewrite load_ok by auto. cbn [obind]. rewrite store_ok by auto. eauto.
  Qed.
  Lemma vec_ray_ok data s r1 r2 p d st : (0 <= s < dyF g)%Z -> (0 <= p < dtF g)%Z -> (0 <= d < dxF g)%Z -> exists st', vec_rayF fmodf sinf cosf junk g data s (centerF g s) r1 r2 p d st = Some st'.
  Proof.
    intros Hss Hp Hd. destruct st as ((sd & su) & (u1 & u2)). unfold vec_rayF. destruct (vray_ok Hs s p d Hss Hp Hd) as (segs & (vx & vy) & -> & Hseg). cbn [obind].
    destruct (sim2_ok (nrec g) segs (vx, vy) 0 s p d r1 r2 sd) as (sd' & ->); auto; [apply box0; lia|]. cbn [obind]. destruct (addF_ok (fun w => w) segs su Hseg) as (su' & ->). cbn [obind]. destruct (nez _); [|eauto].
    rewrite (ind_data_ok g Hg s p d) by auto. cbn [obind]. pose proof (ind_ok g Hg s p d Hss Hp Hd). rewrite !load_ok by auto. cbn [obind].
    match goal with |- context [addF g ?f segs u1] => destruct (addF_ok f segs u1 Hseg) as (u1' & ->) end. cbn [obind]. match goal with |- context [addF g ?f segs u2] => destruct (addF_ok f segs u2 Hseg) as (u2' & ->) end. cbn [obind]. eauto.
  Qed.
  Lemma bump_ok s m n su u r : (0 <= s < dyF g)%Z -> (0 <= m < gxF g)%Z -> (0 <= n < gyF g)%Z -> exists r', bumpF g s m n su u r = Some r'.
  Proof.
    intros Hss Hm Hn. pose proof Hg as [? ? ? ? ? ? ? Ht]. unfold bumpF. assert (R : (0 <= n + m * gyF g < npixF g)%Z) by (unfold npixF; nia). assert (npixF g <= 2 ^ 30)%Z by (unfold npixF; nia). pose proof (rec_ok g s _ Hss R).
    rewrite !cint_ok by lia. cbn [obind]. rewrite !load_ok by lia. cbn [obind]. rewrite store_ok by lia. eauto.
  Qed.
  Lemma vec_slice_ok data s st : (0 <= s < dyF g)%Z -> exists st', vec_sliceF fmodf sinf cosf junk g data s st = Some st'.
  Proof.
    intros Hss. destruct st as ((r1 & r2) & sd). unfold vec_sliceF. rewrite load_ok by auto. cbn [obind].
    match goal with |- context [ofor 0 (dtF g) ?f ?x] => destruct (ofor_ok (fun _ => True) 0 (dtF g) f x) as (((sd' & su) & (u1 & u2)) & -> & _) end; auto.
    { intros p u Hp _. apply ofor_ok; auto. intros d u' Hd _. destruct (vec_ray_ok data s r1 r2 p d u' Hss Hp Hd) as (st' & ->). eauto. }
    cbn [obind]. match goal with |- context [ofor 0 (gxF g) ?f ?x] => destruct (ofor_ok (fun _ => True) 0 (gxF g) f x) as (r & -> & _) end; auto.
    { intros m u Hm _. apply ofor_ok; auto. intros n (a & b) Hn _. destruct (bump_ok s m n su u1 a Hss Hm Hn) as (a' & ->). cbn [obind]. destruct (bump_ok s m n su u2 b Hss Hm Hn) as (b' & ->). cbn [obind]. eauto. }
    cbn [obind]. eauto.
  Qed.
  Theorem vector_safe data num_iter r1 r2 : exists r, vectorF fmodf sinf cosf junk g data num_iter r1 r2 = Some r.
  Proof.
    unfold vectorF. match goal with |- context [ofor 0 num_iter ?f ?x] => destruct (ofor_ok (fun _ => True) 0 num_iter f x) as (r & -> & _) end; eauto. intros k u _ _.
    match goal with |- context [ofor 0 (dyF g) ?f ?x] => destruct (ofor_ok (fun _ => True) 0 (dyF g) f x) as (r & -> & _) end; auto.
    { intros s st Hss _. destruct (vec_slice_ok data s st Hss) as (st' & ->). eauto. }
    cbn [obind]. eauto.
  Qed.
End Safe.
