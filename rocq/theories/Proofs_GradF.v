From Verif Require Import Base Order CLoop Model_Ray Proofs_Ray Model_RayF Model_SolverF Spec_SolverF Model_PmlF Model_GradF Proofs_FloatB Proofs_RayF Proofs_RayF2 Proofs_RayF3 Proofs_RayF4 Proofs_SolverF Proofs_SolverF2 Proofs_PmlF.
From Flocq Require Import Core BinarySingleNaN.
Local Open Scope Z_scope.

(** ** Safety of grad, tikh and tv *)
Section Safe.
  Variables (fmodf sinf cosf : b32 -> b32) (junk : arr pointF * arr pointF * arr pointF).
  Hypothesis Lm : libm fmodf sinf cosf.
  Variable g : geomF.
  Hypothesis Hg : sizes_ok g.
  Hypothesis Hs : small_ok g.
  Variables (data : arr b32) (nreg : Z) (reg : arr b32).
  Lemma int_rec' i : 0 <= i < nrec g -> cint i = Some i.
  Proof. intros H. apply cint_ok. destruct Hg. lia. Qed.
  Lemma ofor_run {St} a b (f : Z -> St -> option St) s : (forall n s, a <= n < b -> exists s', f n s = Some s') -> exists r, ofor a b f s = Some r.
  Proof. intros H. destruct (ofor_ok (fun _ => True) a b f s) as (r & E & _); eauto. intros n t Hn _. destruct (H n t Hn) as (t' & ->). eauto. Qed.
  Lemma pixel_int s iy ix : 0 <= s < dyF g -> 0 <= iy < gyF g -> 0 <= ix < gxF g -> 0 <= s * gxF g * gyF g + iy * gxF g + ix < nrec g.
  Proof. intros H1 H2 H3. pose proof (rec_ok g s (iy * gxF g + ix) H1) as Q. unfold npixF in Q. nia. Qed.
  Lemma pixels_ok {St} s (f : Z -> St -> option St) st : 0 <= s < dyF g -> (forall q st, 0 <= q < nrec g -> exists st', f q st = Some st') -> exists r, pixelsF g s f st = Some r.
  Proof.
    intros Hss H. unfold pixelsF. rewrite (base_ok g Hg) by auto. cbn [obind]. apply ofor_run. intros iy st1 Hy. apply ofor_run. intros ix st2 Hx. pose proof (pixel_int s iy ix Hss Hy Hx). rewrite int_rec' by auto. cbn [obind]. auto.
  Qed.
  Lemma inside_ok {St} s (f : Z -> St -> option St) st : 0 <= s < dyF g -> (forall q st, 0 <= q < nrec g -> 0 <= q + 1 < nrec g -> 0 <= q + gxF g < nrec g -> exists st', f q st = Some st') -> exists r, insideF g s f st = Some r.
  Proof.
    intros Hss H. unfold insideF. rewrite (base_ok g Hg) by auto. cbn [obind]. apply ofor_run. intros iy st1 Hy. apply ofor_run. intros ix st2 Hx.
    pose proof (pixel_int s iy ix Hss ltac:(lia) ltac:(lia)). pose proof (pixel_int s iy (ix + 1) Hss ltac:(lia) ltac:(lia)). pose proof (pixel_int s (iy + 1) ix Hss ltac:(lia) ltac:(lia)).
    rewrite int_rec' by auto. cbn [obind]. apply H; lia.
  Qed.
  Lemma scale_ok op s a : 0 <= s < dyF g -> exists r, scaleF g op s a = Some r.
  Proof. intros Hss. apply pixels_ok; auto. intros q st Hq. rewrite load_ok by auto. cbn [obind]. rewrite store_ok by auto. eauto. Qed.
  Lemma radon_ray_ok res back s recon p d st : 0 <= s < dyF g -> 0 <= p < dtF g -> 0 <= d < dxF g -> exists st', radon_rayF fmodf sinf cosf junk g data res back s (centerF g s) recon p d st = Some st'.
  Proof.
    intros Hss Hp Hd. destruct st as (((sd & pr) & su) & gr). unfold radon_rayF. destruct (ray_ok fmodf sinf cosf junk Lm g Hg Hs s p d Hss Hp Hd) as (segs & -> & Hseg). cbn [obind].
    destruct (sim_ok g Hg T1 segs s p d recon sd) as (r & -> & _); auto using inT; try (intros; exact I). cbn [obind]. rewrite (ind_data_ok g Hg) by auto. cbn [obind]. pose proof (ind_ok g Hg s p d Hss Hp Hd).
    do 3 (rewrite load_ok by auto; cbn [obind]). rewrite store_ok by auto. cbn [obind].
    destruct (acc0_ok T1 segs (npixF g) fadd su) as (r2 & -> & _); auto using inT; try (intros; exact I). cbn [obind]. destruct (nez _); [|eauto]. rewrite (base_ok g Hg) by auto. cbn [obind].
    match goal with |- context [ofold ?f segs gr] => destruct (ofold_ok (fun _ => True) f segs gr) as (r3 & -> & _) end; [auto| |cbn [obind]; eauto].
    intros (i & w) a Hin _. pose proof (Hseg i w Hin). pose proof (rec_ok g s i Hss ltac:(auto)). rewrite load_ok by auto. cbn [obind]. rewrite load_ok by auto. cbn [obind]. rewrite store_ok by auto. eauto.
  Qed.
  Lemma radon_slice_ok res back recon s st : 0 <= s < dyF g -> exists st', radon_sliceF fmodf sinf cosf junk g data res back recon s st = Some st'.
  Proof.
    intros Hss. destruct st as ((sd & pr) & gr). unfold radon_sliceF. rewrite load_ok by auto. cbn [obind].
    match goal with |- context [ofor 0 ?n ?f ?s0] => destruct (ofor_run 0 n f s0) as (r & ->) end.
    - intros p st Hp. apply ofor_run. intros d st' Hd. apply radon_ray_ok; auto.
    - cbn [obind]. destruct r as (((? & ?) & ?) & ?). eauto.
  Qed.
  Section Gradient.
    Variable prior : option (Z * arr b32).
    Hypothesis Hr : match prior with None => 1 <= nreg | Some (n, _) => 2 <= nreg /\ nrec g <= n end.
    Lemma prior_ok recon s gr : 0 <= s < dyF g -> exists r, priorF g nreg reg prior recon s gr = Some r.
    Proof.
      intros Hss. unfold priorF. destruct prior as [(n & rd)|]; [|eauto]. destruct Hr as (H1 & H2). apply pixels_ok; auto. intros q st Hq.
      rewrite load_ok by auto. cbn [obind]. rewrite load_ok by lia. cbn [obind]. rewrite load_ok by auto. cbn [obind]. rewrite load_ok by lia. cbn [obind]. rewrite store_ok by auto. eauto.
    Qed.
    Lemma step_ok i recon recon0 gr gr0 s l : 0 <= s < dyF g -> exists r, stepF g nreg reg i recon recon0 gr gr0 s l = Some r.
    Proof.
      intros Hss. unfold stepF. rewrite load_ok by (destruct prior as [(? & ?)|]; lia). cbn [obind].
      assert (B : exists v, bb_stepF g recon recon0 gr gr0 s = Some v).
      { unfold bb_stepF. match goal with |- context [pixelsF g s ?f ?s0] => destruct (pixels_ok s f s0 Hss) as (r & ->) end; [|cbn [obind]; eauto].
        intros q (a & b) Hq. do 4 (rewrite load_ok by auto; cbn [obind]). eauto. }
      destruct B as (v & B). destruct (fltb _ _); [destruct (i =? 0)|]; cbn [obind]; rewrite ?B; cbn [obind]; rewrite store_ok by auto; eauto.
    Qed.
    Lemma descend_ok l gr s a : 0 <= s < dyF g -> exists r, descendF g l gr s a = Some r.
    Proof. intros Hss. apply pixels_ok; auto. intros q st Hq. rewrite load_ok by auto. cbn [obind]. do 2 (rewrite load_ok by auto; cbn [obind]). rewrite store_ok by auto. eauto. Qed.
    Lemma sizes_int : cint (ndata g) = Some (ndata g) /\ cint (nrec g) = Some (nrec g) /\ cint (dxF g * dtF g) = Some (dxF g * dtF g).
    Proof. destruct Hg. assert (dxF g * dtF g <= ndata g) by (unfold ndata; nia). assert (0 <= nrec g) by (unfold nrec, npixF; nia). repeat split; apply cint_ok; nia. Qed.
    Theorem grad_safe num_iter lambda recon : exists r, gradF fmodf sinf cosf junk g data nreg reg prior num_iter lambda recon = Some r.
    Proof.
      unfold gradF. rewrite emptyF_no by auto. destruct sizes_int as (-> & -> & ->). cbn [obind].
      match goal with |- context [ofor 0 (dyF g) ?f recon] => destruct (ofor_run 0 (dyF g) f recon) as (r1 & ->) end; [intros; apply scale_ok; auto|]. cbn [obind].
      match goal with |- context [ofor 0 num_iter ?f ?s0] => destruct (ofor_run 0 num_iter f s0) as (r2 & ->) end.
      - intros i ((((rc & rc0) & gr0) & pr) & l) _. unfold grad_iterF.
        match goal with |- context [ofor 0 (dyF g) ?f (calloc, pr, calloc)] => destruct (ofor_run 0 (dyF g) f (calloc, pr, calloc)) as (((? & ?) & gr) & ->) end; [intros; apply radon_slice_ok; auto|]. cbn [obind].
        match goal with |- context [ofor 0 (dyF g) ?f gr] => destruct (ofor_run 0 (dyF g) f gr) as (gr' & ->) end; [intros; apply prior_ok; auto|]. cbn [obind].
        match goal with |- context [ofor 0 (dyF g) ?f l] => destruct (ofor_run 0 (dyF g) f l) as (l' & ->) end; [intros; apply step_ok; auto|]. cbn [obind].
        match goal with |- context [ofor 0 (dyF g) ?f rc] => destruct (ofor_run 0 (dyF g) f rc) as (rc' & ->) end; [intros; apply descend_ok; auto|]. cbn [obind]. eauto.
      - cbn [obind]. destruct r2 as ((((rc & rc0) & gr0) & pr) & l). apply ofor_run. intros. apply scale_ok; auto.
    Qed.
  End Gradient.
  Section Tv.
    Hypothesis Hr : 1 <= nreg.
    Lemma tv_slice_ok r lambda s st : 0 <= s < dyF g -> exists st', tv_sliceF fmodf sinf cosf junk g data r lambda s st = Some st'.
    Proof.
      intros Hss. destruct st as ((((((rc & up) & px) & py) & pr) & sd) & ad). unfold tv_sliceF.
      assert (A : exists P, tv_gradF g rc s (px, py) = Some P).
      { apply inside_ok; auto. intros q (a & b) H1 H2 H3. do 3 (rewrite load_ok by auto; cbn [obind]). rewrite store_ok by auto. cbn [obind]. do 2 (rewrite load_ok by auto; cbn [obind]). rewrite store_ok by auto. cbn [obind]. eauto. }
      destruct A as (P & ->). cbn [obind].
      assert (A : exists P', tv_shrinkF g lambda s P = Some P').
      { apply inside_ok; auto. intros q (a & b) H1 H2 H3. do 2 (rewrite load_ok by auto; cbn [obind]). rewrite store_ok by auto. cbn [obind]. rewrite store_ok by auto. cbn [obind]. eauto. }
      destruct A as ((px' & py') & ->). cbn [obind]. destruct (radon_slice_ok (tv_res r) (tv_back r) rc s (sd, pr, ad) Hss) as (((? & ?) & ad') & ->). cbn [obind].
      assert (A : exists rc', copyF g up s rc = Some rc').
      { unfold copyF. rewrite (base_ok g Hg) by auto. cbn [obind]. apply ofor_run. intros i a' Hi. pose proof (rec_ok g s i Hss Hi). rewrite load_ok by lia. cbn [obind]. rewrite store_ok by lia. eauto. }
      destruct A as (rc' & ->). cbn [obind].
      assert (A : exists up', tv_backF g px' py' ad' s up = Some up').
      { unfold tv_backF. rewrite (base_ok g Hg) by auto. cbn [obind]. apply ofor_run. intros iy a1 Hy. apply ofor_run. intros ix a2 Hx. pose proof (pixel_int s iy ix Hss Hy Hx) as Q. rewrite int_rec' by auto. cbn [obind].
        do 3 (rewrite load_ok by auto; cbn [obind]).
        assert (B1 : forall u, exists v, (if ix =? 0 then Some (fadd u (fmul tv_c (px' (s * gxF g * gyF g + iy * gxF g + ix)))) else let? x' := load (nrec g) px' (s * gxF g * gyF g + iy * gxF g + ix - 1) in Some (fadd u (fmul tv_c (fsub (px' (s * gxF g * gyF g + iy * gxF g + ix)) x')))) = Some v).
        { intros u. destruct (ix =? 0) eqn:Z0; [eauto|]. pose proof (pixel_int s iy (ix - 1) Hss Hy ltac:(lia)). rewrite load_ok by lia. cbn [obind]. eauto. }
        destruct (B1 (fsub (a2 (s * gxF g * gyF g + iy * gxF g + ix)) (fmul tv_c (ad' (s * gxF g * gyF g + iy * gxF g + ix))))) as (u1 & ->). cbn [obind].
        rewrite load_ok by auto. cbn [obind]. destruct (iy =? 0) eqn:Z0; cbn [obind]; [rewrite store_ok by auto; eauto|].
        pose proof (pixel_int s (iy - 1) ix Hss ltac:(lia) Hx). rewrite load_ok by lia. cbn [obind]. rewrite store_ok by auto. eauto. }
      destruct A as (up' & ->). cbn [obind].
      assert (A : exists rc2, tv_overF g up' s rc' = Some rc2).
      { apply pixels_ok; auto. intros q st Hq. do 2 (rewrite load_ok by auto; cbn [obind]). rewrite store_ok by auto. eauto. }
      destruct A as (rc2 & ->). cbn [obind]. eauto.
    Qed.
    Theorem tv_safe num_iter recon : exists r, tvF fmodf sinf cosf junk g data nreg reg num_iter recon = Some r.
    Proof.
      unfold tvF. rewrite emptyF_no by auto. destruct sizes_int as (-> & -> & ->). cbn [obind]. rewrite load_ok by lia. cbn [obind].
      match goal with |- context [ofor 0 (dyF g) ?f recon] => destruct (ofor_run 0 (dyF g) f recon) as (r1 & ->) end; [intros; apply scale_ok; auto|]. cbn [obind].
      match goal with |- context [ofor 0 num_iter ?f ?s0] => destruct (ofor_run 0 num_iter f s0) as (r2 & ->) end.
      - intros i ((((rc & up) & px) & py) & pr) _. unfold tv_iterF.
        match goal with |- context [ofor 0 (dyF g) ?f ?s0] => destruct (ofor_run 0 (dyF g) f s0) as (((((((? & ?) & ?) & ?) & ?) & ?) & ?) & ->) end; [intros; apply tv_slice_ok; auto|]. cbn [obind]. eauto.
      - cbn [obind]. destruct r2 as ((((rc & rc0) & gr0) & pr) & l). apply ofor_run. intros. apply scale_ok; auto.
    Qed.
  End Tv.
End Safe.
