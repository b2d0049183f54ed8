From Verif Require Import Base Order CLoop Model_Ray Proofs_Ray Model_RayF Model_SolverF Spec_SolverF Model_PmlF Proofs_FloatB Proofs_RayF Proofs_RayF2 Proofs_RayF3 Proofs_RayF4 Proofs_SolverF Proofs_SolverF2 Proofs_PmlF.
From Flocq Require Import Core BinarySingleNaN.
Local Open Scope Z_scope.

(** Slice k of a run with the geometry g, slice k' of a run with g' *)
Section Slices.
  Variables (fmodf sinf cosf : b32 -> b32) (junk junk' : arr pointF * arr pointF * arr pointF) (g g' : geomF) (k k' : Z).
  Hypothesis S : same_rays g g'.
  Hypothesis Hx : 2 <= gxF g <= 2 ^ 15.
  Hypothesis Hy : 2 <= gyF g <= 2 ^ 15.
  Hypothesis Hdx : 0 <= dxF g.
  Hypothesis Hdt : 0 <= dtF g.
  Hypothesis Hk : 0 <= k < dyF g.
  Hypothesis Hk' : 0 <= k' < dyF g'.
  Variables (hybrid : bool) (nreg nreg' : Z) (reg reg' : arr b32) (data data' : arr b32) (num_block : Z) (ind_block : arr Z).
  Notation np := (npixF g).
  Notation nd := (dtF g * dxF g).
  Notation winr := (win np (k * gxF g * gyF g) (k' * gxF g * gyF g)).
  Notation wind := (win nd (k * dtF g * dxF g) (k' * dtF g * dxF g)).
  Notation win0 := (win np 0 0).
  Hypothesis Wd : wind data data'.
  Hypothesis Wc : centerF g k = centerF g' k'.
  Hypothesis Wb : reg 0 = reg' 0 /\ (hybrid = true -> reg 1 = reg' 1).
  Notation win3 := (fun st st' : arr b32 * arr b32 * arr b32 => let '(sd, su, up) := st in let '(sd', su', up') := st' in wind sd sd' /\ win0 su su' /\ win0 up up').
  Notation win2 := (fun st st' : arr b32 * arr b32 => winr (fst st) (fst st') /\ wind (snd st) (snd st')).
  Let S1 : 1 <= gxF g. Proof. lia. Qed.
  Let S2 : 1 <= gyF g. Proof. lia. Qed.
  Let range_ := segs_range fmodf sinf cosf junk junk' g g' k k' Hk Hk'.
  Lemma win0_set a a' i v : 0 <= i < np -> win0 a a' -> win0 (aset a i v) (aset a' i v).
  Proof. intros Hi W. pose proof (win_set np 0 0 a a' i v Hi W) as Q. rewrite !Z.add_0_r in Q. exact Q. Qed.
  Lemma win0_at a a' i : 0 <= i < np -> win0 a a' -> a i = a' i.
  Proof. intros Hi W. pose proof (W i Hi) as Q. now rewrite !Z.add_0_r in Q. Qed.
  Lemma coef_same w x y u u' : coefF hybrid nreg reg w x y = Some u -> coefF hybrid nreg' reg' w x y = Some u' -> u = u'.
  Proof.
    unfold coefF. intros F F'. ob F. ob F'. apply load_some in E, E0. destruct E as (_ & ->), E0 as (_ & ->). destruct Wb as (B0 & B1). rewrite <- B0 in F'. destruct hybrid; [|congruence].
    ob F. ob F'. apply load_some in E, E0. destruct E as (_ & ->), E0 as (_ & ->). rewrite <- B1 in F' by auto. congruence.
  Qed.
  Lemma penalty_win rc rc' r r' : penaltyF g hybrid nreg reg k rc = Some r -> penaltyF g' hybrid nreg' reg' k' rc' = Some r' -> winr rc rc' -> win0 (fst r) (fst r') /\ win0 (snd r) (snd r').
  Proof.
    intros F F' W. unfold penaltyF in *. rewrite <- (sr_gx _ _ S), <- (sr_gy _ _ S) in F'. set (R := fun u u' : arr b32 * arr b32 => win0 (fst u) (fst u') /\ win0 (snd u) (snd u')). change (R r r').
    eapply (ofold_rel R); [exact F|exact F'|split; intros i Hi; reflexivity|]. clear F F' r r'. intros (ind0 & nb) u u' v v' Hin Ru F F'.
    pose proof (visits_ok (gxF g) (gyF g) ltac:(lia) ltac:(lia)) as Q. rewrite Forall_forall in Q. destruct (Q _ Hin) as (H0 & Hn). cbn [fst snd] in H0, Hn. unfold pen_pxF in *. ob F. ob F'.
    apply cint_some in E, E0. subst. rewrite <- (sr_gx _ _ S), <- (sr_gy _ _ S), (npix_same g g' S) in F'. eapply (ofold_rel R); [exact F|exact F'|exact Ru|]. clear F F' Ru u u' v v'.
    intros (o & w) (f & G) (f' & G') v v' Ho (R1 & R2) F F'. cbn [fst snd] in R1, R2. do 8 ob F. do 8 ob F'. injection F as <-. injection F' as <-. apply cint_some in E, E7. subst.
    apply load_some in E0, E1, E3, E5, E8, E9, E11, E13. apply store_some in E4, E6, E12, E14.
    destruct E0 as (_ & ->), E1 as (_ & ->), E3 as (_ & ->), E5 as (_ & ->), E8 as (_ & ->), E9 as (_ & ->), E11 as (_ & ->), E13 as (_ & ->), E4 as (_ & ->), E6 as (_ & ->), E12 as (_ & ->), E14 as (_ & ->).
    pose proof (W ind0 H0) as Q1. pose proof (W _ (Hn o w Ho)) as Q2. replace (ind0 + o + k * gxF g * gyF g) with (ind0 + k * gxF g * gyF g + o) in Q2 by ring. replace (ind0 + o + k' * gxF g * gyF g) with (ind0 + k' * gxF g * gyF g + o) in Q2 by ring.
    rewrite <- Q1, <- Q2 in *. pose proof (coef_same _ _ _ _ _ E2 E10) as <-. rewrite <- (win0_at f f' ind0 H0 R1), <- (win0_at G G' ind0 H0 R2). split; cbn [fst snd]; apply win0_set; auto.
  Qed.
  Lemma pml_ray_win rc rc' p d st st' r r' : 0 <= d < dxF g -> pml_rayF fmodf sinf cosf junk g data k (centerF g k) rc p d st = Some r ->
    pml_rayF fmodf sinf cosf junk' g' data' k' (centerF g k) rc' p d st' = Some r' -> winr rc rc' -> win3 st st' -> win3 r r'.
  Proof.
    intros Hd F F' Wr. destruct st as ((sd & su) & up), st' as ((sd' & su') & up'). intros (W1 & W2 & W3). unfold pml_rayF in *. rewrite (npix_same g g' S) in F'. unfold ind_dataF in *.
    ob F. ob F'. pose proof (range_ _ _ _ _ _ _ E) as Hp. rewrite <- (segs_same fmodf sinf cosf junk junk' g g') in E0 by auto. assert (a0 = a) by congruence. subst.
    pose proof (segs_seg fmodf sinf cosf junk g S1 S2 ltac:(lia) ltac:(lia) _ _ _ _ E) as Hs. clear E E0.
    ob F. ob F'. pose proof (sim_win g g' k k' S Hdx Hk _ p d _ _ _ _ _ _ Hp Hd Hs E E0 Wr W1) as W4. ob F. ob F'. pose proof (add_win g a fadd _ _ _ _ Hs E1 E2 W2) as W5.
    destruct (nez _); [|injection F as <-; injection F' as <-; auto].
    do 5 ob F. do 5 ob F'. injection F as <-. injection F' as <-. apply cint_some in E3, E4, E8, E9. apply load_some in E5, E6, E10, E11.
    destruct E5 as (_ & ->), E6 as (_ & ->), E10 as (_ & ->), E11 as (_ & ->). subst. rewrite <- (sr_t _ _ S), <- (sr_x _ _ S), <- (sr_gx _ _ S), <- (sr_gy _ _ S) in E12.
    rewrite <- (Wd (d + p * dxF g)), <- (W4 (d + p * dxF g)) in E12 by (apply (in_nd g k); auto). split; [exact W4|]. split; [exact W5|].
    eapply (ofold_rel win0); [exact E7|exact E12|exact W3|]. intros (i & w) u u' v v' Hi R F F'. ob F. ob F. ob F'. ob F'. apply load_some in E3, E4, E5, E6. apply store_some in F, F'.
    destruct E3 as (_ & ->), E4 as (_ & ->), E5 as (_ & ->), E6 as (_ & ->), F as (_ & ->), F' as (_ & ->). pose proof (Hs i w Hi) as Hi'. rewrite <- (win0_at u u' i Hi' R), <- (Wr i Hi'). apply win0_set; auto.
  Qed.
  Lemma add_sum_win su su' G G' r r' : add_sumF g su G = Some r -> add_sumF g' su' G' = Some r' -> win0 su su' -> win0 G G' -> win0 r r'.
  Proof.
    intros F F' W1 W2. unfold add_sumF in *. rewrite (npix_same g g' S) in F'. eapply (ofor_rel win0); [exact F|exact F'|exact W2|]. clear F F' W2 G G' r r'. intros n u u' v v' Hn W F F'.
    ob F. ob F. ob F'. ob F'. apply load_some in E, E0, E1, E2. apply store_some in F, F'. destruct E as (_ & ->), E0 as (_ & ->), E1 as (_ & ->), E2 as (_ & ->), F as (_ & ->), F' as (_ & ->).
    rewrite <- (win0_at u u' n Hn W), <- (win0_at su su' n Hn W1). apply win0_set; auto.
  Qed.
  Lemma pml_new_win e e' f f' G G' rc rc' r r' : pml_newF g k e f G rc = Some r -> pml_newF g' k' e' f' G' rc' = Some r' -> win0 e e' -> win0 f f' -> win0 G G' -> winr rc rc' -> winr r r'.
  Proof.
    intros F F' W1 W2 W3 W4. unfold pml_newF in *. rewrite (npix_same g g' S), <- (sr_gx _ _ S), <- (sr_gy _ _ S) in F'. eapply (ofor_rel winr); [exact F|exact F'|exact W4|]. clear F F' W4 rc rc' r r'. intros n u u' v v' Hn W F F'.
    eapply (ofor_rel winr); [exact F|exact F'|exact W|]. clear F F' W u u' v v'. intros m u u' v v' Hm W F F'. assert (Hq : 0 <= m + n * gyF g < np) by (unfold npixF; nia).
    ob F. ob F. ob F'. ob F'. apply cint_some in E, E1. apply load_some in E0, E2. destruct E0 as (_ & ->), E2 as (_ & ->). subst. rewrite <- (win0_at f f' _ Hq W2) in F'.
    destruct (nez _); [|same]. do 3 ob F. do 3 ob F'. apply cint_some in E, E2. apply load_some in E0, E1, E3, E4. apply store_some in F, F'.
    destruct E0 as (_ & ->), E1 as (_ & ->), E3 as (_ & ->), E4 as (_ & ->), F as (_ & ->), F' as (_ & ->). subst. rewrite <- (win0_at e e' _ Hq W1), <- (win0_at G G' _ Hq W3). apply win_set; auto.
  Qed.
  Lemma pml_new_left j e f G rc rc' r : j <> k -> pml_newF g j e f G rc = Some r -> winr rc rc' -> winr r rc'.
  Proof.
    intros N F W. unfold pml_newF in F. eapply (ofor_inv (fun u => winr u rc')); [exact F|exact W|]. clear F W rc r. intros n u v Hn W F.
    eapply (ofor_inv (fun u => winr u rc')); [exact F|exact W|]. clear F W u v. intros m u v Hm W F. assert (Hq : 0 <= m + n * gyF g < np) by (unfold npixF; nia). ob F. ob F. destruct (nez _); [|same]. do 3 ob F.
    apply cint_some in E, E1. apply store_some in F. destruct F as (_ & ->). subst. apply win_left; auto. intros i Hi. apply off_pix; auto.
  Qed.
  Lemma pml_new_right j e f G rc rc' r : j <> k' -> pml_newF g' j e f G rc' = Some r -> winr rc rc' -> winr rc r.
  Proof.
    intros N F W. unfold pml_newF in F. rewrite (npix_same g g' S), <- (sr_gx _ _ S), <- (sr_gy _ _ S) in F. eapply (ofor_inv (fun u => winr rc u)); [exact F|exact W|]. clear F W rc' r. intros n u v Hn W F.
    eapply (ofor_inv (fun u => winr rc u)); [exact F|exact W|]. clear F W u v. intros m u v Hm W F. assert (Hq : 0 <= m + n * gyF g < np) by (unfold npixF; nia). ob F. ob F. destruct (nez _); [|same]. do 3 ob F.
    apply cint_some in E, E1. apply store_some in F. destruct F as (_ & ->). subst. apply win_right; auto. intros i Hi. apply off_pix; auto.
  Qed.
  Notation slice_ := (pml_sliceF fmodf sinf cosf junk g hybrid nreg reg data num_block ind_block).
  Notation slice' := (pml_sliceF fmodf sinf cosf junk' g' hybrid nreg' reg' data' num_block ind_block).
  Lemma pml_ray_left j c rc p d sd su up sd0 r : j <> k -> 0 <= d < dxF g -> pml_rayF fmodf sinf cosf junk g data j c rc p d (sd, su, up) = Some r -> wind sd sd0 -> wind (fst (fst r)) sd0.
  Proof.
    intros N Hd F W. unfold pml_rayF in F. ob F. pose proof (range_ _ _ _ _ _ _ E) as Hp. ob F. ob F. pose proof (sim_left g k k' Hdx Hdt Hk _ _ p d _ _ _ _ Hp Hd N E0 W) as W'.
    destruct (nez _); [do 5 ob F|]; injection F as <-; exact W'.
  Qed.
  Lemma pml_ray_right j c rc p d sd su up sd0 r : j <> k' -> 0 <= d < dxF g -> pml_rayF fmodf sinf cosf junk' g' data' j c rc p d (sd, su, up) = Some r -> wind sd0 sd -> wind sd0 (fst (fst r)).
  Proof.
    intros N Hd F W. unfold pml_rayF in F. ob F. pose proof (range_ _ _ _ _ _ _ E) as Hp. rewrite <- (sr_t _ _ S) in Hp. ob F. ob F. pose proof (sim_right g g' k k' S Hdx Hdt Hk _ _ p d _ _ _ _ Hp Hd N E0 W) as W'.
    destruct (nez _); [do 5 ob F|]; injection F as <-; exact W'.
  Qed.
  Lemma pml_slice_left j st st' r : j <> k -> slice_ j st = Some r -> win2 st st' -> win2 r st'.
  Proof.
    intros N F W. unfold pml_sliceF in F. ob F. ob F. injection F as <-. eapply (ofor_inv (fun u => win2 (snd u) st')); [exact E0|exact W|]. clear E0 W st a0.
    intros os (start & (rc & sd)) v _ W F. destruct st' as (rc' & sd'). cbn [fst snd] in W. destruct W as (W1 & W2). unfold pml_blockF in F. ob F. ob F. ob F.
    assert (W3 : wind (fst (fst a2)) sd').
    { eapply (ofor_inv (fun u : arr b32 * arr b32 * arr b32 => wind (fst (fst u)) sd')); [exact E2|exact W2|]. clear E2 F a2. intros q u u2 _ W F. ob F.
      eapply (ofor_inv (fun u : arr b32 * arr b32 * arr b32 => wind (fst (fst u)) sd')); [exact F|exact W|]. clear F W u u2. intros d ((u1 & u2) & u3) v' Hd W F. eapply pml_ray_left; eauto. }
    destruct a2 as ((sd2 & su2) & up2). do 3 ob F. injection F as <-. cbn [fst snd]. split; [eapply pml_new_left; eauto|exact W3].
  Qed.
  Lemma pml_slice_right j st st' r : j <> k' -> slice' j st' = Some r -> win2 st st' -> win2 st r.
  Proof.
    intros N F W. unfold pml_sliceF in F. ob F. ob F. injection F as <-. eapply (ofor_inv (fun u => win2 st (snd u))); [exact E0|exact W|]. clear E0 W st' a0.
    intros os (start & (rc' & sd')) v _ W F. destruct st as (rc & sd). cbn [fst snd] in W. destruct W as (W1 & W2). unfold pml_blockF in F. ob F. ob F. ob F.
    assert (W3 : wind sd (fst (fst a2))).
    { eapply (ofor_inv (fun u : arr b32 * arr b32 * arr b32 => wind sd (fst (fst u)))); [exact E2|exact W2|]. clear E2 F a2. intros q u u2 _ W F. ob F. rewrite <- (sr_x _ _ S) in F.
      eapply (ofor_inv (fun u : arr b32 * arr b32 * arr b32 => wind sd (fst (fst u)))); [exact F|exact W|]. clear F W u u2. intros d ((u1 & u2) & u3) v' Hd W F. eapply pml_ray_right; eauto. }
    destruct a2 as ((sd2 & su2) & up2). do 3 ob F. injection F as <-. cbn [fst snd]. split; [eapply pml_new_right; eauto|exact W3].
  Qed.
  Lemma pml_slice_win st st' r r' : slice_ k st = Some r -> slice' k' st' = Some r' -> win2 st st' -> win2 r r'.
  Proof.
    intros F F' W. unfold pml_sliceF in *. ob F. ob F. ob F'. ob F'. injection F as <-. injection F' as <-. apply load_some in E, E1. destruct E as (_ & ->), E1 as (_ & ->). rewrite <- Wc in E2.
    apply (fun H => proj2 (ofor_rel (fun u u' : Z * (arr b32 * arr b32) => fst u = fst u' /\ win2 (snd u) (snd u')) _ _ _ _ _ _ _ _ E0 E2 (conj eq_refl W) H)). clear E0 E2 W a0 a2 st st'.
    intros os (start & (rc & sd)) (start' & (rc' & sd')) v v' _ (Q & W1 & W2) F F'. cbn [fst snd] in Q, W1, W2. subst start'. unfold pml_blockF in F, F'.
    unfold pickF in F, F'. rewrite <- (sr_t _ _ S), <- (sr_x _ _ S) in F'.
    ob F. ob F. ob F. ob F'. ob F'. ob F'. assert (a = a2) by congruence. assert (a0 = a3) by congruence. subst a2 a3. clear E E0 E2 E3.
    assert (W3 : win3 a1 a4).
    { eapply (ofor_rel win3); [exact E1|exact E4| |]; clear E1 E4 F F' a1 a4.
      - split; [exact W2|]. split; intros i Hi; reflexivity.
      - intros q u u' w w' _ W F F'. ob F. ob F'. assert (a1 = a2) by congruence. subst a2. eapply (ofor_rel win3); [exact F|exact F'|exact W|]. clear F F' W u u' w w'. intros d u u' w w' Hd W F F'. eapply pml_ray_win; eauto. }
    destruct a1 as ((? & ?) & ?), a4 as ((? & ?) & ?). do 3 ob F. do 3 ob F'. injection F as <-. injection F' as <-. destruct W3 as (W3 & W4 & W5). cbn [fst snd]. split; auto. split; auto.
    destruct (penalty_win _ _ _ _ E E3 W1) as (P1 & P2). eapply pml_new_win; eauto. eapply add_sum_win; eauto.
  Qed.
  Theorem pml_slices num_iter recon recon' r r' : pmlF fmodf sinf cosf junk g hybrid nreg reg data num_block ind_block num_iter recon = Some r ->
    pmlF fmodf sinf cosf junk' g' hybrid nreg' reg' data' num_block ind_block num_iter recon' = Some r' -> winr recon recon' -> winr r r'.
  Proof.
    intros E E' Wr. unfold pmlF in *. assert (Em : (dtF g =? 0) || (dxF g =? 0) = (dtF g' =? 0) || (dxF g' =? 0)) by (rewrite (sr_t _ _ S), (sr_x _ _ S); reflexivity). unfold emptyF in *.
    replace (dyF g =? 0) with false in E by lia. replace (dyF g' =? 0) with false in E' by lia. cbn [orb] in E, E'. rewrite <- Em in E'.
    destruct ((dtF g =? 0) || (dxF g =? 0)); [injection E as <-; injection E' as <-; assumption|]. ob E. ob E'.
    eapply (ofor_rel winr); [exact E|exact E'|exact Wr|]. clear E E' Wr. intros it rc rc' t t' _ W F F'. ob F. ob F'. injection F as <-. injection F' as <-.
    match goal with H : ofor 0 (dyF g) _ _ = Some ?x, H' : ofor 0 (dyF g') _ _ = Some ?y |- _ => assert (Q : win2 x y); [eapply (ofor_slice win2 (dyF g) (dyF g') k k'); [exact Hk|exact Hk'| | | |exact H|exact H'|]; cbn beta|exact (proj1 Q)] end.
    - intros j u u' v Hj N W' G. eapply pml_slice_left; eauto.
    - intros j u u' v Hj N W' G. eapply pml_slice_right; eauto.
    - intros u u' v v' W' G G'. eapply pml_slice_win; eauto.
    - split; [exact W|]. intros i Hi. reflexivity.
  Qed.
End Slices.
