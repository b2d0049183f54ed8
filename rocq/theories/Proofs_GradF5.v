From Verif Require Import Base Order CLoop Model_Ray Proofs_Ray Model_RayF Model_SolverF Spec_SolverF Model_PmlF Model_GradF Proofs_FloatB Proofs_RayF Proofs_RayF2 Proofs_RayF3 Proofs_RayF4.
From Verif Require Import Proofs_SolverF Proofs_SolverF2 Proofs_SolverF6 Proofs_SolverF7 Proofs_PmlF Spec_PmlF Proofs_PmlF3 Proofs_PmlF4 Spec_GradF Proofs_GradF2 Proofs_GradF3 Proofs_GradF4.
From Coq Require Import Reals Lra.
From Flocq Require Import Core BinarySingleNaN.
Local Open Scope Z_scope.

(** ** Measurements, images and priors that agree *)
Section Data.
  Variables (segs : Z -> Z -> list (Z * b32)) (dt dx gx gy : Z) (data data' : Z -> Z -> b32) (r first par c : b32) (prior prior' : option (b32 * (Z -> b32))).
  Hypothesis Hgx : 1 <= gx.
  Hypothesis Hseg : forall p d i w, In (i, w) (segs p d) -> 0 <= i < gx * gy.
  Hypothesis Hdata : agree2 dt dx data data'.
  Definition same_prior : Prop := match prior, prior' with None, None => True | Some (a, x), Some (a', x') => a = a' /\ agree gx gy x x' | _, _ => False end.
  Lemma gradient_data x i : same_prior -> 0 <= i < gx * gy -> gradient segs dt dx data r prior x i = gradient segs dt dx data' r prior' x i.
  Proof.
    intros Hp Hi. unfold gradient. rewrite (back_ext segs dt dx _ _ (fun p d => fsub (fmul (simulated segs x p d) r) (data' p d)) i) by (intros p d H1 H2; now rewrite (Hdata p d H1 H2)).
    unfold same_prior in Hp. destruct prior as [(a & y)|], prior' as [(a' & y')|]; try easy. destruct Hp as (-> & A). now rewrite (A i Hi).
  Qed.
  Definition same_st (st st' : (Z -> b32) * (Z -> b32) * (Z -> b32)) : Prop := agree gx gy (fst (fst st)) (fst (fst st')) /\ agree gx gy (snd (fst st)) (snd (fst st')) /\ agree gx gy (snd st) (snd st').
  Lemma grad_run_same n x x' : same_prior -> agree gx gy x x' -> same_st (grad_run segs dt dx gx gy data r first par prior n x) (grad_run segs dt dx gx gy data' r first par prior' n x').
  Proof.
    intros Hp Hx. induction n as [|n IH]; cbn [grad_run].
    - repeat split; cbn [fst snd]; intros i Hi; try rewrite (Hx i Hi); reflexivity.
    - destruct (grad_run segs dt dx gx gy data r first par prior n x) as ((u & u0) & y0), (grad_run segs dt dx gx gy data' r first par prior' n x') as ((w & w0) & z0). destruct IH as (I1 & I2 & I3). cbn [fst snd] in I1, I2, I3.
      unfold grad_next. cbv zeta.
      assert (Y : agree gx gy (gradient segs dt dx data r prior u) (gradient segs dt dx data' r prior' w)) by (intros i Hi; rewrite (gradient_ext segs dt dx gx gy data r prior Hseg u w I1 i Hi); now apply gradient_data).
      split; [|split; cbn [fst snd]; auto]. cbn [fst snd]. intros i Hi. rewrite (I1 i Hi), (Y i Hi), (step_ext gx gy first par n _ _ _ _ w w0 _ z0 I1 I2 Y I3). reflexivity.
  Qed.
  Lemma grad_image_same n x x' i : same_prior -> agree gx gy x x' -> 0 <= i < gx * gy -> grad_image segs dt dx gx gy data r first par prior n x i = grad_image segs dt dx gx gy data' r first par prior' n x' i.
  Proof. intros Hp Hx Hi. unfold grad_image. now rewrite (proj1 (grad_run_same n x x' Hp Hx) i Hi). Qed.
  Lemma tv_next_data st : same_tv dt dx gx gy (tv_next segs dt dx gx gy data r par c st) (tv_next segs dt dx gx gy data' r par c st).
  Proof.
    assert (Q : agree2 dt dx (dual_q segs data r c st) (dual_q segs data' r c st)) by (intros p d H1 H2; unfold dual_q; now rewrite (Hdata p d H1 H2)).
    assert (P : forall i, primal segs dt dx gx gy data r par c st i = primal segs dt dx gx gy data' r par c st i) by (intros i; unfold primal; now rewrite (back_ext segs dt dx _ _ _ i Q)).
    unfold tv_next. repeat split; cbn [tx tu tvx tvy tq]; auto; intros i Hi; rewrite P; reflexivity.
  Qed.
  Lemma tv_run_same n x x' : agree gx gy x x' -> same_tv dt dx gx gy (tv_run segs dt dx gx gy data r par c n x) (tv_run segs dt dx gx gy data' r par c n x').
  Proof.
    intros Hx. induction n as [|n IH]; cbn [tv_run].
    - repeat split; cbn [tx tu tvx tvy tq]; try (intros i Hi; rewrite (Hx i Hi)); try reflexivity; intros p d _ _; reflexivity.
    - destruct (tv_next_ext segs dt dx gx gy data r par c Hgx Hseg _ _ IH) as (A1 & A2 & A3 & A4 & A5). destruct (tv_next_data (tv_run segs dt dx gx gy data' r par c n x')) as (B1 & B2 & B3 & B4 & B5).
      repeat split; [intros i Hi; rewrite A1; auto|intros i Hi; rewrite A2; auto|intros i Hi; rewrite A3; auto|intros i Hi; rewrite A4; auto|intros p d H1 H2; rewrite A5; auto].
  Qed.
  Lemma tv_image_same n x x' i : agree gx gy x x' -> 0 <= i < gx * gy -> tv_image segs dt dx gx gy data r par c n x i = tv_image segs dt dx gx gy data' r par c n x' i.
  Proof. intros Hx Hi. unfold tv_image. now rewrite (proj1 (tv_run_same n x x' Hx) i Hi). Qed.
End Data.

(** Rays that agree *)
Section Rays.
  Variables (segs segs' : Z -> Z -> list (Z * b32)) (dt dx gx gy : Z) (data : Z -> Z -> b32) (r first par c : b32) (prior : option (b32 * (Z -> b32))).
  Hypothesis Hs : forall p d, segs p d = segs' p d.
  Lemma simulated_segs x p d : simulated segs x p d = simulated segs' x p d.
  Proof. unfold simulated. now rewrite Hs. Qed.
  Lemma back_segs back q q' i : (forall p d, q p d = q' p d) -> back_sum segs dt dx back q i = back_sum segs' dt dx back q' i.
  Proof. intros H. unfold back_sum. f_equal. unfold rays. apply flat_map_ext_in'. intros p _. apply flat_map_ext_in'. intros d _. unfold lengths. now rewrite Hs, H. Qed.
  Lemma gradient_segs x i : gradient segs dt dx data r prior x i = gradient segs' dt dx data r prior x i.
  Proof. unfold gradient. rewrite (back_segs _ _ (fun p d => fsub (fmul (simulated segs' x p d) r) (data p d))); [reflexivity|]. intros p d. now rewrite simulated_segs. Qed.
  Lemma grad_run_segs n x : (forall p d i w, In (i, w) (segs p d) -> 0 <= i < gx * gy) -> same_st gx gy (grad_run segs dt dx gx gy data r first par prior n x) (grad_run segs' dt dx gx gy data r first par prior n x).
  Proof.
    intros Hseg. induction n as [|n IH]; cbn [grad_run]; [repeat split; intros i Hi; reflexivity|].
    destruct (grad_run segs dt dx gx gy data r first par prior n x) as ((u & u0) & y0), (grad_run segs' dt dx gx gy data r first par prior n x) as ((w & w0) & z0). destruct IH as (I1 & I2 & I3). cbn [fst snd] in I1, I2, I3. unfold grad_next. cbv zeta.
    assert (Y : agree gx gy (gradient segs dt dx data r prior u) (gradient segs' dt dx data r prior w)) by (intros i Hi; rewrite (gradient_ext segs dt dx gx gy data r prior Hseg u w I1 i Hi); apply gradient_segs).
    split; [|split; cbn [fst snd]; auto]. cbn [fst snd]. intros i Hi. rewrite (I1 i Hi), (Y i Hi), (step_ext gx gy first par n _ _ _ _ w w0 _ z0 I1 I2 Y I3). reflexivity.
  Qed.
  Lemma tv_next_segs st : same_tv dt dx gx gy (tv_next segs dt dx gx gy data r par c st) (tv_next segs' dt dx gx gy data r par c st).
  Proof.
    assert (Q : forall p d, dual_q segs data r c st p d = dual_q segs' data r c st p d) by (intros p d; unfold dual_q; now rewrite simulated_segs).
    assert (P : forall i, primal segs dt dx gx gy data r par c st i = primal segs' dt dx gx gy data r par c st i) by (intros i; unfold primal; now rewrite (back_segs _ _ _ i Q)).
    unfold tv_next. repeat split; cbn [tx tu tvx tvy tq]; auto; intros i Hi; rewrite ?P; auto.
  Qed.
  Lemma tv_run_segs n x : 1 <= gx -> (forall p d i w, In (i, w) (segs p d) -> 0 <= i < gx * gy) -> same_tv dt dx gx gy (tv_run segs dt dx gx gy data r par c n x) (tv_run segs' dt dx gx gy data r par c n x).
  Proof.
    intros Hgx Hseg. induction n as [|n IH]; cbn [tv_run]; [repeat split; intros i Hi; reflexivity|].
    destruct (tv_next_ext segs dt dx gx gy data r par c Hgx Hseg _ _ IH) as (A1 & A2 & A3 & A4 & A5). destruct (tv_next_segs (tv_run segs' dt dx gx gy data r par c n x)) as (B1 & B2 & B3 & B4 & B5).
    repeat split; [intros i Hi; rewrite A1; auto|intros i Hi; rewrite A2; auto|intros i Hi; rewrite A3; auto|intros i Hi; rewrite A4; auto|intros p d H1 H2; rewrite A5; auto].
  Qed.
End Rays.

Section Slices.
  Variables (fmodf sinf cosf : b32 -> b32) (junk junk' : arr pointF * arr pointF * arr pointF) (g g' : geomF) (k k' : Z).
  Hypothesis S : same_rays g g'.
  Hypothesis Hx : 1 <= gxF g <= 2 ^ 15.
  Hypothesis Hy : 1 <= gyF g <= 2 ^ 15.
  Hypothesis Hd : 1 <= dxF g.
  Hypothesis Ht : 1 <= dtF g.
  Hypothesis Hk : 0 <= k < dyF g.
  Hypothesis Hk' : 0 <= k' < dyF g'.
  Hypothesis Ec : centerF g k = centerF g' k'.
  Notation data_eq := (win (dtF g * dxF g) (k * dtF g * dxF g) (k' * dtF g * dxF g)).
  Notation rec_eq := (win (npixF g) (k * gxF g * gyF g) (k' * gxF g * gyF g)).
  Lemma segs_eq p d : segs_of fmodf sinf cosf junk g (centerF g k) p d = segs_of fmodf sinf cosf junk' g' (centerF g' k') p d.
  Proof. unfold segs_of. rewrite <- Ec, (segs_same fmodf sinf cosf junk junk' g g' _ p d S) by lia. reflexivity. Qed.
  Lemma data_agree data data' : data_eq data data' -> agree2 (dtF g) (dxF g) (data_of g data k) (data_of g' data' k').
  Proof. intros D p d Hp Hd'. unfold data_of. rewrite <- (sr_t _ _ S), <- (sr_x _ _ S). apply (D (d + p * dxF g)). nia. Qed.
  Lemma img_agree a a' : rec_eq a a' -> agree (gxF g) (gyF g) (img_of g a k) (img_of g' a' k').
  Proof. intros D i Hi. unfold img_of. rewrite <- (sr_gx _ _ S), <- (sr_gy _ _ S). apply (D i Hi). Qed.
  Lemma empty_no : emptyF g = false /\ emptyF g' = false.
  Proof. unfold emptyF. rewrite <- (sr_t _ _ S), <- (sr_x _ _ S). lia. Qed.
  Definition prior_eq (prior prior' : option (Z * arr b32)) (a a' : b32) : Prop := match prior, prior' with None, None => True | Some (_, x), Some (_, x') => a = a' /\ rec_eq x x' | _, _ => False end.
  Lemma prior_agree reg reg' prior prior' : prior_eq prior prior' (reg 1) (reg' 1) -> same_prior (gxF g) (gyF g) (prior_of g reg prior k) (prior_of g' reg' prior' k').
  Proof. unfold prior_eq, same_prior, prior_of. destruct prior as [(n & x)|], prior' as [(n' & x')|]; auto. intros (E & W). split; [exact E|]. now apply img_agree. Qed.
  Theorem grad_slices data data' nreg nreg' reg reg' prior prior' num_iter l l' recon recon' r r' : 0 <= num_iter -> reg 0 = reg' 0 -> prior_eq prior prior' (reg 1) (reg' 1) -> data_eq data data' ->
    gradF fmodf sinf cosf junk g data nreg reg prior num_iter l recon = Some r -> gradF fmodf sinf cosf junk' g' data' nreg' reg' prior' num_iter l' recon' = Some r' -> rec_eq recon recon' -> rec_eq r r'.
  Proof.
    intros Hn Er Hp D E E' W i Hi. destruct empty_no as (M & M'). pose proof (sr_gx _ _ S) as Gx. pose proof (sr_gy _ _ S) as Gy. pose proof (sr_t _ _ S) as Gt. pose proof (sr_x _ _ S) as Gd. pose proof Hi as Hi'. unfold npixF in Hi'. rewrite Gx, Gy in Hi'.
    pose proof (grad_value fmodf sinf cosf junk g Hx Hy ltac:(lia) ltac:(lia) ltac:(lia) data nreg reg prior num_iter l recon r k i M Hn E Hk Hi) as Q.
    pose proof (grad_value fmodf sinf cosf junk' g' ltac:(lia) ltac:(lia) ltac:(lia) ltac:(lia) ltac:(lia) data' nreg' reg' prior' num_iter l' recon' r' k' i M' Hn E' Hk' Hi') as Q'.
    unfold img_of at 1 in Q. unfold img_of at 1 in Q'. rewrite <- Gx, <- Gy, <- Gt, <- Gd in Q'. rewrite Q, Q'. rewrite <- Er. unfold grad_image. f_equal.
    pose proof (fun p d j w => segs_in fmodf sinf cosf junk g Hx Hy (centerF g k) p d j w) as Hseg.
    rewrite (proj1 (grad_run_same _ _ _ _ _ _ _ (step_r (dxF g * dtF g)) first_step (reg 0) _ _ Hseg (data_agree _ _ D) (Z.to_nat num_iter) _ _ (prior_agree reg reg' prior prior' Hp) (img_agree _ _ W)) i Hi).
    apply (proj1 (grad_run_segs _ _ _ _ (gxF g) (gyF g) _ _ _ _ _ segs_eq _ _ Hseg) i Hi).
  Qed.
  Theorem tv_slices data data' nreg nreg' reg reg' num_iter recon recon' r r' : 0 <= num_iter -> reg 0 = reg' 0 -> data_eq data data' ->
    tvF fmodf sinf cosf junk g data nreg reg num_iter recon = Some r -> tvF fmodf sinf cosf junk' g' data' nreg' reg' num_iter recon' = Some r' -> rec_eq recon recon' -> rec_eq r r'.
  Proof.
    intros Hn Er D E E' W i Hi. destruct empty_no as (M & M'). pose proof (sr_gx _ _ S) as Gx. pose proof (sr_gy _ _ S) as Gy. pose proof (sr_t _ _ S) as Gt. pose proof (sr_x _ _ S) as Gd. pose proof Hi as Hi'. unfold npixF in Hi'. rewrite Gx, Gy in Hi'.
    pose proof (tv_value fmodf sinf cosf junk g Hx Hy ltac:(lia) ltac:(lia) ltac:(lia) data nreg reg num_iter recon r k i M Hn E Hk Hi) as Q.
    pose proof (tv_value fmodf sinf cosf junk' g' ltac:(lia) ltac:(lia) ltac:(lia) ltac:(lia) ltac:(lia) data' nreg' reg' num_iter recon' r' k' i M' Hn E' Hk' Hi') as Q'.
    unfold img_of at 1 in Q. unfold img_of at 1 in Q'. rewrite <- Gx, <- Gy, <- Gt, <- Gd in Q'. rewrite Q, Q'. rewrite <- Er. unfold tv_image. 
    pose proof (fun p d j w => segs_in fmodf sinf cosf junk g Hx Hy (centerF g k) p d j w) as Hseg.
    rewrite (proj1 (tv_run_same _ (dtF g) (dxF g) (gxF g) (gyF g) _ _ (step_r (dxF g * dtF g)) (reg 0) tv_c ltac:(lia) Hseg (data_agree _ _ D) (Z.to_nat num_iter) _ _ (img_agree _ _ W)) i Hi).
    rewrite (proj1 (tv_run_segs _ _ (dtF g) (dxF g) (gxF g) (gyF g) _ _ _ _ segs_eq _ _ ltac:(lia) Hseg) i Hi). reflexivity.
  Qed.
End Slices.
