(** Gradient descent: libtomo/recon/grad.c and tikh.c, exact real arithmetic. *)
From Verif Require Import Base CLoop Model_Prep Model_Ray Model_Solver Model_Grad Proofs_Prep Proofs_Morph Proofs_Ray Properties_Ray Proofs_Solver Proofs_Art Proofs_Subsets Proofs_Bart Proofs_Em Proofs_Unit Properties_Solver Proofs_Lsq Proofs_Grad.
From Coq Require Import Reals Lra Psatz.
Local Open Scope R_scope.

(** ** Vocabulary *)
(** Slice s of a volume is the finite image x. *)
Definition slice_is (g : geom) (v : arr number) (s : Z) (x : Z -> R) : Prop := forall j, is_pixel g j -> v (j + s * npix g)%Z = Some (x j).
(** Squared distance of the ray sums of x from the measured ones, rays of the centre of the slice. *)
Definition misfit (g : geom) (data : arr R) (s : Z) (x : Z -> R) : R :=
  total (dt g) (fun p => total (dx g) (fun d => (ray_sum (rays g s p d) x - data (ind_data g s p d)) ^ 2)).
(** Its derivative with respect to pixel j. *)
Definition misfit_slope (g : geom) (data : arr R) (s : Z) (x : Z -> R) (j : Z) : R :=
  total (dt g) (fun p => total (dx g) (fun d => 2 * (ray_sum (rays g s p d) x - data (ind_data g s p d)) * inside_length (rays g s p d) j)).
(** The ray sums of an image are not larger than K times the image. *)
Definition bounded_rays (g : geom) (s : Z) (K : R) : Prop :=
  forall v, total (dt g) (fun p => total (dx g) (fun d => ray_sum (rays g s p d) v ^ 2)) <= K * total (npix g) (fun j => v j ^ 2).
Definition inner (g : geom) (x y : Z -> R) : R := total (npix g) (fun j => x j * y j).
(** The step length reached by reg_par[0] = lambda. *)
Definition step_length (g : geom) (lambda : R) : R := 2 * lambda / IZR (dx g * dt g).

(** ** From sums over angles and detector pixels to sums over lists *)
Lemma total_pairs g f : total (dt g) (fun p => total (dx g) (fun d => f p d)) = lsum (fun pd => f (fst pd) (snd pd)) (pairs g).
Proof.
  unfold total, pairs. change (rsum (map ?h ?l)) with (lsum h l). induction (zrange 0 (dt g)) as [|p l IH]; [reflexivity|]. cbn [flat_map]. rewrite lsum_cons, IH, lsum_app. f_equal.
  unfold lsum. now rewrite map_map.
Qed.
Lemma ray_sum_fwd g s p d x : valid g -> ray_sum (rays g s p d) x = fwd (npix g) (Rw g s) x (p, d).
Proof. intros (H1 & H2 & _). exact (dot_fwd g H1 H2 s (p, d) x). Qed.
Lemma misfit_objective g data s x : valid g -> misfit g data s x = objective (npix g) (pairs g) (Rw g s) (bb g data s) x.
Proof.
  intros Hg. unfold misfit. rewrite (total_pairs g (fun p d => (ray_sum (rays g s p d) x - data (ind_data g s p d)) ^ 2)). unfold objective, lprod. apply lsum_ext. intros (p, d) _. unfold residual, bb. rewrite ray_sum_fwd by auto. cbn [fst snd]. ring.
Qed.
Lemma misfit_slope_eq g data s x j : valid g -> misfit_slope g data s x j = slope (npix g) (pairs g) (Rw g s) (bb g data s) x j.
Proof.
  intros Hg. unfold misfit_slope. rewrite (total_pairs g (fun p d => 2 * (ray_sum (rays g s p d) x - data (ind_data g s p d)) * inside_length (rays g s p d) j)).
  unfold slope, bwd. rewrite <- lsum_scal. apply lsum_ext. intros (p, d) _. unfold residual, bb, Rw. rewrite ray_sum_fwd, inside_length_wt by auto. cbn [fst snd]. unfold Rw. ring.
Qed.
Lemma bounded_rays_eq g s K : valid g -> bounded_rays g s K <-> forall v, lprod (pairs g) (fwd (npix g) (Rw g s) v) (fwd (npix g) (Rw g s) v) <= K * prod (npix g) v v.
Proof.
  intros Hg. assert (E : forall v, total (dt g) (fun p => total (dx g) (fun d => ray_sum (rays g s p d) v ^ 2)) = lprod (pairs g) (fwd (npix g) (Rw g s) v) (fwd (npix g) (Rw g s) v)).
  { intros v. rewrite (total_pairs g (fun p d => ray_sum (rays g s p d) v ^ 2)). unfold lprod. apply lsum_ext. intros (p, d) _. rewrite ray_sum_fwd by auto. cbn [fst snd]. ring. }
  assert (F : forall v, total (npix g) (fun j => v j ^ 2) = prod (npix g) v v) by (intros v; apply zsum_ext; intros; ring).
  unfold bounded_rays. split; intros H v; specialize (H v); rewrite ?E, ?F in *; auto.
Qed.
Lemma distance2_prod g x z : distance2 g x z = prod (npix g) (fun j => x j - z j) (fun j => x j - z j). Proof. reflexivity. Qed.
Lemma slice_is_holds g v s x : slice_is g v s x <-> holds g s v x.
Proof. unfold slice_is, holds, is_pixel. split; intros H j Hj; [rewrite Z.add_comm|rewrite Z.add_comm]; auto. Qed.
Lemma step_length_r g lambda : valid g -> lambda * (scale_r g * scale_r g) = step_length g lambda.
Proof. intros (H1 & H2 & H3 & H4 & H5). rewrite r_sq by auto. unfold step_length. assert (1 <= dx g * dt g)%Z by nia. apply IZR_le in H. field. lra. Qed.
Lemma step_length_nonneg g lambda : valid g -> 0 <= lambda -> 0 <= step_length g lambda.
Proof. intros (H1 & H2 & H3 & H4 & H5) Hl. unfold step_length. assert (1 <= dx g * dt g)%Z by nia. apply IZR_le in H. apply Rle_mult_inv_pos; lra. Qed.

(** [misfit_slope] is the gradient of [misfit]: second order expansion in any direction. *)
Theorem C71_slope : forall g data s x e h, valid g ->
  misfit g data s (fun j => x j + h * e j) =
  misfit g data s x + h * inner g (misfit_slope g data s x) e + h ^ 2 * total (dt g) (fun p => total (dx g) (fun d => ray_sum (rays g s p d) e ^ 2)).
Proof.
  intros g data s x e h Hg. rewrite !misfit_objective, objective_expand by auto. f_equal.
  - f_equal. f_equal. apply zsum_ext. intros j _. now rewrite misfit_slope_eq.
  - rewrite (total_pairs g (fun p d => ray_sum (rays g s p d) e ^ 2)). replace (h ^ 2) with (h * h) by ring. f_equal. apply lsum_ext. intros (p, d) _. rewrite ray_sum_fwd by auto. cbn [fst snd]. ring.
Qed.

(** ** The common engine: a fixed step on misfit + gamma |x - c|^2 *)
Section Engine.
  Variable g : geom.
  Hypothesis Hg : valid g.
  Variables (data : arr R) (reg0 : R) (prior : option (R * arr R)) (recon simdata gr gr0 : arr number).
  Hypothesis Hreg : 0 <= reg0.
  Hypothesis Hprior : match prior with None => True | Some (reg1, _) => 0 <= reg1 end.
  Variable s : Z.
  Hypothesis Hs : (0 <= s < dy g)%Z.
  Variable X0 : Z -> R.
  Hypothesis H0 : slice_is g recon s X0.
  Let mu := step_length g reg0.
  Let ga := gam g prior.
  Let ce := cen g prior s.
  Let N := npix g.
  Let LS := stack N (pairs g).
  Let WS := ws (Rw g s) ga.
  Let BS := bs (bb g data s) ga ce.
  Definition Jp (x : Z -> R) : R := misfit g data s x + ga * distance2 g x ce.
  Definition step (x : Z -> R) (j : Z) : R := x j - mu * (misfit_slope g data s x j + 2 * ga * (x j - ce j)).
  Fixpoint traj (n : nat) : Z -> R := match n with 0%nat => X0 | S n => step (traj n) end.
  Lemma ga_nonneg : 0 <= ga.
  Proof. destruct Hg as (H1 & H2 & H3 & H4 & H5). apply gam_nonneg; auto. Qed.
  Lemma mu_nonneg : 0 <= mu. Proof. now apply step_length_nonneg. Qed.
  Lemma Jp_objective x : Jp x = objective N LS WS BS x.
  Proof. unfold LS, WS, BS. rewrite stack_objective by apply ga_nonneg. unfold Jp. rewrite misfit_objective by auto. reflexivity. Qed.
  Lemma step_descend x j : (0 <= j < N)%Z -> step x j = descend N LS WS BS mu x j.
  Proof. intros Hj. unfold step, descend, LS, WS, BS. rewrite stack_slope by (auto; apply ga_nonneg). now rewrite misfit_slope_eq. Qed.
  Lemma engine_step n X : (0 <= n)%Z -> slice_is g (gd_solve g data reg0 prior n recon simdata gr gr0) s X ->
    slice_is g (gd_solve g data reg0 prior (n + 1) recon simdata gr gr0) s (step X).
  Proof.
    intros Hn H. destruct Hg as (H1 & H2 & H3 & H4 & H5). apply slice_is_holds. apply slice_is_holds in H.
    eapply holds_ext; [|apply (step_fixed g H1 H2 H4 H5 H3 data reg0 prior recon simdata gr gr0 n s X); auto].
    intros j Hj. unfold step. rewrite step_length_r by auto. unfold Sl. rewrite misfit_slope_eq by auto. reflexivity.
  Qed.
  Lemma engine_start : slice_is g (gd_solve g data reg0 prior 0 recon simdata gr gr0) s X0.
  Proof. destruct Hg as (H1 & H2 & H3 & H4 & H5). apply slice_is_holds. apply res_0; auto. now apply slice_is_holds. Qed.
  Lemma engine_traj n : slice_is g (gd_solve g data reg0 prior (Z.of_nat n) recon simdata gr gr0) s (traj n).
  Proof. induction n; [exact engine_start|]. rewrite Nat2Z.inj_succ, <- Z.add_1_r. apply engine_step; auto. lia. Qed.
  Lemma slice_unique v x y : slice_is g v s x -> slice_is g v s y -> forall j, is_pixel g j -> x j = y j.
  Proof. intros Hx Hy j Hj. specialize (Hx j Hj). specialize (Hy j Hj). congruence. Qed.
  Lemma Jp_ext x y : (forall j, is_pixel g j -> x j = y j) -> Jp x = Jp y.
  Proof.
    intros H. rewrite !Jp_objective. unfold objective. apply lprod_ext; intros a _; unfold residual; f_equal; apply fwd_ext; exact H.
  Qed.
  Variable K : R.
  Hypothesis HK : bounded_rays g s K.
  Lemma engine_descent x : mu * (K + ga) <= 1 -> Jp (step x) <= Jp x.
  Proof.
    intros H. rewrite (Jp_ext (step x) (descend N LS WS BS mu x)) by (intros; now apply step_descend). rewrite !Jp_objective.
    apply (descent N LS WS (K + ga)); auto; [|apply mu_nonneg]. apply stack_bound; [apply ga_nonneg|]. now apply bounded_rays_eq.
  Qed.
  Lemma engine_rate n z : 2 * mu * (K + ga) <= 1 -> 2 * mu * INR n * (Jp (traj n) - Jp z) <= distance2 g X0 z.
  Proof.
    intros H. pose proof mu_nonneg as Hm.
    assert (B : forall v, lprod LS (fwd N WS v) (fwd N WS v) <= (K + ga) * prod N v v) by (apply stack_bound; [apply ga_nonneg|]; now apply bounded_rays_eq).
    assert (G : 2 * mu * INR n * (Jp (traj n) - Jp z) + distance2 g (traj n) z <= distance2 g X0 z).
    { induction n as [|n IH]; [cbn; lra|]. rewrite S_INR. cbn [traj]. set (x := traj n) in *.
      assert (D : Jp (step x) <= Jp x).
      { apply engine_descent. destruct (Rle_dec 0 (mu * (K + ga))); lra. }
      assert (R1 : 2 * mu * (Jp (step x) - Jp z) <= distance2 g x z - distance2 g (step x) z).
      { pose proof (rate_step N LS WS (K + ga) B BS mu x z Hm H) as RS. rewrite !distance2_prod. rewrite (Jp_ext (step x) (descend N LS WS BS mu x)) by (intros; now apply step_descend).
        rewrite !Jp_objective. eapply Rle_trans; [exact RS|]. apply Req_le. f_equal. apply prod_ext; intros j Hj; now rewrite step_descend. }
      assert (2 * mu * INR n * (Jp (step x) - Jp z) <= 2 * mu * INR n * (Jp x - Jp z)).
      { apply Rmult_le_compat_l; [|lra]. pose proof (pos_INR n). apply Rmult_le_pos; lra. }
      lra. }
    pose proof (prod_pos N (fun j => traj n j - z j)) as P. rewrite (distance2_prod g (traj n)) in G. fold N in G. lra.
  Qed.
End Engine.

(** ** C71: grad *)
(** No iteration leaves the image alone (for every reg_par). *)
Theorem C71_none : forall g data lambda recon simdata gr gr0 s x, valid g -> (0 <= s < dy g)%Z -> slice_is g recon s x ->
  slice_is g (grad g data lambda 0 recon simdata gr gr0) s x.
Proof. intros g data lambda recon simdata gr gr0 s x (H1 & H2 & H3 & H4 & H5) Hs H. apply slice_is_holds. apply res_0; auto. now apply slice_is_holds. Qed.
(** With reg_par[0] = lambda >= 0 an iteration goes a fixed length along the gradient of the misfit of its own slice. *)
Theorem C71_step : forall g data lambda recon simdata gr gr0 n s x, valid g -> 0 <= lambda -> (0 <= n)%Z -> (0 <= s < dy g)%Z ->
  slice_is g (grad g data lambda n recon simdata gr gr0) s x ->
  slice_is g (grad g data lambda (n + 1) recon simdata gr gr0) s (fun j => x j - step_length g lambda * misfit_slope g data s x j).
Proof.
  intros g data lambda recon simdata gr gr0 n s x Hg Hl Hn Hs H j Hj. unfold grad. rewrite (engine_step g Hg data lambda None recon simdata gr gr0 Hl s Hs n x Hn H j Hj).
  f_equal. unfold step, gam. ring.
Qed.
(** The result is finite after any number of iterations. *)
Theorem C71_finite : forall g data lambda recon simdata gr gr0 n s x, valid g -> 0 <= lambda -> (0 <= n)%Z -> (0 <= s < dy g)%Z ->
  slice_is g recon s x -> exists y, slice_is g (grad g data lambda n recon simdata gr gr0) s y.
Proof.
  intros g data lambda recon simdata gr gr0 n s x Hg Hl Hn Hs H. exists (traj g data lambda None s x (Z.to_nat n)).
  rewrite <- (Z2Nat.id n) at 1 by auto. now apply engine_traj.
Qed.
(** A short enough step never increases the misfit. *)
Theorem C71_descent : forall g data lambda recon simdata gr gr0 n s K x y, valid g -> 0 <= lambda -> (0 <= n)%Z -> (0 <= s < dy g)%Z ->
  bounded_rays g s K -> step_length g lambda * K <= 1 ->
  slice_is g (grad g data lambda n recon simdata gr gr0) s x -> slice_is g (grad g data lambda (n + 1) recon simdata gr gr0) s y ->
  misfit g data s y <= misfit g data s x.
Proof.
  intros g data lambda recon simdata gr gr0 n s K x y Hg Hl Hn Hs HK Hm Hx Hy.
  pose proof (engine_step g Hg data lambda None recon simdata gr gr0 Hl s Hs n x Hn Hx) as E.
  pose proof (engine_descent g Hg data lambda None Hl I s K HK x) as D. rewrite <- (Jp_ext g Hg data None I s y (step g data lambda None s x)) in D.
  - unfold Jp, gam in D. rewrite !Rmult_0_l, !Rplus_0_r in D. auto.
  - intros j Hj. apply (slice_unique g s _ y (step g data lambda None s x) Hy E j Hj).
Qed.
(** For data of an image, every iteration comes closer to it. *)
Theorem C71_closer : forall g data lambda recon simdata gr gr0 n s K z x y, valid g -> 0 <= lambda -> (0 <= n)%Z -> (0 <= s < dy g)%Z ->
  0 <= K -> bounded_rays g s K -> step_length g lambda * K <= 1 -> consistent g s s data z ->
  slice_is g (grad g data lambda n recon simdata gr gr0) s x -> slice_is g (grad g data lambda (n + 1) recon simdata gr gr0) s y ->
  distance2 g y z <= distance2 g x z.
Proof.
  intros g data lambda recon simdata gr gr0 n s K z x y Hg Hl Hn Hs K0 HK Hm Hz Hx Hy.
  pose proof (C71_step g data lambda recon simdata gr gr0 n s x Hg Hl Hn Hs Hx) as E.
  assert (M0 : 0 <= step_length g lambda) by now apply step_length_nonneg.
  pose proof (closer (npix g) (pairs g) (Rw g s) K (proj1 (bounded_rays_eq g s K Hg) HK) (bb g data s) (step_length g lambda) x z K0 M0 Hm) as C.
  rewrite !distance2_prod. eapply Rle_trans; [|apply C].
  - apply Req_le. apply prod_ext; intros j Hj; f_equal; rewrite (slice_unique g s _ y _ Hy E j Hj); unfold descend; now rewrite misfit_slope_eq.
  - intros (p, d) Hp. apply in_pairs in Hp. rewrite <- ray_sum_fwd by auto. apply Hz. exact Hp.
Qed.
(** Rate: after n iterations the misfit exceeds that of any image z by at most |x0 - z|^2 / (2 step n). *)
Theorem C71_rate : forall g data lambda recon simdata gr gr0 n s K z x y, valid g -> 0 <= lambda -> (0 <= s < dy g)%Z ->
  bounded_rays g s K -> 2 * step_length g lambda * K <= 1 -> slice_is g recon s x ->
  slice_is g (grad g data lambda (Z.of_nat n) recon simdata gr gr0) s y ->
  2 * step_length g lambda * INR n * (misfit g data s y - misfit g data s z) <= distance2 g x z.
Proof.
  intros g data lambda recon simdata gr gr0 n s K z x y Hg Hl Hs HK Hm Hx Hy.
  pose proof (engine_traj g Hg data lambda None recon simdata gr gr0 Hl s Hs x Hx n) as E.
  pose proof (engine_rate g Hg data lambda None Hl I s x K HK n z) as D.
  rewrite <- (Jp_ext g Hg data None I s y (traj g data lambda None s x n)) in D by (intros j Hj; apply (slice_unique g s _ _ _ Hy E j Hj)).
  unfold Jp, gam in D. rewrite !Rmult_0_l, !Rplus_0_r in D. auto.
Qed.
(** A bound K from the longest ray and the pixel with the most ray length. *)
Theorem C71_bound : forall g s P Q, valid g -> 0 <= P ->
  (forall p d, is_ray g p d -> total_length (rays g s p d) <= P) ->
  (forall j, is_pixel g j -> total (dt g) (fun p => total (dx g) (fun d => inside_length (rays g s p d) j)) <= Q) ->
  bounded_rays g s (P * Q).
Proof.
  intros g s P Q Hg HP Hr Hc. apply bounded_rays_eq; auto. destruct Hg as (H1 & H2 & H3 & H4 & H5). apply schur; auto.
  - intros (p, d) j _. unfold Rw. apply wt_nonneg. now apply rays_nonneg.
  - intros (p, d) Hp. apply in_pairs in Hp. eapply Rle_trans; [|apply (Hr p d Hp)]. apply Req_le.
    pose proof (dot_wt (npix g) (rays g s p d) (fun _ => 1) (rays_grid g H1 H2 s p d)) as D. unfold Rw. cbn [fst snd].
    rewrite (zsum_ext (npix g) _ (fun j => 1 * wt (rays g s p d) j)) by (intros; ring). rewrite <- D. clear. unfold dot, total_length, rsum. induction (rays g s p d) as [|(i, w) l IH]; cbn; [lra|]. cbn in IH. rewrite IH. ring.
  - intros j Hj. eapply Rle_trans; [|apply (Hc j Hj)]. apply Req_le. rewrite (total_pairs g (fun p d => inside_length (rays g s p d) j)). apply lsum_ext. intros (p, d) _. now rewrite inside_length_wt.
Qed.
(** An image with the measured ray sums stays, for lambda >= 0. *)
Theorem C71_fixed_point : forall g data lambda recon simdata gr gr0 n s z, valid g -> 0 <= lambda -> (0 <= n)%Z -> (0 <= s < dy g)%Z ->
  consistent g s s data z -> slice_is g recon s z -> slice_is g (grad g data lambda n recon simdata gr gr0) s z.
Proof.
  intros g data lambda recon simdata gr gr0 n s z Hg Hl Hn Hs Hz H. pattern n. apply natlike_ind; auto; [now apply C71_none|].
  intros k Hk IH. rewrite <- Z.add_1_r. intros j Hj. rewrite (C71_step g data lambda recon simdata gr gr0 k s z Hg Hl Hk Hs IH j Hj). f_equal.
  assert (E : misfit_slope g data s z j = 0); [|rewrite E; ring]. unfold misfit_slope. apply (zsum_zero (dt g)). intros p Hp. apply (zsum_zero (dx g)). intros d Hd.
  rewrite (Hz p d) by (split; auto). ring.
Qed.
(** reg_par[0] < 0: a first step of 0.001, then Barzilai and Borwein's step length (not a number where the gradient has not changed). *)
Theorem C71_first : forall g data lambda recon simdata gr gr0 s x, valid g -> lambda < 0 -> (0 <= s < dy g)%Z -> slice_is g recon s x ->
  slice_is g (grad g data lambda 1 recon simdata gr gr0) s (fun j => x j - step_length g (1 / 1000) * misfit_slope g data s x j).
Proof.
  intros g data lambda recon simdata gr gr0 s x Hg Hl Hs H. pose proof Hg as (H1 & H2 & H3 & H4 & H5). apply slice_is_holds. apply slice_is_holds in H.
  eapply holds_ext; [|apply (step_first g H1 H2 H4 H5 H3 data lambda None recon simdata gr gr0 s x); auto]. intros j Hj. rewrite <- step_length_r by auto. unfold Sl, gam. rewrite misfit_slope_eq by auto. field.
Qed.
Theorem C71_bb : forall g data lambda recon simdata gr gr0 n s x x0 j, valid g -> lambda < 0 -> (1 <= n)%Z -> (0 <= s < dy g)%Z ->
  slice_is g (grad g data lambda (n - 1) recon simdata gr gr0) s x0 -> slice_is g (grad g data lambda n recon simdata gr gr0) s x -> is_pixel g j ->
  let dx := fun j => x j - x0 j in let dg := fun j => misfit_slope g data s x j - misfit_slope g data s x0 j in
  grad g data lambda (n + 1) recon simdata gr gr0 (j + s * npix g)%Z =
  if Req_EM_T (inner g dg dg) 0 then None else Some (x j - inner g dx dg / inner g dg dg * misfit_slope g data s x j).
Proof.
  intros g data lambda recon simdata gr gr0 n s x x0 j Hg Hl Hn Hs H0 H Hj. pose proof Hg as (H1 & H2 & H3 & H4 & H5). cbv zeta. apply slice_is_holds in H0, H. rewrite (Z.add_comm j).
  change (grad g data lambda (n + 1) recon simdata gr gr0) with (res g data lambda None recon simdata gr gr0 (n + 1)). rewrite (step_bb g H1 H2 H4 H5 H3 data lambda None recon simdata gr gr0 n s x x0 Hl Hn Hs H H0 j Hj).
  assert (E : forall y i, Sl g data None s y i = misfit_slope g data s y i) by (intros; unfold Sl, gam; rewrite misfit_slope_eq by auto; ring).
  unfold inner, total. change (rsum (map ?h (zrange 0 ?k))) with (zsum k h).
  assert (E1 : prod (npix g) (fun j => x j - x0 j) (fun j => Sl g data None s x j - Sl g data None s x0 j) = zsum (npix g) (fun j => (x j - x0 j) * (misfit_slope g data s x j - misfit_slope g data s x0 j))) by (apply zsum_ext; intros; now rewrite !E).
  assert (E2 : prod (npix g) (fun j => Sl g data None s x j - Sl g data None s x0 j) (fun j => Sl g data None s x j - Sl g data None s x0 j) = zsum (npix g) (fun j => (misfit_slope g data s x j - misfit_slope g data s x0 j) * (misfit_slope g data s x j - misfit_slope g data s x0 j))) by (apply zsum_ext; intros; now rewrite !E).
  rewrite E1, E2, E. unfold ndiv. destruct (Req_EM_T _ 0); reflexivity.
Qed.
(** Where it is a number, this step length is positive and at least 1 / 2K. *)
Theorem C71_bb_length : forall g data s K x x0, valid g -> 0 <= K -> bounded_rays g s K ->
  let dx := fun j => x j - x0 j in let dg := fun j => misfit_slope g data s x j - misfit_slope g data s x0 j in
  inner g dg dg <> 0 -> 1 <= 2 * K * (inner g dx dg / inner g dg dg).
Proof.
  intros g data s K x x0 Hg K0 HK. cbv zeta. set (e := fun j => x j - x0 j). set (W := Rw g s). set (N := npix g). set (L := pairs g). intros Hn.
  assert (E : forall j, misfit_slope g data s x j - misfit_slope g data s x0 j = 2 * bwd L W (fwd N W e) j).
  { intros j. rewrite !misfit_slope_eq by auto. unfold slope. fold N W L. unfold bwd. rewrite <- !lsum_scal.
    rewrite <- (Rplus_0_r (lsum _ _ - lsum _ _)). unfold Rminus. rewrite Rplus_0_r. rewrite <- (Rmult_1_l (- lsum _ _)). rewrite <- Ropp_mult_distr_r. rewrite Ropp_mult_distr_l.
    rewrite <- (lsum_scal (-(1))). rewrite <- lsum_plus. apply lsum_ext. intros a _. unfold residual.
    rewrite (fwd_ext N W e (fun j => 1 * x j + (-1) * x0 j)) by (intros; unfold e; ring). rewrite fwd_lin. ring. }
  assert (Edd : inner g (fun j => misfit_slope g data s x j - misfit_slope g data s x0 j) (fun j => misfit_slope g data s x j - misfit_slope g data s x0 j) = 4 * prod N (bwd L W (fwd N W e)) (bwd L W (fwd N W e))).
  { unfold inner, total, prod. change (rsum (map ?h (zrange 0 ?k))) with (zsum k h). rewrite <- zsum_scal. apply zsum_ext. intros j _. rewrite !E. ring. }
  assert (Eed : inner g e (fun j => misfit_slope g data s x j - misfit_slope g data s x0 j) = 2 * lprod L (fwd N W e) (fwd N W e)).
  { rewrite fwd_bwd. unfold inner, total, prod. change (rsum (map ?h (zrange 0 ?k))) with (zsum k h). rewrite <- zsum_scal. apply zsum_ext. intros j _. rewrite !E. ring. }
  rewrite Edd in *. rewrite Eed. pose proof (bwd_bound N L W K (proj1 (bounded_rays_eq g s K Hg) HK) (fwd N W e) K0) as B. pose proof (prod_pos N (bwd L W (fwd N W e))) as P.
  set (u := prod N _ _) in *. set (v := lprod L _ _) in *. assert (0 < u) by (destruct P as [P|P]; auto; exfalso; apply Hn; rewrite <- P; ring).
  replace (2 * K * (2 * v / (4 * u))) with (K * v / u) by (field; lra). apply (Rmult_le_reg_r u); auto. unfold Rdiv. rewrite Rmult_assoc, Rinv_l by lra. lra.
Qed.

(** *** Examples: one pixel, one ray of length 1 *)
Lemma unit_misfit c data x : c 0%Z = 1 / 2 -> misfit (unit_geom 1 c) data 0 x = (x 0%Z - data 0%Z) ^ 2.
Proof. intros Hc. unfold misfit, total. change (zrange 0 (dt (unit_geom 1 c))) with [0%Z]. change (zrange 0 (dx (unit_geom 1 c))) with [0%Z]. cbn [map]. rewrite unit_rays by auto. unfold ray_sum, rsum. cbn. ring. Qed.
Lemma unit_misfit_slope c data x : c 0%Z = 1 / 2 -> misfit_slope (unit_geom 1 c) data 0 x 0 = 2 * (x 0%Z - data 0%Z).
Proof. intros Hc. unfold misfit_slope, total. change (zrange 0 (dt (unit_geom 1 c))) with [0%Z]. change (zrange 0 (dx (unit_geom 1 c))) with [0%Z]. cbn [map]. rewrite unit_rays by auto. unfold ray_sum, inside_length, rsum. cbn. ring. Qed.
Lemma unit_step_length c l : step_length (unit_geom 1 c) l = 2 * l.
Proof. unfold step_length. cbn. field. Qed.
Lemma unit_bounded c : c 0%Z = 1 / 2 -> bounded_rays (unit_geom 1 c) 0 1.
Proof. intros Hc v. unfold total. change (zrange 0 (dt (unit_geom 1 c))) with [0%Z]. change (zrange 0 (dx (unit_geom 1 c))) with [0%Z]. cbn [map]. change (zrange 0 (npix (unit_geom 1 c))) with [0%Z]. rewrite unit_rays by auto. unfold ray_sum, rsum. cbn. apply Req_le. ring. Qed.
Definition half : arr R := fun _ => 1 / 2.
(** lambda = 1/8 halves the error of the pixel: from 0 towards 4 gives 2. *)
Example C71_ex : grad (unit_geom 1 half) (fun _ => 4) (1 / 8) 1 (fun _ => Some 0) (fun _ => None) (fun _ => None) (fun _ => None) 0%Z = Some 2.
Proof.
  change 1%Z with (0 + 1)%Z at 2. change 0%Z with (0 + 0 * npix (unit_geom 1 half))%Z at 3.
  rewrite (C71_step (unit_geom 1 half) (fun _ => 4) (1 / 8) (fun _ => Some 0) (fun _ => None) (fun _ => None) (fun _ => None) 0 0 (fun _ => 0)); [| apply unit_valid; lia|lra|lia|cbn; lia| |cbv; split; [discriminate|reflexivity]].
  - rewrite unit_step_length, unit_misfit_slope by reflexivity. f_equal. lra.
  - apply C71_none; [apply unit_valid; lia|cbn; lia|]. intros j _. reflexivity.
Qed.
Example C71_rate_ex : 2 * step_length (unit_geom 1 half) (1 / 8) * 1 <= 1.
Proof. rewrite unit_step_length. lra. Qed.

(** The default reg_par of recon() is 1 (algorithm.py 484): the misfit can grow with every iteration, here ninefold. *)
Theorem C71_default_refuted : exists g data recon, valid g /\ (exists z, consistent g 0 0 data z) /\ slice_is g recon 0 (fun _ => 0) /\
  (forall simdata gr gr0 n x y, (0 <= n)%Z -> slice_is g (grad g data 1 n recon simdata gr gr0) 0 x -> slice_is g (grad g data 1 (n + 1) recon simdata gr gr0) 0 y ->
     misfit g data 0 y = 9 * misfit g data 0 x) /\ misfit g data 0 (fun _ => 0) = 1.
Proof.
  exists (unit_geom 1 half), (fun _ => 1), (fun _ => Some 0). split; [apply unit_valid; lia|]. split; [|split; [|split]].
  - exists (fun _ => 1). intros p d [Hp Hd]. cbn in Hp, Hd. replace p with 0%Z by lia. replace d with 0%Z by lia. rewrite unit_rays by reflexivity. unfold ray_sum, rsum. cbn. ring.
  - intros j _. reflexivity.
  - intros simdata gr gr0 n x y Hn Hx Hy. rewrite !unit_misfit by reflexivity.
    assert (P : is_pixel (unit_geom 1 half) 0) by (cbv; split; [discriminate|reflexivity]).
    pose proof (C71_step (unit_geom 1 half) (fun _ => 1) 1 (fun _ => Some 0) simdata gr gr0 n 0 x (unit_valid 1 _ ltac:(lia)) ltac:(lra) Hn ltac:(cbn; lia) Hx) as E.
    rewrite (slice_unique (unit_geom 1 half) 0 _ y _ Hy E 0%Z P), unit_step_length, unit_misfit_slope by reflexivity. ring.
  - rewrite unit_misfit by reflexivity. ring.
Qed.
(** reg_par < 0: an exact start becomes NaN in the second iteration. *)
Theorem C71_bb_refuted : exists g data recon z, valid g /\ consistent g 0 0 data z /\ slice_is g recon 0 z /\
  forall lambda simdata gr gr0, lambda < 0 -> grad g data lambda 2 recon simdata gr gr0 0%Z = None.
Proof.
  exists (unit_geom 1 half), (fun _ => 1), (fun _ => Some 1), (fun _ => 1). assert (V : valid (unit_geom 1 half)) by (apply unit_valid; lia). split; auto. split; [|split].
  - intros p d [Hp Hd]. cbn in Hp, Hd. replace p with 0%Z by lia. replace d with 0%Z by lia. rewrite unit_rays by reflexivity. unfold ray_sum, rsum. cbn. ring.
  - intros j _. reflexivity.
  - intros lambda simdata gr gr0 Hl. assert (P : is_pixel (unit_geom 1 half) 0) by (cbv; split; [discriminate|reflexivity]).
    assert (S0 : slice_is (unit_geom 1 half) (fun _ => Some 1) 0 (fun _ => 1)) by (intros j _; reflexivity).
    assert (Z : forall j, is_pixel (unit_geom 1 half) j -> j = 0%Z) by (intros j Hj; cbv in Hj; destruct j; auto; destruct Hj as [Hj1 Hj2]; [destruct p; discriminate|now destruct Hj1]).
    pose proof (C71_bb (unit_geom 1 half) (fun _ => 1) lambda (fun _ => Some 1) simdata gr gr0 1 0 (fun _ => 1) (fun _ => 1) 0%Z V Hl ltac:(lia) ltac:(cbn; lia)) as B.
    cbv zeta in B. change (0 + 0 * npix _)%Z with 0%Z in B. change (1 + 1)%Z with 2%Z in B. rewrite B; auto.
    + destruct (Req_EM_T _ 0) as [_|N]; auto. exfalso. apply N. unfold inner, total. change (zrange 0 (npix (unit_geom 1 half))) with [0%Z]. unfold rsum. cbn [map fold_right]. ring.
    + apply C71_none; auto.
    + intros j Hj. rewrite (C71_first (unit_geom 1 half) (fun _ => 1) lambda (fun _ => Some 1) simdata gr gr0 0 (fun _ => 1) V Hl ltac:(cbn; lia) S0 j Hj). rewrite (Z j Hj), unit_misfit_slope by reflexivity. f_equal. ring.
Qed.

(** ** C72: tikh *)
(** The cost it descends on: reg_data enters multiplied by sqrt(2 / (dx dt)), its weight by dx dt / 2. *)
Definition shrunk (g : geom) (reg_data : arr R) (s : Z) (j : Z) : R := sqrt (2 / IZR (dx g * dt g)) * reg_data (j + s * npix g)%Z.
Definition weight (g : geom) (beta : R) : R := beta * IZR (dx g * dt g) / 2.
Definition tikh_cost (g : geom) (data : arr R) (beta : R) (reg_data : arr R) (s : Z) (x : Z -> R) : R :=
  misfit g data s x + weight g beta * distance2 g x (shrunk g reg_data s).
Lemma scale_r_sqrt g : valid g -> scale_r g = sqrt (2 / IZR (dx g * dt g)).
Proof.
  intros (H1 & H2 & H3 & H4 & H5). assert (H : (1 <= dx g * dt g)%Z) by nia. apply IZR_le in H.
  assert (0 < scale_r g) by now apply r_pos. rewrite <- (r_sq g H4 H5). symmetry. apply sqrt_square. lra.
Qed.
Lemma weight_gam g beta z : valid g -> gam g (Some (beta, z)) = weight g beta.
Proof.
  intros (H1 & H2 & H3 & H4 & H5). unfold gam. rewrite r_sq by auto. assert (H : (1 <= dx g * dt g)%Z) by nia. apply IZR_le in H. unfold weight. field. lra.
Qed.
Lemma shrunk_cen g beta z s j : valid g -> cen g (Some (beta, z)) s j = shrunk g z s j.
Proof. intros Hg. unfold cen, shrunk. rewrite scale_r_sqrt by auto. now rewrite Z.add_comm. Qed.
Theorem C72_none : forall g data lambda beta reg_data recon simdata gr gr0 s x, valid g -> (0 <= s < dy g)%Z -> slice_is g recon s x ->
  slice_is g (tikh g data lambda beta reg_data 0 recon simdata gr gr0) s x.
Proof. intros g data lambda beta reg_data recon simdata gr gr0 s x (H1 & H2 & H3 & H4 & H5) Hs H. apply slice_is_holds. apply res_0; auto. now apply slice_is_holds. Qed.
Theorem C72_step : forall g data lambda beta reg_data recon simdata gr gr0 n s x, valid g -> 0 <= lambda -> (0 <= n)%Z -> (0 <= s < dy g)%Z ->
  slice_is g (tikh g data lambda beta reg_data n recon simdata gr gr0) s x ->
  slice_is g (tikh g data lambda beta reg_data (n + 1) recon simdata gr gr0) s
    (fun j => x j - step_length g lambda * (misfit_slope g data s x j + 2 * weight g beta * (x j - shrunk g reg_data s j))).
Proof.
  intros g data lambda beta reg_data recon simdata gr gr0 n s x Hg Hl Hn Hs H j Hj. unfold tikh. rewrite (engine_step g Hg data lambda (Some (beta, reg_data)) recon simdata gr gr0 Hl s Hs n x Hn H j Hj).
  f_equal. unfold step. rewrite weight_gam, shrunk_cen by auto. reflexivity.
Qed.
(** beta = 0 is grad. *)
Theorem C72_no_prior : forall g data lambda reg_data recon simdata gr gr0 n s x, valid g -> 0 <= lambda -> (0 <= n)%Z -> (0 <= s < dy g)%Z -> slice_is g recon s x ->
  exists y, slice_is g (tikh g data lambda 0 reg_data n recon simdata gr gr0) s y /\ slice_is g (grad g data lambda n recon simdata gr gr0) s y.
Proof.
  intros g data lambda reg_data recon simdata gr gr0 n s x Hg Hl Hn Hs H. pattern n. apply natlike_ind; auto.
  - exists x. split; [now apply C72_none|now apply C71_none].
  - intros k Hk (y & H1 & H2). rewrite <- Z.add_1_r. eexists. split; [|apply (C71_step g data lambda recon simdata gr gr0 k s y); auto]. intros j Hj.
    rewrite (C72_step g data lambda 0 reg_data recon simdata gr gr0 k s y Hg Hl Hk Hs H1 j Hj). f_equal. unfold weight. field.
Qed.
Theorem C72_descent : forall g data lambda beta reg_data recon simdata gr gr0 n s K x y, valid g -> 0 <= lambda -> 0 <= beta -> (0 <= n)%Z -> (0 <= s < dy g)%Z ->
  bounded_rays g s K -> step_length g lambda * (K + weight g beta) <= 1 ->
  slice_is g (tikh g data lambda beta reg_data n recon simdata gr gr0) s x -> slice_is g (tikh g data lambda beta reg_data (n + 1) recon simdata gr gr0) s y ->
  tikh_cost g data beta reg_data s y <= tikh_cost g data beta reg_data s x.
Proof.
  intros g data lambda beta reg_data recon simdata gr gr0 n s K x y Hg Hl Hb Hn Hs HK Hm Hx Hy. set (pr := Some (beta, reg_data)).
  pose proof (engine_step g Hg data lambda pr recon simdata gr gr0 Hl s Hs n x Hn Hx) as E.
  rewrite <- (weight_gam g beta reg_data Hg) in Hm.
  pose proof (engine_descent g Hg data lambda pr Hl Hb s K HK x Hm) as D. rewrite <- (Jp_ext g Hg data pr Hb s y (step g data lambda pr s x)) in D.
  - unfold Jp, pr in D. rewrite weight_gam in D by auto. unfold tikh_cost.
    assert (C : forall v, distance2 g v (shrunk g reg_data s) = distance2 g v (cen g (Some (beta, reg_data)) s)) by (intros v; apply zsum_ext; intros j _; now rewrite shrunk_cen).
    now rewrite !C.
  - intros j Hj. apply (slice_unique g s _ y (step g data lambda pr s x) Hy E j Hj).
Qed.
Theorem C72_rate : forall g data lambda beta reg_data recon simdata gr gr0 n s K z x y, valid g -> 0 <= lambda -> 0 <= beta -> (0 <= s < dy g)%Z ->
  bounded_rays g s K -> 2 * step_length g lambda * (K + weight g beta) <= 1 -> slice_is g recon s x ->
  slice_is g (tikh g data lambda beta reg_data (Z.of_nat n) recon simdata gr gr0) s y ->
  2 * step_length g lambda * INR n * (tikh_cost g data beta reg_data s y - tikh_cost g data beta reg_data s z) <= distance2 g x z.
Proof.
  intros g data lambda beta reg_data recon simdata gr gr0 n s K z x y Hg Hl Hb Hs HK Hm Hx Hy. set (pr := Some (beta, reg_data)).
  pose proof (engine_traj g Hg data lambda pr recon simdata gr gr0 Hl s Hs x Hx n) as E.
  rewrite <- (weight_gam g beta reg_data Hg) in Hm.
  pose proof (engine_rate g Hg data lambda pr Hl Hb s x K HK n z Hm) as D.
  rewrite <- (Jp_ext g Hg data pr Hb s y (traj g data lambda pr s x n)) in D by (intros j Hj; apply (slice_unique g s _ _ _ Hy E j Hj)).
  unfold Jp, pr in D. rewrite weight_gam in D by auto. unfold tikh_cost.
  assert (C : forall v, distance2 g v (shrunk g reg_data s) = distance2 g v (cen g (Some (beta, reg_data)) s)) by (intros v; apply zsum_ext; intros j _; now rewrite shrunk_cen).
  now rewrite !C.
Qed.
(** A solution is kept when reg_data is the solution divided by sqrt(2 / (dx dt)). *)
Theorem C72_fixed_point : forall g data lambda beta reg_data recon simdata gr gr0 n s z, valid g -> 0 <= lambda -> (0 <= n)%Z -> (0 <= s < dy g)%Z ->
  consistent g s s data z -> (forall j, is_pixel g j -> reg_data (j + s * npix g)%Z = z j / sqrt (2 / IZR (dx g * dt g))) -> slice_is g recon s z ->
  slice_is g (tikh g data lambda beta reg_data n recon simdata gr gr0) s z.
Proof.
  intros g data lambda beta reg_data recon simdata gr gr0 n s z Hg Hl Hn Hs Hz Hp H. pattern n. apply natlike_ind; auto; [now apply C72_none|].
  intros k Hk IH. rewrite <- Z.add_1_r. intros j Hj. rewrite (C72_step g data lambda beta reg_data recon simdata gr gr0 k s z Hg Hl Hk Hs IH j Hj). f_equal.
  assert (E : misfit_slope g data s z j = 0).
  { unfold misfit_slope. apply (zsum_zero (dt g)). intros p Hp'. apply (zsum_zero (dx g)). intros d Hd.
    rewrite (Hz p d) by (split; auto). ring. }
  rewrite E. unfold shrunk. rewrite Hp by auto. destruct Hg as (H1 & H2 & H3 & H4 & H5). assert (L : (1 <= dx g * dt g)%Z) by nia. apply IZR_le in L.
  assert (0 < sqrt (2 / IZR (dx g * dt g))) by (apply sqrt_lt_R0; apply Rdiv_lt_0_compat; lra). field. lra.
Qed.
(** tikh.c scales the image but not the prior: start = prior = exact solution, and the image moves away. *)
Theorem C72_prior_refuted : exists g data recon reg_data z, valid g /\ consistent g 0 0 data z /\ slice_is g recon 0 z /\
  (forall j, is_pixel g j -> reg_data (j + 0 * npix g)%Z = z j) /\ misfit g data 0 z = 0 /\
  forall lambda beta simdata gr gr0, 0 < lambda -> 0 < beta -> exists y, slice_is g (tikh g data lambda beta reg_data 1 recon simdata gr gr0) 0 y /\ z 0%Z < y 0%Z /\ 0 < misfit g data 0 y.
Proof.
  exists (unit_geom 1 half), (fun _ => 1), (fun _ => Some 1), (fun _ => 1), (fun _ => 1). assert (V : valid (unit_geom 1 half)) by (apply unit_valid; lia). split; auto.
  split; [|split; [|split; [|split]]]; auto.
  - intros p d [Hp Hd]. cbn in Hp, Hd. replace p with 0%Z by lia. replace d with 0%Z by lia. rewrite unit_rays by reflexivity. unfold ray_sum, rsum. cbn. ring.
  - intros j _. reflexivity.
  - rewrite unit_misfit by reflexivity. ring.
  - intros lambda beta simdata gr gr0 Hl Hb. eexists. split.
    + change 1%Z with (0 + 1)%Z at 2. apply (C72_step (unit_geom 1 half) (fun _ => 1) lambda beta (fun _ => 1) (fun _ => Some 1) simdata gr gr0 0 0 (fun _ => 1)); auto; try lra; try lia; [cbn; lia|]. apply C72_none; auto. cbn; lia. intros j _. reflexivity.
    + rewrite unit_misfit by reflexivity. cbv beta. rewrite unit_step_length, unit_misfit_slope by reflexivity. unfold weight, shrunk. cbn [dx dt unit_geom Z.mul]. change (1 * 1)%Z with 1%Z.
      assert (S2 : 1414 / 1000 < sqrt (2 / 1)) by (replace (2 / 1) with 2 by field; apply sqrt2_bounds). change (Pos.mul 1 1) with 1%positive.
      set (q := sqrt (2 / 1)) in *. assert (0 < lambda * beta) by now apply Rmult_lt_0_compat. assert (0 < lambda * beta * (q - 1)) by (apply Rmult_lt_0_compat; lra).
      split; [nra|]. replace (1 - 2 * lambda * (2 * (1 - 1) + 2 * (beta * 1 / 2) * (1 - q * 1)) - 1) with (2 * (lambda * beta * (q - 1))) by field. apply pow_lt. lra.
Qed.
Example C72_ex : exists y, slice_is (unit_geom 1 half) (tikh (unit_geom 1 half) (fun _ => 4) (1 / 8) 0 (fun _ => 100) 1 (fun _ => Some 0) (fun _ => None) (fun _ => None) (fun _ => None)) 0 y /\ y 0%Z = 2.
Proof.
  eexists. split.
  - change 1%Z with (0 + 1)%Z at 3. apply (C72_step (unit_geom 1 half) (fun _ => 4) (1 / 8) 0 (fun _ => 100) (fun _ => Some 0) (fun _ => None) (fun _ => None) (fun _ => None) 0 0 (fun _ => 0)); try lra; try lia; [apply unit_valid; lia|cbn; lia|]. apply C72_none; [apply unit_valid; lia|cbn; lia|]. intros j _. reflexivity.
  - cbv beta. rewrite unit_step_length, unit_misfit_slope by reflexivity. unfold weight. lra.
Qed.

Print Assumptions C71_slope.
Print Assumptions C71_none.
Print Assumptions C71_step.
Print Assumptions C71_finite.
Print Assumptions C71_descent.
Print Assumptions C71_closer.
Print Assumptions C71_rate.
Print Assumptions C71_bound.
Print Assumptions C71_fixed_point.
Print Assumptions C71_first.
Print Assumptions C71_bb.
Print Assumptions C71_bb_length.
Print Assumptions C71_default_refuted.
Print Assumptions C71_bb_refuted.
Print Assumptions C72_none.
Print Assumptions C72_step.
Print Assumptions C72_no_prior.
Print Assumptions C72_descent.
Print Assumptions C72_rate.
Print Assumptions C72_fixed_point.
Print Assumptions C72_prior_refuted.
