(** Rays through an image of one pixel: concrete witnesses. *)
From Verif Require Import Base CLoop Model_Prep Model_Ray Model_Solver Proofs_Prep Proofs_Ray Properties_Ray.
From Coq Require Import Reals Lra Psatz.
Local Open Scope R_scope.

Lemma distance_sym p q : distance p q = distance q p.
Proof. unfold distance. f_equal. ring. Qed.
Lemma ray_two dx center theta d p q : p <> q ->
  seen theta (detector dx center d) p -> on_grid 1 1 theta p ->
  seen theta (detector dx center d) q -> on_grid 1 1 theta q ->
  ray 1 1 dx center theta d = [(0%Z, distance p q)].
Proof.
  intros Hpq Sp Gp Sq Gq. set (t := ray_trace 1 1 dx center theta d).
  destruct (proj2 (C21_points 1 1 dx center theta d p ltac:(lia) ltac:(lia)) (conj Sp Gp)) as (n & Hn & En).
  destruct (proj2 (C21_points 1 1 dx center theta d q ltac:(lia) ltac:(lia)) (conj Sq Gq)) as (k & Hk & Ek).
  destruct (C21_buffers 1 1 dx center theta d ltac:(lia) ltac:(lia)) as [_ B]. fold t in Hn, En, Hk, Ek, B.
  assert (n <> k) by (intros ->; congruence). assert (Hc : csize t = 2%Z) by lia.
  assert (E : ray 1 1 dx center theta d = [(seg_indi 1 1 (coor t) 0, seg_dist (coor t) 0)]).
  { unfold ray, segments. fold t. rewrite Hc. reflexivity. }
  assert (I : In (seg_indi 1 1 (coor t) 0, seg_dist (coor t) 0) (ray 1 1 dx center theta d)) by (rewrite E; now left).
  apply C21_pixels in I; [|lia|lia]. rewrite E. replace (seg_indi 1 1 (coor t) 0) with 0%Z by lia. f_equal. f_equal.
  change (seg_dist (coor t) 0) with (distance (coor t 0%Z) (coor t 1%Z)).
  assert ((n = 0 /\ k = 1) \/ (n = 1 /\ k = 0))%Z as [[-> ->]|[-> ->]] by lia; rewrite En, Ek; auto using distance_sym.
Qed.
Lemma ray_none ry rz dx center theta d : (1 <= ry)%Z -> (1 <= rz)%Z ->
  (forall p, seen theta (detector dx center d) p -> on_grid ry rz theta p -> False) -> ray ry rz dx center theta d = [].
Proof.
  intros Hy Hz H. unfold ray, segments. set (t := ray_trace ry rz dx center theta d).
  destruct (Z.le_gt_cases (csize t) 0) as [Hc|Hc].
  - rewrite zrange_nil by lia. reflexivity.
  - exfalso. destruct (proj1 (C21_points ry rz dx center theta d (coor t 0%Z) Hy Hz)) as [Hs Hg]; [|now apply (H (coor t 0%Z))].
    exists 0%Z. split; auto. fold t. lia.
Qed.

(** Straight through the pixel. *)
Lemma unit_ray : ray 1 1 1 (1 / 2) 0 0 = [(0%Z, 1)].
Proof.
  set (u := detector 1 (1 / 2) 0). assert (Hu : 0 <= u <= 1 / 100) by (destruct (C21_detector 1 (1 / 2) 0) as [E|E]; unfold u; rewrite E; lra).
  assert (Hw : within 1 u) by (unfold within, grid, margin; lra).
  rewrite (ray_two 1 (1 / 2) 0 0 (- 1 / 2, u) (1 / 2, u)).
  - f_equal. f_equal. unfold distance. cbn [fst snd]. replace (_ + _) with (1 * 1) by field. apply sqrt_square. lra.
  - intros E. apply (f_equal fst) in E. cbn in E. lra.
  - unfold seen. rewrite cos_0, sin_0. cbn [fst snd]. fold u. lra.
  - right. rewrite cos_0. split; [lra|]. split; auto. exists 0%Z. split; [lia|]. unfold grid. cbn [fst]. lra.
  - unfold seen. rewrite cos_0, sin_0. cbn [fst snd]. fold u. lra.
  - right. rewrite cos_0. split; [lra|]. split; auto. exists 1%Z. split; [lia|]. unfold grid. cbn [fst]. lra.
Qed.
(** A ray beside the pixel. *)
Lemma far_ray : ray 1 1 1 10 0 0 = [].
Proof.
  apply ray_none; [lia|lia|]. intros p Hs Hg. unfold seen in Hs. rewrite cos_0, sin_0 in Hs.
  destruct Hg as [(H & _)|(_ & Hw & _)]; [rewrite sin_0 in H; lra|]. unfold within, grid, margin in Hw.
  destruct (C21_detector 1 10 0) as [E|E]; rewrite E in Hs; lra.
Qed.
(** Across a corner of the pixel, at 45 degrees: a chord of about 0.314. *)
Definition chord : R := sqrt 2 - 11 / 10.
Lemma sqrt2_bounds : 1414 / 1000 < sqrt 2 < 1415 / 1000.
Proof.
  split.
  - rewrite <- (sqrt_square (1414 / 1000)) by lra. apply sqrt_lt_1; lra.
  - rewrite <- (sqrt_square (1415 / 1000)) by lra. apply sqrt_lt_1; lra.
Qed.
Lemma corner_ray : ray 1 1 1 (- 1 / 20) (PI / 4) 0 = [(0%Z, chord)].
Proof.
  assert (Hu : detector 1 (- 1 / 20) 0 = 11 / 20).
  { unfold detector, mov. replace (Int_part _) with 0%Z.
    - replace (rltb _ _) with false by (symmetry; apply rltb_false; lra). lra.
    - symmetry. apply Int_part_spec. lra. }
  pose proof sqrt2_bounds as B. assert (S2 : sqrt 2 * sqrt 2 = 2) by (apply sqrt_sqrt; lra).
  set (r := sqrt 2) in *.
  assert (Hs : forall p, snd p - fst p = 11 / 20 * r -> seen (PI / 4) (detector 1 (- 1 / 20) 0) p).
  { intros p Hp. unfold seen. rewrite cos_PI4, sin_PI4, Hu. fold r. replace (snd p) with (fst p + 11 / 20 * r) by lra. field. lra. }
  assert (Hsin : sin (PI / 4) <> 0) by (rewrite sin_PI4; fold r; apply Rgt_not_eq; apply Rdiv_lt_0_compat; lra).
  assert (Hcos : cos (PI / 4) <> 0) by (rewrite cos_PI4; fold r; apply Rgt_not_eq; apply Rdiv_lt_0_compat; lra).
  rewrite (ray_two 1 (- 1 / 20) (PI / 4) 0 (- 1 / 2, 11 / 20 * r - 1 / 2) (1 / 2 - 11 / 20 * r, 1 / 2)).
  - f_equal. f_equal. unfold distance. cbn [fst snd]. unfold chord. fold r. rewrite <- (sqrt_square (r - 11 / 10)) by lra.
    f_equal. nra.
  - intros E. apply (f_equal fst) in E. cbn in E. lra.
  - apply Hs. cbn. lra.
  - right. split; auto. cbn [fst snd]. split; [unfold within, grid, margin; lra|]. exists 0%Z. split; [lia|]. unfold grid. lra.
  - apply Hs. cbn. lra.
  - left. split; auto. cbn [fst snd]. split; [unfold within, grid, margin; lra|]. exists 1%Z. split; [lia|]. unfold grid. lra.
Qed.
