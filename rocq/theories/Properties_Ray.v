(** Ray tracing through the pixel grid (libtomo/recon/utils.c). *)
From Verif Require Import Base CLoop Model_Prep Model_Ray Proofs_Prep Proofs_Ray.
From Coq Require Import Reals Lra Sorting.Sorted Sorting.Permutation.
Local Open Scope R_scope.

(** ** Vocabulary: plane geometry, independent of the code *)
(** Position of detector pixel d relative to the rotation axis. *)
Definition detector (dx : Z) (center : R) (d : Z) : R := 1 / 2 * (1 - IZR dx) + IZR d + mov dx center.
(** The line seen by a detector position u at angle theta. *)
Definition seen (theta u : R) (p : R * R) : Prop := cos theta * snd p - sin theta * fst p = u.
(** Between the first and the last grid line, [margin] away from both. *)
Definition within (r : Z) (x : R) : Prop := grid r 0 + margin <= x <= grid r r - margin.
(** p is on a horizontal (vertical) line of the grid, and the ray is not parallel to it. *)
Definition on_grid (ry rz : Z) (theta : R) (p : R * R) : Prop :=
  (sin theta <> 0 /\ within ry (fst p) /\ exists n, (0 <= n <= rz)%Z /\ snd p = grid rz n) \/
  (cos theta <> 0 /\ within rz (snd p) /\ exists n, (0 <= n <= ry)%Z /\ fst p = grid ry n).
Definition distance (p q : R * R) : R :=
  sqrt ((fst q - fst p) * (fst q - fst p) + (snd q - snd p) * (snd q - snd p)).
(** At least 1/ipi_c (2.9e-9) away from the axes, or exactly at angle zero modulo pi/2. *)
Definition angle_ok (theta : R) : Prop := off_axis theta \/ sin theta * cos theta = 0.

Lemma sincos1 t : sin t * sin t + cos t * cos t = 1.
Proof. generalize (sin2_cos2 t). unfold Rsqr. lra. Qed.
Lemma ray_trace_eq ry rz dx center theta d : exists q,
  ray_trace ry rz dx center theta d =
    trace ry rz q (ray_line (- IZR ry - IZR rz) (detector dx center d) (sin theta) (cos theta)) (fun _ => (0, 0)) /\
  (angle_ok theta -> if q then 0 <= sin theta * cos theta else sin theta * cos theta <= 0).
Proof.
  set (tp := fmod theta (2 * PI)). exists (calc_quadrant tp).
  assert (sin tp = sin theta /\ cos tp = cos theta) as [Es Ec].
  { destruct (fmod_spec theta (2 * PI)) as [_ [k E]]; [generalize PI_RGT_0; lra|]. fold tp in E.
    destruct (sincos_period tp k) as [E1 E2].
    replace (tp + 2 * PI * IZR k) with theta in * by (rewrite E; ring). auto. }
  split.
  - unfold ray_trace, pixel_line. fold tp. now rewrite Es, Ec.
  - intros [Ho|E]; [|rewrite E; destruct (calc_quadrant tp); lra].
    destruct (quadrant_fmod theta Ho) as [H _]. fold tp in H. rewrite Es, Ec in H.
    destruct (calc_quadrant tp); lra.
Qed.
Lemma xi_ne ry rz : (1 <= ry)%Z -> (1 <= rz)%Z -> - IZR ry - IZR rz <> 0.
Proof. intros Hy Hz. apply IZR_le in Hy, Hz. lra. Qed.
Lemma online_seen xi u theta p : online xi u (sin theta) (cos theta) p <-> seen theta u p.
Proof.
  unfold online, seen, ray_line. cbn [srcx srcy]. generalize (sincos1 theta). intros E.
  assert (sin theta * (xi * cos theta - u * sin theta) - cos theta * (xi * sin theta + u * cos theta)
          = - u * (sin theta * sin theta + cos theta * cos theta)) as E2 by ring.
  rewrite E in E2. split; intros; lra.
Qed.

(** ** C21: the traced ray *)
(** The detector position is the distance of the pixel centre from the axis, up to 1/100 pixel. *)
Theorem C21_detector : forall dx center d,
  detector dx center d = IZR d + 1 / 2 - center \/ detector dx center d = IZR d + 1 / 2 - center + 1 / 100.
Proof.
  intros dx center d. unfold detector, mov.
  destruct (rltb _ _); [right|left]; lra.
Qed.
(** The work buffers of ry + rz entries (project.c: two more) are large enough, for every angle. *)
Theorem C21_buffers : forall ry rz dx center theta d, (1 <= ry)%Z -> (1 <= rz)%Z ->
  (0 <= csize (ray_trace ry rz dx center theta d) <= ry + rz)%Z.
Proof.
  intros ry rz dx center theta d Hy Hz. destruct (ray_trace_eq ry rz dx center theta d) as (q & -> & _).
  generalize (xi_ne ry rz Hy Hz). intros Hx. split; [apply csize_nonneg|apply csize_bound_any]; auto.
Qed.
(** Every pixel index is inside the ry x rz image and every weight is non-negative, for every angle. *)
Theorem C21_pixels : forall ry rz dx center theta d i w, (1 <= ry)%Z -> (1 <= rz)%Z ->
  In (i, w) (ray ry rz dx center theta d) -> (0 <= i < ry * rz)%Z /\ 0 <= w.
Proof.
  intros ry rz dx center theta d i w Hy Hz Hi. unfold ray, segments in Hi.
  destruct (ray_trace_eq ry rz dx center theta d) as (q & E & _). rewrite E in Hi.
  generalize (xi_ne ry rz Hy Hz). intros Hx.
  apply in_map_iff in Hi as (n & [= <- <-] & Hn). apply in_zrange in Hn.
  split; [now apply indi_range|apply sqrt_pos].
Qed.
(** The recorded points are exactly the crossings of the seen line with the grid lines. *)
Theorem C21_points : forall ry rz dx center theta d p, (1 <= ry)%Z -> (1 <= rz)%Z ->
  let t := ray_trace ry rz dx center theta d in
  (exists n, (0 <= n < csize t)%Z /\ coor t n = p) <->
  seen theta (detector dx center d) p /\ on_grid ry rz theta p.
Proof.
  intros ry rz dx center theta d p Hy Hz t. unfold t.
  destruct (ray_trace_eq ry rz dx center theta d) as (q & -> & _).
  generalize (xi_ne ry rz Hy Hz). intros Hx. rewrite <- (online_seen (- IZR ry - IZR rz)). split.
  - intros (n & Hn & <-). split; [now apply P_online|].
    destruct (tag_at ry rz Hy Hz _ _ _ _ Hx q _ n Hn) as (g & _ & Hv & ->).
    destruct g as [[|] k]; unfold valid, pt, on_grid, within in *; cbn [fst snd] in *; [left|right];
      (split; [tauto|split; [tauto|exists k; intuition lia]]).
  - intros [Ho [(Hs & Hw & k & Hk & E)|(Hs & Hw & k & Hk & E)]].
    + destruct (tag_found ry rz Hy Hz _ (detector dx center d) (sin theta) (cos theta) Hx q (fun _ => (0, 0)) (true, k)) as (n & Hn & Hp).
      { assert (fst p = X rz (- IZR ry - IZR rz) (detector dx center d) (sin theta) (cos theta) k) as E1.
        { unfold X, online in *. rewrite <- E.
          apply (Rmult_eq_reg_l (sin theta)); auto. field_simplify; auto. lra. }
        unfold valid. cbn [fst snd]. rewrite <- E1. repeat split; auto; try lia; unfold within in Hw; lra. }
      exists n. split; auto. rewrite Hp. unfold pt. cbn [fst snd]. destruct p as [px py]; cbn [fst snd] in *. f_equal; auto.
      unfold X, online in *. cbn [fst snd] in *. rewrite <- E.
      apply (Rmult_eq_reg_l (sin theta)); auto. field_simplify; auto. lra.
    + destruct (tag_found ry rz Hy Hz _ (detector dx center d) (sin theta) (cos theta) Hx q (fun _ => (0, 0)) (false, k)) as (n & Hn & Hp).
      { assert (snd p = Y ry (- IZR ry - IZR rz) (detector dx center d) (sin theta) (cos theta) k) as E1.
        { unfold Y, online in *. rewrite <- E.
          apply (Rmult_eq_reg_l (cos theta)); auto. field_simplify; auto. lra. }
        unfold valid. cbn [fst snd]. rewrite <- E1. repeat split; auto; try lia; unfold within in Hw; lra. }
      exists n. split; auto. rewrite Hp. unfold pt. cbn [fst snd]. destruct p as [px py]; cbn [fst snd] in *. f_equal; auto.
      unfold Y, online in *. cbn [fst snd] in *. rewrite <- E.
      apply (Rmult_eq_reg_l (cos theta)); auto. field_simplify; auto. lra.
Qed.
(** The points are ordered along the ray. *)
Theorem C21_ordered : forall ry rz dx center theta d k n m, (1 <= ry)%Z -> (1 <= rz)%Z -> angle_ok theta ->
  let t := ray_trace ry rz dx center theta d in
  (0 <= k <= n)%Z -> (n <= m < csize t)%Z ->
  fst (coor t n) <= fst (coor t m) /\
  distance (coor t k) (coor t n) + distance (coor t n) (coor t m) = distance (coor t k) (coor t m).
Proof.
  intros ry rz dx center theta d k n m Hy Hz Ha t. unfold t.
  destruct (ray_trace_eq ry rz dx center theta d) as (q & -> & Hq). specialize (Hq Ha).
  generalize (xi_ne ry rz Hy Hz). intros Hx Hk Hn.
  split.
  - apply (P_sorted ry rz Hy Hz _ _ _ _ Hx q Hq _ n m); lia.
  - apply (dist_add ry rz (- IZR ry - IZR rz) (detector dx center d) _ _ q Hq (fun _ => (0, 0)) (sincos1 theta));
      try (apply P_online; auto; lia); apply (P_sorted ry rz Hy Hz _ _ _ _ Hx q Hq); lia.
Qed.
(** The weights sum to the length of the ray between the first and the last point. *)
Theorem C21_length : forall ry rz dx center theta d, (1 <= ry)%Z -> (1 <= rz)%Z -> angle_ok theta ->
  let t := ray_trace ry rz dx center theta d in (1 <= csize t)%Z ->
  rsum (map snd (ray ry rz dx center theta d)) = distance (coor t 0%Z) (coor t (csize t - 1)%Z).
Proof.
  intros ry rz dx center theta d Hy Hz Ha t Hc. unfold ray, segments. fold t. rewrite map_map. cbn [snd].
  unfold t in *. destruct (ray_trace_eq ry rz dx center theta d) as (q & E & Hq). rewrite E in *. specialize (Hq Ha).
  apply (dist_sum ry rz Hy Hz _ _ _ _ (xi_ne ry rz Hy Hz) q Hq); [apply sincos1|lia].
Qed.
(** No pixel receives two non-zero weights. *)
Theorem C21_distinct : forall ry rz dx center theta d k m i w i' w', (1 <= ry)%Z -> (1 <= rz)%Z -> angle_ok theta ->
  (k < m)%nat -> nth_error (ray ry rz dx center theta d) k = Some (i, w) ->
  nth_error (ray ry rz dx center theta d) m = Some (i', w') -> w <> 0 -> w' <> 0 -> i <> i'.
Proof.
  intros ry rz dx center theta d k m i w i' w' Hy Hz Ha Hkm Hk Hm Hw Hw' Hi. unfold ray, segments in *.
  destruct (ray_trace_eq ry rz dx center theta d) as (q & E & Hq). rewrite E in *. specialize (Hq Ha).
  assert (forall j x, nth_error (zrange 0 x) j <> None -> nth_error (zrange 0 x) j = Some (Z.of_nat j) /\ (Z.of_nat j < x)%Z) as Hnth.
  { intros j x Hj. apply nth_error_Some in Hj. rewrite zrange_length in Hj.
    split; [|lia]. rewrite nth_error_zrange by lia. reflexivity. }
  rewrite nth_error_map in Hk, Hm.
  destruct (nth_error _ k) eqn:E1 in Hk; [|discriminate]. destruct (nth_error _ m) eqn:E2 in Hm; [|discriminate].
  cbn in Hk, Hm. injection Hk as <- <-. injection Hm as <- <-.
  destruct (Hnth k _ ltac:(rewrite E1; discriminate)) as [E1' L1]. rewrite E1 in E1'. injection E1' as ->.
  destruct (Hnth m _ ltac:(rewrite E2; discriminate)) as [E2' L2]. rewrite E2 in E2'. injection E2' as ->.
  assert (Z.of_nat k < Z.of_nat m)%Z by lia.
  destruct (distinct_pixels ry rz Hy Hz _ _ _ _ (xi_ne ry rz Hy Hz) q Hq _ (Z.of_nat k) (Z.of_nat m) ltac:(lia) L2 Hi); auto.
Qed.

(** Away from the outer grid lines, the n-th segment lies in the pixel it is charged to. *)
Theorem C21_inside_pixel : forall ry rz dx center theta d n, (1 <= ry)%Z -> (1 <= rz)%Z -> angle_ok theta ->
  sin theta <> 0 -> cos theta <> 0 ->
  let t := ray_trace ry rz dx center theta d in
  (0 <= n < csize t - 1)%Z ->
  (forall k, (k = n \/ k = n + 1)%Z -> within ry (fst (coor t k)) /\ within rz (snd (coor t k))) ->
  fst (coor t n) < fst (coor t (n + 1)%Z) ->
  exists ix iy, seg_indi ry rz (coor t) n = (iy + ix * rz)%Z /\
    forall k, (k = n \/ k = n + 1)%Z ->
      grid ry ix <= fst (coor t k) <= grid ry (ix + 1) /\ grid rz iy <= snd (coor t k) <= grid rz (iy + 1).
Proof.
  intros ry rz dx center theta d n Hy Hz Ha Hs Hc t. unfold t.
  destruct (ray_trace_eq ry rz dx center theta d) as (q & -> & Hq). specialize (Hq Ha). intros Hn Hin Hlt.
  exists (seg_indx ry (coor (trace ry rz q (ray_line (- IZR ry - IZR rz) (detector dx center d) (sin theta) (cos theta)) (fun _ => (0, 0)))) n).
  eexists. split; [reflexivity|]. intros k Hk.
  exact (inside_pixel ry rz Hy Hz _ _ _ _ (xi_ne ry rz Hy Hz) q Hq _ n Hn Hin Hc Hs k Hk Hlt).
Qed.
(** The quadrant test finds the sign of the slope: the hypothesis of the merge. *)
Theorem C21_quadrant : forall theta, off_axis theta ->
  calc_quadrant (fmod theta (2 * PI)) = true <-> 0 < sin theta * cos theta.
Proof.
  intros theta Ho. destruct (quadrant_fmod theta Ho) as (H & Es & Ec). cbn zeta in *. rewrite Es, Ec in H.
  destruct (calc_quadrant _); split; try easy; intros; lra.
Qed.
(** The 4 x 1 image seen from above at angle zero: one crossing per vertical grid line. *)
Example C21_ex_points : seen 0 (1 / 2) (0, 1 / 2) /\ on_grid 4 1 0 (-1, 0).
Proof.
  unfold seen, on_grid, within, grid, margin. rewrite cos_0, sin_0. cbn [fst snd]. split; [lra|].
  right. split; [lra|]. split; [lra|]. exists 1%Z. split; [lia|lra].
Qed.
Example C21_ex_angles : angle_ok 0 /\ angle_ok (PI / 2) /\ angle_ok PI.
Proof. repeat split; right; rewrite ?sin_0, ?cos_PI2, ?sin_PI; lra. Qed.

(** ** C22: sort_intersections *)
Theorem C22_merge : forall (cond : bool) (a b c0 : arr (R * R)) asize bsize, (0 <= asize)%Z -> (0 <= bsize)%Z ->
  StronglySorted (fun p q => fst p <= fst q)
    (if cond then map a (zrange 0 asize) else rev (map a (zrange 0 asize))) ->
  StronglySorted (fun p q => fst p <= fst q) (map b (zrange 0 bsize)) ->
  let '(csize, c) := sort_intersections cond asize a bsize b c0 in
  csize = (asize + bsize)%Z /\
  Permutation (map c (zrange 0 csize)) (map a (zrange 0 asize) ++ map b (zrange 0 bsize)) /\
  StronglySorted (fun p q => fst p <= fst q) (map c (zrange 0 csize)).
Proof.
  intros cond a b c0 asize bsize Ha Hb Sa Sb.
  generalize (sort_spec cond asize a bsize b Ha Hb c0). cbn zeta.
  destruct (sort_intersections cond asize a bsize b c0) as [cs c]. cbn [fst snd]. intros [-> E].
  assert (map (sel cond asize a) (zrange 0 asize)
          = if cond then map a (zrange 0 asize) else rev (map a (zrange 0 asize))) as E1.
  { unfold sel. destruct cond; auto. apply sel_rev. }
  rewrite E, E1. split; auto. split.
  - rewrite merge_perm. apply Permutation_app_tail. destruct cond; auto. symmetry. apply Permutation_rev.
  - apply merge_sorted; auto; intros; lra.
Qed.
(** Entries past the merged ones are not touched. *)
Theorem C22_frame : forall (cond : bool) (a b c0 : arr (R * R)) asize bsize k, (0 <= asize)%Z -> (0 <= bsize)%Z ->
  (k < 0 \/ asize + bsize <= k)%Z ->
  snd (sort_intersections cond asize a bsize b c0) k = c0 k.
Proof. exact sort_frame. Qed.
Example C22_ex :
  let a n := (IZR n * 2, 0) in let b n := (IZR n * 2 + 1, 1) in
  let c := snd (sort_intersections true 2 a 2 b (fun _ => (0, 0))) in
  map (fun n => fst (c n)) (zrange 0 4) = [0 * 2; 0 * 2 + 1; 1 * 2; 1 * 2 + 1].
Proof.
  intros a b c. rewrite <- (map_map c fst).
  pose proof (sort_spec true 2 a 2 b ltac:(lia) ltac:(lia) (fun _ => (0, 0))) as [_ E].
  unfold c. change 4%Z with (2 + 2)%Z. rewrite E. change (zrange 0 2) with [0%Z; 1%Z]. cbn [map]. unfold sel, a, b.
  rewrite merge_cons. cbn [fst]. replace (rltb _ _) with true by (symmetry; apply rltb_spec; lra).
  rewrite merge_cons. cbn [fst]. replace (rltb _ _) with false by (symmetry; apply rltb_false; lra).
  rewrite merge_cons. cbn [fst]. replace (rltb _ _) with true by (symmetry; apply rltb_spec; lra).
  reflexivity.
Qed.

Print Assumptions C21_detector.
Print Assumptions C21_buffers.
Print Assumptions C21_pixels.
Print Assumptions C21_points.
Print Assumptions C21_ordered.
Print Assumptions C21_length.
Print Assumptions C21_distinct.
Print Assumptions C21_inside_pixel.
Print Assumptions C21_quadrant.
Print Assumptions C22_merge.
Print Assumptions C22_frame.
