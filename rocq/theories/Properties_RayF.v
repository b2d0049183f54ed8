(** C120: ray tracing (libtomo/recon/utils.c) in IEEE binary32. *)
From Verif Require Import Base Order CLoop Model_Ray Proofs_Ray Model_RayF Proofs_FloatB Proofs_RayF Proofs_RayF2 Proofs_RayF3 Proofs_RayF4.
From Coq Require Import Reals Lra Sorted.
From Flocq Require Import Core BinarySingleNaN.
Local Open Scope R_scope.

(** The real number a finite float stands for; the exact rectangle of the grid and its interior. *)
Definition val (x : b32) : R := B2R x.
Definition in_grid (ry rz : Z) (p : pointF) : Prop :=
  is_finite (fst p) = true /\ is_finite (snd p) = true /\ - IZR ry / 2 <= val (fst p) <= IZR ry / 2 /\ - IZR rz / 2 <= val (snd p) <= IZR rz / 2.

(** preprocessing: the grid lines are exact. *)
Theorem C120_grid r i : (1 <= r <= 2 ^ 20)%Z -> (0 <= i <= r)%Z -> is_finite (gridF r i) = true /\ val (gridF r i) = IZR i - IZR r / 2.
Proof. intros Hr Hi. destruct (grid_ok r i Hr Hi) as (F & E). split; [exact F|]. unfold val. rewrite E. lra. Qed.

(** Whatever calc_coords left in coordx and coordy (also infinities and NaN), whatever the work buffers held before and
    whatever the quadrant: the points kept lie in the grid, there are at most rz+1 and ry+1 of them, and nothing else is
    written to coorx and coory. *)
Theorem C120_points ry rz quadrant cx cy za zb zc : (1 <= ry <= 2 ^ 15)%Z -> (1 <= rz <= 2 ^ 15)%Z ->
  let t := traceF ry rz quadrant cx cy za zb zc in
  (0 <= fasize t <= rz + 1)%Z /\ (0 <= fbsize t <= ry + 1)%Z /\ fcsize t = (fasize t + fbsize t)%Z /\
  (forall n, (0 <= n < fcsize t)%Z -> in_grid ry rz (fcoor t n)) /\ (forall n, (n < 0 \/ fcsize t <= n)%Z -> fcoor t n = zc n).
Proof.
  intros Hy Hz. cbv zeta. set (t := traceF _ _ _ _ _ _ _ _). destruct (trace_sizes ry rz quadrant cx cy za zb zc ltac:(lia) ltac:(lia)) as (Ea & Eb & Ec). fold t in Ea, Eb, Ec.
  pose proof (na_length ry rz cx ltac:(lia)). pose proof (nb_length ry rz cy ltac:(lia)). repeat split; try lia.
  1-6: destruct (point_ok ry rz quadrant cx cy za zb zc Hy Hz (fcoor t n)) as (A1 & A2 & A3 & A4); [apply in_map, in_zrange; fold t; lia|]; auto; apply abs_inv in A3; apply abs_inv in A4; unfold val; lra.
  intros n Hn. apply (frame ry rz quadrant cx cy za zb zc n); [lia|lia|exact Hn].
Qed.

(** Exactly the intersections with one coordinate inside the margins are kept, each once. *)
Theorem C120_kept ry rz quadrant cx cy za zb zc : (1 <= ry)%Z -> (1 <= rz)%Z -> let t := traceF ry rz quadrant cx cy za zb zc in
  Permutation (map (fcoor t) (zrange 0 (fcsize t)))
    (map (fun n => (cx n, gridF rz n)) (filter (fun n => insideF ry (cx n)) (zrange 0 (rz + 1))) ++
     map (fun n => (gridF ry n, cy n)) (filter (fun n => insideF rz (cy n)) (zrange 0 (ry + 1)))).
Proof. intros Hy Hz. exact (trace_points ry rz quadrant cx cy za zb zc Hy Hz). Qed.
Theorem C120_margin r x : (1 <= r <= 2 ^ 15)%Z -> insideF r x = true -> is_finite x = true /\ - IZR r / 2 + 93 / 10000 <= val x <= IZR r / 2 - 93 / 10000.
Proof. intros Hr H. exact (inside_ok r x Hr H). Qed.

(** calc_dist: every segment gets a pixel of the grid (the conversions to int are defined) and a finite length >= 0. *)
Theorem C120_pixels ry rz quadrant cx cy za zb zc n : (1 <= ry <= 2 ^ 15)%Z -> (1 <= rz <= 2 ^ 15)%Z ->
  let t := traceF ry rz quadrant cx cy za zb zc in (0 <= n < fcsize t - 1)%Z ->
  exists i j, (0 <= i < ry)%Z /\ (0 <= j < rz)%Z /\ seg_indxF ry (fcoor t) n = Some i /\ seg_indyF rz (fcoor t) n = Some j /\
    seg_indiF ry rz (fcoor t) n = Some (j + i * rz)%Z /\ (0 <= j + i * rz < ry * rz)%Z /\ (j + i * rz < 2 ^ 30)%Z.
Proof.
  intros Hy Hz t Hn. destruct (pixels_inside ry rz quadrant cx cy za zb zc Hy Hz n Hn) as (i & j & Ei & Hi & Ej & Hj). fold t in Ei, Ej. exists i, j. repeat (split; auto).
  - unfold seg_indiF. now rewrite Ei, Ej.
  - nia.
  - nia.
  - assert (i * rz <= (2 ^ 15 - 1) * rz)%Z by nia. lia.
Qed.
Theorem C120_lengths ry rz quadrant cx cy za zb zc n : (1 <= ry <= 2 ^ 15)%Z -> (1 <= rz <= 2 ^ 15)%Z ->
  let t := traceF ry rz quadrant cx cy za zb zc in (0 <= n < fcsize t - 1)%Z ->
  is_finite (seg_distF (fcoor t) n) = true /\ 0 <= val (seg_distF (fcoor t) n).
Proof.
  intros Hy Hz t Hn.
  destruct (point_ok ry rz quadrant cx cy za zb zc Hy Hz (fcoor t n)) as (A1 & A2 & A3 & A4); [apply in_map, in_zrange; fold t; lia|].
  destruct (point_ok ry rz quadrant cx cy za zb zc Hy Hz (fcoor t (n + 1)%Z)) as (B1 & B2 & B3 & B4); [apply in_map, in_zrange; fold t; lia|].
  pose proof (IZR_range ry Hy). pose proof (IZR_range rz Hz).
  apply (dist_ok (fcoor t) n (2 ^ 15)); auto; try lia; change (IZR (2 ^ 15)) with 32768; lra.
Qed.

(** The points are sorted along x whenever the quadrant agrees with the computed direction. *)
Theorem C120_ordered ry rz (quadrant : bool) l cy za zb zc n m : (1 <= ry <= 2 ^ 15)%Z -> (1 <= rz <= 2 ^ 15)%Z ->
  (if quadrant then 0 <= val (islopeF l) else val (islopeF l) <= 0) ->
  let t := traceF ry rz quadrant (coordxF rz l) cy za zb zc in (0 <= n <= m)%Z -> (m < fcsize t)%Z ->
  val (fst (fcoor t n)) <= val (fst (fcoor t m)).
Proof.
  intros Hy Hz Hq t Hn Hm. destruct (Z.eq_dec n m) as [->|N]; [right; reflexivity|].
  pose proof (ordered ry rz quadrant l cy za zb zc Hy Hz Hq) as S. cbv zeta in S. fold t in S.
  apply (StronglySorted_nth _ _ (Z.to_nat n) (Z.to_nat m) (fcoor t n) (fcoor t m) S); [lia| |]; apply map_nth_error; rewrite nth_error_zrange by lia; f_equal; lia.
Qed.

(** A kept intersection with a grid line of the first family is near the exact line from the source in the computed direction. *)
Theorem C120_near_line ry rz l n : (1 <= ry <= 2 ^ 13)%Z -> (1 <= rz <= 2 ^ 13)%Z -> (0 <= n <= rz)%Z ->
  is_finite (fsrcx l) = true -> is_finite (fsrcy l) = true -> Rabs (val (fsrcx l)) <= 2 ^ 15 -> Rabs (val (fsrcy l)) <= 2 ^ 15 ->
  is_finite (fsub (fsrcy l) (fdety l)) = true -> insideF ry (coordxF rz l n) = true ->
  exists y, Rabs (y - (IZR n - IZR rz / 2)) <= / 512 /\
    Rabs (val (coordxF rz l n) - (val (fsrcx l) + val (fsub (fsrcx l) (fdetx l)) / val (fsub (fsrcy l) (fdety l)) * (y - val (fsrcy l)))) <= 62 / 10000.
Proof.
  intros Hy Hz Hn Fx Fy Bx By FP H. destruct (near_line rz ry l n Hy Hz Hn Fx Fy) as (y & A & B); auto; [unfold val in *; lra|unfold val in *; lra|].
  exists y. destruct (grid_ok rz n) as (_ & Eg); [lia|lia|]. rewrite Eg in A. split.
  - replace (y - (IZR n - IZR rz / 2)) with (y - (- IZR rz / 2 + IZR n)) by lra. exact A.
  - eapply Rle_trans; [exact B|lra].
Qed.

(** The work buffers of the solvers have ry+rz places for ax..., coorx..., and ry+rz points suffice for every line from a
    source that is not too far away, wherever it ends. *)
Theorem C120_buffers ry rz quadrant l za zb zc : (1 <= ry <= 2 ^ 13)%Z -> (1 <= rz <= 2 ^ 13)%Z ->
  is_finite (fsrcx l) = true -> is_finite (fsrcy l) = true -> Rabs (val (fsrcx l)) <= 2 ^ 15 -> Rabs (val (fsrcy l)) <= 2 ^ 15 ->
  (fcsize (traceF ry rz quadrant (coordxF rz l) (coordyF ry l) za zb zc) <= ry + rz)%Z.
Proof.
  intros Hy Hz Fx Fy Bx By. destruct (trace_sizes ry rz quadrant (coordxF rz l) (coordyF ry l) za zb zc ltac:(lia) ltac:(lia)) as (_ & _ & ->).
  apply buffers; auto; unfold val in *; lra.
Qed.
Theorem C120_solver_rays ry rz dx center sin_p cos_p quadrant d za zb zc : (1 <= ry <= 2 ^ 13)%Z -> (1 <= rz <= 2 ^ 13)%Z -> (0 <= d < dx)%Z -> (dx <= 2 ^ 13)%Z ->
  is_finite center = true -> Rabs (val center) <= 8000 -> is_finite sin_p = true -> is_finite cos_p = true -> Rabs (val sin_p) <= 1 -> Rabs (val cos_p) <= 1 ->
  let t := ray_traceF ry rz dx center sin_p cos_p quadrant d za zb zc in
  (fcsize t <= ry + rz)%Z /\ (forall n, (n < 0 \/ ry + rz <= n)%Z -> fcoor t n = zc n) /\
  forall n, (0 <= n < fcsize t - 1)%Z -> exists i, seg_indiF ry rz (fcoor t) n = Some i /\ (0 <= i < ry * rz)%Z.
Proof.
  intros Hy Hz Hd Hx Fc Bc Fs Fo Bs Bo t.
  destruct (line_ok ry rz dx center sin_p cos_p d Hy Hz Hd Hx Fc Bc Fs Fo Bs Bo) as (A1 & A2 & A3 & A4).
  assert (L : (fcsize t <= ry + rz)%Z) by (apply C120_buffers; auto; unfold val; lra).
  split; [exact L|]. split.
  - intros n Hn. apply frame; [lia|lia|]. fold (ray_traceF ry rz dx center sin_p cos_p quadrant d za zb zc). fold t. lia.
  - intros n Hn. destruct (C120_pixels ry rz quadrant (coordxF rz (pixel_lineF ry rz dx center sin_p cos_p d)) (coordyF ry (pixel_lineF ry rz dx center sin_p cos_p d)) za zb zc n ltac:(lia) ltac:(lia) Hn)
      as (i & j & _ & _ & _ & _ & E & B & _). exists (j + i * rz)%Z. auto.
Qed.

(** In a grid of 2^20 columns the margin of 0.01 is rounded away and the last ray of the detector gets the pixel behind the
    last one. *)
Theorem C120_large_refuted : exists ry rz dx center sin_p cos_p d, (1 <= ry)%Z /\ (1 <= rz)%Z /\ (0 <= d < dx)%Z /\ val center = (IZR dx - 1) / 2 /\
  val sin_p = -1 /\ val cos_p = 0 /\
  forall quadrant za zb zc, let t := ray_traceF ry rz dx center sin_p cos_p quadrant d za zb zc in
    fcsize t = 2%Z /\ seg_indiF ry rz (fcoor t) 0 = Some (ry * rz)%Z.
Proof.
  exists big, 1%Z, big, (fmul half (of_int (big - 1))), (of_int (-1)), (of_int 0), (big - 1)%Z.
  split; [unfold big; lia|]. split; [lia|]. split; [unfold big; lia|]. split.
  { destruct (mhalf_ok (big - 1)) as (_ & _ & _ & E); [unfold big; lia|]. unfold val. rewrite E, minus_IZR. reflexivity. }
  split; [unfold val; now rewrite (proj2 (of_int_ok (-1) ltac:(lia)))|]. split; [unfold val; now rewrite (proj2 (of_int_ok 0 ltac:(lia)))|].
  intros quadrant za zb zc. cbv zeta. unfold ray_traceF. fold big_line. exact (big_trace quadrant za zb zc).
Qed.

(** A 2 x 2 grid, two detector pixels, centre 0.5, sine 0.8 and cosine 0.6: the first ray uses the whole work buffer. *)
Section Example_.
  Local Open Scope Z_scope.
  Definition junk : arr pointF := fun _ => (of_int 7, of_int 9).
  Definition milli (x : b32) : option Z := to_int (fmul (of_int 1000) x).
  Definition ex (d : Z) : tracedF := ray_traceF 2 2 2 half (fdiv (of_int 8) (of_int 10)) (fdiv (of_int 6) (of_int 10)) true d junk junk junk.
  Example C120_example_sizes : (fasize (ex 0), fbsize (ex 0), fcsize (ex 0)) = (3, 1, 4) /\ fcsize (ex 1) = 2.
  Proof. vm_compute. auto. Qed.
  Example C120_example_pixels : map (seg_indiF 2 2 (fcoor (ex 0))) [0; 1; 2] = [Some 0; Some 1; Some 3] /\ seg_indiF 2 2 (fcoor (ex 1)) 0 = Some 1.
  Proof. vm_compute. auto. Qed.
  Example C120_example_lengths : map (fun n => milli (seg_distF (fcoor (ex 0)) n)) [0; 1; 2] = [Some 1250; Some 20; Some 1229] /\
    map (fun n => milli (fst (fcoor (ex 0) n))) [0; 1; 2; 3] = [Some (-762); Some (-12); Some 0; Some 737].
  Proof. vm_compute. auto. Qed.
  (** A NaN among the coordinates is not kept. *)
  Example C120_example_nan : fcsize (traceF 2 2 true (fun _ => B754_nan) (fun _ => B754_infinity true) junk junk junk) = 0.
  Proof. vm_compute. auto. Qed.
  Example C120_example_margin : insideF 2 (of_int 1) = false /\ insideF 2 (of_int 0) = true.
  Proof. vm_compute. auto. Qed.
  Definition ex_line : lineF := mkLineF (of_int 1) (of_int 4) (of_int (-1)) (of_int 0).
  Example C120_example_direction : milli (islopeF ex_line) = Some 500 /\ map (fun n => milli (coordxF 2 ex_line n)) [0; 1; 2] = [Some (-1500); Some (-1000); Some (-500)].
  Proof. split; vm_compute; reflexivity. Qed.
End Example_.

Print Assumptions C120_grid.
Print Assumptions C120_points.
Print Assumptions C120_kept.
Print Assumptions C120_margin.
Print Assumptions C120_pixels.
Print Assumptions C120_lengths.
Print Assumptions C120_ordered.
Print Assumptions C120_near_line.
Print Assumptions C120_buffers.
Print Assumptions C120_solver_rays.
Print Assumptions C120_large_refuted.
