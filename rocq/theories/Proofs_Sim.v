(** Lemmas on the simulated projections. *)
From Verif Require Import Base CLoop Model_Prep Model_Ray Model_Solver Model_Sim Proofs_Prep Proofs_Morph Proofs_Ray
  Properties_Ray Proofs_Solver Proofs_Unit Proofs_Axis Properties_Solver.
From Coq Require Import Reals Lra Psatz.
Local Open Scope R_scope.

Lemma rsum_perm l l' : Permutation l l' -> rsum l = rsum l'.
Proof. induction 1; unfold rsum in *; cbn in *; lra. Qed.
Lemma zsum_rev n f : zsum n f = zsum n (fun i => f (n - 1 - i)%Z).
Proof.
  destruct (Z.le_gt_cases n 0) as [H|H]; [now rewrite !zsum_0|].
  unfold zsum. apply rsum_perm.
  transitivity (map f (map (fun i => (n - 1 - i)%Z) (zrange 0 n))); [|now rewrite map_map].
  apply Permutation_map. apply NoDup_Permutation.
  - apply NoDup_zrange.
  - apply FinFun.Injective_map_NoDup; [intros a b; lia|apply NoDup_zrange].
  - intros i. rewrite in_map_iff, in_zrange. split.
    + intros Hi. exists (n - 1 - i)%Z. rewrite in_zrange. lia.
    + intros (k & <- & Hk). apply in_zrange in Hk. lia.
Qed.

(** ** Detector positions for the default centre *)
Lemma detector_default dx d : detector dx (IZR dx / 2) d = IZR d + 1 / 2 - IZR dx / 2.
Proof.
  unfold detector, mov. replace (Int_part _) with (-1)%Z.
  - replace (rltb _ _) with false by (symmetry; apply rltb_false; lra). lra.
  - symmetry. apply Int_part_spec. lra.
Qed.

(** ** Opposite views *)
Lemma angle_ok_pi t : angle_ok t -> angle_ok (t + PI).
Proof.
  intros [H|H].
  - left. intros k. specialize (H (k - 2)%Z). rewrite minus_IZR in H.
    replace (t + PI - IZR k * (PI / 2)) with (t - (IZR k - 2) * (PI / 2)) by field. exact H.
  - right. rewrite neg_sin, neg_cos. lra.
Qed.
Lemma ray_opposite ry rz dx c t d d' img : (1 <= ry)%Z -> (1 <= rz)%Z -> angle_ok t ->
  detector dx c d' = - detector dx c d ->
  ray_sum (ray ry rz dx c (t + PI) d') img = ray_sum (ray ry rz dx c t d) img.
Proof.
  intros Hy Hz Ha Hd. unfold ray.
  destruct (ray_trace_eq ry rz dx c t d) as (q & -> & Hq). specialize (Hq Ha).
  destruct (ray_trace_eq ry rz dx c (t + PI) d') as (q' & -> & Hq'). specialize (Hq' (angle_ok_pi t Ha)).
  rewrite neg_sin, neg_cos in *. rewrite Hd. pose proof (sincos1 t) as E1. pose proof (xi_ne ry rz Hy Hz) as Hx.
  set (u := detector dx c d) in *. set (s := sin t) in *. set (k := cos t) in *.
  destruct (Req_dec s 0) as [Es|Es]; [|destruct (Req_dec k 0) as [Ek|Ek]].
  - rewrite !row_segments by (auto; nra). replace (- u * - k) with (u * k) by ring. reflexivity.
  - rewrite !column_segments by (auto; nra). replace (- - u * - s) with (- u * s) by ring.
    destruct (inside ry (- u * s)); auto. unfold ray_sum. rewrite !map_map.
    set (b := (Int_part (- u * s + IZR ry / 2) * rz)%Z).
    change (zsum rz (fun n => img ((if q' then n else rz - 1 - n) + b)%Z * 1) = zsum rz (fun n => img ((if q then n else rz - 1 - n) + b)%Z * 1)).
    destruct q, q'; auto.
    + symmetry. rewrite zsum_rev. apply zsum_ext. intros. f_equal.
    + rewrite zsum_rev. apply zsum_ext. intros n Hn. reflexivity.
  - rewrite trace_swap by auto. assert (q' = q) as ->; auto.
    assert (s * k <> 0) by (intros E; apply Rmult_integral in E; tauto). destruct q, q'; auto; lra.
Qed.

(** ** Rays along the axes, default centre *)
(** Pixel row met by detector pixel d at angle zero. *)
Lemma Int_part_int k : Int_part (IZR k) = k.
Proof. apply Int_part_spec. lra. Qed.
Lemma ray_angle_0 ry rz dx d : (1 <= ry)%Z -> (1 <= rz)%Z ->
  ray ry rz dx (IZR dx / 2) 0 d =
  if ((1 <=? 2 * d + 1 - dx + rz) && (2 * d + 1 - dx + rz <=? 2 * rz - 1))%Z
  then map (fun n => (((2 * d + 1 - dx + rz) / 2 + n * rz)%Z, 1)) (zrange 0 ry) else [].
Proof.
  intros Hy Hz. unfold ray. destruct (ray_trace_eq ry rz dx (IZR dx / 2) 0 d) as (q & -> & _).
  rewrite detector_default, sin_0, cos_0, row_segments by (auto using xi_ne; lra).
  set (y := (IZR d + 1 / 2 - IZR dx / 2) * 1). set (m := (2 * d + 1 - dx + rz)%Z).
  assert (Em : y + IZR rz / 2 = IZR m / 2) by (unfold y, m; rewrite !plus_IZR, minus_IZR, plus_IZR, mult_IZR; lra).
  assert (Ei : inside rz y = ((1 <=? m) && (m <=? 2 * rz - 1))%Z).
  { apply Bool.eq_true_iff_eq. rewrite inside_spec, andb_true_iff, !Z.leb_le. unfold grid, margin. split; intros [H1 H2]; split.
    - apply le_IZR. assert (0 < m)%Z by (apply lt_IZR; lra). apply IZR_le. lia.
    - assert (m < 2 * rz)%Z; [|lia]. apply lt_IZR. rewrite mult_IZR. lra.
    - apply IZR_le in H1. lra.
    - apply IZR_le in H2. rewrite minus_IZR, mult_IZR in H2. lra. }
  rewrite Ei. destruct (_ && _)%bool; auto. apply map_ext. intros n. do 2 f_equal.
  rewrite Em. apply Int_part_spec. assert (m = 2 * (m / 2) \/ m = 2 * (m / 2) + 1)%Z as [E|E] by lia.
  - assert (IZR m = 2 * IZR (m / 2)) by (rewrite <- mult_IZR; f_equal; exact E). lra.
  - assert (IZR m = 2 * IZR (m / 2) + 1) by (rewrite <- mult_IZR, <- plus_IZR; f_equal; exact E). lra.
Qed.
Lemma ray_angle_90 ry rz dx d img : (1 <= ry)%Z -> (1 <= rz)%Z ->
  ray_sum (ray ry rz dx (IZR dx / 2) (PI / 2) d) img =
  if ((1 <=? dx - 1 - 2 * d + ry) && (dx - 1 - 2 * d + ry <=? 2 * ry - 1))%Z
  then zsum rz (fun n => img (n + (dx - 1 - 2 * d + ry) / 2 * rz)%Z) else 0.
Proof.
  intros Hy Hz. unfold ray. destruct (ray_trace_eq ry rz dx (IZR dx / 2) (PI / 2) d) as (q & -> & _).
  rewrite detector_default, sin_PI2, cos_PI2, column_segments by (auto using xi_ne; lra).
  set (x := - (IZR d + 1 / 2 - IZR dx / 2) * 1). set (m := (dx - 1 - 2 * d + ry)%Z).
  assert (Em : x + IZR ry / 2 = IZR m / 2) by (unfold x, m; rewrite !plus_IZR, !minus_IZR, mult_IZR; lra).
  assert (Ei : inside ry x = ((1 <=? m) && (m <=? 2 * ry - 1))%Z).
  { apply Bool.eq_true_iff_eq. rewrite inside_spec, andb_true_iff, !Z.leb_le. unfold grid, margin. split; intros [H1 H2]; split.
    - apply le_IZR. assert (0 < m)%Z by (apply lt_IZR; lra). apply IZR_le. lia.
    - assert (m < 2 * ry)%Z; [|lia]. apply lt_IZR. rewrite mult_IZR. lra.
    - apply IZR_le in H1. lra.
    - apply IZR_le in H2. rewrite minus_IZR, mult_IZR in H2. lra. }
  rewrite Ei. destruct (_ && _)%bool; auto.
  assert (EI : Int_part (x + IZR ry / 2) = (m / 2)%Z).
  { rewrite Em. apply Int_part_spec. assert (m = 2 * (m / 2) \/ m = 2 * (m / 2) + 1)%Z as [E|E] by lia.
    - assert (IZR m = 2 * IZR (m / 2)) by (rewrite <- mult_IZR; f_equal; exact E). lra.
    - assert (IZR m = 2 * IZR (m / 2) + 1) by (rewrite <- mult_IZR, <- plus_IZR; f_equal; exact E). lra. }
  rewrite EI. unfold ray_sum. rewrite map_map. destruct q.
  - change (zsum rz (fun n => img (n + m / 2 * rz)%Z * 1) = zsum rz (fun n => img (n + m / 2 * rz)%Z)). apply zsum_ext. intros. lra.
  - rewrite zsum_rev. change (zsum rz (fun n => img (rz - 1 - n + m / 2 * rz)%Z * 1) = zsum rz (fun n => img (rz - 1 - n + m / 2 * rz)%Z)).
    apply zsum_ext. intros. lra.
Qed.

(** ** The padded width *)
Lemma ceil_spec x : x <= IZR (ceil x) < x + 1.
Proof. unfold ceil. rewrite opp_IZR. destruct (base_Int_part (- x)). lra. Qed.
Lemma round_to_even_spec x : x <= IZR (round_to_even x) < x + 2 /\ Z.even (round_to_even x) = true.
Proof.
  unfold round_to_even. rewrite mult_IZR. destruct (ceil_spec (x / 2)). split; [lra|].
  rewrite Z.even_mul. cbn. now rewrite orb_true_r.
Qed.
Lemma diagonal_bound t a b x y : Rabs x <= a -> Rabs y <= b -> Rabs (cos t * y - sin t * x) <= sqrt (a * a + b * b).
Proof.
  intros Hx Hy. rewrite <- sqrt_Rsqr_abs. apply sqrt_le_1; [apply Rle_0_sqr| |].
  - nra.
  - unfold Rsqr. pose proof (sincos1 t) as E. pose proof (Rabs_pos x). pose proof (Rabs_pos y).
    assert (x * x <= a * a). { rewrite <- (Rabs_pos_eq (x * x)) by nra. rewrite Rabs_mult. apply Rmult_le_compat; auto. }
    assert (y * y <= b * b). { rewrite <- (Rabs_pos_eq (y * y)) by nra. rewrite Rabs_mult. apply Rmult_le_compat; auto. }
    assert (0 <= (cos t * x + sin t * y) * (cos t * x + sin t * y)) by apply Rle_0_sqr.
    assert ((cos t * y - sin t * x) * (cos t * y - sin t * x) + (cos t * x + sin t * y) * (cos t * x + sin t * y)
            = (sin t * sin t + cos t * cos t) * (x * x + y * y)) by ring.
    rewrite E in *. lra.
Qed.
Lemma half_diagonal ox oz : sqrt (IZR ox / 2 * (IZR ox / 2) + IZR oz / 2 * (IZR oz / 2)) = sqrt (IZR (ox * ox + oz * oz)) / 2.
Proof.
  replace (IZR ox / 2 * (IZR ox / 2) + IZR oz / 2 * (IZR oz / 2)) with (IZR (ox * ox + oz * oz) / (2 * 2)).
  - rewrite sqrt_div_alt by lra. now rewrite sqrt_square by lra.
  - rewrite plus_IZR, !mult_IZR. field.
Qed.

(** ** Chunks *)
Definition covered (chunks : list (Z * Z)) : list Z := concat (map (fun '(a, b) => zrange a b) chunks).
Section Jobs.
  Variables ox oz dt dx : Z.
  Hypothesis Hox : (1 <= ox)%Z.
  Hypothesis Hoz : (1 <= oz)%Z.
  Hypothesis Hdt : (0 <= dt)%Z.
  Hypothesis Hdx : (1 <= dx)%Z.
  Variables center theta obj : arr R.
  Local Notation at_ s p d := (d + p * dx + s * dt * dx)%Z.
  Local Notation jobs := (fold_left (fun t c => job ox oz dt dx center theta obj c t)).

  Lemma job_out a b s p d t : (0 <= p < dt)%Z -> (0 <= d < dx)%Z -> ~ (a <= s < b)%Z ->
    job ox oz dt dx center theta obj (a, b) t (at_ s p d) = t (at_ s p d).
  Proof.
    intros Hp Hd Hs. unfold job. assert (0 <= d + p * dx < dt * dx)%Z as B.
    { assert (p * dx <= (dt - 1) * dx)%Z by (apply Z.mul_le_mono_nonneg_r; lia). nia. }
    destruct ((a * dt * dx <=? at_ s p d) && (at_ s p d <? b * dt * dx))%Z eqn:E; auto.
    apply andb_true_iff in E as [E1 E2]. exfalso. apply Hs. generalize dependent (d + p * dx)%Z. clear - Hdt Hdx.
    intros r B E1 E2. assert (Hr : (0 < dt * dx)%Z) by lia. split.
    - destruct (Z.le_gt_cases a s) as [|L]; auto. assert ((s + 1) * (dt * dx) <= a * (dt * dx))%Z by (apply Z.mul_le_mono_nonneg_r; lia). lia.
    - destruct (Z.lt_ge_cases s b) as [|L]; auto. assert (b * (dt * dx) <= s * (dt * dx))%Z by (apply Z.mul_le_mono_nonneg_r; lia). lia.
  Qed.
  Lemma job_in a b s p d t : (0 <= p < dt)%Z -> (0 <= d < dx)%Z -> (a <= s < b)%Z ->
    job ox oz dt dx center theta obj (a, b) t (at_ s p d)
    = t (at_ s p d) + ray_sum (ray ox oz dx (center a) (theta p) d) (fun j => obj (j + s * (ox * oz))%Z).
  Proof.
    intros Hp Hd Hs. unfold job. assert (0 <= d + p * dx < dt * dx)%Z as B.
    { assert (p * dx <= (dt - 1) * dx)%Z by (apply Z.mul_le_mono_nonneg_r; lia). nia. }
    set (g := mkGeom ox oz (b - a) dt dx (from a center) theta).
    replace ((a * dt * dx <=? at_ s p d) && (at_ s p d <? b * dt * dx))%Z with true.
    - replace (at_ s p d - a * dt * dx)%Z with (ind_data g (s - a) p d) by (unfold ind_data, g; cbn [Model_Solver.dx Model_Solver.dt]; ring).
      rewrite C23_ray_sums; [|unfold valid, g; cbn; lia|unfold g; cbn; lia|unfold is_ray, g; cbn; lia].
      f_equal.
      + unfold from, ind_data, g. cbn [Model_Solver.dx Model_Solver.dt]. f_equal. ring.
      + unfold rays, g, from. cbn. unfold image_of, npix. cbn. replace (0 + a)%Z with a by lia.
        unfold ray_sum. apply f_equal, map_ext. intros [i w]. do 2 f_equal. ring.
    - symmetry. generalize dependent (d + p * dx)%Z. clear - Hdt Hdx Hs. intros r B.
      assert (a * (dt * dx) <= s * (dt * dx))%Z by (apply Z.mul_le_mono_nonneg_r; lia).
      assert ((s + 1) * (dt * dx) <= b * (dt * dx))%Z by (apply Z.mul_le_mono_nonneg_r; lia). lia.
  Qed.
  Lemma jobs_out chunks s p d t : (0 <= p < dt)%Z -> (0 <= d < dx)%Z -> ~ In s (covered chunks) ->
    jobs chunks t (at_ s p d) = t (at_ s p d).
  Proof.
    intros Hp Hd. revert t. induction chunks as [|[a b] l IH]; intros t Hs; auto. cbn [fold_left].
    unfold covered in Hs. cbn in Hs. rewrite in_app_iff, in_zrange in Hs.
    rewrite IH by (unfold covered; tauto). apply job_out; auto.
  Qed.
  Lemma jobs_in chunks s p d t : (0 <= p < dt)%Z -> (0 <= d < dx)%Z -> NoDup (covered chunks) -> In s (covered chunks) ->
    exists a b, In (a, b) chunks /\ (a <= s < b)%Z /\
    jobs chunks t (at_ s p d) = t (at_ s p d) + ray_sum (ray ox oz dx (center a) (theta p) d) (fun j => obj (j + s * (ox * oz))%Z).
  Proof.
    intros Hp Hd. revert t. induction chunks as [|[a b] l IH]; intros t Hn Hs; [destruct Hs|]. cbn [fold_left].
    unfold covered in Hn, Hs. cbn in Hn, Hs. apply in_app_iff in Hs. destruct Hs as [Hs|Hs].
    - assert (~ In s (covered l)).
      { clear IH. unfold covered. revert Hs Hn. generalize (concat (map (fun '(a, b) => zrange a b) l)). generalize (zrange a b). intros l1 l2 H1 H2 H3.
        apply in_split in H1 as (u & v & ->). rewrite <- app_assoc in H2. cbn in H2. apply NoDup_remove_2 in H2.
        apply H2. rewrite !in_app_iff. tauto. }
      apply in_zrange in Hs. exists a, b. split; [now left|]. split; auto.
      rewrite jobs_out by auto. now apply job_in.
    - assert (~ (a <= s < b)%Z).
      { intros H. apply in_zrange in H. clear IH. revert Hs Hn H. generalize (concat (map (fun '(a, b) => zrange a b) l)). generalize (zrange a b).
        intros l1 l2 H1 H2 H3. apply in_split in H3 as (u & v & ->). rewrite <- app_assoc in H2. cbn in H2. apply NoDup_remove_2 in H2.
        apply H2. rewrite !in_app_iff. tauto. }
      assert (Hn' : NoDup (covered l)) by (unfold covered; clear - Hn; revert Hn; induction (zrange a b) as [|x u IH]; cbn; auto; intros H; inversion H; auto).
      destruct (IH (job ox oz dt dx center theta obj (a, b) t) Hn' Hs) as (a' & b' & H1 & H2 & H3).
      exists a', b'. split; [now right|]. split; auto. rewrite H3, job_out by auto. reflexivity.
  Qed.
End Jobs.

(** swapaxes01 at an index *)
Lemma swapaxes01_at n0 n1 n2 v i j k : (0 <= i < n0)%Z -> (0 <= k < n2)%Z ->
  swapaxes01 n0 n1 n2 v (k + i * n2 + j * n0 * n2)%Z = v (k + j * n2 + i * n1 * n2)%Z.
Proof.
  intros Hi Hk. unfold swapaxes01. replace (k + i * n2 + j * n0 * n2)%Z with ((i + j * n0) * n2 + k)%Z by ring.
  rewrite Z.div_add_l, (Z.div_small k) by lia. rewrite Z.add_comm with (n := ((i + j * n0) * n2)%Z), Z_mod_plus_full, (Z.mod_small k) by lia.
  rewrite Z.add_0_r, Z_mod_plus_full, (Z.mod_small i) by lia. rewrite Z.div_add, (Z.div_small i) by lia.
  f_equal. ring.
Qed.
