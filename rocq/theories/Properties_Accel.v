(** C95-C97, C99: the accelerated MLEM and SIRT. *)
From Coq Require Import Reals Lra Permutation.
From Verif Require Import Base CLoop Model_Prep Model_Ray Proofs_Prep Proofs_Ray Proofs_Morph Proofs_Solver Model_Accel Spec_Accel
  Proofs_Accel Proofs_AccelRun Proofs_AccelFix Proofs_AccelRot.
Local Open Scope R_scope.

(** ** C95: the rotation of a slice, and the counts *)

(** Nearest neighbour: every cell of the result is the source cell closest to the place it came from, or zero if that is
    outside of the image. *)
Theorem C95_nearest nx ny cubic t k : (0 < nx)%Z -> (0 < ny)%Z ->
  exists x y, Rabs (IZR x - fst (came_from nx ny t k)) <= 1 / 2 /\ Rabs (IZR y - snd (came_from nx ny t k)) <= 1 / 2 /\
    ((inside_img nx ny x y /\ forall src, rotate nx ny cubic Nn t src k = src (y * ny + x)%Z) \/
     (~ inside_img nx ny x y /\ forall src, rotate nx ny cubic Nn t src k = 0)).
Proof. apply warp_nn_spec. Qed.

(** Linear: exact on planes, inside of the image. *)
Theorem C95_planes nx ny cubic t src a b c k : (0 < nx)%Z -> (0 < ny)%Z ->
  (forall x y, inside_img nx ny x y -> src (y * ny + x)%Z = a + b * IZR x + c * IZR y) ->
  0 <= fst (came_from nx ny t k) < IZR (ny - 1) -> 0 <= snd (came_from nx ny t k) < IZR (nx - 1) ->
  rotate nx ny cubic Linear t src k = a + b * fst (came_from nx ny t k) + c * snd (came_from nx ny t k).
Proof. apply warp_linear_plane. Qed.

(** Both modes stay within the range of the image and zero, and are linear. *)
Theorem C95_range nx ny cubic m t lo hi src : (0 < nx)%Z -> (0 < ny)%Z -> m <> Cubic -> lo <= 0 <= hi ->
  cells_ok (nx * ny) (fun v => lo <= v <= hi) src -> forall k, lo <= rotate nx ny cubic m t src k <= hi.
Proof. intros Hx Hy Hm H0 H. now apply rotate_range. Qed.
Theorem C95_linear nx ny cubic m t : (0 < nx)%Z -> (0 < ny)%Z -> m <> Cubic -> linear_op (nx * ny) (rotate nx ny cubic m t).
Proof. intros Hx Hy Hm. apply rotate_linear; auto. congruence. Qed.

(** The cells of the inscribed disc always come from a cell of the image. *)
Theorem C95_disc n cubic t k : (0 < n)%Z -> in_disc n k -> exists k', (0 <= k' < n * n)%Z /\ forall src, rotate n n cubic Nn t src k = src k'.
Proof. intros Hn Hd. destruct (disc_source n t k Hn Hd) as (k' & Hk & H). exists k'. split; auto. intros src. apply (H R 0 src). Qed.

(** Back and forth: right angles in images with an odd number of rows. *)
Theorem C95_back n cubic t src k : (0 < n)%Z -> Z.odd n = true -> quarter t -> (0 <= k < n * n)%Z ->
  rotate n n cubic Nn t (rotate n n cubic Nn (- t) src) k = src k.
Proof. apply turn_back. Qed.
(** With an even number of rows (the code adds half a pixel to the centre and then truncates it), half a turn loses a
    column: the first column of the result is zero whatever the image. *)
Theorem C95_back_refuted n cubic src y : (0 < n)%Z -> Z.even n = true -> (0 <= y < n)%Z ->
  rotate n n cubic Nn PI (rotate n n cubic Nn (- PI) src) (y * n)%Z = 0.
Proof. intros Hn He Hy. apply half_turn; auto. lia. Qed.
Example C95_back_example cubic : rotate 2 2 cubic Nn PI (rotate 2 2 cubic Nn (- PI) (fun _ => 1)) 0%Z = 0 /\
  rotate 3 3 cubic Nn PI (rotate 3 3 cubic Nn (- PI) (fun _ => 1)) 0%Z = 1.
Proof.
  split; [apply (C95_back_refuted 2 cubic _ 0); [lia|reflexivity|lia]|].
  apply (C95_back 3 cubic PI (fun _ => 1)); [lia|reflexivity| |lia]. exists 2%Z. lra.
Qed.

(** The number a cell is divided by: how many projections turn a cell of the image onto it, for the cells of the first
    dx groups of nx cells; zero for the others. *)
Theorem C95_count dy dt dx nx ny theta cubic s j : (0 <= dy)%Z -> (0 <= dt)%Z -> (0 <= dx)%Z -> (0 < nx)%Z -> (0 < ny)%Z -> (dx <= ny)%Z ->
  (0 <= s < dy)%Z -> (0 <= j < nx * ny)%Z ->
  compute_sum_dist dy dt dx nx ny theta (s * (nx * ny) + j)%Z =
  if (j <? dx * nx)%Z then how_many dt (fun p => if Req_EM_T (rotate nx ny cubic Nn (- (theta p + PI / 2)) (fun _ => 1) j) 0 then false else true) else 0%Z.
Proof.
  intros Hdy Hdt Hdx Hnx Hny Hle Hs Hj. rewrite sum_dist_at by auto. destruct (j <? dx * nx)%Z; auto.
  unfold how_many. f_equal. f_equal. apply filter_ext. intros p. rewrite (ones_hit nx ny cubic).
  rewrite rotate_theta_neg by discriminate. reflexivity.
Qed.
Theorem C95_count_range dy dt dx nx ny theta s j : (0 <= dy)%Z -> (0 <= dt)%Z -> (0 <= dx)%Z -> (0 < nx)%Z -> (0 < ny)%Z -> (dx <= ny)%Z ->
  (0 <= s < dy)%Z -> (0 <= j < nx * ny)%Z -> (0 <= compute_sum_dist dy dt dx nx ny theta (s * (nx * ny) + j) <= dt)%Z.
Proof.
  intros Hdy Hdt Hdx Hnx Hny Hle Hs Hj. rewrite sum_dist_at by auto. destruct (j <? dx * nx)%Z; [now apply how_many_range|lia].
Qed.
Theorem C95_count_disc dy dt n theta s j : (0 <= dy)%Z -> (0 <= dt)%Z -> (0 < n)%Z -> (0 <= s < dy)%Z -> (0 <= j < n * n)%Z -> in_disc n j ->
  compute_sum_dist dy dt n n n theta (s * (n * n) + j)%Z = dt.
Proof.
  intros Hdy Hdt Hn Hs Hj Hd. rewrite sum_dist_at by (auto; lia). replace (j <? n * n)%Z with true by lia.
  apply how_many_all; auto. intros p Hp. destruct (disc_source n (- theta_p theta p) j Hn Hd) as (k' & Hk & H).
  rewrite (H Z 0%Z). reflexivity.
Qed.

(** With as many detector pixels as rows of the grid, or fewer, only the image is used; otherwise what follows it in memory is. *)
Definition reads_image_only (nx ny : Z) (f : (Z -> Z) -> Z -> Z) : Prop :=
  forall a b, (forall k, (0 <= k < nx * ny)%Z -> a k = b k) -> forall k, f a k = f b k.
Lemma count_pass_ext dy dx nx ny a b c : (0 <= dx)%Z -> (0 < nx)%Z -> (0 < ny)%Z -> (dx <= ny)%Z ->
  (forall k, (0 <= k < nx * ny)%Z -> a k = b k) -> count_pass dy dx nx ny a c = count_pass dy dx nx ny b c.
Proof.
  intros Hdx Hnx Hny Hle H. unfold count_pass. apply for_ext. intros s Hs x. apply for_ext. intros d Hd y. apply for_ext. intros n Hn z.
  rewrite H; auto. nia.
Qed.
Theorem C95_bounds dy dx nx ny c : (0 <= dx)%Z -> (0 < nx)%Z -> (0 < ny)%Z -> (dx <= ny)%Z -> reads_image_only nx ny (fun a => count_pass dy dx nx ny a c).
Proof. intros Hdx Hnx Hny Hle a b H k. now rewrite (count_pass_ext dy dx nx ny a b c). Qed.
Theorem C95_bounds_refuted dy dx nx ny c : (0 < dy)%Z -> (0 < nx)%Z -> (0 < ny < dx)%Z -> ~ reads_image_only nx ny (fun a => count_pass dy dx nx ny a c).
Proof.
  intros Hdy Hnx Hny H.
  assert (Hd : (0 <= dx)%Z) by lia.
  set (N := (nx * ny)%Z). assert (HN : (0 < N)%Z) by nia.
  specialize (H (fun _ => 0%Z) (fun k => if (k <? N)%Z then 0%Z else 1%Z)). cbv beta in H.
  assert (Hin : forall k, (0 <= k < nx * ny)%Z -> 0%Z = (if (k <? N)%Z then 0 else 1)%Z) by (intros k Hk; replace (k <? N)%Z with true by lia; reflexivity).
  specialize (H Hin ((dy - 1) * N + N)%Z). unfold count_pass in H.
  assert (M : forall a c' m k, (0 <= m)%Z -> (c' k <= for_ m (fun s sd => for_ dx (fun d sd => for_ nx (fun n sd =>
       aset sd (s * nx * ny + d * nx + n)%Z (sd (s * nx * ny + d * nx + n) + (if 0 <? a (d * nx + n) then 1 else 0))%Z) sd) sd) c' k)%Z).
  { clear H Hin. intros a c' m k Hm. apply (for_inv (fun _ t => (c' k <= t k)%Z) m); auto; [lia|].
    intros s t Hs IH. rewrite slice_count_at by auto. destruct (_ && _)%bool; [destruct (0 <? a (k - s * (nx * ny)))%Z|]; lia. }
  assert (Z0 : forall c' m k, (0 <= m)%Z -> (for_ m (fun s sd => for_ dx (fun d sd => for_ nx (fun n sd =>
       aset sd (s * nx * ny + d * nx + n)%Z (sd (s * nx * ny + d * nx + n) + (if 0 <? 0 then 1 else 0))%Z) sd) sd) c' k = c' k)%Z).
  { clear H Hin. intros c' m k Hm. apply (for_inv (fun _ t => t k = c' k) m); auto.
    intros s t Hs IH. rewrite (slice_count_at dx nx ny Hd Hnx (fun _ => 0%Z)). destruct (_ && _)%bool; cbn; lia. }
  rewrite Z0 in H by lia.
  replace dy with (dy - 1 + 1)%Z in H at 2 by lia. rewrite for_S in H by lia.
  rewrite (slice_count_at dx nx ny Hd Hnx (fun k => if (k <? N)%Z then 0%Z else 1%Z)) in H.
  pose proof (M (fun k => if (k <? N)%Z then 0%Z else 1%Z) c (dy - 1)%Z ((dy - 1) * N + N)%Z ltac:(lia)) as L. cbv beta in L.
  fold N in H.
  assert (Hb : (N < dx * nx)%Z) by (unfold N; nia). clearbody N.
  replace (((dy - 1) * N <=? (dy - 1) * N + N) && ((dy - 1) * N + N <? (dy - 1) * N + dx * nx))%Z with true in H by lia.
  replace ((dy - 1) * N + N - (dy - 1) * N)%Z with N in H by ring. rewrite Z.ltb_irrefl in H. cbn in H. lia.
Qed.
Print Assumptions C95_nearest.
Print Assumptions C95_planes.
Print Assumptions C95_range.
Print Assumptions C95_linear.
Print Assumptions C95_disc.
Print Assumptions C95_back.
Print Assumptions C95_back_refuted.
Print Assumptions C95_count.
Print Assumptions C95_count_range.
Print Assumptions C95_count_disc.
Print Assumptions C95_bounds.
Print Assumptions C95_bounds_refuted.

(** ** C96, C97: accelerated MLEM and SIRT *)

(** How many projections turn a cell of the image onto cell [j], for the cells that belong to a ray; the sum over the projections
    of the slice turned forth, corrected ray by ray, and turned back. *)
Definition hits (nx ny dt dx : Z) (theta : Z -> R) (j : Z) : Z :=
  if (j <? dx * nx)%Z
  then how_many dt (fun p => if Req_EM_T (rotate nx ny (fun _ a => a) Nn (- (theta p + PI / 2)) (fun _ => 1) j) 0 then false else true)
  else 0%Z.
Definition brought_back (nx ny dt dx : Z) (m : interp) (theta : Z -> R) (change : R -> R -> R) (data recon : Z -> R) (s j : Z) : R :=
  total_to dt (fun p => rotate nx ny (fun _ a => a) m (theta p + PI / 2)
    (corrected nx dx change (rays_of dt dx data s p) (rotate nx ny (fun _ a => a) m (- (theta p + PI / 2)) (slice_of (nx * ny) recon s))) j).
Definition all_tasks (dt : Z) (orders : Z -> list Z) : Prop := forall i, Permutation (orders i) (zrange 0 dt).

Lemma seen_hits nx ny dt dx theta j : seen dt dx nx ny theta j = hits nx ny dt dx theta j.
Proof.
  unfold seen, hits. destruct (j <? dx * nx)%Z; auto. unfold how_many. f_equal. f_equal. apply filter_ext. intros p.
  rewrite (ones_hit nx ny (fun _ a => a)). rewrite rotate_theta_neg by discriminate. reflexivity.
Qed.
Lemma rotate_no_cubic nx ny cubic cubic' m t src : m <> Cubic -> rotate nx ny cubic m t src = rotate nx ny cubic' m t src.
Proof. destruct m; congruence || reflexivity. Qed.

Section Accel.
  Variables dy dt dx nx ny : Z.
  Variable theta : arr R.
  Variable cubic : R -> arr R -> arr R.
  Variable m : interp.
  Hypothesis Hdy : (0 <= dy)%Z.
  Hypothesis Hdt : (0 <= dt)%Z.
  Hypothesis Hdx : (0 <= dx)%Z.
  Hypothesis Hnx : (0 < nx)%Z.
  Hypothesis Hny : (0 < ny)%Z.
  Hypothesis Hle : (dx <= ny)%Z.
  Hypothesis Hm : m <> Cubic.
  Notation N := (nx * ny)%Z.
  Notation slice := (slice_of N).
  Notation rays := (rays_of dt dx).
  Notation mlem data center recon i orders := (mlem_cpu cubic data dy dt dx center theta recon nx ny i m orders).
  Notation sirt data center recon i orders := (sirt_cpu cubic data dy dt dx center theta recon nx ny i m orders).

  Lemma m_local t : local_op N (rotate nx ny cubic m t). Proof. apply rotate_local; auto; congruence. Qed.
  Lemma m_linear t : linear_op N (rotate nx ny cubic m t). Proof. apply rotate_linear; auto; congruence. Qed.
  Lemma m_positive t : positive_op N (rotate nx ny cubic m t). Proof. apply rotate_positive; auto; congruence. Qed.

  Lemma back_total change data recon s j :
    total_to dt (fun p => back dt dx nx ny theta (rotate nx ny cubic m) change data recon s p j) = brought_back nx ny dt dx m theta change data recon s j.
  Proof.
    unfold brought_back. apply total_ext. intros p Hp. unfold back.
    rewrite rotate_theta, (rotate_no_cubic nx ny cubic (fun _ a => a)) by auto.
    rewrite rotate_theta_neg, (rotate_no_cubic nx ny cubic (fun _ a => a)) by auto. reflexivity.
  Qed.

  (** One iteration, cell by cell *)
  Theorem C96_step data center recon orders s j : all_tasks dt orders -> (0 <= s < dy)%Z -> (0 <= j < N)%Z ->
    slice (mlem data center recon 1%Z orders) s j =
    if ((hits nx ny dt dx theta j =? 0) || (dx =? 0))%Z then slice recon s j
    else slice recon s j * (brought_back nx ny dt dx m theta Rdiv data recon s j / (IZR (hits nx ny dt dx theta j) * IZR dx)).
  Proof.
    intros Ho Hs Hj. unfold mlem_cpu, solve. change 1%Z with (0 + 1)%Z at 1. rewrite for_S, for_0 by lia.
    rewrite step_at by auto using m_local. rewrite seen_hits, back_total.
    destruct ((hits nx ny dt dx theta j =? 0) || (dx =? 0))%Z eqn:E; auto.
    f_equal. field. split; apply not_0_IZR; lia.
  Qed.
  Theorem C97_step data center recon orders s j : all_tasks dt orders -> (0 <= s < dy)%Z -> (0 <= j < N)%Z ->
    slice (sirt data center recon 1%Z orders) s j =
    if ((hits nx ny dt dx theta j =? 0) || (dx =? 0))%Z then slice recon s j
    else slice recon s j + brought_back nx ny dt dx m theta Rminus data recon s j / (IZR (hits nx ny dt dx theta j) * IZR dx).
  Proof.
    intros Ho Hs Hj. unfold sirt_cpu, solve. change 1%Z with (0 + 1)%Z at 1. rewrite for_S, for_0 by lia.
    rewrite step_at by auto using m_local. rewrite seen_hits, back_total.
    destruct ((hits nx ny dt dx theta j =? 0) || (dx =? 0))%Z eqn:E; auto.
    f_equal. field. split; apply not_0_IZR; lia.
  Qed.
  (** and further iterations *)
  Theorem C96_iterate data center recon orders i : (0 <= i)%Z ->
    mlem data center recon 0%Z orders = recon /\
    mlem data center recon (i + 1)%Z orders = mlem data center (mlem data center recon i orders) 1%Z (fun _ => orders i).
  Proof. intros Hi. split; [reflexivity|]. unfold mlem_cpu, solve. rewrite for_S by lia. reflexivity. Qed.
  Theorem C97_iterate data center recon orders i : (0 <= i)%Z ->
    sirt data center recon 0%Z orders = recon /\
    sirt data center recon (i + 1)%Z orders = sirt data center (sirt data center recon i orders) 1%Z (fun _ => orders i).
  Proof. intros Hi. split; [reflexivity|]. unfold sirt_cpu, solve. rewrite for_S by lia. reflexivity. Qed.

  (** A slice depends on its own image and measurements only, not on the order in which the tasks finish, not on the
      rotation centres. *)
  Theorem C96_slices data data' center center' recon recon' i orders orders' s s' : (0 <= i)%Z -> (0 <= s < dy)%Z -> (0 <= s' < dy)%Z ->
    all_tasks dt orders -> all_tasks dt orders' -> same_on N (slice recon s) (slice recon' s') ->
    (forall p d, (0 <= p < dt)%Z -> (0 <= d < dx)%Z -> rays data s p d = rays data' s' p d) ->
    same_on N (slice (mlem data center recon i orders) s) (slice (mlem data' center' recon' i orders') s').
  Proof. intros. unfold mlem_cpu. apply run_slice; auto using m_local. Qed.
  Theorem C97_slices data data' center center' recon recon' i orders orders' s s' : (0 <= i)%Z -> (0 <= s < dy)%Z -> (0 <= s' < dy)%Z ->
    all_tasks dt orders -> all_tasks dt orders' -> same_on N (slice recon s) (slice recon' s') ->
    (forall p d, (0 <= p < dt)%Z -> (0 <= d < dx)%Z -> rays data s p d = rays data' s' p d) ->
    same_on N (slice (sirt data center recon i orders) s) (slice (sirt data' center' recon' i orders') s').
  Proof. intros. unfold sirt_cpu. apply run_slice; auto using m_local. Qed.

  (** Cells that are not reached keep their value; nothing outside of the volume is written. *)
  Theorem C96_unseen data center recon i orders s j : (0 <= i)%Z -> (0 <= s < dy)%Z -> (0 <= j < N)%Z -> all_tasks dt orders ->
    hits nx ny dt dx theta j = 0%Z -> slice (mlem data center recon i orders) s j = slice recon s j.
  Proof. intros Hi Hs Hj Ho H. unfold mlem_cpu. apply run_unseen; auto using m_local. now rewrite seen_hits. Qed.
  Theorem C97_unseen data center recon i orders s j : (0 <= i)%Z -> (0 <= s < dy)%Z -> (0 <= j < N)%Z -> all_tasks dt orders ->
    hits nx ny dt dx theta j = 0%Z -> slice (sirt data center recon i orders) s j = slice recon s j.
  Proof. intros Hi Hs Hj Ho H. unfold sirt_cpu. apply run_unseen; auto using m_local. now rewrite seen_hits. Qed.
  Lemma outside_run change apply data recon i orders k : (0 <= i)%Z -> ~ (0 <= k < dy * N)%Z ->
    solve dy dt dx nx ny theta (rotate nx ny cubic m) change apply data i orders recon k = recon k.
  Proof.
    intros Hi Hk. unfold solve. apply (for_inv (fun _ r => r k = recon k) i); auto.
    intros x r Hx IH. rewrite outside_at by auto. exact IH.
  Qed.
  Theorem C96_outside data center recon i orders k : (0 <= i)%Z -> ~ (0 <= k < dy * N)%Z -> mlem data center recon i orders k = recon k.
  Proof. apply outside_run. Qed.
  Theorem C97_outside data center recon i orders k : (0 <= i)%Z -> ~ (0 <= k < dy * N)%Z -> sirt data center recon i orders k = recon k.
  Proof. apply outside_run. Qed.

  (** MLEM: no negative values from non-negative ones; a zero stays. *)
  Theorem C96_nonneg data center recon i orders s : (0 <= i)%Z -> (0 <= s < dy)%Z -> all_tasks dt orders ->
    (forall p d, (0 <= p < dt)%Z -> (0 <= d < dx)%Z -> 0 <= rays data s p d) -> cells_ok N (Rle 0) (slice recon s) ->
    cells_ok N (Rle 0) (slice (mlem data center recon i orders) s).
  Proof. intros. unfold mlem_cpu. apply run_nonneg; auto using m_local, m_positive. Qed.
  Theorem C96_zero data center recon i orders s j : (0 <= i)%Z -> (0 <= s < dy)%Z -> (0 <= j < N)%Z -> all_tasks dt orders ->
    slice recon s j = 0 -> slice (mlem data center recon i orders) s j = 0.
  Proof.
    intros Hi Hs Hj Ho H0. unfold mlem_cpu.
    apply (run_inv dy dt dx nx ny theta (rotate nx ny cubic m) Rdiv Rmult (fun v => v j = 0)); auto.
    intros r order Hp IH. rewrite step_at by auto using m_local. rewrite IH. destruct (_ || _)%bool; auto. ring.
  Qed.

  (** SIRT: homogeneous in image and measurements together; an image of zeros is never left. *)
  Theorem C97_scale c data data' center recon recon' i orders s : c <> 0 -> (0 <= i)%Z -> (0 <= s < dy)%Z -> all_tasks dt orders ->
    same_on N (slice recon s) (fun k => c * slice recon' s k) ->
    (forall p d, (0 <= p < dt)%Z -> (0 <= d < dx)%Z -> rays data s p d = c * rays data' s p d) ->
    same_on N (slice (sirt data center recon i orders) s) (fun k => c * slice (sirt data' center recon' i orders) s k).
  Proof. intros. unfold sirt_cpu. apply run_scale; auto using m_local, m_linear; intros; ring. Qed.
  Theorem C97_start_refuted data center recon i orders s : (0 <= i)%Z -> (0 <= s < dy)%Z -> all_tasks dt orders ->
    same_on N (slice recon s) (fun _ => 0) -> same_on N (slice (sirt data center recon i orders) s) (fun _ => 0).
  Proof. intros. unfold sirt_cpu. apply run_zero; auto using m_local, m_linear. intros x. unfold Rdiv. ring. Qed.
End Accel.
Print Assumptions C96_step.
Print Assumptions C96_iterate.
Print Assumptions C96_slices.
Print Assumptions C96_unseen.
Print Assumptions C96_outside.
Print Assumptions C96_nonneg.
Print Assumptions C96_zero.
Print Assumptions C97_step.
Print Assumptions C97_iterate.
Print Assumptions C97_slices.
Print Assumptions C97_unseen.
Print Assumptions C97_outside.
Print Assumptions C97_scale.
Print Assumptions C97_start_refuted.

(** Consistent data: every measurement is the total of its ray.  Under right angles and with an odd number of rows nothing is lost by
    turning, and still neither method has the image as a fixed point. *)
Section Consistent.
  Variables dy dt n : Z.
  Variable theta : arr R.
  Variable cubic : R -> arr R -> arr R.
  Hypothesis Hdy : (0 <= dy)%Z.
  Hypothesis Hdt : (0 < dt)%Z.
  Hypothesis Hn : (0 < n)%Z.
  Hypothesis Ho : Z.odd n = true.
  Hypothesis Hq : forall p, (0 <= p < dt)%Z -> quarter (theta p).
  Definition consistent (data recon : Z -> R) (s : Z) : Prop := forall p d, (0 <= p < dt)%Z -> (0 <= d < n)%Z ->
    rays_of dt n data s p d = ray_total n (rotate n n cubic Nn (- (theta p + PI / 2)) (slice_of (n * n) recon s)) d /\ rays_of dt n data s p d <> 0.

  Lemma corrected_consistent change e data recon s p k : consistent data recon s -> (forall x, x <> 0 -> change x x = e) -> (0 <= p < dt)%Z -> (0 <= k < n * n)%Z ->
    corrected n n change (rays_of dt n data s p) (rotate n n cubic Nn (- theta_p theta p) (slice_of (n * n) recon s)) k =
    rotate n n cubic Nn (- theta_p theta p) (slice_of (n * n) recon s) k + e.
  Proof.
    intros Hc He Hp Hk. unfold corrected. replace (k <? n * n)%Z with true by lia.
    assert (Hd : (0 <= k / n < n)%Z) by (split; [apply Z.div_pos; lia|apply Z.div_lt_upper_bound; lia]).
    destruct (Hc p (k / n)%Z Hp Hd) as [H1 H2]. rewrite rotate_theta_neg by discriminate. rewrite <- H1.
    destruct (Req_EM_T _ 0); [contradiction|]. now rewrite He.
  Qed.

  Theorem C96_consistent data center recon orders s j : all_tasks dt orders -> (0 <= s < dy)%Z -> (0 <= j < n * n)%Z -> consistent data recon s ->
    slice_of (n * n) (mlem_cpu cubic data dy dt n center theta recon n n 1 Nn orders) s j =
    slice_of (n * n) recon s j * (slice_of (n * n) recon s j + 1) / IZR n.
  Proof.
    intros Hor Hs Hj Hc. unfold mlem_cpu, solve. change 1%Z with (0 + 1)%Z at 1. rewrite for_S, for_0 by lia.
    rewrite step_quarter with (e := 1) by (auto; intros; apply corrected_consistent; auto; intros x Hx; field; auto).
    unfold Rdiv. ring.
  Qed.
  Theorem C97_consistent data center recon orders s j : all_tasks dt orders -> (0 <= s < dy)%Z -> (0 <= j < n * n)%Z -> consistent data recon s ->
    slice_of (n * n) (sirt_cpu cubic data dy dt n center theta recon n n 1 Nn orders) s j =
    slice_of (n * n) recon s j * (1 + 1 / IZR n).
  Proof.
    intros Hor Hs Hj Hc. unfold sirt_cpu, solve. change 1%Z with (0 + 1)%Z at 1. rewrite for_S, for_0 by lia.
    rewrite step_quarter with (e := 0) by (auto; intros; apply corrected_consistent; auto; intros x Hx; ring).
    unfold Rdiv. ring.
  Qed.
End Consistent.

(** One pixel, one projection at angle zero. *)
Definition one_order : Z -> list Z := fun _ => [0]%Z.
Lemma one_tasks : all_tasks 1 one_order. Proof. intros i. reflexivity. Qed.
Lemma one_quarter p : (0 <= p < 1)%Z -> quarter ((fun _ => 0) p). Proof. intros _. exists 0%Z. ring. Qed.
Lemma one_total cubic t recon : ray_total 1 (rotate 1 1 cubic Nn t (slice_of (1 * 1) recon 0)) 0 = recon 0%Z.
Proof.
  unfold ray_total, total_to. cbn [zrange]. change (zrange 0 1) with [0%Z]. cbn [map fold_right].
  assert (H : exists k', (0 <= k' < 1 * 1)%Z /\ forall (A : Type) (zero : A) (src : arr A), warp_nn 1 1 zero t src 0%Z = src k').
  { apply disc_source; [lia|]. unfold in_disc. cbn. lia. }
  destruct H as (k' & Hk & H). unfold rotate. replace (0 * 1 + 0)%Z with 0%Z by ring. rewrite H. replace k' with 0%Z by lia.
  unfold slice_of. replace (0 * (1 * 1) + 0)%Z with 0%Z by ring. ring.
Qed.
Lemma one_consistent cubic v : v <> 0 -> consistent 1 1 (fun _ => 0) cubic (fun _ => v) (fun _ => v) 0.
Proof. intros Hv p d Hp Hd. replace d with 0%Z by lia. rewrite one_total. unfold rays_of. auto. Qed.

Theorem C96_fixed_refuted cubic center : exists data recon,
  consistent 1 1 (fun _ => 0) cubic data recon 0 /\ recon 0%Z = 2 /\
  mlem_cpu cubic data 1 1 1 center (fun _ => 0) recon 1 1 1 Nn one_order 0%Z = 6.
Proof.
  exists (fun _ => 2), (fun _ => 2). split; [apply one_consistent; lra|]. split; auto.
  pose proof (C96_consistent 1 1 1 (fun _ => 0) cubic ltac:(lia) ltac:(lia) ltac:(lia) eq_refl one_quarter (fun _ => 2) center (fun _ => 2) one_order 0 0
    one_tasks ltac:(lia) ltac:(lia) (one_consistent cubic 2 ltac:(lra))) as H.
  unfold slice_of in H at 1. change (0 * (1 * 1) + 0)%Z with 0%Z in H. rewrite H. unfold slice_of. lra.
Qed.
(** Twice the data and twice the image do not give twice the result. *)
Theorem C96_scale_refuted cubic center : exists data recon,
  mlem_cpu cubic data 1 1 1 center (fun _ => 0) recon 1 1 1 Nn one_order 0%Z = 2 /\
  mlem_cpu cubic (fun k => 2 * data k) 1 1 1 center (fun _ => 0) (fun k => 2 * recon k) 1 1 1 Nn one_order 0%Z = 6.
Proof.
  exists (fun _ => 1), (fun _ => 1). split.
  - pose proof (C96_consistent 1 1 1 (fun _ => 0) cubic ltac:(lia) ltac:(lia) ltac:(lia) eq_refl one_quarter (fun _ => 1) center (fun _ => 1) one_order 0 0
      one_tasks ltac:(lia) ltac:(lia) (one_consistent cubic 1 ltac:(lra))) as H.
    unfold slice_of in H at 1. change (0 * (1 * 1) + 0)%Z with 0%Z in H. rewrite H. unfold slice_of. lra.
  - pose proof (C96_consistent 1 1 1 (fun _ => 0) cubic ltac:(lia) ltac:(lia) ltac:(lia) eq_refl one_quarter (fun _ => 2 * 1) center (fun _ => 2 * 1) one_order 0 0
      one_tasks ltac:(lia) ltac:(lia) (one_consistent cubic (2 * 1) ltac:(lra))) as H.
    unfold slice_of in H at 1. change (0 * (1 * 1) + 0)%Z with 0%Z in H. rewrite H. unfold slice_of. lra.
Qed.
Theorem C97_fixed_refuted cubic center : exists data recon,
  consistent 1 1 (fun _ => 0) cubic data recon 0 /\ recon 0%Z = 2 /\
  sirt_cpu cubic data 1 1 1 center (fun _ => 0) recon 1 1 1 Nn one_order 0%Z = 4.
Proof.
  exists (fun _ => 2), (fun _ => 2). split; [apply one_consistent; lra|]. split; auto.
  pose proof (C97_consistent 1 1 1 (fun _ => 0) cubic ltac:(lia) ltac:(lia) ltac:(lia) eq_refl one_quarter (fun _ => 2) center (fun _ => 2) one_order 0 0
    one_tasks ltac:(lia) ltac:(lia) (one_consistent cubic 2 ltac:(lra))) as H.
  unfold slice_of in H at 1. change (0 * (1 * 1) + 0)%Z with 0%Z in H. rewrite H. unfold slice_of. lra.
Qed.
(** ... and a pixel with a positive measurement grows without bound. *)
Theorem C97_growth_refuted cubic center r d i : 0 < r -> 0 < d -> (0 <= i)%Z ->
  sirt_cpu cubic (fun _ => d) 1 1 1 center (fun _ => 0) (fun _ => r) 1 1 i Nn one_order 0%Z = r + IZR i * d.
Proof.
  intros Hr Hd. revert i. apply natlike_ind; [cbn; ring|]. intros i Hi IH. unfold Z.succ.
  rewrite (proj2 (C97_iterate 1 1 1 1 1 (fun _ => 0) cubic Nn (fun _ => d) center (fun _ => r) one_order i Hi)).
  set (v := sirt_cpu cubic (fun _ => d) 1 1 1 center (fun _ => 0) (fun _ => r) 1 1 i Nn one_order) in *. clearbody v.
  assert (0 <= IZR i) by (apply IZR_le; lia).
  assert (Hv : 0 < v 0%Z) by (rewrite IH; nra).
  assert (H0 : slice_of (1 * 1) (iteration 1 1 1 1 1 (fun _ => 0) (rotate 1 1 cubic Nn) Rminus Rplus (fun _ => d) [0%Z] v) 0 0 =
               v 0%Z + (v 0%Z + (d - v 0%Z)) / 1).
  { rewrite (step_quarter 1 1 1 (fun _ => 0) cubic Rminus Rplus ltac:(lia) ltac:(lia) ltac:(lia) eq_refl one_quarter (fun _ => d) v [0%Z] 0 0 (d - v 0%Z)); try lia; [|reflexivity|].
    - unfold slice_of. replace (0 * (1 * 1) + 0)%Z with 0%Z by ring. reflexivity.
    - intros p k Hp Hk. unfold corrected. replace (k <? 1 * 1)%Z with true by lia. replace (k / 1)%Z with 0%Z by lia.
      rewrite one_total. destruct (Req_EM_T (v 0%Z) 0); [lra|]. reflexivity. }
  transitivity (iteration 1 1 1 1 1 (fun _ => 0) (rotate 1 1 cubic Nn) Rminus Rplus (fun _ => d) [0%Z] v 0%Z); [reflexivity|].
  unfold slice_of in H0. change (0 * (1 * 1) + 0)%Z with 0%Z in H0. rewrite H0, IH, plus_IZR. field.
Qed.
Print Assumptions C96_consistent.
Print Assumptions C97_consistent.
Print Assumptions C96_fixed_refuted.
Print Assumptions C96_scale_refuted.
Print Assumptions C97_fixed_refuted.
Print Assumptions C97_growth_refuted.

(** ** C99: threads sharing buffers *)
(** task of a step *)
Definition step_of (e : tstep) : Z := match e with Fill p _ => p | Take p _ => p | Commit p => p end.
(** Every task runs through its steps in its own order, and nothing else runs. *)
Definition interleaves (dy dt : Z) (es : list tstep) : Prop :=
  (forall p, (0 <= p < dt)%Z -> filter (fun e => step_of e =? p)%Z es = task_steps dy p) /\ (forall e, In e es -> (0 <= step_of e < dt)%Z).
(** A worker does one task after the other. *)
Definition one_at_a_time (worker : Z -> Z) (es : list tstep) : Prop :=
  forall a e1 b e2 c e3 d, es = a ++ e1 :: b ++ e2 :: c ++ e3 :: d -> step_of e1 = step_of e3 -> worker (step_of e2) = worker (step_of e1) -> step_of e2 = step_of e1.
(** What every task should hand over: its own buffers, slice by slice. *)
Definition handed_over {img} (buf : Z -> Z -> img) (dy p : Z) : Z * list (option img) := (p, map (fun s => Some (buf p s)) (zrange 0 dy)).

(** With [size] workers of consecutive numbers, buffer [number mod size], every schedule hands over all buffers unspoilt. *)
Theorem C99_buffers {img} (buf : Z -> Z -> img) dy dt size first worker es :
  (forall p, (0 <= p < dt)%Z -> (first <= worker p < first + size)%Z) -> interleaves dy dt es -> one_at_a_time worker es ->
  Permutation (threads_run img buf (fun p => worker p mod size)%Z es) (map (handed_over buf dy) (zrange 0 dt)).
Proof.
  intros Hw [Ho Hr] H1. apply (threads_ok img buf _ dy dt es Ho Hr).
  intros a e1 b e2 c e3 d E E13 Hne Hc. apply Hne.
  apply (H1 a e1 b e2 c e3 d E E13).
  assert (I1 : (0 <= step_of e1 < dt)%Z) by (apply Hr; rewrite E; apply in_or_app; right; now left).
  assert (I2 : (0 <= step_of e2 < dt)%Z) by (apply Hr; rewrite E; apply in_or_app; right; right; apply in_or_app; right; now left).
  change owner with step_of in Hc. pose proof (Hw _ I1). pose proof (Hw _ I2).
  set (x := worker (step_of e1)) in *. set (y := worker (step_of e2)) in *.
  assert (Hs : (0 < size)%Z) by lia.
  pose proof (Z.div_mod x size). pose proof (Z.div_mod y size). pose proof (Z.mod_pos_bound x size Hs). pose proof (Z.mod_pos_bound y size Hs).
  assert (x / size = y / size \/ x / size <> y / size)%Z as [|] by lia; [nia|]. exfalso. nia.
Qed.
(** If numbers are not consecutive (here 0 and 2 with two buffers), a schedule spoils the buffers. *)
Theorem C99_buffers_refuted : exists worker es,
  interleaves 1 2 es /\ one_at_a_time worker es /\ worker 0%Z <> worker 1%Z /\
  ~ Permutation (threads_run (Z * Z) (fun p s => (p, s)) (fun p => worker p mod 2)%Z es) (map (handed_over (fun p s => (p, s)) 1) (zrange 0 2)).
Proof.
  exists (fun p => (2 * p)%Z), [Fill 0 0; Fill 1 0; Take 0 0; Take 1 0; Commit 0; Commit 1]%Z.
  split; [split|split; [|split]].
  - intros p Hp. assert (p = 0 \/ p = 1)%Z as [-> | ->] by lia; reflexivity.
  - intros e He. repeat (destruct He as [<-|He]; [cbn; lia|]). destruct He.
  - intros a e1 b e2 c e3 d _ _ H. lia.
  - discriminate.
  - intros H. apply Permutation_sym in H.
    assert (Hin : In (0%Z, [Some (0, 0)%Z]) (threads_run (Z * Z) (fun p s => (p, s)) (fun p => (2 * p) mod 2)%Z [Fill 0 0; Fill 1 0; Take 0 0; Take 1 0; Commit 0; Commit 1]%Z)).
    { eapply Permutation_in; [exact H|]. now left. }
    vm_compute in Hin. destruct Hin as [Hin|[Hin|[]]]; discriminate.
Qed.
Example C99_example : threads_run (Z * Z) (fun p s => (p, s)) (fun p => p mod 2)%Z [Fill 0 0; Fill 1 0; Take 0 0; Take 1 0; Commit 1; Commit 0]%Z =
  [(1, [Some (1, 0)]); (0, [Some (0, 0)])]%Z.
Proof. reflexivity. Qed.
Print Assumptions C99_buffers.
Print Assumptions C99_buffers_refuted.
