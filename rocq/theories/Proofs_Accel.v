(** Lemmas on the accelerated solvers. *)
From Coq Require Import Reals Lra Permutation.
From Verif Require Import Base CLoop Model_Prep Model_Ray Proofs_Ray Proofs_Morph Proofs_Solver Model_Accel Spec_Accel.
Local Open Scope R_scope.

(** ** Loops over consecutive cells *)
Lemma for_cells {A} n b (g : Z -> A -> A) (a : arr A) k : (0 <= n)%Z ->
  for_ n (fun i a => aset a (b + i)%Z (g i (a (b + i)%Z))) a k = if ((b <=? k) && (k <? b + n))%Z then g (k - b)%Z (a k) else a k.
Proof.
  intros Hn. revert k.
  apply (for_inv (fun n s => forall k, s k = if ((b <=? k) && (k <? b + n))%Z then g (k - b)%Z (a k) else a k)); auto.
  - intros k. destruct (b <=? k)%Z eqn:E1, (k <? b + 0)%Z eqn:E2; cbn; auto; lia.
  - intros j s Hj IH k. unfold aset. destruct (k =? b + j)%Z eqn:E.
    + apply Z.eqb_eq in E. subst k. rewrite IH.
      replace ((b <=? b + j) && (b + j <? b + j))%Z with false by lia.
      replace ((b <=? b + j) && (b + j <? b + (j + 1)))%Z with true by lia.
      now replace (b + j - b)%Z with j by lia.
    + rewrite IH. apply Z.eqb_neq in E.
      destruct ((b <=? k) && (k <? b + j))%Z eqn:E1, ((b <=? k) && (k <? b + (j + 1)))%Z eqn:E2; auto; lia.
Qed.

(** Loops over blocks of n cells. *)
Lemma for_blocks {A} m n (g : Z -> Z -> A -> A) (a : arr A) k : (0 <= m)%Z -> (0 < n)%Z ->
  for_ m (fun s a => for_ n (fun i a => aset a (s * n + i)%Z (g s i (a (s * n + i)%Z))) a) a k =
  if ((0 <=? k) && (k <? m * n))%Z then g (k / n)%Z (k mod n)%Z (a k) else a k.
Proof.
  intros Hm Hn. revert k.
  apply (for_inv (fun m s => forall k, s k = if ((0 <=? k) && (k <? m * n))%Z then g (k / n)%Z (k mod n)%Z (a k) else a k)); auto.
  - intros k. replace (0 * n)%Z with 0%Z by ring. destruct (0 <=? k)%Z eqn:E1, (k <? 0)%Z eqn:E2; cbn; auto; lia.
  - intros s t Hs IH k. rewrite (for_cells n (s * n) (g s)) by lia. rewrite IH.
    assert (E : ((s + 1) * n = s * n + n)%Z) by ring. rewrite E.
    assert (0 <= s * n)%Z by (apply Z.mul_nonneg_nonneg; lia).
    destruct ((s * n <=? k) && (k <? s * n + n))%Z eqn:E1.
    + replace ((0 <=? k) && (k <? s * n))%Z with false by lia. replace ((0 <=? k) && (k <? s * n + n))%Z with true by lia.
      assert (k / n = s)%Z by (symmetry; apply Z.div_unique with (k - s * n)%Z; [left; lia | ring_simplify; lia]).
      rewrite H0. f_equal. rewrite Z.mod_eq by lia. rewrite H0. ring.
    + destruct ((0 <=? k) && (k <? s * n))%Z eqn:E2, ((0 <=? k) && (k <? s * n + n))%Z eqn:E3; auto; lia.
Qed.

Lemma for_sum n f (x : R) : for_ n (fun i s => s + f i) x = x + zsum n f.
Proof.
  destruct (Z_le_gt_dec n 0).
  - rewrite for_0 by lia. rewrite zsum_0 by lia. ring.
  - apply (for_inv (fun n s => s = x + zsum n f)); [lia|..].
    + rewrite zsum_0 by lia. ring.
    + intros j s Hj ->. rewrite zsum_S by lia. ring.
Qed.

Lemma total_zsum n f : total_to n f = zsum n f. Proof. reflexivity. Qed.

(** ** Rays *)
Section Rays.
  Variables nx dx : Z.
  Variable change : R -> R -> R.
  Hypothesis Hnx : (0 < nx)%Z.

  Lemma row_sum_total rot d : row_sum nx rot d = ray_total nx rot d.
  Proof. unfold row_sum. rewrite (for_sum nx (fun i => rot (d * nx + i)%Z)). rewrite Rplus_0_l. reflexivity. Qed.

  Lemma ray_total_ext a b d : (forall i, (0 <= i < nx)%Z -> a (d * nx + i)%Z = b (d * nx + i)%Z) -> ray_total nx a d = ray_total nx b d.
  Proof. intros H. unfold ray_total. rewrite !total_zsum. now apply zsum_ext. Qed.

  Lemma ray_step_at data p d rot k :
    ray_step dx nx change data p d rot k =
    rot k + (if ((d * nx <=? k) && (k <? d * nx + nx))%Z then
               if Req_EM_T (ray_total nx rot d) 0 then 0 else change (data (p * dx + d)%Z) (ray_total nx rot d) else 0).
  Proof.
    unfold ray_step. rewrite row_sum_total. destruct (Req_EM_T (ray_total nx rot d) 0).
    - destruct ((d * nx <=? k) && (k <? d * nx + nx))%Z; ring.
    - rewrite (for_cells nx (d * nx) (fun _ v => v + change (data (p * dx + d)%Z) (ray_total nx rot d)) rot k) by lia.
      destruct ((d * nx <=? k) && (k <? d * nx + nx))%Z; ring.
  Qed.

  Lemma row_of k d : (d * nx <= k < d * nx + nx)%Z -> (k / nx = d)%Z.
  Proof. intros H. symmetry. apply Z.div_unique with (k - d * nx)%Z; [left; lia | ring]. Qed.

  Lemma rays_at data p rot k : (0 <= dx)%Z -> (0 <= k)%Z ->
    for_ dx (ray_step dx nx change data p) rot k = corrected nx dx change (fun d => data (p * dx + d)%Z) rot k.
  Proof.
    intros Hdx Hk. unfold corrected.
    enough (G : forall k, (0 <= k)%Z -> for_ dx (ray_step dx nx change data p) rot k =
              rot k + (if (k <? dx * nx)%Z then
               if Req_EM_T (ray_total nx rot (k / nx)) 0 then 0 else change (data (p * dx + k / nx)%Z) (ray_total nx rot (k / nx))
               else 0)) by now apply G.
    clear k Hk.
    refine (for_inv (fun m s => forall k, (0 <= k)%Z -> s k = rot k + (if (k <? m * nx)%Z then
               if Req_EM_T (ray_total nx rot (k / nx)) 0 then 0 else change (data (p * dx + k / nx)%Z) (ray_total nx rot (k / nx))
               else 0)) dx _ rot Hdx _ _).
    - intros k Hk. replace (k <? 0 * nx)%Z with false by lia. ring.
    - intros d s Hd IH k Hk. rewrite ray_step_at.
      assert (E : ray_total nx s d = ray_total nx rot d).
      { apply ray_total_ext. intros i Hi. rewrite IH by nia. replace (d * nx + i <? d * nx)%Z with false by lia. ring. }
      rewrite E, IH by lia.
      replace ((d + 1) * nx)%Z with (d * nx + nx)%Z by ring.
      destruct ((d * nx <=? k) && (k <? d * nx + nx))%Z eqn:E1.
      + replace (k <? d * nx)%Z with false by lia. replace (k <? d * nx + nx)%Z with true by lia.
        rewrite (row_of k d) by lia. ring.
      + destruct (k <? d * nx)%Z eqn:E2, (k <? d * nx + nx)%Z eqn:E3; try ring; lia.
  Qed.
End Rays.

Lemma cell_split' dy nx ny s j : (0 < nx -> 0 < ny -> 0 <= s < dy -> 0 <= j < nx * ny ->
  0 <= s * (nx * ny) + j < dy * (nx * ny) /\ (s * (nx * ny) + j) / (nx * ny) = s /\ (s * (nx * ny) + j) mod (nx * ny) = j)%Z.
Proof.
  intros Hnx Hny Hs Hj. assert (0 < nx * ny)%Z by nia. repeat split; [nia|nia|..].
  - rewrite Z.div_add_l by lia. rewrite Z.div_small by lia. ring.
  - rewrite Z.add_comm, Z.mod_add by lia. apply Z.mod_small. lia.
Qed.

(** ** One iteration *)
Section Iteration.
  Variables dy dt dx nx ny : Z.
  Variable theta : arr R.
  Variable rot_op : R -> arr R -> arr R.
  Variable change apply : R -> R -> R.
  Hypothesis Hdy : (0 <= dy)%Z.
  Hypothesis Hdx : (0 <= dx)%Z.
  Hypothesis Hnx : (0 < nx)%Z.
  Hypothesis Hny : (0 < ny)%Z.
  Notation N := (nx * ny)%Z.

  Lemma N_pos : (0 < N)%Z. Proof. nia. Qed.

  Lemma cell_split s j : (0 <= s < dy)%Z -> (0 <= j < N)%Z -> (0 <= s * N + j < dy * N)%Z /\ ((s * N + j) / N = s)%Z /\ ((s * N + j) mod N = j)%Z.
  Proof. exact (cell_split' dy nx ny s j Hnx Hny). Qed.

  Lemma task_at data recon p s j : (0 <= s < dy)%Z -> (0 <= j < N)%Z ->
    projection_task dy dt dx nx ny theta rot_op change data recon p (s * N + j)%Z = slice_task dt dx nx ny theta rot_op change data recon p s j.
  Proof.
    intros Hs Hj. destruct (cell_split s j Hs Hj) as (H1 & H2 & H3). unfold projection_task.
    transitivity (for_ dy (fun s a => for_ N (fun i a => aset a (s * N + i)%Z (a (s * N + i)%Z + slice_task dt dx nx ny theta rot_op change data recon p s i)) a) (fun _ => 0) (s * N + j)%Z).
    - apply (f_equal (fun g : arr R => g _)). apply for_ext. intros s' t Hs'. apply for_ext. intros i t' Hi. rewrite !Z.mul_assoc. reflexivity.
    - rewrite (for_blocks dy N (fun s i v => v + slice_task dt dx nx ny theta rot_op change data recon p s i)) by (auto using N_pos).
      rewrite H2, H3. replace ((0 <=? s * N + j) && (s * N + j <? dy * N))%Z with true by lia. ring.
  Qed.

  Lemma commit_at tmp u k : (0 <= k < dy * N)%Z -> commit dy nx ny tmp u k = u k + tmp k.
  Proof.
    intros Hk. unfold commit.
    transitivity (for_ dy (fun s a => for_ N (fun i a => aset a (s * N + i)%Z (a (s * N + i)%Z + tmp (s * N + i)%Z)) a) u k).
    - apply (f_equal (fun g : arr R => g _)). apply for_ext. intros s' t Hs'. apply for_ext. intros i t' Hi. rewrite !Z.mul_assoc. reflexivity.
    - rewrite (for_blocks dy N (fun s i v => v + tmp (s * N + i)%Z)) by (auto using N_pos).
      replace ((0 <=? k) && (k <? dy * N))%Z with true by lia. f_equal. f_equal.
      pose proof (Z.div_mod k N). pose proof N_pos. lia.
  Qed.

  Lemma commits_at (T : Z -> arr R) order u k : (0 <= k < dy * N)%Z ->
    fold_left (fun u p => commit dy nx ny (T p) u) order u k = u k + rsum (map (fun p => T p k) order).
  Proof.
    intros Hk. revert u. induction order as [|p order IH]; intros u; cbn [fold_left map rsum fold_right]; [unfold rsum; cbn; ring|].
    rewrite IH, commit_at by auto. unfold rsum. cbn. ring.
  Qed.

  Lemma rsum_perm' l l' : Permutation l l' -> rsum l = rsum l'.
  Proof. induction 1; unfold rsum in *; cbn; lra. Qed.

  Lemma final_at (count : arr Z) (u recon : arr R) k : (0 <= k < dy * N)%Z ->
    for_ (dy * nx * ny) (fun ii recon =>
      if ((count ii =? 0) || (dx =? 0))%Z then recon
      else aset recon ii (apply (recon ii) (u ii / IZR (count ii) / IZR dx))) recon k =
    if ((count k =? 0) || (dx =? 0))%Z then recon k else apply (recon k) (u k / IZR (count k) / IZR dx).
  Proof.
    intros Hk.
    transitivity (for_ (dy * nx * ny) (fun i a => aset a (0 + i)%Z (if ((count i =? 0) || (dx =? 0))%Z then a (0 + i)%Z else apply (a (0 + i)%Z) (u i / IZR (count i) / IZR dx))) recon k).
    - assert (G : forall l a b, (forall x, a x = b x) -> fold_left (fun s j => if ((count j =? 0) || (dx =? 0))%Z then s else aset s j (apply (s j) (u j / IZR (count j) / IZR dx))) l a k =
        fold_left (fun a i => aset a (0 + i)%Z (if ((count i =? 0) || (dx =? 0))%Z then a (0 + i)%Z else apply (a (0 + i)%Z) (u i / IZR (count i) / IZR dx))) l b k).
      { induction l as [|x l IH]; intros a b H; cbn [fold_left]; [apply H|]. apply IH. intros y.
        rewrite !Z.add_0_l. unfold aset. destruct ((count x =? 0) || (dx =? 0))%Z; rewrite <- !H; auto.
        destruct (y =? x)%Z eqn:E; auto. apply Z.eqb_eq in E. now subst. }
      apply G. auto.
    - rewrite (for_cells (dy * nx * ny) 0 (fun i v => if ((count i =? 0) || (dx =? 0))%Z then v else apply v (u i / IZR (count i) / IZR dx))) by nia.
      replace ((0 <=? k) && (k <? 0 + dy * nx * ny))%Z with true by lia. now rewrite Z.sub_0_r.
  Qed.

  Lemma iteration_at data order recon s j : (0 <= s < dy)%Z -> (0 <= j < N)%Z -> Permutation order (zrange 0 dt) ->
    iteration dy dt dx nx ny theta rot_op change apply data order recon (s * N + j)%Z =
    let c := compute_sum_dist dy dt dx nx ny theta (s * N + j)%Z in
    if ((c =? 0) || (dx =? 0))%Z then recon (s * N + j)%Z
    else apply (recon (s * N + j)%Z) (total_to dt (fun p => slice_task dt dx nx ny theta rot_op change data recon p s j) / IZR c / IZR dx).
  Proof.
    intros Hs Hj Hp. unfold iteration. cbv zeta. rewrite final_at by (apply cell_split; auto).
    rewrite commits_at by (apply cell_split; auto). rewrite Rplus_0_l.
    rewrite (rsum_perm' _ _ (Permutation_map _ Hp)).
    rewrite total_zsum. unfold zsum.
    rewrite (map_ext_in (fun p => projection_task dy dt dx nx ny theta rot_op change data recon p (s * N + j)%Z)
       (fun p => slice_task dt dx nx ny theta rot_op change data recon p s j)); auto.
    intros p _. now apply task_at.
  Qed.

  Lemma outside_at data order recon k : ~ (0 <= k < dy * N)%Z ->
    iteration dy dt dx nx ny theta rot_op change apply data order recon k = recon k.
  Proof.
    intros Hk. unfold iteration. cbv zeta.
    assert (G : forall (f : Z -> arr R -> R) (c : Z -> bool) n b a, (forall j, (b <= j < b + n)%Z -> j <> k) -> (0 <= n)%Z ->
       fold_left (fun s j => if c j then s else aset s j (f j s)) (zrange b (b + n)) a k = a k).
    { intros f c n b a H Hn.
      assert (forall l a, (forall j, In j l -> j <> k) -> fold_left (fun s j => if c j then s else aset s j (f j s)) l a k = a k).
      { induction l as [|x l IH]; intros a0 Hl; cbn [fold_left]; auto. rewrite IH by (intros; apply Hl; now right).
        destruct (c x); auto. apply aset_ne. intros E. apply (Hl x); [now left|auto]. }
      apply H0. intros j Hj. apply in_zrange in Hj. auto. }
    unfold for_.
    apply (G _ (fun ii => ((compute_sum_dist dy dt dx nx ny theta ii =? 0) || (dx =? 0))%Z) (dy * nx * ny)%Z 0%Z recon); [|nia].
    intros j Hj ->. apply Hk. lia.
  Qed.
End Iteration.

(** ** The numbers of hits *)
Lemma for_blocks_at {A} m n b (g : Z -> Z -> A -> A) (a : arr A) k : (0 <= m)%Z -> (0 < n)%Z ->
  for_ m (fun s a => for_ n (fun i a => aset a (b + s * n + i)%Z (g s i (a (b + s * n + i)%Z))) a) a k =
  if ((b <=? k) && (k <? b + m * n))%Z then g ((k - b) / n)%Z ((k - b) mod n)%Z (a k) else a k.
Proof.
  intros Hm Hn. revert k.
  apply (for_inv (fun m s => forall k, s k = if ((b <=? k) && (k <? b + m * n))%Z then g ((k - b) / n)%Z ((k - b) mod n)%Z (a k) else a k)); auto.
  - intros k. replace (0 * n)%Z with 0%Z by ring. destruct (b <=? k)%Z eqn:E1, (k <? b + 0)%Z eqn:E2; cbn; auto; lia.
  - intros s t Hs IH k. rewrite (for_cells n (b + s * n) (g s)) by lia. rewrite IH.
    assert (E : ((s + 1) * n = s * n + n)%Z) by ring. rewrite E.
    assert (0 <= s * n)%Z by (apply Z.mul_nonneg_nonneg; lia).
    destruct ((b + s * n <=? k) && (k <? b + s * n + n))%Z eqn:E1.
    + replace ((b <=? k) && (k <? b + s * n))%Z with false by lia. replace ((b <=? k) && (k <? b + (s * n + n)))%Z with true by lia.
      assert ((k - b) / n = s)%Z by (symmetry; apply Z.div_unique with (k - b - s * n)%Z; [left; lia | ring_simplify; lia]).
      rewrite H0. f_equal. rewrite Z.mod_eq by lia. rewrite H0. ring.
    + destruct ((b <=? k) && (k <? b + s * n))%Z eqn:E2, ((b <=? k) && (k <? b + (s * n + n)))%Z eqn:E3; auto; lia.
Qed.

Lemma how_many_S n P : (0 <= n)%Z -> how_many (n + 1) P = (how_many n P + (if P n then 1 else 0))%Z.
Proof.
  intros H. unfold how_many. rewrite zrange_snoc by lia. rewrite filter_app, app_length. cbn [filter].
  destruct (P n); cbn [length]; lia.
Qed.
Lemma how_many_0 n P : (n <= 0)%Z -> how_many n P = 0%Z.
Proof. intros H. unfold how_many. now rewrite zrange_nil. Qed.
Lemma how_many_range n P : (0 <= n)%Z -> (0 <= how_many n P <= n)%Z.
Proof.
  intros H. unfold how_many. split; [lia|].
  assert (L : forall l, (length (filter P l) <= length l)%nat) by (induction l as [|x l IH]; cbn; [lia|]; destruct (P x); cbn; lia).
  specialize (L (zrange 0 n)). rewrite zrange_length in L. lia.
Qed.
Lemma how_many_all n P : (0 <= n)%Z -> (forall p, (0 <= p < n)%Z -> P p = true) -> how_many n P = n.
Proof.
  intros H HP. unfold how_many.
  assert (L : forall l, (forall p, In p l -> P p = true) -> filter P l = l).
  { induction l as [|x l IH]; intros Hl; cbn; auto. rewrite (Hl x) by now left. f_equal. apply IH. intros; apply Hl; now right. }
  rewrite L; [rewrite zrange_length; lia|]. intros p Hp. apply HP. now apply in_zrange.
Qed.

Section Count.
  Variables dy dt dx nx ny : Z.
  Variable theta : arr R.
  Hypothesis Hdy : (0 <= dy)%Z.
  Hypothesis Hdt : (0 <= dt)%Z.
  Hypothesis Hdx : (0 <= dx)%Z.
  Hypothesis Hnx : (0 < nx)%Z.
  Hypothesis Hny : (0 < ny)%Z.
  Notation N := (nx * ny)%Z.

  (** What the loops of one slice do, for any dx. *)
  Lemma slice_count_at ones c s k :
    for_ dx (fun d sum_dist => for_ nx (fun n sum_dist =>
          aset sum_dist (s * nx * ny + d * nx + n)%Z
            (sum_dist (s * nx * ny + d * nx + n) + (if 0 <? ones (d * nx + n) then 1 else 0))%Z) sum_dist) c k =
    (c k + (if (s * N <=? k) && (k <? s * N + dx * nx) then (if 0 <? ones (k - s * N) then 1 else 0) else 0))%Z.
  Proof.
    rewrite (for_blocks_at dx nx (s * nx * ny) (fun d n v => (v + (if 0 <? ones (d * nx + n) then 1 else 0))%Z)) by auto.
    replace (s * nx * ny)%Z with (s * N)%Z by ring.
    destruct ((s * N <=? k) && (k <? s * N + dx * nx))%Z eqn:E; [|lia].
    replace ((k - s * N) / nx * nx + (k - s * N) mod nx)%Z with (k - s * N)%Z; auto.
    pose proof (Z.div_mod (k - s * N) nx). lia.
  Qed.

  Lemma count_pass_at ones c s j : (dx <= ny)%Z -> (0 <= s < dy)%Z -> (0 <= j < N)%Z ->
    count_pass dy dx nx ny ones c (s * N + j)%Z = (c (s * N + j) + (if (j <? dx * nx) && (0 <? ones j) then 1 else 0))%Z.
  Proof.
    intros Hle Hs Hj. assert (HN : (0 < N)%Z) by nia. assert (Hrow : (dx * nx <= N)%Z) by nia.
    unfold count_pass.
    enough (G : forall k, for_ dy (fun s sum_dist => for_ dx (fun d sum_dist => for_ nx (fun n sum_dist =>
          aset sum_dist (s * nx * ny + d * nx + n)%Z
            (sum_dist (s * nx * ny + d * nx + n) + (if 0 <? ones (d * nx + n) then 1 else 0))%Z) sum_dist) sum_dist) c k =
       (c k + (if (0 <=? k) && (k <? dy * N) && (k mod N <? dx * nx) && (0 <? ones (k mod N)) then 1 else 0))%Z).
    { rewrite G. destruct (cell_split' dy nx ny s j Hnx Hny Hs Hj) as (H1 & H2 & H3). rewrite H3.
      replace ((0 <=? s * N + j) && (s * N + j <? dy * N))%Z with true by lia. reflexivity. }
    refine (for_inv (fun m t => forall k, t k = (c k + (if (0 <=? k) && (k <? m * N) && (k mod N <? dx * nx) && (0 <? ones (k mod N)) then 1 else 0))%Z) dy _ c Hdy _ _).
    - intros k. replace ((0 <=? k) && (k <? 0 * N))%Z with false by lia. cbn. lia.
    - intros s' t Hs' IH k. rewrite slice_count_at, IH.
      assert (0 <= s' * N)%Z by nia. replace ((s' + 1) * N)%Z with (s' * N + N)%Z by ring.
      destruct (s' * N <=? k)%Z eqn:E1, (k <? s' * N + N)%Z eqn:E2.
      + assert (Em : (k mod N = k - s' * N)%Z) by (symmetry; apply Z.mod_unique with s'; [left; lia|ring]).
        rewrite Em. replace (k <? s' * N)%Z with false by lia. replace (0 <=? k)%Z with true by lia.
        replace (k <? s' * N + dx * nx)%Z with (k - s' * N <? dx * nx)%Z by lia.
        cbn [andb]. destruct (k - s' * N <? dx * nx)%Z; cbn [andb]; lia.
      + replace (k <? s' * N + dx * nx)%Z with false by lia. replace (k <? s' * N)%Z with false by lia.
        rewrite !andb_false_r. cbn [andb]. lia.
      + replace (k <? s' * N)%Z with true by lia. cbn [andb]. rewrite !andb_true_r. lia.
      + lia.
  Qed.

  Lemma sum_dist_at s j : (dx <= ny)%Z -> (0 <= s < dy)%Z -> (0 <= j < N)%Z ->
    compute_sum_dist dy dt dx nx ny theta (s * N + j)%Z =
    if (j <? dx * nx)%Z then how_many dt (fun p => 0 <? warp_nn nx ny 0 (- theta_p theta p) (fun _ => 1) j)%Z else 0%Z.
  Proof.
    intros Hle Hs Hj. unfold compute_sum_dist.
    refine (for_inv (fun m t => t (s * N + j)%Z = if (j <? dx * nx)%Z then how_many m (fun p => 0 <? warp_nn nx ny 0 (- theta_p theta p) (fun _ => 1) j)%Z else 0%Z) dt _ _ Hdt _ _).
    - rewrite how_many_0 by lia. now destruct (j <? dx * nx)%Z.
    - intros p t Hp IH. rewrite count_pass_at by auto. rewrite IH, how_many_S by lia.
      destruct (j <? dx * nx)%Z; cbn [andb]; auto.
  Qed.
End Count.

(** ** The rotation *)
Section Rotation.
  Variables nx ny : Z.
  Hypothesis Hnx : (0 < nx)%Z.
  Hypothesis Hny : (0 < ny)%Z.
  Notation N := (nx * ny)%Z.

  Lemma fetch_cell {A} (zero : A) src x y : fetch nx ny zero src x y = zero \/ exists k, (0 <= k < N)%Z /\ fetch nx ny zero src x y = src k.
  Proof.
    unfold fetch. destruct ((0 <=? x) && (x <? ny) && (0 <=? y) && (y <? nx))%Z eqn:E; [right|now left].
    exists (y * ny + x)%Z. split; auto. assert (0 <= x < ny /\ 0 <= y < nx)%Z by lia. nia.
  Qed.
  Lemma fetch_ext {A} (zero : A) a b x y : (forall k, (0 <= k < N)%Z -> a k = b k) -> fetch nx ny zero a x y = fetch nx ny zero b x y.
  Proof.
    intros H. unfold fetch. destruct ((0 <=? x) && (x <? ny) && (0 <=? y) && (y <? nx))%Z eqn:E; auto.
    apply H. assert (0 <= x < ny /\ 0 <= y < nx)%Z by lia. nia.
  Qed.
  Lemma fetch_lin c e a b x y : fetch nx ny 0 (fun k => c * a k + e * b k) x y = c * fetch nx ny 0 a x y + e * fetch nx ny 0 b x y.
  Proof. unfold fetch. destruct ((0 <=? x) && (x <? ny) && (0 <=? y) && (y <? nx))%Z; ring. Qed.
  Lemma frac_range v : 0 <= frac v < 1.
  Proof. unfold frac. destruct (base_Int_part v) as [H1 H2]. lra. Qed.

  Lemma range_mix lo hi t a b : 0 <= t < 1 -> lo <= a <= hi -> lo <= b <= hi -> lo <= (1 - t) * a + t * b <= hi.
  Proof. intros. split; nra. Qed.

  Lemma fetch_range lo hi src x y : lo <= 0 <= hi -> (forall k, (0 <= k < N)%Z -> lo <= src k <= hi) -> lo <= fetch nx ny 0 src x y <= hi.
  Proof. intros H0 H. destruct (fetch_cell 0 src x y) as [->|(k & Hk & ->)]; auto. Qed.

  Lemma bilinear_range lo hi src u v : lo <= 0 <= hi -> (forall k, (0 <= k < N)%Z -> lo <= src k <= hi) -> lo <= bilinear nx ny src u v <= hi.
  Proof.
    intros H0 H. unfold bilinear. cbv zeta. apply range_mix; [apply frac_range|..]; (apply range_mix; [apply frac_range|..]); now apply fetch_range.
  Qed.

  Section Mode.
    Variable cubic : R -> arr R -> arr R.
    Variable m : interp.
    Variable t : R.

    Lemma rotate_range lo hi src : m <> Cubic -> lo <= 0 <= hi -> (forall k, (0 <= k < N)%Z -> lo <= src k <= hi) -> forall k, lo <= rotate nx ny cubic m t src k <= hi.
    Proof.
      intros Hm H0 H k. destruct m; [..|congruence]; unfold rotate.
      - unfold warp_nn. now apply fetch_range.
      - unfold warp_linear. now apply bilinear_range.
    Qed.

    Lemma rotate_local : (m = Cubic -> local_op N (cubic t)) -> local_op N (rotate nx ny cubic m t).
    Proof.
      intros Hc a b H k Hk. destruct m; unfold rotate.
      - unfold warp_nn. now apply fetch_ext.
      - unfold warp_linear, bilinear. cbv zeta. rewrite !(fetch_ext 0 a b) by auto. reflexivity.
      - now apply Hc.
    Qed.
    Lemma rotate_linear : (m = Cubic -> linear_op N (cubic t)) -> linear_op N (rotate nx ny cubic m t).
    Proof.
      intros Hc c e a b k Hk. destruct m; unfold rotate.
      - unfold warp_nn. apply fetch_lin.
      - unfold warp_linear, bilinear. cbv zeta. rewrite !fetch_lin. ring.
      - now apply Hc.
    Qed.
    Lemma cells_bound n (a : Z -> R) : exists hi, 0 <= hi /\ forall k, (0 <= k < n)%Z -> a k <= hi.
    Proof.
      destruct (Z_le_gt_dec n 0) as [H|H]; [exists 0; split; [lra|intros; lia]|].
      assert (G : forall j : nat, exists hi, 0 <= hi /\ forall k, (0 <= k < Z.of_nat j)%Z -> a k <= hi).
      { induction j as [|j (hi & H0 & IH)]; [exists 0; split; [lra|intros; lia]|].
        exists (Rmax hi (a (Z.of_nat j))). split; [pose proof (Rmax_l hi (a (Z.of_nat j))); lra|].
        intros k Hk. destruct (Z.eq_dec k (Z.of_nat j)) as [->|]; [apply Rmax_r|].
        eapply Rle_trans; [apply IH; lia|apply Rmax_l]. }
      destruct (G (Z.to_nat n)) as (hi & H0 & H1). exists hi. split; auto. intros k Hk. apply H1. lia.
    Qed.
    Lemma rotate_positive : (m = Cubic -> positive_op N (cubic t)) -> positive_op N (rotate nx ny cubic m t).
    Proof.
      intros Hc a H k Hk. assert (m = Cubic \/ m <> Cubic) as [E|E] by (destruct m; [right|right|left]; congruence).
      - rewrite E. now apply Hc.
      - destruct (cells_bound N a) as (hi & H0 & H1). refine (proj1 (rotate_range 0 hi a E _ _ k)); [lra|]. intros; split; [now apply H|auto].
    Qed.
  End Mode.
End Rotation.
