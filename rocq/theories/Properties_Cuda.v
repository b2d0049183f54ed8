(** C111-C113: the CUDA path of the accelerated solvers. *)
From Coq Require Import Reals Lra.
From Verif Require Import Base CLoop Spec_Accel Model_Accel Model_Cuda Proofs_Accel Proofs_AccelRun Proofs_Cuda Proofs_CudaRun Proofs_CudaLive Proofs_CudaRace Properties_Accel.
Local Open Scope R_scope.

(** ** C111: kernels *)

(** Every index is visited exactly once, whatever the grid and the block. *)
Theorem C111_cover n grid block : (1 <= grid)%Z -> (1 <= block)%Z -> Permutation (launch n grid block) (zrange 0 n).
Proof. apply launch_perm. Qed.
Theorem C111_cover3 nx dx dy gx gy gz bx by_ bz : (1 <= gx)%Z -> (1 <= gy)%Z -> (1 <= gz)%Z -> (1 <= bx)%Z -> (1 <= by_)%Z -> (1 <= bz)%Z ->
  NoDup (launch3 nx dx dy (gx, gy, gz) (bx, by_, bz)) /\
  forall s d n, In (s, d, n) (launch3 nx dx dy (gx, gy, gz) (bx, by_, bz)) <-> (0 <= s < dy /\ 0 <= d < dx /\ 0 <= n < nx)%Z.
Proof.
  intros. pose proof (launch3_perm nx dx dy gx gy gz bx by_ bz) as P. split.
  - apply (Permutation_NoDup (Permutation_sym (P ltac:(auto) ltac:(auto) ltac:(auto) ltac:(auto) ltac:(auto) ltac:(auto)))). apply NoDup_box; apply NoDup_zrange.
  - intros s d n. rewrite <- !in_zrange, <- in_box. split; apply Permutation_in; [|apply Permutation_sym]; auto.
Qed.
(** The grid that is chosen is never empty; without a grid size of the user it has a thread for every index, and no block without one. *)
Theorem C111_grid m_grid block size : (1 <= block)%Z -> (1 <= size)%Z ->
  (1 <= compute_grid m_grid block size)%Z /\ ((m_grid < 1)%Z -> (block * (compute_grid m_grid block size - 1) < size <= block * compute_grid m_grid block size)%Z) /\
  ComputeGridSize size block = compute_grid 0 block size.
Proof.
  intros Hb Hs. split; [now apply compute_grid_pos|]. split; [|reflexivity]. intros Hg. unfold compute_grid.
  replace (m_grid <? 1)%Z with true by lia. rewrite Z.quot_div_nonneg by lia.
  pose proof (Z.div_mod (size + block - 1) block ltac:(lia)). pose proof (Z.mod_pos_bound (size + block - 1) block ltac:(lia)). nia.
Qed.

(** Whatever the order of the threads, the pixels kernels correct every ray from the image they find. *)
Definition balanced (nx dx : Z) (measured img : Z -> R) (k : Z) : R :=
  img k + (if (k <? dx * nx)%Z then measured (k / nx)%Z - ray_total nx img (k / nx) else 0).
Lemma in_rays nx dx k : (0 < nx)%Z -> (0 <= k)%Z -> (0 <= k / nx < dx <-> k < dx * nx)%Z.
Proof.
  intros Hnx Hk. pose proof (Z.div_mod k nx ltac:(lia)). pose proof (Z.mod_pos_bound k nx Hnx). split; intros; nia.
Qed.
Lemma mlem_out nx dx : (0 < nx)%Z -> forall m p d a k, (k / nx)%Z <> d -> mlem_row nx dx m p d a k = a k.
Proof. intros Hnx m p d a k H. rewrite mlem_row_at by auto. replace (k / nx =? d)%Z with false by lia. ring. Qed.
Lemma mlem_in nx dx : (0 < nx)%Z -> forall m p d a b k, (k / nx)%Z = d -> (forall j, (j / nx)%Z = d -> a j = b j) -> mlem_row nx dx m p d a k = mlem_row nx dx m p d b k.
Proof. intros Hnx m p d a b k Hk H. rewrite !mlem_row_at by auto. rewrite (H k Hk), (total_same nx a b d); auto. Qed.
Lemma sirt_out nx dx : (0 < nx)%Z -> forall m p d a k, (k / nx)%Z <> d -> sirt_row nx dx m p d a k = a k.
Proof. intros Hnx m p d a k H. rewrite sirt_row_at by auto. replace (k / nx =? d)%Z with false by lia. ring. Qed.
Lemma sirt_in nx dx : (0 < nx)%Z -> forall m p d a b k, (k / nx)%Z = d -> (forall j, (j / nx)%Z = d -> a j = b j) -> sirt_row nx dx m p d a k = sirt_row nx dx m p d b k.
Proof. intros Hnx m p d a b k Hk H. rewrite !sirt_row_at by auto. rewrite (H k Hk), (total_same nx a b d); auto. Qed.

Theorem C111_mlem_rows nx dx data p order img k : (0 < nx)%Z -> (0 <= dx)%Z -> (0 <= k)%Z -> Permutation order (zrange 0 dx) ->
  pixels_kernel (mlem_row nx dx data p) order img k = corrected nx dx Rdiv (fun d => data (p * dx + d)%Z) img k.
Proof.
  intros Hnx Hdx Hk Hp. rewrite (rows_any_order nx _ (mlem_out nx dx Hnx data p) (mlem_in nx dx Hnx data p) order (zrange 0 dx)) by (auto using NoDup_zrange).
  rewrite (rows_at nx _ (mlem_out nx dx Hnx data p) (mlem_in nx dx Hnx data p)) by apply NoDup_zrange. unfold corrected.
  pose proof (in_rays nx dx k Hnx Hk) as Hi.
  destruct (in_dec Z.eq_dec (k / nx)%Z (zrange 0 dx)) as [H|H]; rewrite in_zrange, Hi in H.
  - replace (k <? dx * nx)%Z with true by lia. rewrite mlem_row_at by auto. now rewrite Z.eqb_refl.
  - replace (k <? dx * nx)%Z with false by lia. ring.
Qed.
Theorem C111_sirt_rows nx dx data p order img k : (0 < nx)%Z -> (0 <= dx)%Z -> (0 <= k)%Z -> Permutation order (zrange 0 dx) ->
  pixels_kernel (sirt_row nx dx data p) order img k = balanced nx dx (fun d => data (p * dx + d)%Z) img k.
Proof.
  intros Hnx Hdx Hk Hp. rewrite (rows_any_order nx _ (sirt_out nx dx Hnx data p) (sirt_in nx dx Hnx data p) order (zrange 0 dx)) by (auto using NoDup_zrange).
  rewrite (rows_at nx _ (sirt_out nx dx Hnx data p) (sirt_in nx dx Hnx data p)) by apply NoDup_zrange. unfold balanced.
  pose proof (in_rays nx dx k Hnx Hk) as Hi.
  destruct (in_dec Z.eq_dec (k / nx)%Z (zrange 0 dx)) as [H|H]; rewrite in_zrange, Hi in H.
  - replace (k <? dx * nx)%Z with true by lia. rewrite sirt_row_at by auto. now rewrite Z.eqb_refl.
  - replace (k <? dx * nx)%Z with false by lia. ring.
Qed.
(** The update kernels change every cell once. *)
Theorem C111_update apply update sum_dist dx size order recon k : Permutation order (zrange 0 size) ->
  update_kernel apply update sum_dist dx order recon k =
  if ((0 <=? k) && (k <? size) && negb (sum_dist k =? 0) && negb (dx =? 0))%Z then apply (recon k) (update k / IZR (sum_dist k) / IZR dx) else recon k.
Proof.
  intros Hp. rewrite update_kernel_at by (apply (Permutation_NoDup (Permutation_sym Hp)); apply NoDup_zrange).
  destruct (in_dec Z.eq_dec k order) as [H|H].
  - apply (Permutation_in _ Hp), in_zrange in H. replace ((0 <=? k) && (k <? size))%Z with true by lia. cbn [andb].
    rewrite <- negb_orb. now destruct ((sum_dist k =? 0) || (dx =? 0))%Z.
  - replace ((0 <=? k) && (k <? size))%Z with false; [reflexivity|]. symmetry. apply not_true_iff_false. intros E. apply H.
    apply (Permutation_in _ (Permutation_sym Hp)), in_zrange. lia.
Qed.
(** Several kernels that add to the same array at the same time, in streams of their own: nothing is lost. *)
Theorem C111_atomic size (jobs : list (Z -> R)) adds dst k :
  Permutation adds (flat_map (fun src => atomic_sum_kernel src (zrange 0 size)) jobs) -> (0 <= k < size)%Z ->
  atomic_adds adds dst k = dst k + fold_right Rplus 0 (map (fun src => src k) jobs).
Proof.
  intros Hp Hk. rewrite atomic_adds_at. f_equal. rewrite (added_perm k _ _ Hp). clear Hp.
  induction jobs as [|src jobs IH]; cbn [flat_map map fold_right]; [reflexivity|].
  rewrite added_app, IH, added_kernel by apply NoDup_zrange. f_equal.
  destruct (in_dec Z.eq_dec k (zrange 0 size)) as [H|H]; auto. exfalso. apply H. now apply in_zrange.
Qed.

(** The count of the projections that reach a cell, for square images. *)
Section Count.
  Variables dy dt dx nx ny : Z.
  Variable theta : arr R.
  Variable covers : R -> Z -> bool.
  Variable source : R -> Z -> Z.
  Hypothesis Hdt : (0 <= dt)%Z.
  Hypothesis Hdx : (0 <= dx)%Z.
  Hypothesis Hnx : (0 < nx)%Z.
  Hypothesis Hle : (dx <= ny)%Z.
  Notation N := (nx * ny)%Z.
  Hypothesis Hsource : forall t k, (0 <= k < N)%Z -> covers t k = true -> (0 <= source t k < N)%Z.
  Notation count orders rot tmp garbage := (cuda_compute_sum_dist nx ny covers source dt theta orders rot tmp garbage (dy * N)).
  Definition any_threads (orders : Z -> list (Z * Z * Z)) : Prop :=
    forall p, NoDup (orders p) /\ forall s d n, In (s, d, n) (orders p) <-> (0 <= s < dy /\ 0 <= d < dx /\ 0 <= n < nx)%Z.

  Lemma orders_perm orders p : any_threads orders -> Permutation (orders p) (cells3 nx dx dy).
  Proof.
    intros H. destruct (H p) as (Hn & Hi). apply NoDup_Permutation; auto; [apply NoDup_box; apply NoDup_zrange|].
    intros ((s, d), n). unfold cells3. now rewrite Hi, in_box, !in_zrange.
  Qed.

  Theorem C111_count orders rot tmp garbage s j : nx = ny -> any_threads orders -> (0 <= s < dy)%Z -> (0 <= j < N)%Z ->
    count orders rot tmp garbage (s * N + j)%Z = if (j <? dx * nx)%Z then how_many dt (fun p => covers (- theta_p theta p) j) else 0%Z.
  Proof.
    intros Esq Ho Hs Hj. unfold cuda_compute_sum_dist. set (tmp1 := memset (bytes_of 1) N tmp). set (g := memset 0%Z (dy * N) garbage).
    assert (G : forall n, (0 <= n)%Z -> snd (for_ n (fun p '(rot, sum_dist) =>
           let rot := memset 0%Z (nx * nx) rot in
           let rot := npp_nn nx ny covers source (- theta_p theta p) tmp1 rot in
           (rot, sum_dist_kernel nx ny rot (orders p) sum_dist)) (rot, g)) (s * N + j)%Z
        = if (j <? dx * nx)%Z then how_many n (fun p => covers (- theta_p theta p) j) else 0%Z).
    { intros n Hn. apply (for_inv (fun n st => snd st (s * N + j)%Z = if (j <? dx * nx)%Z then how_many n (fun p => covers (- theta_p theta p) j) else 0%Z)); auto.
      - rewrite how_many_0 by lia. cbn [snd]. unfold g, memset. replace ((0 <=? s * N + j) && (s * N + j <? dy * N))%Z with true by (symmetry; nia).
        now destruct (j <? dx * nx)%Z.
      - intros p (r, c) Hp IH. cbn [snd] in *. rewrite sum_dist_kernel_at, (marks_perm _ _ _ _ _ _ (orders_perm orders p Ho)), IH.
        replace (s * N + j)%Z with (s * nx * ny + j)%Z by ring. rewrite marks_cells by (try lia; auto).
        destruct (j <? dx * nx)%Z eqn:E; cbn [andb]; [|lia]. rewrite how_many_S by lia.
        unfold npp_nn. replace ((0 <=? j) && (j <? N))%Z with true by lia. cbn [andb].
        destruct (covers (- theta_p theta p) j) eqn:Ec.
        + specialize (Hsource _ j Hj Ec). unfold tmp1, memset. replace ((0 <=? source (- theta_p theta p) j) && (source (- theta_p theta p) j <? N))%Z with true by lia.
          reflexivity.
        + unfold memset. rewrite <- Esq in Hj. replace ((0 <=? j) && (j <? nx * nx))%Z with true by lia. reflexivity. }
    apply G. exact Hdt.
  Qed.

  (** The buffer is cleared for nx * nx cells.  In an image with more columns than rows, a cell behind them that the rotation leaves
      alone is counted when the fresh buffer happens to hold something positive there. *)
  Theorem C111_count_refuted orders rot tmp garbage s j : any_threads orders -> dt = 1%Z -> (0 <= s < dy)%Z ->
    (nx * nx <= j < dx * nx)%Z -> covers (- theta_p theta 0) j = false -> (0 < rot j)%Z ->
    count orders rot tmp garbage (s * N + j)%Z = 1%Z.
  Proof.
    intros Ho -> Hs Hj Hc Hr. unfold cuda_compute_sum_dist. unfold for_. replace (zrange 0 1) with [0%Z] by reflexivity. cbn [fold_left snd].
    rewrite sum_dist_kernel_at, (marks_perm _ _ _ _ _ _ (orders_perm orders 0 Ho)).
    assert (Hj' : (0 <= j < N)%Z) by nia.
    replace (s * N + j)%Z with (s * nx * ny + j)%Z by ring. rewrite marks_cells by (try lia; auto).
    replace (j <? dx * nx)%Z with true by lia. cbn [andb]. unfold npp_nn. rewrite Hc, Bool.andb_false_r.
    replace (0 <? memset 0 (nx * nx) rot j)%Z with true.
    - unfold memset. replace ((0 <=? s * nx * ny + j) && (s * nx * ny + j <? dy * N))%Z with true by (symmetry; nia). reflexivity.
    - unfold memset. replace ((0 <=? j) && (j <? nx * nx))%Z with false by lia. lia.
  Qed.
End Count.
Print Assumptions C111_cover.
Print Assumptions C111_cover3.
Print Assumptions C111_grid.
Print Assumptions C111_mlem_rows.
Print Assumptions C111_sirt_rows.
Print Assumptions C111_update.
Print Assumptions C111_atomic.
Print Assumptions C111_count.
Print Assumptions C111_count_refuted.

Example ex_C111_launch : launch 7 2 2 = [0; 4; 1; 5; 2; 6; 3]%Z.
Proof. reflexivity. Qed.
Example ex_C111_grid : (compute_grid 0 32 33, compute_grid 5 32 33) = (2, 5)%Z.
Proof. reflexivity. Qed.
Example ex_C111_bytes : bytes_of 1 = 16843009%Z.
Proof. reflexivity. Qed.

(** ** C112: streams *)

(** The images of an iteration, told without streams.  [turn] brings an image to an angle, cells that get no value are 0; [fix_rays] is
    the correction of the rays. *)
Section Told.
  Variables dy dt dx nx ny : Z.
  Variable theta : arr R.
  Variable turn : R -> (Z -> R) -> Z -> R.
  Variable fix_rays : (Z -> R) -> (Z -> R) -> Z -> R.
  Variable apply : R -> R -> R.
  Variable data : Z -> R.
  Variable count : Z -> Z.
  Notation N := (nx * ny)%Z.
  Definition told_step (r : Z -> R) (k : Z) : R :=
    if ((0 <=? k) && (k <? dy * N) && negb (count k =? 0) && negb (dx =? 0))%Z
    then apply (r k) (total_to dt (fun p =>
           turn (theta_p theta p) (fix_rays (rays_of dt dx data (k / N) p) (turn (- theta_p theta p) (slice_of N r (k / N)))) (k mod N)) / IZR (count k) / IZR dx)
    else r k.
  Definition told (num_iter : nat) (r : Z -> R) : Z -> R := Nat.iter num_iter told_step r.
End Told.

Definition on_grid (nx ny : Z) (covers : R -> Z -> bool) (value : R -> (Z -> R) -> Z -> R) (t : R) (img : Z -> R) (k : Z) : R :=
  if covers t k then value t img k else 0.

Section Streamed.
  Variables dy dt dx nx ny : Z.
  Variable theta : arr R.
  Variable covers : R -> Z -> bool.
  Variable value : R -> arr R -> Z -> R.
  Variable data : arr R.
  Variable sum_dist : arr Z.
  Variable nw : Z.
  Hypothesis Hdy : (0 <= dy)%Z.
  Hypothesis Hdx : (0 <= dx)%Z.
  Hypothesis Hnx : (0 < nx)%Z.
  Hypothesis Hny : (0 < ny)%Z.
  Hypothesis Hle : (dx <= ny)%Z.
  Notation N := (nx * ny)%Z.
  Notation turn := (on_grid nx ny covers value).
  (** the value of a cell is computed from the image only *)
  Hypothesis Hvalue : forall t a b k, same_on N a b -> (0 <= k < N)%Z -> covers t k = true -> value t a k = value t b k.

  Section Solver.
    Variable row : arr R -> Z -> Z -> arr R -> arr R.
    Variable fix_rays : (Z -> R) -> (Z -> R) -> Z -> R.
    Variable apply : R -> R -> R.
    Hypothesis row_out : forall m p d a k, (k / nx)%Z <> d -> row m p d a k = a k.
    Hypothesis row_in : forall m p d a b k, (k / nx)%Z = d -> (forall j, (j / nx)%Z = d -> a j = b j) -> row m p d a k = row m p d b k.
    Hypothesis rows_fix : forall m p order img k, (0 <= k)%Z -> Permutation order (zrange 0 dx) ->
      pixels_kernel (row m p) order img k = fix_rays (fun d => m (p * dx + d)%Z) img k.

    Hypothesis fix_ext : forall m m' a b, same_on N a b -> (forall d, (0 <= d < dx)%Z -> m d = m' d) -> same_on N (fix_rays m a) (fix_rays m' b).

    Lemma turn_npp t a b j : same_on N a b -> (0 <= j < N)%Z -> npp nx ny covers value t a zero_img j = turn t b j.
    Proof.
      intros Hab Hj. unfold npp, on_grid, zero_img. replace ((0 <=? j) && (j <? N))%Z with true by lia. cbn [andb].
      destruct (covers t j) eqn:Ec; auto.
    Qed.
    Lemma next_told r k : next dy dt dx nx ny theta covers value row apply data sum_dist r k = told_step dy dt dx nx ny theta turn fix_rays apply data sum_dist r k.
    Proof.
      unfold next, told_step. destruct ((0 <=? k) && (k <? dy * N))%Z eqn:E; cbn [andb]; auto.
      rewrite <- negb_orb. destruct ((sum_dist k =? 0) || (dx =? 0))%Z; cbn [negb]; auto.
      f_equal. f_equal. f_equal. unfold whole, lsum, total_to. f_equal. apply map_ext. intros p. unfold part, contrib.
      destruct (cell_parts dy nx ny covers value row data Hdy Hnx Hvalue row_out row_in k ltac:(lia)) as (H1 & H2 & _).
      apply turn_npp; auto. intros i Hi. unfold rays. rewrite rows_fix by (auto; lia). apply fix_ext; auto.
      intros i' Hi'. apply turn_npp; auto. intros i2 Hi2. unfold ptr, slice_of. f_equal. ring.
    Qed.
    Lemma told_ext r r' : (forall k, r k = r' k) -> forall k, told_step dy dt dx nx ny theta turn fix_rays apply data sum_dist r k = told_step dy dt dx nx ny theta turn fix_rays apply data sum_dist r' k.
    Proof. intros H k. rewrite <- !next_told. now apply next_ext. Qed.
    Lemma iter_told n r k : iter dy dt dx nx ny theta covers value row apply data sum_dist r n k = told dy dt dx nx ny theta turn fix_rays apply data sum_dist n r k.
    Proof.
      revert k. induction n as [|n IH]; intros k; [reflexivity|].
      change (next dy dt dx nx ny theta covers value row apply data sum_dist (iter dy dt dx nx ny theta covers value row apply data sum_dist r n) k =
              told_step dy dt dx nx ny theta turn fix_rays apply data sum_dist (told dy dt dx nx ny theta turn fix_rays apply data sum_dist n r) k).
      rewrite next_told. now apply told_ext.
    Qed.
    Lemma solver_debug num_iter m s : steps dy dt dx nx ny theta (npp nx ny covers value) row apply data sum_dist true nw (start true num_iter m) s -> finished s ->
      forall k, m_recon (st_mem s) k = told dy dt dx nx ny theta turn fix_rays apply data sum_dist num_iter (m_recon m) k.
    Proof.
      intros Hs Hf k. rewrite <- iter_told.
      exact (debug_result dy dt dx nx ny theta covers value row apply data sum_dist Hdy Hdx Hnx Hny Hle Hvalue row_out row_in nw true (m_recon m) num_iter m s eq_refl eq_refl Hs Hf k).
    Qed.
    Lemma solver_orderly debug num_iter m s : osteps dy dt dx nx ny theta covers value row apply data sum_dist nw debug (start debug num_iter m) s -> finished s ->
      forall k, m_recon (st_mem s) k = told dy dt dx nx ny theta turn fix_rays apply data sum_dist num_iter (m_recon m) k.
    Proof.
      intros Hs Hf k. rewrite <- iter_told.
      exact (orderly_result dy dt dx nx ny theta covers value row apply data sum_dist Hdy Hdx Hnx Hny Hle Hvalue row_out row_in nw debug (m_recon m) num_iter m s eq_refl Hs Hf k).
    Qed.
  End Solver.

  Notation mlem_steps debug := (steps dy dt dx nx ny theta (npp nx ny covers value) (mlem_row nx dx) Rmult data sum_dist debug nw).
  Notation sirt_steps debug := (steps dy dt dx nx ny theta (npp nx ny covers value) (sirt_row nx dx) Rplus data sum_dist debug nw).
  Notation mlem_osteps debug := (osteps dy dt dx nx ny theta covers value (mlem_row nx dx) Rmult data sum_dist nw debug).
  Notation sirt_osteps debug := (osteps dy dt dx nx ny theta covers value (sirt_row nx dx) Rplus data sum_dist nw debug).
  Notation mlem_told := (told dy dt dx nx ny theta turn (corrected nx dx Rdiv) Rmult data sum_dist).
  Notation sirt_told := (told dy dt dx nx ny theta turn (balanced nx dx) Rplus data sum_dist).

  Lemma mlem_fix_ext m m' a b : same_on N a b -> (forall d, (0 <= d < dx)%Z -> m d = m' d) -> same_on N (corrected nx dx Rdiv m a) (corrected nx dx Rdiv m' b).
  Proof. apply (corrected_ext dx nx ny); auto. Qed.
  Lemma sirt_fix_ext m m' a b : same_on N a b -> (forall d, (0 <= d < dx)%Z -> m d = m' d) -> same_on N (balanced nx dx m a) (balanced nx dx m' b).
  Proof.
    intros H Hm k Hk. unfold balanced. rewrite (H k Hk). destruct (k <? dx * nx)%Z eqn:E; auto.
    assert (Hd : (0 <= k / nx < dx)%Z) by (apply in_rays; lia).
    rewrite (Hm _ Hd), (ray_total_ext nx a b (k / nx)); auto. intros i Hi. apply H. nia.
  Qed.

  (** In a debug build every execution - any number of workers, any distribution of the projections, any interleaving of the host
      threads and of the streams - ends with the images told above; the buffers may contain anything at the start. *)
  Theorem C112_mlem num_iter m s : mlem_steps true (start true num_iter m) s -> finished s -> forall k, m_recon (st_mem s) k = mlem_told num_iter (m_recon m) k.
  Proof.
    apply solver_debug; auto using mlem_out, mlem_in, mlem_fix_ext. intros. now apply C111_mlem_rows.
  Qed.
  Theorem C112_sirt num_iter m s : sirt_steps true (start true num_iter m) s -> finished s -> forall k, m_recon (st_mem s) k = sirt_told num_iter (m_recon m) k.
  Proof.
    apply solver_debug; auto using sirt_out, sirt_in, sirt_fix_ext. intros. now apply C111_sirt_rows.
  Qed.
  (** The same without the checks of a debug build, for the executions in which the device takes operations of the workers only while
      the main stream is empty. *)
  Theorem C112_mlem_orderly debug num_iter m s : mlem_osteps debug (start debug num_iter m) s -> finished s ->
    forall k, m_recon (st_mem s) k = mlem_told num_iter (m_recon m) k.
  Proof.
    apply solver_orderly; auto using mlem_out, mlem_in, mlem_fix_ext. intros. now apply C111_mlem_rows.
  Qed.
  Theorem C112_sirt_orderly debug num_iter m s : sirt_osteps debug (start debug num_iter m) s -> finished s ->
    forall k, m_recon (st_mem s) k = sirt_told num_iter (m_recon m) k.
  Proof.
    apply solver_orderly; auto using sirt_out, sirt_in, sirt_fix_ext. intros. now apply C111_sirt_rows.
  Qed.
  (** The other executions of a release build: nothing orders the reset of the sum before the additions of the workers.  Whatever the
      data, MLEM may end with zero in every counted cell after one iteration, and SIRT with the image it started with. *)
  Theorem C112_mlem_release_refuted m : (1 <= nw)%Z -> exists s, mlem_steps false (start false 1 m) s /\ finished s /\
    forall k, (0 <= k < dy * N)%Z -> sum_dist k <> 0%Z -> dx <> 0%Z -> m_recon (st_mem s) k = 0.
  Proof.
    intros Hw. destruct (late_reset dy dt dx nx ny theta covers value (mlem_row nx dx) Rmult data sum_dist nw Hw m) as (s & H1 & H2 & H3).
    exists s. repeat split; auto. intros k Hk Hc Hx. rewrite H3 by auto. unfold Rdiv. ring.
  Qed.
  Theorem C112_sirt_release_refuted m : (1 <= nw)%Z -> exists s, sirt_steps false (start false 1 m) s /\ finished s /\
    forall k, (0 <= k < dy * N)%Z -> sum_dist k <> 0%Z -> dx <> 0%Z -> m_recon (st_mem s) k = m_recon m k.
  Proof.
    intros Hw. destruct (late_reset dy dt dx nx ny theta covers value (sirt_row nx dx) Rplus data sum_dist nw Hw m) as (s & H1 & H2 & H3).
    exists s. repeat split; auto. intros k Hk Hc Hx. rewrite H3 by auto. unfold Rdiv. ring.
  Qed.

  (** If the rotations and the counts of both libraries are equal, MLEM computes on the device what it computes on the host, ... *)
  Section Cpu.
    Variable cubic : R -> arr R -> arr R.
    Variable mode : interp.
    Hypothesis Hdt : (0 <= dt)%Z.
    Hypothesis cubic_local : forall t, local_op N (cubic t).
    Hypothesis same_turn : forall t img k, (0 <= k < N)%Z -> turn t img k = rotate nx ny cubic mode t img k.
    Hypothesis same_count : forall k, (0 <= k < dy * N)%Z -> sum_dist k = compute_sum_dist dy dt dx nx ny theta k.

    Lemma told_cpu (num_iter : nat) r center orders : all_tasks dt orders ->
      same_on (dy * N) (mlem_told num_iter r) (mlem_cpu cubic data dy dt dx center theta r nx ny (Z.of_nat num_iter) mode orders).
    Proof.
      intros Ho. induction num_iter as [|n IH]; [now intros k _|]. intros k Hk.
      rewrite Nat2Z.inj_succ. unfold Z.succ. unfold mlem_cpu, solve in *. rewrite for_S by lia.
      match goal with |- context [for_ (Z.of_nat n) ?f r] => set (v := for_ (Z.of_nat n) f r) in * end. clearbody v.
      change (mlem_told (S n) r) with (told_step dy dt dx nx ny theta turn (corrected nx dx Rdiv) Rmult data sum_dist (mlem_told n r)).
      set (u := mlem_told n r) in *. clearbody u.
      destruct (cell_parts dy nx ny covers value (mlem_row nx dx) data Hdy Hnx Hvalue (mlem_out nx dx Hnx) (mlem_in nx dx Hnx) k Hk) as (H1 & H2 & H3).
      rewrite H3 at 2.
      rewrite (iteration_at dy dt dx nx ny theta (rotate nx ny cubic mode) Rdiv Rmult) by auto. cbv zeta. rewrite <- H3. unfold told_step.
      replace ((0 <=? k) && (k <? dy * N))%Z with true by lia. cbn [andb]. rewrite <- negb_orb, same_count by auto.
      destruct ((compute_sum_dist dy dt dx nx ny theta k =? 0) || (dx =? 0))%Z; cbn [negb]; [now apply IH|].
      rewrite (IH k Hk). f_equal. f_equal. f_equal. apply total_ext. intros p Hp.
      assert (L : forall t, local_op N (rotate nx ny cubic mode t)) by (intros t; apply rotate_local; auto).
      rewrite (slice_task_at dt dx nx ny theta (rotate nx ny cubic mode) Rdiv) by auto. unfold back.
      rewrite same_turn by auto. apply L; auto. apply mlem_fix_ext; auto. intros j Hj. rewrite same_turn by auto. apply L; auto.
      intros i Hi. unfold slice_of. apply IH. nia.
    Qed.
    Theorem C112_cpu num_iter m s center orders : mlem_steps true (start true num_iter m) s -> finished s -> all_tasks dt orders ->
      same_on (dy * N) (m_recon (st_mem s)) (mlem_cpu cubic data dy dt dx center theta (m_recon m) nx ny (Z.of_nat num_iter) mode orders).
    Proof. intros Hs Hf Ho k Hk. rewrite (C112_mlem num_iter m s Hs Hf). now apply told_cpu. Qed.
  End Cpu.

  (** Whatever has happened, a run that is not finished can go on, and it ends. *)
  Theorem C112_progress rotate_to row apply debug s : (1 <= nw)%Z -> ~ finished s ->
    exists s', step dy dt dx nx ny theta rotate_to row apply data sum_dist debug nw s s'.
  Proof. apply can_step. Qed.
  Theorem C112_ends rotate_to row apply debug num_iter m : exists bound : nat, forall (run : nat -> state) n,
    run O = start debug num_iter m -> (forall i, (i < n)%nat -> step dy dt dx nx ny theta rotate_to row apply data sum_dist debug nw (run i) (run (S i))) -> (n <= bound)%nat.
  Proof.
    exists (measure dy dt debug nw (start debug num_iter m)). intros run n H0 Hs.
    assert (G : forall i, (i <= n)%nat -> (i + measure dy dt debug nw (run i) <= measure dy dt debug nw (start debug num_iter m))%nat).
    { induction i as [|i IH]; intros Hi; [rewrite H0; lia|]. pose proof (step_measure _ _ _ _ _ _ _ _ _ _ _ _ _ _ _ (Hs i ltac:(lia))). specialize (IH ltac:(lia)). lia. }
    specialize (G n (Nat.le_refl n)). lia.
  Qed.
End Streamed.

(** ... but SIRT does not: the kernel for the device corrects rays whose sum is zero, that for the host leaves them. *)
Theorem C112_sirt_refuted cubic center v : v <> 0 ->
  told 1 1 1 1 1 (fun _ => 0) (rotate 1 1 cubic Nn) (balanced 1 1) Rplus (fun _ => v) (compute_sum_dist 1 1 1 1 1 (fun _ => 0)) 1 (fun _ => 0) 0%Z = v /\
  sirt_cpu cubic (fun _ => v) 1 1 1 center (fun _ => 0) (fun _ => 0) 1 1 1 Nn one_order 0%Z = 0.
Proof.
  intros Hv. split.
  - assert (Hw : forall A (zero : A) t src, warp_nn 1 1 zero t src 0%Z = src 0%Z).
    { intros A zero t src. destruct (disc_source 1 t 0) as (k' & Hk & H); [lia|unfold in_disc; cbn; lia|]. rewrite H. f_equal. lia. }
    assert (Ec : compute_sum_dist 1 1 1 1 1 (fun _ => 0) 0%Z = 1%Z).
    { pose proof (sum_dist_at 1 1 1 1 1 (fun _ => 0)) as H. specialize (H ltac:(lia) ltac:(lia) ltac:(lia) ltac:(lia) ltac:(lia) 0%Z 0%Z ltac:(lia) ltac:(lia) ltac:(lia)).
      change (0 * (1 * 1) + 0)%Z with 0%Z in H. rewrite H. replace (0 <? 1 * 1)%Z with true by reflexivity.
      change 1%Z with (0 + 1)%Z at 1. rewrite how_many_S, how_many_0 by lia. now rewrite Hw. }
    match goal with |- told _ _ _ _ _ _ ?t ?f ?a ?d ?c _ ?r _ = _ => change (told_step 1 1 1 1 1 (fun _ => 0) t f a d c r 0%Z = v) end.
    unfold told_step. rewrite Ec. cbn [Z.leb Z.ltb Z.eqb Z.compare andb negb]. replace (0 <? 1 * (1 * 1))%Z with true by reflexivity.
    change (0 / (1 * 1))%Z with 0%Z. change (0 mod (1 * 1))%Z with 0%Z.
    unfold total_to. change (zrange 0 1) with [0%Z]. cbn [map fold_right]. unfold rotate at 1. rewrite Hw.
    unfold balanced, rays_of. replace (0 <? 1 * 1)%Z with true by reflexivity. change (0 / 1)%Z with 0%Z.
    unfold ray_total, total_to. change (zrange 0 1) with [0%Z]. cbn [map fold_right]. change (0 * 1 + 0)%Z with 0%Z. unfold rotate. rewrite !Hw. unfold slice_of. cbn [andb]. field.
  - pose proof (C97_start_refuted 1 1 1 1 1 (fun _ => 0) cubic Nn) as H.
    specialize (H ltac:(lia) ltac:(lia) ltac:(lia) ltac:(lia) ltac:(lia) ltac:(lia)).
    apply (H ltac:(discriminate) (fun _ => v) center (fun _ => 0) 1%Z one_order 0%Z ltac:(lia) ltac:(lia) one_tasks ltac:(now intros k _) 0%Z). lia.
Qed.
Print Assumptions C112_mlem.
Print Assumptions C112_sirt.
Print Assumptions C112_mlem_orderly.
Print Assumptions C112_sirt_orderly.
Print Assumptions C112_mlem_release_refuted.
Print Assumptions C112_sirt_release_refuted.
Print Assumptions C112_cpu.
Print Assumptions C112_progress.
Print Assumptions C112_ends.
Print Assumptions C112_sirt_refuted.

(** A finished run, without iterations. *)
Example ex_C112_none : forall dy dt dx nx ny theta rotate_to row apply data sum_dist debug nw m,
  exists s, steps dy dt dx nx ny theta rotate_to row apply data sum_dist debug nw (start debug 0 m) s /\ finished s /\ st_mem s = m.
Proof.
  intros. eexists. split; [|split].
  - eapply steps_step; [apply steps_refl|apply s_main_sync].
  - reflexivity.
  - reflexivity.
Qed.
(** A rotation that reaches every cell and is that of the host satisfies the hypothesis of [C112_cpu]. *)
Example ex_C112_turn : forall nx ny cubic mode t img k,
  on_grid nx ny (fun _ _ => true) (rotate nx ny cubic mode) t img k = rotate nx ny cubic mode t img k.
Proof. reflexivity. Qed.
Example ex_C112_program : main_program false 1 = [MSync; MEnq Reset; MSyncW; MFork; MJoin; MSyncW; MSync; MEnq Update; MSync].
Proof. reflexivity. Qed.
Example ex_C112_told : forall theta fix_rays data, told 1 1 1 1 1 theta (fun _ img => img) fix_rays Rmult data (fun _ => 0%Z) 5 (fun _ => 3) 0%Z = 3.
Proof. reflexivity. Qed.

(** ** C113: the stream of NPP *)
Section Lock.
  Variable stream : Z -> Z.
  Variables n c0 : Z.
  Notation reach := (lock_reach stream n c0).
  Notation thread t := (0 <= t < n)%Z.
  (** between taking the lock and releasing it *)
  Definition has_lock (p : pc) : Prop := p = SetStream \/ p = Check true \/ p = Rotate true \/ p = Release.
  Lemma has_holds p : has_lock p -> holds p = true. Proof. now intros [-> | [-> | [-> | -> ]]]. Qed.

  Theorem C113_exclusive s t u : reach s -> thread t -> thread u -> has_lock (k_pc s t) -> has_lock (k_pc s u) -> t = u.
  Proof. intros Hr Ht Hu H1 H2. apply (li_one _ _ _ (reach_inv _ _ _ _ Hr)); auto using has_holds. Qed.
  (** A thread that has the lock works with its own stream and passes the check. *)
  Theorem C113_holder s t s' : reach s -> thread t -> has_lock (k_pc s t) -> lock_step stream t s s' ->
    k_pc s' t <> Thrown /\ forall wanted used, In (wanted, used) (k_rotated s') -> ~ In (wanted, used) (k_rotated s) -> wanted = stream t /\ used = stream t.
  Proof.
    intros Hr Ht Hh Hs. pose proof (li_cur _ _ _ (reach_inv _ _ _ _ Hr) t Ht) as Hc.
    destruct Hs as [c y f r H|c y f r H E|c y f r H E|c y f r H E|c y f r H E|c y f r H|c y f r H|c y f r H|c y f r b H E|c y f r b H E|c y f r b H|c y f r H];
      cbn [k_pc k_rotated k_stream] in *; rewrite H in Hh, Hc; rewrite aset_eq;
      try (destruct Hh as [F|[F|[F|F]]]; discriminate F); try (split; [discriminate|now intros]).
    - exfalso. destruct Hh as [F|[F|[F|F]]]; try discriminate F. injection F as ->. apply E. apply Hc. now left.
    - destruct Hh as [F|[F|[F|F]]]; try discriminate F. injection F as ->. split; [discriminate|].
      intros wanted used [F|F] Hn; [|easy]. injection F as <- <-. split; [reflexivity|]. apply Hc. now right.
  Qed.
  (** When no thread is in a rotation the lock is free. *)
  Theorem C113_free s : reach s -> (forall t, thread t -> k_pc s t = Idle \/ k_pc s t = Thrown) -> k_sync s = 0%Z.
  Proof.
    intros Hr H. rewrite (li_sync _ _ _ (reach_inv _ _ _ _ Hr)).
    assert (G : forall l, (forall t, In t l -> thread t) -> nsum (fun t => counts (k_pc s t)) l = O).
    { induction l as [|t l IH]; intros Hl; [reflexivity|]. rewrite nsum_cons, IH by (intros; apply Hl; now right).
      destruct (H t (Hl t (or_introl eq_refl))) as [-> | ->]; reflexivity. }
    rewrite G; [reflexivity|]. intros t. apply in_zrange.
  Qed.
  (** A thread goes on without the lock only if another thread has it, or is about to give it back, at that time. *)
  Theorem C113_pass s t s' : reach s -> thread t -> lock_step stream t s s' -> k_pc s' t = Check false ->
    exists u, thread u /\ u <> t /\ (has_lock (k_pc s u) \/ k_pc s u = Dec).
  Proof.
    intros Hr Ht Hs HC. pose proof (li_sync _ _ _ (reach_inv _ _ _ _ Hr)) as Hy.
    destruct Hs as [c y f r H|c y f r H E|c y f r H E|c y f r H E|c y f r H E|c y f r H|c y f r H|c y f r H|c y f r b H E|c y f r b H E|c y f r b H|c y f r H];
      cbn [k_pc k_sync] in *; rewrite aset_eq in HC; try discriminate HC.
    2: { destruct (y + 1 =? 1)%Z; discriminate HC. }
    2: { destruct b; discriminate HC. }
    assert (G : forall l, (forall u, In u l -> thread u) -> nsum (fun u => counts (f u)) l <> O -> exists u, thread u /\ counts (f u) = 1%nat).
    { induction l as [|u l IH]; intros Hl N; [now cbn in N|]. rewrite nsum_cons in N. destruct (counts (f u)) as [|[|k]] eqn:F.
      - apply IH; auto. intros; apply Hl; now right.
      - exists u. split; auto. apply Hl. now left.
      - exfalso. destruct (f u) as [| | | | | |[]|[]| |]; cbn in F; congruence. }
    destruct (G (zrange 0 n)) as (u & Hu & F); [intros u; apply in_zrange|lia|]. exists u. split; [auto|]. split.
    - intros ->. rewrite H in F. discriminate F.
    - unfold has_lock. destruct (f u) as [| | | | | |[]|[]| |]; cbn in F; try discriminate F; tauto.
  Qed.
  (** Threads that share a stream: nobody throws, every rotation uses that stream. *)
  Theorem C113_same v s : (forall t, thread t -> stream t = v) -> reach s ->
    (forall t, thread t -> k_pc s t <> Thrown) /\ (forall wanted used, In (wanted, used) (k_rotated s) -> wanted = v /\ used = v).
  Proof.
    intros Hv Hr.
    assert (G : (forall t, thread t -> k_pc s t <> Thrown /\ (k_pc s t = TestSync \/ (exists b, k_pc s t = Check b \/ k_pc s t = Rotate b) -> k_stream s = v)) /\
                (forall wanted used, In (wanted, used) (k_rotated s) -> wanted = v /\ used = v)).
    { induction Hr as [|t s s' Hr (IH & IR) Ht Hs].
      { split; [|easy]. intros t _. split; [discriminate|]. intros [F|(b & [F|F])]; discriminate F. }
      specialize (Hv t Ht). pose proof (IH t Ht) as (H1 & H2).
      destruct Hs as [c y f r H|c y f r H E|c y f r H E|c y f r H E|c y f r H E|c y f r H|c y f r H|c y f r H|c y f r b H E|c y f r b H E|c y f r b H|c y f r H];
        cbn [k_pc k_rotated k_stream k_sync] in *; rewrite H in H1, H2;
        (split; [intros u Hu; destruct (Z.eq_dec u t) as [->|Hn]; [rewrite aset_eq|rewrite aset_ne by auto; split; [apply IH; auto|intros F; try exact (proj2 (IH u Hu) F); auto]]|try exact IR]).
      - split; [discriminate|]. intros [F|(b & [F|F])]; discriminate F.
      - split; [discriminate|]. intros [F|(b & [F|F])]; discriminate F.
      - split; [discriminate|]. intros _. congruence.
      - split; [discriminate|]. intros [F|(b & [F|F])]; discriminate F.
      - split; [discriminate|]. intros _. apply H2. now left.
      - destruct (y + 1 =? 1)%Z; (split; [discriminate|]; intros [F|(b & [F|F])]; discriminate F).
      - split; [discriminate|]. intros [F|(b & [F|F])]; discriminate F.
      - split; [discriminate|]. auto.
      - exfalso. apply E. rewrite Hv. apply H2. right. exists b. now left.
      - split; [discriminate|]. intros _. congruence.
      - destruct b; (split; [discriminate|]; intros [F|(b & [F|F])]; discriminate F).
      - intros wanted used [F|F]; [|now apply IR]. injection F as <- <-. split; auto. apply H2. right. exists b. now right.
      - split; [discriminate|]. intros [F|(b & [F|F])]; discriminate F. }
    destruct G as (G1 & G2). split; auto. intros t Ht. now apply G1.
  Qed.
End Lock.
(** Two threads with streams of their own: a rotation may run in the stream of the other thread, or throw. *)
Theorem C113_wrong_refuted stream n : (2 <= n)%Z -> stream 0%Z <> stream 1%Z ->
  exists s, lock_reach stream n (stream 0%Z) s /\ In (stream 0%Z, stream 1%Z) (k_rotated s).
Proof.
  intros Hn Hd. assert (T0 : (0 <= 0 < n)%Z) by lia. assert (T1 : (0 <= 1 < n)%Z) by lia.
  pose proof (lr_start stream n (stream 0%Z)) as H. unfold lock_start in H.
  eapply lr_step in H; [|exact T0|now apply l_call]. eapply lr_step in H; [|exact T0|now apply l_own].
  eapply lr_step in H; [|exact T1|now apply l_call]. eapply lr_step in H; [|exact T1|now apply l_other].
  eapply lr_step in H; [|exact T1|now apply l_inc]. eapply lr_step in H; [|exact T0|now apply l_pass].
  eapply lr_step in H; [|exact T0|now apply l_right with (b := false)]. eapply lr_step in H; [|exact T1|now apply l_set].
  eapply lr_step in H; [|exact T0|now apply l_rotate with (b := false)].
  eexists. split; [exact H|]. now left.
Qed.
Theorem C113_throw_refuted stream n : (2 <= n)%Z -> stream 0%Z <> stream 1%Z ->
  exists s, lock_reach stream n (stream 0%Z) s /\ k_pc s 0%Z = Thrown.
Proof.
  intros Hn Hd. assert (T0 : (0 <= 0 < n)%Z) by lia. assert (T1 : (0 <= 1 < n)%Z) by lia.
  pose proof (lr_start stream n (stream 0%Z)) as H. unfold lock_start in H.
  eapply lr_step in H; [|exact T0|now apply l_call]. eapply lr_step in H; [|exact T0|now apply l_own].
  eapply lr_step in H; [|exact T1|now apply l_call]. eapply lr_step in H; [|exact T1|now apply l_other].
  eapply lr_step in H; [|exact T1|now apply l_inc]. eapply lr_step in H; [|exact T0|now apply l_pass].
  eapply lr_step in H; [|exact T1|now apply l_set]. eapply lr_step in H; [|exact T0|apply l_wrong with (b := false); [reflexivity|congruence]].
  eexists. split; [exact H|]. reflexivity.
Qed.
Print Assumptions C113_exclusive.
Print Assumptions C113_holder.
Print Assumptions C113_free.
Print Assumptions C113_pass.
Print Assumptions C113_same.
Print Assumptions C113_wrong_refuted.
Print Assumptions C113_throw_refuted.
(** One thread whose stream is not the current one: it takes the lock. *)
Example ex_C113_take : exists s, lock_reach (fun _ => 7%Z) 1 3 s /\ has_lock (k_pc s 0%Z) /\ k_sync s = 1%Z.
Proof.
  pose proof (lr_start (fun _ => 7%Z) 1 3) as H. unfold lock_start in H. assert (T : (0 <= 0 < 1)%Z) by lia.
  eapply lr_step in H; [|exact T|now apply l_call]. eapply lr_step in H; [|exact T|now apply l_other].
  eapply lr_step in H; [|exact T|now apply l_inc].
  eexists. split; [exact H|]. split; [now left|reflexivity].
Qed.
