(** Lemmas on the CUDA path. *)
From Coq Require Import Reals Lra.
From Verif Require Import Base CLoop Model_Accel Model_Cuda Proofs_Accel Proofs_AccelRun Spec_Accel.
From Verif Require Import Proofs_Subsets.
Local Open Scope Z_scope.

(** ** Grids *)
Lemma NoDup_flat {A B} (f : A -> list B) l : NoDup l -> (forall x, In x l -> NoDup (f x)) ->
  (forall x y z, In x l -> In y l -> In z (f x) -> In z (f y) -> x = y) -> NoDup (flat_map f l).
Proof.
  induction l as [|x l IH]; intros Hn Hf Hd; cbn; [constructor|].
  apply NoDup_cons_iff in Hn as (Hx & Hn).
  apply NoDup_app_iff'. split; [apply Hf; now left|split].
  - apply IH; auto; [intros; apply Hf; now right|]. intros a b z Ha Hb. apply Hd; now right.
  - intros z Hz Hz'. apply in_flat_map in Hz' as (y & Hy & Hzy).
    assert (x = y) by (apply (Hd x y z); auto; [now left|now right]). now subst.
Qed.

Lemma in_thread_indices n stride first i : 0 < stride ->
  In i (thread_indices n stride first) <-> first <= i < n /\ (i - first) mod stride = 0.
Proof.
  intros Hs. unfold thread_indices. rewrite in_map_iff. split.
  - intros (k & <- & Hk). apply in_zrange in Hk.
    assert (stride * (k + 1) <= n - first + stride - 1).
    { assert (k + 1 <= (n - first + stride - 1) / stride) by lia.
      pose proof (Z.mul_div_le (n - first + stride - 1) stride Hs). nia. }
    split; [nia|]. replace (first + k * stride - first) with (k * stride) by ring. apply Z.mod_mul. lia.
  - intros (Hi & Hm). exists ((i - first) / stride).
    pose proof (Z.div_mod (i - first) stride ltac:(lia)) as E. rewrite Hm in E.
    split; [nia|]. apply in_zrange. split; [apply Z.div_pos; lia|].
    cut ((i - first) / stride + 1 <= (n - first + stride - 1) / stride); [lia|].
    apply Z.div_le_lower_bound; nia.
Qed.

Lemma NoDup_thread_indices n stride first : 0 < stride -> NoDup (thread_indices n stride first).
Proof.
  intros Hs. unfold thread_indices. apply FinFun.Injective_map_NoDup; [|apply NoDup_zrange].
  intros a b H. nia.
Qed.

(** the thread of an index *)
Lemma launch_owner block grid b t i : 0 < block -> 0 < grid -> 0 <= b < grid -> 0 <= t < block ->
  (i - (b * block + t)) mod (block * grid) = 0 -> i mod (block * grid) = b * block + t.
Proof.
  intros Hb Hg Hb' Ht Hm. apply Z.mod_divide in Hm as (q & Hq); [|nia].
  replace i with ((b * block + t) + q * (block * grid)) by lia. rewrite Z.mod_add by nia. apply Z.mod_small. nia.
Qed.

Lemma launch_perm n grid block : 1 <= grid -> 1 <= block -> Permutation (launch n grid block) (zrange 0 n).
Proof.
  intros Hg Hb. assert (Hs : 0 < block * grid) by nia. apply NoDup_Permutation.
  - unfold launch. apply NoDup_flat; [apply NoDup_zrange| |].
    + intros b Hb'. apply in_zrange in Hb'. apply NoDup_flat; [apply NoDup_zrange| |].
      * intros t Ht. now apply NoDup_thread_indices.
      * intros t u z Ht Hu Hz Hz'. apply in_zrange in Ht, Hu. apply in_thread_indices in Hz as (_ & Hz), Hz' as (_ & Hz'); try lia.
        apply launch_owner in Hz; try lia. apply launch_owner in Hz'; lia.
    + intros b c z Hb' Hc Hz Hz'. apply in_zrange in Hb', Hc.
      apply in_flat_map in Hz as (t & Ht & Hz), Hz' as (u & Hu & Hz'). apply in_zrange in Ht, Hu.
      apply in_thread_indices in Hz as (_ & Hz), Hz' as (_ & Hz'); try lia.
      apply launch_owner in Hz; try lia. apply launch_owner in Hz'; try lia. nia.
  - apply NoDup_zrange.
  - intros i. unfold launch. rewrite in_flat_map, in_zrange. split.
    + intros (b & Hb' & H). apply in_flat_map in H as (t & Ht & H). apply in_zrange in Hb', Ht.
      apply in_thread_indices in H; nia.
    + intros Hi. pose proof (Z.mod_pos_bound i (block * grid) Hs) as Hm.
      set (r := i mod (block * grid)) in *.
      exists (r / block). split; [apply in_zrange; split; [apply Z.div_pos; lia|apply Z.div_lt_upper_bound; lia]|].
      apply in_flat_map. exists (r mod block). split; [apply in_zrange; apply Z.mod_pos_bound; lia|].
      apply in_thread_indices; auto. replace (r / block * block + r mod block) with r by (pose proof (Z.div_mod r block); lia).
      split; [split; [unfold r; apply Z.mod_le; lia|lia]|].
      unfold r. rewrite Zminus_mod, Zmod_mod, Z.sub_diag. apply Zmod_0_l.
Qed.

Lemma in_all_threads n stride i : 0 < stride -> (exists f, 0 <= f < stride /\ In i (thread_indices n stride f)) <-> 0 <= i < n.
Proof.
  intros Hs. split.
  - intros (f & Hf & H). apply in_thread_indices in H; lia.
  - intros Hi. exists (i mod stride). split; [apply Z.mod_pos_bound; lia|]. apply in_thread_indices; auto.
    split; [split; [apply Z.mod_le; lia|lia]|]. rewrite Zminus_mod, Zmod_mod, Z.sub_diag. apply Zmod_0_l.
Qed.
Lemma thread_owner n stride f i : 0 <= f < stride -> In i (thread_indices n stride f) -> i mod stride = f.
Proof.
  intros Hf H. apply in_thread_indices in H as (_ & H); [|lia]. apply Z.mod_divide in H as (q & Hq); [|lia].
  replace i with (f + q * stride) by lia. rewrite Z.mod_add by lia. now apply Z.mod_small.
Qed.

Definition cells3 (nx dx dy : Z) : list (Z * Z * Z) :=
  flat_map (fun s => flat_map (fun d => map (fun n => (s, d, n)) (zrange 0 nx)) (zrange 0 dx)) (zrange 0 dy).
Lemma in_box (A B C : list Z) s d n :
  In (s, d, n) (flat_map (fun s => flat_map (fun d => map (fun n => (s, d, n)) A) B) C) <-> In s C /\ In d B /\ In n A.
Proof.
  rewrite in_flat_map. split.
  - intros (s' & Hs & H). apply in_flat_map in H as (d' & Hd & H). apply in_map_iff in H as (n' & E & Hn). inversion E; subst. auto.
  - intros (Hs & Hd & Hn). exists s. split; auto. apply in_flat_map. exists d. split; auto. apply in_map_iff. eauto.
Qed.
Lemma NoDup_box (A B C : list Z) : NoDup A -> NoDup B -> NoDup C ->
  NoDup (flat_map (fun s => flat_map (fun d => map (fun n => (s, d, n)) A) B) C).
Proof.
  intros HA HB HC. apply NoDup_flat; auto.
  - intros s _. apply NoDup_flat; auto.
    + intros d _. apply FinFun.Injective_map_NoDup; auto. intros a b E. now inversion E.
    + intros d d' z _ _ H H'. apply in_map_iff in H as (n & <- & _), H' as (n' & E & _). now inversion E.
  - intros s s' z _ _ H H'. apply in_flat_map in H as (d & _ & H), H' as (d' & _ & H').
    apply in_map_iff in H as (n & <- & _), H' as (n' & E & _). now inversion E.
Qed.

Lemma launch3_perm nx dx dy gx gy gz bx by_ bz : 1 <= gx -> 1 <= gy -> 1 <= gz -> 1 <= bx -> 1 <= by_ -> 1 <= bz ->
  Permutation (launch3 nx dx dy (gx, gy, gz) (bx, by_, bz)) (cells3 nx dx dy).
Proof.
  intros Hgx Hgy Hgz Hbx Hby Hbz. assert (Hx : 0 < bx * gx) by nia. assert (Hy : 0 < by_ * gy) by nia. assert (Hz : 0 < bz * gz) by nia.
  replace (launch3 nx dx dy (gx, gy, gz) (bx, by_, bz)) with
    (flat_map (fun iz => flat_map (fun iy => flat_map (fun ix =>
       flat_map (fun s => flat_map (fun d => map (fun n => (s, d, n)) (thread_indices nx (bx * gx) ix)) (thread_indices dx (by_ * gy) iy))
         (thread_indices dy (bz * gz) iz)) (zrange 0 (bx * gx))) (zrange 0 (by_ * gy))) (zrange 0 (bz * gz)))
    by (unfold launch3, thread_cells; now rewrite (Z.mul_comm gx), (Z.mul_comm gy), (Z.mul_comm gz)).
  apply NoDup_Permutation.
  - apply NoDup_flat; [apply NoDup_zrange| |].
    + intros iz Hiz. apply NoDup_flat; [apply NoDup_zrange| |].
      * intros iy Hiy. apply NoDup_flat; [apply NoDup_zrange| |].
        -- intros ix Hix. apply NoDup_box; now apply NoDup_thread_indices.
        -- intros a b ((s, d), n) Ha Hb Hz1 Hz2. apply in_zrange in Ha, Hb. apply in_box in Hz1 as (_ & _ & H1), Hz2 as (_ & _ & H2); auto.
           apply thread_owner in H1; auto. apply thread_owner in H2; auto. congruence.
      * intros a b ((s, d), n) Ha Hb Hz1 Hz2. apply in_zrange in Ha, Hb.
        apply in_flat_map in Hz1 as (x1 & _ & Hz1), Hz2 as (x2 & _ & Hz2). apply in_box in Hz1 as (_ & H1 & _), Hz2 as (_ & H2 & _); auto.
        apply thread_owner in H1; auto. apply thread_owner in H2; auto. congruence.
    + intros a b ((s, d), n) Ha Hb Hz1 Hz2. apply in_zrange in Ha, Hb.
      apply in_flat_map in Hz1 as (y1 & _ & Hz1), Hz2 as (y2 & _ & Hz2). apply in_flat_map in Hz1 as (x1 & _ & Hz1), Hz2 as (x2 & _ & Hz2).
      apply in_box in Hz1 as (H1 & _ & _), Hz2 as (H2 & _ & _); auto.
      apply thread_owner in H1; auto. apply thread_owner in H2; auto. congruence.
  - apply NoDup_box; apply NoDup_zrange.
  - intros ((s, d), n). unfold cells3. rewrite in_box, !in_zrange, <- (in_all_threads nx (bx * gx) n), <- (in_all_threads dx (by_ * gy) d), <- (in_all_threads dy (bz * gz) s) by auto.
    rewrite in_flat_map. split.
    + intros (iz & Hiz & H'). apply in_flat_map in H' as (iy & Hiy & H'). apply in_flat_map in H' as (ix & Hix & H').
      apply in_zrange in Hiz, Hiy, Hix. apply in_box in H' as (? & ? & ?). split; [exists iz|split; [exists iy|exists ix]]; auto.
    + intros ((iz & Hiz & H1) & (iy & Hiy & H2) & (ix & Hix & H3)). exists iz. rewrite in_zrange. split; auto.
      apply in_flat_map. exists iy. rewrite in_zrange. split; auto. apply in_flat_map. exists ix. rewrite in_zrange. split; auto.
      apply in_box. auto.
Qed.

Lemma compute_grid_pos m_grid block size : 1 <= block -> 1 <= size -> 1 <= compute_grid m_grid block size.
Proof.
  intros Hb Hs. unfold compute_grid. destruct (m_grid <? 1) eqn:E; [|lia].
  rewrite Z.quot_div_nonneg by lia. apply Z.div_le_lower_bound; lia.
Qed.

(** ** Kernels whose steps own a row each *)
Section Rows.
  Variable nx : Z.
  Hypothesis Hnx : 0 < nx.
  Variable row : Z -> arr R -> arr R.
  Hypothesis row_out : forall d a k, k / nx <> d -> row d a k = a k.
  Hypothesis row_in : forall d a b k, k / nx = d -> (forall j, j / nx = d -> a j = b j) -> row d a k = row d b k.

  Lemma rows_at order a k : NoDup order ->
    pixels_kernel row order a k = if in_dec Z.eq_dec (k / nx) order then row (k / nx) a k else a k.
  Proof.
    unfold pixels_kernel. revert a. induction order as [|d l IH]; intros a Hn; cbn [fold_left]; [reflexivity|].
    apply NoDup_cons_iff in Hn as (Hd & Hn). rewrite IH by auto.
    destruct (in_dec Z.eq_dec (k / nx) l) as [Hl|Hl].
    - destruct (in_dec Z.eq_dec (k / nx) (d :: l)) as [_|F]; [|exfalso; apply F; now right].
      apply row_in; auto. intros j Hj. apply row_out. intros E. subst d. now rewrite Hj in Hd.
    - destruct (Z.eq_dec (k / nx) d) as [E|E].
      + destruct (in_dec Z.eq_dec (k / nx) (d :: l)) as [_|F]; [|exfalso; apply F; now left]. now rewrite E.
      + destruct (in_dec Z.eq_dec (k / nx) (d :: l)) as [[F|F]|_]; try congruence. now apply row_out.
  Qed.

  Lemma rows_any_order order order' a : NoDup order' -> Permutation order order' -> forall k, pixels_kernel row order a k = pixels_kernel row order' a k.
  Proof.
    intros Hn Hp k. rewrite !rows_at; auto; [|now apply (Permutation_NoDup (Permutation_sym Hp))].
    destruct (in_dec Z.eq_dec (k / nx) order) as [H|H], (in_dec Z.eq_dec (k / nx) order') as [H'|H']; auto; exfalso.
    - apply H'. now apply (Permutation_in _ Hp).
    - apply H. now apply (Permutation_in _ (Permutation_sym Hp)).
  Qed.
End Rows.

Lemma add_row_at nx d (upd : R) (rot : arr R) k : 0 < nx ->
  for_ nx (fun i rot => aset rot (d * nx + i) (rot (d * nx + i)%Z + upd)%R) rot k = (rot k + (if k / nx =? d then upd else 0))%R.
Proof.
  intros Hnx. pose proof (for_cells nx (d * nx) (fun _ x => (x + upd)%R) rot k ltac:(lia)) as E.
  cbv beta in E. rewrite E.
  destruct (k / nx =? d) eqn:Ed.
  - replace ((d * nx <=? k) && (k <? d * nx + nx)) with true; auto. pose proof (Z.div_mod k nx ltac:(lia)). pose proof (Z.mod_pos_bound k nx Hnx). nia.
  - replace ((d * nx <=? k) && (k <? d * nx + nx)) with false; [ring|]. symmetry. apply andb_false_iff.
    pose proof (Z.div_mod k nx ltac:(lia)). pose proof (Z.mod_pos_bound k nx Hnx).
    destruct (Z_lt_le_dec k (d * nx)); [left; lia|right].
    assert (k / nx < d \/ d < k / nx) as [F|F] by lia; nia.
Qed.

Lemma row_sum_ext nx (a b : arr R) d : 0 < nx -> (forall j, j / nx = d -> a j = b j) -> row_sum nx a d = row_sum nx b d.
Proof.
  intros Hnx H. rewrite !row_sum_total. apply ray_total_ext. intros i Hi. apply H. apply row_of; lia.
Qed.

Lemma sirt_row_at nx dx data p d rot k : 0 < nx ->
  sirt_row nx dx data p d rot k = (rot k + (if k / nx =? d then data (p * dx + d)%Z - ray_total nx rot d else 0))%R.
Proof. intros H. unfold sirt_row. cbv zeta. rewrite add_row_at by auto. now rewrite row_sum_total. Qed.
Lemma mlem_row_at nx dx data p d rot k : 0 < nx ->
  mlem_row nx dx data p d rot k =
  (rot k + (if k / nx =? d then if Req_EM_T (ray_total nx rot d) 0 then 0 else data (p * dx + d)%Z / ray_total nx rot d else 0))%R.
Proof.
  intros H. unfold mlem_row, ray_step. cbv zeta. rewrite row_sum_total.
  destruct (Req_EM_T (ray_total nx rot d) 0); [destruct (k / nx =? d); ring|]. now rewrite add_row_at.
Qed.

Lemma total_same nx (a b : arr R) d : 0 < nx -> (forall j, j / nx = d -> a j = b j) -> ray_total nx a d = ray_total nx b d.
Proof. intros. rewrite <- !row_sum_total. now apply row_sum_ext. Qed.

(** ** The update kernels *)
Lemma update_kernel_at apply update sum_dist dx order recon k : NoDup order ->
  update_kernel apply update sum_dist dx order recon k =
  if in_dec Z.eq_dec k order
  then if (sum_dist k =? 0) || (dx =? 0) then recon k else apply (recon k) (update k / IZR (sum_dist k) / IZR dx)%R
  else recon k.
Proof.
  unfold update_kernel. revert recon. induction order as [|i l IH]; intros recon Hn; cbn [fold_left]; [reflexivity|].
  apply NoDup_cons_iff in Hn as (Hi & Hn). rewrite IH by auto.
  assert (G : (if negb (sum_dist i =? 0) && negb (dx =? 0) then aset recon i (apply (recon i) (update i / IZR (sum_dist i) / IZR dx)%R) else recon) k =
     if Z.eq_dec i k then if (sum_dist k =? 0) || (dx =? 0) then recon k else apply (recon k) (update k / IZR (sum_dist k) / IZR dx)%R else recon k).
  { rewrite <- negb_orb. destruct (Z.eq_dec i k) as [->|E].
    - destruct ((sum_dist k =? 0) || (dx =? 0)); cbn [negb]; auto. apply aset_eq.
    - destruct (negb ((sum_dist i =? 0) || (dx =? 0))); auto. apply aset_ne. congruence. }
  rewrite G. destruct (in_dec Z.eq_dec k l) as [Hl|Hl].
  - destruct (Z.eq_dec i k) as [->|E]; [contradiction|].
    destruct (in_dec Z.eq_dec k (i :: l)) as [_|F]; auto. exfalso. apply F. now right.
  - destruct (Z.eq_dec i k) as [->|E].
    + destruct (in_dec Z.eq_dec k (k :: l)) as [_|F]; auto. exfalso. apply F. now left.
    + destruct (in_dec Z.eq_dec k (i :: l)) as [[F|F]|_]; auto; congruence.
Qed.

(** ** Atomic additions *)
Definition added (k : Z) (adds : list (Z * R)) : R := fold_right Rplus 0%R (map snd (filter (fun a => fst a =? k) adds)).
Lemma atomic_adds_at adds dst k : atomic_adds adds dst k = (dst k + added k adds)%R.
Proof.
  unfold atomic_adds, added. revert dst. induction adds as [|(i, x) l IH]; intros dst; cbn [fold_left filter map fold_right fst]; [ring|].
  rewrite IH. destruct (i =? k) eqn:E.
  - apply Z.eqb_eq in E. subst. cbn [map fold_right snd]. rewrite aset_eq. ring.
  - rewrite aset_ne by lia. reflexivity.
Qed.
Lemma added_perm k l l' : Permutation l l' -> added k l = added k l'.
Proof.
  unfold added. induction 1 as [|(i, x) l l' _ IH|(i, x) (j, y) l|l l' l'' _ IH1 _ IH2]; cbn [filter map fold_right fst]; auto.
  - destruct (i =? k); cbn [map fold_right]; now rewrite IH.
  - destruct (i =? k), (j =? k); cbn [map fold_right snd]; ring.
  - congruence.
Qed.
Lemma added_app k l l' : added k (l ++ l') = (added k l + added k l')%R.
Proof.
  unfold added. induction l as [|(i, x) l IH]; cbn [app filter map fold_right fst]; [ring|].
  destruct (i =? k); cbn [map fold_right]; rewrite IH; ring.
Qed.
Lemma added_kernel k src order : NoDup order -> added k (atomic_sum_kernel src order) = if in_dec Z.eq_dec k order then src k else 0%R.
Proof.
  unfold added, atomic_sum_kernel. induction order as [|i l IH]; intros Hn; cbn [map filter fold_right fst]; [reflexivity|].
  apply NoDup_cons_iff in Hn as (Hi & Hn). specialize (IH Hn).
  destruct (i =? k) eqn:E; cbn [map fold_right snd].
  - apply Z.eqb_eq in E. subst i. rewrite IH. destruct (in_dec Z.eq_dec k l); [contradiction|].
    destruct (in_dec Z.eq_dec k (k :: l)) as [_|F]; [ring|exfalso; apply F; now left].
  - rewrite IH. destruct (in_dec Z.eq_dec k l) as [H|H], (in_dec Z.eq_dec k (i :: l)) as [H'|H']; auto; exfalso.
    + apply H'. now right.
    + destruct H' as [H'|H']; [lia|contradiction].
Qed.

(** ** The count *)
Definition marks (nx ny : Z) (ones : arr Z) (k : Z) (order : list (Z * Z * Z)) : Z :=
  Z.of_nat (length (filter (fun c => let '(s, d, n) := c in (s * nx * ny + d * nx + n =? k) && (0 <? ones (d * nx + n))) order)).
Lemma sum_dist_kernel_at nx ny ones order c k : sum_dist_kernel nx ny ones order c k = c k + marks nx ny ones k order.
Proof.
  unfold sum_dist_kernel, marks. revert c. induction order as [|((s, d), n) l IH]; intros c; cbn [fold_left filter]; [cbn; lia|].
  rewrite IH. cbv zeta. destruct (s * nx * ny + d * nx + n =? k) eqn:E; cbn [andb].
  - apply Z.eqb_eq in E. rewrite E, aset_eq. destruct (0 <? ones (d * nx + n)); cbn [length]; lia.
  - rewrite aset_ne by lia. lia.
Qed.
Lemma filter_perm {A} (f : A -> bool) l l' : Permutation l l' -> Permutation (filter f l) (filter f l').
Proof.
  induction 1 as [|x l l' _ IH|x y l|l l' l'' _ IH1 _ IH2]; cbn; auto.
  - destruct (f x); auto.
  - destruct (f x), (f y); auto. apply perm_swap.
  - now transitivity (filter f l').
Qed.
Lemma marks_perm nx ny ones k l l' : Permutation l l' -> marks nx ny ones k l = marks nx ny ones k l'.
Proof. intros H. unfold marks. f_equal. apply Permutation_length. now apply filter_perm. Qed.

Lemma filter_none {A} (f : A -> bool) l : (forall x, In x l -> f x = false) -> filter f l = [].
Proof. induction l as [|x l IH]; intros H; cbn; auto. rewrite H by now left. apply IH. intros; apply H; now right. Qed.
Lemma filter_only {A} (f : A -> bool) l x : NoDup l -> In x l -> f x = true -> (forall y, In y l -> f y = true -> y = x) -> filter f l = [x].
Proof.
  induction l as [|y l IH]; intros Hn Hx Hf Hy; [easy|]. apply NoDup_cons_iff in Hn as (Hi & Hn). cbn.
  destruct Hx as [->|Hx].
  - rewrite Hf. f_equal. apply filter_none. intros z Hz. destruct (f z) eqn:E; auto. exfalso. apply Hi.
    rewrite <- (Hy z); auto. now right.
  - destruct (f y) eqn:E.
    + exfalso. apply Hi. rewrite (Hy y); auto. now left.
    + apply IH; auto. intros z Hz. apply Hy. now right.
Qed.

Lemma marks_cells nx ny dx dy ones s j : 0 < nx -> 0 <= dx <= ny -> 0 <= s < dy -> 0 <= j < nx * ny ->
  marks nx ny ones (s * nx * ny + j) (cells3 nx dx dy) = if (j <? dx * nx) && (0 <? ones j) then 1 else 0.
Proof.
  intros Hnx Hdx Hs Hj. unfold marks.
  set (f := fun c : Z * Z * Z => let '(s0, d, n) := c in (s0 * nx * ny + d * nx + n =? s * nx * ny + j) && (0 <? ones (d * nx + n))).
  assert (U : forall s' d n, In (s', d, n) (cells3 nx dx dy) -> s' * nx * ny + d * nx + n = s * nx * ny + j ->
      s' = s /\ d = j / nx /\ n = j mod nx /\ d * nx + n = j).
  { intros s' d n H E. apply in_box in H as (H1 & H2 & H3). apply in_zrange in H1, H2, H3.
    assert (0 <= d * nx + n < nx * ny) by nia.
    assert (s' = s).
    { rewrite <- !Z.mul_assoc in E. apply (f_equal (fun z => z / (nx * ny))) in E.
      rewrite <- !Z.add_assoc in E. rewrite !Z.div_add_l in E by nia. rewrite !Z.div_small in E by lia. lia. }
    subst. assert (E' : j = d * nx + n) by lia. rewrite E'. repeat split; auto.
    - rewrite Z.div_add_l by lia. rewrite Z.div_small by lia. lia.
    - rewrite Z.add_comm, Z.mod_add by lia. symmetry. now apply Z.mod_small. }
  destruct ((j <? dx * nx) && (0 <? ones j)) eqn:E.
  - apply andb_true_iff in E as (E1 & E2). rewrite (filter_only f (cells3 nx dx dy) (s, j / nx, j mod nx)); auto.
    + apply NoDup_box; apply NoDup_zrange.
    + apply in_box. rewrite !in_zrange. pose proof (Z.mod_pos_bound j nx Hnx).
      repeat split; try lia; try (apply Z.div_pos; lia); try (apply Z.div_lt_upper_bound; lia).
    + unfold f. replace (j / nx * nx + j mod nx) with j by (pose proof (Z.div_mod j nx); lia). lia.
    + intros ((s', d), n) H Hf. unfold f in Hf. apply andb_true_iff in Hf as (Hf & _). apply Z.eqb_eq in Hf.
      apply U in Hf as (-> & -> & -> & _); auto.
  - rewrite filter_none; auto. intros ((s', d), n) H. unfold f.
    destruct (s' * nx * ny + d * nx + n =? s * nx * ny + j) eqn:F; auto. apply Z.eqb_eq in F.
    destruct (U _ _ _ H F) as (-> & Hd & Hn & Ej). rewrite Ej.
    apply in_box in H as (_ & H2 & H3). apply in_zrange in H2, H3.
    replace (j <? dx * nx) with true in E; [exact E|]. symmetry. nia.
Qed.
