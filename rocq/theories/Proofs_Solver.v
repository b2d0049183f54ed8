From Verif Require Import Base CLoop Model_Prep Model_Ray Model_Solver Proofs_Prep Proofs_Morph Proofs_Ray Properties_Ray.
From Coq Require Import Reals Lra Psatz.
Local Open Scope R_scope.

(** ** Finite sums *)
Lemma zsum_plus n f h : zsum n (fun i => f i + h i) = zsum n f + zsum n h.
Proof. unfold zsum, rsum. induction (zrange 0 n); cbn in *; lra. Qed.
Lemma zsum_scal n k f : zsum n (fun i => k * f i) = k * zsum n f.
Proof. unfold zsum, rsum. induction (zrange 0 n); cbn in *; [lra|]. rewrite IHl. lra. Qed.
Lemma zsum_zero n f : (forall i, (0 <= i < n)%Z -> f i = 0) -> zsum n f = 0.
Proof.
  intros H. rewrite (zsum_ext n f (fun _ => 0)) by auto. unfold zsum, rsum.
  induction (zrange 0 n); cbn; [lra|]. cbn in *. lra.
Qed.
Lemma zsum_swap n m f : zsum n (fun i => zsum m (fun j => f i j)) = zsum m (fun j => zsum n (fun i => f i j)).
Proof.
  change (rsum (map (fun i => zsum m (fun j => f i j)) (zrange 0 n)) = zsum m (fun j => rsum (map (fun i => f i j) (zrange 0 n)))).
  induction (zrange 0 n) as [|i l IH].
  - symmetry. apply zsum_zero. reflexivity.
  - cbn [map rsum fold_right]. fold (rsum (map (fun i => zsum m (fun j => f i j)) l)). now rewrite IH, <- zsum_plus.
Qed.
Lemma zsum_nonneg n f : (forall i, (0 <= i < n)%Z -> 0 <= f i) -> 0 <= zsum n f.
Proof.
  intros H. unfold zsum. assert (forall i, In i (zrange 0 n) -> 0 <= f i) as G by (intros; apply H; now apply in_zrange).
  induction (zrange 0 n) as [|i l IH]; cbn; [lra|]. generalize (G i ltac:(now left)).
  assert (0 <= rsum (map f l)) by (apply IH; intros; apply G; now right). unfold rsum in *. lra.
Qed.
Lemma zsum_single n k (v : R) : (0 <= k < n)%Z -> zsum n (fun i => if (i =? k)%Z then v else 0) = v.
Proof.
  intros H. unfold zsum. rewrite <- (@zrange_app 0 k n) by lia. rewrite map_app, rsum_app.
  rewrite (@zrange_cons k n) by lia. cbn [map rsum fold_right]. rewrite Z.eqb_refl.
  assert (forall l, (forall i, In i l -> i <> k) -> rsum (map (fun i => if (i =? k)%Z then v else 0) l) = 0) as G.
  { induction l as [|i l IH]; intros Hl; cbn; auto. rewrite (proj2 (Z.eqb_neq i k)) by (apply Hl; now left).
    fold (rsum (map (fun i => if (i =? k)%Z then v else 0) l)). rewrite IH; [lra|]. intros; apply Hl; now right. }
  rewrite G by (intros i Hi; apply in_zrange in Hi; lia).
  fold (rsum (map (fun i => if (i =? k)%Z then v else 0) (zrange (k + 1) n))).
  rewrite G by (intros i Hi; apply in_zrange in Hi; lia). lra.
Qed.

(** ** Rays as sparse vectors *)
Fixpoint wt (segs : list (Z * R)) (j : Z) : R :=
  match segs with [] => 0 | (i, w) :: l => (if (j =? i)%Z then w else 0) + wt l j end.
Definition dot (segs : list (Z * R)) (m : Z -> R) : R := rsum (map (fun '(i, w) => m i * w) segs).
Definition in_grid (N : Z) (segs : list (Z * R)) : Prop := forall i w, In (i, w) segs -> (0 <= i < N)%Z.

Lemma dot_wt N segs m : in_grid N segs -> dot segs m = zsum N (fun j => m j * wt segs j).
Proof.
  unfold dot. induction segs as [|[i w] l IH]; intros Hg.
  - cbn. symmetry. apply zsum_zero. intros; cbn; lra.
  - cbn [map rsum fold_right wt]. fold (rsum (map (fun '(i, w) => m i * w) l)).
    rewrite (zsum_ext N _ (fun j => (if (j =? i)%Z then m i * w else 0) + m j * wt l j)).
    + rewrite zsum_plus, zsum_single by (apply (Hg i w); now left).
      now rewrite IH by (intros i' w' H; apply (Hg i' w'); now right).
    + intros j Hj. destruct (j =? i)%Z eqn:E; [apply Z.eqb_eq in E; subst; lra|lra].
Qed.
Lemma dot_ext N segs m m' : in_grid N segs -> (forall j, (0 <= j < N)%Z -> m j = m' j) -> dot segs m = dot segs m'.
Proof.
  intros Hg H. unfold dot. f_equal. apply map_ext_in. intros [i w] Hi. rewrite H; auto. now apply (Hg i w).
Qed.
Lemma dot_lin segs m m' a b : dot segs (fun j => a * m j + b * m' j) = a * dot segs m + b * dot segs m'.
Proof.
  unfold dot, rsum. induction segs as [|[i w] l IH]; cbn in *; [lra|]. rewrite IH. lra.
Qed.

Lemma calc_simdata_spec segs off idx m sd x :
  calc_simdata segs off idx m sd x = sd x + (if (x =? idx)%Z then dot segs (fun j => m (j + off)%Z) else 0).
Proof.
  unfold calc_simdata, dot. revert sd. induction segs as [|[i w] l IH]; intros sd; cbn [fold_left map rsum fold_right].
  - destruct (x =? idx)%Z; cbn; lra.
  - rewrite IH. unfold aset. destruct (x =? idx)%Z eqn:E; [|lra].
    apply Z.eqb_eq in E. subst. fold (rsum (map (fun '(i, w) => m (i + off)%Z * w) l)). lra.
Qed.
Lemma add_scaled_spec segs off k r x : add_scaled segs off k r x = r x + k * wt segs (x - off).
Proof.
  unfold add_scaled. revert r. induction segs as [|[i w] l IH]; intros r; cbn [fold_left wt]; [lra|].
  rewrite IH. unfold aset. destruct (x =? i + off)%Z eqn:E.
  - assert ((x - off =? i)%Z = true) as -> by lia. apply Z.eqb_eq in E. subst. lra.
  - assert ((x - off =? i)%Z = false) as -> by lia. lra.
Qed.
Lemma add_dist_spec segs r x : add_dist segs r x = r x + wt segs x.
Proof.
  unfold add_dist. revert r. induction segs as [|[i w] l IH]; intros r; cbn [fold_left wt]; [lra|].
  rewrite IH. unfold aset. destruct (x =? i)%Z eqn:E; [apply Z.eqb_eq in E; subst|]; lra.
Qed.
Lemma sum_dist2_spec segs : sum_dist2 segs = rsum (map (fun '(_, w) => w * w) segs).
Proof.
  unfold sum_dist2. enough (forall a, fold_left (fun a '(_, w) => a + w * w) segs a = a + rsum (map (fun '(_, w) => w * w) segs)) as E
    by (rewrite E; lra).
  unfold rsum. induction segs as [|[i w] l IH]; intros a; cbn in *; [lra|]. rewrite IH. lra.
Qed.
Lemma sum_dist2_zero segs : sum_dist2 segs = 0 <-> forall i w, In (i, w) segs -> w = 0.
Proof.
  rewrite sum_dist2_spec. induction segs as [|[i w] l IH]; cbn [map rsum fold_right].
  - split; [intros _ i w []|auto].
  - fold (rsum (map (fun '(_, w) => w * w) l)).
    assert (0 <= rsum (map (fun '(_, w) => w * w) l)).
    { clear. unfold rsum. induction l as [|[i w] l IH]; cbn in *; [lra|]. nra. }
    split.
    + intros E i' w' [[= <- <-]|Hi]; [nra|]. apply (proj1 IH) with (i := i'); auto. nra.
    + intros Hz. rewrite (Hz i w) by now left. rewrite (proj2 IH); [lra|]. intros; eapply Hz; right; eauto.
Qed.
Lemma wt_nonneg segs j : (forall i w, In (i, w) segs -> 0 <= w) -> 0 <= wt segs j.
Proof.
  induction segs as [|[i w] l IH]; cbn; intros H; [lra|].
  assert (0 <= w) by (eapply H; now left). assert (0 <= wt l j) by (apply IH; intros; eapply H; right; eauto).
  destruct (j =? i)%Z; lra.
Qed.
Lemma wt_not_in segs j : (forall i w, In (i, w) segs -> i = j -> w = 0) -> wt segs j = 0.
Proof.
  induction segs as [|[i w] l IH]; cbn; intros H; [lra|].
  rewrite IH by (intros; eapply H; [right|]; eauto). destruct (j =? i)%Z eqn:E; [|lra].
  rewrite (H i w) by (auto; lia). lra.
Qed.

(** Distinct non-zero weights: the squared norm of the ray is the sum of squares. *)
Definition distinct (segs : list (Z * R)) : Prop :=
  forall k m i w i' w', (k < m)%nat -> nth_error segs k = Some (i, w) -> nth_error segs m = Some (i', w') ->
    w <> 0 -> w' <> 0 -> i <> i'.
Lemma distinct_tail x segs : distinct (x :: segs) -> distinct segs.
Proof. intros H k m i w i' w' Hk H1 H2. apply (H (S k) (S m)); auto. lia. Qed.
Lemma norm2 segs : distinct segs -> dot segs (wt segs) = sum_dist2 segs.
Proof.
  rewrite sum_dist2_spec. unfold dot.
  induction segs as [|[i w] l IH]; intros Hd; auto. cbn [map rsum fold_right].
  fold (rsum (map (fun '(i, w) => wt ((i, w) :: l) i * w) l)).
  assert (forall i' w', In (i', w') l -> w <> 0 -> w' <> 0 -> i <> i') as Hi.
  { intros i' w' Hin H1 H2. apply In_nth_error in Hin as [k Hk]. apply (Hd 0%nat (S k) i w i' w'); auto. lia. }
  assert (w <> 0 -> wt l i = 0) as E1.
  { intros Hw. apply wt_not_in. intros i' w' Hin ->. destruct (Req_EM_T w' 0); auto. now destruct (Hi i w'). }
  cbn [wt]. rewrite Z.eqb_refl.
  assert ((w + wt l i) * w = w * w) as -> by (destruct (Req_EM_T w 0) as [->|Hw]; [|rewrite E1]; auto; lra).
  f_equal. fold (rsum (map (fun '(_, w) => w * w) l)). rewrite <- IH by (eapply distinct_tail; eauto).
  unfold rsum at 1. fold rsum. apply f_equal. apply map_ext_in. intros [i' w'] Hin. cbn [wt].
  destruct (i' =? i)%Z eqn:E; [|lra]. apply Z.eqb_eq in E. subst.
  destruct (Req_EM_T w' 0) as [->|]; [lra|]. destruct (Req_EM_T w 0) as [->|]; [lra|]. now destruct (Hi i w').
Qed.

(** ** Loops that add to the array *)
Lemma for_add n (body : Z -> arr R -> arr R) (f : Z -> R) m x :
  (forall j m' , (0 <= j < n)%Z -> body j m' x = m' x + f j) -> for_ n body m x = m x + zsum n f.
Proof.
  intros H. destruct (Z.le_gt_cases n 0) as [Hn|Hn]; [rewrite for_0, zsum_0 by lia; lra|].
  assert (G : forall k, (0 <= k <= n)%Z -> for_ k body m x = m x + zsum k f).
  { intros k [Hk0 Hk]. revert Hk. pattern k. apply natlike_ind; auto.
    - intros _. rewrite for_0, zsum_0 by lia. lra.
    - intros k' Hk' IH Hk. rewrite <- Z.add_1_r in *. rewrite for_S, zsum_S by lia. rewrite H by lia.
      rewrite IH by lia. lra. }
  apply G. lia.
Qed.

Section Geom.
  Variable g : geom.
  Hypothesis Hgx : (1 <= ngridx g)%Z.
  Hypothesis Hgy : (1 <= ngridy g)%Z.
  Let N := npix g.
  Lemma rays_grid c p d : in_grid N (rays g c p d).
  Proof. intros i w Hi. unfold rays in Hi. exact (proj1 (C21_pixels _ _ _ _ _ _ _ _ Hgx Hgy Hi)). Qed.
  Lemma rays_nonneg c p d i w : In (i, w) (rays g c p d) -> 0 <= w.
  Proof. intros Hi. unfold rays in Hi. exact (proj2 (C21_pixels _ _ _ _ _ _ _ _ Hgx Hgy Hi)). Qed.
  Lemma N_pos : (0 < N)%Z. Proof. unfold N, npix. nia. Qed.
  Lemma rays_distinct c p d : angle_ok (theta g p) -> distinct (rays g c p d).
  Proof. intros Ha k m i w i' w'. unfold rays. exact (C21_distinct _ _ _ _ _ _ k m i w i' w' Hgx Hgy Ha). Qed.

  Lemma project_spec obj data x : (0 <= dy g)%Z -> (0 <= dt g)%Z -> (0 <= dx g)%Z ->
    project g obj data x = data x + zsum (dt g) (fun p => zsum (dx g) (fun d => zsum (dy g) (fun s =>
      if (x =? ind_data g s p d)%Z then dot (rays g 0 p d) (fun j => obj (j + s * N)%Z) else 0))).
  Proof.
    intros H1 H2 H3. unfold project, empty.
    destruct ((dy g =? 0) || (dt g =? 0) || (dx g =? 0))%Z%bool eqn:E.
    - rewrite zsum_zero; [lra|]. intros p Hp. apply zsum_zero. intros d Hd. apply zsum_zero. intros; lia.
    - apply for_add. intros p m Hp. apply for_add. intros d m' Hd. apply for_add. intros s m'' Hs. apply calc_simdata_spec.
  Qed.
  Lemma fbp_spec data recon x : (0 <= dy g)%Z -> (0 <= dt g)%Z -> (0 <= dx g)%Z ->
    fbp g data recon x = recon x + zsum (dy g) (fun s => zsum (dt g) (fun p => zsum (dx g) (fun d =>
      data (ind_data g s p d) * wt (rays g s p d) (x - s * N)))).
  Proof.
    intros H1 H2 H3. unfold fbp, empty.
    destruct ((dy g =? 0) || (dt g =? 0) || (dx g =? 0))%Z%bool eqn:E.
    - rewrite zsum_zero; [lra|]. intros p Hp. apply zsum_zero. intros d Hd. apply zsum_zero. intros; lia.
    - apply for_add. intros p m Hp. apply for_add. intros d m' Hd. apply for_add. intros s m'' Hs. apply add_scaled_spec.
  Qed.
  Lemma ind_data_range s p d : (0 <= s < dy g)%Z -> (0 <= p < dt g)%Z -> (0 <= d < dx g)%Z ->
    (0 <= ind_data g s p d < dy g * dt g * dx g)%Z.
  Proof.
    intros H1 H2 H3. unfold ind_data.
    assert (p * dx g + dx g <= dt g * dx g)%Z by nia. assert (s * dt g + dt g <= dy g * dt g)%Z by nia.
    assert ((s * dt g + dt g) * dx g <= dy g * dt g * dx g)%Z as E by (apply Z.mul_le_mono_nonneg_r; lia).
    rewrite Z.mul_add_distr_r in E. assert (0 <= p * dx g)%Z by nia.
    assert (0 <= s * dt g)%Z by nia. assert (0 <= s * dt g * dx g)%Z by (apply Z.mul_nonneg_nonneg; lia). lia.
  Qed.
  Lemma ind_data_inj s p d s' p' d' : (0 <= p < dt g)%Z -> (0 <= d < dx g)%Z -> (0 <= p' < dt g)%Z -> (0 <= d' < dx g)%Z ->
    ind_data g s p d = ind_data g s' p' d' -> s = s' /\ p = p' /\ d = d'.
  Proof.
    intros H1 H2 H3 H4 E. unfold ind_data in E.
    destruct (Z.div_mod_unique (dx g) (p + s * dt g) (p' + s' * dt g) d d') as [E1 E2]; try lia.
    destruct (Z.div_mod_unique (dt g) s s' p p') as [E3 E4]; lia.
  Qed.
  Lemma slice_inj s j s' j' : (0 <= j < N)%Z -> (0 <= j' < N)%Z -> (j + s * N = j' + s' * N)%Z -> s = s' /\ j = j'.
  Proof. intros H1 H2 E. destruct (Z.div_mod_unique N s s' j j'); lia. Qed.
  Lemma slice_range s j : (0 <= s < dy g)%Z -> (0 <= j < N)%Z -> (0 <= j + s * N < dy g * N)%Z.
  Proof. intros H1 H2. assert ((s + 1) * N <= dy g * N)%Z by (apply Z.mul_le_mono_nonneg_r; lia). nia. Qed.
  Lemma slice_sum s (f h : Z -> R) : (0 <= s < dy g)%Z -> (forall j, (j < 0 \/ N <= j)%Z -> h j = 0) ->
    zsum (dy g * N) (fun x => f x * h (x - s * N)%Z) = zsum N (fun j => f (j + s * N)%Z * h j).
  Proof.
    intros Hs Hz.
    rewrite (zsum_ext N _ (fun j => zsum (dy g * N) (fun x => if (x =? j + s * N)%Z then f x * h (x - s * N)%Z else 0))).
    2:{ intros j Hj. rewrite (zsum_ext (dy g * N) _ (fun x => if (x =? j + s * N)%Z then f (j + s * N)%Z * h j else 0)).
        - rewrite zsum_single; auto. now apply slice_range.
        - intros x Hx. destruct (x =? j + s * N)%Z eqn:E; auto. apply Z.eqb_eq in E. subst. do 2 f_equal. lia. }
    rewrite zsum_swap. apply zsum_ext. intros x Hx.
    destruct (Z.le_gt_cases 0 (x - s * N)) as [H0|H0]; [destruct (Z.lt_ge_cases (x - s * N) N) as [H1|H1]|].
    - rewrite (zsum_ext N _ (fun j => if (j =? x - s * N)%Z then f x * h (x - s * N)%Z else 0)).
      + rewrite zsum_single; auto.
      + intros j Hj. replace (x =? j + s * N)%Z with (j =? x - s * N)%Z by lia. reflexivity.
    - rewrite Hz by lia. rewrite zsum_zero; [lra|]. intros; destruct (_ =? _)%Z; lra.
    - rewrite Hz by lia. rewrite zsum_zero; [lra|]. intros; destruct (_ =? _)%Z; lra.
  Qed.
  Lemma wt_outside c p d j : (j < 0 \/ N <= j)%Z -> wt (rays g c p d) j = 0.
  Proof. intros Hj. apply wt_not_in. intros i w Hi ->. apply rays_grid in Hi. lia. Qed.

  (** Adjointness. *)
  Lemma adjoint x y : (0 <= dy g)%Z -> (0 <= dt g)%Z -> (0 <= dx g)%Z ->
    (forall s, (0 <= s < dy g)%Z -> center g s = center g 0%Z) ->
    zsum (dy g * dt g * dx g) (fun i => project g x (fun _ => 0) i * y i)
    = zsum (dy g * N) (fun i => x i * fbp g y (fun _ => 0) i).
  Proof.
    intros H1 H2 H3 Hc.
    pose (D s p d := dot (rays g 0 p d) (fun j => x (j + s * N)%Z) * y (ind_data g s p d)).
    transitivity (zsum (dt g) (fun p => zsum (dx g) (fun d => zsum (dy g) (fun s => D s p d)))).
    - rewrite (zsum_ext _ _ (fun i => zsum (dt g) (fun p => zsum (dx g) (fun d => zsum (dy g) (fun s =>
        if (i =? ind_data g s p d)%Z then D s p d else 0))))).
      + rewrite zsum_swap. apply zsum_ext. intros p Hp. rewrite zsum_swap. apply zsum_ext. intros d Hd.
        rewrite zsum_swap. apply zsum_ext. intros s Hs. rewrite zsum_single; auto. now apply ind_data_range.
      + intros i Hi. rewrite project_spec by auto. rewrite Rplus_0_l, Rmult_comm, <- zsum_scal. apply zsum_ext. intros p Hp.
        rewrite <- zsum_scal. apply zsum_ext. intros d Hd. rewrite <- zsum_scal. apply zsum_ext. intros s Hs.
        destruct (i =? ind_data g s p d)%Z eqn:E; [|lra]. apply Z.eqb_eq in E. subst. unfold D. lra.
    - symmetry.
      rewrite (zsum_ext _ _ (fun i => zsum (dy g) (fun s => zsum (dt g) (fun p => zsum (dx g) (fun d =>
        y (ind_data g s p d) * (x i * wt (rays g s p d) (i - s * N)))))))  .
      + rewrite zsum_swap.
        rewrite (zsum_ext (dy g) _ (fun s => zsum (dt g) (fun p => zsum (dx g) (fun d => D s p d)))).
        * rewrite zsum_swap. apply zsum_ext. intros p Hp. apply zsum_swap.
        * intros s Hs. rewrite zsum_swap. apply zsum_ext. intros p Hp. rewrite zsum_swap. apply zsum_ext. intros d Hd.
          rewrite zsum_scal. unfold D. rewrite slice_sum by (auto; intros; now apply wt_outside).
          assert (rays g s p d = rays g 0 p d) as -> by (unfold rays; now rewrite Hc).
          rewrite (dot_wt N) by apply rays_grid. lra.
      + intros i Hi. rewrite fbp_spec by auto. rewrite Rplus_0_l, <- zsum_scal. apply zsum_ext. intros s Hs.
        rewrite <- zsum_scal. apply zsum_ext. intros p Hp. rewrite <- zsum_scal. apply zsum_ext. intros d Hd. lra.
  Qed.
End Geom.
