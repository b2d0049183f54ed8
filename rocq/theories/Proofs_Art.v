From Verif Require Import Base CLoop Model_Prep Model_Ray Model_Solver Proofs_Prep Proofs_Morph Proofs_Ray Properties_Ray Proofs_Solver.
From Coq Require Import Reals Lra Psatz.
Local Open Scope R_scope.

Lemma for_last {S} n (body : Z -> S -> S) s : (1 <= n)%Z -> for_ n body s = body (n - 1)%Z (for_ (n - 1) body s).
Proof. intros H. rewrite <- for_S by lia. f_equal. lia. Qed.

Section Art.
  Variable g : geom.
  Hypothesis Hgx : (1 <= ngridx g)%Z.
  Hypothesis Hgy : (1 <= ngridy g)%Z.
  Variable data : arr R.
  Let N := npix g.
  Definition slice (s : Z) (m : arr R) : Z -> R := fun j => m (j + s * npix g)%Z.

  (** One slice of one ray. *)
  Lemma art_slice_spec segs p d s recon sim : sim (ind_data g s p d) = 0 ->
    (forall x, fst (art_slice g data segs p d s (recon, sim)) x = recon x + (data (ind_data g s p d) - dot segs (slice s recon)) / sum_dist2 segs * wt segs (x - s * N)) /\
    (forall x, x <> ind_data g s p d -> snd (art_slice g data segs p d s (recon, sim)) x = sim x).
  Proof.
    intros Hs. unfold art_slice. cbn [fst snd]. split.
    - intros x. rewrite add_scaled_spec, calc_simdata_spec, Z.eqb_refl, Hs, Rplus_0_l. reflexivity.
    - intros x Hx. rewrite calc_simdata_spec. replace (x =? ind_data g s p d)%Z with false by lia. lra.
  Qed.

  (** One ray, all slices. *)
  Definition kaczmarz (segs : list (Z * R)) (b : R) (m : Z -> R) : Z -> R :=
    if Req_EM_T (sum_dist2 segs) 0 then m
    else fun j => m j + (b - dot segs m) / sum_dist2 segs * wt segs j.
  Lemma art_ray_spec p d recon sim : (0 <= p < dt g)%Z -> (0 <= d < dx g)%Z ->
    (forall s, (0 <= s < dy g)%Z -> sim (ind_data g s p d) = 0) ->
    let st := art_ray g data p d (recon, sim) in
    (forall s j, (0 <= s < dy g)%Z -> (0 <= j < N)%Z ->
       fst st (j + s * N)%Z = kaczmarz (rays g 0 p d) (data (ind_data g s p d)) (slice s recon) j) /\
    (forall x, (forall s, (0 <= s < dy g)%Z -> x <> ind_data g s p d) -> snd st x = sim x) /\
    (forall x, (x < 0 \/ dy g * N <= x)%Z -> fst st x = recon x).
  Proof.
    intros Hp Hd Hz. cbn zeta. unfold art_ray, kaczmarz.
    set (segs := rays g 0 p d) in *.
    assert (Hg : in_grid N segs) by now apply rays_grid.
    destruct (Req_EM_T (sum_dist2 segs) 0) as [E|E]; [repeat split; auto|].
    destruct (Z.le_gt_cases (dy g) 0) as [H0|H0]; [rewrite for_0 by lia; repeat split; auto; intros; lia|].
    pose (P k (st : arr R * arr R) :=
      (forall s j, (0 <= j < N)%Z -> (0 <= s < k)%Z ->
         fst st (j + s * N)%Z = recon (j + s * N)%Z
           + (data (ind_data g s p d) - dot segs (slice s recon)) / sum_dist2 segs * wt segs j) /\
      (forall x, (forall s j, (0 <= j < N)%Z -> (0 <= s < k)%Z -> x <> j + s * N)%Z -> fst st x = recon x) /\
      (forall x, (forall s, (0 <= s < k)%Z -> x <> ind_data g s p d) -> snd st x = sim x)).
    assert (P (dy g) (for_ (dy g) (art_slice g data segs p d) (recon, sim))) as (P1 & P2 & P3).
    { apply (for_inv P); [lia| |].
      - repeat split; intros; auto. lia.
      - intros k [r s'] Hk (P1 & P2 & P3). cbn [fst snd] in *.
        pose proof (art_slice_spec segs p d k r s') as Sp. 
        assert (s' (ind_data g k p d) = 0) as Ez.
        { rewrite P3; auto. intros s Hs E1. apply ind_data_inj in E1; auto. lia. }
        specialize (Sp Ez). destruct Sp as [S1 S2].
        unfold P.
        assert (Esl : dot segs (slice k r) = dot segs (slice k recon)).
        { apply (dot_ext N); auto. intros j Hj. unfold slice. apply P2. intros s j' Hj' Hs E1.
          apply (slice_inj g) in E1; auto. lia. }
        repeat split.
        + intros s j Hj Hs. rewrite S1. destruct (Z.eq_dec s k) as [->|Hne].
          * rewrite Esl. replace (j + k * N - k * N)%Z with j by lia.
            rewrite P2; auto. intros s1 j' Hj' Hs' E1. apply (slice_inj g) in E1; auto. lia.
          * rewrite P1 by lia. rewrite (wt_not_in segs (j + s * N - k * N)); [lra|]. intros i w Hi ->. apply Hg in Hi.
            destruct (slice_inj g s j k (j + s * N - k * N)) as [E1 _]; auto; unfold N in *; lia.
        + intros x Hx. rewrite S1, P2 by (intros s j Hj Hs; apply Hx; lia). rewrite wt_not_in; [lra|].
          intros i w Hi ->. apply Hg in Hi. exfalso. apply (Hx k (x - k * N)%Z); lia.
        + intros x Hx. rewrite S2 by (apply Hx; lia). apply P3. intros s Hs. apply Hx. lia. }
    repeat split; auto.
    - intros s j Hs Hj. now apply P1.
    - intros x Hx. apply P2. intros s j Hj Hs ->.
      pose proof (slice_range g s j Hs Hj). unfold N in *. lia.
  Qed.

  (** Any property of a slice kept by every ray update is kept by art. *)
  Lemma art_iter_inv (P : Z -> (Z -> R) -> Prop) recon sim :
    (forall s m m', (forall j, (0 <= j < N)%Z -> m j = m' j) -> P s m -> P s m') ->
    (forall s p d m, (0 <= s < dy g)%Z -> (0 <= p < dt g)%Z -> (0 <= d < dx g)%Z -> P s m ->
       P s (kaczmarz (rays g 0 p d) (data (ind_data g s p d)) m)) ->
    (0 <= dt g)%Z -> (0 <= dx g)%Z ->
    (forall s, (0 <= s < dy g)%Z -> P s (slice s recon)) ->
    forall s, (0 <= s < dy g)%Z -> P s (slice s (fst (art_iter g data (recon, sim)))).
  Proof.
    intros Hext Hstep Ht Hx HP. unfold art_iter. cbn [fst snd].
    set (zero := memset0 0 (dy g * dt g * dx g) sim).
    pose (Z0 p d (z : arr R) := forall s p' d', (0 <= s < dy g)%Z -> (0 <= p' < dt g)%Z -> (0 <= d' < dx g)%Z ->
       (p < p' \/ (p = p' /\ d <= d'))%Z -> z (ind_data g s p' d') = 0).
    pose (I1 p (st : arr R * arr R) := (forall s, (0 <= s < dy g)%Z -> P s (slice s (fst st))) /\ Z0 p 0%Z (snd st)).
    enough (I1 (dt g) (for_ (dt g) (fun p => for_ (dx g) (fun d => art_ray g data p d)) (recon, zero))) by (apply H).
    apply (for_inv I1); auto.
    - split; auto. intros s p' d' Hs Hp Hd _. cbn [snd]. unfold zero, memset0.
      pose proof (ind_data_range g s p' d' Hs Hp Hd).
      replace ((0 <=? ind_data g s p' d') && (ind_data g s p' d' <? dy g * dt g * dx g))%Z with true by lia. auto.
    - intros p st Hp HI.
      pose (I2 d (st : arr R * arr R) := (forall s, (0 <= s < dy g)%Z -> P s (slice s (fst st))) /\ Z0 p d (snd st)).
      assert (I2 (dx g) (for_ (dx g) (fun d => art_ray g data p d) st)) as [J1 J2].
      { apply (for_inv I2); auto. intros d [r z] Hd [J1 J2]. cbn [fst snd] in *.
        destruct (art_ray_spec p d r z Hp Hd) as (A1 & A2 & _).
        { intros s Hs. apply J2; auto. lia. }
        split.
        - intros s Hs. apply (Hext s (kaczmarz (rays g 0 p d) (data (ind_data g s p d)) (slice s r))).
          + intros j Hj. symmetry. unfold slice at 1. now apply A1.
          + apply Hstep; auto.
        - intros s p' d' Hs Hp' Hd' Hlt. rewrite A2; [apply J2; auto; lia|].
          intros s' Hs' E. apply ind_data_inj in E; auto. lia. }
      split; auto. intros s p' d' Hs Hp' Hd' Hlt. apply J2; auto. lia.
  Qed.
  Lemma art_inv (P : Z -> (Z -> R) -> Prop) num_iter recon sim :
    (forall s m m', (forall j, (0 <= j < N)%Z -> m j = m' j) -> P s m -> P s m') ->
    (forall s p d m, (0 <= s < dy g)%Z -> (0 <= p < dt g)%Z -> (0 <= d < dx g)%Z -> P s m ->
       P s (kaczmarz (rays g 0 p d) (data (ind_data g s p d)) m)) ->
    (0 <= dt g)%Z -> (0 <= dx g)%Z ->
    (forall s, (0 <= s < dy g)%Z -> P s (slice s recon)) ->
    forall s, (0 <= s < dy g)%Z -> P s (slice s (art g data num_iter recon sim)).
  Proof.
    intros Hext Hstep Ht Hx HP. unfold art. destruct (empty g); auto.
    destruct (Z.le_gt_cases num_iter 0) as [H0|H0]; [rewrite for_0 by lia; auto|].
    pose (I (_ : Z) (st : arr R * arr R) := forall s, (0 <= s < dy g)%Z -> P s (slice s (fst st))).
    apply (for_inv I); auto; [lia|]. intros j [r z] Hj Hi. unfold I. now apply art_iter_inv.
  Qed.

  (** ** The Kaczmarz step *)
  Definition ssd (m z : Z -> R) : R := zsum N (fun j => (m j - z j) * (m j - z j)).
  Lemma dot_minus segs m z : dot segs (fun j => m j - z j) = dot segs m - dot segs z.
  Proof.
    rewrite <- (Rmult_1_l (dot segs m)). replace (1 * dot segs m - dot segs z) with (1 * dot segs m + (-1) * dot segs z) by lra.
    rewrite <- dot_lin. unfold dot. f_equal. apply map_ext. intros [i w]. lra.
  Qed.
  Lemma kaczmarz_sum segs b m : distinct segs -> in_grid N segs -> sum_dist2 segs <> 0 ->
    dot segs (kaczmarz segs b m) = b.
  Proof.
    intros Hd Hg Hs. unfold kaczmarz. destruct (Req_EM_T (sum_dist2 segs) 0); [lra|].
    set (k := (b - dot segs m) / sum_dist2 segs).
    replace (dot segs (fun j => m j + k * wt segs j)) with (1 * dot segs m + k * dot segs (wt segs)).
    - rewrite norm2 by auto. unfold k. field. auto.
    - rewrite <- dot_lin. unfold dot. f_equal. apply map_ext. intros [i w]. lra.
  Qed.
  Lemma kaczmarz_fixed segs m j : kaczmarz segs (dot segs m) m j = m j.
  Proof. unfold kaczmarz. destruct (Req_EM_T _ 0); auto. unfold Rdiv. rewrite Rminus_diag_eq by auto. lra. Qed.
  Lemma kaczmarz_pythagoras segs b m z : distinct segs -> in_grid N segs -> sum_dist2 segs <> 0 -> dot segs z = b ->
    ssd (kaczmarz segs b m) z = ssd m z - (b - dot segs m) * (b - dot segs m) / sum_dist2 segs.
  Proof.
    intros Hd Hg Hs Hz. unfold kaczmarz, ssd. destruct (Req_EM_T (sum_dist2 segs) 0); [lra|].
    set (k := (b - dot segs m) / sum_dist2 segs).
    rewrite (zsum_ext N _ (fun j => (m j - z j) * (m j - z j) + (2 * k * ((m j - z j) * wt segs j) + k * k * (wt segs j * wt segs j))))
      by (intros; ring).
    rewrite !zsum_plus, !zsum_scal.
    rewrite <- (dot_wt N segs (fun j => m j - z j)), <- (dot_wt N segs (wt segs)), norm2, dot_minus, Hz by auto.
    unfold k. field. auto.
  Qed.
  Lemma sum_dist2_nonneg segs : 0 <= sum_dist2 segs.
  Proof. rewrite sum_dist2_spec. unfold rsum. induction segs as [|[i w] l IH]; cbn in *; [lra|]. nra. Qed.
  Lemma kaczmarz_closer segs b m z : distinct segs -> in_grid N segs -> dot segs z = b ->
    ssd (kaczmarz segs b m) z <= ssd m z.
  Proof.
    intros Hd Hg Hz. destruct (Req_EM_T (sum_dist2 segs) 0) as [E|E].
    - unfold kaczmarz. destruct (Req_EM_T (sum_dist2 segs) 0); lra.
    - rewrite kaczmarz_pythagoras by auto. pose proof (sum_dist2_nonneg segs).
      assert (0 <= (b - dot segs m) * (b - dot segs m) / sum_dist2 segs); [|lra].
      apply Rmult_le_pos; [apply Rle_0_sqr|]. apply Rlt_le, Rinv_0_lt_compat. lra.
  Qed.
  Lemma ssd_ext m m' z : (forall j, (0 <= j < N)%Z -> m j = m' j) -> ssd m z = ssd m' z.
  Proof. intros H. unfold ssd. apply zsum_ext. intros j Hj. now rewrite H. Qed.

  (** Consistent data. *)
  Definition reproduces (s : Z) (z : Z -> R) : Prop := forall p d, (0 <= p < dt g)%Z -> (0 <= d < dx g)%Z ->
    dot (rays g 0 p d) z = data (ind_data g s p d).
  Lemma kaczmarz_ext N' segs b m m' j : in_grid N' segs -> (0 <= j < N')%Z -> (forall i, (0 <= i < N')%Z -> m i = m' i) ->
    kaczmarz segs b m j = kaczmarz segs b m' j.
  Proof.
    intros Hg Hj He. unfold kaczmarz. destruct (Req_EM_T _ 0); auto. rewrite (dot_ext N' segs m m') by auto. now rewrite He.
  Qed.
  Lemma art_fixed num_iter recon sim : (0 <= dt g)%Z -> (0 <= dx g)%Z ->
    (forall s, (0 <= s < dy g)%Z -> reproduces s (slice s recon)) ->
    forall s j, (0 <= s < dy g)%Z -> (0 <= j < N)%Z -> art g data num_iter recon sim (j + s * N)%Z = recon (j + s * N)%Z.
  Proof.
    intros Ht Hx Hr s j Hs Hj.
    pose (P s (m : Z -> R) := forall j, (0 <= j < N)%Z -> m j = slice s recon j).
    apply (art_inv P num_iter recon sim) with (s := s); auto; unfold P; auto.
    - intros s' m m' E H j' Hj'. rewrite <- E; auto.
    - intros s' p d m Hs' Hp Hd H j' Hj'.
      rewrite (kaczmarz_ext N _ _ _ (slice s' recon)) by (auto; now apply rays_grid).
      rewrite <- (Hr s' Hs' p d Hp Hd). apply kaczmarz_fixed.
  Qed.
  Lemma art_closer num_iter recon sim z s : (0 <= dt g)%Z -> (0 <= dx g)%Z -> (0 <= s < dy g)%Z ->
    (forall p, (0 <= p < dt g)%Z -> angle_ok (theta g p)) -> reproduces s z ->
    ssd (slice s (art g data num_iter recon sim)) z <= ssd (slice s recon) z.
  Proof.
    intros Ht Hx Hs Ha Hz.
    pose (P s' m := s' = s -> ssd m z <= ssd (slice s recon) z).
    refine (art_inv P num_iter recon sim _ _ Ht Hx _ s Hs eq_refl); unfold P.
    - intros s' m m' E H Es. rewrite <- (ssd_ext m m' z); auto.
    - intros s' p d m Hs' Hp Hd H ->. eapply Rle_trans; [|now apply H].
      apply kaczmarz_closer; [apply rays_distinct|apply rays_grid|apply Hz]; auto.
    - intros s' _ ->. lra.
  Qed.

  (** The ray processed last satisfies its equation. *)
  Lemma art_last num_iter recon sim s : (1 <= num_iter)%Z -> (1 <= dt g)%Z -> (1 <= dx g)%Z -> (0 <= s < dy g)%Z ->
    angle_ok (theta g (dt g - 1)%Z) -> sum_dist2 (rays g 0 (dt g - 1) (dx g - 1)) <> 0 ->
    dot (rays g 0 (dt g - 1) (dx g - 1)) (slice s (art g data num_iter recon sim))
    = data (ind_data g s (dt g - 1) (dx g - 1)).
  Proof.
    intros Hn Ht Hx Hs Ha Hz. unfold art. replace (empty g) with false by (unfold empty; lia).
    rewrite (for_last num_iter) by lia.
    destruct (for_ (num_iter - 1) _ _) as [r z]. unfold art_iter. cbn [fst snd].
    rewrite (for_last (dt g)) by lia.
    set (zero := memset0 0 (dy g * dt g * dx g) z).
    set (st := for_ (dt g - 1) _ _).
    rewrite (for_last (dx g)) by lia.
    assert (Hz0 : forall s', (0 <= s' < dy g)%Z -> snd (for_ (dx g - 1) (fun d => art_ray g data (dt g - 1) d) st) (ind_data g s' (dt g - 1) (dx g - 1)) = 0).
    { pose (Z0 p d (z : arr R) := forall s p' d', (0 <= s < dy g)%Z -> (0 <= p' < dt g)%Z -> (0 <= d' < dx g)%Z ->
       (p < p' \/ (p = p' /\ d <= d'))%Z -> z (ind_data g s p' d') = 0).
      assert (Hstep : forall p d st, (0 <= p < dt g)%Z -> (0 <= d < dx g)%Z -> Z0 p d (snd st) -> Z0 p (d + 1)%Z (snd (art_ray g data p d st))).
      { intros p d [r0 z0] Hp Hd J s' p' d' Hs' Hp' Hd' Hlt. cbn [snd] in J.
        destruct (art_ray_spec p d r0 z0 Hp Hd) as (_ & A2 & _); [intros; apply J; auto; lia|].
        rewrite A2; [apply J; auto; lia|]. intros s'' Hs'' E. apply ind_data_inj in E; auto. lia. }
      assert (J : Z0 (dt g - 1)%Z 0%Z (snd st)).
      { apply (for_inv (fun p st => Z0 p 0%Z (snd st))); [lia| |].
        - intros s' p' d' Hs' Hp Hd _. cbn [snd]. unfold zero, memset0.
          pose proof (ind_data_range g s' p' d' Hs' Hp Hd).
          replace ((0 <=? ind_data g s' p' d') && (ind_data g s' p' d' <? dy g * dt g * dx g))%Z with true by lia. auto.
        - intros p st' Hp J. assert (Z0 p (dx g) (snd (for_ (dx g) (fun d => art_ray g data p d) st'))) as J2.
          { apply (for_inv (fun d st => Z0 p d (snd st))); [lia|auto|]. intros d st'' Hd J'. apply Hstep; auto. lia. }
          intros s' p' d' Hs' Hp' Hd' Hlt. apply J2; auto. lia. }
      assert (J2 : Z0 (dt g - 1)%Z (dx g - 1)%Z (snd (for_ (dx g - 1) (fun d => art_ray g data (dt g - 1) d) st))).
      { apply (for_inv (fun d st => Z0 (dt g - 1)%Z d (snd st))); [lia|auto|]. intros d st'' Hd J'. apply Hstep; auto; lia. }
      intros s' Hs'. apply J2; auto; lia. }
    destruct (for_ (dx g - 1) _ st) as [r0 z0]. cbn [snd] in Hz0.
    destruct (art_ray_spec (dt g - 1) (dx g - 1) r0 z0 ltac:(lia) ltac:(lia) Hz0) as (A1 & _).
    set (segs := rays g 0 (dt g - 1) (dx g - 1)) in *.
    assert (in_grid N segs) by now apply rays_grid.
    rewrite (dot_ext N segs _ (kaczmarz segs (data (ind_data g s (dt g - 1) (dx g - 1))) (slice s r0))); auto.
    - apply kaczmarz_sum; auto. now apply rays_distinct.
    - intros j Hj. unfold slice at 1. now apply A1.
  Qed.
End Art.
