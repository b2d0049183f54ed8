From Verif Require Import Base CLoop Model_Prep Model_Ray Model_Solver Model_Grad Proofs_Prep Proofs_Morph Proofs_Ray Properties_Ray Proofs_Solver Proofs_Art Proofs_Subsets Proofs_Bart Proofs_Em Proofs_Lsq.
From Coq Require Import Reals Lra Psatz.
Local Open Scope R_scope.

(** ** Loops in which every cell is written once *)
Definition cells (stride ny nx : Z) : list Z := flat_map (fun iy => map (fun ix => (iy * stride + ix)%Z) (zrange 0 nx)) (zrange 0 ny).
Lemma for_grid_fold {S} stride ny nx (body : Z -> S -> S) s : for_grid stride ny nx body s = fold_left (fun s k => body k s) (cells stride ny nx) s.
Proof.
  unfold for_grid, for_, cells. revert s. induction (zrange 0 ny) as [|y l IH]; intros s; cbn [flat_map fold_left]; auto.
  rewrite fold_left_app, IH. f_equal. clear. revert s. induction (zrange 0 nx) as [|x l IH]; intros s; cbn; auto.
Qed.
Lemma in_cells stride ny nx k : In k (cells stride ny nx) <-> exists iy ix, (0 <= iy < ny)%Z /\ (0 <= ix < nx)%Z /\ k = (iy * stride + ix)%Z.
Proof.
  unfold cells. rewrite in_flat_map. split.
  - intros (iy & Hy & Hk). apply in_map_iff in Hk as (ix & <- & Hx). apply in_zrange in Hy, Hx. eauto.
  - intros (iy & ix & Hy & Hx & ->). exists iy. split; [now apply in_zrange|]. apply in_map_iff. exists ix. split; auto. now apply in_zrange.
Qed.
Lemma NoDup_zrange a b : NoDup (zrange a b).
Proof. unfold zrange. apply FinFun.Injective_map_NoDup; [intros x y; lia|apply seq_NoDup]. Qed.
Lemma NoDup_cells stride ny nx : (nx <= stride)%Z -> NoDup (cells stride ny nx).
Proof.
  intros H. unfold cells.
  assert (G : forall l, NoDup l -> NoDup (flat_map (fun iy => map (fun ix => (iy * stride + ix)%Z) (zrange 0 nx)) l)).
  { induction l as [|y l IH]; intros ND; [constructor|]. inversion ND as [|? ? Hn Hl]; subst. cbn. apply NoDup_app_iff'. split; [|split; auto].
    - apply FinFun.Injective_map_NoDup; [intros a b; lia|apply NoDup_zrange].
    - intros k Hk Hk'. apply in_map_iff in Hk as (x & <- & Hx). apply in_flat_map in Hk' as (y' & Hy' & Hk). apply in_map_iff in Hk as (x' & E & Hx').
      apply in_zrange in Hx, Hx'. assert (y' = y) by (destruct (Z.div_mod_unique stride y y' x x'); lia). subst. auto. }
  apply G, NoDup_zrange.
Qed.
Lemma cells_all ny nx k : (1 <= nx)%Z -> In k (cells nx ny nx) <-> (0 <= k < nx * ny)%Z.
Proof.
  intros Hn. rewrite in_cells. split.
  - intros (iy & ix & Hy & Hx & ->). nia.
  - intros Hk. exists (k / nx)%Z, (k mod nx)%Z. assert (k / nx < ny)%Z by (apply Z.div_lt_upper_bound; lia). assert (0 <= k / nx)%Z by (apply Z.div_pos; lia).
    pose proof (Z.mod_pos_bound k nx). pose proof (Z.div_mod k nx). lia.
Qed.

Lemma fold_other {A T} (key : T -> Z) (F : T -> arr A -> A) l (m : arr A) x : (forall t, In t l -> key t <> x) ->
  fold_left (fun m t => aset m (key t) (F t m)) l m x = m x.
Proof.
  revert m. induction l as [|t l IH]; intros m H; cbn; auto. rewrite IH by (intros; apply H; now right). apply aset_ne. intros E. apply (H t); [now left|auto].
Qed.
Lemma fold_cell {A T} (key : T -> Z) (F : T -> A -> A) l (m : arr A) t : NoDup l -> In t l ->
  (forall t', In t' l -> key t' = key t -> t' = t) ->
  fold_left (fun m t => aset m (key t) (F t (m (key t)))) l m (key t) = F t (m (key t)).
Proof.
  revert m. induction l as [|u l IH]; intros m ND Hi Hk; [destruct Hi|]. inversion ND as [|? ? Hn Hl]; subst. cbn [fold_left].
  destruct Hi as [->|Hi].
  - rewrite (fold_other key (fun t m => F t (m (key t)))); [apply aset_eq|]. intros t' Ht E. apply Hn. rewrite <- (Hk t'); auto. now right.
  - rewrite IH; auto; [|intros; apply Hk; auto; now right]. rewrite aset_ne; auto. intros E. apply Hn. rewrite (Hk u); auto. now left.
Qed.
Lemma flat_fold {A S} (body : Z -> A -> S -> S) l n s :
  for_ n (fun a => fun s => fold_left (fun s b => body a b s) l s) s = fold_left (fun s '(a, b) => body a b s) (flat_map (fun a => map (pair a) l) (zrange 0 n)) s.
Proof.
  unfold for_. revert s. induction (zrange 0 n) as [|a z IH]; intros s; cbn [flat_map fold_left]; auto. rewrite fold_left_app, IH. f_equal. clear.
  revert s. induction l as [|x l IH]; intros s; cbn; auto.
Qed.
(** A loop over slices and pixels in which every pixel is written once. *)
Lemma pass_cell {A} (nx ny n : Z) (F : Z -> Z -> A -> A) (m : arr A) s k : (1 <= nx)%Z -> (0 <= s < n)%Z -> (0 <= k < nx * ny)%Z ->
  for_ n (fun s => for_grid nx ny nx (fun k m => aset m (s * (nx * ny) + k)%Z (F s k (m (s * (nx * ny) + k)%Z)))) m (s * (nx * ny) + k)%Z
  = F s k (m (s * (nx * ny) + k)%Z).
Proof.
  intros Hx Hs Hk.
  rewrite (for_ext n _ (fun s m => fold_left (fun m k => aset m (s * (nx * ny) + k)%Z (F s k (m (s * (nx * ny) + k)%Z))) (cells nx ny nx) m)) by (intros; apply for_grid_fold).
  rewrite (flat_fold (fun s k m => aset m (s * (nx * ny) + k)%Z (F s k (m (s * (nx * ny) + k)%Z)))).
  assert (E : forall l (m : arr A), fold_left (fun m '(s, k) => aset m (s * (nx * ny) + k)%Z (F s k (m (s * (nx * ny) + k)%Z))) l m
    = fold_left (fun m t => aset m (fst t * (nx * ny) + snd t)%Z (F (fst t) (snd t) (m (fst t * (nx * ny) + snd t)%Z))) l m).
  { induction l as [|(a, b) l IH]; intros m'; cbn; auto. }
  rewrite E. apply (fold_cell (fun t => (fst t * (nx * ny) + snd t)%Z) (fun t => F (fst t) (snd t)) _ m (s, k)).
  - assert (G : forall z : list Z, NoDup z -> NoDup (flat_map (fun a : Z => map (pair a) (cells nx ny nx)) z)).
    { induction z as [|a z IH]; intros ND; [constructor|]. inversion ND; subst. cbn. apply NoDup_app_iff'. split; [|split; auto].
      - apply FinFun.Injective_map_NoDup; [intros x y E'; congruence|apply NoDup_cells; lia].
      - intros t Ht Ht'. apply in_map_iff in Ht as (b & <- & _). apply in_flat_map in Ht' as (a' & Ha & Hb). apply in_map_iff in Hb as (b' & E' & _). congruence. }
    apply G, NoDup_zrange.
  - apply in_flat_map. exists s. split; [now apply in_zrange|]. apply in_map. now apply cells_all.
  - intros (s', k') Ht E'. cbn in E'. apply in_flat_map in Ht as (s'' & _ & Ht). apply in_map_iff in Ht as (k'' & E2 & Hk''). injection E2 as -> ->.
    apply cells_all in Hk''; auto. destruct (Z.div_mod_unique (nx * ny) s' s k' k); try lia. congruence.
Qed.

Section Gd.
  Variable g : geom.
  Hypothesis Hgx : (1 <= ngridx g)%Z.
  Hypothesis Hgy : (1 <= ngridy g)%Z.
  Hypothesis Hdt : (1 <= dt g)%Z.
  Hypothesis Hdx : (1 <= dx g)%Z.
  Hypothesis Hdy : (1 <= dy g)%Z.
  Variable data : arr R.
  Let N := npix g.
  Let r := scale_r g.
  Lemma r_pos : 0 < r.
  Proof.
    unfold r, scale_r. apply Rdiv_lt_0_compat; [lra|]. apply sqrt_lt_R0. assert (1 <= dx g * dt g)%Z by nia.
    apply IZR_le in H. lra.
  Qed.
  Lemma r_sq : r * r = 2 / IZR (dx g * dt g).
  Proof.
    unfold r, scale_r. assert (H : (1 <= dx g * dt g)%Z) by nia. apply IZR_le in H.
    assert (S0 : 0 < sqrt (IZR (dx g * dt g) / 2)) by (apply sqrt_lt_R0; lra).
    replace (1 / sqrt (IZR (dx g * dt g) / 2) * (1 / sqrt (IZR (dx g * dt g) / 2))) with (/ (sqrt (IZR (dx g * dt g) / 2) * sqrt (IZR (dx g * dt g) / 2))) by (field; lra).
    rewrite sqrt_sqrt by lra. field. lra.
  Qed.
  (** Slice s of a flat array holds the finite image f. *)
  Definition holds (s : Z) (a : arr number) (f : Z -> R) : Prop := forall j, (0 <= j < N)%Z -> a (s * N + j)%Z = Some (f j).
  Lemma holds_ext s a f f' : (forall j, (0 <= j < N)%Z -> f j = f' j) -> holds s a f -> holds s a f'.
  Proof. intros H Ha j Hj. rewrite Ha by auto. now rewrite H. Qed.
  Lemma n_add_at_spec segs off k a x v : a x = Some v -> n_add_at segs off (Some k) a x = Some (v + k * wt segs (x - off)).
  Proof.
    unfold n_add_at. revert a v. induction segs as [|[i w] l IH]; intros a v H; cbn [fold_left wt]; [rewrite H; f_equal; lra|].
    destruct (x - off =? i)%Z eqn:E.
    - assert (off + i = x)%Z as -> by lia. rewrite H. cbn [nmul nadd]. rewrite (IH _ (v + k * w)) by apply aset_eq. f_equal. lra.
    - rewrite (IH _ v) by (rewrite aset_ne by lia; auto). f_equal. lra.
  Qed.
  Lemma n_add_at_other segs off k a x : in_grid N segs -> (x < off \/ off + N <= x)%Z -> n_add_at segs off k a x = a x.
  Proof.
    unfold n_add_at. revert a. induction segs as [|[i w] l IH]; intros a Hg Hx; cbn [fold_left]; auto.
    rewrite IH; auto; [|intros i' w' H; apply (Hg i' w'); now right]. apply aset_ne. specialize (Hg i w (or_introl eq_refl)). lia.
  Qed.
  Lemma n_simdata_other segs off idx m sd x : x <> idx -> n_simdata segs off idx m sd x = sd x.
  Proof. intros H. unfold n_simdata. revert sd. induction segs as [|[i w] l IH]; intros sd; cbn [fold_left]; auto. rewrite IH. now apply aset_ne. Qed.

  Definition pairs : list (Z * Z) := flat_map (fun p => map (pair p) (zrange 0 (dx g))) (zrange 0 (dt g)).
  Lemma in_pairs p d : In (p, d) pairs <-> (0 <= p < dt g /\ 0 <= d < dx g)%Z.
  Proof.
    unfold pairs. rewrite in_flat_map. split.
    - intros (q & Hq & H). apply in_map_iff in H as (e & E & He). injection E as -> ->. apply in_zrange in Hq, He. auto.
    - intros [H1 H2]. exists p. split; [now apply in_zrange|]. apply in_map. now apply in_zrange.
  Qed.
  Lemma NoDup_pairs : NoDup pairs.
  Proof.
    unfold pairs. assert (G : forall z : list Z, NoDup z -> NoDup (flat_map (fun a : Z => map (pair a) (zrange 0 (dx g))) z)).
    { induction z as [|a z IH]; intros ND; [constructor|]. inversion ND; subst. cbn. apply NoDup_app_iff'. split; [|split; auto].
      - apply FinFun.Injective_map_NoDup; [intros x y E'; congruence|apply NoDup_zrange].
      - intros t Ht Ht'. apply in_map_iff in Ht as (b & <- & _). apply in_flat_map in Ht' as (a' & Ha & Hb). apply in_map_iff in Hb as (b' & E' & _). congruence. }
    apply G, NoDup_zrange.
  Qed.
  Lemma ray_loops {S} (F : Z -> Z -> S -> S) st : for_ (dt g) (fun p => for_ (dx g) (fun d => F p d)) st = fold_left (fun st '(p, d) => F p d st) pairs st.
  Proof. exact (flat_fold F (zrange 0 (dx g)) (dt g) st). Qed.

  (** The gradient of slice s. *)
  Definition Rw (s : Z) (pd : Z * Z) (j : Z) : R := wt (rays g s (fst pd) (snd pd)) j.
  Definition bb (s : Z) (pd : Z * Z) : R := data (ind_data g s (fst pd) (snd pd)).
  Lemma dot_fwd s pd x : dot (rays g s (fst pd) (snd pd)) x = fwd N (Rw s) x pd.
  Proof. unfold fwd, Rw. apply dot_wt. now apply rays_grid. Qed.
  Definition Gu (s : Z) (u : Z -> R) (j : Z) : R := lsum (fun pd => 2 * r * (r * fwd N (Rw s) u pd - bb s pd) * Rw s pd j) pairs.
  Lemma zero_ray s pd j : sum_dist2 (rays g s (fst pd) (snd pd)) = 0 -> Rw s pd j = 0.
  Proof. intros E. unfold Rw. apply wt_not_in. intros i w Hi _. apply (proj1 (sum_dist2_zero _) E i w Hi). Qed.

  Lemma slice_rays recon s u l st v : holds s recon u -> (forall pd, In pd l -> In pd pairs) -> NoDup l ->
    (forall p d, In (p, d) l -> fst st (ind_data g s p d) = Some 0) -> holds s (snd st) v ->
    holds s (snd (fold_left (fun st '(p, d) => gd_ray g data recon s p d st) l st)) (fun j => v j + lsum (fun pd => 2 * r * (r * fwd N (Rw s) u pd - bb s pd) * Rw s pd j) l).
  Proof.
    intros Hu. revert st v. induction l as [|(p, d) l IH]; intros (sim, grad) v Hl ND H0 Hv.
    - apply (holds_ext s grad v); auto. intros. unfold lsum. cbn. lra.
    - inversion ND as [|? ? Hn Hnd]; subst. cbn [fold_left]. unfold gd_ray at 2. cbv zeta.
      destruct (n_simdata_spec (rays g s p d) (s * npix g) (ind_data g s p d) recon sim 0 u) as [E1 E2].
      + intros i w Hi. rewrite Z.add_comm. apply Hu. exact (rays_grid g Hgx Hgy s p d i w Hi).
      + apply H0. now left.
      + set (sim' := n_simdata _ _ _ _ _) in *. rewrite E1. rewrite Rplus_0_l, (dot_fwd s (p, d)). cbn [nmul nsub].
        eapply holds_ext; [|apply (IH _ (fun j => v j + 2 * r * (r * fwd N (Rw s) u (p, d) - bb s (p, d)) * Rw s (p, d) j))].
        * intros j Hj. cbv beta. rewrite lsum_cons. ring.
        * intros; apply Hl; now right.
        * auto.
        * intros p' d' Hi. cbn [fst]. rewrite E2; [apply H0; now right|]. intros E.
          pose proof (proj1 (in_pairs _ _) (Hl _ (or_introl eq_refl))). pose proof (proj1 (in_pairs _ _) (Hl _ (or_intror Hi))).
          apply ind_data_inj in E as (_ & <- & <-); try tauto.
        * cbn [snd]. destruct (Req_EM_T _ 0) as [Z0|Z0].
          { eapply holds_ext; [|exact Hv]. intros j _. cbn. rewrite (zero_ray s (p, d) j) by exact Z0. ring. }
          { intros j Hj. erewrite n_add_at_spec by (apply Hv; exact Hj). f_equal. unfold Rw, bb. cbn [fst snd]. fold N. replace (s * N + j - s * N)%Z with j by lia. fold r. ring. }
  Qed.
  (** Rays of one slice change nothing in the others. *)
  Lemma slice_rays_other recon s st l s' : s' <> s -> (forall pd, In pd l -> In pd pairs) ->
    let st' := fold_left (fun st '(p, d) => gd_ray g data recon s p d st) l st in
    (forall p d, In (p, d) pairs -> fst st' (ind_data g s' p d) = fst st (ind_data g s' p d)) /\
    (forall j, (0 <= j < N)%Z -> snd st' (s' * N + j)%Z = snd st (s' * N + j)%Z).
  Proof.
    intros Hs. cbv zeta. revert st. induction l as [|(p, d) l IH]; intros (sim, grad) Hl; [split; auto|]. cbn [fold_left].
    destruct (IH (gd_ray g data recon s p d (sim, grad)) ltac:(intros; apply Hl; now right)) as [H1 H2]. pose proof (proj1 (in_pairs _ _) (Hl _ (or_introl eq_refl))) as Hp. split.
    - intros p' d' Hi. rewrite H1 by auto. unfold gd_ray. cbn [fst]. apply n_simdata_other. intros E. apply in_pairs in Hi. apply ind_data_inj in E; try tauto.
    - intros j Hj. rewrite H2 by auto. unfold gd_ray. cbn [snd]. destruct (Req_EM_T _ 0); auto. apply n_add_at_other; [now apply rays_grid|]. fold N. assert (0 < N)%Z by now apply N_pos. nia.
  Qed.
  Lemma gradient_spec recon st s u : (0 <= s < dy g)%Z -> holds s recon u -> holds s (snd (gd_gradient g data recon st)) (Gu s u).
  Proof.
    intros Hs Hu. unfold gd_gradient.
    rewrite (for_ext (dy g) _ (fun s st => fold_left (fun st '(p, d) => gd_ray g data recon s p d st) pairs st)) by (intros; apply ray_loops).
    assert (G : forall k, (0 <= k <= dy g)%Z -> let st' := for_ k (fun s st => fold_left (fun st '(p, d) => gd_ray g data recon s p d st) pairs st)
        (memset0 (Some 0) (dy g * dt g * dx g) (fst st), memset0 (Some 0) (dy g * npix g) (snd st)) in
      ((k <= s)%Z -> forall p d, In (p, d) pairs -> fst st' (ind_data g s p d) = Some 0) /\ holds s (snd st') (if (s <? k)%Z then Gu s u else fun _ => 0)).
    { intros k [Hk0 Hk]. revert Hk. pattern k. apply natlike_ind; auto.
      - intros _. rewrite for_0 by lia. cbn [fst snd]. split.
        + intros _ p d Hi. apply in_pairs in Hi. unfold memset0. pose proof (ind_data_range g s p d Hs (proj1 Hi) (proj2 Hi)). replace (_ && _)%bool with true by lia. reflexivity.
        + destruct (Z.ltb_spec s 0); [lia|]. intros j Hj. unfold memset0. pose proof (slice_range g s j Hs Hj) as Hr. unfold N. replace (_ && _)%bool with true by lia. reflexivity.
      - intros k' Hk' IH Hk. rewrite <- Z.add_1_r in *. rewrite for_S by lia. specialize (IH ltac:(lia)). cbv zeta in IH. destruct IH as [I1 I2].
        set (st' := for_ k' _ _) in *. destruct (Z.eq_dec k' s) as [->|N1].
        + split; [lia|]. destruct (Z.ltb_spec s (s + 1)); [|lia]. destruct (Z.ltb_spec s s) in I2; [lia|].
          eapply holds_ext; [|apply (slice_rays recon s u pairs st' (fun _ => 0)); auto; try apply NoDup_pairs; apply I1; lia]. intros j _. unfold Gu. cbv beta. ring.
        + destruct (slice_rays_other recon k' st' pairs s ltac:(auto) ltac:(auto)) as [H1 H2]. split.
          * intros Hle p d Hi. rewrite H1 by auto. apply I1; auto. lia.
          * intros j Hj. rewrite H2 by auto. rewrite I2 by auto. destruct (Z.ltb_spec s k'), (Z.ltb_spec s (k' + 1)); auto; lia. }
    destruct (G (dy g) ltac:(lia)) as [_ H]. destruct (Z.ltb_spec s (dy g)); [|lia]. exact H.
  Qed.

  Variable reg0 : R.
  Variable prior : option (R * arr R).
  (** The gradient with the prior, in the variable of the loop. *)
  Definition Gp (s : Z) (u : Z -> R) (j : Z) : R := Gu s u j + match prior with None => 0 | Some (reg1, z) => 2 * reg1 * (u j - z (s * N + j)%Z) end.
  Lemma add_prior_spec recon grad s u : (0 <= s < dy g)%Z -> holds s recon u -> holds s grad (Gu s u) -> holds s (add_prior g prior recon grad) (Gp s u).
  Proof.
    intros Hs Hu Hg. unfold add_prior, Gp. destruct prior as [(reg1, z)|]; [|eapply holds_ext; [|exact Hg]; intros; cbv beta; ring].
    intros j Hj. unfold N in *. unfold npix in *. rewrite (pass_cell (ngridx g) (ngridy g) (dy g) (fun s k x => nadd x (nmul (Some (2 * reg1)) (nsub (recon (s * (ngridx g * ngridy g) + k)%Z) (Some (z (s * (ngridx g * ngridy g) + k)%Z)))))) by auto.
    rewrite Hg, Hu by auto. reflexivity.
  Qed.
  Lemma update_spec lambda grad recon s u v : (0 <= s < dy g)%Z -> holds s recon u -> holds s grad v ->
    forall j, (0 <= j < N)%Z -> gd_update g lambda grad recon (s * N + j)%Z = nsub (Some (u j)) (nmul (lambda s) (Some (v j))).
  Proof.
    intros Hs Hu Hg j Hj. unfold gd_update. unfold N in *. unfold npix in *. rewrite (pass_cell (ngridx g) (ngridy g) (dy g) (fun s k x => nsub x (nmul (lambda s) (grad (s * (ngridx g * ngridy g) + k)%Z)))) by auto.
    rewrite Hg, Hu by auto. reflexivity.
  Qed.
  Lemma scale_in_spec recon s f : (0 <= s < dy g)%Z -> holds s recon f -> holds s (scale_in g recon) (fun j => f j / r).
  Proof.
    intros Hs Hf j Hj. unfold scale_in. unfold N in *. unfold npix in *. rewrite (pass_cell (ngridx g) (ngridy g) (dy g) (fun s k x => ndiv x (Some (scale_r g)))) by auto.
    rewrite Hf by auto. cbn. pose proof r_pos. unfold r in *. destruct (Req_EM_T (scale_r g) 0); [lra|reflexivity].
  Qed.
  Lemma scale_out_spec recon s j : (0 <= s < dy g)%Z -> (0 <= j < N)%Z -> scale_out g recon (s * N + j)%Z = nmul (recon (s * N + j)%Z) (Some r).
  Proof.
    intros Hs Hj. unfold scale_out. unfold N in *. unfold npix in *. now rewrite (pass_cell (ngridx g) (ngridy g) (dy g) (fun s k x => nmul x (Some (scale_r g)))) by auto.
  Qed.
  (** The two sums of the step length. *)
  Lemma sum_fold (f h : Z -> R) l a b : fold_left (fun s k => let '(x, y) := s in (nadd x (Some (f k)), nadd y (Some (h k)))) l (Some a, Some b)
    = (Some (a + lsum f l), Some (b + lsum h l)).
  Proof.
    revert a b. induction l as [|k l IH]; intros a b; cbn [fold_left].
    - unfold lsum; cbn. do 2 f_equal; lra.
    - cbn [nadd]. rewrite IH. rewrite !lsum_cons. do 2 f_equal; lra.
  Qed.
  Lemma lsum_perm {A} (f : A -> R) l l' : Permutation l l' -> lsum f l = lsum f l'.
  Proof. induction 1; rewrite ?lsum_cons; try lra. Qed.
  Lemma cells_sum f : lsum f (cells (ngridx g) (ngridy g) (ngridx g)) = zsum N f.
  Proof.
    unfold zsum. apply lsum_perm, NoDup_Permutation; [apply NoDup_cells; lia|apply NoDup_zrange|]. intros k. rewrite cells_all by auto. rewrite in_zrange. reflexivity.
  Qed.
  Lemma lambda_spec i recon recon0 grad grad0 s u u0 v v0 : (0 <= s < dy g)%Z -> holds s recon u -> holds s recon0 u0 -> holds s grad v -> holds s grad0 v0 ->
    gd_lambda g reg0 i recon recon0 grad grad0 s =
    if rltb reg0 0 then if (i =? 0)%Z then Some (1 / 1000) else ndiv (Some (prod N (fun j => u j - u0 j) (fun j => v j - v0 j))) (Some (prod N (fun j => v j - v0 j) (fun j => v j - v0 j)))
    else Some reg0.
  Proof.
    intros Hs Hu Hu0 Hv Hv0. unfold gd_lambda. destruct (rltb reg0 0); auto. destruct (i =? 0)%Z; auto. rewrite for_grid_fold.
    match goal with |- context [fold_left ?F ?l ?a] => assert (E : forall l', (forall k, In k l' -> (0 <= k < N)%Z) -> forall st, fold_left F l' st
      = fold_left (fun s k => let '(x, y) := s in (nadd x (Some ((u k - u0 k) * (v k - v0 k))), nadd y (Some ((v k - v0 k) * (v k - v0 k))))) l' st) end.
    { induction l' as [|k l' IH]; intros Hl (x, y); cbn [fold_left]; auto. fold N. assert (Hk : (0 <= k < N)%Z) by (apply Hl; now left). rewrite Hu, Hu0, Hv, Hv0 by auto. cbn [nsub nmul]. apply IH. intros; apply Hl; now right. }
    rewrite E by (intros k Hk; now apply cells_all in Hk). rewrite sum_fold, !cells_sum, !Rplus_0_l. reflexivity.
  Qed.
  (** One iteration of one slice. *)
  Lemma iter_spec i s recon recon0 grad0 sim gr u u0 v0 : (0 <= s < dy g)%Z -> holds s recon u -> holds s recon0 u0 -> holds s grad0 v0 ->
    let '(recon', recon0', grad0', _, _) := gd_iter g data reg0 prior i (recon, recon0, grad0, sim, gr) in
    let lam := if rltb reg0 0 then if (i =? 0)%Z then Some (1 / 1000) else ndiv (Some (prod N (fun j => u j - u0 j) (fun j => Gp s u j - v0 j))) (Some (prod N (fun j => Gp s u j - v0 j) (fun j => Gp s u j - v0 j)))
               else Some reg0 in
    holds s recon0' u /\ holds s grad0' (Gp s u) /\ forall j, (0 <= j < N)%Z -> recon' (s * N + j)%Z = nsub (Some (u j)) (nmul lam (Some (Gp s u j))).
  Proof.
    intros Hs Hu Hu0 Hv0. unfold gd_iter. destruct (gd_gradient g data recon (sim, gr)) as (sim', gr') eqn:E.
    assert (Hg : holds s gr' (Gu s u)) by (pose proof (gradient_spec recon (sim, gr) s u Hs Hu) as G; rewrite E in G; exact G).
    pose proof (add_prior_spec recon gr' s u Hs Hu Hg) as Hp. split; [exact Hu|]. split; [exact Hp|]. intros j Hj.
    rewrite (update_spec _ _ _ s u (Gp s u)) by auto. now rewrite (lambda_spec i recon recon0 _ grad0 s u u0 (Gp s u) v0).
  Qed.

  (** ** In the variable X = r u of the caller *)
  Definition gam : R := match prior with None => 0 | Some (reg1, _) => reg1 / (r * r) end.
  Definition cen (s j : Z) : R := match prior with None => 0 | Some (_, z) => r * z (s * N + j)%Z end.
  Definition Sl (s : Z) (X : Z -> R) (j : Z) : R := slope N pairs (Rw s) (bb s) X j + 2 * gam * (X j - cen s j).
  Lemma Gp_slope s X j : (0 <= j < N)%Z -> Gp s (fun j => X j / r) j = r * Sl s X j.
  Proof.
    intros Hj. pose proof r_pos as Hr. unfold Gp, Sl.
    assert (E : Gu s (fun j => X j / r) j = r * slope N pairs (Rw s) (bb s) X j).
    { unfold Gu, slope, bwd. rewrite <- !lsum_scal. apply lsum_ext. intros pd _. unfold residual.
      rewrite (fwd_ext N (Rw s) (fun j => X j / r) (fun j => / r * X j + 0 * X j)) by (intros; field; lra). rewrite fwd_lin. field. lra. }
    rewrite E. unfold gam, cen. destruct prior as [(reg1, z)|]; [field; lra|ring].
  Qed.
  Lemma gam_nonneg : match prior with None => True | Some (reg1, _) => 0 <= reg1 end -> 0 <= gam.
  Proof. intros Hgam. unfold gam. pose proof r_pos. destruct prior as [(reg1, z)|]; [|lra]. apply Rle_mult_inv_pos; auto. nra. Qed.

  Variables recon simdata gr gr0 : arr number.
  Definition gd_at (n : Z) : gd_state :=
    for_ n (gd_iter g data reg0 prior) (scale_in g recon, scale_in g recon, memset0 (Some 0) (dy g * N) gr0, simdata, gr).
  Definition res (n : Z) : arr number := gd_solve g data reg0 prior n recon simdata gr gr0.
  Definition st_recon (st : gd_state) : arr number := let '(a, _, _, _, _) := st in a.
  Definition st_recon0 (st : gd_state) : arr number := let '(_, a, _, _, _) := st in a.
  Definition st_grad0 (st : gd_state) : arr number := let '(_, _, a, _, _) := st in a.
  Lemma res_at n s j : (0 <= s < dy g)%Z -> (0 <= j < N)%Z -> res n (s * N + j)%Z = nmul (st_recon (gd_at n) (s * N + j)%Z) (Some r).
  Proof.
    intros Hs Hj. unfold res, gd_solve. unfold empty. destruct (Z.eqb_spec (dy g) 0), (Z.eqb_spec (dt g) 0), (Z.eqb_spec (dx g) 0); try lia. cbn [orb].
    fold N. fold (gd_at n). destruct (gd_at n) as ((((a, b), c), d), e). now apply scale_out_spec.
  Qed.
  Lemma res_holds n s X : (0 <= s < dy g)%Z -> (holds s (res n) X <-> holds s (st_recon (gd_at n)) (fun j => X j / r)).
  Proof.
    intros Hs. pose proof r_pos as Hr. split; intros H j Hj; specialize (H j Hj).
    - rewrite res_at in H by auto. destruct (st_recon (gd_at n) (s * N + j)%Z) as [v|]; cbn in H; [|discriminate]. injection H as <-. f_equal. field. lra.
    - rewrite res_at, H by auto. cbn. f_equal. field. lra.
  Qed.
  Lemma res_0 s X : (0 <= s < dy g)%Z -> holds s recon X -> holds s (res 0) X.
  Proof. intros Hs H. apply res_holds; auto. unfold gd_at. rewrite for_0 by lia. cbn. now apply scale_in_spec. Qed.
  Definition lam_at (n s : Z) (X X0 : Z -> R) : number :=
    if rltb reg0 0 then if (n =? 0)%Z then Some (1 / 1000)
      else ndiv (Some (prod N (fun j => X j / r - X0 j / r) (fun j => Gp s (fun j => X j / r) j - Gp s (fun j => X0 j / r) j)))
                (Some (prod N (fun j => Gp s (fun j => X j / r) j - Gp s (fun j => X0 j / r) j) (fun j => Gp s (fun j => X j / r) j - Gp s (fun j => X0 j / r) j)))
    else Some reg0.
  Lemma res_step n s X X0 : (0 <= n)%Z -> (0 <= s < dy g)%Z -> holds s (res n) X -> ((1 <= n)%Z -> holds s (res (n - 1)) X0) ->
    forall j, (0 <= j < N)%Z -> res (n + 1) (s * N + j)%Z = nmul (nsub (Some (X j / r)) (nmul (lam_at n s X X0) (Some (r * Sl s X j)))) (Some r).
  Proof.
    intros Hn Hs H H0 j Hj. rewrite res_at by auto. f_equal. apply res_holds in H; auto. unfold gd_at. rewrite for_S by lia. fold (gd_at n).
    set (u := fun j => X j / r) in *. set (u0 := fun j => X0 j / r).
    assert (P : exists u1 v1, holds s (st_recon0 (gd_at n)) u1 /\ holds s (st_grad0 (gd_at n)) v1 /\ ((1 <= n)%Z -> (forall j, u1 j = u0 j) /\ forall j, v1 j = Gp s u0 j)).
    { destruct (Z.eq_dec n 0) as [->|Hn0].
      - exists u, (fun _ => 0). unfold gd_at in *. rewrite for_0 in * by lia. cbn [st_recon st_recon0 st_grad0] in *. repeat split; try lia; auto.
        intros i Hi. unfold memset0. pose proof (slice_range g s i Hs Hi) as Hr. unfold N. replace (_ && _)%bool with true by lia. reflexivity.
      - exists u0, (Gp s u0). specialize (H0 ltac:(lia)). apply res_holds in H0; auto. fold u0 in H0. unfold gd_at. replace n with ((n - 1) + 1)%Z by lia. rewrite for_S by lia. fold (gd_at (n - 1)).
        destruct (gd_at (n - 1)) as ((((a, b), c), d), e). cbn [st_recon] in H0. unfold gd_iter. destruct (gd_gradient g data a (d, e)) as (sim', gr') eqn:E.
        cbn [st_recon0 st_grad0]. split; [exact H0|]. split; [|auto]. apply add_prior_spec; auto.
        pose proof (gradient_spec a (d, e) s u0 Hs H0) as G. rewrite E in G. exact G. }
    destruct P as (u1 & v1 & P1 & P2 & P3). destruct (gd_at n) as ((((a, b), c), d), e). cbn [st_recon st_recon0 st_grad0] in *.
    pose proof (iter_spec n s a b c d e u u1 v1 Hs H P1 P2) as I. destruct (gd_iter g data reg0 prior n (a, b, c, d, e)) as ((((a', b'), c'), d'), e'). cbn [st_recon].
    destruct I as (_ & _ & I). rewrite I by auto. replace (Gp s u j) with (r * Sl s X j) by (symmetry; now apply Gp_slope). f_equal. f_equal. unfold lam_at. destruct (rltb reg0 0); auto. destruct (Z.eqb_spec n 0); auto.
    destruct (P3 ltac:(lia)) as [Q1 Q2].
    assert (Ea : prod N (fun j => u j - u1 j) (fun j => Gp s u j - v1 j) = prod N (fun j => u j - u0 j) (fun j => Gp s u j - Gp s u0 j)) by (apply prod_ext; intros; now rewrite ?Q1, ?Q2).
    assert (Eb : prod N (fun j => Gp s u j - v1 j) (fun j => Gp s u j - v1 j) = prod N (fun j => Gp s u j - Gp s u0 j) (fun j => Gp s u j - Gp s u0 j)) by (apply prod_ext; intros; now rewrite ?Q2).
    rewrite Ea, Eb. reflexivity.
  Qed.
  (** lambda >= 0: a fixed step *)
  Lemma step_fixed n s X : 0 <= reg0 -> (0 <= n)%Z -> (0 <= s < dy g)%Z -> holds s (res n) X ->
    holds s (res (n + 1)) (fun j => X j - reg0 * (r * r) * Sl s X j).
  Proof.
    intros H0 Hn Hs H j Hj. pose proof r_pos as Hr.
    assert (R0 : rltb reg0 0 = false) by (unfold rltb; destruct (Rlt_dec reg0 0); [lra|reflexivity]).
    assert (E : forall X0, res (n + 1) (s * N + j)%Z = nmul (nsub (Some (X j / r)) (nmul (lam_at n s X X0) (Some (r * Sl s X j)))) (Some r) -> res (n + 1) (s * N + j)%Z = Some (X j - reg0 * (r * r) * Sl s X j)).
    { intros X0 ->. unfold lam_at. rewrite R0. cbn. f_equal. field. lra. }
    destruct (Z.eq_dec n 0) as [->|Hn0]; [apply (E X); apply (res_step 0 s X X); auto; lia|].
    (* the previous image does not matter *)
    clear E. rewrite res_at by auto. apply res_holds in H; auto. unfold gd_at. rewrite for_S by lia. fold (gd_at n).
    destruct (gd_at n) as ((((a, b), c), d), e). cbn [st_recon] in *. unfold gd_iter. destruct (gd_gradient g data a (d, e)) as (sim', gr') eqn:E. cbn [st_recon].
    assert (Hg : holds s gr' (Gu s (fun j => X j / r))) by (pose proof (gradient_spec a (d, e) s _ Hs H) as G; rewrite E in G; exact G).
    pose proof (add_prior_spec a gr' s _ Hs H Hg) as Hp. rewrite (update_spec _ _ _ s _ _ Hs H Hp) by auto. rewrite Gp_slope by auto. unfold gd_lambda. rewrite R0. cbn. f_equal. field. lra.
  Qed.
  (** lambda < 0: the first step, then Barzilai and Borwein's *)
  Lemma step_first s X : reg0 < 0 -> (0 <= s < dy g)%Z -> holds s recon X -> holds s (res 1) (fun j => X j - r * r / 1000 * Sl s X j).
  Proof.
    intros H0 Hs H j Hj. pose proof r_pos as Hr. change 1%Z with (0 + 1)%Z. rewrite (res_step 0 s X X); auto; try lia; [|now apply res_0].
    unfold lam_at. assert (rltb reg0 0 = true) as -> by (unfold rltb; destruct (Rlt_dec reg0 0); [reflexivity|lra]). cbn. f_equal. field. lra.
  Qed.
  Lemma step_bb n s X X0 : reg0 < 0 -> (1 <= n)%Z -> (0 <= s < dy g)%Z -> holds s (res n) X -> holds s (res (n - 1)) X0 ->
    forall j, (0 <= j < N)%Z -> res (n + 1) (s * N + j)%Z =
      nsub (Some (X j)) (nmul (ndiv (Some (prod N (fun j => X j - X0 j) (fun j => Sl s X j - Sl s X0 j))) (Some (prod N (fun j => Sl s X j - Sl s X0 j) (fun j => Sl s X j - Sl s X0 j)))) (Some (Sl s X j))).
  Proof.
    intros H0 Hn Hs H H1 j Hj. pose proof r_pos as Hr. rewrite (res_step n s X X0); auto; try lia.
    unfold lam_at. assert (rltb reg0 0 = true) as -> by (unfold rltb; destruct (Rlt_dec reg0 0); [reflexivity|lra]).
    destruct (Z.eqb_spec n 0); [lia|].
    rewrite (prod_ext N (fun j => X j / r - X0 j / r) (fun j => Gp s (fun j => X j / r) j - Gp s (fun j => X0 j / r) j) (fun j => / r * (X j - X0 j)) (fun j => r * (Sl s X j - Sl s X0 j))) by (intros; rewrite ?Gp_slope by auto; field; lra).
    rewrite (prod_ext N (fun j => Gp s (fun j => X j / r) j - Gp s (fun j => X0 j / r) j) (fun j => Gp s (fun j => X j / r) j - Gp s (fun j => X0 j / r) j) (fun j => r * (Sl s X j - Sl s X0 j)) (fun j => r * (Sl s X j - Sl s X0 j))) by (intros; rewrite !Gp_slope by auto; ring).
    rewrite !prod_scal_l, !prod_scal_r. set (p := prod N _ _). set (q := prod N _ _). unfold ndiv.
    destruct (Req_EM_T q 0) as [Eq|Eq], (Req_EM_T (r * (r * q)) 0) as [E2|E2]; cbn; auto.
    - exfalso. apply E2. rewrite Eq. ring.
    - exfalso. apply Eq. apply Rmult_integral in E2 as [?|E2]; [lra|]. apply Rmult_integral in E2 as [?|E2]; lra.
    - f_equal. field. lra.
  Qed.
End Gd.
