(** Projection, back projection and the iterative solvers (libtomo/recon), exact real arithmetic. *)
From Verif Require Import Base CLoop Model_Prep Model_Ray Model_Solver Proofs_Prep Proofs_Morph Proofs_Ray Properties_Ray Proofs_Solver Proofs_Art Proofs_Subsets Proofs_Bart Proofs_Em Proofs_Unit.
From Coq Require Import Reals Lra Psatz Sorting.Permutation.
Local Open Scope R_scope.

(** ** Vocabulary *)
(** A ray is a list of (pixel, length); its sum over an image. *)
Definition ray_sum (segs : list (Z * R)) (image : Z -> R) : R := rsum (map (fun '(i, w) => image i * w) segs).
(** Total length of a ray inside pixel j. *)
Definition inside_length (segs : list (Z * R)) (j : Z) : R := rsum (map (fun '(i, w) => if (j =? i)%Z then w else 0) segs).
Definition total_length (segs : list (Z * R)) : R := rsum (map snd segs).
Definition total_square (segs : list (Z * R)) : R := rsum (map (fun '(_, w) => w * w) segs).
(** Sum over 0 <= i < n. *)
Definition total (n : Z) (f : Z -> R) : R := rsum (map f (zrange 0 n)).
(** Slice s of a flat volume. *)
Definition image_of {A} (g : geom) (v : arr A) (s : Z) : Z -> A := fun j => v (j + s * npix g)%Z.
Definition valid (g : geom) : Prop := (1 <= ngridx g /\ 1 <= ngridy g /\ 1 <= dy g /\ 1 <= dt g /\ 1 <= dx g)%Z.
Definition is_ray (g : geom) (p d : Z) : Prop := (0 <= p < dt g /\ 0 <= d < dx g)%Z.
Definition is_pixel (g : geom) (j : Z) : Prop := (0 <= j < npix g)%Z.
(** ind_block is a permutation of 0 .. dt-1. *)
Definition permutes (n : Z) (f : Z -> Z) : Prop :=
  (forall q, (0 <= q < n)%Z -> (0 <= f q < n)%Z) /\
  (forall q q', (0 <= q < n)%Z -> (0 <= q' < n)%Z -> f q = f q' -> q = q').
(** The image z has the measured ray sums, with the rays of centre c. *)
Definition consistent (g : geom) (c s : Z) (data : arr R) (z : Z -> R) : Prop :=
  forall p d, is_ray g p d -> ray_sum (rays g c p d) z = data (ind_data g s p d).
Definition distance2 (g : geom) (x z : Z -> R) : R := total (npix g) (fun j => (x j - z j) * (x j - z j)).
Definition finite (g : geom) (v : arr number) (image : Z -> Z -> R) : Prop :=
  forall s j, (0 <= s < dy g)%Z -> is_pixel g j -> v (j + s * npix g)%Z = Some (image s j).

Lemma inside_length_wt segs j : inside_length segs j = wt segs j.
Proof. unfold inside_length, rsum. induction segs as [|[i w] l IH]; cbn in *; auto. now rewrite IH. Qed.

(** ** C23: projection and back projection *)
Theorem C23_ray_sums : forall g obj data s p d, valid g -> (0 <= s < dy g)%Z -> is_ray g p d ->
  project g obj data (ind_data g s p d) = data (ind_data g s p d) + ray_sum (rays g 0 p d) (image_of g obj s).
Proof.
  intros g obj data s p d (H1 & H2 & H3 & H4 & H5) Hs [Hp Hd]. rewrite project_spec by lia. f_equal.
  rewrite (zsum_ext (dt g) _ (fun p' => if (p' =? p)%Z then ray_sum (rays g 0 p d) (image_of g obj s) else 0)).
  - apply zsum_single; auto.
  - intros p' Hp'.
    rewrite (zsum_ext (dx g) _ (fun d' => if (d' =? d)%Z then (if (p' =? p)%Z then ray_sum (rays g 0 p d) (image_of g obj s) else 0) else 0)).
    + apply zsum_single; auto.
    + intros d' Hd'.
      rewrite (zsum_ext (dy g) _ (fun s' => if (s' =? s)%Z then (if (d' =? d)%Z then (if (p' =? p)%Z then ray_sum (rays g 0 p d) (image_of g obj s) else 0) else 0) else 0)).
      * apply zsum_single; auto.
      * intros s' Hs'. destruct (ind_data g s p d =? ind_data g s' p' d')%Z eqn:E.
        { apply Z.eqb_eq, ind_data_inj in E as (<- & <- & <-); auto. rewrite !Z.eqb_refl. reflexivity. }
        { destruct (s' =? s)%Z eqn:E1, (d' =? d)%Z eqn:E2, (p' =? p)%Z eqn:E3; auto.
          apply Z.eqb_eq in E1, E2, E3. subst. rewrite Z.eqb_refl in E. discriminate. }
Qed.
Theorem C23_linear : forall g a b x y i, valid g ->
  project g (fun k => a * x k + b * y k) (fun _ => 0) i = a * project g x (fun _ => 0) i + b * project g y (fun _ => 0) i.
Proof.
  intros g a b x y i (H1 & H2 & H3 & H4 & H5). rewrite !project_spec by lia. rewrite !Rplus_0_l, <- !zsum_scal, <- zsum_plus.
  apply zsum_ext. intros p Hp. rewrite <- !zsum_scal, <- zsum_plus. apply zsum_ext. intros d Hd.
  rewrite <- !zsum_scal, <- zsum_plus. apply zsum_ext. intros s Hs. destruct (_ =? _)%Z; [|lra]. apply dot_lin.
Qed.
Theorem C23_back_projection : forall g data recon s j, valid g -> (0 <= s < dy g)%Z -> is_pixel g j ->
  fbp g data recon (j + s * npix g)%Z = recon (j + s * npix g)%Z +
    total (dt g) (fun p => total (dx g) (fun d => data (ind_data g s p d) * inside_length (rays g s p d) j)).
Proof.
  intros g data recon s j (H1 & H2 & H3 & H4 & H5) Hs Hj. rewrite fbp_spec by lia. f_equal.
  rewrite (zsum_ext (dy g) _ (fun s' => if (s' =? s)%Z then total (dt g) (fun p => total (dx g) (fun d => data (ind_data g s p d) * inside_length (rays g s p d) j)) else 0)).
  - apply zsum_single; auto.
  - intros s' Hs'. destruct (s' =? s)%Z eqn:E.
    + apply Z.eqb_eq in E as ->. apply zsum_ext. intros p Hp. apply zsum_ext. intros d Hd.
      rewrite inside_length_wt. do 2 f_equal. lia.
    + apply zsum_zero. intros p Hp. apply zsum_zero. intros d Hd. rewrite wt_outside; [lra|lia|lia|].
      apply Z.eqb_neq in E. unfold is_pixel in Hj.
      destruct (Z.lt_ge_cases s' s); [right|left].
      * assert (1 * npix g <= (s - s') * npix g)%Z by (apply Z.mul_le_mono_nonneg_r; lia). lia.
      * assert (1 * npix g <= (s' - s) * npix g)%Z by (apply Z.mul_le_mono_nonneg_r; lia). lia.
Qed.
(** If all slices share the centre, the two operations are adjoint. *)
Theorem C23_adjoint : forall g x y, valid g -> (forall s, (0 <= s < dy g)%Z -> center g s = center g 0%Z) ->
  total (dy g * dt g * dx g) (fun i => project g x (fun _ => 0) i * y i)
  = total (dy g * npix g) (fun i => x i * fbp g y (fun _ => 0) i).
Proof. intros g x y (H1 & H2 & H3 & H4 & H5) Hc. apply adjoint; auto; lia. Qed.
(** One pixel, one ray straight through it. *)
Definition unit_geom (dy : Z) (center : arr R) : geom := mkGeom 1 1 dy 1 1 center (fun _ => 0).
Lemma unit_rays n c k : c k = 1 / 2 -> rays (unit_geom n c) k 0 0 = [(0%Z, 1)].
Proof. intros E. unfold rays, unit_geom. cbn. rewrite E. apply unit_ray. Qed.
Lemma far_rays n c k : c k = 10 -> rays (unit_geom n c) k 0 0 = [].
Proof. intros E. unfold rays, unit_geom. cbn. rewrite E. apply far_ray. Qed.
Lemma unit_valid n c : (1 <= n)%Z -> valid (unit_geom n c).
Proof. unfold valid, unit_geom. cbn. lia. Qed.
Example C23_ex : project (unit_geom 1 (fun _ => 1 / 2)) (fun _ => 7) (fun _ => 0) 0%Z = 7.
Proof.
  change 0%Z with (ind_data (unit_geom 1 (fun _ => 1 / 2)) 0 0 0) at 2.
  rewrite C23_ray_sums; [|apply unit_valid; lia|cbn; lia|unfold is_ray; cbn; lia]. rewrite unit_rays by auto.
  unfold ray_sum, image_of, rsum. cbn. lra.
Qed.

(** ** C24: ART *)
(** One visit of a ray makes its equation hold, in every slice. *)
Theorem C24_ray_equation : forall g data p d recon simdata s, valid g -> is_ray g p d -> (0 <= s < dy g)%Z ->
  angle_ok (theta g p) -> (exists i w, In (i, w) (rays g 0 p d) /\ w <> 0) ->
  (forall s', (0 <= s' < dy g)%Z -> simdata (ind_data g s' p d) = 0) ->
  ray_sum (rays g 0 p d) (image_of g (fst (art_ray g data p d (recon, simdata))) s) = data (ind_data g s p d).
Proof.
  intros g data p d recon sim s (H1 & H2 & H3 & H4 & H5) [Hp Hd] Hs Ha (i & w & Hi & Hw) H0.
  destruct (art_ray_spec g H1 H2 data p d recon sim Hp Hd H0) as (A & _).
  assert (sum_dist2 (rays g 0 p d) <> 0) by (intros E; apply Hw; exact (proj1 (sum_dist2_zero _) E i w Hi)).
  change (dot (rays g 0 p d) (image_of g (fst (art_ray g data p d (recon, sim))) s) = data (ind_data g s p d)).
  rewrite (dot_ext (npix g) _ _ (kaczmarz (rays g 0 p d) (data (ind_data g s p d)) (slice g s recon))).
  - apply kaczmarz_sum with (g := g); auto; [now apply rays_distinct|now apply rays_grid].
  - now apply rays_grid.
  - intros j Hj. now apply A.
Qed.
(** After any number of iterations the equation of the last ray holds. *)
Theorem C24_last_ray : forall g data num_iter recon simdata s, valid g -> (1 <= num_iter)%Z -> (0 <= s < dy g)%Z ->
  angle_ok (theta g (dt g - 1)%Z) -> (exists i w, In (i, w) (rays g 0 (dt g - 1) (dx g - 1)) /\ w <> 0) ->
  ray_sum (rays g 0 (dt g - 1) (dx g - 1)) (image_of g (art g data num_iter recon simdata) s)
  = data (ind_data g s (dt g - 1) (dx g - 1)).
Proof.
  intros g data n recon sim s (H1 & H2 & H3 & H4 & H5) Hn Hs Ha (i & w & Hi & Hw).
  apply art_last; auto. intros E; apply Hw; exact (proj1 (sum_dist2_zero _) E i w Hi).
Qed.
(** Images that already reproduce the data are not changed, for every angle. *)
Theorem C24_fixed_point : forall g data num_iter recon simdata, valid g ->
  (forall s, (0 <= s < dy g)%Z -> consistent g 0 s data (image_of g recon s)) ->
  forall s j, (0 <= s < dy g)%Z -> is_pixel g j ->
  art g data num_iter recon simdata (j + s * npix g)%Z = recon (j + s * npix g)%Z.
Proof.
  intros g data n recon sim (H1 & H2 & H3 & H4 & H5) Hc s j Hs Hj. apply art_fixed; auto; try lia.
  intros s' Hs' p d Hp Hd. apply (Hc s' Hs'). now split.
Qed.
(** The distance to every image that reproduces the data never grows. *)
Theorem C24_never_farther : forall g data num_iter recon simdata z s, valid g -> (0 <= s < dy g)%Z ->
  (forall p, (0 <= p < dt g)%Z -> angle_ok (theta g p)) -> consistent g 0 s data z ->
  distance2 g (image_of g (art g data num_iter recon simdata) s) z <= distance2 g (image_of g recon s) z.
Proof.
  intros g data n recon sim z s (H1 & H2 & H3 & H4 & H5) Hs Ha Hc.
  apply (art_closer g H1 H2 data n recon sim z s); auto; try lia. intros p d Hp Hd. apply Hc. now split.
Qed.
Example C24_ex : art (unit_geom 1 (fun _ => 1 / 2)) (fun _ => 3) 1 (fun _ => 0) (fun _ => 0) 0%Z = 3.
Proof.
  set (g := unit_geom 1 (fun _ => 1 / 2)).
  pose proof (C24_last_ray g (fun _ => 3) 1 (fun _ => 0) (fun _ => 0) 0 (unit_valid 1 _ ltac:(lia)) ltac:(lia) ltac:(cbn; lia)) as H.
  change (dt g - 1)%Z with 0%Z in H. change (dx g - 1)%Z with 0%Z in H. unfold g in H at 2 3. rewrite unit_rays in H by auto.
  unfold ray_sum, image_of, rsum in H. cbn [map fold_right] in H. rewrite Rmult_1_r, Rplus_0_r in H. apply H.
  - right. cbn. rewrite sin_0. lra.
  - exists 0%Z, 1. split; [now left|lra].
Qed.

(** ** C25: SIRT and BART *)
(** The projections are visited in the order of ind_block (in their own order if there is one subset). *)
Definition order_ok (g : geom) (num_block : Z) (ind_block : arr Z) : Prop :=
  (1 <= num_block)%Z /\ (num_block = 1%Z \/ permutes (dt g) ind_block).
Lemma order_pick g nb ib : order_ok g nb ib -> permutes (dt g) (pick nb ib).
Proof.
  intros [_ [->|H]]; unfold permutes, pick; [rewrite Z.eqb_refl; auto|].
  destruct (nb =? 1)%Z; [auto|exact H].
Qed.
Lemma run_invariant rl vR cR (ok : R -> R -> R -> Prop) (P : Z -> (Z -> R) -> Prop) g data nb ib n recon sim sd up m :
  (forall b s s2, s2 <> 0 -> ok b s s2 -> value rl b (Some s) s2 = Some (vR b s s2)) ->
  (forall x u sd, sd <> 0 -> correct rl (Some x) (Some u) sd = Some (cR x u sd)) ->
  valid g -> order_ok g nb ib ->
  (forall s m, P s m -> all_ok g data ok s m) ->
  (forall s m L, (0 <= s < dy g)%Z -> in_range g L -> P s m -> P s (step g data vR cR s L m)) ->
  finite g recon m -> (forall s, (0 <= s < dy g)%Z -> P s (m s)) ->
  let m' s := sweeps g data nb ib vR cR (Z.to_nat n) s (m s) in
  finite g (os_solve g rl data nb ib n recon sim sd up) m' /\ forall s, (0 <= s < dy g)%Z -> P s (m' s).
Proof.
  intros Hv Hc (H1 & H2 & H3 & H4 & H5) Ho HPok HPstep Hr HP m'. pose proof (order_pick g nb ib Ho) as [Hp Hi]. destruct Ho as [Hnb _].
  destruct (solve_run g H1 H2 rl data nb ib vR cR ok Hv Hc Hnb ltac:(lia) Hp Hi P HPok) with (num_iter := n) (recon := recon) (sim := sim) (sd := sd) (up := up) (m := m)
    as [A _]; try lia; auto.
  - intros s mm L Hs HL. apply HPstep; auto. unfold blocks in HL. apply in_map_iff in HL as (os & <- & Hos). apply in_zrange in Hos.
    assert (Hle : (bnd g nb (os + 1) <= dt g)%Z).
    { rewrite <- (bnd_all g nb ib) by lia. apply (bnd_mono g nb ib); lia. }
    assert (0 <= bnd g nb os)%Z by (rewrite <- (bnd_0 g nb); apply (bnd_mono g nb ib); lia).
    apply pairs_range; auto; lia.
  - intros s Hs. split; auto. intros j Hj. now apply Hr.
  - split; [intros s j Hs Hj; now apply A|intros s Hs; now apply A].
Qed.
(** Every value stays finite. *)
Theorem C25_finite : forall g data num_block ind_block num_iter recon simdata sum_dist update image,
  valid g -> order_ok g num_block ind_block -> finite g recon image ->
  exists image', finite g (bart g data num_block ind_block num_iter recon simdata sum_dist update) image'.
Proof.
  intros g data nb ib n recon sim sd up m Hg Ho Hr. eexists.
  apply (run_invariant bart_rule bart_v bart_c (fun _ _ _ => True) (fun _ _ => True) g data nb ib n recon sim sd up m); auto.
  - intros b s s2. apply bart_Hv.
  - apply bart_Hc.
  - intros s m' _ p d _ _ _. exact I.
Qed.
(** Images that already reproduce the data are not changed. *)
Theorem C25_fixed_point : forall g data num_block ind_block num_iter recon simdata sum_dist update image,
  valid g -> order_ok g num_block ind_block -> finite g recon image ->
  (forall s, (0 <= s < dy g)%Z -> consistent g s s data (image s)) ->
  finite g (bart g data num_block ind_block num_iter recon simdata sum_dist update) image.
Proof.
  intros g data nb ib n recon sim sd up m Hg Ho Hr Hc.
  pose (P s (x : Z -> R) := forall j, is_pixel g j -> x j = m s j).
  pose proof Hg as (H1 & H2 & _).
  destruct (run_invariant bart_rule bart_v bart_c (fun _ _ _ => True) P g data nb ib n recon sim sd up m) as [A B]; auto.
  - intros b s s2. apply bart_Hv.
  - apply bart_Hc.
  - intros s m' _ p d _ _ _. exact I.
  - intros s x L Hs HL HP j Hj. unfold step. destruct (Req_EM_T _ 0); [now apply HP|].
    unfold bart_c. rewrite HP by auto. replace (upd_sum g data bart_v s L x j) with 0; [unfold Rdiv; lra|]. symmetry.
    unfold upd_sum. rewrite (lsum_ext _ (fun _ => 0)); [clear; unfold lsum, rsum; induction L; cbn in *; lra|].
    intros [p d] Hin. cbv zeta. destruct (Req_EM_T _ 0); auto. unfold bart_v.
    rewrite (dot_ext (npix g) _ x (m s)) by (auto; now apply rays_grid).
    rewrite <- (Hc s Hs p d (HL p d Hin)). unfold ray_sum, dot. unfold Rdiv. ring.
  - unfold P. auto.
  - intros s j Hs Hj. unfold bart. rewrite (A s j Hs Hj). f_equal. now apply B.
Qed.
(** Pixels that no ray crosses are not changed. *)
Theorem C25_unhit : forall g data num_block ind_block num_iter recon simdata sum_dist update image s j,
  valid g -> order_ok g num_block ind_block -> finite g recon image -> (0 <= s < dy g)%Z -> is_pixel g j ->
  (forall p d, is_ray g p d -> inside_length (rays g s p d) j = 0) ->
  bart g data num_block ind_block num_iter recon simdata sum_dist update (j + s * npix g)%Z = Some (image s j).
Proof.
  intros g data nb ib n recon sim sd up m s j Hg Ho Hr Hs Hj Hz.
  pose (P s' (x : Z -> R) := s' = s -> x j = m s j).
  destruct (run_invariant bart_rule bart_v bart_c (fun _ _ _ => True) P g data nb ib n recon sim sd up m) as [A B]; auto.
  - intros b s' s2. apply bart_Hv.
  - apply bart_Hc.
  - intros s' m' _ p d _ _ _. exact I.
  - intros s' x L Hs' HL HP ->. unfold step. destruct (Req_EM_T _ 0) as [|E]; [now apply HP|]. exfalso. apply E.
    unfold hits_sum. rewrite (lsum_ext _ (fun _ => 0)); [clear; unfold lsum, rsum; induction L; cbn in *; lra|].
    intros [p d] Hin. rewrite <- inside_length_wt. apply Hz. exact (HL p d Hin).
  - intros s' _ ->. reflexivity.
  - unfold bart. rewrite (A s j Hs Hj). f_equal. now apply B.
Qed.

(** ** C57: SIRT on consistent data *)
Lemma sweeps_1 g data vR cR n s m : sweeps g data 1 (fun q => q) vR cR n s m
  = Nat.iter n (step g data vR cR s (pairs g 1 (fun q => q) 0 (dt g))) m.
Proof.
  induction n as [|n IH]; cbn [sweeps Nat.iter]; auto. rewrite IH. unfold sweep, blocks.
  change (zrange 0 1) with [0%Z]. cbn [map fold_left]. do 2 f_equal.
  unfold bnd. change (zrange 0 0) with (@nil Z). change (zrange 0 (0 + 1)) with [0%Z]. cbn [map fold_right].
  unfold subset_len. rewrite Z.mod_1_r, Z.div_1_r. cbn. now rewrite !Z.add_0_r.
Qed.
(** Length of all rays in pixel j. *)
Definition pixel_total (g : geom) (s j : Z) : R :=
  total (dt g) (fun p => total (dx g) (fun d => inside_length (rays g s p d) j)).
Definition weighted_distance2 (g : geom) (s : Z) (x z : Z -> R) : R :=
  total (npix g) (fun j => pixel_total g s j * ((x j - z j) * (x j - z j))).
Lemma lsum_app {A} (f : A -> R) l l' : lsum f (l ++ l') = lsum f l + lsum f l'.
Proof. induction l as [|x l IH]; [unfold lsum at 2; unfold rsum; cbn [map fold_right app]; lra|]. cbn [app]. rewrite !lsum_cons, IH. lra. Qed.
Lemma lsum_pairs (f : Z * Z -> R) g b : (0 <= b)%Z ->
  lsum f (pairs g 1 (fun q => q) 0 b) = total b (fun p => total (dx g) (fun d => f (p, d))).
Proof.
  intros Hb. unfold pairs, total. generalize (zrange 0 b). intros l. induction l as [|q l IH]; [reflexivity|].
  cbn [flat_map]. rewrite lsum_app, IH. unfold rsum. cbn [map fold_right]. f_equal.
  unfold lsum. rewrite map_map. reflexivity.
Qed.
(** In the norm weighted by the pixel totals SIRT never moves away from a solution, provided that every
    ray has sum of lengths <= 2 * sum of squared lengths. *)
Theorem C57_sirt_partial : forall g data num_iter recon simdata sum_dist update image s z,
  valid g -> finite g recon image -> (0 <= s < dy g)%Z -> consistent g s s data z ->
  (forall p d, is_ray g p d -> total_length (rays g s p d) <= 2 * total_square (rays g s p d)) ->
  exists image', finite g (sirt g data num_iter recon simdata sum_dist update) image' /\
    weighted_distance2 g s (image' s) z <= weighted_distance2 g s (image s) z.
Proof.
  intros g data n recon sim sd up m s z Hg Hr Hs Hz Hw. pose proof Hg as (H1 & H2 & H3 & H4 & H5).
  destruct (run_invariant bart_rule bart_v bart_c (fun _ _ _ => True) (fun _ _ => True) g data 1 (fun q => q) n recon sim sd up m) as [A _]; auto.
  { intros b s' s2. apply bart_Hv. } { apply bart_Hc. } { split; [lia|now left]. } { intros s' m' _ p d _ _ _. exact I. }
  eexists. split; [exact A|]. cbv beta. rewrite sweeps_1. set (L := pairs g 1 (fun q => q) 0 (dt g)).
  assert (Hin : forall pd, In pd L -> is_ray g (fst pd) (snd pd)).
  { intros [p d] Hin. apply in_pairs in Hin as [Hd (q & Hq & <-)]. cbn in *. split; auto. }
  assert (E : forall x, weighted_distance2 g s x z = wssd g s L x z).
  { intros x. unfold weighted_distance2, wssd. apply zsum_ext. intros j Hj. f_equal. unfold hits_sum, L. rewrite lsum_pairs by lia.
    unfold pixel_total. apply zsum_ext. intros p Hp. apply zsum_ext. intros d Hd. apply inside_length_wt. }
  rewrite !E. clear A. generalize (Z.to_nat n). intros k. induction k as [|k IH]; cbn [Nat.iter nat_rect]; [lra|].
  eapply Rle_trans; [|exact IH]. apply sweep_closer; auto;
    intros pd Hpd; first [apply Hz; now apply Hin | rewrite sum_dist2_spec; apply Hw; now apply Hin].
Qed.
(** Without the condition it may diverge: one pixel whose corner (0.314 long) is cut by a single ray. *)
Definition corner_geom : geom := mkGeom 1 1 1 1 1 (fun _ => - 1 / 20) (fun _ => PI / 4).
Theorem C57_sirt_refuted : forall z x simdata sum_dist update, x <> z ->
  let data := fun _ : Z => ray_sum (rays corner_geom 0 0 0) (fun _ => z) in
  consistent corner_geom 0 0 data (fun _ => z) /\
  forall num_iter, (0 <= num_iter)%Z ->
  exists y, sirt corner_geom data num_iter (fun _ => Some x) simdata sum_dist update 0%Z = Some y /\
    Rabs (y - z) = (1 / chord - 1) ^ Z.to_nat num_iter * Rabs (x - z) /\ 2 < 1 / chord - 1.
Proof.
  intros z x sim sd up Hx data. set (g := corner_geom). pose proof sqrt2_bounds as B.
  assert (Hch : 0 < chord < 1 / 3 - 1 / 100) by (unfold chord; lra).
  assert (Er : rays g 0 0 0 = [(0%Z, chord)]) by apply corner_ray.
  assert (Ed : forall i, data i = z * chord) by (intros i; unfold data; fold g; rewrite Er; unfold ray_sum, rsum; cbn; lra).
  assert (Hval : valid g) by (unfold valid, g; cbn; lia).
  split; [intros p d [Hp Hd]; cbn in Hp, Hd; replace p with 0%Z by lia; replace d with 0%Z by lia; reflexivity|].
  intros n Hn.
  destruct (run_invariant bart_rule bart_v bart_c (fun _ _ _ => True) (fun _ _ => True) g data 1 (fun q => q) n (fun _ => Some x) sim sd up (fun _ _ => x)) as [A _]; auto.
  { intros b s' s2. apply bart_Hv. } { apply bart_Hc. } { split; [lia|now left]. } { intros s' m' _ p d _ _ _. exact I. }
  { intros s j _ _. reflexivity. }
  specialize (A 0%Z 0%Z ltac:(cbn; lia) ltac:(unfold is_pixel, npix, g; cbn; lia)). cbv beta in A. rewrite sweeps_1 in A.
  change (0 + 0 * npix g)%Z with 0%Z in A. eexists. split; [exact A|].
  change (pairs g 1 (fun q => q) 0 (dt g)) with [(0%Z, 0%Z)].
  assert (Est : forall m, step g data bart_v bart_c 0 [(0%Z, 0%Z)] m 0%Z - z = - (1 / chord - 1) * (m 0%Z - z)).
  { intros m. unfold step. unfold hits_sum, upd_sum, lsum, rsum. cbn [map fold_right]. cbv zeta. rewrite Er.
    assert (W : wt [(0%Z, chord)] 0 = chord) by (cbn; lra). rewrite W.
    assert (S2 : sum_dist2 [(0%Z, chord)] = chord * chord) by (unfold sum_dist2; cbn; lra). rewrite S2.
    destruct (Req_EM_T (chord + 0) 0); [lra|]. destruct (Req_EM_T (chord * chord) 0); [nra|].
    rewrite Ed. unfold bart_c, bart_v, dot, rsum. cbn [map fold_right]. field. lra. }
  assert (2 < 1 / chord - 1) by (apply (Rplus_lt_reg_r 1), (Rmult_lt_reg_r chord); [lra|]; unfold Rdiv; rewrite Rmult_1_l; replace ((/ chord - 1 + 1) * chord) with 1 by (field; lra); lra).
  split; auto. clear A Hn. generalize (Z.to_nat n). intros k. induction k as [|k IH]; cbn [Nat.iter nat_rect pow]; [rewrite Rmult_1_l; reflexivity|].
  rewrite Est, Rabs_mult, Rabs_Ropp, Rabs_pos_eq by lra. cbn [Nat.iter nat_rect] in IH. unfold Nat.iter in IH. rewrite IH. ring.
Qed.

(** ** C26: MLEM and OSEM *)
Definition data_all (g : geom) (ok : R -> Prop) (data : arr R) : Prop :=
  forall s p d, (0 <= s < dy g)%Z -> is_ray g p d -> ok (data (ind_data g s p d)).
(** With non-negative data and start every finite value stays non-negative. *)
Theorem C26_nonnegative : forall g data num_block ind_block num_iter recon simdata sum_dist update,
  valid g -> order_ok g num_block ind_block -> data_all g (Rle 0) data ->
  (forall i x, (0 <= i < dy g * npix g)%Z -> recon i = Some x -> 0 <= x) ->
  forall i x, (0 <= i < dy g * npix g)%Z ->
  osem g data num_block ind_block num_iter recon simdata sum_dist update i = Some x -> 0 <= x.
Proof.
  intros g data nb ib n recon sim sd up (H1 & H2 & H3 & H4 & H5) Ho Hd Hr i x Hi E.
  pose proof (order_pick g nb ib Ho) as [Hp _]. destruct Ho as [Hnb _].
  pose proof (nn_solve g H1 H2 data nb ib Hnb Hp (fun s p d Hs Hp' Hd' => Hd s p d Hs (conj Hp' Hd')) ltac:(lia) n recon sim sd up) as K.
  specialize (K ltac:(intros k Hk; unfold nn; destruct (recon k) eqn:Ek; auto; now apply (Hr k)) i Hi). rewrite E in K. exact K.
Qed.
(** With positive data and start every value stays finite and positive. *)
Theorem C26_positive : forall g data num_block ind_block num_iter recon simdata sum_dist update image,
  valid g -> order_ok g num_block ind_block -> data_all g (Rlt 0) data -> finite g recon image ->
  (forall s j, (0 <= s < dy g)%Z -> is_pixel g j -> 0 < image s j) ->
  exists image', finite g (osem g data num_block ind_block num_iter recon simdata sum_dist update) image' /\
    forall s j, (0 <= s < dy g)%Z -> is_pixel g j -> 0 < image' s j.
Proof.
  intros g data nb ib n recon sim sd up m Hg Ho Hd Hr Hm. pose proof Hg as (H1 & H2 & _).
  destruct (run_invariant osem_rule osem_v osem_c osem_ok (fun _ x => pos_image g x) g data nb ib n recon sim sd up m) as [A B]; auto.
  - apply osem_Hv.
  - apply osem_Hc.
  - intros s x Hx p d Hp Hd' Hs2. unfold osem_ok. pose proof (dot_pos g H1 H2 s p d x Hx Hs2). lra.
  - intros s x L Hs HL Hx. apply em_positive; auto. intros p d Hin. apply Hd; auto. exact (HL p d Hin).
  - intros s Hs j Hj. now apply Hm.
  - eexists. split; [exact A|]. intros s j Hs Hj. now apply (B s Hs).
Qed.
(** Positive images that already reproduce the data are not changed. *)
Theorem C26_fixed_point : forall g data num_block ind_block num_iter recon simdata sum_dist update image,
  valid g -> order_ok g num_block ind_block -> finite g recon image ->
  (forall s j, (0 <= s < dy g)%Z -> is_pixel g j -> 0 < image s j) ->
  (forall s, (0 <= s < dy g)%Z -> consistent g s s data (image s)) ->
  finite g (osem g data num_block ind_block num_iter recon simdata sum_dist update) image.
Proof.
  intros g data nb ib n recon sim sd up m Hg Ho Hr Hm Hc. pose proof Hg as (H1 & H2 & _).
  pose (P s (x : Z -> R) := (0 <= s < dy g)%Z /\ forall j, is_pixel g j -> x j = m s j).
  destruct (run_invariant osem_rule osem_v osem_c osem_ok P g data nb ib n recon sim sd up m) as [A B]; auto.
  - apply osem_Hv.
  - apply osem_Hc.
  - intros s x [Hs Hx] p d Hp Hd Hs2. unfold osem_ok.
    assert (pos_image g x) as Hpos by (intros j Hj; rewrite Hx by auto; now apply Hm).
    pose proof (dot_pos g H1 H2 s p d x Hpos Hs2). lra.
  - intros s x L Hs HL [_ Hx]. split; auto. apply em_fixed; auto.
    + intros j Hj. now apply Hm.
    + intros p d Hin. apply (Hc s Hs). exact (HL p d Hin).
  - intros s Hs. split; auto.
  - intros s j Hs Hj. unfold osem. rewrite (A s j Hs Hj). f_equal. now apply (B s Hs).
Qed.
(** MLEM: the ray sums of the result add up to the measured counts of the rays that cross the image. *)
Theorem C26_counts : forall g data num_iter recon simdata sum_dist update image,
  valid g -> (1 <= num_iter)%Z -> data_all g (Rlt 0) data -> finite g recon image ->
  (forall s j, (0 <= s < dy g)%Z -> is_pixel g j -> 0 < image s j) ->
  exists image', finite g (mlem g data num_iter recon simdata sum_dist update) image' /\
    forall s, (0 <= s < dy g)%Z ->
    total (dt g) (fun p => total (dx g) (fun d => ray_sum (rays g s p d) (image' s)))
    = total (dt g) (fun p => total (dx g) (fun d =>
        if Req_EM_T (total_square (rays g s p d)) 0 then 0 else data (ind_data g s p d))).
Proof.
  intros g data n recon sim sd up m Hg Hn Hd Hr Hm. pose proof Hg as (H1 & H2 & H3 & H4 & H5).
  assert (Hst : forall s x L, (0 <= s < dy g)%Z -> in_range g L -> pos_image g x -> pos_image g (step g data osem_v osem_c s L x)).
  { intros s x L Hs HL Hx. apply em_positive; auto. intros p d Hin. apply Hd; auto. exact (HL p d Hin). }
  destruct (run_invariant osem_rule osem_v osem_c osem_ok (fun _ x => pos_image g x) g data 1 (fun q => q) n recon sim sd up m) as [A B]; auto.
  - apply osem_Hv.
  - apply osem_Hc.
  - split; [lia|now left].
  - intros s x Hx p d Hp Hd' Hs2. unfold osem_ok. pose proof (dot_pos g H1 H2 s p d x Hx Hs2). lra.
  - intros s Hs j Hj. now apply Hm.
  - eexists. split; [exact A|]. clear A B. intros s Hs. cbv beta. rewrite sweeps_1. set (L := pairs g 1 (fun q => q) 0 (dt g)).
    assert (HL : in_range g L). { intros p d Hin. apply in_pairs in Hin as [Hd' (q & Hq & <-)]. cbn. auto. }
    replace (Z.to_nat n) with (S (Z.to_nat (n - 1))) by lia. cbn [Nat.iter nat_rect].
    change (nat_rect _ ?a ?b ?c) with (Nat.iter c (step g data osem_v osem_c s L) (m s)).
    set (y := Nat.iter (Z.to_nat (n - 1)) (step g data osem_v osem_c s L) (m s)).
    assert (Hy : pos_image g y).
    { unfold y. generalize (Z.to_nat (n - 1)). intros k. induction k as [|k IH]; [intros j Hj; now apply Hm|]. now apply Hst. }
    pose proof (em_counts g H1 H2 data s L y Hy) as E. rewrite !(fun f => lsum_pairs f g (dt g) ltac:(lia) : lsum f L = _) in E.
    unfold ray_sum, dot in *. rewrite E.
    apply zsum_ext. intros p Hp. apply zsum_ext. intros d Hd'. cbv beta iota. rewrite sum_dist2_spec. reflexivity.
Qed.
(** Zero counts: the image becomes zero and the next iteration divides zero by zero. *)
Lemma unit_ray_step data recon sim sd up x : recon 0%Z = Some x -> sim 0%Z = Some 0 -> up 0%Z = Some 0 ->
  let '(_, sd', up') := os_ray (unit_geom 1 (fun _ => 1 / 2)) osem_rule data 0 recon 0 0 (sim, sd, up) in
  sd' 0%Z = sd 0%Z + 1 /\ up' 0%Z = nadd (Some 0) (nmul (ndiv (Some (data 0%Z)) (Some (0 + x * 1))) (Some 1)).
Proof.
  intros Hr Hs Hu. unfold os_ray. rewrite unit_rays by auto. change (ind_data _ 0 0 0) with 0%Z. change (0 * npix _)%Z with 0%Z.
  cbn [add_dist n_simdata fold_left]. rewrite Z.add_0_r, !aset_eq, Hs, Hr. cbn [nadd nmul].
  assert (S2 : sum_dist2 [(0%Z, 1)] = 1) by (unfold sum_dist2; cbn; lra). rewrite S2. split; [rewrite ?aset_eq; reflexivity|].
  destruct (Req_EM_T 1 0); [lra|]. unfold n_add_scaled. cbn [fold_left value osem_rule]. now rewrite aset_eq, Hu.
Qed.
Lemma unit_iter data recon sim sd up x : recon 0%Z = Some x ->
  rec_of (os_iter (unit_geom 1 (fun _ => 1 / 2)) osem_rule data 1 (fun q => q) (recon, sim, sd, up)) 0%Z
  = if Req_EM_T x 0 then None else Some (data 0%Z).
Proof.
  intros Hr. set (g := unit_geom 1 (fun _ => 1 / 2)).
  assert (E : os_iter g osem_rule data 1 (fun q => q) (recon, sim, sd, up)
    = os_block g osem_rule data 1 (fun q => q) 0 0 1 (recon, memset0 (Some 0) 1 sim, sd, up)) by reflexivity.
  rewrite E. unfold os_block.
  assert (E2 : forall st, os_rays g osem_rule data 1 (fun q => q) 0 recon 0 1 st = os_ray g osem_rule data 0 recon 0 0 st) by reflexivity.
  rewrite E2. pose proof (unit_ray_step data recon (memset0 (Some 0) 1 sim) (memset0 0 (npix g) sd) (memset0 (Some 0) (npix g) up) x Hr eq_refl eq_refl) as K.
  fold g in K. destruct (os_ray _ _ _ _ _ _ _ _) as [[sim' sd'] up']. destruct K as [K1 K2].
  unfold rec_of. cbn [fst]. unfold os_correct. change (npix g) with 1%Z.
  change (for_ 1 ?f recon) with (f 0%Z recon). cbv beta. rewrite K1, K2.
  change (memset0 0 (npix g) sd 0%Z) with 0. destruct (Req_EM_T (0 + 1) 0); [lra|]. change (0 + 0 * 1)%Z with 0%Z. rewrite aset_eq, Hr.
  cbn [correct osem_rule ndiv nmul nadd]. destruct (Req_EM_T (0 + x * 1) 0) as [Ex|Ex]; destruct (Req_EM_T x 0); try lra; auto.
  cbn [nmul nadd ndiv]. destruct (Req_EM_T (0 + 1) 0); [lra|]. cbn [nmul]. f_equal. field. auto.
Qed.
Theorem C26_refuted : exists g data recon, valid g /\ data_all g (Rle 0) data /\ (forall i, exists x, recon i = Some x /\ 0 < x) /\
  forall simdata sum_dist update,
    mlem g data 1 recon simdata sum_dist update 0%Z = Some 0 /\ mlem g data 2 recon simdata sum_dist update 0%Z = None.
Proof.
  exists (unit_geom 1 (fun _ => 1 / 2)), (fun _ => 0), (fun _ => Some 1).
  split; [apply unit_valid; lia|]. split; [intros s p d _ _; lra|]. split; [intros _; exists 1; split; auto; lra|].
  intros sim sd up. set (g := unit_geom 1 (fun _ => 1 / 2)).
  pose proof (unit_iter (fun _ => 0) (fun _ => Some 1) sim sd up 1 eq_refl) as E1. fold g in E1.
  destruct (Req_EM_T 1 0); [lra|]. split; [exact E1|].
  assert (E : mlem g (fun _ => 0) 2 (fun _ => Some 1) sim sd up
    = rec_of (os_iter g osem_rule (fun _ => 0) 1 (fun q => q) (os_iter g osem_rule (fun _ => 0) 1 (fun q => q) (fun _ => Some 1, sim, sd, up)))) by reflexivity.
  rewrite E. destruct (os_iter g osem_rule (fun _ => 0) 1 (fun q => q) (fun _ => Some 1, sim, sd, up)) as [[[r s'] d'] u']. unfold rec_of in E1. cbn [fst] in E1.
  etransitivity; [exact (unit_iter (fun _ => 0) r s' d' u' 0 E1)|]. destruct (Req_EM_T 0 0); [auto|lra].
Qed.

(** ** C27: ordered subsets *)
(** First projection of subset k if dt projections are split as evenly as possible. *)
Definition first_of (g : geom) (num_block k : Z) : Z := (k * (dt g / num_block) + Z.min k (dt g mod num_block))%Z.
(** The subsets are processed one after the other. *)
Theorem C27_schedule : forall g rl data num_block ind_block s st, valid g -> (1 <= num_block)%Z ->
  os_slice g rl data num_block ind_block s st
  = fold_left (fun st k => os_block g rl data num_block ind_block s (first_of g num_block k) (first_of g num_block (k + 1)) st)
      (zrange 0 num_block) st.
Proof.
  intros g rl data nb ib s st (H1 & H2 & H3 & H4 & H5) Hnb. unfold os_slice.
  pose (I k (x : Z * state) := fst x = first_of g nb k /\ snd x
    = fold_left (fun st k => os_block g rl data nb ib s (first_of g nb k) (first_of g nb (k + 1)) st) (zrange 0 k) st).
  match goal with |- snd ?x = _ => enough (E : I nb x) by apply E end.
  apply (for_inv I); [lia|split; [unfold first_of; cbn; lia|reflexivity]|].
  intros k [e st'] Hk [E1 E2]. cbn [fst snd] in *. subst e st'.
  assert (E : (first_of g nb k + subset_len g nb k = first_of g nb (k + 1))%Z).
  { unfold first_of. rewrite <- (bnd_closed g nb ib Hnb ltac:(lia) k), <- (bnd_closed g nb ib Hnb ltac:(lia) (k + 1)) by lia.
    now rewrite (bnd_S g nb ib) by lia. }
  split; cbn [fst snd]; auto. rewrite E, zrange_snoc by lia.
  now rewrite fold_left_app.
Qed.
(** Subset sizes differ by at most one and the subsets cover 0 .. dt-1 without overlap. *)
Theorem C27_even : forall g num_block k, valid g -> (0 <= k < num_block)%Z ->
  (dt g / num_block <= first_of g num_block (k + 1) - first_of g num_block k <= dt g / num_block + 1)%Z /\
  first_of g num_block 0 = 0%Z /\ first_of g num_block num_block = dt g.
Proof.
  intros g nb k (H1 & H2 & H3 & H4 & H5) Hk. unfold first_of. pose proof (Z.mod_pos_bound (dt g) nb ltac:(lia)).
  pose proof (Z.div_mod (dt g) nb ltac:(lia)). repeat split; try nia.
Qed.
Lemma ranges_concat f n : (0 <= n)%Z -> (forall k, (0 <= k)%Z -> (f k <= f (k + 1))%Z) ->
  flat_map (fun k => zrange (f k) (f (k + 1)%Z)) (zrange 0 n) = zrange (f 0%Z) (f n).
Proof.
  intros Hn Hm. assert (G : forall k : nat, (f 0 <= f (Z.of_nat k))%Z /\ flat_map (fun k => zrange (f k) (f (k + 1)%Z)) (zrange 0 (Z.of_nat k)) = zrange (f 0%Z) (f (Z.of_nat k))).
  { induction k as [|k [IH1 IH2]]; [change (Z.of_nat 0) with 0%Z; split; [lia|]; rewrite !zrange_nil by lia; reflexivity|].
    replace (Z.of_nat (S k)) with (Z.of_nat k + 1)%Z by lia. specialize (Hm (Z.of_nat k) ltac:(lia)). split; [lia|].
    rewrite zrange_snoc, flat_map_app, IH2 by lia. cbn [flat_map]. rewrite app_nil_r.
    apply zrange_app; lia. }
  specialize (G (Z.to_nat n)). rewrite Z2Nat.id in G by lia. apply G.
Qed.
(** In one sweep every projection is used exactly once. *)
Theorem C27_once : forall g num_block ind_block, valid g -> order_ok g num_block ind_block ->
  Permutation
    (flat_map (fun k => map (pick num_block ind_block) (zrange (first_of g num_block k) (first_of g num_block (k + 1))))
       (zrange 0 num_block))
    (zrange 0 (dt g)).
Proof.
  intros g nb ib (H1 & H2 & H3 & H4 & H5) Ho. pose proof (order_pick g nb ib Ho) as [Hp Hi]. destruct Ho as [Hnb _].
  assert (E : flat_map (fun k => map (pick nb ib) (zrange (first_of g nb k) (first_of g nb (k + 1)))) (zrange 0 nb)
    = map (pick nb ib) (zrange 0 (dt g))).
  { pose proof (ranges_concat (first_of g nb) nb ltac:(lia)) as R0.
    assert (Hd : (0 <= dt g / nb)%Z) by (apply Z.div_pos; lia).
    specialize (R0 ltac:(intros k Hk; unfold first_of; nia)).
    replace (first_of g nb 0) with 0%Z in R0 by (unfold first_of; pose proof (Z.mod_pos_bound (dt g) nb ltac:(lia)); lia).
    replace (first_of g nb nb) with (dt g) in R0
      by (unfold first_of; pose proof (Z.mod_pos_bound (dt g) nb ltac:(lia)); pose proof (Z.div_mod (dt g) nb ltac:(lia)); lia).
    rewrite <- R0. clear. induction (zrange 0 nb) as [|k l IH]; auto. cbn [flat_map]. now rewrite map_app, IH. }
  rewrite E. apply NoDup_Permutation_bis.
  - assert (G : forall l, NoDup l -> (forall q, In q l -> (0 <= q < dt g)%Z) -> NoDup (map (pick nb ib) l)).
    { induction l as [|q l IH]; intros Hn Hl; cbn; constructor; inversion Hn as [|? ? Hq Hn']; subst.
      - intros Hin. apply in_map_iff in Hin as (q' & Eq & Hin). apply Hi in Eq; [congruence|apply Hl; now right|apply Hl; now left].
      - apply IH; auto. intros q' Hq'. apply Hl. now right. }
    apply G; [apply NoDup_zrange|]. intros q Hq. now apply in_zrange.
  - rewrite map_length. lia.
  - intros x Hx. apply in_map_iff in Hx as (q & <- & Hq). apply in_zrange in Hq. apply in_zrange. now apply Hp.
Qed.
Example C27_ex : map (first_of (mkGeom 1 1 1 7 1 (fun _ => 0) (fun _ => 0)) 3) [0; 1; 2; 3]%Z = [0; 3; 5; 7]%Z.
Proof. reflexivity. Qed.

(** ** C58: the assertions of the subset loops *)
(** assert(subset_end < dt) fails for the last subset of every call (Release builds define NDEBUG). *)
Theorem C58_assertion_refuted : forall g num_block, valid g -> (1 <= num_block)%Z ->
  exists e, In e (subset_ends g num_block) /\ ~ (e < dt g)%Z.
Proof.
  intros g nb (H1 & H2 & H3 & H4 & H5) Hnb. exists (dt g). split; [|lia].
  unfold subset_ends. apply in_map_iff. exists (nb - 1)%Z. split; [|apply in_zrange; lia].
  replace (nb - 1 + 1)%Z with nb by lia. apply (bnd_all g nb (fun q => q)); lia.
Qed.
(** What holds: no subset ends beyond dt. *)
Theorem C58_bound_partial : forall g num_block e, valid g -> (1 <= num_block)%Z -> In e (subset_ends g num_block) -> (0 <= e <= dt g)%Z.
Proof.
  intros g nb e (H1 & H2 & H3 & H4 & H5) Hnb He. apply in_map_iff in He as (k & <- & Hk). apply in_zrange in Hk.
  change (0 <= bnd g nb (k + 1) <= dt g)%Z. split.
  - rewrite <- (bnd_0 g nb). apply (bnd_mono g nb (fun q => q)); lia.
  - rewrite <- (bnd_all g nb (fun q => q)) by lia. apply (bnd_mono g nb (fun q => q)); lia.
Qed.

(** ** C56: one centre per slice *)
Definition with_center (g : geom) (c : arr R) : geom := mkGeom (ngridx g) (ngridy g) (dy g) (dt g) (dx g) c (theta g).
(** Two slices, the first with its centre far outside: the second slice, centred, is not seen. *)
Definition two_centers : arr R := fun s => if (s =? 0)%Z then 10 else 1 / 2.
Theorem C56_project_refuted : exists g obj, valid g /\
  project g obj (fun _ => 0) (ind_data g 1 0 0) <> ray_sum (rays g 1 0 0) (image_of g obj 1).
Proof.
  exists (unit_geom 2 two_centers), (fun _ => 7). split; [apply unit_valid; lia|].
  rewrite C23_ray_sums; [|apply unit_valid; lia|cbn; lia|unfold is_ray; cbn; lia].
  rewrite far_rays, unit_rays by reflexivity. unfold ray_sum, rsum, image_of. cbn. lra.
Qed.
Theorem C56_art_refuted : exists g data, valid g /\
  (exists z, consistent g 1 1 data z) /\
  forall num_iter recon simdata, art g data num_iter recon simdata 1%Z = recon 1%Z.
Proof.
  set (g := unit_geom 2 two_centers). exists g, (fun _ => 3). split; [apply unit_valid; lia|]. split.
  - exists (fun _ => 3). intros p d [Hp Hd]. cbn in Hp, Hd. replace p with 0%Z by lia. replace d with 0%Z by lia.
    unfold g. rewrite unit_rays by reflexivity. unfold ray_sum, rsum. cbn. lra.
  - intros n recon sim.
    pose (P s (m : Z -> R) := s = 1%Z -> m 0%Z = recon 1%Z).
    assert (H : P 1%Z (slice g 1 (art g (fun _ => 3) n recon sim))); [|exact (H eq_refl)].
    apply (art_inv g ltac:(cbn; lia) ltac:(cbn; lia) (fun _ => 3) P); unfold P; try (cbn; lia).
    + intros s m m' E H ->. rewrite <- (E 0%Z) by (cbn; lia). now apply H.
    + intros s p d m _ Hp Hd H ->. cbn in Hp, Hd. replace p with 0%Z by lia. replace d with 0%Z by lia.
      unfold g. rewrite far_rays by reflexivity. unfold kaczmarz. unfold sum_dist2. cbn [fold_left]. destruct (Req_EM_T 0 0); [auto|lra].
    + intros s _ ->. reflexivity.
Qed.
(** fbp and the subset solvers: the result of a slice depends on its own centre only. *)
Theorem C56_fbp_partial : forall g c data recon s j, valid g -> (0 <= s < dy g)%Z -> is_pixel g j -> c s = center g s ->
  fbp (with_center g c) data recon (j + s * npix g)%Z = fbp g data recon (j + s * npix g)%Z.
Proof.
  intros g c data recon s j Hg Hs Hj Hc. rewrite (C23_back_projection g) by auto.
  change (npix g) with (npix (with_center g c)). rewrite C23_back_projection by auto. f_equal.
  change (dt (with_center g c)) with (dt g). apply zsum_ext. intros p Hp. apply zsum_ext. intros d Hd.
  unfold rays. cbn [center with_center]. rewrite Hc. reflexivity.
Qed.
Lemma sweeps_center g c data nb ib vR cR n s m : c s = center g s ->
  sweeps (with_center g c) data nb ib vR cR n s m = sweeps g data nb ib vR cR n s m.
Proof.
  intros Hc. assert (E : forall p d, rays (with_center g c) s p d = rays g s p d) by (intros p d; unfold rays; cbn; now rewrite Hc).
  assert (Es : forall L x, step (with_center g c) data vR cR s L x = step g data vR cR s L x).
  { intros L x. apply FunctionalExtensionality.functional_extensionality. intros j. unfold step.
    assert (Eh : hits_sum (with_center g c) s L j = hits_sum g s L j) by (apply lsum_ext; intros [p d] _; now rewrite E).
    assert (Eu : upd_sum (with_center g c) data vR s L x j = upd_sum g data vR s L x j)
      by (apply lsum_ext; intros [p d] _; cbv zeta; rewrite E; reflexivity).
    now rewrite Eh, Eu. }
  induction n as [|n IH]; cbn [sweeps]; auto. rewrite IH. unfold sweep. change (blocks (with_center g c) nb ib) with (blocks g nb ib).
  generalize (sweeps g data nb ib vR cR n s m). induction (blocks g nb ib) as [|L l IHl]; intros x; auto. cbn [fold_left]. now rewrite Es, IHl.
Qed.
Theorem C56_bart_partial : forall g c data num_block ind_block num_iter recon simdata sum_dist update image s j,
  valid g -> order_ok g num_block ind_block -> finite g recon image ->
  (0 <= s < dy g)%Z -> is_pixel g j -> c s = center g s ->
  bart (with_center g c) data num_block ind_block num_iter recon simdata sum_dist update (j + s * npix g)%Z
  = bart g data num_block ind_block num_iter recon simdata sum_dist update (j + s * npix g)%Z.
Proof.
  intros g c data nb ib n recon sim sd up m s j Hg Ho Hr Hs Hj Hc. unfold bart.
  assert (G : forall g', valid g' -> order_ok g' nb ib -> finite g' recon m ->
    finite g' (os_solve g' bart_rule data nb ib n recon sim sd up) (fun s => sweeps g' data nb ib bart_v bart_c (Z.to_nat n) s (m s))).
  { intros g' Hg' Ho' Hr'. apply (run_invariant bart_rule bart_v bart_c (fun _ _ _ => True) (fun _ _ => True)); auto.
    - intros b s' s2. apply bart_Hv.
    - apply bart_Hc.
    - intros s' m' _ p d _ _ _. exact I. }
  rewrite (G g Hg Ho Hr s j Hs Hj). pose proof (G (with_center g c) Hg Ho Hr s j Hs Hj) as E.
  change (npix (with_center g c)) with (npix g) in E. rewrite E. cbv beta. now rewrite sweeps_center.
Qed.
Theorem C56_osem_partial : forall g c data num_block ind_block num_iter recon simdata sum_dist update image s j,
  valid g -> order_ok g num_block ind_block -> data_all g (Rlt 0) data -> finite g recon image ->
  (forall s j, (0 <= s < dy g)%Z -> is_pixel g j -> 0 < image s j) ->
  (0 <= s < dy g)%Z -> is_pixel g j -> c s = center g s ->
  osem (with_center g c) data num_block ind_block num_iter recon simdata sum_dist update (j + s * npix g)%Z
  = osem g data num_block ind_block num_iter recon simdata sum_dist update (j + s * npix g)%Z.
Proof.
  intros g c data nb ib n recon sim sd up m s j Hg Ho Hd Hr Hm Hs Hj Hc. unfold osem.
  assert (G : forall g', valid g' -> order_ok g' nb ib -> data_all g' (Rlt 0) data -> finite g' recon m ->
    (forall s j, (0 <= s < dy g')%Z -> is_pixel g' j -> 0 < m s j) ->
    finite g' (os_solve g' osem_rule data nb ib n recon sim sd up) (fun s => sweeps g' data nb ib osem_v osem_c (Z.to_nat n) s (m s))).
  { intros g' Hg' Ho' Hd' Hr' Hm'. pose proof Hg' as (H1 & H2 & _).
    apply (run_invariant osem_rule osem_v osem_c osem_ok (fun _ x => pos_image g' x)); auto.
    - apply osem_Hv.
    - apply osem_Hc.
    - intros s' x Hx p d Hp Hd'' Hs2. unfold osem_ok. pose proof (dot_pos g' H1 H2 s' p d x Hx Hs2). lra.
    - intros s' x L Hs' HL Hx. apply em_positive; auto. intros p d Hin. apply Hd'; auto. exact (HL p d Hin).
    - intros s' Hs' k Hk. now apply Hm'. }
  rewrite (G g Hg Ho Hd Hr Hm s j Hs Hj). pose proof (G (with_center g c) Hg Ho Hd Hr Hm s j Hs Hj) as E.
  change (npix (with_center g c)) with (npix g) in E. rewrite E. cbv beta. now rewrite sweeps_center.
Qed.

Example C25_ex : exists g data recon image, valid g /\ finite g recon image /\ consistent g 0 0 data (image 0%Z) /\ image 0%Z 0%Z = 5.
Proof.
  exists (unit_geom 1 (fun _ => 1 / 2)), (fun _ => 5), (fun _ => Some 5), (fun _ _ => 5).
  split; [apply unit_valid; lia|]. split; [intros s j _ _; reflexivity|]. split; auto.
  intros p d [Hp Hd]. cbn in Hp, Hd. replace p with 0%Z by lia. replace d with 0%Z by lia. rewrite unit_rays by reflexivity.
  unfold ray_sum, rsum. cbn. lra.
Qed.
(** Hypothesis of C57_sirt_partial: a ray straight through a pixel. *)
Example C57_ex : total_length [(0%Z, 1)] <= 2 * total_square [(0%Z, 1)].
Proof. unfold total_length, total_square, rsum. cbn. lra. Qed.

Print Assumptions C23_ray_sums.
Print Assumptions C23_linear.
Print Assumptions C23_back_projection.
Print Assumptions C23_adjoint.
Print Assumptions C24_ray_equation.
Print Assumptions C24_last_ray.
Print Assumptions C24_fixed_point.
Print Assumptions C24_never_farther.
Print Assumptions C25_finite.
Print Assumptions C25_fixed_point.
Print Assumptions C25_unhit.
Print Assumptions C57_sirt_partial.
Print Assumptions C57_sirt_refuted.
Print Assumptions C26_nonnegative.
Print Assumptions C26_positive.
Print Assumptions C26_fixed_point.
Print Assumptions C26_counts.
Print Assumptions C26_refuted.
Print Assumptions C27_schedule.
Print Assumptions C27_even.
Print Assumptions C27_once.
Print Assumptions C58_assertion_refuted.
Print Assumptions C58_bound_partial.
Print Assumptions C56_project_refuted.
Print Assumptions C56_art_refuted.
Print Assumptions C56_fbp_partial.
Print Assumptions C56_bart_partial.
Print Assumptions C56_osem_partial.
