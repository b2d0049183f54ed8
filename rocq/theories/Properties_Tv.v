(** C73. Total variation: libtomo/recon/tv.c, exact real arithmetic. Vocabulary in Spec_Tv.v. *)
From Verif Require Import Base CLoop Model_Prep Model_Ray Model_Solver Model_Grad Proofs_Prep Proofs_Morph Proofs_Ray Properties_Ray Proofs_Solver Proofs_Art Proofs_Subsets Proofs_Bart Proofs_Em Proofs_Unit Properties_Solver Proofs_Lsq Proofs_Grad Properties_Grad Proofs_Pdhg Proofs_Tv Spec_Tv Proofs_Tvrun.
From Coq Require Import Reals Lra Psatz.
Local Open Scope R_scope.

Lemma tv_run g data lambda recon px py prox1 sim adj n s x : valid g -> lambda <> 0 -> (0 <= s < dy g)%Z -> slice_is g recon s x ->
  slice_is g (tv g data lambda (Z.of_nat n) recon px py prox1 sim adj) s (fun j => scale_r g * st_xb (run g data lambda s x n) j).
Proof. intros (H1 & H2 & H3 & H4 & H5) Hl Hs Hx. apply slice_is_holds. apply tv_spec; auto. now apply slice_is_holds. Qed.
Lemma slice_is_ext g v s x y : (forall j, is_pixel g j -> x j = y j) -> slice_is g v s x -> slice_is g v s y.
Proof. intros E H j Hj. rewrite H by auto. now rewrite E. Qed.
Lemma slice_is_inj g v s x y j : slice_is g v s x -> slice_is g v s y -> is_pixel g j -> x j = y j.
Proof. intros H1 H2 Hj. specialize (H1 j Hj). specialize (H2 j Hj). congruence. Qed.
Lemma distance2_ext g x y x' y' : (forall j, is_pixel g j -> x j = x' j) -> (forall j, is_pixel g j -> y j = y' j) -> distance2 g x y = distance2 g x' y'.
Proof. intros H1 H2. rewrite !distance2_prod. apply prod_ext; intros j Hj; rewrite (H1 j Hj), (H2 j Hj); auto. Qed.

(** No iteration: scaling in and out returns the image. *)
Theorem C73_none : forall g data lambda recon px py prox1 sim adj s x, valid g -> lambda <> 0 -> (0 <= s < dy g)%Z -> slice_is g recon s x ->
  slice_is g (tv g data lambda 0 recon px py prox1 sim adj) s x.
Proof.
  intros g data lambda recon px py prox1 sim adj s x Hg Hl Hs Hx. apply (slice_is_ext g _ s (fun j => scale_r g * st_xb (run g data lambda s x 0) j)).
  - intros j _. pose proof (r0 g Hg). cbn. field. lra.
  - exact (tv_run g data lambda recon px py prox1 sim adj 0 s x Hg Hl Hs Hx).
Qed.

(** n iterations are n steps of the primal-dual iteration on the rescaled image, whatever the work arrays hold; the extrapolated image is what is returned. *)
Theorem C73_run : forall g data lambda s x, valid g -> lambda <> 0 -> (0 <= s < dy g)%Z ->
  exists st : nat -> pd, st 0%nat = pd_start (fun j => x j / unit_of g) /\ (forall n, pd_next g data lambda s (st n) (st (S n))) /\
    forall recon px py prox1 sim adj n, slice_is g recon s x ->
      slice_is g (tv g data lambda (Z.of_nat n) recon px py prox1 sim adj) s (fun j => unit_of g * bar (st n) j).
Proof.
  intros g data lambda s x Hg Hl Hs. pose proof (unit_r g Hg) as Eu. pose proof (r0 g Hg) as Hr.
  set (R := run g data lambda s x).
  exists (fun n => mkPd (st_xb (R n)) (u_ (R n)) (px_ (R n)) (py_ (R n)) (fun p d => q_ (R n) (p, d))). split; [rewrite Eu; reflexivity|]. split.
  - intros n. unfold pd_next. cbn [bar img dual_x dual_y dual_ray]. rewrite Eu. split; [|split; [|split]].
    + intros k Hk. apply (is_cell_in g) in Hk. apply in_icells in Hk as [Hk Hi]; try apply Hg. unfold R. destruct (run_p g data lambda s x n k Hi) as [-> ->]. unfold excess, clip_m, tv_c. rewrite <- !Rsqr_pow2. auto.
    + intros p d Hi. unfold R. rewrite run_q. unfold nq, bb, tv_c. rewrite ray_sum_fwd by auto. cbn [fst snd]. field.
    + intros j Hj. unfold R. rewrite run_u by auto. unfold y_. rewrite bwd_dual by auto. unfold tv_c.
      rewrite (total_pairs g (fun p d => q_ (run g data lambda s x (S n)) (p, d) * inside_length (rays g s p d) j)). do 4 f_equal. apply lsum_ext. intros (p, d) _. unfold Rw. cbn [fst snd]. now rewrite inside_length_wt.
    + intros j Hj. unfold R. rewrite run_bar. reflexivity.
  - intros recon px py prox1 sim adj n Hx. rewrite Eu. now apply tv_run.
Qed.

(** The certificate proves optimality: x minimises half the misfit plus the weighted total variation. *)
Theorem C73_optimal : forall g data lambda s x px py, valid g -> 0 < lambda -> certificate g data lambda s x px py ->
  forall z, tv_cost g data lambda s x <= tv_cost g data lambda s z.
Proof.
  intros g data lambda s x px py Hg Hl [Hc Hz] z. pose proof (unit_r g Hg) as Eu. pose proof (r0 g Hg) as Hr. unfold tv_cost. rewrite Eu in *. set (r := scale_r g) in *.
  rewrite !misfit_objective by auto. set (N := npix g). set (L := pairs g). set (w := Rw g s). set (b := bb g data s).
  set (e := fun j => z j - x j).
  assert (E1 : objective N L w b z = objective N L w b x + prod N (slope N L w b x) e + lprod L (fwd N w e) (fwd N w e)).
  { transitivity (objective N L w b (fun j => x j + 1 * e j)); [|rewrite objective_expand; ring]. unfold objective. apply lprod_ext; intros a _; unfold residual; f_equal; apply fwd_ext; intros; unfold e; ring. }
  assert (E2 : 0 <= lprod L (fwd N w e) (fwd N w e)) by apply lprod_pos.
  assert (B : forall j, (0 <= j < N)%Z -> slope N L w b x j = - 2 / r * transposed g px py j).
  { intros j Hj. specialize (Hz j Hj). assert (Es : slope N L w b x j = 2 * back_residual g data s x j).
    { unfold slope, bwd, back_residual. f_equal. rewrite (total_pairs g (fun p d => (ray_sum (rays g s p d) x - data (ind_data g s p d)) * inside_length (rays g s p d) j)). apply lsum_ext. intros (p, d) _. unfold residual, b, bb, w, Rw. cbn [fst snd]. rewrite ray_sum_fwd, inside_length_wt by auto. reflexivity. }
    rewrite Es. replace (transposed g px py j) with (- (r * back_residual g data s x j)) by lra. field. lra. }
  assert (T : prod N (transposed g px py) e = lsum (fun k => px k * right_diff e k + py k * down_diff g e k) (icells g)).
  { rewrite prod_comm. transitivity (prod N e (bwd (rows g) (wk g s) (dual px py (fun _ => 0)))).
    - apply prod_ext; auto. intros j Hj. rewrite bwd_dual by auto. rewrite (lsum_ext _ (fun _ => 0)) by (intros; ring). rewrite lsum_null. ring.
    - rewrite <- fwd_bwd. unfold lprod. rewrite rows_sum. rewrite (lsum_ext (fun pd => fwd N (wk g s) e (inr pd) * dual px py (fun _ => 0) (inr pd)) (fun _ => 0)) by (intros; cbn; ring). rewrite lsum_null, Rplus_0_r.
      apply lsum_ext. intros k Hk. unfold N. rewrite fwd_true, fwd_false by auto. cbn [dual]. ring. }
  assert (P : prod N (slope N L w b x) e = - 2 / r * lsum (fun k => px k * right_diff e k + py k * down_diff g e k) (icells g)).
  { rewrite <- T. rewrite <- prod_scal_l. apply prod_ext; auto. }
  unfold total_variation. rewrite !cell_total_sum by auto.
  assert (V : lsum (fun k => px k * right_diff e k + py k * down_diff g e k) (icells g) <=
     lambda * lsum (fun k => sqrt (right_diff z k ^ 2 + down_diff g z k ^ 2)) (icells g) - lambda * lsum (fun k => sqrt (right_diff x k ^ 2 + down_diff g x k ^ 2)) (icells g)).
  { rewrite <- !lsum_scal. apply Rle_trans with (lsum (fun k => lambda * sqrt (right_diff z k ^ 2 + down_diff g z k ^ 2) + (-1) * (lambda * sqrt (right_diff x k ^ 2 + down_diff g x k ^ 2))) (icells g)).
    - apply lsum_le. intros k Hk. destruct (Hc k ltac:(now apply is_cell_in)) as [C1 C2]. rewrite <- C2. unfold e, right_diff, down_diff in *.
      set (P1 := px k) in *. set (P2 := py k) in *. set (X := z (k + 1)%Z - z k). set (Y := z (k + ngridx g)%Z - z k).
      assert (P1 * X + P2 * Y <= lambda * sqrt (X ^ 2 + Y ^ 2)).
      { pose proof (sqrt_pos (X ^ 2 + Y ^ 2)). destruct (Rle_dec 0 (P1 * X + P2 * Y)); [|nra]. apply Rsqr_incr_0_var; [|nra].
        unfold Rsqr. replace (lambda * sqrt (X ^ 2 + Y ^ 2) * (lambda * sqrt (X ^ 2 + Y ^ 2))) with (lambda ^ 2 * (sqrt (X ^ 2 + Y ^ 2) * sqrt (X ^ 2 + Y ^ 2))) by ring.
        rewrite sqrt_sqrt by nra. assert (0 <= (P1 * Y - P2 * X) * (P1 * Y - P2 * X)) by apply Rle_0_sqr. assert ((P1 ^ 2 + P2 ^ 2) * (X ^ 2 + Y ^ 2) <= lambda ^ 2 * (X ^ 2 + Y ^ 2)) by (apply Rmult_le_compat_r; nra). nra. }
      unfold X, Y in *. nra.
    - rewrite lsum_plus, (lsum_scal (-1)). lra. }
  set (VX := lsum (fun k => sqrt (right_diff x k ^ 2 + down_diff g x k ^ 2)) (icells g)) in *. set (VZ := lsum (fun k => sqrt (right_diff z k ^ 2 + down_diff g z k ^ 2)) (icells g)) in *.
  rewrite E1, P. set (D := lsum (fun k => px k * right_diff e k + py k * down_diff g e k) (icells g)) in *. assert (0 < / r) by now apply Rinv_0_lt_compat. unfold Rdiv.
  assert (/ r * D <= / r * (lambda * VZ - lambda * VX)) by (apply Rmult_le_compat_l; lra). lra.
Qed.

(** An optimal image: with a short enough step the iterates stay within a fixed distance of it, for ever. *)
Theorem C73_bounded : forall g data lambda recon px py prox1 sim adj s theta x z pz qz n y, valid g -> 0 < lambda -> (0 <= s < dy g)%Z -> 0 < theta < 1 -> short_step g s theta ->
  certificate g data lambda s z pz qz -> slice_is g recon s x -> slice_is g (tv g data lambda (Z.of_nat n) recon px py prox1 sim adj) s y ->
  (1 - theta) * distance2 g y z <= 10 * (distance2 g x z + unit_of g ^ 2 * (cell_total g (fun k => pz k ^ 2 + qz k ^ 2) + misfit g data s z)).
Proof.
  intros g data lambda recon px py prox1 sim adj s theta x z pz qz n y Hg Hl Hs Hth Hsh Hc Hx Hy.
  pose proof (tv_run g data lambda recon px py prox1 sim adj n s x Hg ltac:(lra) Hs Hx) as Hr.
  rewrite (distance2_ext g y z (fun j => scale_r g * st_xb (run g data lambda s x n) j) z) by (intros j Hj; auto; now apply (slice_is_inj g _ s _ _ j Hy Hr)).
  exact (tv_bounded g Hg data lambda s x Hl z pz qz Hc theta Hth Hsh n).
Qed.
(** The moves between consecutive iterates are square summable: the iteration settles. *)
Theorem C73_settles : forall g data lambda recon px py prox1 sim adj s theta x z pz qz (y : nat -> Z -> R), valid g -> 0 < lambda -> (0 <= s < dy g)%Z -> 0 < theta < 1 -> short_step g s theta ->
  certificate g data lambda s z pz qz -> slice_is g recon s x -> (forall n, slice_is g (tv g data lambda (Z.of_nat n) recon px py prox1 sim adj) s (y n)) ->
  forall n, (1 - theta) * rsum (map (fun k => distance2 g (y (S k)) (y k)) (seq 0 n)) <= 10 * (distance2 g x z + unit_of g ^ 2 * (cell_total g (fun k => pz k ^ 2 + qz k ^ 2) + misfit g data s z)).
Proof.
  intros g data lambda recon px py prox1 sim adj s theta x z pz qz y Hg Hl Hs Hth Hsh Hc Hx Hy n.
  rewrite (map_ext _ (fun k => distance2 g (fun j => scale_r g * st_xb (run g data lambda s x (S k)) j) (fun j => scale_r g * st_xb (run g data lambda s x k) j))).
  - exact (tv_settles g Hg data lambda s x Hl z pz qz Hc theta Hth Hsh n).
  - intros k. apply distance2_ext; intros j Hj.
    + exact (slice_is_inj g _ s _ _ j (Hy (S k)) (tv_run g data lambda recon px py prox1 sim adj (S k) s x Hg ltac:(lra) Hs Hx) Hj).
    + exact (slice_is_inj g _ s _ _ j (Hy k) (tv_run g data lambda recon px py prox1 sim adj k s x Hg ltac:(lra) Hs Hx) Hj).
Qed.
(** A bound for the rays gives the bound for the step: the differences never exceed 8. *)
Lemma lsum_incl {A} (f : A -> R) l l' : NoDup l -> (forall x, In x l -> In x l') -> (forall x, 0 <= f x) -> lsum f l <= lsum f l'.
Proof.
  intros ND. revert l'. induction ND as [|a l Hn ND IH]; intros l' Hi Hf; [unfold lsum at 1; cbn; apply lsum_nonneg; auto|].
  destruct (in_split a l' (Hi a (or_introl eq_refl))) as (l1 & l2 & ->). rewrite lsum_app, !lsum_cons.
  assert (lsum f l <= lsum f (l1 ++ l2)); [|rewrite lsum_app in *; lra]. apply IH; auto. intros x Hx. specialize (Hi x (or_intror Hx)). apply in_app_or in Hi as [Hi|[<-|Hi]]; [| contradiction|]; apply in_or_app; auto.
Qed.
Theorem C73_short : forall g s K theta, valid g -> bounded_rays g s K -> (35 / 100) ^ 2 * (8 + 2 * K / IZR (dx g * dt g)) <= theta ^ 2 -> short_step g s theta.
Proof.
  intros g s K theta Hg HK Ht v. pose proof Hg as (H1 & H2 & H3 & H4 & H5). rewrite cell_total_sum. set (V := total (npix g) (fun j => v j ^ 2)).
  assert (V0 : 0 <= V) by (apply zsum_nonneg; intros; nra).
  assert (Sh : forall a, (forall k, In k (icells g) -> (0 <= k + a < npix g)%Z) -> lsum (fun k => v (k + a)%Z ^ 2) (icells g) <= V).
  { intros a Ha. unfold V, total. change (rsum (map ?h ?l)) with (lsum h l).
    apply Rle_trans with (lsum (fun j => v j ^ 2) (map (fun k => (k + a)%Z) (icells g))); [right; unfold lsum; now rewrite map_map|]. apply lsum_incl.
    - apply FinFun.Injective_map_NoDup; [intros x y; lia|]. now apply NoDup_icells.
    - intros x Hx. apply in_map_iff in Hx as (k & <- & Hk). apply in_zrange. now apply Ha.
    - intros; nra. }
  assert (S0 := Sh 0%Z ltac:(intros k Hk; apply cell_range in Hk; auto; rewrite Z.add_0_r; tauto)). assert (S1 := Sh 1%Z ltac:(intros k Hk; apply cell_range in Hk; auto; tauto)). assert (S2 := Sh (ngridx g) ltac:(intros k Hk; apply cell_range in Hk; auto; tauto)).
  assert (G : lsum (fun k => right_diff v k ^ 2 + down_diff g v k ^ 2) (icells g) <= 8 * V).
  { apply Rle_trans with (lsum (fun k => 2 * v (k + 1)%Z ^ 2 + (2 * v (k + ngridx g)%Z ^ 2 + 4 * v (k + 0)%Z ^ 2)) (icells g)).
    - apply lsum_le. intros k _. unfold right_diff, down_diff. rewrite Z.add_0_r. assert (0 <= (v (k + 1)%Z + v k) ^ 2) by apply pow2_ge_0. assert (0 <= (v (k + ngridx g)%Z + v k) ^ 2) by apply pow2_ge_0. nra.
    - rewrite !lsum_plus, !lsum_scal. lra. }
  specialize (HK v). fold V in HK. set (RR := total (dt g) _) in *. assert (Er : unit_of g ^ 2 = 2 / IZR (dx g * dt g)).
  { unfold unit_of. assert (1 <= dx g * dt g)%Z by nia. apply IZR_le in H. rewrite pow2_sqrt; auto. apply Rle_mult_inv_pos; lra. }
  rewrite Er. assert (D : 0 < / IZR (dx g * dt g)) by (assert (1 <= dx g * dt g)%Z by nia; apply IZR_le in H; apply Rinv_0_lt_compat; lra).
  assert (RB : 2 / IZR (dx g * dt g) * RR <= 2 / IZR (dx g * dt g) * (K * V)) by (apply Rmult_le_compat_l; [unfold Rdiv; lra|exact HK]).
  apply Rle_trans with ((35 / 100) ^ 2 * (8 + 2 * K / IZR (dx g * dt g)) * V); [|apply Rmult_le_compat_r; auto].
  replace ((8 + 2 * K / IZR (dx g * dt g)) * V) with (8 * V + 2 / IZR (dx g * dt g) * (K * V)) by (unfold Rdiv; ring). rewrite Rmult_assoc.
  replace ((8 + 2 * K / IZR (dx g * dt g)) * V) with (8 * V + 2 / IZR (dx g * dt g) * (K * V)) by (unfold Rdiv; ring). nra.
Qed.
(** An image without differences that explains the data is left alone, whatever the step. *)
Theorem C73_still : forall g data lambda recon px py prox1 sim adj s n x, valid g -> lambda <> 0 -> (0 <= s < dy g)%Z -> (0 <= n)%Z ->
  (forall k, is_cell g k -> right_diff x k = 0 /\ down_diff g x k = 0) -> consistent g s s data x -> slice_is g recon s x ->
  slice_is g (tv g data lambda n recon px py prox1 sim adj) s x.
Proof.
  intros g data lambda recon px py prox1 sim adj s n x Hg Hl Hs Hn Hd Hc Hx. rewrite <- (Z2Nat.id n) by auto.
  eapply slice_is_ext; [|exact (tv_run g data lambda recon px py prox1 sim adj (Z.to_nat n) s x Hg Hl Hs Hx)].
  intros j Hj. destruct (run_still g Hg data lambda s x (Z.to_nat n)) as [E _].
  - intros k Hk. apply Hd. now apply is_cell_in.
  - intros (p, d) Hi. apply in_pairs in Hi. rewrite <- ray_sum_fwd by auto. now apply Hc.
  - destruct (E j Hj) as [-> _]. pose proof (r0 g Hg). field. lra.
Qed.
(** ... and is optimal: the certificate is the zero field. *)
Theorem C73_still_optimal : forall g data lambda s x, valid g -> (forall k, is_cell g k -> right_diff x k = 0 /\ down_diff g x k = 0) -> consistent g s s data x ->
  certificate g data lambda s x (fun _ => 0) (fun _ => 0).
Proof.
  intros g data lambda s x Hg Hd Hc. split.
  - intros k Hk. destruct (Hd k Hk) as [-> ->]. split; [nra|]. replace (0 ^ 2 + 0 ^ 2) with 0 by ring. rewrite sqrt_0. ring.
  - intros j Hj. replace (transposed g (fun _ => 0) (fun _ => 0) j) with 0.
    + unfold back_residual. rewrite (total_pairs g (fun p d => (ray_sum (rays g s p d) x - data (ind_data g s p d)) * inside_length (rays g s p d) j)).
      rewrite (lsum_ext _ (fun _ => 0)); [rewrite lsum_null; ring|]. intros (p, d) Hi. apply in_pairs in Hi. cbn [fst snd]. rewrite Hc by auto. ring.
    + unfold transposed. rewrite cell_total_sum. rewrite (lsum_ext _ (fun _ => 0)); [now rewrite lsum_null|]. intros; ring.
Qed.

(** Square grid: in the first iteration a pixel that agrees with its four neighbours in the grid of the rays (pixel (i, l) at i * ngridy + l) keeps its value if the data are explained. *)
Definition calm (g : geom) (x : Z -> R) (i l : Z) : Prop := forall i' l', (0 <= i' < ngridx g)%Z -> (0 <= l' < ngridy g)%Z -> (Z.abs (i - i') + Z.abs (l - l') = 1)%Z ->
  x (i' * ngridy g + l')%Z = x (i * ngridy g + l)%Z.
Theorem C73_square : forall g data lambda recon px py prox1 sim adj s x i l, valid g -> ngridx g = ngridy g -> lambda <> 0 -> (0 <= s < dy g)%Z -> consistent g s s data x -> slice_is g recon s x ->
  (0 <= i < ngridx g)%Z -> (0 <= l < ngridy g)%Z -> calm g x i l ->
  tv g data lambda 1 recon px py prox1 sim adj (i * ngridy g + l + s * npix g)%Z = Some (x (i * ngridy g + l)%Z).
Proof.
  intros g data lambda recon px py prox1 sim adj s x i l Hg Hsq Hl Hs Hc Hx Hi Hl' Hn. set (j := (i * ngridy g + l)%Z).
  assert (Hj : is_pixel g j) by (unfold is_pixel, npix, j; nia).
  change 1%Z with (Z.of_nat 1). fold j. rewrite (tv_run g data lambda recon px py prox1 sim adj 1 s x Hg Hl Hs Hx j Hj). apply f_equal.
  assert (D : (j / ngridx g = i)%Z) by (unfold j; rewrite Hsq, Z.div_add_l, Z.div_small; lia).
  assert (M : (j mod ngridx g = l)%Z) by (unfold j; rewrite Hsq, Z.add_comm, Z.mod_add by lia; apply Z.mod_small; lia).
  rewrite (run_local g Hg data lambda s x j).
  - pose proof (r0 g Hg). field. lra.
  - intros (p, d) Hp. apply in_pairs in Hp. rewrite <- ray_sum_fwd by auto. now apply Hc.
  - exact Hj.
  - rewrite M. intros. unfold j. rewrite <- (Hn i (l + 1)%Z) by lia. f_equal. lia.
  - rewrite D. intros. unfold j. rewrite <- (Hn (i + 1)%Z l) by lia. f_equal. lia.
  - rewrite M. intros. unfold j. rewrite <- (Hn i (l - 1)%Z) by lia. f_equal. lia.
  - rewrite D. intros. unfold j. rewrite <- (Hn (i - 1)%Z l) by lia. f_equal. lia.
Qed.
(** Not so on a grid that is not square: tv.c walks the image in rows of ngridx, the rays index it in rows of ngridy. *)
Theorem C73_layout_refuted : exists g data recon x, valid g /\ consistent g 0 0 data x /\ slice_is g recon 0 x /\ calm g x 0 0 /\
  forall px py prox1 sim adj, exists y, tv g data 1 1 recon px py prox1 sim adj 0%Z = Some y /\ y <> x 0%Z.
Proof.
  set (g := mkGeom 2 3 1 1 1 half (fun _ => 0)). set (x := fun j : Z => if (j =? 2)%Z then 1 else 0). set (data := fun _ : Z => ray_sum (rays g 0 0 0) x).
  assert (Hg : valid g) by (unfold valid, g; cbn; lia).
  assert (Hc : consistent g 0 0 data x) by (intros p d [Hp Hd]; unfold g in Hp, Hd; cbn in Hp, Hd; replace p with 0%Z by lia; replace d with 0%Z by lia; reflexivity).
  exists g, data, (fun j => Some (x j)), x. split; [exact Hg|]. split; [exact Hc|]. assert (Hx : slice_is g (fun j => Some (x j)) 0 x) by (intros j Hj; cbn; now rewrite Z.add_0_r). split; [exact Hx|]. split.
  - intros i' l' H1 H2 H3. unfold g in *. cbn in *. unfold x. assert (E : (i' * 3 + l' = 1 \/ i' * 3 + l' = 3)%Z) by lia. destruct E as [-> | ->]; reflexivity.
  - intros px py prox1 sim adj. destruct (C73_run g data 1 0 x Hg ltac:(lra) ltac:(cbn; lia)) as (st & S0 & S1 & S2).
    pose proof (S2 (fun j => Some (x j)) px py prox1 sim adj 1%nat Hx 0%Z ltac:(unfold is_pixel; cbn; lia)) as E. change (0 + 0 * npix g)%Z with 0%Z in E. eexists. split; [exact E|].
    destruct (S1 0%nat) as (A & B & C & D). rewrite S0 in *. cbn [pd_start bar img dual_x dual_y dual_ray] in *.
    assert (Hu : 0 < unit_of g) by (rewrite unit_r by auto; now apply r0). assert (Hu2 : unit_of g * unit_of g = 2) by (unfold unit_of; rewrite sqrt_sqrt; cbn; lra).
    assert (Hu1 : 1 < unit_of g) by nra.
    destruct (A 0%Z ltac:(exists 0%Z, 0%Z; cbn; lia)) as [A1 A2]. unfold right_diff, down_diff, x in A1, A2. cbn [g ngridx Z.add Z.eqb Pos.eqb] in A1, A2. change (0 + 2 =? 2)%Z with true in *. cbn in A1, A2.
    assert (Q : dual_ray (st 1%nat) 0 0 = 0).
    { rewrite (B 0%Z 0%Z ltac:(unfold is_ray; cbn; lia)). unfold data. replace (ray_sum (rays g 0 0 0) (fun j => x j / unit_of g)) with (ray_sum (rays g 0 0 0) x / unit_of g); [field; lra|].
      rewrite !ray_sum_fwd by auto. rewrite (fwd_ext _ _ (fun j => x j / unit_of g) (fun j => / unit_of g * x j + 0 * x j)) by (intros; field; lra). rewrite fwd_lin. field. lra. }
    pose proof (C 0%Z ltac:(unfold is_pixel; cbn; lia)) as C0. pose proof (D 0%Z ltac:(unfold is_pixel; cbn; lia)) as D0.
    assert (T : transposed g (dual_x (st 1%nat)) (dual_y (st 1%nat)) 0 = - dual_x (st 1%nat) 0%Z - dual_y (st 1%nat) 0%Z).
    { unfold transposed, cell_total, total, delta. change (zrange 0 (ngridy g - 1)) with [0%Z; 1%Z]. change (zrange 0 (ngridx g - 1)) with [0%Z]. cbn. ring. }
    rewrite T in C0. replace (total (dt g) _) with 0 in C0 by (unfold total; cbn [g dt dx]; change (zrange 0 1) with [0%Z]; cbn [map rsum fold_right]; rewrite Q; ring).
    assert (I : 0 < / unit_of g) by now apply Rinv_0_lt_compat. assert (I1 : / unit_of g < 1) by (rewrite <- Rinv_1; apply Rinv_lt_contravar; lra).
    assert (X1 : dual_x (st 1%nat) 0%Z = 0) by (rewrite A1; unfold Rdiv; ring).
    assert (X2 : dual_y (st 1%nat) 0%Z = 35 / 100 * / unit_of g).
    { rewrite A2. match goal with |- ?a / excess 1 ?b ?c = _ => replace (excess 1 b c) with 1 end; [unfold Rdiv; field; lra|]. symmetry. unfold excess. apply Rmax_left.
      match goal with |- sqrt (?b ^ 2 + ?c ^ 2) / 1 <= 1 => replace (b ^ 2 + c ^ 2) with ((35 / 100 * / unit_of g) ^ 2) by (unfold Rdiv; field; lra) end. rewrite sqrt_pow2 by nra. nra. }
    rewrite D0, C0, X1, X2. unfold x. cbn. assert (unit_of g * / unit_of g = 1) by (field; lra). nra.
Qed.
(** lambda = 0 on a flat image: the first cell divides 0 by 0 (the model has no finite value for any division by 0; here it is NaN in C as well). *)
Theorem C73_zero_refuted : forall g data recon px py prox1 sim adj s x, valid g -> (2 <= ngridx g)%Z -> (2 <= ngridy g)%Z -> (0 <= s < dy g)%Z ->
  slice_is g recon s (fun _ => x) -> tv g data 0 1 recon px py prox1 sim adj (0 + s * npix g)%Z = None.
Proof. intros g data recon px py prox1 sim adj s x (H1 & H2 & H3 & H4 & H5) Hx Hy Hs _. rewrite Z.add_comm. now apply zero_nan. Qed.

(** ** Examples *)
Lemma unit_short c : c 0%Z = 1 / 2 -> short_step (unit_geom 1 c) 0 (1 / 2).
Proof.
  intros Hc v. unfold cell_total, total. cbn [unit_geom ngridy ngridx dt dx npix]. change (zrange 0 (1 - 1)) with (@nil Z). change (zrange 0 1) with [0%Z]. change (zrange 0 (npix (unit_geom 1 c))) with [0%Z]. cbn [map rsum fold_right].
  change (rays (mkGeom 1 1 1 1 1 c (fun _ => 0)) 0 0 0) with (rays (unit_geom 1 c) 0 0 0). rewrite unit_rays by auto. unfold unit_of. cbn [unit_geom dx dt].
  rewrite pow2_sqrt by (cbn; lra). unfold ray_sum. cbn. nra.
Qed.
Example C73_ex : exists y, slice_is (unit_geom 1 half) (tv (unit_geom 1 half) (fun _ => 4) 1 1 (fun _ => Some 0) (fun _ => None) (fun _ => None) (fun _ => None) (fun _ => None) (fun _ => None)) 0 y /\ y 0%Z = 196 / 135.
Proof.
  set (g := unit_geom 1 half). assert (Hg : valid g) by (apply unit_valid; lia). destruct (C73_run g (fun _ => 4) 1 0 (fun _ => 0) Hg ltac:(lra) ltac:(cbn; lia)) as (st & S0 & S1 & S2).
  eexists. split; [apply (S2 _ _ _ _ _ _ 1%nat); intros j Hj; reflexivity|]. cbv beta. destruct (S1 0%nat) as (_ & B & C & D). rewrite S0 in *. cbn [pd_start bar img dual_x dual_y dual_ray] in *.
  assert (P0 : is_pixel g 0) by (unfold is_pixel; cbn; lia). specialize (B 0%Z 0%Z ltac:(unfold is_ray; cbn; lia)). specialize (C 0%Z P0). specialize (D 0%Z P0).
  assert (Hu : 0 < unit_of g) by (rewrite unit_r by auto; now apply r0). assert (Hu2 : unit_of g * unit_of g = 2) by (unfold unit_of; rewrite sqrt_sqrt; cbn; lra).
  replace (total (dt g) _) with (dual_ray (st 1%nat) 0 0 * 1) in C by (unfold total, g; cbn [unit_geom dt dx]; change (zrange 0 1) with [0%Z]; cbn [map rsum fold_right]; change (rays (mkGeom 1 1 1 1 1 half (fun _ => 0)) 0 0 0) with (rays (unit_geom 1 half) 0 0 0); rewrite unit_rays by reflexivity; unfold inside_length; cbn; ring).
  replace (transposed g (dual_x (st 1%nat)) (dual_y (st 1%nat)) 0) with 0 in C by (unfold transposed, cell_total, total; reflexivity).
  unfold g in B. rewrite unit_rays in B by reflexivity. fold g in B. rewrite D, C, B. unfold ray_sum. cbn. match goal with |- unit_of g * ?e = _ => replace (unit_of g * e) with (unit_of g * unit_of g * (98 / 135)) by (field; lra) end. rewrite Hu2. field.
Qed.
(** The hypotheses of C73_bounded and C73_settles can be met. *)
Example C73_bounded_ex : short_step (unit_geom 1 half) 0 (1 / 2) /\ certificate (unit_geom 1 half) (fun _ => 4) 1 0 (fun _ => 4) (fun _ => 0) (fun _ => 0).
Proof.
  split; [now apply unit_short|]. apply C73_still_optimal; [apply unit_valid; lia|unfold right_diff, down_diff; intros; lra|].
  intros p d [Hp Hd]. cbn in Hp, Hd. replace p with 0%Z by lia. replace d with 0%Z by lia. rewrite unit_rays by reflexivity. unfold ray_sum. cbn. ring.
Qed.

Print Assumptions C73_none.
Print Assumptions C73_run.
Print Assumptions C73_optimal.
Print Assumptions C73_bounded.
Print Assumptions C73_settles.
Print Assumptions C73_short.
Print Assumptions C73_still.
Print Assumptions C73_still_optimal.
Print Assumptions C73_square.
Print Assumptions C73_layout_refuted.
Print Assumptions C73_zero_refuted.
