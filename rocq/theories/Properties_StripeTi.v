(** remove_stripe_sf and remove_stripe_ti (prep/stripe.py, libtomo/prep/stripe.c). *)
From Verif Require Import Base CLoop Model_Prep Model_Solver Model_Ospml Proofs_Prep Proofs_Morph Proofs_Solver Model_StripeSf Proofs_StripeSf Model_StripeTi Proofs_StripeTi Proofs_StripeCg.
From Coq Require Import Reals Lra.
Local Open Scope R_scope.

(** Sum of f over 0 .. n-1. *)
Definition total (n : Z) (f : Z -> R) : R := fold_right Rplus 0 (map f (zrange 0 n)).

(** ** C35 *)
(** Element (projection, slice, pixel) of dx x dy x dz values in C order. *)
Definition element (dy dz p s j : Z) : Z := ((p * dy + s) * dz + j)%Z.
Definition column_mean (dx dy dz : Z) (data : Z -> R) (s j : Z) : R := total dx (fun p => data (element dy dz p s j)) / IZR dx.
(** Mean of the column means in the window of [size] columns around j; the first and the last column are repeated. *)
Definition smoothed (dx dy dz size : Z) (data : Z -> R) (s j : Z) : R :=
  total size (fun i => column_mean dx dy dz data s (Z.max 0 (Z.min (dz - 1) (j + i - size / 2)))) / IZR size.
Lemma element_index dy dz p s j : sf_index dy dz p s j = element dy dz p s j.
Proof. unfold sf_index, element. ring. Qed.
Lemma column_mean_spec dx dy dz data s j : col_mean dx dy dz data s j = column_mean dx dy dz data s j.
Proof.
  unfold col_mean, column_mean. change total with zsum. unfold Rdiv. rewrite Rmult_comm, <- zsum_scal. apply zsum_ext.
  intros p _. rewrite element_index. lra.
Qed.
Lemma smoothed_spec dx dy dz size data s j : col_smooth dx dy dz size data s j = smoothed dx dy dz size data s j.
Proof. unfold col_smooth, smoothed. change total with zsum. f_equal. apply zsum_ext. intros i _. apply column_mean_spec. Qed.

(** Each column of slices istart .. iend-1 is shifted by the difference between the smoothed and its own mean. *)
Theorem C35_shift : forall dx dy dz size istart iend data, (0 < dx)%Z -> (0 < dz)%Z -> (0 < size)%Z -> (0 <= istart <= iend)%Z -> (iend <= dy)%Z ->
  let out := remove_stripe_sf dx dy dz size istart iend data in
  forall p s j, (0 <= p < dx)%Z -> (istart <= s < iend)%Z -> (0 <= j < dz)%Z ->
  out (element dy dz p s j) = data (element dy dz p s j) + (smoothed dx dy dz size data s j - column_mean dx dy dz data s j).
Proof.
  intros dx dy dz size a b data Hdx Hdz Hsz Hab Hb out p s j Hp Hs Hj. unfold out. rewrite <- element_index.
  rewrite (proj1 (remove_stripe_sf_spec dx dy dz size Hdx Hdz a b data ltac:(lia) Hab Hb)) by auto. rewrite column_mean_spec, smoothed_spec. lra.
Qed.
(** So its new mean is the smoothed mean, and differences between projections are kept. *)
Theorem C35_mean : forall dx dy dz size istart iend data, (0 < dx)%Z -> (0 < dz)%Z -> (0 < size)%Z -> (0 <= istart <= iend)%Z -> (iend <= dy)%Z ->
  let out := remove_stripe_sf dx dy dz size istart iend data in
  forall s j, (istart <= s < iend)%Z -> (0 <= j < dz)%Z ->
  column_mean dx dy dz out s j = smoothed dx dy dz size data s j /\
  forall p q, (0 <= p < dx)%Z -> (0 <= q < dx)%Z ->
    out (element dy dz p s j) - out (element dy dz q s j) = data (element dy dz p s j) - data (element dy dz q s j).
Proof.
  intros dx dy dz size a b data Hdx Hdz Hsz Hab Hb out s j Hs Hj.
  assert (E : forall p, (0 <= p < dx)%Z -> out (element dy dz p s j) = data (element dy dz p s j) + (smoothed dx dy dz size data s j - column_mean dx dy dz data s j))
    by (intros p Hp; now apply C35_shift).
  split; [|intros p q Hp Hq; rewrite !E by auto; lra].
  unfold column_mean at 1. set (k := smoothed dx dy dz size data s j - column_mean dx dy dz data s j) in *.
  change total with zsum. rewrite (zsum_ext dx _ (fun p => data (element dy dz p s j) + k * 1)) by (intros p Hp; rewrite E by auto; lra).
  rewrite zsum_plus, zsum_scal. assert (N : zsum dx (fun _ => 1) = IZR dx).
  { rewrite <- (Z2Nat.id dx) by lia. clear. induction (Z.to_nat dx) as [|n IH]; [apply zsum_0; lia|].
    replace (Z.of_nat (S n)) with (Z.of_nat n + 1)%Z by lia. rewrite zsum_S, IH, plus_IZR by lia. reflexivity. }
  rewrite N. assert (IZR dx <> 0) by (apply not_0_IZR; lia).
  replace (smoothed dx dy dz size data s j) with (column_mean dx dy dz data s j + k) by (unfold k; lra). unfold column_mean. change total with zsum. field. auto.
Qed.
(** Nothing else is written. *)
Theorem C35_only : forall dx dy dz size istart iend data x, (0 < dx)%Z -> (0 < dz)%Z -> (0 < size)%Z -> (0 <= istart <= iend)%Z -> (iend <= dy)%Z ->
  (forall p s j, (0 <= p < dx)%Z -> (istart <= s < iend)%Z -> (0 <= j < dz)%Z -> x <> element dy dz p s j) ->
  remove_stripe_sf dx dy dz size istart iend data x = data x.
Proof.
  intros dx dy dz size a b data x Hdx Hdz Hsz Hab Hb H.
  apply (proj2 (remove_stripe_sf_spec dx dy dz size Hdx Hdz a b data ltac:(lia) Hab Hb)).
  intros s Hs (p & j & Hp & Hj & E). rewrite element_index in E. exact (H p s j Hp Hs Hj E).
Qed.
Example C35_ex : let data := fun i => IZR i in   (* two projections of one slice with three pixels: 0 1 2 / 3 4 5 *)
  column_mean 2 1 3 data 0 0 = 3 / 2 /\ smoothed 2 1 3 3 data 0 0 = 11 / 6 /\ remove_stripe_sf 2 1 3 3 0 1 data 0%Z = 1 / 3.
Proof.
  cbv zeta. assert (A : column_mean 2 1 3 (fun i => IZR i) 0 0 = 3 / 2) by (unfold column_mean, total, element; cbv -[Rplus Rdiv Rinv IZR]; lra).
  assert (B : smoothed 2 1 3 3 (fun i => IZR i) 0 0 = 11 / 6) by (unfold smoothed, column_mean, total, element; cbv -[Rplus Rdiv Rinv IZR]; lra).
  split; auto. split; auto. pose proof (C35_shift 2 1 3 3 0 1 (fun i => IZR i) ltac:(lia) ltac:(lia) ltac:(lia) ltac:(lia) ltac:(lia)) as C. cbv zeta in C.
  specialize (C 0%Z 0%Z 0%Z ltac:(lia) ltac:(lia) ltac:(lia)). rewrite A, B in C. change (element 1 3 0 0 0) with 0%Z in C. rewrite C. lra.
Qed.

(** ** C36 *)
(** Projections of complete blocks: each one is the input plus a correction that is the same for all projections of
    its block.  All other projections are replaced by 1. *)
Theorem C36_blocks : forall npix nproj sino m nblock, (0 < nblock <= nproj)%Z ->
  let step := (nproj / nblock)%Z in
  exists new q, ringb npix nproj sino m step = Ok new /\
    forall p r, (0 <= p < nproj)%Z -> new p r = if (p <? nproj / step * step)%Z then nadd (Some (sino p r)) (q (p / step)%Z r) else Some 1.
Proof.
  intros npix nproj sino m nblock H step. assert (Hs : (0 < step)%Z) by (unfold step; apply Z.div_str_pos; lia).
  destruct (ringb_spec npix nproj sino m step Hs ltac:(lia)) as (new & E & S).
  exists new, (fun k r => correction npix sino m (k * step) ((k + 1) * step) r). split; auto. intros p r Hp. apply S. lia.
Qed.
(** No projection is lost if the block length divides the number of projections. *)
Theorem C36_divisible_partial : forall npix nproj sino m nblock, (0 < nblock <= nproj)%Z ->
  let step := (nproj / nblock)%Z in (nproj mod step = 0)%Z ->
  exists new q, ringb npix nproj sino m step = Ok new /\
    forall p r, (0 <= p < nproj)%Z -> new p r = nadd (Some (sino p r)) (q (p / step)%Z r).
Proof.
  intros npix nproj sino m nblock H step Hd. assert (Hs : (0 < step)%Z) by (unfold step; apply Z.div_str_pos; lia).
  destruct (C36_blocks npix nproj sino m nblock H) as (new & q & E & S). exists new, q. split; auto.
  intros p r Hp. fold step in S. rewrite S by auto. destruct (Z.ltb_spec p (nproj / step * step)); auto. exfalso.
  pose proof (Z.div_mod nproj step ltac:(lia)). lia.
Qed.
(** Finding: otherwise the last projections become constant images that do not depend on the data of these projections. *)
Theorem C36_trailing_refuted : forall npix nproj sino nblock alpha, (0 < nblock <= nproj)%Z ->
  let step := (nproj / nblock)%Z in (nproj mod step <> 0)%Z ->
  exists out, remove_stripe_ti npix nproj sino nblock alpha = Ok out /\ forall r r', out (nproj - 1)%Z r = out (nproj - 1)%Z r'.
Proof.
  intros npix nproj sino nblock alpha H step Hd. assert (Hs : (0 < step)%Z) by (unfold step; apply Z.div_str_pos; lia).
  unfold remove_stripe_ti. destruct (Z.eqb_spec nblock 0); [lia|]. cbv zeta. rewrite Z.quot_div_nonneg by lia. fold step.
  destruct (ringb_spec npix nproj sino 1 step Hs ltac:(lia)) as (d1 & -> & S1). destruct (ringb_spec npix nproj sino 2 step Hs ltac:(lia)) as (d2 & -> & S2).
  unfold Ok. eexists. split; [reflexivity|]. intros r r'. unfold combine_rings. cbv zeta.
  pose proof (Z.div_mod nproj step ltac:(lia)). pose proof (Z.mod_pos_bound nproj step Hs).
  rewrite !S1, !S2 by lia. destruct (Z.ltb_spec (nproj - 1) (nproj / step * step)); [lia|reflexivity].
Qed.
(** Finding: more blocks than projections raise. *)
Theorem C36_too_many_refuted : forall npix nproj sino nblock alpha, (0 <= nproj < nblock)%Z -> remove_stripe_ti npix nproj sino nblock alpha = Raise ZeroDivisionError.
Proof.
  intros npix nproj sino nblock alpha H. unfold remove_stripe_ti. destruct (Z.eqb_spec nblock 0); [lia|]. cbv zeta.
  rewrite Z.quot_small by lia. reflexivity.
Qed.
Example C36_ex : (5 / 2 = 2 /\ 5 mod 2 <> 0 /\ 181 / 4 = 45 /\ 181 mod 45 <> 0)%Z.
Proof. repeat split; discriminate. Qed.

(** ** C65: sinograms without stripes *)
(** Finding: remove_stripe_ti (all values, default nblock = 0) is undefined for a sinogram whose columns are equal, ... *)
Theorem C65_ti_refuted : forall npix nproj (g : Z -> R) alpha, (3 <= npix)%Z -> (0 < nproj)%Z ->
  exists out, remove_stripe_ti npix nproj (fun p _ => g p) 0 alpha = Ok out /\ forall p r, out p r = None.
Proof.
  intros npix nproj g alpha Hn Hp. unfold remove_stripe_ti. cbn [Z.eqb]. unfold Ok. eexists. split; [reflexivity|]. intros p r.
  apply combine_nan. unfold ring. assert (C : correction npix (fun p _ => g p) 1 0 nproj r = None); [|now rewrite C].
  unfold correction, ring_cgm. cbv zeta. apply nan_start; [lia|]. apply zero_rhs_nan; [lia|]. intros k Hk. unfold vneg.
  rewrite (matxvec_fin (kernel 1) npix _ (fun _ => rmean (map g (zrange 0 nproj)))) by (intros i _; reflexivity).
  rewrite normal_const.
  - cbn. f_equal. lra.
  - cbn. lia.
  - unfold zsum, hr, kernel. cbv -[Rplus Ropp IZR]. lra.
Qed.
(** ... and for one whose projections have equal sums, as those of a complete object have. *)
Theorem C65_equal_sums_refuted : forall npix nproj sino alpha, (0 < npix)%Z -> (0 < nproj)%Z ->
  (forall p, (0 <= p < nproj)%Z -> total npix (sino p) = total npix (sino 0%Z)) ->
  exists out, remove_stripe_ti npix nproj sino 0 alpha = Ok out /\ forall p r, out p r = None.
Proof.
  intros npix nproj sino alpha Hn Hp He. unfold remove_stripe_ti. cbn [Z.eqb]. unfold Ok. eexists. split; [reflexivity|]. intros p r.
  apply combine_nan. unfold ring. assert (C : correction npix sino 1 0 nproj r = None); [|now rewrite C].
  unfold correction. cbv zeta. rewrite equal_sums by exact He. now apply infinite_alpha_nan.
Qed.
(** Likewise for blocks of a single projection. *)
Theorem C65_single_refuted : forall npix nproj sino nblock alpha, (0 < npix)%Z -> (0 < nblock <= nproj)%Z -> (nproj / nblock = 1)%Z ->
  exists out, remove_stripe_ti npix nproj sino nblock alpha = Ok out /\ forall p r, (0 <= p < nproj)%Z -> out p r = None.
Proof.
  intros npix nproj sino nblock alpha Hn Hb H1. unfold remove_stripe_ti. destruct (Z.eqb_spec nblock 0); [lia|]. cbv zeta.
  rewrite Z.quot_div_nonneg by lia. rewrite H1.
  destruct (ringb_spec npix nproj sino 1 1 ltac:(lia) ltac:(lia)) as (d1 & -> & S1). destruct (ringb_spec npix nproj sino 2 1 ltac:(lia) ltac:(lia)) as (d2 & -> & _).
  unfold Ok. eexists. split; [reflexivity|]. intros p r Hp. apply combine_nan. rewrite S1 by lia. rewrite Z.div_1_r.
  destruct (Z.ltb_spec p (nproj * 1)); [|lia]. assert (C : correction npix sino 1 (p / 1 * 1) ((p / 1 + 1) * 1) r = None); [|now rewrite C].
  unfold correction. cbv zeta. rewrite equal_sums; [now apply infinite_alpha_nan|]. intros p' Hp'. f_equal. lia.
Qed.

(** ** C66: the correction is a regularised least squares solution *)
(** Differences of x with the kernel h, and what the correction q of the mean row x should minimise. *)
Definition difference (h : list R) (x : Z -> R) (i : Z) : R := total (Z.of_nat (length h)) (fun t => nth (Z.to_nat t) h 0 * x (i + t)%Z).
Definition energy (h : list R) (n : Z) (alpha : R) (x q : Z -> R) : R :=
  total (n - (Z.of_nat (length h) - 1)) (fun i => Rsqr (difference h (fun k => x k + q k) i)) + alpha * total n (fun k => Rsqr (q k)).
Lemma energy_spec h n al x q : (1 <= Z.of_nat (length h) <= n)%Z -> energy h n al x q = energy_r h n al x q.
Proof.
  intros H. unfold energy, energy_r. change total with zsum. f_equal. apply zsum_ext. intros i Hi.
  assert (E : difference h (fun k => x k + q k) i = diff h n (fun k => 1 * x k + 1 * q k) i); [|now rewrite E].
  rewrite diff_spec by auto. unfold difference. change total with zsum. apply zsum_ext. intros t _. unfold hr. lra.
Qed.
(** Whenever the loop ends by its tolerance and not by its iteration limit, the correction is finite and no other vector
    has an energy smaller by more than 1e-14 / alpha. *)
Theorem C66_minimal : forall h n alpha x q, (1 <= Z.of_nat (length h) <= n)%Z -> 0 < alpha ->
  let f := vneg (matxvec h n (fun k => Some (x k))) in
  cg_loop h n (Some alpha) max_iterations (cg_start h n (Some alpha) f) = (q, true) ->
  exists q', (forall k, (0 <= k < n)%Z -> q k = Some (q' k)) /\
    forall other, energy h n alpha x q' <= energy h n alpha x other + 1 / 100000000000000 / alpha.
Proof.
  intros h n alpha x q Hl Ha f E.
  assert (Hf : fin n f (fun k => - normal h n x k)).
  { intros k Hk. unfold f, vneg. rewrite (matxvec_fin h n _ x) by (intros i _; reflexivity). cbn. f_equal. lra. }
  assert (Hn : (0 < n)%Z) by lia.
  destruct (cg_loop_residual h n (Some alpha) _ Hn _ _ q (cg_start_tracked h n (Some alpha) f _ Hn Hf) E) as (al & q' & Ea & Hq & B).
  injection Ea as <-. exists q'. split; [exact Hq|]. intros other. rewrite !energy_spec by auto.
  pose proof (energy_min h n alpha x q' other Ha) as M. cbv zeta in M.
  set (S := zsum n (fun k => residual h n alpha (fun k => - normal h n x k) q' k * residual h n alpha (fun k => - normal h n x k) q' k)) in *.
  assert (S0 : 0 <= S) by (apply zsum_nonneg; intros; apply Rle_0_sqr).
  assert (S1 : S <= 1 / 100000000000000).
  { rewrite <- (sqrt_def S S0). replace (1 / 100000000000000) with (1 / 10000000 * (1 / 10000000)) by lra.
    apply Rmult_le_compat; try apply sqrt_pos; lra. }
  eapply Rle_trans; [exact M|]. apply Rplus_le_compat_l. unfold Rdiv at 1 2. apply Rmult_le_compat_r; [left; now apply Rinv_0_lt_compat|exact S1].
Qed.
(** The regularisation is positive whenever it is finite. *)
Theorem C66_alpha : forall npix sino a b al, (a < b)%Z -> get_parameter npix sino a b = Some al -> 0 < al.
Proof.
  intros npix sino a b al Hab H. unfold get_parameter in H. cbv zeta in H. set (sums := map (proj_sum npix sino) (zrange a b)) in *.
  unfold ndiv in H. destruct (Req_EM_T (2 * (fold_right Rmax (hd 0 sums) sums - fold_right Rmin (hd 0 sums) sums)) 0) as [|N]; [discriminate|].
  injection H as <-. apply Rdiv_lt_0_compat; [lra|].
  assert (A : forall l c, c <= fold_right Rmax c l) by (induction l as [|y l IH]; intros c; cbn; [lra|]; eapply Rle_trans; [apply IH|apply Rmax_r]).
  assert (B : forall l c, fold_right Rmin c l <= c) by (induction l as [|y l IH]; intros c; cbn; [lra|]; eapply Rle_trans; [apply Rmin_r|apply IH]).
  specialize (A sums (hd 0 sums)). specialize (B sums (hd 0 sums)). lra.
Qed.
(** The loop does end by its tolerance, after at most as many iterations as there are pixels, unless the differences of
    the mean row vanish (see C65). *)
Theorem C66_terminates : forall h n alpha x, (1 <= Z.of_nat (length h) <= n)%Z -> (n <= 1000000)%Z -> 0 < alpha ->
  (exists i, (0 <= i < n - (Z.of_nat (length h) - 1))%Z /\ difference h x i <> 0) ->
  exists q, cg_loop h n (Some alpha) max_iterations (cg_start h n (Some alpha) (vneg (matxvec h n (fun k => Some (x k))))) = (q, true).
Proof.
  intros h n alpha x Hl Hn Ha (i & Hi & Nz). set (f := vneg (matxvec h n (fun k => Some (x k)))).
  assert (Hf : fin n f (fun k => - normal h n x k)).
  { intros k Hk. unfold f, vneg. rewrite (matxvec_fin h n _ x) by (intros j _; reflexivity). cbn. f_equal. lra. }
  assert (E : exists k, (0 <= k < n)%Z /\ - normal h n x k <> 0).
  { assert (D : diff h n x i = difference h x i).
    { rewrite diff_spec by auto. unfold difference. change total with zsum. apply zsum_ext. intros t _. reflexivity. }
    destruct (Classical_Prop.classic (exists k, (0 <= k < n)%Z /\ - normal h n x k <> 0)) as [|C]; auto. exfalso.
    assert (S : zsum (n - (Z.of_nat (length h) - 1)) (fun i => diff h n x i * diff h n x i) = 0).
    { rewrite normal_adjoint. apply zsum_zero. intros k Hk. destruct (Req_dec (normal h n x k) 0) as [->|N]; [lra|]. exfalso. apply C. exists k. split; auto. lra. }
    assert (P : diff h n x i * diff h n x i <= 0).
    { rewrite <- S. rewrite <- (zsum_single _ i (diff h n x i * diff h n x i) Hi) at 1. apply zsum_le. intros j Hj.
      pose proof (Rle_0_sqr (diff h n x j)) as Q. unfold Rsqr in Q. destruct (Z.eqb_spec j i) as [->|]; lra. }
    rewrite D in P. pose proof (Rsqr_pos_lt _ Nz) as Q. unfold Rsqr in Q. lra. }
  assert (M : (n <= Z.of_nat max_iterations)%Z) by (unfold max_iterations; rewrite Z2Nat.id; lia).
  pose proof (cg_terminates h n Hl alpha Ha f _ max_iterations Hf E M) as T.
  destruct (cg_loop h n (Some alpha) max_iterations (cg_start h n (Some alpha) f)) as [q b]. cbn in T. subst b. now exists q.
Qed.
(** So the correction of a block of projections a .. b-1 is finite and minimal. *)
Definition block_average (sino : Z -> Z -> R) (a b r : Z) : R := total (b - a) (fun p => sino (a + p)%Z r) / IZR (b - a).
Theorem C66_correction : forall npix sino m a b al, (a < b)%Z -> (Z.of_nat (length (kernel m)) <= npix <= 1000000)%Z ->
  get_parameter npix sino a b = Some al ->
  (exists i, (0 <= i < npix - (Z.of_nat (length (kernel m)) - 1))%Z /\ difference (kernel m) (block_average sino a b) i <> 0) ->
  exists q, (forall k, (0 <= k < npix)%Z -> correction npix sino m a b k = Some (q k)) /\
    forall other, energy (kernel m) npix al (block_average sino a b) q <= energy (kernel m) npix al (block_average sino a b) other + 1 / 100000000000000 / al.
Proof.
  intros npix sino m a b al Hab Hn Hal Hd.
  assert (Hl : (1 <= Z.of_nat (length (kernel m)) <= npix)%Z) by (split; [|lia]; unfold kernel; destruct (m =? 1)%Z, (m =? 2)%Z; cbn; lia).
  assert (Ha : 0 < al).
  { clear Hd. revert Hal. apply C66_alpha. exact Hab. }
  assert (B : block_mean sino a b = fun k => Some (block_average sino a b k)).
  { apply FunctionalExtensionality.functional_extensionality. intros r. unfold block_mean, block_average. f_equal. unfold rmean. rewrite map_length.
    change total with zsum. unfold zsum, zrange. rewrite !map_map, map_length, seq_length.
    replace (Z.to_nat (b - a - 0)) with (Z.to_nat (b - a)) by lia. f_equal.
    rewrite INR_IZR_INZ. f_equal. f_equal. lia. }
  destruct (C66_terminates (kernel m) npix al (block_average sino a b) Hl ltac:(lia) Ha Hd) as (q & E).
  destruct (C66_minimal (kernel m) npix al (block_average sino a b) q Hl Ha E) as (q' & F & M).
  exists q'. split; [|exact M]. intros k Hk. unfold correction, ring_cgm. cbv zeta. rewrite Hal, B, E. now apply F.
Qed.
(** The kernels: the first differences of constants and the second differences of straight lines vanish, and no others. *)
Theorem C66_kernels : (forall x i, difference (kernel 1) x i = 0 <-> x (i + 1)%Z = x i) /\
  (forall x i, difference (kernel 2) x i = 0 <-> x (i + 1)%Z - x i = x (i + 2)%Z - x (i + 1)%Z).
Proof.
  split; intros x i; unfold difference.
  - change (total _ _) with (1 * x (i + 0)%Z + (-1 * x (i + 1)%Z + 0)). rewrite Z.add_0_r. split; lra.
  - change (total _ _) with (-1 * x (i + 0)%Z + (2 * x (i + 1)%Z + (-1 * x (i + 2)%Z + 0))). rewrite Z.add_0_r. split; lra.
Qed.
Example C66_ex : difference [1; -1] (fun k => IZR k) 0 = -1 /\ energy [1; -1] 2 1 (fun k => IZR k) (fun _ => 0) = 1.
Proof. unfold energy, difference, total, Rsqr. cbv -[Rplus Rmult Ropp IZR]. split; lra. Qed.

Ltac two := let k := fresh in let H := fresh in intros k H; let C := fresh in assert (C : (k = 0 \/ k = 1)%Z) by lia; clear H; destruct C; subst k.
(** The loop does end by its tolerance, e.g. for two pixels. *)
Example C66_break_ex : exists q, let f := vneg (matxvec [1; -1] 2 (fun k => Some (IZR k))) in
  cg_loop [1; -1] 2 (Some 1) max_iterations (cg_start [1; -1] 2 (Some 1) f) = (q, true).
Proof.
  cbv zeta. set (f := vneg (matxvec [1; -1] 2 (fun k => Some (IZR k)))).
  assert (M : max_iterations = S (Z.to_nat 999999)) by (unfold max_iterations; lia). rewrite M. cbn [cg_loop].
  set (s := cg_start [1; -1] 2 (Some 1) f). exists (cx s).
  assert (F : fin 2 f (fun k => if (k =? 0)%Z then 1 else -1)).
  { two; unfold f, vneg; rewrite (matxvec_fin [1; -1] 2 _ IZR) by (intros i _; reflexivity); cbv -[Rplus Rmult Ropp IZR]; f_equal; lra. }
  assert (R0 : fin 2 (cr s) (fun k => if (k =? 0)%Z then 1 else -1)).
  { two; unfold s, cg_start, op, vsub, vadd, vscale; cbn [cr]; rewrite F by lia; rewrite (matxvec_fin [1; -1] 2 _ (fun _ => 0)) by (intros i _; reflexivity);
      rewrite normal_zero by auto; cbn; f_equal; lra. }
  assert (W0 : fin 2 (cw s) (fun k => if (k =? 0)%Z then -1 else 1)).
  { change (cw s) with (vneg (cr s)). two; unfold vneg; rewrite R0 by lia; cbn; f_equal; lra. }
  assert (Z0 : fin 2 (cz s) (fun k => if (k =? 0)%Z then -3 else 3)).
  { change (cz s) with (op [1; -1] 2 (Some 1) (cw s)). two; unfold op, vadd, vscale; rewrite (matxvec_fin [1; -1] 2 _ _ W0), W0 by lia;
      cbv -[Rplus Rmult Ropp IZR]; f_equal; lra. }
  assert (A0 : ca s = Some (- / 3)).
  { change (ca s) with (ndiv (ndot 2 (cr s) (cw s)) (ndot 2 (cw s) (cz s))). unfold ndot.
    rewrite (nsum_fin 2 (fun i => nmul (cr s i) (cw s i)) (fun _ => -1)) by (two; rewrite R0, W0 by lia; cbn; f_equal; lra).
    rewrite (nsum_fin 2 (fun i => nmul (cw s i) (cz s i)) (fun _ => 3)) by (two; rewrite W0, Z0 by lia; cbn; f_equal; lra).
    assert (E1 : zsum 2 (fun _ => -1) = -2) by (cbv -[Rplus Ropp IZR]; lra). assert (E2 : zsum 2 (fun _ => 3) = 6) by (cbv -[Rplus Ropp IZR]; lra).
    rewrite E1, E2. unfold ndiv. destruct (Req_EM_T 6 0); [lra|]. f_equal. lra. }
  assert (S0 : small_norm 2 (vsub (cr s) (vscale (ca s) (cz s))) = true).
  { unfold small_norm, ndot. rewrite (nsum_fin 2 _ (fun _ => 0)).
    - rewrite zsum_zero by auto. rewrite sqrt_0. apply rltb_spec. lra.
    - two; unfold vsub, vscale; rewrite A0, R0, Z0 by lia; cbn; f_equal; lra. }
  now rewrite S0.
Qed.

Print Assumptions C35_shift.
Print Assumptions C35_mean.
Print Assumptions C36_blocks.
Print Assumptions C36_trailing_refuted.
Print Assumptions C65_ti_refuted.
Print Assumptions C66_minimal.
Print Assumptions C66_terminates.
Print Assumptions C66_correction.
Print Assumptions C66_kernels.
Print Assumptions C35_only.
Print Assumptions C36_divisible_partial.
Print Assumptions C36_too_many_refuted.
Print Assumptions C65_equal_sums_refuted.
Print Assumptions C65_single_refuted.
Print Assumptions C66_alpha.
