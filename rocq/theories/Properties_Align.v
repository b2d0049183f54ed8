(** Alignment of projections (prep/alignment.py). *)
From Verif Require Import Base Model_Prep Model_Solver Proofs_Prep Model_Align Proofs_Align.
From Coq Require Import Reals Lra Psatz.
Local Open Scope R_scope.

(** ** C38 *)
(** The search for corners always ends, either with corners for all images or with an exception. *)
Theorem C38_terminates : forall ref nimg detect k2 k1, exists r, forall fuel, (226 <= fuel)%nat -> drift_corners ref nimg detect fuel k2 k1 = Some r.
Proof.
  intros ref nimg detect k2 k1. unfold drift_corners. destruct nimg as [|nimg]; [eauto|]. set (N := S nimg).
  destruct (drift_loop ref N detect 226 (kernels k2 k1) 0 (first_pass ref N detect k2 k1)) as [r|] eqn:E.
  - destruct r as [e|st]; eexists; intros fuel F; rewrite (loop_fuel ref N detect (kernels k2 k1) 226 fuel 0 _ _ F E); reflexivity.
  - exfalso. revert E. apply loop_total; rewrite kernels_length; lia.
Qed.
(** Corners are returned only if every image was located: by the first detection, if that is within 15 pixels of the
    reference, or else by two detections that agree within 0.1 pixels, the later of them within 15 pixels. *)
Theorem C38_found : forall ref nimg detect fuel k2 k1 cs, drift_corners ref nimg detect fuel k2 k1 = Some (Ok cs) ->
  length cs = nimg /\ forall n c, nth_error cs n = Some c ->
    c = detect n (k2, k1) /\ quick_diff c ref < 15
    \/ exists i j i' j', (0 <= i < 15)%Z /\ (0 <= j < 15)%Z /\ (0 <= i' < 15)%Z /\ (0 <= j' < 15)%Z /\
         c = detect n (k2 + 2 * i', k1 + 2 * j')%Z /\ let d := detect n (k2 + 2 * i, k1 + 2 * j)%Z in quick_diff d c < 1/10 /\ quick_diff d ref < 15.
Proof.
  intros ref nimg detect fuel k2 k1 cs H. unfold drift_corners in H. destruct nimg as [|nimg]; [discriminate|]. set (N := S nimg) in *.
  destruct (drift_loop _ _ _ _ _ _ _) as [[e|st]|] eqn:E; try discriminate. unfold Ok in H. injection H as <-.
  apply loop_inv in E; [|rewrite kernels_length; lia|apply inv_first]. destruct E as [E|(st' & E & (L & I) & A)]; [discriminate|]. unfold Ok in E. injection E as <-.
  split; [now rewrite map_length|]. intros n c Hc. rewrite nth_error_map in Hc. destruct (nth_error st n) as [(c0, b)|] eqn:E; [|discriminate]. cbn in Hc. injection Hc as ->.
  assert (b = true). { unfold all_found in A. rewrite forallb_forall in A. apply nth_error_In, A in E. exact E. } subst b.
  destruct (I n c true E) as ((k' & K' & Ec) & Loc). destruct (Loc eq_refl) as [(Q & ->)|(k & K & Q1 & Q2)]; [left; auto|].
  assert (KI : forall k, k = (k2, k1) \/ In k (kernels k2 k1) -> exists i j, (0 <= i < 15)%Z /\ (0 <= j < 15)%Z /\ k = (k2 + 2 * i, k1 + 2 * j)%Z).
  { intros q [->|Hq]; [exists 0%Z, 0%Z; repeat split; try lia; f_equal; lia|]. unfold kernels in Hq. apply in_flat_map in Hq. destruct Hq as (i & Hi & Hq).
    apply in_map_iff in Hq. destruct Hq as (j & <- & Hj). apply in_zrange in Hi, Hj. exists i, j. auto. }
  right. destruct (KI k (or_intror K)) as (i & j & Hi & Hj & ->). destruct (KI k' K') as (i' & j' & Hi' & Hj' & ->). exists i, j, i', j'. auto 10.
Qed.
(** All corners returned are within 15.1 pixels of the reference. *)
Theorem C38_near : forall ref nimg detect fuel k2 k1 cs, (forall n k, length (detect n k) = length ref) ->
  drift_corners ref nimg detect fuel k2 k1 = Some (Ok cs) -> Forall (fun c => quick_diff c ref < 15 + 1/10) cs.
Proof.
  intros ref nimg detect fuel k2 k1 cs HL H. apply Forall_forall. intros c Hc. apply In_nth_error in Hc. destruct Hc as (n & Hn).
  destruct (C38_found _ _ _ _ _ _ _ H) as (_ & F). destruct (F n c Hn) as [(_ & Q)|(i & j & i' & j' & _ & _ & _ & _ & -> & Q1 & Q2)]; [lra|].
  rewrite quick_diff_sym in Q1. eapply Rle_lt_trans; [apply quick_diff_triangle with (b := detect n (k2 + 2 * i, k1 + 2 * j)%Z); rewrite !HL; auto|lra].
Qed.
(** Finding: the documented fallback to the reference corners is never taken.  If the corners of one image stay far from
    the reference, the candidate kernels run out one round before they are noticed to, and IndexError is raised. *)
Theorem C38_fallback_refuted : forall ref nimg detect fuel k2 k1 n, (n < nimg)%nat -> (226 <= fuel)%nat ->
  (forall k, 15 <= quick_diff (detect n k) ref) -> drift_corners ref nimg detect fuel k2 k1 = Some (Raise IndexError).
Proof.
  intros ref nimg detect fuel k2 k1 n Hn F N. destruct (C38_terminates ref nimg detect k2 k1) as (r & Hr). specialize (Hr fuel F). rewrite Hr. f_equal.
  unfold drift_corners in Hr. destruct nimg as [|nimg]; [lia|]. set (M := S nimg) in *.
  destruct (drift_loop ref M detect fuel (kernels k2 k1) 0 (first_pass ref M detect k2 k1)) as [q|] eqn:E; [|discriminate].
  apply loop_never with (n := n) (c := detect n (k2, k1)) in E; auto.
  - subst q. unfold Raise in *. now injection Hr as <-.
  - rewrite kernels_length. lia.
  - unfold first_pass. now rewrite map_length, seq_length.
  - unfold first_pass. rewrite nth_error_map, nth_error_seq by auto. cbn. do 2 f_equal. apply rltb_false. apply N.
Qed.
Example C38_ex : drift_corners [0; 0] 1 (fun _ _ => [1; 2]) 226 3 3 = Some (Ok [[1; 2]]) /\ drift_corners [0; 0] 2 (fun _ _ => [100; 0]) 226 3 3 = Some (Raise IndexError).
Proof.
  split.
  - assert (R : rltb (quick_diff [1; 2] [0; 0]) 15 = true). { apply rltb_spec. unfold quick_diff. cbn. rewrite !Rabs_pos_eq by lra. repeat apply Rmax_lub_lt; lra. }
    unfold drift_corners. replace (first_pass [0; 0] 1 (fun _ _ => [1; 2]) 3 3) with [([1; 2], true)]; [reflexivity|].
    unfold first_pass. cbn [seq map]. now rewrite R.
  - apply C38_fallback_refuted with (n := 0%nat); try lia. intros k. unfold quick_diff. cbn. eapply Rle_trans; [|apply Rmax_l]. rewrite Rabs_pos_eq; lra.
Qed.

(** ** C40 *)
(** The corrected sinogram of a row is that row of the corrected projections. *)
Lemma coordinates_in xc yc fs h w r c : (0 < h)%Z -> (0 < w)%Z -> 0 <= yd xc yc fs h r c <= IZR (h - 1) /\ 0 <= xd xc yc fs w r c <= IZR (w - 1).
Proof. intros Hh Hw. split; apply clip_range; apply IZR_le; lia. Qed.
Theorem C40_sinogram : forall xc yc fs h w ind tomo, (0 < h)%Z -> (0 < w)%Z ->
  exists sino, correct_sino xc yc fs h w ind tomo = Ok sino /\
  Forall2 (fun s p => forall c, (0 <= c < w)%Z -> s c = p ind c) sino (correct_proj xc yc fs h w tomo).
Proof.
  intros xc yc fs h w ind tomo Hh Hw. unfold correct_sino, correct_proj.
  destruct (map (yd xc yc fs h ind) (zrange 0 w)) as [|y0 ys] eqn:E.
  { exfalso. apply map_eq_nil in E. assert (In 0%Z (zrange 0 w)) by (apply in_zrange; lia). rewrite E in H. destruct H. }
  eexists. split; [reflexivity|]. induction tomo as [|f tomo IH]; constructor; auto. intros c Hc. unfold unwarp.
  destruct (coordinates_in xc yc fs h w ind c Hh Hw) as (Y & X).
  assert (I : In (yd xc yc fs h ind c) (y0 :: ys)) by (rewrite <- E; apply in_map; now apply in_zrange).
  assert (B : lmin y0 ys <= yd xc yc fs h ind c <= lmax y0 ys).
  { destruct (lmin_le ys y0) as (A1 & A2). destruct (lmax_ge ys y0) as (A3 & A4). rewrite Forall_forall in A2, A4. destruct I as [<-|I]; [lra|]. split; auto. }
  assert (M0 : 0 <= lmin y0 ys).
  { pose proof (lmin_in ys y0) as J. rewrite <- E in J. apply in_map_iff in J. destruct J as (c' & <- & _). apply (coordinates_in xc yc fs h w ind c' Hh Hw). }
  pose proof (floor_spec (lmin y0 ys)). pose proof (ceil_spec (lmax y0 ys)).
  apply bilinear_block; auto; try lia; try lra.
  - apply floor_ge. lra.
  - destruct (Z.min_spec h (ceil (lmax y0 ys) + 1)) as [(_ & ->)|(_ & ->)]; [apply Y|]. replace (ceil (lmax y0 ys) + 1 - 1)%Z with (ceil (lmax y0 ys)) by ring. lra.
Qed.
(** Every pixel of the result lies between the extreme pixels of the image: nothing is read from outside. *)
Theorem C40_range : forall xc yc fs h w f lo hi r c, (0 < h)%Z -> (0 < w)%Z -> (forall r c, (0 <= r < h)%Z -> (0 <= c < w)%Z -> lo <= f r c <= hi) ->
  lo <= unwarp xc yc fs h w f r c <= hi.
Proof. intros xc yc fs h w f lo hi r c Hh Hw H. destruct (coordinates_in xc yc fs h w r c Hh Hw). apply bilinear_range; auto. Qed.
(** Without distortion (factor 1, all others 0) images are unchanged. *)
Lemma rsum_zero l : (forall x, In x l -> x = 0) -> rsum l = 0.
Proof. induction l as [|x l IH]; intros H; cbn; auto. rewrite (H x) by (cbn; auto). unfold rsum in IH. rewrite IH; [ring|]. intros; apply H; cbn; auto. Qed.
Lemma radial_trivial k ru : radial (1 :: repeat 0 k) ru = 1.
Proof.
  unfold radial. cbn [length seq combine map]. cbn [rsum fold_right]. rewrite (rsum_zero (map _ _)).
  - rewrite pow_O. ring.
  - intros x Hx. apply in_map_iff in Hx. destruct Hx as ((i, f) & <- & H). apply in_combine_r, repeat_spec in H. subst f. ring.
Qed.
Theorem C40_trivial : forall xc yc k h w f r c, (0 <= r < h)%Z -> (0 <= c < w)%Z -> unwarp xc yc (1 :: repeat 0 k) h w f r c = f r c.
Proof.
  intros xc yc k h w f r c Hr Hc. unfold unwarp, yd, xd. rewrite radial_trivial.
  replace (yc + 1 * (IZR r - yc)) with (IZR r) by ring. replace (xc + 1 * (IZR c - xc)) with (IZR c) by ring.
  rewrite !clip_id by (split; apply IZR_le; lia). now apply bilinear_pixel.
Qed.
(** The centre of the distortion stays where it is, whatever the coefficients. *)
Theorem C40_centre : forall fs h w f r c, (0 <= r < h)%Z -> (0 <= c < w)%Z -> unwarp (IZR c) (IZR r) fs h w f r c = f r c.
Proof.
  intros fs h w f r c Hr Hc. unfold unwarp, yd, xd. rewrite !Rminus_eq_0, !Rmult_0_r, !Rplus_0_r.
  rewrite !clip_id by (split; apply IZR_le; lia). now apply bilinear_pixel.
Qed.
(** The correction is linear in the image: it commutes with sums and multiples. *)
Theorem C40_linear : forall xc yc fs h w f g a b r c, unwarp xc yc fs h w (fun r c => a * f r c + b * g r c) r c = a * unwarp xc yc fs h w f r c + b * unwarp xc yc fs h w g r c.
Proof. intros. unfold unwarp, bilinear. ring. Qed.
(** The coefficients in a file: the last word of each line, the centre first. *)
Theorem C40_load : forall x y fs (pre : nat -> list R), load_coefs (map (fun '(i, v) => pre i ++ [v]) (combine (seq 0 (2 + length fs)) (x :: y :: fs))) = Ok (x, y, fs).
Proof.
  assert (G : forall vs (pre : nat -> list R) a, last_words (map (fun '(i, v) => pre i ++ [v]) (combine (seq a (length vs)) vs)) = Ok vs).
  { induction vs as [|v vs IH]; intros pre a; cbn [length seq combine map last_words]; auto. rewrite rev_app_distr. cbn [rev app]. now rewrite IH. }
  intros x y fs pre. unfold load_coefs. change (2 + length fs)%nat with (length (x :: y :: fs)). now rewrite G.
Qed.
(** A magnification by two about the corner: the picture is read at twice the distance, the rest is the last row or column. *)
Example C40_ex : forall f, unwarp 0 0 [2] 4 4 f 1%Z 1%Z = f 2%Z 2%Z /\ unwarp 0 0 [2] 4 4 f 3%Z 1%Z = f 3%Z 2%Z.
Proof.
  assert (E : forall x, radial [2] x = 2) by (intros; cbn; ring).
  intros f. unfold unwarp, yd, xd. rewrite !E. split.
  - replace (clip 0 (IZR (4 - 1)) (0 + 2 * (1 - 0))) with 2; [apply (bilinear_pixel 4 4 f 2 2); lia|]. cbn. rewrite clip_id; lra.
  - replace (clip 0 (IZR (4 - 1)) (0 + 2 * (1 - 0))) with 2; [|cbn; rewrite clip_id; lra].
    replace (clip 0 (IZR (4 - 1)) (0 + 2 * (3 - 0))) with 3; [apply (bilinear_pixel 4 4 f 3 2); lia|].
    cbn. unfold clip. rewrite (Rmax_right 0) by lra. rewrite Rmin_left; lra.
Qed.

(** ** C69 *)
(** The box cut out lies strictly inside the corners, at least as far inside as asked for. *)
Theorem C69_box : forall c cs i0 i1 i2 i3 xl xu yl yu, slit_box c cs (i0, i1, i2, i3) = (xl, xu, yl, yu) ->
  (forall k, (xl <= k < xu)%Z -> (exists p, In p (c :: cs) /\ fst p + IZR i0 - 1 < IZR k) /\ (exists p, In p (c :: cs) /\ IZR k < fst p - IZR i1)) /\
  (forall k, (yl <= k < yu)%Z -> (exists p, In p (c :: cs) /\ snd p + IZR i2 - 1 < IZR k) /\ (exists p, In p (c :: cs) /\ IZR k < snd p - IZR i3)).
Proof.
  intros c cs i0 i1 i2 i3 xl xu yl yu E. unfold slit_box in E. injection E as <- <- <- <-.
  assert (Lo : forall (g : R * R -> R) i k, (floor (lmin (g c) (map g cs)) + i <= k)%Z -> exists p, In p (c :: cs) /\ g p + IZR i - 1 < IZR k).
  { intros g i k Hk. destruct (lmin_in (map g cs) (g c)) as [I|I].
    - exists c. split; [cbn; auto|]. rewrite I. pose proof (floor_spec (lmin (g c) (map g cs))). apply IZR_le in Hk. rewrite plus_IZR in Hk. lra.
    - apply in_map_iff in I. destruct I as (p & I & Hp). exists p. split; [cbn; auto|]. rewrite I. pose proof (floor_spec (lmin (g c) (map g cs))). apply IZR_le in Hk. rewrite plus_IZR in Hk. lra. }
  assert (Hi : forall (g : R * R -> R) i k, (k < ceil (lmax (g c) (map g cs)) - i)%Z -> exists p, In p (c :: cs) /\ IZR k < g p - IZR i).
  { intros g i k Hk. assert (Hk' : (k <= ceil (lmax (g c) (map g cs)) - i - 1)%Z) by lia. apply IZR_le in Hk'. rewrite !minus_IZR in Hk'. pose proof (ceil_spec (lmax (g c) (map g cs))).
    destruct (lmax_in (map g cs) (g c)) as [I|I]; [exists c; split; [cbn; auto|]; rewrite I; lra|].
    apply in_map_iff in I. destruct I as (p & I & Hp). exists p. split; [cbn; auto|]. rewrite I. lra. }
  split; intros k (K1 & K2); split; auto.
Qed.
(** Finding: the upper limit is negative for a box closer to the edge than the clip, and a negative limit counts from
    the other end of the image: nearly everything outside the box is kept. *)
Definition slice_columns (n xl xu : Z) : list Z :=
  let norm := fun k => if (k <? 0)%Z then Z.max 0 (n + k) else Z.min k n in zrange (norm xl) (norm xu).
Theorem C69_small_box_refuted : exists c cs xl xu yl yu, slit_box c cs (1, 10, 1, 10)%Z = (xl, xu, yl, yu) /\
  (forall p, In p (c :: cs) -> 1 <= fst p <= 8) /\ slice_columns 1000 xl xu = zrange 2 998.
Proof.
  exists (1, 1), [(1, 8); (8, 8); (8, 1)], 2%Z, (-2)%Z, 2%Z, (-2)%Z. split; [|split].
  - unfold slit_box. cbn [map fst snd lmin lmax]. unfold Rmin, Rmax. repeat destruct (Rle_dec _ _); try lra.
    unfold ceil. rewrite <- opp_IZR. unfold floor.
    assert (I : forall z, Int_part (IZR z) = z) by (exact floor_IZR). rewrite !I. reflexivity.
  - intros p Hp. cbn in Hp. destruct Hp as [<-|[<-|[<-|[<-|[]]]]]; cbn; lra.
  - reflexivity.
Qed.
(** The four quadrants in which corners are looked for cover every pixel of a square image exactly once, and their
    origins are their first row and column. *)
Definition covers (r c : Z) (q : quadrant) : bool := (row_from q <=? r)%Z && (r <? row_to q)%Z && (col_from q <=? c)%Z && (c <? col_to q)%Z.
Theorem C69_square : forall n, (0 <= n)%Z ->
  (forall r c, (0 <= r < n)%Z -> (0 <= c < n)%Z -> count (covers r c) (quadrants n n) = 1%nat) /\
  Forall (fun q => origin_x q = col_from q /\ origin_y q = row_from q) (quadrants n n).
Proof.
  intros n Hn. split.
  - intros r c Hr Hc. unfold quadrants, count, covers. cbn [row_from row_to col_from col_to].
    replace (Z.min (n / 2) n) with (n / 2)%Z by lia. set (h := (n / 2)%Z). assert (H : (0 <= h <= n)%Z) by (unfold h; lia). clearbody h.
    destruct (Z.leb_spec 0 r), (Z.leb_spec 0 c), (Z.ltb_spec r n), (Z.ltb_spec c n), (Z.ltb_spec r h), (Z.ltb_spec c h), (Z.leb_spec h r), (Z.leb_spec h c); try lia; reflexivity.
  - unfold quadrants. repeat constructor; cbn; lia.
Qed.
(** Finding: in images that are not square rows and columns of the fourth quadrant are mixed up; some pixel is in no
    quadrant or in two. *)
Theorem C69_rectangle_refuted : forall rows cols, (2 <= rows)%Z -> (2 <= cols)%Z -> (rows / 2 <> cols / 2)%Z ->
  exists r c, (0 <= r < rows)%Z /\ (0 <= c < cols)%Z /\ count (covers r c) (quadrants rows cols) <> 1%nat.
Proof.
  intros rows cols Hr Hc N. destruct (Z.lt_total (cols / 2) (rows / 2)) as [L|[L|L]]; [|lia|].
  - exists (cols / 2)%Z, (cols - 1)%Z. split; [lia|]. split; [lia|]. unfold quadrants, count, covers. cbn [row_from row_to col_from col_to].
    destruct (Z.ltb_spec (cols - 1) (cols / 2)); [lia|]. destruct (Z.leb_spec (rows / 2) (cols / 2)); [lia|].
    destruct (Z.ltb_spec (cols / 2) (Z.min (cols / 2) rows)); [lia|]. rewrite ?andb_false_r. cbn [andb]. rewrite ?andb_false_r. cbn. lia.
  - exists 0%Z, (rows / 2)%Z. split; [lia|]. split; [lia|]. unfold quadrants, count, covers. cbn [row_from row_to col_from col_to].
    destruct (Z.leb_spec (rows / 2) 0); [lia|]. destruct (Z.ltb_spec 0 (rows / 2)); [|lia]. destruct (Z.leb_spec 0 (rows / 2)); [|lia]. destruct (Z.ltb_spec (rows / 2) (cols / 2)); [|lia].
    destruct (Z.ltb_spec 0 (Z.min (cols / 2) rows)); [|lia]. destruct (Z.leb_spec (Z.min (rows / 2) cols) (rows / 2)); [|lia]. destruct (Z.ltb_spec (rows / 2) cols); [|lia]. cbn. lia.
Qed.
Example C69_ex : count (covers 1 6) (quadrants 4 8) = 1%nat /\ count (covers 1 3) (quadrants 4 8) = 2%nat.
Proof. split; reflexivity. Qed.

(** ** C70 *)
(** Scaling: all values in [-1, 1], one of modulus 1, and undone by multiplying with the factor. *)
Theorem C70_scale : forall h w prj scl, scale_factor h w prj = Ok scl -> scl <> 0 ->
  exists out, scaled scl prj = Some out /\ length out = length prj /\
  (forall f, In f out -> forall r c, (0 <= r < h)%Z -> (0 <= c < w)%Z -> Rabs (f r c) <= 1) /\
  (exists f r c, In f out /\ (0 <= r < h)%Z /\ (0 <= c < w)%Z /\ Rabs (f r c) = 1) /\
  Forall2 (fun f g => forall r c, g r c = f r c) prj (rescaled scl out).
Proof.
  intros h w prj scl E Hs. unfold scale_factor in E. destruct (flat_map (pixels h w) prj) as [|x l] eqn:P; [discriminate|]. unfold Ok in E. injection E as E.
  destruct (extreme_abs x l) as (B & y & Hy & Ey). rewrite E in B, Ey. assert (S0 : 0 < scl). { assert (0 <= scl) by (rewrite <- Ey; apply Rabs_pos). lra. }
  unfold scaled. destruct (Req_EM_T scl 0); [easy|]. eexists. split; [reflexivity|]. split; [now rewrite map_length|]. split; [|split].
  - intros f Hf r c Hr Hc. apply in_map_iff in Hf. destruct Hf as (g & <- & Hg). unfold Rdiv. rewrite Rabs_mult, (Rabs_inv scl), (Rabs_pos_eq scl) by lra.
    apply Rmult_le_reg_r with scl; auto. rewrite Rmult_assoc, Rinv_l by lra. rewrite Rmult_1_r, Rmult_1_l. apply B. rewrite <- P. apply in_flat_map. exists g. split; auto. apply in_pixels. eauto.
  - rewrite <- P in Hy. apply in_flat_map in Hy. destruct Hy as (g & Hg & Hy). apply in_pixels in Hy. destruct Hy as (r & c & Hr & Hc & ->).
    exists (fun r c => g r c / scl), r, c. split; [apply in_map_iff; exists g; auto|]. split; auto. split; auto.
    unfold Rdiv. rewrite Rabs_mult, (Rabs_inv scl), (Rabs_pos_eq scl), Ey by lra. field. lra.
  - clear -n. unfold rescaled. rewrite map_map. induction prj as [|f prj IH]; cbn; constructor; auto. intros r c. field. auto.
Qed.
(** Finding: images that are all zero become NaN. *)
Theorem C70_zero_refuted : forall h w f prj, (0 < h)%Z -> (0 < w)%Z -> (forall g r c, In g (f :: prj) -> g r c = 0) ->
  exists scl, scale_factor h w (f :: prj) = Ok scl /\ scaled scl (f :: prj) = None.
Proof.
  intros h w f prj Hh Hw H. unfold scale_factor. destruct (flat_map (pixels h w) (f :: prj)) as [|x l] eqn:P.
  - exfalso. assert (I : In (f 0%Z 0%Z) (flat_map (pixels h w) (f :: prj))) by (apply in_flat_map; exists f; split; [cbn; auto|]; apply in_pixels; exists 0%Z, 0%Z; split; [lia|split; [lia|auto]]).
    rewrite P in I. destruct I.
  - eexists. split; [reflexivity|]. unfold scaled. destruct (Req_EM_T _ 0) as [|N]; [reflexivity|]. exfalso. apply N.
    destruct (extreme_abs x l) as (_ & y & Hy & <-). rewrite <- P in Hy. apply in_flat_map in Hy. destruct Hy as (g & Hg & Hy). apply in_pixels in Hy. destruct Hy as (r & c & _ & _ & ->).
    rewrite H by auto. apply Rabs_R0.
Qed.
(** The frame blurring images is one up to the inner radius, zero from the outer radius and falls in between. *)
Theorem C70_blur : forall m low high rad, 0 < m -> 0 <= low < high -> exists v, blur_mask m low high rad = Some v /\ 0 <= v <= 1 /\
  (rad <= low * m -> v = 1) /\ (high * m <= rad -> v = 0) /\ (low * m <= rad <= high * m -> v * (high * m - low * m) = high * m - rad).
Proof.
  intros m low high rad Hm Hl. unfold blur_mask. assert (D : low * m < high * m) by (apply Rmult_lt_compat_r; lra).
  destruct (rltb rad (low * m)) eqn:E1; [apply rltb_spec in E1|apply rltb_false in E1]; (destruct (rltb (high * m) rad) eqn:E2; [apply rltb_spec in E2|apply rltb_false in E2]); cbn [negb andb].
  - lra.
  - exists 1. repeat split; intros; lra.
  - exists 0. repeat split; intros; lra.
  - unfold ndiv. destruct (Req_EM_T (high * m - low * m) 0); [lra|]. exists ((high * m - rad) / (high * m - low * m)). split; [reflexivity|].
    assert (Q : forall a b, 0 < b -> 0 <= a <= b -> 0 <= a / b <= 1).
    { intros a b Hb Ha. assert (0 < / b) by (now apply Rinv_0_lt_compat). unfold Rdiv. split; [apply Rmult_le_pos; lra|]. apply Rmult_le_reg_r with b; auto. rewrite Rmult_assoc, Rinv_l by lra. lra. }
    destruct (Q (high * m - rad) (high * m - low * m)); try lra. repeat split; try lra; intros H'.
    + replace rad with (low * m) by lra. field. lra.
    + replace (high * m - rad) with 0 by lra. unfold Rdiv. ring.
    + field. lra.
Qed.
(** Finding: with equal radii the pixels on the circle are divided by zero. *)
Theorem C70_blur_refuted : forall m low, blur_mask m low low (low * m) = None.
Proof.
  intros m low. unfold blur_mask. assert (E : rltb (low * m) (low * m) = false) by (apply rltb_false; lra). rewrite E. cbn [negb andb]. unfold ndiv.
  destruct (Req_EM_T _ 0); [reflexivity|lra].
Qed.
(** Finding: the images returned by align_joint are the padded input, whatever shifts were found, and both functions
    leave the caller's array divided by the factor, because only a padded copy is scaled back. *)
Theorem C70_joint_refuted : forall Rec recon_from (init : Rec) project correlate warp blur h w p0 p1 iters prj caller out s,
  align_joint recon_from init project correlate warp blur h w p0 p1 iters prj = Ok (Some (caller, out, s)) ->
  Forall2 (fun f g => forall r c, g r c = pad_image h w p0 p1 f r c) prj out.
Proof.
  intros Rec recon_from init project correlate warp blur h w p0 p1 iters prj caller out s H. unfold align_joint in H. destruct (scale_factor h w prj) as [e|scl]; [discriminate|].
  unfold scaled in H. destruct (Req_EM_T scl 0) as [|N]; [discriminate|]. destruct (Nat.iter _ _ _) as ((rec, copy), s'). unfold Ok in H. injection H as <- <- <-.
  unfold rescaled. rewrite !map_map. clear -N. induction prj as [|f prj IH]; cbn; constructor; auto. intros r c. unfold pad_image. destruct (_ && _)%bool; [field; auto|ring].
Qed.
Theorem C70_caller_refuted : forall Rec recon recon_from (init : Rec) project correlate warp blur h w p0 p1 iters prj scl, scale_factor h w prj = Ok scl -> scl <> 0 ->
  let left := map (fun (f : img) r c => f r c / scl) prj in
  (exists out s, align_seq recon project correlate warp blur h w p0 p1 iters prj = Ok (Some (left, out, s))) /\
  (exists out s, align_joint recon_from init project correlate warp blur h w p0 p1 iters prj = Ok (Some (left, out, s))).
Proof.
  intros Rec recon recon_from init project correlate warp blur h w p0 p1 iters prj scl E N. cbv zeta.
  assert (S : scaled scl prj = Some (map (fun (f : img) r c => f r c / scl) prj)) by (unfold scaled; destruct (Req_EM_T scl 0); [easy|reflexivity]).
  split.
  - unfold align_seq. rewrite E. unfold Ok at 1. rewrite S. match goal with |- context [Nat.iter iters ?f ?x] => destruct (Nat.iter iters f x) as (o, s) end. eauto.
  - unfold align_joint. rewrite E. unfold Ok at 1. rewrite S. match goal with |- context [Nat.iter iters ?f ?x] => destruct (Nat.iter iters f x) as ((r, o), s) end. eauto.
Qed.
(** Aligned images stay: if the correlation finds no shift and warping by nothing is the identity, both functions return the
    padded input and no shifts. *)
Theorem C70_aligned : forall Rec recon (project : Rec -> list img) correlate warp blur h w p0 p1 iters prj scl,
  scale_factor h w prj = Ok scl -> scl <> 0 -> (forall f, warp (0, 0) f = f) -> (forall f g, correlate f g = (0, 0)) ->
  (forall rec, length (project rec) = length prj) -> (forall l, length (blur l) = length l) ->
  exists caller out, align_seq recon project correlate warp blur h w p0 p1 iters prj = Ok (Some (caller, out, map (fun _ => (0, 0)) prj)) /\
  Forall2 (fun f g => forall r c, g r c = pad_image h w p0 p1 f r c) prj out.
Proof.
  intros Rec recon project correlate warp blur h w p0 p1 iters prj scl E N Hw Hc Hp Hb. unfold align_seq. rewrite E. unfold Ok at 1.
  assert (S : scaled scl prj = Some (map (fun (f : img) r c => f r c / scl) prj)) by (unfold scaled; destruct (Req_EM_T scl 0); [easy|reflexivity]). rewrite S. clear S.
  set (caller := map (fun (f : img) r c => f r c / scl) prj). set (st0 := (map (pad_image h w p0 p1) caller, map (fun _ : img => (0, 0)) caller)).
  assert (I : Nat.iter iters (seq_iter recon project correlate warp blur) st0 = st0).
  { induction iters as [|k IH]; cbn [Nat.iter nat_rect]; auto. change (nat_rect _ st0 _ k) with (Nat.iter k (seq_iter recon project correlate warp blur) st0). rewrite IH. unfold st0, seq_iter.
    assert (L : length (zipmap correlate (blur (map (pad_image h w p0 p1) caller)) (blur (project (recon (map (pad_image h w p0 p1) caller))))) = length prj).
    { rewrite zipmap_length; rewrite !Hb, Hp; auto. unfold caller. now rewrite !map_length. }
    assert (Z0 : forall d, In d (zipmap correlate (blur (map (pad_image h w p0 p1) caller)) (blur (project (recon (map (pad_image h w p0 p1) caller))))) -> d = (0, 0)).
    { intros d Hd. unfold zipmap in Hd. apply in_map_iff in Hd. destruct Hd as ((a, b) & <- & _). apply Hc. }
    f_equal.
    - apply zipmap_snd; [rewrite L; unfold caller; now rewrite !map_length|]. intros d f Hd. rewrite (Z0 d Hd). cbn. apply Hw.
    - set (z := zipmap correlate _ _) in *. assert (Lc : length caller = length z) by (rewrite L; unfold caller; now rewrite map_length). clearbody z. clear -Z0 Lc. revert z Z0 Lc.
      induction caller as [|f l IH]; intros [|d z] Z0 Lc; try discriminate; auto. cbn. rewrite (Z0 d) by (cbn; auto). unfold add2. cbn. rewrite Rplus_0_r. f_equal. apply IH; auto. intros; apply Z0; cbn; auto. }
  rewrite I. unfold st0. cbv beta iota. exists caller, (rescaled scl (map (pad_image h w p0 p1) caller)). split; [replace (map (fun _ : img => (0, 0)) prj) with (map (fun _ : img => (0, 0)) caller) by (unfold caller; now rewrite map_map); reflexivity|].
  unfold rescaled, caller. rewrite !map_map. clear -N. induction prj as [|f prj IH]; cbn; constructor; auto. intros r c. unfold pad_image. destruct (_ && _)%bool; [field; auto|ring].
Qed.
(** shift_images moves every image by its own shift, if warping commutes with the scaling. *)
Theorem C70_shift : forall warp h w prj s scl, scale_factor h w prj = Ok scl -> scl <> 0 -> length s = length prj ->
  (forall d (f : img) k r c, warp d (fun r c => f r c / k) r c = warp d f r c / k) ->
  exists out, shift_images warp h w prj s = Ok (Some out) /\ Forall2 (fun '(d, f) g => forall r c, g r c = warp (snd d, fst d) f r c) (combine s prj) out.
Proof.
  intros warp h w prj s scl E N L Hw. unfold shift_images. rewrite E. unfold Ok at 1. unfold scaled. destruct (Req_EM_T scl 0); [easy|]. cbv beta iota. eexists. split; [reflexivity|].
  unfold rescaled, zipmap. clear E. revert s L. induction prj as [|f prj IH]; intros [|d s] L; try discriminate; cbn; constructor; [|apply IH; auto].
  intros r c. rewrite Hw. field. auto.
Qed.
(** Padding: the image in the middle, zeros around; pad[0] columns and pad[1] rows. *)
Theorem C70_pad : forall h w p0 p1 f r c, (0 <= p0)%Z -> (0 <= p1)%Z ->
  ((0 <= r < h)%Z -> (0 <= c < w)%Z -> pad_image h w p0 p1 f (r + p1)%Z (c + p0)%Z = f r c) /\
  ((r < 0)%Z \/ (h <= r)%Z \/ (c < 0)%Z \/ (w <= c)%Z -> pad_image h w p0 p1 f (r + p1)%Z (c + p0)%Z = 0).
Proof.
  intros h w p0 p1 f r c H0 H1. unfold pad_image. split.
  - intros Hr Hc. assert (E : ((p1 <=? r + p1) && (r + p1 <? h + p1) && (p0 <=? c + p0) && (c + p0 <? w + p0) = true)%Z%bool) by lia. rewrite E. f_equal; lia.
  - intros H. assert (E : ((p1 <=? r + p1) && (r + p1 <? h + p1) && (p0 <=? c + p0) && (c + p0 <? w + p0) = false)%Z%bool) by lia. now rewrite E.
Qed.
(** When the simulated images are always the true ones, [g], and the correlation finds the shift [d] of each image [f], moving
    it by [d] gives [g] and the shift between equal images is none, then whatever the number of iterations (at least one) the
    shifts returned are those [d], not a multiple of them or the last correction, and align_seq returns the true images. *)
Theorem C70_converges : forall Rec recon recon_from (init : Rec) (project : Rec -> list img) correlate warp h w p0 p1 iters scl (items : list (img * img * (R * R))),
  let prj := map (fun '(f, _, _) => f) items in let truth := map (fun '(_, g, _) => g) items in let shifts := map snd items in
  scale_factor h w prj = Ok scl -> scl <> 0 -> (1 <= iters)%nat -> (forall rec, project rec = truth) ->
  (forall f g d, In (f, g, d) items -> let image := pad_image h w p0 p1 (fun r c => f r c / scl) in
     correlate image g = d /\ warp (snd d, fst d) image = g /\ correlate g g = (0, 0) /\ warp (0, 0) g = g) ->
  (exists caller, align_seq recon project correlate warp (fun l => l) h w p0 p1 iters prj = Ok (Some (caller, map (fun (g : img) r c => g r c * scl) truth, shifts))) /\
  (exists caller out, align_joint recon_from init project correlate warp (fun l => l) h w p0 p1 iters prj = Ok (Some (caller, out, shifts))).
Proof.
  intros Rec recon recon_from init project correlate warp h w p0 p1 iters scl items prj truth shifts E N Hi Hp H.
  assert (S : scaled scl prj = Some (map (fun (f : img) r c => f r c / scl) prj)) by (unfold scaled; destruct (Req_EM_T scl 0); [easy|reflexivity]).
  set (caller := map (fun (f : img) r c => f r c / scl) prj : list img) in *. set (padded := map (pad_image h w p0 p1) caller).
  assert (Z1 : zipmap correlate padded truth = shifts /\ zipmap (fun d f => warp (snd d, fst d) f) shifts padded = truth /\
     zipmap correlate truth truth = map (fun _ : img => (0, 0)) caller /\ zipmap (fun d f => warp (snd d, fst d) f) (map (fun _ : img => (0, 0)) caller) truth = truth /\
     zipmap add2 (map (fun _ : img => (0, 0)) caller) shifts = shifts /\ zipmap add2 shifts (map (fun _ : img => (0, 0)) caller) = shifts).
  { unfold padded, caller, prj, truth, shifts. clear -H. induction items as [|((f, g), (a, b)) l IH]; [repeat split; reflexivity|].
    destruct (H f g (a, b) (or_introl eq_refl)) as (H1 & H2 & H3 & H4). specialize (IH (fun f g d i => H f g d (or_intror i))).
    unfold zipmap in *. cbn in *. destruct IH as (I1 & I2 & I3 & I4 & I5 & I6). rewrite H1, H2, H3, H4, I1, I2, I3, I4, I5, I6. unfold add2; cbn. rewrite !Rplus_0_l, !Rplus_0_r. repeat split; reflexivity. }
  destruct Z1 as (Z1 & Z2 & Z3 & Z4 & Z5 & Z6).
  assert (I : exists n, iters = Datatypes.S n) by (exists (iters - 1)%nat; lia). destruct I as (n & ->). split.
  - assert (L : Nat.iter (Datatypes.S n) (seq_iter recon project correlate warp (fun l => l)) (padded, map (fun _ : img => (0, 0)) caller) = (truth, shifts)).
    { induction n as [|n IH].
      - change (Nat.iter 1 ?f ?x) with (f x). unfold seq_iter. rewrite Hp, Z1, Z2, Z5. reflexivity.
      - change (Nat.iter (Datatypes.S (Datatypes.S n)) ?f ?x) with (f (Nat.iter (Datatypes.S n) f x)). rewrite IH by lia. unfold seq_iter. rewrite Hp, Z3, Z4, Z6. reflexivity. }
    unfold align_seq. rewrite E. unfold Ok at 1. rewrite S. fold caller padded. rewrite L. eexists. reflexivity.
  - assert (L : exists rec, Nat.iter (Datatypes.S n) (joint_iter recon_from project correlate warp (fun l => l) padded) (init, padded, map (fun _ : img => (0, 0)) caller) = (rec, truth, shifts)).
    { induction n as [|n IH].
      - change (Nat.iter 1 ?f ?x) with (f x). unfold joint_iter. rewrite Hp, Z1, Z5, Z2. eexists. reflexivity.
      - destruct IH as (rec & IH); [lia|]. change (Nat.iter (Datatypes.S (Datatypes.S n)) ?f ?x) with (f (Nat.iter (Datatypes.S n) f x)). rewrite IH. unfold joint_iter. rewrite Hp, Z3, Z6, Z2. eexists. reflexivity. }
    destruct L as (rec & L). unfold align_joint. rewrite E. unfold Ok at 1. rewrite S. fold caller padded. rewrite L. eexists. eexists. reflexivity.
Qed.
Example C70_converges_ex : let warp := fun (d : R * R) (f : img) => if Req_EM_T (fst d) 0 then f else fun r c => f r (c + floor (fst d))%Z in
  let correlate := fun a b : img => (0, a 0%Z 2%Z - b 0%Z 2%Z) in let f : img := fun _ c => IZR c in
  let image := pad_image 1 2 1 0 (fun r c => f r c / 1) in let g := warp (1, 0) image in
  scale_factor 1 2 [f] = Ok 1 /\ correlate image g = (0, 1) /\ warp (1, 0) image = g /\ correlate g g = (0, 0) /\ warp (0, 0) g = g.
Proof.
  cbv zeta. repeat split.
  - unfold scale_factor. match goal with |- context [flat_map ?a ?b] => change (flat_map a b) with [0; 1] end. cbn [lmax lmin]. unfold Ok. f_equal. unfold Rmax, Rmin, Rabs. repeat (destruct (Rle_dec _ _) || destruct (Rcase_abs _)); lra.
  - cbn [fst snd]. destruct (Req_EM_T 1 0); [lra|]. rewrite (floor_IZR 1). unfold pad_image; cbn. f_equal. lra.
  - cbn [fst snd]. f_equal. lra.
  - cbn [fst]. destruct (Req_EM_T 0 0); [reflexivity|lra].
Qed.
Example C70_ex : scale_factor 1 2 [fun _ c => if (c =? 0)%Z then 3 else -4] = Ok 4 /\ blur_mask 10 0 1 4 = Some (6 / 10).
Proof.
  split.
  - unfold scale_factor. replace (flat_map (pixels 1 2) [fun _ c => if (c =? 0)%Z then 3 else -4]) with [3; -4] by reflexivity. cbn [lmax lmin]. unfold Ok. f_equal. unfold Rmax, Rmin, Rabs. repeat (destruct (Rle_dec _ _) || destruct (Rcase_abs _)); lra.
  - unfold blur_mask. assert (E1 : rltb 4 (0 * 10) = false) by (apply rltb_false; lra). assert (E2 : rltb (1 * 10) 4 = false) by (apply rltb_false; lra). rewrite E1, E2. cbn [negb andb]. unfold ndiv.
    destruct (Req_EM_T _ 0); [lra|]. f_equal. field.
Qed.

Print Assumptions C38_terminates.
Print Assumptions C38_found.
Print Assumptions C38_near.
Print Assumptions C38_fallback_refuted.
Print Assumptions C40_sinogram.
Print Assumptions C40_range.
Print Assumptions C40_trivial.
Print Assumptions C40_centre.
Print Assumptions C40_linear.
Print Assumptions C40_load.
Print Assumptions C69_box.
Print Assumptions C69_small_box_refuted.
Print Assumptions C69_square.
Print Assumptions C69_rectangle_refuted.
Print Assumptions C70_scale.
Print Assumptions C70_zero_refuted.
Print Assumptions C70_blur.
Print Assumptions C70_blur_refuted.
Print Assumptions C70_joint_refuted.
Print Assumptions C70_caller_refuted.
Print Assumptions C70_aligned.
Print Assumptions C70_shift.
Print Assumptions C70_pad.
Print Assumptions C70_converges.
