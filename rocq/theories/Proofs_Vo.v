(** find_center_vo: the stacked sinogram, its metric, the mask and the candidates. *)
From Verif Require Import Base CLoop Cplx Model_Prep Model_Sim Model_Corr Model_Rotation Proofs_Rotation.
From Verif Require Proofs_Ray Proofs_Sim Proofs_Gridrec.
From Coq Require Import Reals Lra.
Local Open Scope R_scope.

(** ** The stack *)
Lemma moved_int interp ncol f a b i j : (- ncol <= f <= ncol)%Z -> (0 <= j < ncol)%Z ->
  moved interp ncol (IZR f) a b i j = if ((0 <=? j - f) && (j - f <? ncol))%Z then a i (j - f)%Z else b i j.
Proof.
  intros Hf Hj. unfold moved. rewrite Proofs_Sim.Int_part_int. destruct (Req_EM_T (IZR f) (IZR f)); [|easy].
  unfold in_slice, clip. cbn [fst snd].
  destruct (Z.leb_spec 0 f).
  - replace (f <? 0)%Z with false by lia. cbn [Z.ltb]. replace (Z.min f ncol) with f by lia.
    replace (0 <? 0)%Z with false by lia. replace (Z.min 0 ncol) with 0%Z by lia.
    destruct (Z.ltb_spec j f).
    + replace (0 <=? j)%Z with true by lia. cbn. replace (0 <=? j - f)%Z with false by lia. reflexivity.
    + rewrite andb_false_r. replace (0 <=? j - f)%Z with true by lia. replace (j - f <? ncol)%Z with true by lia. cbn.
      now rewrite Z.mod_small by lia.
  - replace (f <? 0)%Z with true by lia. replace (ncol <? 0)%Z with false by lia. replace (Z.min ncol ncol) with ncol by lia.
    replace (Z.max 0 (f + ncol)) with (f + ncol)%Z by lia. replace (j <? ncol)%Z with true by lia. rewrite andb_true_r.
    replace (0 <=? j - f)%Z with true by lia. cbn.
    destruct (Z.leb_spec (f + ncol) j).
    + replace (j - f <? ncol)%Z with false by lia. reflexivity.
    + replace (j - f <? ncol)%Z with true by lia. now rewrite Z.mod_small by lia.
Qed.
Definition reflected (nrow ncol c2 : Z) (sino : img) : img :=
  fun i j => if ((0 <=? c2 - j) && (c2 - j <? ncol))%Z then sino i (c2 - j)%Z else sino (nrow - 1 - i)%Z j.
Lemma stack_reflected interp nrow ncol c2 sino i j : (-1 <= c2 <= 2 * ncol - 1)%Z -> (0 <= j < ncol)%Z ->
  moved interp ncol (IZR (c2 - (ncol - 1))) (fliplr ncol sino) (flipud nrow sino) i j = reflected nrow ncol c2 sino i j.
Proof.
  intros Hc Hj. rewrite moved_int by lia. unfold reflected, fliplr, flipud.
  replace (c2 - j <? ncol)%Z with (0 <=? j - (c2 - (ncol - 1)))%Z by lia.
  replace (0 <=? c2 - j)%Z with (j - (c2 - (ncol - 1)) <? ncol)%Z by lia. rewrite andb_comm.
  destruct (_ && _); [|reflexivity]. f_equal. lia.
Qed.
Definition stacked (nrow ncol c2 : Z) (sino : img) : img := vstack nrow sino (reflected nrow ncol c2 sino).

(** ** Absolute value *)
Lemma cabs_pos z : 0 <= cabs z. Proof. apply sqrt_pos. Qed.
Lemma cabs_mul a b : cabs (a * b)%C = cabs a * cabs b.
Proof.
  unfold cabs. rewrite <- sqrt_mult by (apply Rplus_le_le_0_compat; apply Rle_0_sqr).
  f_equal. unfold cmul, re, im. cbn. ring.
Qed.
Lemma cabs_expi x : cabs (expi x) = 1.
Proof. unfold cabs, expi, re, im. cbn. pose proof (sin2_cos2 x) as E. unfold Rsqr in E. replace (cos x * cos x + sin x * sin x) with 1 by lra. apply sqrt_1. Qed.
Lemma cabs_turn n k : cabs (turn n k) = 1. Proof. apply cabs_expi. Qed.
Lemma cabs_cr x : cabs (cr x) = Rabs x.
Proof. unfold cabs, cr, re, im. cbn. replace (x * x + 0 * 0) with (Rsqr x) by (unfold Rsqr; ring). apply sqrt_Rsqr_abs. Qed.

(** ** Sums over the pixels *)
Lemma rsum_app a b : rsum (a ++ b) = rsum a + rsum b.
Proof. unfold rsum. induction a as [|x a IH]; cbn; [ring|]. rewrite IH. ring. Qed.
Lemma rsum_flat {A} (f : A -> list R) l : rsum (flat_map f l) = rsum (map (fun x => rsum (f x)) l).
Proof. induction l as [|x l IH]; [reflexivity|]. cbn [flat_map map]. rewrite rsum_app, IH. reflexivity. Qed.
Lemma rsum_pixels ny nx a : rsum (pixels ny nx a) = rsum (map (fun i => rsum (map (a i) (zrange 0 nx))) (zrange 0 ny)).
Proof. apply rsum_flat. Qed.
Lemma rsum_pixels_ext ny nx a b : (forall i j, (0 <= i < ny)%Z -> (0 <= j < nx)%Z -> a i j = b i j) -> rsum (pixels ny nx a) = rsum (pixels ny nx b).
Proof.
  intros H. rewrite !rsum_pixels. apply rsum_ext. intros i Hi. apply in_zrange in Hi. apply rsum_ext. intros j Hj. apply in_zrange in Hj. now apply H.
Qed.
Lemma rsum_scale {A} k (f : A -> R) l : rsum (map (fun x => k * f x) l) = k * rsum (map f l).
Proof. unfold rsum. induction l as [|x l IH]; cbn; [ring|]. rewrite IH. ring. Qed.
Lemma rsum_pixels_scale k ny nx a : rsum (pixels ny nx (fun i j => k * a i j)) = k * rsum (pixels ny nx a).
Proof. rewrite !rsum_pixels, <- rsum_scale. apply rsum_ext. intros i _. apply rsum_scale. Qed.
Lemma rsum_nonneg l : (forall x, In x l -> 0 <= x) -> 0 <= rsum l.
Proof. induction l as [|x l IH]; cbn; [lra|]. intros H. apply Rplus_le_le_0_compat; [apply H; now left|apply IH; intros; apply H; now right]. Qed.
Lemma rsum_rev l : rsum (rev l) = rsum l.
Proof. induction l as [|x l IH]; [reflexivity|]. cbn [rev]. rewrite rsum_app, IH. change (rsum [x]) with (x + 0). change (rsum (x :: l)) with (x + rsum l). ring. Qed.
Lemma zrange_rev n : map (fun j => n - 1 - j)%Z (zrange 0 n) = rev (zrange 0 n).
Proof.
  destruct (Z.le_gt_cases n 0) as [H|H]; [now rewrite zrange_nil by lia|].
  revert n H. apply (csum_ind (fun n => 0 < n -> map (fun j => n - 1 - j)%Z (zrange 0 n) = rev (zrange 0 n))%Z); [lia|].
  intros n Hn IH _. rewrite zrange_snoc, rev_app_distr by lia. cbn [rev app].
  replace (zrange 0 n ++ [n]) with (zrange 0 (n + 1)) by (apply zrange_snoc; lia).
  rewrite (@zrange_cons 0 (n + 1)) by lia. cbn [map]. f_equal; [lia|].
  assert (E : zrange (0 + 1) (n + 1) = map (fun k => k + 1)%Z (zrange 0 n)).
  { unfold zrange. replace (n + 1 - (0 + 1))%Z with (n - 0)%Z by lia. rewrite map_map. apply map_ext. intros. lia. }
  rewrite E, map_map. destruct (Z.eq_dec n 0) as [->|]; [reflexivity|]. rewrite <- IH by lia. apply map_ext. intros; lia.
Qed.
Lemma rsum_flip n (f : Z -> R) : rsum (map (fun j => f (n - 1 - j)%Z) (zrange 0 n)) = rsum (map f (zrange 0 n)).
Proof. rewrite <- (map_map (fun j => n - 1 - j)%Z f), zrange_rev, map_rev. apply rsum_rev. Qed.

(** ** The metric *)
Lemma fft2_ext n0 n1 a b u v : (forall i j, (0 <= i < n0)%Z -> (0 <= j < n1)%Z -> a i j = b i j) -> fft2 n0 n1 a u v = fft2 n0 n1 b u v.
Proof. intros H. unfold fft2. apply csum_ext. intros i Hi. apply csum_ext. intros j Hj. now rewrite H. Qed.
Lemma fft2_scale n0 n1 k a u v : fft2 n0 n1 (fun i j => k * a i j) u v = (cr k * fft2 n0 n1 a u v)%C.
Proof.
  unfold fft2. rewrite <- csum_mul. apply csum_ext. intros i _. rewrite <- csum_mul. apply csum_ext. intros j _.
  rewrite cr_mul. ring.
Qed.
Lemma fft2_period1 n0 n1 a u v k : (1 <= n1)%Z -> fft2 n0 n1 a u (v + n1 * k) = fft2 n0 n1 a u v.
Proof.
  intros H. unfold fft2. apply csum_ext. intros i _. apply csum_ext. intros j _. f_equal. f_equal.
  replace (- ((v + n1 * k) * j))%Z with (- (v * j) + n1 * (- k * j))%Z by ring. now apply turn_period.
Qed.
Lemma fft2_fliplr n0 n1 a u v : cabs (fft2 n0 n1 (fliplr n1 a) u v) = cabs (fft2 n0 n1 a u (- v)).
Proof.
  assert (E : fft2 n0 n1 (fliplr n1 a) u v = (turn n1 (- (v * (n1 - 1))) * fft2 n0 n1 a u (- v))%C).
  { unfold fft2, fliplr. rewrite <- csum_mul. apply csum_ext. intros i _. rewrite csum_rev, <- csum_mul. apply csum_ext. intros j _.
    replace (n1 - 1 - (n1 - 1 - j))%Z with j by lia.
    replace (- (v * (n1 - 1 - j)))%Z with (- (v * (n1 - 1)) + - (- v * j))%Z by ring. rewrite turn_add. ring. }
  rewrite E, cabs_mul, cabs_turn. ring.
Qed.
Definition metric_of (nrow ncol : Z) (mask mat : img) : R :=
  rsum (pixels nrow ncol (fun i j => cabs (fftshift nrow ncol (fft2 nrow ncol mat) i j) * mask i j)) / IZR (nrow * ncol).
Lemma metric_of_ext nrow ncol mask a b : (forall i j, (0 <= i < nrow)%Z -> (0 <= j < ncol)%Z -> a i j = b i j) ->
  metric_of nrow ncol mask a = metric_of nrow ncol mask b.
Proof.
  intros H. unfold metric_of. f_equal. apply rsum_pixels_ext. intros i j _ _. f_equal. unfold fftshift. f_equal. now apply fft2_ext.
Qed.
Lemma metric_of_scale nrow ncol mask k a : metric_of nrow ncol mask (fun i j => k * a i j) = Rabs k * metric_of nrow ncol mask a.
Proof.
  unfold metric_of. unfold Rdiv. rewrite <- Rmult_assoc, <- rsum_pixels_scale. f_equal. apply rsum_pixels_ext. intros i j _ _.
  unfold fftshift. rewrite fft2_scale, cabs_mul, cabs_cr. ring.
Qed.
Lemma metric_of_pos nrow ncol mask a : (1 <= nrow)%Z -> (1 <= ncol)%Z -> (forall i j, 0 <= mask i j) -> 0 <= metric_of nrow ncol mask a.
Proof.
  intros Hr Hc Hm. unfold metric_of. apply Rmult_le_pos.
  - apply rsum_nonneg. intros x Hx. apply in_pixels in Hx as (i & j & _ & _ & ->). apply Rmult_le_pos; [apply cabs_pos|apply Hm].
  - left. apply Rinv_0_lt_compat. apply IZR_lt. nia.
Qed.
Lemma metric_of_flip nrow ncol mask a : (1 <= ncol)%Z -> Z.odd ncol = true -> (forall i j, (0 <= j < ncol)%Z -> mask i (ncol - 1 - j)%Z = mask i j) ->
  metric_of nrow ncol mask (fliplr ncol a) = metric_of nrow ncol mask a.
Proof.
  intros Hn Ho Hm. unfold metric_of. f_equal. rewrite !rsum_pixels. apply rsum_ext. intros i _.
  rewrite <- (rsum_flip ncol (fun j => cabs (fftshift nrow ncol (fft2 nrow ncol a) i j) * mask i j)).
  apply rsum_ext. intros j Hj. apply in_zrange in Hj. rewrite Hm by lia. f_equal. unfold fftshift. rewrite fft2_fliplr. f_equal.
  apply Zodd_bool_iff, Zodd_ex_iff in Ho as (m & ->).
  replace ((2 * m + 1) / 2)%Z with m by lia.
  set (n := (2 * m + 1)%Z) in *.
  rewrite <- (fft2_period1 nrow n a _ (- ((j - m) mod n)) (- ((j - m) / n) - (n - 1 - j - m) / n)) by lia.
  f_equal. pose proof (Z.div_mod (j - m) n). pose proof (Z.div_mod (n - 1 - j - m) n). unfold n in *. nia.
Qed.
Lemma metric_stacked interp nrow ncol mask c2 sino : (-1 <= c2 <= 2 * ncol - 1)%Z ->
  calculate_metric interp nrow ncol sino (fliplr ncol sino) (flipud nrow sino) mask (IZR (c2 - (ncol - 1))) =
  metric_of (2 * nrow) ncol mask (stacked nrow ncol c2 sino).
Proof.
  intros Hc. unfold calculate_metric. cbv zeta. fold (metric_of (2 * nrow) ncol mask (vstack nrow sino (moved interp ncol (IZR (c2 - (ncol - 1))) (fliplr ncol sino) (flipud nrow sino)))).
  apply metric_of_ext. intros i j Hi Hj. unfold stacked, vstack. destruct (i <? nrow)%Z; [reflexivity|]. now apply stack_reflected.
Qed.

(** ** Mirror images *)
Lemma stacked_mirror nrow ncol c2 sino i j : (0 <= i < 2 * nrow)%Z -> (0 <= j < ncol)%Z ->
  stacked nrow ncol (2 * (ncol - 1) - c2) (fliplr ncol sino) i j = fliplr ncol (stacked nrow ncol c2 sino) i j.
Proof.
  intros Hi Hj. unfold fliplr, stacked, vstack, reflected. destruct (i <? nrow)%Z; [reflexivity|].
  replace (0 <=? 2 * (ncol - 1) - c2 - j)%Z with (c2 - (ncol - 1 - j) <? ncol)%Z by lia.
  replace (2 * (ncol - 1) - c2 - j <? ncol)%Z with (0 <=? c2 - (ncol - 1 - j))%Z by lia. rewrite andb_comm.
  destruct (_ && _); f_equal; lia.
Qed.

(** ** The mask *)
Lemma mid_spec n : mid n = ((n + 1) / 2 - 1)%Z.
Proof.
  unfold mid. f_equal. destruct (Proofs_Sim.ceil_spec (IZR n / 2)) as [A B].
  assert (n <= 2 * ceil (IZR n / 2))%Z by (apply le_IZR; rewrite mult_IZR; lra).
  assert (2 * ceil (IZR n / 2) < n + 2)%Z by (apply lt_IZR; rewrite mult_IZR, plus_IZR; lra). lia.
Qed.
Lemma create_mask_binary nrow ncol radius drop i j : create_mask nrow ncol radius drop i j = 0 \/ create_mask nrow ncol radius drop i j = 1.
Proof. unfold create_mask. repeat (destruct (in_slice _ _ _)); auto. Qed.
Lemma create_mask_flip nrow ncol radius drop i j : (1 <= ncol)%Z -> Z.odd ncol = true -> (0 <= j < ncol)%Z ->
  create_mask nrow ncol radius drop i (ncol - 1 - j)%Z = create_mask nrow ncol radius drop i j.
Proof.
  intros Hn Ho Hj. unfold create_mask. cbv zeta. rewrite (mid_spec ncol). set (pos := wedge nrow ncol radius i). clearbody pos.
  apply Zodd_bool_iff, Zodd_ex_iff in Ho as (m & ->). replace ((2 * m + 1 + 1) / 2 - 1)%Z with m by lia.
  match goal with |- (if ?a then _ else if ?b then _ else if ?c then _ else _) = (if ?d then _ else if _ then _ else if ?e then _ else _) =>
    assert (E1 : a = d); [|assert (E2 : c = e); [|rewrite E1, E2; reflexivity]] end.
  - unfold in_slice, clip. cbn [fst snd]. destruct (Z.ltb_spec (m - 1) 0); destruct (Z.ltb_spec (m + 2) 0); lia.
  - unfold in_slice, clip, clipz. cbn [fst snd].
    destruct (Z.ltb_spec (Z.min (2 * m + 1 - 1) (Z.max 0 (Z.min (- pos + m) (pos + m)))) 0);
    destruct (Z.ltb_spec (Z.min (2 * m + 1 - 1) (Z.max 0 (Z.max (- pos + m) (pos + m))) + 1) 0); lia.
Qed.
Definition dropped (nrow drop : Z) : Z := Z.min drop (ceil (5 / 100 * IZR nrow)).
Lemma dropped_fits nrow drop : (3 <= nrow)%Z -> (dropped nrow drop <= mid nrow)%Z.
Proof.
  intros H. unfold dropped. rewrite mid_spec. destruct (Proofs_Sim.ceil_spec (5 / 100 * IZR nrow)) as [A B].
  assert (20 * ceil (5 / 100 * IZR nrow) < nrow + 20)%Z by (apply lt_IZR; rewrite mult_IZR, plus_IZR; lra).
  set (x := ceil (5 / 100 * IZR nrow)) in *. clearbody x. lia.
Qed.
Lemma create_mask_iff nrow ncol radius drop i j : (3 <= nrow)%Z -> (3 <= ncol)%Z -> (0 <= drop)%Z -> (0 <= i < nrow)%Z -> (0 <= j < ncol)%Z ->
  create_mask nrow ncol radius drop i j = 1 <->
  (1 < Z.abs (j - mid ncol) <= Z.abs (wedge nrow ncol radius i) /\ dropped nrow drop < Z.abs (i - mid nrow))%Z.
Proof.
  intros Hr Hc Hd Hi Hj. pose proof (dropped_fits nrow drop Hr) as Hf. unfold create_mask. cbv zeta. fold (dropped nrow drop).
  assert (0 <= dropped nrow drop)%Z.
  { unfold dropped. destruct (Proofs_Sim.ceil_spec (5 / 100 * IZR nrow)) as [A B].
    assert (0 <= ceil (5 / 100 * IZR nrow))%Z; [|lia]. apply le_IZR. assert (3 <= IZR nrow) by (apply IZR_le; lia). lra. }
  set (pos := wedge nrow ncol radius i). clearbody pos.
  assert (Mc : (1 <= mid ncol <= ncol - 2)%Z) by (rewrite mid_spec; lia).
  assert (Mr : (1 <= mid nrow <= nrow - 2)%Z) by (rewrite mid_spec; lia).
  assert (Mr2 : (2 * mid nrow <= nrow - 1)%Z) by (rewrite mid_spec; lia).
  set (c := mid ncol) in *. set (r := mid nrow) in *. set (d := dropped nrow drop) in *. clearbody c r d.
  match goal with |- (if ?a then _ else if ?b then _ else if ?e then _ else _) = 1 <-> _ =>
    assert (E1 : a = (Z.abs (j - c) <=? 1)%Z); [|assert (E2 : b = (Z.abs (i - r) <=? d)%Z); [|assert (E3 : e = (Z.abs (j - c) <=? Z.abs pos)%Z); [|rewrite E1, E2, E3; clear E1 E2 E3]]] end.
  - unfold in_slice, clip. cbn [fst snd]. destruct (Z.ltb_spec (c - 1) 0); [lia|]. destruct (Z.ltb_spec (c + 2) 0); lia.
  - unfold in_slice, clip. cbn [fst snd]. destruct (Z.ltb_spec (r - d) 0); [lia|]. destruct (Z.ltb_spec (r + d + 1) 0); lia.
  - unfold in_slice, clip, clipz. cbn [fst snd].
    destruct (Z.ltb_spec (Z.min (ncol - 1) (Z.max 0 (Z.min (- pos + c) (pos + c)))) 0); [lia|].
    destruct (Z.ltb_spec (Z.min (ncol - 1) (Z.max 0 (Z.max (- pos + c) (pos + c))) + 1) 0); lia.
  - destruct (Z.leb_spec (Z.abs (j - c)) 1); [split; [lra|lia]|]. destruct (Z.leb_spec (Z.abs (i - r)) d); [split; [lra|lia]|].
    destruct (Z.leb_spec (Z.abs (j - c)) (Z.abs pos)); [split; auto; lia|split; [lra|lia]].
Qed.
(** Half the number of columns selected in a row, before rounding. *)
Definition slope (nrow ncol : Z) (radius : R) : R := (IZR nrow - 1) / (IZR nrow * 2 * PI) / radius * IZR ncol.
Lemma wedge_spec nrow ncol radius i : (2 <= nrow)%Z -> (1 <= ncol)%Z -> 0 < radius ->
  Rabs (IZR (i - mid nrow)) * slope nrow ncol radius - 1 < IZR (Z.abs (wedge nrow ncol radius i)) < Rabs (IZR (i - mid nrow)) * slope nrow ncol radius + 1.
Proof.
  intros Hr Hc Hrad. pose proof PI_RGT_0 as Hpi. assert (Nr : 2 <= IZR nrow) by (apply IZR_le; lia). assert (Nc : 1 <= IZR ncol) by (apply IZR_le; lia).
  assert (S0 : 0 < slope nrow ncol radius).
  { unfold slope. apply Rmult_lt_0_compat; [|lra]. apply Rdiv_lt_0_compat; [|lra]. apply Rdiv_lt_0_compat; [lra|].
    apply Rmult_lt_0_compat; lra. }
  unfold wedge. set (k := (i - mid nrow)%Z).
  replace (IZR k * ((IZR nrow - 1) / (IZR nrow * 2 * PI)) / radius / (1 / IZR ncol)) with (IZR k * slope nrow ncol radius) by (unfold slope; field; repeat split; lra).
  set (s := slope nrow ncol radius) in *. clearbody s k.
  destruct (Proofs_Sim.ceil_spec (IZR k * s)) as [A B]. set (w := ceil (IZR k * s)) in *. clearbody w.
  destruct (Z.le_gt_cases 0 k) as [K|K].
  - assert (0 <= IZR k) by (apply IZR_le; lia). rewrite Rabs_right by lra. assert (0 <= IZR k * s) by (apply Rmult_le_pos; lra).
    assert (0 <= w)%Z by (apply le_IZR; lra). rewrite Z.abs_eq by lia. lra.
  - assert (IZR k < 0) by (apply IZR_lt; lia). rewrite Rabs_left by lra.
    assert (0 < - IZR k * s) by (apply Rmult_lt_0_compat; lra).
    assert (w <= 0)%Z by (apply Z.lt_succ_r, lt_IZR; rewrite succ_IZR; lra). rewrite Z.abs_neq, opp_IZR by lia. lra.
Qed.

(** ** Candidates *)
Lemma ceil_iff x k : (k < ceil x)%Z <-> IZR k < x.
Proof.
  destruct (Proofs_Sim.ceil_spec x) as [A B]. split; intros H.
  - assert (IZR k + 1 <= IZR (ceil x)) by (rewrite <- succ_IZR; apply IZR_le; lia). lra.
  - apply lt_IZR. lra.
Qed.
Lemma in_arange a b h x : 0 < h -> In x (arange a b h) <-> exists k, (0 <= k)%Z /\ x = a + IZR k * h /\ x < b.
Proof.
  intros Hh. unfold arange. rewrite in_map_iff. split.
  - intros (k & <- & Hk). apply in_zrange in Hk. exists k. split; [lia|]. split; [reflexivity|].
    destruct Hk as [_ Hk]. apply ceil_iff in Hk. apply Rmult_lt_compat_r with (r := h) in Hk; [|lra].
    unfold Rdiv in Hk. rewrite Rmult_assoc, Rinv_l, Rmult_1_r in Hk; lra.
  - intros (k & Hk & -> & Hx). exists k. split; [reflexivity|]. apply in_zrange. split; [lia|]. apply ceil_iff.
    apply Rmult_lt_reg_r with h; [lra|]. unfold Rdiv. rewrite Rmult_assoc, Rinv_l, Rmult_1_r; lra.
Qed.
Lemma rclip_in lo hi x : lo <= hi -> lo <= rclip lo hi x <= hi.
Proof. intros H. unfold rclip, Rmin, Rmax. repeat destruct (Rle_dec _ _); lra. Qed.
Lemma rclip_hi lo hi x : rclip lo hi x <= hi.
Proof. unfold rclip. apply Rmin_l. Qed.
Lemma rclip_id lo hi x : lo <= x <= hi -> rclip lo hi x = x.
Proof. intros H. unfold rclip, Rmin, Rmax. repeat destruct (Rle_dec _ _); lra. Qed.
Lemma trunc_neg x : x < 0 -> x <= IZR (trunc x) < x + 1 /\ (trunc x <= 0)%Z.
Proof.
  intros H. unfold trunc. replace (rltb x 0) with true by (symmetry; now apply rltb_spec). destruct (Proofs_Sim.ceil_spec x). split; [lra|].
  apply Z.lt_succ_r, lt_IZR. rewrite succ_IZR. lra.
Qed.
Lemma trunc_pos x : 0 <= x -> x - 1 < IZR (trunc x) <= x /\ (0 <= trunc x)%Z.
Proof.
  intros H. unfold trunc. replace (rltb x 0) with false by (symmetry; now apply rltb_false). pose proof (floor_spec x). split; [lra|].
  apply Z.lt_succ_r, lt_IZR. rewrite succ_IZR. lra.
Qed.
Lemma coarse_bound_range ncol s : (1 <= ncol)%Z -> (0 <= ncol / 2 + coarse_bound ncol s <= ncol - 1)%Z.
Proof.
  intros Hn. assert (N : 1 <= IZR ncol) by (apply IZR_le; lia). unfold coarse_bound, cen_fliplr.
  set (x := rclip 0 (IZR ncol - 1) (s + (IZR ncol - 1) / 2) - (IZR ncol - 1) / 2).
  assert (X : - (IZR ncol - 1) / 2 <= x <= (IZR ncol - 1) / 2).
  { unfold x. destruct (rclip_in 0 (IZR ncol - 1) (s + (IZR ncol - 1) / 2)); lra. }
  assert (T : (- (ncol - 1) <= 2 * trunc x <= ncol - 1)%Z).
  { destruct (Rlt_dec x 0) as [L|L].
    - destruct (trunc_neg x L) as [[A B] C]. split; [apply le_IZR; rewrite mult_IZR, opp_IZR, minus_IZR; lra|lia].
    - destruct (trunc_pos x ltac:(lra)) as [[A B] C]. split; [lia|apply le_IZR; rewrite mult_IZR, minus_IZR; lra]. }
  lia.
Qed.
Lemma in_coarse ncol smin smax c :
  In c (coarse_list ncol smin smax) <->
  exists c2, c = IZR c2 / 2 /\ (2 * (ncol / 2 + coarse_bound ncol smin) <= c2 <= 2 * (ncol / 2 + coarse_bound ncol smax))%Z.
Proof.
  unfold coarse_list. cbv zeta. rewrite in_arange by lra. set (a := (ncol / 2 + coarse_bound ncol smin)%Z). set (b := (ncol / 2 + coarse_bound ncol smax)%Z).
  split.
  - intros (k & Hk & -> & Hx). exists (2 * a + k)%Z. rewrite plus_IZR, mult_IZR. split; [lra|]. split; [lia|].
    apply Z.lt_succ_r, lt_IZR. rewrite succ_IZR, plus_IZR, !mult_IZR. lra.
  - intros (c2 & -> & H1 & H2). exists (c2 - 2 * a)%Z. split; [lia|]. rewrite minus_IZR, mult_IZR. split; [lra|].
    apply IZR_le in H2. rewrite mult_IZR in H2. lra.
Qed.
Lemma argmin_from_spec l : forall pre best pos, (pos < length pre)%nat -> nth pos pre 0 = best ->
  (forall j, (j < pos)%nat -> best < nth j pre 0) -> (forall j, (j < length pre)%nat -> best <= nth j pre 0) ->
  let k := argmin_from best pos (length pre) l in
  (k < length (pre ++ l))%nat /\ (forall j, (j < k)%nat -> nth k (pre ++ l) 0 < nth j (pre ++ l) 0) /\
  (forall j, (j < length (pre ++ l))%nat -> nth k (pre ++ l) 0 <= nth j (pre ++ l) 0).
Proof.
  induction l as [|x l IH]; intros pre best pos Hp Hb H1 H2; cbv zeta.
  - cbn [argmin_from]. rewrite app_nil_r. rewrite Hb. auto.
  - cbn [argmin_from]. replace (pre ++ x :: l) with ((pre ++ [x]) ++ l) by now rewrite <- app_assoc.
    assert (L : length (pre ++ [x]) = S (length pre)) by (rewrite app_length; cbn; lia).
    assert (N1 : forall j, (j < length pre)%nat -> nth j (pre ++ [x]) 0 = nth j pre 0) by (intros; now apply app_nth1).
    assert (N2 : nth (length pre) (pre ++ [x]) 0 = x) by now rewrite nth_middle.
    destruct (rltb x best) eqn:E.
    + apply rltb_spec in E. rewrite <- L. apply IH; [lia|exact N2| |].
      * intros j Hj. rewrite N1 by lia. pose proof (H2 j Hj). lra.
      * intros j Hj. destruct (Nat.eq_dec j (length pre)) as [->|]; [rewrite N2; lra|]. rewrite N1 by lia. pose proof (H2 j ltac:(lia)). lra.
    + apply rltb_false in E. rewrite <- L. apply IH; [lia|now rewrite N1| |].
      * intros j Hj. rewrite N1 by lia. now apply H1.
      * intros j Hj. destruct (Nat.eq_dec j (length pre)) as [->|]; [now rewrite N2|]. rewrite N1 by lia. apply H2. lia.
Qed.
Lemma argmin_spec l k : argmin l = Ok k -> (k < length l)%nat /\ (forall j, (j < k)%nat -> nth k l 0 < nth j l 0) /\ (forall j, (j < length l)%nat -> nth k l 0 <= nth j l 0).
Proof.
  destruct l as [|x l]; cbn [argmin]; [discriminate|]. intros E. injection E as <-.
  apply (argmin_from_spec l [x] x 0); [cbn; lia|reflexivity|intros; lia|]. cbn. intros j Hj. replace j with 0%nat by lia. lra.
Qed.
Lemma argmin_scale c l : 0 < c -> argmin (map (Rmult c) l) = argmin l.
Proof.
  intros Hc. destruct l as [|x l]; [reflexivity|]. cbn [argmin map]. f_equal.
  assert (E : forall l best pos k, argmin_from (c * best) pos k (map (Rmult c) l) = argmin_from best pos k l).
  { clear l x. induction l as [|x l IH]; intros best pos k; [reflexivity|]. cbn [argmin_from map].
    replace (rltb (c * x) (c * best)) with (rltb x best).
    - destruct (rltb x best); apply IH.
    - destruct (rltb x best) eqn:E; symmetry; [apply rltb_spec in E; apply rltb_spec; nra|apply rltb_false in E; apply rltb_false; nra]. }
  apply E.
Qed.
Lemma best_of_spec metric l cen c : best_of metric l cen = Ok c ->
  exists l1 l2, l = l1 ++ c :: l2 /\ (forall x, In x l1 -> metric (2 * (c - cen)) < metric (2 * (x - cen))) /\
    (forall x, In x l -> metric (2 * (c - cen)) <= metric (2 * (x - cen))).
Proof.
  unfold best_of. set (f := fun x => metric (2 * (x - cen))). destruct (argmin (map f l)) as [e|k] eqn:E; [discriminate|].
  intros H. injection H as <-. destruct (argmin_spec _ _ E) as (K & F & M). rewrite map_length in *.
  assert (N : forall j, (j < length l)%nat -> nth j (map f l) 0 = f (nth j l 0)).
  { intros j Hj. rewrite (nth_indep _ 0 (f 0)) by now rewrite map_length. apply map_nth. }
  destruct (nth_split l 0 K) as (l1 & l2 & E1 & L1).
  exists l1, l2. split; [exact E1|]. split.
  - intros x Hx. apply (In_nth l1 x 0) in Hx as (j & Hj & <-). pose proof (F j ltac:(lia)) as Fj.
    rewrite !N in Fj by lia. fold (f (nth k l 0)). fold (f (nth j l1 0)). replace (nth j l1 0) with (nth j l 0); [exact Fj|].
    rewrite E1 at 1. now apply app_nth1.
  - intros x Hx. apply (In_nth l x 0) in Hx as (j & Hj & <-). pose proof (M j Hj) as Mj. rewrite !N in Mj by lia. exact Mj.
Qed.
Lemma best_of_some metric l cen : l <> [] -> exists c, best_of metric l cen = Ok c.
Proof. intros H. unfold best_of. destruct l as [|x l]; [easy|]. cbn. eauto. Qed.
Lemma best_of_scale metric1 metric2 k l cen : 0 < k -> (forall x, In x l -> metric2 (2 * (x - cen)) = k * metric1 (2 * (x - cen))) -> best_of metric2 l cen = best_of metric1 l cen.
Proof.
  intros Hk H. unfold best_of. rewrite <- (argmin_scale k (map (fun c => metric1 (2 * (c - cen))) l)) by auto. rewrite map_map.
  rewrite (map_ext_in (fun c => metric2 (2 * (c - cen))) (fun x => k * metric1 (2 * (x - cen)))); [reflexivity|exact H].
Qed.
Lemma coarse_shift ncol c2 : 2 * (IZR c2 / 2 - cen_fliplr ncol) = IZR (c2 - (ncol - 1)).
Proof. unfold cen_fliplr. rewrite !minus_IZR. lra. Qed.
(** Fine search *)
Lemma fine_facts ncol srad step init : (2 <= ncol)%Z ->
  0 < fine_step ncol srad step <= fine_srad ncol srad /\ fine_srad ncol srad <= IZR ncol / 4 /\ 1 / 2 <= fine_srad ncol srad /\
  fine_srad ncol srad <= fine_init ncol srad init <= IZR ncol - fine_srad ncol srad - 1.
Proof.
  intros Hn. assert (N : 2 <= IZR ncol) by (apply IZR_le; lia).
  assert (S1 : fine_srad ncol srad <= IZR ncol / 4) by apply rclip_hi.
  assert (S2 : 1 / 2 <= fine_srad ncol srad).
  { unfold fine_srad, rclip. apply Rmin_glb; [lra|]. eapply Rle_trans; [|apply Rmax_l]. lra. }
  assert (S3 : 1 / 10 <= fine_step ncol srad step <= fine_srad ncol srad) by (apply rclip_in; lra).
  assert (S4 : fine_srad ncol srad <= fine_init ncol srad init <= IZR ncol - fine_srad ncol srad - 1) by (apply rclip_in; lra).
  repeat split; lra.
Qed.
Lemma in_fine ncol srad step init c : (2 <= ncol)%Z -> In c (fine_list ncol srad step init) <->
  exists k, (0 <= k)%Z /\ c = fine_init ncol srad init - fine_srad ncol srad + IZR k * fine_step ncol srad step /\
    c < fine_init ncol srad init + fine_srad ncol srad + fine_step ncol srad step.
Proof.
  intros Hn. destruct (fine_facts ncol srad step init Hn) as ([H0 _] & _). unfold fine_list. cbv zeta. rewrite in_map_iff. split.
  - intros (x & <- & Hx). apply in_arange in Hx as (k & Hk & -> & Hx); [|lra]. exists k. split; [lia|]. lra.
  - intros (k & Hk & -> & Hx). exists (- fine_srad ncol srad + IZR k * fine_step ncol srad step). split; [lra|]. apply in_arange; [lra|].
    exists k. split; [lia|]. split; [reflexivity|lra].
Qed.
