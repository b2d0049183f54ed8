From Verif Require Import Base Order CLoop Model_Prep.
From Coq Require Import Reals Lra.
Local Open Scope R_scope.

Lemma rltb_spec x y : rltb x y = true <-> x < y.
Proof. unfold rltb. destruct (Rlt_dec x y); split; auto; discriminate || contradiction. Qed.
Lemma rltb_false x y : rltb x y = false <-> y <= x.
Proof. unfold rltb. destruct (Rlt_dec x y); split; auto; try discriminate; intros; lra. Qed.
Lemma R_weak_order : weak_order (fun _ : R => True) rltb.
Proof.
  split; intros.
  - apply rltb_false. lra.
  - rewrite rltb_spec in *. lra.
  - rewrite rltb_false in *. lra.
Qed.

(** ** normalize *)
Lemma norm_px_denominator f d : small <= (if rltb (f - d) small then small else f - d) /\
  (if rltb (f - d) small then small else f - d) = Rmax (f - d) small.
Proof.
  destruct (rltb (f - d) small) eqn:E.
  - apply rltb_spec in E. split; [lra|]. rewrite Rmax_right; lra.
  - apply rltb_false in E. split; auto. rewrite Rmax_left; lra.
Qed.
Lemma small_pos : 0 < small. Proof. unfold small. lra. Qed.

Lemma norm_px_spec f d a : norm_px None f d a = (a - d) / Rmax (f - d) small.
Proof. unfold norm_px. cbv zeta. now rewrite (proj2 (norm_px_denominator f d)). Qed.
Lemma norm_px_cutoff c f d a : norm_px (Some c) f d a = Rmin ((a - d) / Rmax (f - d) small) c.
Proof.
  rewrite <- norm_px_spec. unfold norm_px at 1. cbv zeta. fold (norm_px None f d a).
  change (rltb c (norm_px None f d a)) with (rltb c (norm_px None f d a)).
  replace ((a - d) / (if rltb (f - d) small then small else f - d)) with (norm_px None f d a) by reflexivity.
  destruct (rltb c (norm_px None f d a)) eqn:E.
  - apply rltb_spec in E. rewrite Rmin_right; lra.
  - apply rltb_false in E. rewrite Rmin_left; lra.
Qed.

Definition the_avg (a : averaging) : option (list R -> R) :=
  match a with AvgMean => Some rmean | AvgMedian => Some rmedian | AvgOther => None end.

Lemma normalize_spec {T P} avg g cutoff (flats darks : list (P -> R)) (arr : T -> P -> R) :
  the_avg avg = Some g ->
  exists out, normalize avg cutoff flats darks arr = Ok out /\
   forall t px, let f := g (map (fun x => x px) flats) in let d := g (map (fun x => x px) darks) in
     0 < Rmax (f - d) small /\
     out t px = match cutoff with
                | None => (arr t px - d) / Rmax (f - d) small
                | Some c => Rmin ((arr t px - d) / Rmax (f - d) small) c end.
Proof.
  intros E. destruct avg; cbn in E; try discriminate; injection E as <-;
    (eexists; split; [reflexivity|]; intros t px; cbv zeta; split;
     [eapply Rlt_le_trans; [exact small_pos|apply Rmax_r]|];
     destruct cutoff; [apply norm_px_cutoff|apply norm_px_spec]).
Qed.

(** Beer-Lambert: dark d, flat f, line integral p >= 0. *)
Lemma beer_lambert f d p cutoff : small <= f - d -> 0 <= p ->
  (forall c, cutoff = Some c -> 1 <= c) ->
  minus_log (norm_px cutoff f d (d + (f - d) * exp (- p))) = p.
Proof.
  intros Hf Hp Hc.
  assert (E : norm_px None f d (d + (f - d) * exp (- p)) = exp (- p)).
  { rewrite norm_px_spec, Rmax_left by lra. field. pose proof small_pos. lra. }
  assert (L : exp (- p) <= 1).
  { rewrite <- exp_0. destruct (Req_dec p 0) as [->|N]; [rewrite Ropp_0; lra|].
    left. apply exp_increasing. lra. }
  assert (norm_px cutoff f d (d + (f - d) * exp (- p)) = exp (- p)) as ->.
  { destruct cutoff as [c|]; auto. rewrite norm_px_cutoff, <- norm_px_spec, E, Rmin_left; auto.
    pose proof (Hc c eq_refl). lra. }
  unfold minus_log. rewrite ln_exp. lra.
Qed.

Lemma rmean_const c n : (1 <= n)%nat -> rmean (repeat c n) = c.
Proof.
  intros Hn. unfold rmean. rewrite repeat_length.
  assert (E : rsum (repeat c n) = INR n * c).
  { clear. induction n; [cbn; lra|]. cbn [repeat rsum fold_right]. fold (rsum (repeat c n)).
    rewrite IHn, S_INR. lra. }
  rewrite E. field. apply not_0_INR. lia.
Qed.

(** ** normalize_roi *)
Lemma rsum_app a b : rsum (a ++ b) = rsum a + rsum b.
Proof. unfold rsum. induction a; cbn; lra. Qed.
Lemma rsum_scale k l : rsum (map (fun x => x / k) l) = rsum l / k.
Proof. induction l as [|x l IH]; cbn; [unfold Rdiv; lra|]. fold (rsum (map (fun x => x / k) l)) (rsum l). rewrite IH. unfold Rdiv. lra. Qed.

Lemma roi_values_scale r0 r1 r2 r3 p k :
  roi_values r0 r1 r2 r3 (fun i j => p i j / k) = map (fun x => x / k) (roi_values r0 r1 r2 r3 p).
Proof.
  unfold roi_values. induction (zrange r0 r2) as [|i l IH]; cbn; auto.
  rewrite map_app, IH. f_equal. rewrite map_map. reflexivity.
Qed.

Lemma normalize_roi_mean_one r0 r1 r2 r3 p : rmean (roi_values r0 r1 r2 r3 p) <> 0 ->
  rmean (roi_values r0 r1 r2 r3 (normalize_roi r0 r1 r2 r3 p)) = 1.
Proof.
  intros H. unfold normalize_roi. cbv zeta. destruct (Req_EM_T _ 0); [contradiction|].
  rewrite roi_values_scale. set (l := roi_values r0 r1 r2 r3 p) in *.
  set (b := rmean l) in *. unfold rmean at 1. rewrite map_length, rsum_scale.
  replace (rsum l / b / INR (length l)) with (rmean l / b).
  - fold b. now field.
  - unfold rmean, Rdiv. ring.
Qed.
Lemma normalize_roi_idem r0 r1 r2 r3 p i j :
  normalize_roi r0 r1 r2 r3 (normalize_roi r0 r1 r2 r3 p) i j = normalize_roi r0 r1 r2 r3 p i j.
Proof.
  destruct (Req_EM_T (rmean (roi_values r0 r1 r2 r3 p)) 0) as [E|E].
  - unfold normalize_roi. cbv zeta. destruct (Req_EM_T (rmean (roi_values r0 r1 r2 r3 p)) 0); [|contradiction].
    destruct (Req_EM_T _ 0); [auto|contradiction].
  - pose proof (normalize_roi_mean_one r0 r1 r2 r3 p E) as M.
    unfold normalize_roi at 1. cbv zeta. rewrite M. destruct (Req_EM_T 1 0); [lra|]. field.
Qed.
Lemma normalize_roi_ratio r0 r1 r2 r3 p i j i' j' :
  normalize_roi r0 r1 r2 r3 p i j * p i' j' = normalize_roi r0 r1 r2 r3 p i' j' * p i j.
Proof. unfold normalize_roi. cbv zeta. destruct (Req_EM_T _ 0); [ring|]. field. auto. Qed.

(** ** normalize_nf *)
Local Open Scope Z_scope.

Lemma even_mod d : Z.even d = (d mod 2 =? 0).
Proof. rewrite Zmod_even. destruct (Z.even d); reflexivity. Qed.
Lemma round_half_bounds d : d - 1 <= 2 * round_half d <= d + 1.
Proof.
  unfold round_half. rewrite !even_mod. destruct (Z.eqb_spec (d mod 2) 0); [lia|].
  destruct (Z.eqb_spec (d / 2 mod 2) 0); lia.
Qed.
Lemma round_half_no_tie d : d mod 4 <> 1 -> d <= 2 * round_half d.
Proof.
  intros H. unfold round_half. rewrite !even_mod. destruct (Z.eqb_spec (d mod 2) 0); [lia|].
  destruct (Z.eqb_spec (d / 2 mod 2) 0); lia.
Qed.

Lemma nf_segs_length total : forall locs t0, length (nf_segs total t0 locs) = length locs.
Proof.
  induction locs as [|l r IH]; intros t0; auto. cbn [nf_segs]. destruct r as [|l2 r']; auto.
  cbv zeta. cbn [length]. f_equal. apply (IH _).
Qed.

Definition locn (locs : list Z) (m : nat) : Z := nth m locs 0.
Definition seg_end (total : Z) (locs : list Z) (m : nat) : Z :=
  if (S m <? length locs)%nat then round_half (locn locs (S m) - locn locs m) + locn locs m else total.
Definition seg_start (total t0 : Z) (locs : list Z) (m : nat) : Z :=
  match m with O => t0 | S m' => seg_end total locs m' end.

Lemma nf_segs_nth total : forall locs t0 m, (m < length locs)%nat ->
  nth_error (nf_segs total t0 locs) m = Some (seg_start total t0 locs m, seg_end total locs m).
Proof.
  induction locs as [|l r IH]; intros t0 m Hm; [cbn in Hm; lia|].
  cbn [nf_segs]. destruct r as [|l2 r'].
  - destruct m; [reflexivity|cbn in Hm; lia].
  - cbv zeta. destruct m as [|m].
    + reflexivity.
    + cbn [nth_error]. rewrite (IH _ m) by (cbn in *; lia). f_equal. f_equal.
      destruct m; reflexivity.
Qed.

Definition sorted_locs (locs : list Z) : Prop :=
  forall i j, (i <= j < length locs)%nat -> locn locs i <= locn locs j.

Lemma seg_end_between total locs m : sorted_locs locs -> (S m < length locs)%nat ->
  locn locs m <= seg_end total locs m <= locn locs (S m).
Proof.
  intros H Hm. unfold seg_end. destruct (Nat.ltb_spec (S m) (length locs)); [|lia].
  pose proof (round_half_bounds (locn locs (S m) - locn locs m)).
  pose proof (H m (S m) ltac:(lia)). lia.
Qed.

Lemma seg_end_mono total locs : sorted_locs locs ->
  forall i j, (i <= j)%nat -> (S j < length locs)%nat -> seg_end total locs i <= seg_end total locs j.
Proof.
  intros H i j Hij. induction Hij as [|j Hij IH]; intros Hj; [lia|].
  pose proof (IH ltac:(lia)). pose proof (seg_end_between total locs j H ltac:(lia)).
  pose proof (seg_end_between total locs (S j) H Hj). lia.
Qed.

(** The group of projection t: the first m with t < seg_end m, or the last one. *)
Lemma group_exists total locs t : (1 <= length locs)%nat -> sorted_locs locs -> 0 <= t < total ->
  exists m, (m < length locs)%nat /\ t < seg_end total locs m /\
            forall i, (i < m)%nat -> seg_end total locs i <= t.
Proof.
  intros HL HS Ht.
  assert (G : forall k, (k <= length locs - 1)%nat ->
    (exists m, (m < k)%nat /\ t < seg_end total locs m /\ forall i, (i < m)%nat -> seg_end total locs i <= t) \/
    (forall i, (i < k)%nat -> seg_end total locs i <= t)).
  { induction k as [|k IH]; intros Hk; [right; lia|].
    destruct (IH ltac:(lia)) as [(m & Hm & H)|H]; [left; exists m; split; [lia|auto]|].
    destruct (Z_lt_le_dec t (seg_end total locs k)) as [L|L].
    - left. exists k. auto.
    - right. intros i Hi. destruct (Nat.eq_dec i k) as [->|]; auto. apply H. lia. }
  destruct (G (length locs - 1)%nat ltac:(lia)) as [(m & Hm & H)|H].
  - exists m. split; [lia|auto].
  - exists (length locs - 1)%nat. split; [lia|]. split.
    + unfold seg_end. destruct (Nat.ltb_spec (S (length locs - 1)) (length locs)); lia.
    + intros i Hi. apply H. lia.
Qed.

Lemma nth_error_combine_some {A B} (la : list A) (lb : list B) i a b :
  nth_error la i = Some a -> nth_error lb i = Some b -> nth_error (combine la lb) i = Some (a, b).
Proof.
  revert la lb. induction i as [|i IH]; destruct la, lb; cbn; try discriminate; intros; [congruence|auto].
Qed.

(** Only one segment of a list contains t: the fold returns its value. *)
Lemma fold_nf_untouched {P} total value (ms : list (Z * (Z * Z))) : forall (out : Z -> P -> option R) t px,
  (forall x, In x ms -> in_slice total (snd x) t = false) ->
  fold_left (nf_step total value) ms out t px = out t px.
Proof.
  induction ms as [|x ms IH]; intros out t px H; cbn [fold_left]; auto.
  rewrite IH by (intros; apply H; now right). unfold nf_step. now rewrite (H x (or_introl eq_refl)).
Qed.
Lemma fold_nf_hit {P} total value (ms : list (Z * (Z * Z))) : forall (out : Z -> P -> option R) t px i m s,
  nth_error ms i = Some (m, s) -> in_slice total s t = true ->
  (forall j x, j <> i -> nth_error ms j = Some x -> in_slice total (snd x) t = false) ->
  fold_left (nf_step total value) ms out t px = value m t px.
Proof.
  induction ms as [|x ms IH]; intros out t px i m s Hi Hs Ho; [now destruct i|]. cbn [fold_left].
  destruct i as [|i].
  - injection Hi as ->. rewrite fold_nf_untouched.
    + unfold nf_step. cbn [fst snd]. now rewrite Hs.
    + intros y Hy. apply In_nth_error in Hy. destruct Hy as [j Hj]. apply (Ho (S j) y); auto.
  - apply (IH _ t px i m s); auto. intros j y Hj Hy. apply (Ho (S j) y); auto.
Qed.

Lemma clip_id n i : 0 <= i <= n -> clip n i = i.
Proof. unfold clip. destruct (Z.ltb_spec i 0); lia. Qed.

Definition in_group (total : Z) (locs : list Z) (m : nat) (t : Z) : Prop :=
  (m < length locs)%nat /\ t < seg_end total locs m /\ forall i, (i < m)%nat -> seg_end total locs i <= t.

Lemma seg_slice total locs m t : sorted_locs locs -> 0 <= locn locs 0 -> 0 <= t < total -> (m < length locs)%nat ->
  in_slice total (seg_start total 0 locs m, seg_end total locs m) t = true <-> in_group total locs m t.
Proof.
  intros HS H0 Ht Hm. unfold in_slice. cbn [fst snd].
  assert (NN : forall i, (i < length locs)%nat -> 0 <= locn locs i).
  { intros i Hi. pose proof (HS 0%nat i ltac:(lia)). lia. }
  assert (EN : forall i, (i < length locs)%nat -> 0 <= seg_end total locs i).
  { intros i Hi. unfold seg_end. destruct (Nat.ltb_spec (S i) (length locs)); [|lia].
    pose proof (round_half_bounds (locn locs (S i) - locn locs i)). pose proof (HS i (S i) ltac:(lia)).
    pose proof (NN i Hi). lia. }
  assert (SN : 0 <= seg_start total 0 locs m).
  { destruct m; cbn; [lia|]. apply EN. lia. }
  pose proof (EN m Hm). unfold clip. unfold in_group.
  assert (C : (clip total (seg_start total 0 locs m) <=? t) && (t <? clip total (seg_end total locs m)) = true
              <-> seg_start total 0 locs m <= t < seg_end total locs m) by (unfold clip; destruct (Z.ltb_spec (seg_start total 0 locs m) 0), (Z.ltb_spec (seg_end total locs m) 0); lia).
  unfold clip in C. rewrite C. split.
  - intros [H1 H2]. split; auto. split; auto. intros i Hi. destruct m as [|m]; [lia|]. cbn in H1.
    pose proof (seg_end_mono total locs HS i m ltac:(lia) Hm). lia.
  - intros (_ & H1 & H2). split; auto. destruct m as [|m]; cbn; [lia|]. apply H2. lia.
Qed.

Lemma in_group_unique total locs m m' t : in_group total locs m t -> in_group total locs m' t -> m = m'.
Proof.
  intros (_ & H1 & H2) (_ & H3 & H4). destruct (Nat.lt_trichotomy m m') as [L|[E|L]]; auto.
  - pose proof (H4 m L). lia.
  - pose proof (H2 m' L). lia.
Qed.

(** Each projection is normalised with exactly one group. *)
Lemma normalize_nf_groups {P} cutoff (flats darks : list (P -> R)) locs total tomo out0 :
  locs <> [] -> sorted_locs locs -> 0 <= locn locs 0 ->
  exists out, normalize_nf AvgMean cutoff flats darks locs total tomo out0 = Ok out /\
   (forall t, 0 <= t < total -> exists m, in_group total locs m t /\
      forall px, out t px = nf_px cutoff (nf_flat flats (Z.of_nat (length locs)) (Z.of_nat m) px)
                              (frame_avg rmean darks px) (tomo t px)).
Proof.
  intros Hne HS H0. unfold normalize_nf. cbv zeta.
  assert (HL : (1 <= length locs)%nat) by (destruct locs; [easy|cbn; lia]).
  destruct (Z.eqb_spec (Z.of_nat (length locs)) 0) as [E|_]; [lia|].
  eexists. split; [reflexivity|]. intros t Ht.
  destruct (group_exists total locs t HL HS Ht) as (m & HM). change (in_group total locs m t) in HM.
  exists m. split; auto. intros px. destruct HM as (Hm & HM). pose proof (conj Hm HM : in_group total locs m t) as HG.
  assert (EN : forall k, (k < length locs)%nat ->
     nth_error (combine (zrange 0 (Z.of_nat (length locs))) (nf_segs total 0 locs)) k
     = Some (Z.of_nat k, (seg_start total 0 locs k, seg_end total locs k))).
  { intros k Hk. apply nth_error_combine_some.
    - rewrite nth_error_zrange by lia. f_equal. 
    - now apply nf_segs_nth. }
  erewrite fold_nf_hit; [reflexivity|apply EN; auto|now apply seg_slice|].
  intros j x Hj Hx.
  assert (Hjl : (j < length locs)%nat).
  { assert (nth_error (combine (zrange 0 (Z.of_nat (length locs))) (nf_segs total 0 locs)) j <> None) as N by congruence.
    apply nth_error_Some in N. rewrite combine_length, nf_segs_length in N. lia. }
  rewrite (EN j Hjl) in Hx. injection Hx as <-. cbn [snd].
  destruct (in_slice _ _ t) eqn:E; auto. apply seg_slice in E; auto. exfalso. apply Hj.
  eapply in_group_unique; eauto.
Qed.

Lemma in_group_mono total locs m m' t t' : t <= t' ->
  in_group total locs m t -> in_group total locs m' t' -> (m <= m')%nat.
Proof.
  intros Ht (_ & H1 & H2) (_ & H3 & H4). destruct (Nat.le_gt_cases m m'); auto.
  pose proof (H2 m' H). lia.
Qed.

(** Nearest up to one index. *)
Lemma in_group_near total locs m t : sorted_locs locs -> in_group total locs m t ->
  forall m', (m' < length locs)%nat -> Z.abs (t - locn locs m) <= Z.abs (t - locn locs m') + 1.
Proof.
  intros HS (Hm & H1 & H2) m' Hm'.
  destruct (Nat.lt_trichotomy m m') as [L|[->|L]]; [| |].
  - pose proof (HS (S m) m' ltac:(lia)) as B1. pose proof (HS m (S m) ltac:(lia)).
    unfold seg_end in H1. destruct (Nat.ltb_spec (S m) (length locs)); [|lia].
    pose proof (round_half_bounds (locn locs (S m) - locn locs m)).
    destruct (Z_le_gt_dec (locn locs m) t); [lia|].
    destruct m as [|m]; [lia|].
    (* t < loc m: compare with the previous location *)
    lia.
  - lia.
  - destruct m as [|m]; [lia|]. pose proof (H2 m ltac:(lia)) as B.
    unfold seg_end in B. destruct (Nat.ltb_spec (S m) (length locs)); [|lia].
    pose proof (round_half_bounds (locn locs (S m) - locn locs m)).
    pose proof (HS m' m ltac:(lia)). pose proof (HS m (S m) ltac:(lia)).
    destruct (Z_le_gt_dec (locn locs (S m)) t); lia.
Qed.
Lemma in_group_nearest total locs m t : sorted_locs locs ->
  (forall i, (S i < length locs)%nat -> (locn locs (S i) - locn locs i) mod 4 <> 1) ->
  in_group total locs m t ->
  forall m', (m' < length locs)%nat -> Z.abs (t - locn locs m) <= Z.abs (t - locn locs m').
Proof.
  intros HS HG (Hm & H1 & H2) m' Hm'.
  destruct (Nat.lt_trichotomy m m') as [L|[->|L]]; [| |].
  - pose proof (HS (S m) m' ltac:(lia)) as B1. pose proof (HS m (S m) ltac:(lia)).
    unfold seg_end in H1. destruct (Nat.ltb_spec (S m) (length locs)); [|lia].
    pose proof (round_half_bounds (locn locs (S m) - locn locs m)).
    destruct (Z_le_gt_dec (locn locs m) t); lia.
  - lia.
  - destruct m as [|m]; [lia|]. pose proof (H2 m ltac:(lia)) as B.
    unfold seg_end in B. destruct (Nat.ltb_spec (S m) (length locs)); [|lia].
    pose proof (round_half_no_tie (locn locs (S m) - locn locs m) (HG m ltac:(lia))).
    pose proof (HS m' m ltac:(lia)). pose proof (HS m (S m) ltac:(lia)).
    destruct (Z_le_gt_dec (locn locs (S m)) t); lia.
Qed.

(** ** normalize_bg *)
Local Open Scope R_scope.
Definition left_air (row : Z -> R) (nair : Z) : R :=
  let a := rmean (map row (zrange 0 nair)) in if Rle_dec a 0 then 1 else a.
Definition right_air (row : Z -> R) (dz nair : Z) : R :=
  let a := rmean (map row (zrange (dz - nair) dz)) in if Rle_dec a 0 then 1 else a.

Lemma bg_sums (data : Z -> R) i dz nair : (0 <= nair)%Z ->
  for_ nair (fun j lr => (fst lr + data (i + j)%Z, snd lr + data (i + dz - 1 - j)%Z)) (0, 0)
  = (rsum (map (fun j => data (i + j)%Z) (zrange 0 nair)),
     rsum (map (fun j => data (i + j)%Z) (zrange (dz - nair) dz))).
Proof.
  intros Hn.
  apply (for_inv (fun n s => s = (rsum (map (fun j => data (i + j)%Z) (zrange 0 n)),
     rsum (map (fun j => data (i + j)%Z) (zrange (dz - n) dz))))); auto.
  - rewrite !zrange_nil by lia. reflexivity.
  - intros k s Hk ->. cbn [fst snd]. f_equal.
    + rewrite zrange_snoc by lia. rewrite map_app, rsum_app. cbn. lra.
    + rewrite (@zrange_cons (dz - (k + 1)) dz) by lia. cbn [map rsum fold_right].
      replace (dz - (k + 1) + 1)%Z with (dz - k)%Z by lia.
      fold (rsum (map (fun j => data (i + j)%Z) (zrange (dz - k) dz))).
      replace (i + (dz - (k + 1)))%Z with (i + dz - 1 - k)%Z by lia. lra.
Qed.

Definition row_of (data : Z -> R) (i : Z) : Z -> R := fun j => data (i + j)%Z.

Lemma bg_row_spec dz nair i data k : (1 <= nair <= dz)%Z -> (2 <= dz)%Z ->
  bg_row dz nair i data k =
    if ((i <=? k) && (k <? i + dz))%Z then
      let L := left_air (row_of data i) nair in let Rt := right_air (row_of data i) dz nair in
      data k / (L + (Rt - L) / IZR (dz - 1) * IZR (k - i))
    else data k.
Proof.
  intros Hn Hz. unfold bg_row. rewrite bg_sums by lia.
  assert (EL : rsum (map (fun j => data (i + j)%Z) (zrange 0 nair)) / IZR nair = rmean (map (row_of data i) (zrange 0 nair))).
  { unfold rmean. rewrite map_length, zrange_length, INR_IZR_INZ, Z2Nat.id by lia. now rewrite Z.sub_0_r. }
  assert (ER : rsum (map (fun j => data (i + j)%Z) (zrange (dz - nair) dz)) / IZR nair = rmean (map (row_of data i) (zrange (dz - nair) dz))).
  { unfold rmean. rewrite map_length, zrange_length, INR_IZR_INZ, Z2Nat.id by lia.
    now replace (dz - (dz - nair))%Z with nair by lia. }
  rewrite EL, ER. cbv zeta. fold (left_air (row_of data i) nair). fold (right_air (row_of data i) dz nair).
  set (L := left_air (row_of data i) nair). set (Rt := right_air (row_of data i) dz nair).
  set (s := (Rt - L) / IZR (dz - 1)).
  apply (for_inv (fun n (d : Z -> R) => forall k, d k =
     if ((i <=? k) && (k <? i + n))%Z then data k / (L + s * IZR (k - i)) else data k)); [lia| |].
  - intros k'. replace ((i <=? k') && (k' <? i + 0))%Z with false by lia. reflexivity.
  - intros m d Hm H k'. destruct (Z.eq_dec k' (i + m)) as [->|N].
    + rewrite aset_eq, (H (i + m)%Z).
      replace ((i <=? i + m) && (i + m <? i + m))%Z with false by lia.
      replace ((i <=? i + m) && (i + m <? i + (m + 1)))%Z with true by lia.
      now replace (i + m - i)%Z with m by lia.
    + rewrite aset_ne by auto. rewrite H.
      destruct ((i <=? k') && (k' <? i + m))%Z eqn:E1, ((i <=? k') && (k' <? i + (m + 1)))%Z eqn:E2; auto; lia.
Qed.

Definition bg_value (dz nair i : Z) (data : Z -> R) (k : Z) : R :=
  let L := left_air (row_of data i) nair in let Rt := right_air (row_of data i) dz nair in
  data k / (L + (Rt - L) / IZR (dz - 1) * IZR (k - i)).

Lemma left_air_ext r1 r2 nair : (forall j, (0 <= j < nair)%Z -> r1 j = r2 j) -> left_air r1 nair = left_air r2 nair.
Proof.
  intros H. unfold left_air. cbv zeta. rewrite (map_ext_in r1 r2 (zrange 0 nair)); auto.
  intros j Hj. apply in_zrange in Hj. auto.
Qed.
Lemma right_air_ext r1 r2 dz nair : (nair <= dz)%Z -> (forall j, (0 <= j < dz)%Z -> r1 j = r2 j) -> right_air r1 dz nair = right_air r2 dz nair.
Proof.
  intros Hn H. unfold right_air. cbv zeta. rewrite (map_ext_in r1 r2 (zrange (dz - nair) dz)); auto.
  intros j Hj. apply in_zrange in Hj. apply H. lia.
Qed.

(** Rows processed so far hold the normalised values, the others the input. *)
Lemma bg_rows dx dy dz nair data : (0 <= dx)%Z -> (0 <= dy)%Z -> (1 <= nair <= dz)%Z -> (2 <= dz)%Z ->
  forall m n j, (0 <= m < dx)%Z -> (0 <= n < dy)%Z -> (0 <= j < dz)%Z ->
  normalize_bg dx dy dz nair data (m * (dz * dy) + n * dz + j)%Z =
  bg_value dz nair (m * (dz * dy) + n * dz) data (m * (dz * dy) + n * dz + j)%Z.
Proof.
  intros Hdx Hdy Hn Hz.
  (* the rows are numbered r = m * dy + n and start at r * dz *)
  set (Inv := fun (r : Z) (d : Z -> R) => forall k,
      d k = if ((0 <=? k) && (k <? r * dz))%Z then bg_value dz nair (k / dz * dz) data k else data k).
  assert (Step : forall r d, (0 <= r)%Z -> Inv r d -> Inv (r + 1)%Z (bg_row dz nair (r * dz) d)).
  { intros r d Hr H k. rewrite bg_row_spec by auto.
    destruct ((r * dz <=? k) && (k <? r * dz + dz))%Z eqn:E.
    - replace ((0 <=? k) && (k <? (r + 1) * dz))%Z with true by nia.
      assert (Ek : (k / dz = r)%Z) by (symmetry; apply (Z.div_unique_pos k dz r (k - r * dz)); lia).
      rewrite Ek. unfold bg_value. cbv zeta.
      assert (Hrow : forall j, (0 <= j < dz)%Z -> row_of d (r * dz) j = row_of data (r * dz) j).
      { intros j Hj. unfold row_of. rewrite H. replace ((0 <=? r * dz + j) && (r * dz + j <? r * dz))%Z with false by lia. auto. }
      rewrite (left_air_ext (row_of d (r * dz)) (row_of data (r * dz))) by (intros; apply Hrow; lia).
      rewrite (right_air_ext (row_of d (r * dz)) (row_of data (r * dz))) by (auto; lia).
      rewrite H. replace ((0 <=? k) && (k <? r * dz))%Z with false by lia. reflexivity.
    - rewrite H. destruct ((0 <=? k) && (k <? r * dz))%Z eqn:E1.
      + replace ((0 <=? k) && (k <? (r + 1) * dz))%Z with true by nia. auto.
      + replace ((0 <=? k) && (k <? (r + 1) * dz))%Z with false by nia. auto. }
  assert (All : Inv (dx * dy)%Z (normalize_bg dx dy dz nair data)).
  { unfold normalize_bg.
    apply (for_inv (fun m d => Inv (m * dy)%Z d)); auto.
    - intros k. replace ((0 <=? k) && (k <? 0 * dy * dz))%Z with false by lia. auto.
    - intros m d Hm Hd. replace ((m + 1) * dy)%Z with (m * dy + dy)%Z by lia.
      apply (for_inv (fun n d => Inv (m * dy + n)%Z d)); auto.
      + now rewrite Z.add_0_r.
      + intros n d' Hn' Hd'. replace (m * (dz * dy) + n * dz)%Z with ((m * dy + n) * dz)%Z by lia.
        replace (m * dy + (n + 1))%Z with (m * dy + n + 1)%Z by lia. apply Step; auto. nia. }
  intros m n j Hm Hn' Hj. set (k := (m * (dz * dy) + n * dz + j)%Z). rewrite All.
  assert (Ek : (k / dz = m * dy + n)%Z) by (symmetry; apply (Z.div_unique_pos k dz (m * dy + n) j); unfold k; lia).
  replace ((0 <=? k) && (k <? dx * dy * dz))%Z with true.
  - rewrite Ek. now replace ((m * dy + n) * dz)%Z with (m * (dz * dy) + n * dz)%Z by lia.
  - symmetry. apply andb_true_intro. unfold k. split.
    + apply Z.leb_le. assert (0 <= m * (dz * dy))%Z by (apply Z.mul_nonneg_nonneg; nia). nia.
    + apply Z.ltb_lt. assert ((m + 1) * dy <= dx * dy)%Z by nia.
      assert (m * dy + n + 1 <= dx * dy)%Z by nia. nia.
Qed.
