From Verif Require Import Base Order CLoop Model_Prep Proofs_Prep FloatR Spec_Stripe3d Model_Stripe3d Proofs_Stripe3d.
From Coq Require Import Reals Lra.
From Flocq Require Import Core.
Local Open Scope Z_scope.

(** ** Rounding *)
Section Rounding.
  Local Open Scope R_scope.
  Lemma rnd_int n : (Z.abs n < 2 ^ 24)%Z -> rnd (IZR n) = IZR n.
  Proof.
    intros H. apply round_generic; [auto with typeclass_instances|].
    replace (IZR n) with (F2R (Float radix2 n 0)) by (unfold F2R; cbn; ring).
    apply generic_format_F2R. intros N. cbn [Fnum Fexp]. unfold cexp, SpecFloat.fexp, SpecFloat.emin.
    assert (M : (mag radix2 (F2R (Float radix2 n 0)) <= 24)%Z).
    { apply mag_le_bpow.
      - intros E. apply eq_0_F2R in E. cbn in E. lia.
      - unfold F2R. cbn [Fnum Fexp bpow]. rewrite Rmult_1_r, <- abs_IZR. apply IZR_lt. exact H. }
    lia.
  Qed.
  Lemma rnd_eval y m e : (-149 <= e)%Z -> 8388608 <= y < 16777216 -> Rabs (y - IZR m) < / 2 -> rnd (y * bpow radix2 e) = IZR m * bpow radix2 e.
  Proof.
    intros He Hy Hm. unfold rnd, round, scaled_mantissa, F2R, cexp.
    assert (M : (mag radix2 (y * bpow radix2 e) = 24 + e :> Z)%Z).
    { apply mag_unique_pos. rewrite !bpow_plus. replace (24 + e - 1)%Z with (23 + e)%Z by ring. rewrite bpow_plus.
      pose proof (bpow_gt_0 radix2 e). change (bpow radix2 23) with 8388608. change (bpow radix2 24) with 16777216.
      split; [apply Rmult_le_compat_r|apply Rmult_lt_compat_r]; lra. }
    rewrite M. unfold SpecFloat.fexp, SpecFloat.emin. replace (Z.max (24 + e - 24) (3 - 128 - 24)) with e by lia. cbn [Fnum Fexp].
    rewrite Rmult_assoc, <- bpow_plus, Z.add_opp_diag_r. cbn [bpow]. rewrite Rmult_1_r.
    rewrite (Znearest_imp (fun x => negb (Z.even x)) y m) by auto. reflexivity.
  Qed.
  Lemma bpow24 : bpow radix2 (-24) = / 16777216. Proof. reflexivity. Qed.
  Lemma bpow18 : bpow radix2 (-18) = / 262144. Proof. reflexivity. Qed.
  Definition c001 : R := IZR 10737418 / 2 ^ 30.
  Lemma c001_100 : rnd (c001 * 100) = 1.
  Proof.
    replace (c001 * 100) with (1073741800 / 64 * bpow radix2 (-24)) by (unfold c001; rewrite bpow24; lra).
    rewrite (rnd_eval _ 16777216 (-24)); [rewrite bpow24; lra|lia| |]; [lra|].
    apply Rabs_def1; lra.
  Qed.
  Lemma allowed_eq s n : allowed s n = Int_part (rnd (rnd (c001 * s) * rnd (IZR n))).
  Proof. reflexivity. Qed.
  Lemma Int_part_le x n : x < IZR n + 1 -> (Int_part x <= n)%Z.
  Proof. intros H. destruct (base_Int_part x) as [A _]. assert (IZR (Int_part x) < IZR (n + 1)) by (rewrite plus_IZR; lra). apply lt_IZR in H0. lia. Qed.
  Lemma Int_part_ge x n : IZR n <= x -> (n <= Int_part x)%Z.
  Proof. intros H. destruct (base_Int_part x) as [_ B]. assert (IZR n < IZR (Int_part x + 1)) by (rewrite plus_IZR; lra). apply lt_IZR in H0. lia. Qed.
  Lemma Int_part_floor x n : IZR n <= x < IZR n + 1 -> Int_part x = n.
  Proof. intros [A B]. apply Z.le_antisymm; [now apply Int_part_le|now apply Int_part_ge]. Qed.
  Lemma allowed_100 n : (0 <= n < 2 ^ 24)%Z -> allowed 100 n = n.
  Proof. intros H. rewrite allowed_eq, c001_100, Rmult_1_l, !rnd_int by lia. apply Int_part_floor. lra. Qed.
  Lemma allowed_range s n : 0 < s <= 100 -> (0 <= n < 2 ^ 24)%Z -> (0 <= allowed s n <= n)%Z.
  Proof.
    intros Hs Hn. rewrite allowed_eq. rewrite (rnd_int n) by lia.
    assert (C : 0 < c001) by (unfold c001; lra).
    assert (L : 0 <= rnd (c001 * s)) by (rewrite <- rnd_0; apply rnd_mono; nra).
    assert (U : rnd (c001 * s) <= 1) by (rewrite <- c001_100; apply rnd_mono; nra).
    assert (N : 0 <= IZR n) by (apply IZR_le; lia).
    split.
    - apply Int_part_ge. rewrite <- rnd_0 at 1. apply rnd_mono. nra.
    - apply Int_part_le. assert (rnd (rnd (c001 * s) * IZR n) <= IZR n); [|lra]. rewrite <- (rnd_int n) at 2 by lia. apply rnd_mono. nra.
  Qed.
  Lemma allowed_mono s s' n : s <= s' -> (0 <= n < 2 ^ 24)%Z -> (allowed s n <= allowed s' n)%Z.
  Proof.
    intros Hs Hn. rewrite !allowed_eq. rewrite (rnd_int n) by lia. assert (N : 0 <= IZR n) by (apply IZR_le; lia).
    assert (C : 0 < c001) by (unfold c001; lra).
    assert (E : rnd (rnd (c001 * s) * IZR n) <= rnd (rnd (c001 * s') * IZR n)).
    { apply rnd_mono. assert (rnd (c001 * s) <= rnd (c001 * s')) by (apply rnd_mono; nra). nra. }
    apply Int_part_ge. destruct (base_Int_part (rnd (rnd (c001 * s) * IZR n))). lra.
  Qed.
  Lemma allowed_85_60 : allowed 85 60 = 50%Z.
  Proof.
    rewrite allowed_eq, (rnd_int 60) by lia.
    replace (c001 * 85) with (912680530 / 64 * bpow radix2 (-24)) by (unfold c001; rewrite bpow24; lra).
    rewrite (rnd_eval _ 14260633 (-24)); [|lia|lra|apply Rabs_def1; lra].
    replace (14260633 * bpow radix2 (-24) * 60) with (855637980 / 64 * bpow radix2 (-18)) by (rewrite bpow24, bpow18; lra).
    rewrite (rnd_eval _ 13369343 (-18)); [|lia|lra|apply Rabs_def1; lra].
    apply Int_part_floor. rewrite bpow18. lra.
  Qed.
End Rounding.

(** ** Passes *)
Section Mask.
  Variables dx dy dz : Z.
  Notation idx := (idx dx dy).
  Notation ix := (ix dx dy).
  Notation ins := (inside dx dy dz).
  Notation full order := (Permutation order (voxels dx dy dz)).
  Notation view := (view dx dy).

  Lemma pass (g : voxel -> bool -> bool) (body : voxel -> arr bool -> arr bool) order out :
    (forall v o, body v o (ix v) = g v (o (ix v))) -> (forall v o x, x <> ix v -> body v o x = o x) -> full order ->
    (forall i j k, ins i j k -> view (run order body out) i j k = g (i, j, k) (view out i j k)) /\
    (forall x, x < 0 \/ dx * dy * dz <= x -> run order body out x = out x).
  Proof.
    intros A B P. destruct (run_all dx dy dz g body order A B P out) as [C D]. split.
    - intros i j k H. exact (C (i, j, k) H).
    - intros x Hx. apply D. intros [[i j] k] Hv E. pose proof (idx_range dx dy dz i j k Hv). cbn in E. lia.
  Qed.

  Lemma below_run order input th m : full order ->
    (forall i j k, ins i j k -> view (run order (below dx dy input th) m) i j k = negb (rltb th (view input i j k))) /\
    (forall x, x < 0 \/ dx * dy * dz <= x -> run order (below dx dy input th) m x = m x).
  Proof.
    intros P. apply (pass (fun v _ => let '(i, j, k) := v in negb (rltb th (view input i j k)))); auto.
    - intros [[i j] k] o. unfold below. cbn [Proofs_Stripe3d.ix]. apply aset_own.
    - intros [[i j] k] o x H. unfold below. now apply aset_other.
  Qed.

  Lemma hits_vertical (m : arr bool) h i j k : hits m (zrange (- h) (h + 1)) (fun n => idx i j (mirror dz k n)) = vertical_hits dz (view m) h i j k.
  Proof. unfold hits, vertical_hits. f_equal. apply count_ext. intros n _. now rewrite mirror_reach. Qed.
  Lemma hits_depth (m : arr bool) h i j k : hits m (zrange (- h) (h + 1)) (fun n => idx i (mirror dy j n) k) = depth_hits dy (view m) h i j k.
  Proof. unfold hits, depth_hits. f_equal. apply count_ext. intros n _. now rewrite mirror_reach. Qed.

  Definition depth_kept (b : vol bool) (d : Z) (s : R) : vol bool := fun i j k =>
    b i j k && ((d =? 0) || (depth_hits dy b (d / 2) i j k <=? allowed s d)).
  Definition vertical_kept (b : vol bool) (h t : Z) : vol bool := fun i j k => b i j k && (t <=? vertical_hits dz b h i j k).

  Lemma depth_run order m len d s : full order ->
    (forall i j k, ins i j k -> view (run order (remove_inconsistent dx dy dz m len d s 1) m) i j k = depth_kept (view m) d s i j k) /\
    (forall x, x < 0 \/ dx * dy * dz <= x -> run order (remove_inconsistent dx dy dz m len d s 1) m x = m x).
  Proof.
    intros P.
    destruct (pass (fun v old => let '(i, j, k) := v in if view m i j k && negb (d =? 0) && (allowed s d <? depth_hits dy (view m) (d / 2) i j k) then false else old)
      (remove_inconsistent dx dy dz m len d s 1) order m) as [A B]; auto.
    - intros [[i j] k] o. unfold remove_inconsistent. cbn [Z.eqb Proofs_Stripe3d.ix]. rewrite hits_depth. change (view m i j k) with (m (idx i j k)).
      destruct (m (idx i j k)); auto. cbn [andb]. destruct (negb (d =? 0)); auto. cbn [andb]. destruct (_ <? _); auto. apply aset_own.
    - intros [[i j] k] o x H. unfold remove_inconsistent. cbn [Z.eqb]. cbn [Proofs_Stripe3d.ix] in H.
      destruct (m _); auto. destruct (negb _); auto. destruct (_ <? _); auto. now apply aset_other.
    - split; auto. intros i j k H. rewrite A by auto. unfold depth_kept. cbv beta iota.
      destruct (view m i j k); auto. cbn [andb]. destruct (d =? 0); auto. cbn [negb andb orb].
      destruct (Z.ltb_spec (allowed s d) (depth_hits dy (view m) (d / 2) i j k)), (Z.leb_spec (depth_hits dy (view m) (d / 2) i j k) (allowed s d)); auto; lia.
  Qed.
  Lemma length_run order m len d s : full order ->
    (forall i j k, ins i j k -> view (run order (remove_inconsistent dx dy dz m len d s 0) m) i j k = vertical_kept (view m) (len / 2) (allowed s len) i j k) /\
    (forall x, x < 0 \/ dx * dy * dz <= x -> run order (remove_inconsistent dx dy dz m len d s 0) m x = m x).
  Proof.
    intros P.
    destruct (pass (fun v old => let '(i, j, k) := v in if view m i j k && (vertical_hits dz (view m) (len / 2) i j k <? allowed s len) then false else old)
      (remove_inconsistent dx dy dz m len d s 0) order m) as [A B]; auto.
    - intros [[i j] k] o. unfold remove_inconsistent. cbn [Z.eqb Proofs_Stripe3d.ix]. rewrite hits_vertical. change (view m i j k) with (m (idx i j k)).
      destruct (m (idx i j k)); auto. cbn [andb]. destruct (_ <? _); auto. apply aset_own.
    - intros [[i j] k] o x H. unfold remove_inconsistent. cbn [Z.eqb]. cbn [Proofs_Stripe3d.ix] in H.
      destruct (m _); auto. destruct (_ <? _); auto. now apply aset_other.
    - split; auto. intros i j k H. rewrite A by auto. unfold vertical_kept. cbv beta iota.
      destruct (view m i j k); auto. cbn [andb].
      destruct (Z.ltb_spec (vertical_hits dz (view m) (len / 2) i j k) (allowed s len)), (Z.leb_spec (allowed s len) (vertical_hits dz (view m) (len / 2) i j k)); auto; lia.
  Qed.
  Lemma short_run order m len : full order ->
    (forall i j k, ins i j k -> view (run order (remove_short dx dy dz m len) m) i j k = vertical_kept (view m) (len / 2) (len / 2) i j k) /\
    (forall x, x < 0 \/ dx * dy * dz <= x -> run order (remove_short dx dy dz m len) m x = m x).
  Proof.
    intros P.
    destruct (pass (fun v old => let '(i, j, k) := v in if view m i j k && (vertical_hits dz (view m) (len / 2) i j k <? len / 2) then false else old)
      (remove_short dx dy dz m len) order m) as [A B]; auto.
    - intros [[i j] k] o. unfold remove_short. cbn [Proofs_Stripe3d.ix]. rewrite hits_vertical. change (view m i j k) with (m (idx i j k)).
      destruct (m (idx i j k)); auto. cbn [andb]. destruct (_ <? _); auto. apply aset_own.
    - intros [[i j] k] o x H. unfold remove_short. cbn [Proofs_Stripe3d.ix] in H.
      destruct (m _); auto. destruct (_ <? _); auto. now apply aset_other.
    - split; auto. intros i j k H. rewrite A by auto. unfold vertical_kept. cbv beta iota.
      destruct (view m i j k); auto. cbn [andb].
      destruct (Z.ltb_spec (vertical_hits dz (view m) (len / 2) i j k) (len / 2)), (Z.leb_spec (len / 2) (vertical_hits dz (view m) (len / 2) i j k)); auto; lia.
  Qed.

  Lemma merge_run order m w : 0 <= w -> full order ->
    (forall i j k, ins i j k -> view (run order (merge dx dy dz m w) m) i j k = true <-> view m i j k = true \/ near dx dz (view m) w i j k) /\
    (forall x, x < 0 \/ dx * dy * dz <= x -> run order (merge dx dy dz m w) m x = m x).
  Proof.
    intros Hw P.
    set (left := fun i j k => existsb (fun x => m (idx (if i + x <? 0 then i - x else i + x) j k)) (zrange (- (w / 2)) 1)).
    set (right := fun i j k => existsb (fun x => m (idx (if dx <=? i + x then i - x else i + x) j k)) (zrange 0 (w / 2 + 1))).
    set (up := fun i j k => existsb (fun x => m (idx i j (if k + x <? 0 then k - x else k + x))) (zrange (- (2 * w)) 1)).
    set (down := fun i j k => existsb (fun x => m (idx i j (if dz <=? k + x then k - x else k + x))) (zrange 0 (2 * w + 1))).
    destruct (pass (fun v old => let '(i, j, k) := v in if view m i j k then old else old || left i j k && right i j k || up i j k && down i j k)
      (merge dx dy dz m w) order m) as [A B]; auto.
    - intros [[i j] k] o. unfold merge. cbv zeta. cbn [Proofs_Stripe3d.ix]. change (view m i j k) with (m (idx i j k)). fold (left i j k) (right i j k) (up i j k) (down i j k).
      destruct (m (idx i j k)); auto.
      destruct (left i j k && right i j k); cbn [orb].
      + rewrite aset_own, orb_true_r. apply aset_own.
      + rewrite orb_false_r. destruct (o (idx i j k)) eqn:E; [rewrite E; reflexivity|]. cbn [orb].
        destruct (up i j k && down i j k); [apply aset_own|exact E].
    - intros [[i j] k] o x H. cbn [Proofs_Stripe3d.ix] in H. unfold merge. cbv zeta. fold (left i j k) (right i j k) (up i j k) (down i j k).
      destruct (m (idx i j k)); auto.
      destruct (left i j k && right i j k).
      + rewrite aset_own. now apply aset_other.
      + destruct (o (idx i j k)); auto. destruct (up i j k && down i j k); auto. now apply aset_other.
    - split; auto. intros i j k H. rewrite A by auto. cbv beta iota. destruct H as (Hi & Hj & Hk).
      destruct (view m i j k) eqn:E; [tauto|]. cbn [orb]. unfold near. rewrite orb_true_iff, !andb_true_iff.
      assert (L : left i j k = true <-> exists n, 0 <= n <= w / 2 /\ view m (reach dx i (- n)) j k = true).
      { unfold left. rewrite existsb_exists. unfold Proofs_Stripe3d.view. split.
        - intros (x & Hx & Ex). apply in_zrange in Hx. exists (- x). split; [lia|]. rewrite Z.opp_involutive. rewrite <- low_reach by lia. exact Ex.
        - intros (n & Hn & En). exists (- n). rewrite in_zrange. split; [lia|]. rewrite (low_reach dx) by lia. exact En. }
      assert (R : right i j k = true <-> exists n, 0 <= n <= w / 2 /\ view m (reach dx i n) j k = true).
      { unfold right. rewrite existsb_exists. unfold Proofs_Stripe3d.view. split.
        - intros (x & Hx & Ex). apply in_zrange in Hx. exists x. split; [lia|]. rewrite <- high_reach by lia. exact Ex.
        - intros (n & Hn & En). exists n. rewrite in_zrange. split; [lia|]. rewrite high_reach by lia. exact En. }
      assert (U : up i j k = true <-> exists n, 0 <= n <= 2 * w /\ view m i j (reach dz k (- n)) = true).
      { unfold up. rewrite existsb_exists. unfold Proofs_Stripe3d.view. split.
        - intros (x & Hx & Ex). apply in_zrange in Hx. exists (- x). split; [lia|]. rewrite Z.opp_involutive. rewrite <- low_reach by lia. exact Ex.
        - intros (n & Hn & En). exists (- n). rewrite in_zrange. split; [lia|]. rewrite (low_reach dz) by lia. exact En. }
      assert (D : down i j k = true <-> exists n, 0 <= n <= 2 * w /\ view m i j (reach dz k n) = true).
      { unfold down. rewrite existsb_exists. unfold Proofs_Stripe3d.view. split.
        - intros (x & Hx & Ex). apply in_zrange in Hx. exists x. split; [lia|]. rewrite <- high_reach by lia. exact Ex.
        - intros (n & Hn & En). exists n. rewrite in_zrange. split; [lia|]. rewrite high_reach by lia. exact En. }
      rewrite L, R, U, D. intuition discriminate.
  Qed.
End Mask.

Lemma nearb_spec dx dz b w i j k : nearb dx dz b w i j k = true <-> near dx dz b w i j k.
Proof.
  unfold nearb, near. rewrite orb_true_iff, !andb_true_iff, !existsb_exists.
  assert (E : forall f n, (exists x, In x (zrange 0 (n + 1)) /\ f x = true) <-> (exists m, 0 <= m <= n /\ f m = true)).
  { intros f n. split; intros (x & H & F); exists x; rewrite in_zrange in *; split; auto; lia. }
  rewrite !E. reflexivity.
Qed.

Section Expected.
  Variables dx dy dz : Z.
  Notation ins := (inside dx dy dz).
  Notation view := (view dx dy).
  Definition agree {A} (b c : vol A) : Prop := forall i j k, ins i j k -> b i j k = c i j k.

  Lemma vertical_agree b c h : 0 <= h -> 2 * h <= dz -> agree b c -> forall i j k, ins i j k -> vertical_hits dz b h i j k = vertical_hits dz c h i j k.
  Proof.
    intros H0 H E i j k (I1 & I2 & I3). unfold vertical_hits. f_equal. apply count_ext. intros m Hm. apply in_zrange in Hm. apply E.
    split; [auto|]. split; [auto|]. apply reach_in; lia.
  Qed.
  Lemma kept_vertical_agree b c h q : 0 <= h -> 2 * h <= dz -> agree b c -> agree (kept_vertical dz b h q) (kept_vertical dz c h q).
  Proof. intros H0 H E i j k I. unfold kept_vertical. rewrite (vertical_agree b c h) by auto. now rewrite E. Qed.
  Lemma kept_depth_agree b c h q : 0 <= h -> 2 * h <= dy -> agree b c -> agree (kept_depth dy b h q) (kept_depth dy c h q).
  Proof.
    intros H0 H E i j k I. unfold kept_depth. rewrite E by auto. f_equal. f_equal. unfold depth_hits. f_equal. apply count_ext. intros m Hm. apply in_zrange in Hm.
    destruct I as (I1 & I2 & I3). apply E. split; [auto|]. split; [apply reach_in; lia|auto].
  Qed.
  Lemma nearb_agree b c w : 0 <= w -> w <= dx -> 4 * w <= dz -> agree b c -> agree (nearb dx dz b w) (nearb dx dz c w).
  Proof.
    intros H0 H1 H2 E i j k (I1 & I2 & I3).
    assert (X : forall (f g : Z -> bool) l, (forall m, In m l -> f m = g m :> bool) -> existsb f l = existsb g l).
    { intros f g l. induction l as [|a l IH]; intros H; [reflexivity|]. cbn. rewrite H by now left. f_equal. apply IH. intros; apply H; now right. }
    unfold nearb. f_equal; f_equal; apply X; intros m Hm; apply in_zrange in Hm; apply E.
    - split; [apply reach_in; lia|auto].
    - split; [apply reach_in; lia|auto].
    - split; [auto|]. split; [auto|]. apply reach_in; lia.
    - split; [auto|]. split; [auto|]. apply reach_in; lia.
  Qed.
  Lemma agree_trans {A} (a b c : vol A) : agree a b -> agree b c -> agree a c.
  Proof. intros H1 H2 i j k I. rewrite H1 by auto. now apply H2. Qed.

  Lemma merges_view orders w n b : 0 <= w -> w <= dx -> 4 * w <= dz -> (forall m, (m < n)%nat -> Permutation (orders (4 + m)%nat) (voxels dx dy dz)) ->
    forall out, agree (view out) b -> agree (view (merges dx dy dz orders w n out)) (merged dx dz n w b) /\
      (forall x, x < 0 \/ dx * dy * dz <= x -> merges dx dy dz orders w n out x = out x).
  Proof.
    intros H0 H1 H2. induction n as [|n IH]; intros P out E; [split; [exact E|reflexivity]|].
    unfold merges. rewrite seq_S, fold_left_app. cbn [fold_left]. fold (merges dx dy dz orders w n out).
    destruct (IH (fun m Hm => P m ltac:(lia)) out E) as [A B].
    destruct (merge_run dx dy dz (orders (4 + n)%nat) (merges dx dy dz orders w n out) w H0) as [C D]; [apply P; lia|].
    split.
    - intros i j k I. cbn [merged]. apply eq_true_iff_eq. cbn [Nat.add] in *. rewrite C, <- nearb_spec, orb_true_iff by auto. rewrite A by auto.
      rewrite (nearb_agree _ _ w H0 H1 H2 A) by auto. reflexivity.
    - intros x Hx. etransitivity; [apply D, Hx|apply B, Hx].
  Qed.

  Lemma mask_value orders input t len d w s m0 : 0 < len < dz -> 0 <= d < dy -> 0 < w < dx -> 4 * w <= dz ->
    (forall m, (m < 4 + Z.to_nat w)%nat -> Permutation (orders m) (voxels dx dy dz)) ->
    agree (view (mask3d dx dy dz orders input t len d w s m0))
          (merged dx dz (Z.to_nat w) w (survivors dy dz (view input) t len d (allowed s d) (allowed s len))) /\
    (forall x, x < 0 \/ dx * dy * dz <= x -> mask3d dx dy dz orders input t len d w s m0 x = m0 x).
  Proof.
    intros HL HD HW HZ P. unfold mask3d. cbv zeta.
    destruct (below_run dx dy dz (orders 0%nat) input t m0) as [A0 B0]; [apply P; lia|].
    set (b0 := run (orders 0%nat) (below dx dy input t) m0) in *.
    destruct (depth_run dx dy dz (orders 1%nat) b0 len d s) as [A1 B1]; [apply P; lia|].
    set (b1 := run (orders 1%nat) (remove_inconsistent dx dy dz b0 len d s 1) b0) in *.
    destruct (length_run dx dy dz (orders 2%nat) b1 len d s) as [A2 B2]; [apply P; lia|].
    set (b2 := run (orders 2%nat) (remove_inconsistent dx dy dz b1 len d s 0) b1) in *.
    destruct (short_run dx dy dz (orders 3%nat) b2 len) as [A3 B3]; [apply P; lia|].
    set (b3 := run (orders 3%nat) (remove_short dx dy dz b2 len) b2) in *.
    assert (E0 : agree (view b0) (candidates (view input) t)).
    { intros i j k I. rewrite A0 by auto. unfold candidates, rltb. destruct (Rlt_dec t (view input i j k)), (Rle_dec (view input i j k) t); cbn; auto; lra. }
    assert (E1 : agree (view b1) (if d =? 0 then candidates (view input) t else kept_depth dy (candidates (view input) t) (d / 2) (allowed s d))).
    { eapply agree_trans; [exact A1|]. intros i j k I. unfold depth_kept. destruct (d =? 0).
      - cbn [orb]. rewrite andb_true_r. now apply E0.
      - cbn [orb]. change (kept_depth dy (view b0) (d / 2) (allowed s d) i j k = kept_depth dy (candidates (view input) t) (d / 2) (allowed s d) i j k).
        apply kept_depth_agree; auto; lia. }
    assert (E3 : agree (view b3) (survivors dy dz (view input) t len d (allowed s d) (allowed s len))).
    { unfold survivors. cbv zeta. eapply agree_trans; [exact A3|]. apply kept_vertical_agree; try lia. eapply agree_trans; [exact A2|]. apply kept_vertical_agree; try lia. exact E1. }
    destruct (merges_view orders w (Z.to_nat w) (survivors dy dz (view input) t len d (allowed s d) (allowed s len)) ltac:(lia) ltac:(lia) HZ
      (fun m Hm => P (4 + m)%nat ltac:(lia)) b3 E3) as [A4 B4].
    split; [exact A4|]. intros x Hx. etransitivity; [apply B4, Hx|]. etransitivity; [apply B3, Hx|]. etransitivity; [apply B2, Hx|].
    etransitivity; [apply B1, Hx|]. apply B0, Hx.
  Qed.

  (** about merging *)
  Lemma merged_keeps n w b i j k : b i j k = true -> merged dx dz n w b i j k = true.
  Proof. intros H. induction n as [|n IH]; cbn; auto. rewrite IH. reflexivity. Qed.
  Lemma merged_slice n w b i j k : merged dx dz n w b i j k = true -> exists i' k', b i' j k' = true.
  Proof.
    revert i j k. induction n as [|n IH]; cbn; intros i j k H; [eauto|].
    apply orb_true_iff in H as [H|H]; [eauto|]. apply nearb_spec in H. destruct H as [[(m & _ & H) _]|[(m & _ & H) _]]; eauto.
  Qed.
  Lemma merged_slice_in n w b i j k : 0 <= w -> w <= dx -> 4 * w <= dz -> ins i j k -> merged dx dz n w b i j k = true -> exists i' k', ins i' j k' /\ b i' j k' = true.
  Proof.
    intros H0 H1 H2. revert i j k. induction n as [|n IH]; cbn; intros i j k I H; [eauto|].
    apply orb_true_iff in H as [H|H]; [eauto|]. destruct I as (I1 & I2 & I3). apply nearb_spec in H. destruct H as [[(m & Hm & H) _]|[(m & Hm & H) _]]; eapply IH; try exact H.
    - split; [apply reach_in; lia|auto].
    - split; [auto|]. split; [auto|]. apply reach_in; lia.
  Qed.
  Lemma merged_first n w b i j k : near dx dz b w i j k -> merged dx dz (Datatypes.S n) w b i j k = true.
  Proof.
    intros H. apply nearb_spec in H. induction n as [|n IH].
    - cbn. rewrite H. apply orb_true_r.
    - change (merged dx dz (Datatypes.S (Datatypes.S n)) w b i j k) with (merged dx dz (Datatypes.S n) w b i j k || nearb dx dz (merged dx dz (Datatypes.S n) w b) w i j k).
      now rewrite IH.
  Qed.
  Lemma nearb_mono (b c : vol bool) w i j k : (forall i j k, b i j k = true -> c i j k = true) -> nearb dx dz b w i j k = true -> nearb dx dz c w i j k = true.
  Proof. intros H. rewrite !nearb_spec. unfold near. intros [[(m & A & B) (n & C & D)]|[(m & A & B) (n & C & D)]]; [left|right]; split; eauto. Qed.
  Lemma merged_mono n w b c : (forall i j k, b i j k = true -> c i j k = true) -> forall i j k, merged dx dz n w b i j k = true -> merged dx dz n w c i j k = true.
  Proof.
    intros H. induction n as [|n IH]; cbn; auto. intros i j k E. apply orb_true_iff in E as [E|E]; apply orb_true_iff; [left|right]; eauto using nearb_mono.
  Qed.
  Lemma kept_vertical_mono b c h q : (forall i j k, b i j k = true -> c i j k = true) -> forall i j k, kept_vertical dz b h q i j k = true -> kept_vertical dz c h q i j k = true.
  Proof.
    intros H i j k. unfold kept_vertical. rewrite !andb_true_iff. intros [A B]. split; auto.
    assert (vertical_hits dz b h i j k <= vertical_hits dz c h i j k); [|lia]. unfold vertical_hits. apply inj_le, count_mono. auto.
  Qed.
  (** Slice by slice. *)
  Lemma merged_local n w b c j : (forall i k, b i j k = c i j k) -> forall i k, merged dx dz n w b i j k = merged dx dz n w c i j k.
  Proof.
    intros H. induction n as [|n IH]; cbn; auto. intros i k. rewrite IH. f_equal. unfold nearb.
    assert (X : forall (f g : Z -> bool) l, (forall m, f m = g m :> bool) -> existsb f l = existsb g l).
    { intros f g l E. induction l as [|a l IHl]; [reflexivity|]. cbn. now rewrite E, IHl. }
    f_equal; f_equal; apply X; intros m; apply IH.
  Qed.
  Lemma kept_vertical_local b c h q j : (forall i k, b i j k = c i j k) -> forall i k, kept_vertical dz b h q i j k = kept_vertical dz c h q i j k.
  Proof. intros H i k. unfold kept_vertical, vertical_hits. rewrite H. f_equal. f_equal. f_equal. apply count_ext. auto. Qed.
  (** The same within one slice of the volume. *)
  Definition agree_at {A} (j : Z) (b c : vol A) : Prop := forall i k, ins i j k -> b i j k = c i j k.
  Lemma kept_vertical_at j b c h q : 0 <= h -> 2 * h <= dz -> agree_at j b c -> agree_at j (kept_vertical dz b h q) (kept_vertical dz c h q).
  Proof.
    intros H0 H E i k I. unfold kept_vertical, vertical_hits. rewrite (E i k I). f_equal. f_equal. f_equal. apply count_ext. intros m Hm. apply in_zrange in Hm.
    destruct I as (I1 & I2 & I3). apply E. split; [auto|]. split; [auto|]. apply reach_in; lia.
  Qed.
  Lemma merged_at j n w b c : 0 <= w -> w <= dx -> 4 * w <= dz -> agree_at j b c -> agree_at j (merged dx dz n w b) (merged dx dz n w c).
  Proof.
    intros H0 H1 H2 E. induction n as [|n IH]; [exact E|]. intros i k I. cbn [merged]. rewrite (IH i k I). f_equal.
    assert (X : forall (f g : Z -> bool) l, (forall m, In m l -> f m = g m :> bool) -> existsb f l = existsb g l).
    { intros f g l. induction l as [|a l IHl]; intros H; [reflexivity|]. cbn. rewrite H by now left. f_equal. apply IHl. intros; apply H; now right. }
    destruct I as (I1 & I2 & I3). unfold nearb. f_equal; f_equal; apply X; intros m Hm; apply in_zrange in Hm; apply IH.
    - split; [apply reach_in; lia|auto].
    - split; [apply reach_in; lia|auto].
    - split; [auto|]. split; [auto|]. apply reach_in; lia.
    - split; [auto|]. split; [auto|]. apply reach_in; lia.
  Qed.
End Expected.
