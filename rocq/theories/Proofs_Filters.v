From Verif Require Import Base CLoop Cplx Model_Prep Model_Solver Model_Gridrec Spec_Gridrec Proofs_Gridrec Proofs_Gridimg Proofs_Poly.
From Coq Require Import Reals Lra QArith Qreals Psatz.
Local Open Scope R_scope.

(** ** the window table *)
Lemma unit_of i : (0 <= i <= 512)%Z -> 0 <= IZR i / 512 <= 1.
Proof. intros [H1 H2]. apply IZR_le in H1. apply IZR_le in H2. lra. Qed.
Lemma window_pos i : (0 <= i <= 512)%Z -> 0 < window_sum (IZR i / 512).
Proof. intros H. pose proof (unit_of i H). pose proof (window_sum_pos (IZR i / 512) ltac:(lra)). lra. Qed.
Lemma window_falls i k : (0 <= i < k)%Z -> (k <= 512)%Z -> window_sum (IZR k / 512) < window_sum (IZR i / 512).
Proof.
  intros H Hk. pose proof (unit_of i ltac:(lia)). pose proof (unit_of k ltac:(lia)). apply window_sum_falls; [|lra].
  split; [lra|]. apply Rmult_lt_compat_r; [lra|]. apply IZR_lt. lia.
Qed.
Lemma wtbl_eq i : (0 <= i <= 512)%Z -> wtbl i = window_sum (IZR i / 512) / window_sum 0.
Proof.
  intros H. pose proof (window_pos 0 ltac:(lia)) as P. replace (IZR 0 / 512) with 0 in P by lra. unfold wtbl. destruct (Z.eqb_spec i 0) as [->|N].
  - replace (IZR 0 / 512) with 0 by lra. field. lra.
  - now rewrite !window_legendre.
Qed.
Lemma wtbl_pos i : (0 <= i <= 512)%Z -> 0 < wtbl i.
Proof.
  intros H. rewrite wtbl_eq by auto. pose proof (window_pos 0 ltac:(lia)) as P. replace (IZR 0 / 512) with 0 in P by lra.
  apply Rdiv_lt_0_compat; [now apply window_pos|auto].
Qed.
Lemma wtbl_falls i k : (0 <= i < k)%Z -> (k <= 512)%Z -> wtbl k < wtbl i.
Proof.
  intros H Hk. rewrite !wtbl_eq by lia. pose proof (window_pos 0 ltac:(lia)) as P. replace (IZR 0 / 512) with 0 in P by lra.
  apply Rmult_lt_compat_r; [now apply Rinv_0_lt_compat|]. now apply window_falls.
Qed.
Lemma wtbl_0 : wtbl 0 = 1. Proof. reflexivity. Qed.
(** half way out the window is below 0.438 *)
Lemma wtbl_256 : wtbl 256 < 438 / 1000.
Proof.
  rewrite wtbl_eq, <- !window_legendre by lia.
  replace (IZR 256 / 512) with (Q2R (1 # 2)) by (unfold Q2R; cbn; lra). replace 0 with (Q2R 0) by (unfold Q2R; cbn; lra). rewrite <- !qlegendre_spec.
  assert (H : Q2R (qlegendre (1 # 2)) < Q2R (qlegendre 0 * (438 # 1000))) by (apply Qlt_Rlt; vm_compute; reflexivity).
  rewrite Q2R_mult in H. replace (Q2R (438 # 1000)) with (438 / 1000) in H by (unfold Q2R; cbn; lra).
  assert (P : 0 < Q2R (qlegendre 0)).
  { rewrite qlegendre_spec, window_legendre. apply Rlt_le_trans with (9 / 10); [lra|]. apply window_sum_pos. unfold Q2R; cbn; lra. }
  apply Rmult_lt_reg_r with (Q2R (qlegendre 0)); [auto|]. unfold Rdiv at 1. rewrite Rmult_assoc, Rinv_l by lra. lra.
Qed.
Lemma winv_norm_pos : 0 < winv_norm.
Proof.
  unfold winv_norm, big_c, lambda. apply Rdiv_lt_0_compat; [|lra]. apply sqrt_lt_R0. pose proof PI_RGT_0. repeat apply Rdiv_lt_0_compat; lra.
Qed.

(** ** sin x / x falls *)
Lemma sin_chord x y : 0 < x < y -> y <= PI -> sin y * x <= sin x * y.
Proof.
  intros H Hy.
  destruct (MVT_cor2 sin cos 0 x ltac:(lra)) as (c1 & E1 & B1); [intros; apply derivable_pt_lim_sin|].
  destruct (MVT_cor2 sin cos x y ltac:(lra)) as (c2 & E2 & B2); [intros; apply derivable_pt_lim_sin|].
  rewrite sin_0 in E1. assert (C : cos c2 <= cos c1) by (apply cos_decr_1; lra).
  assert (sin x = cos c1 * x) by lra. assert (sin y = cos c1 * x + cos c2 * (y - x)) by lra. rewrite H1, H0.
  assert (cos c2 * (y - x) <= cos c1 * (y - x)) by (apply Rmult_le_compat_r; lra). nra.
Qed.
Lemma sin_le x : 0 <= x -> sin x <= x.
Proof. intros H. destruct (Req_dec x 0) as [->|N]; [rewrite sin_0; lra|]. apply Rlt_le, sin_lt_x. lra. Qed.

(** ** a sample at a grid point *)
Lemma nearest_int k : nearest (IZR k) = k.
Proof.
  unfold nearest. pose proof (int_part_le (IZR k + 1 / 2)). pose proof (int_part_gt (IZR k + 1 / 2)).
  assert (k <= Int_part (IZR k + 1 / 2))%Z by (apply int_part_glb; lra). assert (Int_part (IZR k + 1 / 2) < k + 1)%Z by (apply lt_IZR; rewrite plus_IZR; lra). lia.
Qed.
Lemma weight_int n w u i : weight n w (IZR u) i = if (1 <=? i)%Z && (i <? n)%Z && (Z.abs (u - i) <=? 2)%Z then w (256 * Z.abs (u - i))%Z else 0.
Proof.
  unfold weight. rewrite <- minus_IZR, <- abs_IZR, <- mult_IZR, nearest_int, Z.mul_comm. destruct ((1 <=? i)%Z && (i <? n)%Z); cbn [andb]; [|reflexivity].
  destruct (Rle_dec (IZR (Z.abs (u - i))) 2) as [L|L], (Z.leb_spec (Z.abs (u - i)) 2); auto.
  - apply le_IZR in L. lia.
  - destruct L. now apply IZR_le.
Qed.
Lemma re_csum n f : re (csum n f) = psum n (fun i => re (f i)).
Proof. unfold csum, psum. induction (zrange 0 n) as [|a l IH]; cbn [map fold_right]; [reflexivity|]. rewrite <- IH. reflexivity. Qed.
Lemma im_csum n f : im (csum n f) = psum n (fun i => im (f i)).
Proof. unfold csum, psum. induction (zrange 0 n) as [|a l IH]; cbn [map fold_right]; [reflexivity|]. rewrite <- IH. reflexivity. Qed.
Lemma re_cr x z : re (cr x * z)%C = x * re z. Proof. unfold cmul, cr, re. cbn. ring. Qed.
Lemma im_cr x z : im (cr x * z)%C = x * im z. Proof. unfold cmul, cr, im, re. cbn. ring. Qed.
Lemma turn16 k q : re (turn 16 (k + 16 * q)) = cos (2 * PI * IZR k / 16).
Proof. rewrite turn_period by lia. reflexivity. Qed.
Lemma wave_origin : re (wave 16 wtbl 8 0) > 0 /\ im (wave 16 wtbl 8 0) = 0.
Proof.
  unfold wave. rewrite re_csum, im_csum. unfold psum. change (zrange 0 16) with [0; 1; 2; 3; 4; 5; 6; 7; 8; 9; 10; 11; 12; 13; 14; 15]%Z. cbn [map fold_right].
  rewrite !re_cr, !im_cr. cbn [Z.mul Z.opp]. rewrite turn_0. unfold cr at 1. rewrite !(weight_int 16 wtbl 8). cbn [Z.leb Z.ltb Z.compare Pos.compare Pos.compare_cont andb Z.sub Z.add Z.opp Z.pos_sub Pos.pred_double Z.abs Z.succ_double Z.pred_double Z.double Pos.add Pos.add_carry Pos.succ Z.mul Pos.mul].
  unfold cr, re, im. cbn [fst snd]. pose proof (wtbl_pos 512 ltac:(lia)). pose proof (wtbl_pos 256 ltac:(lia)). pose proof (wtbl_pos 0 ltac:(lia)). split; [|ring]. lra.
Qed.
Lemma cos_small : 86 / 100 < cos (PI / 8).
Proof.
  pose proof PI_RGT_0. apply Rlt_trans with (cos (PI / 6)); [|apply cos_decreasing_1; lra]. rewrite cos_PI6.
  assert (173 / 100 < sqrt 3); [|lra]. rewrite <- (sqrt_Rsqr (173 / 100)) by lra. apply sqrt_lt_1; unfold Rsqr; lra.
Qed.
Lemma wave_edge : re (wave 16 wtbl 9 7) > 0.
Proof.
  unfold wave. rewrite re_csum. unfold psum. change (zrange 0 16) with [0; 1; 2; 3; 4; 5; 6; 7; 8; 9; 10; 11; 12; 13; 14; 15]%Z. cbn [map fold_right].
  change (- (7 * 7))%Z with (-1 + 16 * -3)%Z. change (- (7 * 8))%Z with (8 + 16 * -4)%Z. change (- (7 * 9))%Z with (1 + 16 * -4)%Z.
  change (- (7 * 10))%Z with (-6 + 16 * -4)%Z. change (- (7 * 11))%Z with (3 + 16 * -5)%Z. rewrite !re_cr, !turn16.
  rewrite !(weight_int 16 wtbl 9). cbn [Z.leb Z.ltb Z.compare Pos.compare Pos.compare_cont andb Z.sub Z.add Z.opp Z.pos_sub Pos.pred_double Z.abs Z.succ_double Z.pred_double Z.double Pos.add Pos.succ Z.mul Pos.mul].
  rewrite !Rmult_0_l.
  replace (2 * PI * -1 / 16) with (- (PI / 8)) by field. replace (2 * PI * 8 / 16) with PI by field. replace (2 * PI * 1 / 16) with (PI / 8) by field.
  replace (2 * PI * -6 / 16) with (- (3 * (PI / 4))) by field. rewrite !cos_neg, cos_PI, cos_3PI4.
  pose proof cos_small. pose proof PI_RGT_0. assert (0 <= cos (2 * PI * 3 / 16)) by (apply cos_ge_0; lra).
  pose proof (wtbl_pos 512 ltac:(lia)). pose proof (wtbl_pos 256 ltac:(lia)). pose proof wtbl_256. rewrite wtbl_0.
  assert (S2 : / sqrt 2 < 71 / 100).
  { assert (141 / 100 < sqrt 2) by (rewrite <- (sqrt_Rsqr (141 / 100)) by lra; apply sqrt_lt_1; unfold Rsqr; lra).
    apply Rmult_lt_reg_r with (sqrt 2); [lra|]. rewrite Rinv_l by lra. lra. }
  assert (0 <= wtbl 512 * cos (2 * PI * 3 / 16)) by (apply Rmult_le_pos; lra).
  assert (0 <= wtbl 512 * cos (PI / 8)) by (apply Rmult_le_pos; lra).
  assert (wtbl 256 * / sqrt 2 < 438 / 1000 * (71 / 100)).
  { assert (0 < / sqrt 2) by (apply Rinv_0_lt_compat, sqrt_lt_R0; lra). apply Rmult_gt_0_lt_compat; lra. }
  replace (-1 / sqrt 2) with (- / sqrt 2) by (unfold Rdiv; ring). lra.
Qed.
