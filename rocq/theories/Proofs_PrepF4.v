From Verif Require Import Base Order CLoop Model_Ray Model_RayF Model_SolverF Model_PmlF Model_PrepF Spec_SolverF Spec_GradF Spec_PrepF.
From Verif Require Import Proofs_FloatB Proofs_RayF2 Proofs_RayF3 Proofs_SolverF Proofs_SolverF5 Proofs_SolverF7 Proofs_GradF7 Proofs_PrepF Proofs_PrepF2 Proofs_PrepF3.
From Coq Require Import Reals Lra Psatz.
From Flocq Require Import Core BinarySingleNaN.
Local Open Scope R_scope.
Notation VV := (B2R (prec := 24) (emax := 128)).

Lemma sum_close {X} (f g : X -> R) l e : (forall x, In x l -> Rabs (f x - g x) <= e) -> Rabs (sumR (map f l) - sumR (map g l)) <= INR (length l) * e.
Proof.
  induction l as [|x l IH]; intros H; [cbn; rewrite Rminus_0_r, Rabs_R0; lra|]. cbn [map sumR fold_right]. fold (sumR (map f l)). fold (sumR (map g l)). change (length (x :: l)) with (S (length l)). rewrite S_INR.
  pose proof (abs_inv _ _ (H x (or_introl eq_refl))). pose proof (abs_inv _ _ (IH (fun y Hy => H y (or_intror Hy)))). apply Rabs_le. lra.
Qed.
Lemma len_pos {X} (l : list X) : l <> [] -> 0 < INR (length l). Proof. intros N. apply lt_0_INR. destruct l; [easy|cbn; lia]. Qed.
Lemma over_len (x N e : R) : 0 < N -> Rabs x <= N * e -> Rabs (x / N) <= e.
Proof. intros P H. unfold Rdiv. rewrite Rabs_mult, (Rabs_pos_eq (/ N)) by (left; apply Rinv_0_lt_compat; lra). apply Rmult_le_reg_r with N; [lra|]. rewrite Rmult_assoc, Rinv_l by lra. lra. Qed.
Lemma mean_diff {X} (f g : X -> R) l e : l <> [] -> (forall x, In x l -> Rabs (f x - g x) <= e) -> Rabs (meanR (map f l) - meanR (map g l)) <= e.
Proof.
  intros N H. pose proof (sum_close f g l e H) as S. unfold meanR. rewrite !map_length. pose proof (len_pos l N) as P. replace (sumR (map f l) / INR (length l) - sumR (map g l) / INR (length l)) with ((sumR (map f l) - sumR (map g l)) / INR (length l)) by (field; lra). now apply over_len.
Qed.
Lemma mean_abs (l : list R) M : l <> [] -> (forall x, In x l -> Rabs x <= M) -> Rabs (meanR l) <= M.
Proof. intros N H. apply over_len; [now apply len_pos|]. now apply sum_abs. Qed.
Lemma hi_big : hi60 = 1152921504606846976. Proof. reflexivity. Qed.

(** The average of a column: quotients first, then their sum *)
Lemma average_close (l : list b32) M : l <> [] -> (Z.of_nat (length l) <= 1000000)%Z -> (forall x, In x l -> fin x = true /\ Rabs (V x) <= M) -> lo60 <= M <= hi60 ->
  let a := sumF (map (fun x => fdiv x (of_int (Z.of_nat (length l)))) l) in fin a = true /\ Rabs (V a - meanR (map VV l)) <= (3 * INR (length l) + 9) * (unit_ * M).
Proof.
  intros N Hl H HM. cbv zeta. set (q := fun x => fdiv x (of_int (Z.of_nat (length l)))). set (k := INR (length l)). assert (Hk : 1 <= k <= 1000000).
  { unfold k. rewrite INR_IZR_INZ. destruct l; [easy|]. cbn [length] in *. split; apply IZR_le; lia. }
  assert (Et := eta_lo M (proj1 HM)). set (w := unit_ * M) in *. assert (W : w = / 16777216 * M) by reflexivity. assert (M0 : 0 < M) by (unfold lo60 in HM; lra). assert (W0 : 0 < w) by lra. pose proof hi_big as HB.
  destruct (of_int_ok (Z.of_nat (length l)) ltac:(lia)) as (Fn & En). rewrite <- INR_IZR_INZ in En. fold k in En. assert (Ik : 0 < / k <= 1) by (split; [apply Rinv_0_lt_compat; lra|rewrite <- Rinv_1; apply Rinv_le_contravar; lra]).
  assert (Mk : 0 < M * / k <= M) by (split; [apply Rmult_lt_0_compat; lra|nra]). assert (Q : forall x, In x l -> fin (q x) = true /\ Rabs (V (q x) - V x / k) <= / 16777216 * (M * / k) + eta /\ Rabs (V (q x)) <= 101 / 100 * (M * / k) + eta).
  { intros x Hx. destruct (H x Hx) as (Fx & Bx). assert (B : Rabs (V x / k) <= M * / k). { unfold Rdiv. rewrite Rabs_mult, (Rabs_pos_eq (/ k)) by lra. apply Rmult_le_compat_r; lra. }
    destruct (fdiv_ok x (of_int (Z.of_nat (length l))) (bpow radix2 60) Fx) as (Fq & Eq); [rewrite En; lra|apply rep_bpow; lia|rewrite En, <- hi_bpow; lra|apply bpow_lt; lia|]. rewrite En in Eq. fold (q x) in Fq, Eq. split; [exact Fq|]. rewrite Eq.
    pose proof (rd_close (V x / k) (M * / k) (/ 16777216 * (M * / k) + eta) B (Rle_refl _)) as R. split; [apply Rabs_le; lra|]. eapply Rle_trans; [apply (abs_shift _ _ _ _ B R)|]. lra. }
  set (T := 101 / 100 * (M * / k) + eta) in *. assert (KT : k * T <= 102 / 100 * M). { unfold T. replace (k * (101 / 100 * (M * / k) + eta)) with (101 / 100 * M + k * eta) by (field; lra). assert (k * eta <= 1000000 * (/ 1000000 * w)) by (apply Rmult_le_compat; lra). lra. }
  set (t := map q l). assert (Lt : length t = length l) by apply map_length. assert (Ft : forall y, In y t -> fin y = true /\ Rabs (V y) <= T). { intros y Hy. unfold t in Hy. apply in_map_iff in Hy. destruct Hy as (x & <- & Hx). destruct (Q x Hx) as (A & _ & B). auto. }
  pose proof (abs_sum t T (fun y Hy => proj2 (Ft y Hy))) as Ha. rewrite Lt in Ha. fold k in Ha. set (L := map (fun x => (x, of_int 1)) t) in *. pose proof (absR_pos L) as Pa.
  assert (C : cap = bpow radix2 60 * bpow radix2 60) by (unfold cap; rewrite <- bpow_plus; reflexivity). rewrite <- hi_bpow in C.
  destruct (dot_error zeroF L eq_refl) as (Fs & Es).
  { intros x v Hin. unfold L in Hin. apply in_map_iff in Hin. destruct Hin as (y & E & Hy). injection E as <- <-. split; [apply Ft; auto|apply one_ok]. }
  { unfold L. rewrite map_length, Lt. exact Hl. }
  { change (V zeroF) with 0. rewrite Rabs_R0, C. assert (hi60 * 2 <= hi60 * hi60) by (apply Rmult_le_compat_l; lra). lra. }
  assert (SD : sumF t = dotF zeroF L) by (apply sum_dot; intros y Hy; apply Ft; auto). assert (DS : dotR L = sumR (map VV t)) by apply dot_sum. rewrite <- SD in Fs, Es. rewrite DS in Es. change (V zeroF) with 0 in Es. rewrite Rabs_R0, !Rplus_0_l in Es. unfold L in Es at 1 3. rewrite map_length, Lt in Es. fold k in Es.
  split; [exact Fs|]. assert (D : Rabs (sumR (map VV t) - meanR (map VV l)) <= 2 * w).
  { assert (ME : meanR (map VV l) = sumR (map (fun x => V x / k) l)).
    { unfold meanR. rewrite map_length. fold k. clear. generalize l. intros l0. induction l0 as [|x l0 IH]; cbn [map sumR fold_right]; [unfold Rdiv; ring|]. fold (sumR (map VV l0)). fold (sumR (map (fun x => V x / k) l0)). rewrite <- IH. unfold Rdiv. ring. }
    rewrite ME. unfold t. rewrite map_map. eapply Rle_trans; [apply (sum_close (fun x => V (q x)) (fun x => V x / k) l (/ 16777216 * (M * / k) + eta)); intros x Hx; apply (Q x Hx)|]. fold k. replace (k * (/ 16777216 * (M * / k) + eta)) with (w + k * eta) by (rewrite W; field; lra). assert (k * eta <= 1000000 * (/ 1000000 * w)) by (apply Rmult_le_compat; lra). lra. }
  apply abs_inv in Es, D. assert (A1 : / 8388608 * (k + 1) * absR L <= (2 * k + 2) * (102 / 100 * w)).
  { rewrite W. apply Rle_trans with (/ 8388608 * (k + 1) * (102 / 100 * M)); [apply Rmult_le_compat_l; lra|]. lra. }
  assert (A2 : 4 * k * eta <= 4 * w). { assert (k * eta <= 1000000 * (/ 1000000 * w)) by (apply Rmult_le_compat; lra). lra. }
  assert (A3 : 0 <= k * w) by (apply Rmult_le_pos; lra). fold t. apply Rabs_le. lra.
Qed.

Section SfClose.
  Variables (dx dy dz size : Z) (data : arr b32) (s : Z) (M : R).
  Hypothesis Hx : (1 <= dx <= 1000000)%Z.
  Hypothesis Hz : (1 <= dz)%Z.
  Hypothesis Hw : (1 <= size <= 1000000)%Z.
  Hypothesis HM : lo60 <= M <= hi60.
  Notation cell p j := (j + s * dz + p * dy * dz)%Z.
  Hypothesis Data : forall p j, (0 <= p < dx)%Z -> (0 <= j < dz)%Z -> fin (data (cell p j)) = true /\ Rabs (V (data (cell p j))) <= M.
  Definition avgR (j : Z) : R := meanR (map (fun p => V (data (cell p j))) (zrange 0 dx)).
  Definition smoothR (i : Z) : R := meanR (map (fun q => avgR (edge dz (i + q - size / 2))) (zrange 0 size)).
  Let w := unit_ * M.
  Let N := IZR dx.
  Let K := IZR size.
  Lemma sizes : 1 <= N <= 1000000 /\ 1 <= K <= 1000000 /\ 0 < M /\ w = / 16777216 * M /\ 0 < w /\ 0 <= eta <= / 1000000 * w.
  Proof. pose proof (eta_lo M (proj1 HM)). unfold N, K, w, unit_, lo60 in *. repeat split; try (apply IZR_le; lia); lra. Qed.
  Lemma avg_ok j : (0 <= j < dz)%Z -> fin (sf_avg dx dy dz data s j) = true /\ Rabs (V (sf_avg dx dy dz data s j) - avgR j) <= (3 * N + 9) * w /\ Rabs (avgR j) <= M.
  Proof using Hx Hz HM Data.
    clear Hw. intros Hj. set (l := map (fun p => data (cell p j)) (zrange 0 dx)). assert (Ll : length l = Z.to_nat dx) by (unfold l; rewrite map_length, zrange_length; f_equal; lia). assert (NE : l <> []) by (intros Q; rewrite Q in Ll; cbn in Ll; lia).
    assert (A : forall x, In x l -> fin x = true /\ Rabs (V x) <= M) by (intros x Hin; unfold l in Hin; apply in_map_iff in Hin; destruct Hin as (p & <- & Hp); apply in_zrange in Hp; apply Data; auto).
    destruct (average_close l M NE ltac:(rewrite Ll; lia) A HM) as (F & E). rewrite Ll, Z2Nat.id in F, E by lia. rewrite INR_IZR_INZ, Z2Nat.id in E by lia. fold N w in E. unfold l in F, E. rewrite !map_map in E. rewrite map_map in F. change (fin (sf_avg dx dy dz data s j) = true) in F. change (Rabs (V (sf_avg dx dy dz data s j) - avgR j) <= (3 * N + 9) * w) in E. split; [exact F|]. split; [exact E|].
    unfold avgR. apply mean_abs; [now rewrite zrange_cons by lia|]. intros x Hin. apply in_map_iff in Hin. destruct Hin as (p & <- & Hp). apply in_zrange in Hp. apply Data; auto.
  Qed.
  Lemma edge_in i : (0 <= edge dz i < dz)%Z. Proof. unfold edge. lia. Qed.
  Lemma smooth_ok i : fin (sf_smooth dz size (sf_avg dx dy dz data s) i) = true /\ Rabs (V (sf_smooth dz size (sf_avg dx dy dz data s) i) - smoothR i) <= (3 * N + 2.4 * K + 14) * w /\ Rabs (smoothR i) <= M.
  Proof.
    destruct sizes as (HN & HK & M0 & W & W0 & Et). set (l := map (fun q => sf_avg dx dy dz data s (edge dz (i + q - size / 2))) (zrange 0 size)). assert (Ll : length l = Z.to_nat size) by (unfold l; rewrite map_length, zrange_length; f_equal; lia). assert (NE : l <> []) by (intros Q; rewrite Q in Ll; cbn in Ll; lia).
    assert (B12 : (3 * N + 9) * w <= 1 / 5 * M) by (rewrite W; nra).
    assert (A : forall x, In x l -> fin x = true /\ Rabs (V x) <= 1.2 * M).
    { intros x Hin. unfold l in Hin. apply in_map_iff in Hin. destruct Hin as (q & <- & Hq). destruct (avg_ok _ (edge_in (i + q - size / 2))) as (F & E & B). split; auto. apply abs_inv in E, B. apply Rabs_le. lra. }
    pose proof hi_big as HB. destruct (mean_close l (1.2 * M) NE ltac:(rewrite Ll; lia) A ltac:(lra)) as (F & E). rewrite Ll, Z2Nat.id in F, E by lia. rewrite INR_IZR_INZ, Z2Nat.id in E by lia. fold K in E. unfold l in F, E. rewrite map_map in E.
    change (fin (sf_smooth dz size (sf_avg dx dy dz data s) i) = true) in F. split; [exact F|].
    assert (NZ : zrange 0 size <> []) by now rewrite zrange_cons by lia.
    pose proof (mean_diff (fun q => V (sf_avg dx dy dz data s (edge dz (i + q - size / 2)))) (fun q => avgR (edge dz (i + q - size / 2))) (zrange 0 size) ((3 * N + 9) * w) NZ ltac:(intros q _; apply (avg_ok _ (edge_in _)))) as D. fold (smoothR i) in D.
    assert (X : (2 * K + 4) * (unit_ * (1.2 * M)) = (2.4 * K + 4.8) * w) by (unfold w; lra). rewrite X in E. split.
    - change (Rabs (V (sf_smooth dz size (sf_avg dx dy dz data s) i) - meanR (map (fun q => V (sf_avg dx dy dz data s (edge dz (i + q - size / 2)))) (zrange 0 size))) <= (2.4 * K + 4.8) * w) in E. apply abs_inv in E, D. apply Rabs_le. lra.
    - apply mean_abs; [now rewrite zrange_cons by lia|]. intros x Hin. apply in_map_iff in Hin. destruct Hin as (q & <- & Hq). apply (avg_ok _ (edge_in _)).
  Qed.
  Theorem sf_close p j : (0 <= p < dx)%Z -> (0 <= j < dz)%Z -> let x := data (cell p j) in let o := fsub x (fsub (sf_avg dx dy dz data s j) (sf_smooth dz size (sf_avg dx dy dz data s) j)) in
    fin o = true /\ Rabs (V o - (V x - (avgR j - smoothR j))) <= (6 * N + 3 * K + 30) * w.
  Proof.
    intros Hp Hj. cbv zeta. destruct sizes as (HN & HK & M0 & W & W0 & Et). destruct (avg_ok j Hj) as (Fa & Ea & Ba). destruct (smooth_ok j) as (Fm & Em & Bm). destruct (Data p j Hp Hj) as (Fx & Bx). set (a := sf_avg _ _ _ _ _ j) in *. set (m := sf_smooth _ _ _ j) in *. set (x := data _) in *.
    assert (B1 : (3 * N + 9) * w <= 1 / 5 * M) by (rewrite W; nra). assert (B2 : (3 * N + 2.4 * K + 14) * w <= 2 / 5 * M) by (rewrite W; nra). apply abs_inv in Ea, Ba, Em, Bm, Bx. pose proof hi_big as HB.
    assert (HB3 : 8 * hi60 = bpow radix2 63) by (rewrite hi_bpow; change 8 with (bpow radix2 3); rewrite <- bpow_plus; reflexivity).
    assert (R1 : Rabs (V a - V m) <= 2.6 * M) by (apply Rabs_le; lra). destruct (fsub_ok a m (bpow radix2 63) Fa Fm) as (Fd & Ed); [apply rep_bpow; lia|lra|apply bpow_lt; lia|]. pose proof (rd_close _ _ (2.7 * w) R1 ltac:(lra)) as R2. rewrite <- Ed in R2. set (d := fsub a m) in *.
    assert (R3 : Rabs (V x - V d) <= 3.7 * M) by (apply abs_inv in R1; apply Rabs_le; lra). destruct (fsub_ok x d (bpow radix2 63) Fx Fd) as (Fo & Eo); [apply rep_bpow; lia|lra|apply bpow_lt; lia|]. pose proof (rd_close _ _ (3.8 * w) R3 ltac:(lra)) as R4. rewrite <- Eo in R4. split; [exact Fo|].
    assert (0 <= K * w) by (apply Rmult_le_pos; lra). apply Rabs_le. lra.
  Qed.
End SfClose.

(** A window of one pixel *)
Theorem sf_one dx dy dz data s M p j : (1 <= dx <= 1000000)%Z -> (1 <= dz)%Z -> lo60 <= M <= hi60 ->
  (forall p j, (0 <= p < dx)%Z -> (0 <= j < dz)%Z -> fin (data (j + s * dz + p * dy * dz)%Z) = true /\ Rabs (V (data (j + s * dz + p * dy * dz)%Z)) <= M) -> (0 <= p < dx)%Z -> (0 <= j < dz)%Z ->
  let x := data (j + s * dz + p * dy * dz)%Z in let o := fsub x (fsub (sf_avg dx dy dz data s j) (sf_smooth dz 1 (sf_avg dx dy dz data s) j)) in fin o = true /\ V o = V x.
Proof.
  intros Hx Hz HM Data Hp Hj. cbv zeta. destruct (avg_ok dx dy dz data s M Hx Hz HM Data j Hj) as (Fa & Ea & _). destruct (Data p j Hp Hj) as (Fx & Bx). set (a := sf_avg _ _ _ _ _ j) in *. set (x := data _) in *. destruct one_ok as (F1 & E1).
  assert (Sm : sf_smooth dz 1 (sf_avg dx dy dz data s) j = fdiv (fadd zeroF a) (of_int 1)).
  { unfold sf_smooth. change (zrange 0 1) with [0%Z]. cbn [map]. unfold sumF. cbn [fold_left]. replace (edge dz (j + 0 - 1 / 2)) with j by (change (1 / 2)%Z with 0%Z; unfold edge; lia). reflexivity. }
  assert (Ra : rep (Rabs (V a))) by (apply generic_format_abs, rep_V). assert (Ha : Rabs (V a) < huge) by now apply V_huge.
  destruct (fadd_ok zeroF a _ eq_refl Fa Ra) as (Fz & Ez); [change (V zeroF) with 0; rewrite Rplus_0_l; lra|exact Ha|]. change (V zeroF) with 0 in Ez. rewrite Rplus_0_l, rd_rep in Ez by apply rep_V.
  destruct (fdiv_ok (fadd zeroF a) (of_int 1) (Rabs (V a)) Fz) as (Fq & Eq); [rewrite E1; lra|exact Ra|rewrite Ez, E1; unfold Rdiv; rewrite Rinv_1, Rmult_1_r; lra|exact Ha|]. rewrite Ez, E1 in Eq. unfold Rdiv in Eq. rewrite Rinv_1, Rmult_1_r, rd_rep in Eq by apply rep_V.
  rewrite Sm. destruct (fsub_ok a (fdiv (fadd zeroF a) (of_int 1)) _ Fa Fq Ra) as (Fd & Ed); [rewrite Eq, Rminus_eq_0, Rabs_R0; apply Rabs_pos|exact Ha|]. rewrite Eq, Rminus_eq_0, rd_0 in Ed.
  destruct (fsub_ok x _ (Rabs (V x)) Fx Fd) as (Fo & Eo); [apply generic_format_abs, rep_V|rewrite Ed, Rminus_0_r; lra|now apply V_huge|]. split; [exact Fo|]. rewrite Eo, Ed, Rminus_0_r. apply rd_rep, rep_V.
Qed.
(** A window of no pixel, no air, one column *)
Lemma nan_div (x y : b32) : is_nan y = true -> is_nan (fdiv x y) = true. Proof. destruct y; try discriminate. destruct x; reflexivity. Qed.
Theorem sf_none dz avg x i : is_nan (fsub x (fsub (avg i) (sf_smooth dz 0 avg i))) = true.
Proof. apply nan_sub_r, nan_sub_r. reflexivity. Qed.
Theorem bg_none dz data i j : is_nan (bg_pixel dz 0 data i j) = true.
Proof. unfold bg_pixel. apply nan_div, nan_add_l. reflexivity. Qed.
Theorem bg_one data i j : is_nan (bg_pixel 1 1 data i j) = true.
Proof.
  unfold bg_pixel. cbv zeta. change (zrange 0 1) with [0%Z]. cbn [map]. replace (i + 1 - 1 - 0)%Z with (i + 0)%Z by lia. set (l := air_level 1 (sumF [data (i + 0)%Z])). apply nan_div, nan_add_r, nan_mul_l. destruct (sub_self l) as [Q|Q].
  - destruct (fsub l l); now cbn in Q.
  - destruct (fsub l l); try discriminate. reflexivity.
Qed.
