From Verif Require Import Base Order CLoop Model_Ray Model_RayF Model_SolverF Model_PmlF Model_PrepF Spec_SolverF Spec_PrepF.
From Verif Require Import Proofs_FloatB Proofs_RayF2 Proofs_RayF3 Proofs_SolverF Proofs_SolverF5 Proofs_SolverF7 Proofs_PrepF.
From Coq Require Import Reals Lra Psatz.
From Flocq Require Import Core BinarySingleNaN.
Local Open Scope R_scope.

Lemma fdiv_ok x y k : fin x = true -> V y <> 0 -> rep k -> Rabs (V x / V y) <= k -> k < huge -> fin (fdiv x y) = true /\ V (fdiv x y) = rd (V x / V y).
Proof.
  intros Fx Ny Rk H L. pose proof (Bdiv_correct 24 128 p32 e32 mode_NE x y Ny) as C. fold (fdiv x y) in C.
  change (round radix2 (SpecFloat.fexp 24 128) (round_mode mode_NE) (V x / V y)) with (rd (V x / V y)) in C.
  rewrite (small_bool _ k Rk H L) in C. destruct C as (C1 & C2 & _). split; auto. unfold fin in *. now rewrite C2, Fx.
Qed.
Lemma one_ok : fin (of_int 1) = true /\ V (of_int 1) = 1. Proof. apply of_int_ok. lia. Qed.
Lemma V_huge x : fin x = true -> Rabs (V x) < huge. Proof. intros _. apply abs_B2R_lt_emax. Qed.
Lemma fmul_one x : fin x = true -> fmul x (of_int 1) = x.
Proof.
  intros F. destruct one_ok as (F1 & E1). destruct (fmul_ok x (of_int 1) (Rabs (V x)) F F1) as (Fm & Em).
  - apply generic_format_abs, rep_V.
  - rewrite E1, Rmult_1_r. lra.
  - now apply V_huge.
  - rewrite E1, Rmult_1_r, rd_rep in Em by apply rep_V. pose proof (Bmult_correct 24 128 p32 e32 mode_NE x (of_int 1)) as C. fold (fmul x (of_int 1)) in C.
    change (round radix2 (SpecFloat.fexp 24 128) (round_mode mode_NE) (V x * V (of_int 1))) with (rd (V x * V (of_int 1))) in C. rewrite E1, Rmult_1_r, (rd_rep (V x)) in C by apply rep_V.
    rewrite Rlt_bool_true in C by now apply V_huge. destruct C as (_ & _ & C). apply B2R_Bsign_inj; auto.
    rewrite C.
    + change (Bsign (of_int 1)) with false. now rewrite Bool.xorb_false_r.
    + destruct (fmul x (of_int 1)); auto; discriminate.
Qed.
Lemma sum_dot l : (forall x, In x l -> fin x = true) -> sumF l = dotF zeroF (map (fun x => (x, of_int 1)) l).
Proof.
  intros H. unfold sumF, dotF. change (B754_zero false) with zeroF. generalize zeroF. induction l as [|x l IH]; intros a; cbn [map fold_left]; [reflexivity|]. rewrite (fmul_one x) by (apply H; now left). apply IH. intros y Hy. apply H. now right.
Qed.
Lemma dot_sum l : dotR (map (fun x => (x, of_int 1)) l) = sumR (map (B2R (prec := 24) (emax := 128)) l).
Proof. induction l as [|x l IH]; cbn [map dotR sumR fold_right]; [reflexivity|]. fold (sumR (map (B2R (prec := 24) (emax := 128)) l)). rewrite IH, (proj2 one_ok). ring. Qed.
Lemma abs_sum l M : (forall x, In x l -> Rabs (V x) <= M) -> absR (map (fun x => (x, of_int 1)) l) <= INR (length l) * M.
Proof.
  induction l as [|x l IH]; intros H; [cbn; lra|]. cbn [map absR]. rewrite (proj2 one_ok), Rmult_1_r. change (length (x :: l)) with (S (length l)). rewrite S_INR. pose proof (H x (or_introl eq_refl)). specialize (IH (fun y Hy => H y (or_intror Hy))). lra.
Qed.
Lemma sum_abs (l : list R) M : (forall x, In x l -> Rabs x <= M) -> Rabs (sumR l) <= INR (length l) * M.
Proof.
  induction l as [|x l IH]; intros H; [cbn; rewrite Rabs_R0; lra|]. cbn [sumR fold_right]. fold (sumR l). change (length (x :: l)) with (S (length l)). rewrite S_INR. pose proof (H x (or_introl eq_refl)). specialize (IH (fun y Hy => H y (or_intror Hy))).
  eapply Rle_trans; [apply Rabs_triang|]. lra.
Qed.
Lemma sum_bounds (l : list R) a b : (forall x, In x l -> a <= x <= b) -> INR (length l) * a <= sumR l <= INR (length l) * b.
Proof.
  induction l as [|x l IH]; intros H; [cbn; lra|]. cbn [sumR fold_right]. fold (sumR l). change (length (x :: l)) with (S (length l)). rewrite S_INR. pose proof (H x (or_introl eq_refl)). specialize (IH (fun y Hy => H y (or_intror Hy))). lra.
Qed.
Lemma mean_bounds (l : list R) a b : l <> [] -> (forall x, In x l -> a <= x <= b) -> a <= meanR l <= b.
Proof.
  intros N H. pose proof (sum_bounds l a b H) as S. unfold meanR. assert (0 < INR (length l)) by (apply lt_0_INR; destruct l; [easy|cbn; lia]). split; apply Rmult_le_reg_r with (INR (length l)); auto; unfold Rdiv; rewrite Rmult_assoc, Rinv_l by lra; lra.
Qed.
(** Bounds that make underflow negligible *)
Definition lo60 : R := / 1152921504606846976.
Definition hi60 : R := 1152921504606846976.
Lemma lo_bpow : lo60 = bpow radix2 (-60). Proof. unfold lo60. cbn. lra. Qed.
Lemma hi_bpow : hi60 = bpow radix2 60. Proof. unfold hi60. cbn. lra. Qed.
Lemma eta_lo M : lo60 <= M -> 0 <= eta <= / 1000000 * (unit_ * M).
Proof.
  intros H. split; [apply eta_small|]. assert (E : eta = bpow radix2 (-66) * (bpow radix2 (-24) * bpow radix2 (-60))) by (unfold eta; rewrite <- !bpow_plus; f_equal; lia). rewrite E, <- lo_bpow.
  assert (U : unit_ = bpow radix2 (-24)) by (unfold unit_; cbn; lra). rewrite <- U. assert (0 <= unit_ <= 1) by (unfold unit_; lra). assert (B : 0 <= bpow radix2 (-66) <= / 1000000) by (split; [apply bpow_ge_0|cbn; lra]).
  assert (0 <= lo60) by (unfold lo60; lra). apply Rmult_le_compat; try lra. apply Rmult_le_pos; lra. apply Rmult_le_compat_l; lra.
Qed.
Theorem mean_close l M : l <> [] -> (Z.of_nat (length l) <= 1000000)%Z -> (forall x, In x l -> fin x = true /\ Rabs (V x) <= M) -> lo60 <= M <= 1024 * hi60 ->
  let m := fdiv (sumF l) (of_int (Z.of_nat (length l))) in fin m = true /\ Rabs (V m - meanR (map (B2R (prec := 24) (emax := 128)) l)) <= (2 * INR (length l) + 4) * (unit_ * M).
Proof.
  intros N Hl H HM m. assert (F : forall x, In x l -> fin x = true) by (intros x Hx; apply H; auto). pose proof (abs_sum l M (fun x Hx => proj2 (H x Hx))) as Ha. set (L := map (fun x => (x, of_int 1)) l) in *.
  assert (Ll : length L = length l) by apply map_length. set (k := INR (length l)) in *. assert (Hk : 1 <= k <= 1000000).
  { unfold k. rewrite INR_IZR_INZ. destruct l; [easy|]. cbn [length] in *. split; apply IZR_le; lia. }
  pose proof (absR_pos L) as Pa. assert (C : cap = bpow radix2 60 * bpow radix2 60) by (unfold cap; rewrite <- bpow_plus; reflexivity). rewrite <- hi_bpow in C. assert (M0 : 0 < M) by (unfold lo60 in HM; lra).
  assert (Hc : Rabs (V zeroF) + absR L <= cap).
  { change (V zeroF) with 0. rewrite Rabs_R0, C. assert (k * M <= 1000000 * (1024 * hi60)) by (apply Rmult_le_compat; lra). unfold hi60 in *. lra. }
  destruct (dot_error zeroF L eq_refl) as (Fs & Es); auto.
  { intros x w Hin. unfold L in Hin. apply in_map_iff in Hin. destruct Hin as (y & Q & Hy). injection Q as <- <-. split; [auto|apply one_ok]. }
  { rewrite Ll. exact Hl. }
  assert (SD : sumF l = dotF zeroF L) by (apply sum_dot; auto). assert (DS : dotR L = sumR (map (B2R (prec := 24) (emax := 128)) l)) by apply dot_sum. rewrite <- SD in Fs, Es. rewrite DS in Es. change (V zeroF) with 0 in Es. rewrite Rabs_R0, !Rplus_0_l, Ll in Es. fold k in Es. set (s := sumR _) in *. set (S := V (sumF l)) in *.
  destruct (of_int_ok (Z.of_nat (length l)) ltac:(lia)) as (Fn & En). rewrite <- INR_IZR_INZ in En. fold k in En. unfold meanR. rewrite map_length. fold k. fold s.
  assert (Sb : Rabs s <= k * M). { unfold s, k. rewrite <- (map_length (B2R (prec := 24) (emax := 128)) l). apply sum_abs. intros x Hx. apply in_map_iff in Hx. destruct Hx as (y & <- & Hy). apply H; auto. }
  assert (Es' : Rabs (S - s) <= k * (2 * (k + 1) * (unit_ * M) + 4 * eta)).
  { eapply Rle_trans; [exact Es|]. assert (/ 8388608 * (k + 1) * absR L <= / 8388608 * (k + 1) * (k * M)) by (apply Rmult_le_compat_l; lra). unfold unit_. lra. }
  clear Es. assert (Et := eta_lo M (proj1 HM)). assert (U : unit_ = / 16777216) by reflexivity. set (w := unit_ * M) in *. assert (W : w = / 16777216 * M) by reflexivity. assert (W0 : 0 < w) by lra.
  assert (Q : Rabs (S / k - s / k) <= 2 * (k + 1) * w + 4 * eta).
  { replace (S / k - s / k) with ((S - s) / k) by (field; lra). unfold Rdiv. rewrite Rabs_mult, (Rabs_pos_eq (/ k)) by (left; apply Rinv_0_lt_compat; lra). apply Rmult_le_reg_r with k; [lra|]. rewrite Rmult_assoc, Rinv_l by lra. lra. }
  assert (Q2 : Rabs (s / k) <= M). { unfold Rdiv. rewrite Rabs_mult, (Rabs_pos_eq (/ k)) by (left; apply Rinv_0_lt_compat; lra). apply Rmult_le_reg_r with k; [lra|]. rewrite Rmult_assoc, Rinv_l by lra. lra. }
  assert (Kw : 2 * (k + 1) * w <= / 8 * M) by (rewrite W; nra). apply abs_inv in Q, Q2. assert (Q3 : Rabs (S / k) <= 5 / 4 * M) by (apply Rabs_le; lra).
  destruct (fdiv_ok (sumF l) (of_int (Z.of_nat (length l))) (bpow radix2 71) Fs) as (Fm & Em).
  - rewrite En. lra.
  - apply rep_bpow. lia.
  - rewrite En. fold S. replace (bpow radix2 71) with (2048 * hi60) by (rewrite hi_bpow; change 2048 with (bpow radix2 11); rewrite <- bpow_plus; reflexivity). lra.
  - apply bpow_lt. lia.
  - fold m in Fm, Em. split; auto. rewrite En in Em. fold S in Em. rewrite Em. pose proof (rd_rel (S / k)) as R. fold eta in R. apply abs_inv in R. assert (Rw : / 16777216 * Rabs (S / k) <= 5 / 4 * w) by (rewrite W; lra). apply Rabs_le. lra.
Qed.
