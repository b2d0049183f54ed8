From Verif Require Import Base Order CLoop Model_Ray Proofs_Ray Model_RayF Model_SolverF Spec_SolverF Model_PmlF Model_GradF Proofs_FloatB Proofs_RayF Proofs_RayF2 Proofs_RayF3 Proofs_RayF4.
From Verif Require Import Proofs_SolverF Proofs_SolverF2 Proofs_SolverF4 Proofs_SolverF6 Proofs_SolverF7 Proofs_PmlF Spec_PmlF Proofs_PmlF3 Proofs_PmlF4 Proofs_PmlF5 Spec_GradF Proofs_GradF2 Proofs_GradF3 Proofs_GradF4.
From Coq Require Import Reals Lra.
From Flocq Require Import Core BinarySingleNaN.
Local Open Scope R_scope.

(** ** The scale r *)
Lemma sqrt_half n : (1 <= n < 2 ^ 31)%Z -> / 2 <= sqrt (IZR n / 2) <= 32768.
Proof.
  intros H. assert (1 <= IZR n <= 2147483648) by (split; apply IZR_le; lia). split.
  - apply Rsqr_incr_0_var; [|apply sqrt_pos]. rewrite Rsqr_sqrt by lra. unfold Rsqr. lra.
  - apply Rsqr_incr_0_var; [|lra]. rewrite Rsqr_sqrt by lra. unfold Rsqr. lra.
Qed.
Lemma step_r_ok n : (1 <= n < 2 ^ 31)%Z -> fin (step_r n) = true /\ Rabs (V (step_r n) * sqrt (IZR n / 2) - 1) <= / 8388608.
Proof.
  intros Hn. destruct (of_int64_ok n ltac:(lia)) as (Fn & Vn). destruct (of_int64_ok 2 ltac:(lia)) as (F2 & V2). destruct (of_int64_ok 1 ltac:(lia)) as (F1 & V1).
  pose proof (sqrt_half n Hn) as Hs. set (s := sqrt (IZR n / 2)) in *. assert (Bn : 1 <= IZR n <= 2147483648) by (split; apply IZR_le; lia).
  assert (B1 : is_finite (ddiv (of_int64 n) (of_int64 2)) = true /\ B2R (ddiv (of_int64 n) (of_int64 2)) = IZR n / 2).
  { pose proof (Bdiv_correct 53 1024 p64 e64 mode_NE (of_int64 n) (of_int64 2) ltac:(rewrite V2; lra)) as C. fold (ddiv (of_int64 n) (of_int64 2)) in C. rewrite Vn, V2 in C. change (round radix2 (SpecFloat.fexp 53 1024) (round_mode mode_NE) (IZR n / 2)) with (rd64 (IZR n / 2)) in C.
    rewrite (rd64_rep (IZR n / 2)) in C; [|replace (IZR n / 2) with (IZR n * bpow radix2 (-1)) by (cbn; lra); apply rep64_dyadic; lia].
    rewrite Rlt_bool_true in C; [destruct C as (C1 & C2 & _); rewrite C2; auto|]. rewrite Rabs_pos_eq by lra. pose proof (big1024 (2 ^ 31) ltac:(lia)). change (IZR (2 ^ 31)) with 2147483648 in *. lra. }
  destruct B1 as (Fb & Vb). set (b := ddiv (of_int64 n) (of_int64 2)) in *.
  assert (B2 : is_finite (dsqrt b) = true /\ B2R (dsqrt b) = rd64 s).
  { pose proof (Bsqrt_correct 53 1024 p64 e64 mode_NE b) as (C1 & C2 & _). fold (dsqrt b) in C1, C2. split; [|rewrite C1, Vb; reflexivity]. rewrite C2. destruct b as [?|?| |sb m e H]; try discriminate; auto. destruct sb; auto. exfalso. cbn in Vb. unfold F2R in Vb. cbn in Vb. pose proof (bpow_gt_0 radix2 e). assert (0 < IZR (Z.pos m)) by (apply IZR_lt; lia). change (IZR (Z.neg m)) with (- IZR (Z.pos m)) in Vb. nra. }
  destruct B2 as (Fc & Vc). set (c := dsqrt b) in *.
  pose proof tiny64 as T64. pose proof (rd64_rel s) as E1. rewrite <- Vc in E1. rewrite (Rabs_pos_eq s) in E1 by lra.
  assert (E1' : - (/ 536870912 * s) <= B2R c - s <= / 536870912 * s). { assert (Rabs (B2R c - s) <= / 536870912 * s) by lra. unfold Rabs in H. destruct (Rcase_abs _); lra. }
  assert (Cb : / 4 <= B2R c) by lra.
  assert (B3 : is_finite (ddiv (of_int64 1) c) = true /\ B2R (ddiv (of_int64 1) c) = rd64 (1 / B2R c)).
  { pose proof (Bdiv_correct 53 1024 p64 e64 mode_NE (of_int64 1) c ltac:(lra)) as C. fold (ddiv (of_int64 1) c) in C. rewrite V1 in C. change (round radix2 (SpecFloat.fexp 53 1024) (round_mode mode_NE) (1 / B2R c)) with (rd64 (1 / B2R c)) in C.
    rewrite Rlt_bool_true in C; [destruct C as (C1 & C2 & _); rewrite C2; auto|]. assert (D : 0 <= 1 / B2R c <= 4). { split; [apply Rle_mult_inv_pos; lra|]. apply (Rmult_le_reg_r (B2R c)); [lra|]. field_simplify; lra. }
    pose proof (rd64_le _ _ (proj1 D)) as L1. pose proof (rd64_le _ _ (proj2 D)) as L2. rewrite rd64_0 in L1. rewrite (rd64_rep 4) in L2 by (apply (rep64_IZR 4); lia). rewrite Rabs_pos_eq by exact L1. pose proof (big1024 4 ltac:(lia)). lra. }
  destruct B3 as (Fd & Vd). set (d := ddiv (of_int64 1) c) in *.
  assert (Q : 0 < / B2R c <= 4 /\ / B2R c * B2R c = 1). { split; [split; [apply Rinv_0_lt_compat; lra|]|apply Rinv_l; lra]. rewrite <- (Rinv_inv 4). apply Rinv_le; lra. }
  destruct Q as ((Q1 & Q2) & Q3). pose proof (rd64_rel (1 / B2R c)) as E2. rewrite <- Vd in E2. unfold Rdiv in E2. rewrite Rmult_1_l in E2. rewrite (Rabs_pos_eq (/ B2R c)) in E2 by lra. set (q := / B2R c) in *.
  assert (Qs : 1 - / 500000000 <= q * s <= 1 + / 500000000) by (split; nra).
  assert (Dq : Rabs (B2R d - q) <= / 536870912 * q).
  { assert (/ 65536 <= q). { assert (q * s <= q * 32768) by nra. lra. } lra. }
  assert (Dq' : - (/ 536870912 * q) <= B2R d - q <= / 536870912 * q) by (unfold Rabs in Dq; destruct (Rcase_abs _); lra).
  assert (Dlo : / 65537 <= B2R d <= 2). { assert (q * s <= q * 32768) by nra. assert (q * / 2 <= q * s) by nra. assert (q <= 2.1) by lra. assert (q <= 2 - / 100 \/ 2 - / 100 < q) as [?|?] by lra; [lra|]. exfalso.
    assert (s * s = IZR n / 2) by (unfold s; apply sqrt_sqrt; lra). assert (/ 2 <= s * s) by lra. nra. }
  destruct (to32_val d Fd ltac:(rewrite Rabs_pos_eq; lra)) as (Fr & Vr). unfold step_r. fold b. fold c. fold d. split; [exact Fr|]. rewrite Vr. pose proof (rd_rel (B2R d)) as E3. rewrite (Rabs_pos_eq (B2R d)) in E3 by lra. pose proof tiny32 as T32.
  set (r := rd (B2R d)) in *. clearbody r. clear Vr Fr. assert (E3' : - (/ 16777216 * B2R d + / 1000000000 * / 65537) <= r - B2R d <= / 16777216 * B2R d + / 1000000000 * / 65537) by (unfold Rabs in E3; destruct (Rcase_abs _); lra).
  assert (Ds : 1 - / 200000000 <= B2R d * s <= 1 + / 200000000) by (split; nra).
  assert (Rs : - (/ 16777216 * (B2R d * s) + / 1000000000) <= (r - B2R d) * s <= / 16777216 * (B2R d * s) + / 1000000000).
  { assert (/ 1000000000 * / 65537 * s <= / 1000000000) by lra. split; nra. }
  apply Rabs_le. lra.
Qed.
