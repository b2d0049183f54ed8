From Verif Require Import Base Order CLoop Model_Ray Proofs_Ray Model_RayF Model_SolverF Spec_SolverF Proofs_FloatB Proofs_RayF Proofs_RayF2 Proofs_RayF3 Proofs_RayF4 Proofs_SolverF Proofs_SolverF2 Proofs_SolverF4.
From Coq Require Import Reals Lra Sorted Psatz.
From Flocq Require Import Core BinarySingleNaN.
Local Open Scope R_scope.

(** ** The sign of the slope *)
Lemma V_neg x : V (fneg x) = - V x. Proof. apply B2R_Bopp. Qed.
Lemma rd_nonneg x : 0 <= x -> 0 <= rd x. Proof. intros H. rewrite <- rd_0. now apply rd_le. Qed.
Lemma rd_nonpos x : x <= 0 -> rd x <= 0. Proof. intros H. rewrite <- rd_0. now apply rd_le. Qed.
Lemma V_notfin x : fin x = false -> V x = 0. Proof. destruct x; cbn; intros; try reflexivity; discriminate. Qed.
Lemma div_inf x y : fin y = false -> V (fdiv x y) = 0.
Proof. destruct y as [?|?| |? ? ? ?]; try discriminate; intros _; destruct x; reflexivity. Qed.
Lemma islope_sign xi yi s c : V xi <= 0 -> let l := ray_lineF xi yi s c in
  (0 <= V s * V c -> 0 <= V (islopeF l)) /\ (V s * V c <= 0 -> V (islopeF l) <= 0).
Proof.
  intros Hx l. destruct (fin (islopeF l)) eqn:F; [|rewrite (V_notfin _ F); split; lra]. unfold islopeF in F |- *. destruct (fdiv_fin _ _ F) as (FX & HY).
  destruct (fin (fsub (fsrcy l) (fdety l))) eqn:FY; [|rewrite div_inf by auto; split; lra]. destruct (HY eq_refl) as (NY & E). rewrite E. clear HY E.
  destruct (fsub_fin _ _ FX) as (F1 & F2 & EX). destruct (fsub_fin _ _ FY) as (F3 & F4 & EY). set (X := V (fsub _ (fdetx l))) in *. set (Y := V (fsub _ (fdety l))) in *. clearbody X Y.
  unfold l, ray_lineF in F1, F2, F3, F4, EX, EY. cbn [fsrcx fsrcy fdetx fdety] in *. destruct (fsub_fin _ _ F1) as (G1 & _ & E1). destruct (fsub_fin _ _ F2) as (G2 & _ & E2).
  destruct (fadd_fin _ _ F3) as (G3 & _ & E3). destruct (fadd_fin _ _ F4) as (G4 & _ & E4).
  destruct (fmul_fin _ _ G1) as (_ & _ & H1). destruct (fmul_fin _ _ G2) as (_ & _ & H2). destruct (fmul_fin _ _ G3) as (_ & _ & H3). destruct (fmul_fin _ _ G4) as (_ & _ & H4).
  rewrite E1, E2, H1, H2, V_neg in EX. rewrite E3, E4, H3, H4, V_neg in EY. clear E1 E2 E3 E4 H1 H2 H3 H4 G1 G2 G3 G4 F1 F2 F3 F4 FX FY F.
  assert (X1 : V c <= 0 -> 0 <= X). { intros L. rewrite EX. apply rd_nonneg. apply Rle_0_minus. apply rd_le. apply Rplus_le_compat_r. apply rd_le. nra. }
  assert (X2 : 0 <= V c -> X <= 0). { intros L. rewrite EX. apply rd_nonpos. apply Rle_minus. apply rd_le. apply Rplus_le_compat_r. apply rd_le. nra. }
  assert (Y1 : V s <= 0 -> 0 <= Y). { intros L. rewrite EY. apply rd_nonneg. apply Rle_0_minus. apply rd_le. apply Rplus_le_compat_r. apply rd_le. nra. }
  assert (Y2 : 0 <= V s -> Y <= 0). { intros L. rewrite EY. apply rd_nonpos. apply Rle_minus. apply rd_le. apply Rplus_le_compat_r. apply rd_le. nra. }
  assert (D : forall p q, 0 <= p -> 0 < q -> 0 <= p / q) by (intros p q Hp Hq; apply Rmult_le_pos; [auto|left; now apply Rinv_0_lt_compat]).
  assert (Q1 : X / Y = (- X) / (- Y)) by (field; auto). assert (Q2 : X / Y = - ((- X) / Y)) by (field; auto). assert (Q3 : X / Y = - (X / (- Y))) by (field; auto).
  split; intros P; [apply rd_nonneg|apply rd_nonpos]; destruct (Rle_lt_dec (V s) 0) as [L1|L1].
  - specialize (Y1 L1). destruct (Rle_lt_dec (V c) 0) as [L2|L2]; [specialize (X1 L2); apply D; lra|]. destruct (Req_dec (V s) 0) as [Z0|N0]; [specialize (Y2 ltac:(lra)); exfalso; lra|]. exfalso. nra.
  - specialize (Y2 ltac:(lra)). destruct (Rle_lt_dec 0 (V c)) as [L2|L2]; [specialize (X2 L2); rewrite Q1; apply D; lra|]. exfalso. nra.
  - specialize (Y1 L1). destruct (Rle_lt_dec 0 (V c)) as [L2|L2]; [specialize (X2 L2); rewrite Q2; specialize (D (- X) Y ltac:(lra) ltac:(lra)); lra|].
    destruct (Req_dec (V s) 0) as [Z0|N0]; [specialize (Y2 ltac:(lra)); exfalso; lra|]. exfalso. nra.
  - specialize (Y2 ltac:(lra)). destruct (Rle_lt_dec (V c) 0) as [L2|L2]; [specialize (X1 L2); rewrite Q3; specialize (D X (- Y) ltac:(lra) ltac:(lra)); lra|]. exfalso. nra.
Qed.

(** ** Almost horizontal rays cross at most one line of the first family *)
Lemma yi_ok dx center d : (0 <= d < dx)%Z -> (dx <= 2 ^ 13)%Z -> fin center = true -> Rabs (V center) <= 8000 ->
  let yi := fadd (fadd (fmul half (of_int (1 - dx))) (of_int d)) (movF dx center) in fin yi = true /\ Rabs (V yi) <= 16384.
Proof.
  intros Hd Hx Fc Bc. cbv zeta. destruct (mhalf_ok (1 - dx)) as (_ & _ & Fh & Eh); [lia|]. destruct (of_int_ok d) as (Fd & Ed); [lia|].
  assert (B1 : Rabs (V (fmul half (of_int (1 - dx))) + V (of_int d)) <= IZR (2 ^ 12)).
  { rewrite Eh, Ed, minus_IZR. assert (0 <= IZR d <= IZR (dx - 1)) by (split; apply IZR_le; lia). rewrite minus_IZR in H. assert (1 <= IZR dx <= IZR (2 ^ 13)) by (split; apply IZR_le; lia).
    change (IZR (2 ^ 13)) with 8192 in *. change (IZR (2 ^ 12)) with 4096. apply Rabs_le. lra. }
  destruct (fadd_ok _ _ _ Fh Fd (rep_IZR (2 ^ 12) ltac:(lia)) B1 (huge_big (2 ^ 12) ltac:(lia))) as (F1 & E1).
  set (p := fadd (fmul half (of_int (1 - dx))) (of_int d)) in *.
  assert (Bp : Rabs (V p) <= 4096) by (rewrite E1; apply (rd_abs_le _ (IZR (2 ^ 12))); [apply rep_IZR; lia|exact B1]).
  destruct (mov_ok dx center ltac:(lia) Fc Bc) as (Fm & Bm). apply abs_inv in Bp. apply abs_inv in Bm.
  assert (B2 : Rabs (V p + V (movF dx center)) <= IZR (2 ^ 14)) by (change (IZR (2 ^ 14)) with 16384; apply Rabs_le; lra).
  destruct (fadd_ok _ _ _ F1 Fm (rep_IZR (2 ^ 14) ltac:(lia)) B2 (huge_big (2 ^ 14) ltac:(lia))) as (Fy & Ey).
  split; auto. rewrite Ey. apply (rd_abs_le _ (IZR (2 ^ 14))); [apply rep_IZR; lia|exact B2].
Qed.
Lemma rd_small k x : (-124 <= k)%Z -> Rabs x <= bpow radix2 k -> - bpow radix2 (k - 25) <= rd x - x <= bpow radix2 (k - 25).
Proof. intros H L. apply abs_inv, rd_err; auto. Qed.
Lemma abs_prod a b p q : Rabs a <= p -> Rabs b <= q -> - (p * q) <= a * b <= p * q.
Proof. intros Ha Hb. apply abs_inv. rewrite Rabs_mult. apply Rmult_le_compat; auto using Rabs_pos. Qed.
Lemma flat (ry rz : Z) (xi yi s c : b32) n n' : (1 <= ry <= 2 ^ 13)%Z -> (1 <= rz <= 2 ^ 13)%Z -> V xi = - IZR (ry + rz) -> Rabs (V yi) <= 16384 -> Rabs (V s) <= 36 / 10000000000 -> 1 / 2 <= Rabs (V c) <= 1 ->
  let l := ray_lineF xi yi s c in (0 <= n < n')%Z -> (n' <= rz)%Z -> insideF ry (coordxF rz l n) = true -> insideF ry (coordxF rz l n') = true ->
  fin (fsub (fsrcy l) (fdety l)) = true -> False.
Proof.
  intros Hy Hz Ei By Bs (Lc & Bc) l Hn Hn' I I' FY. set (G := IZR (ry + rz)). assert (RG : 2 <= G <= 16384) by (split; apply IZR_le; lia).
  destruct (inside_ok ry _ ltac:(lia) I) as (F & B). destruct (inside_ok ry _ ltac:(lia) I') as (F' & B').
  unfold coordxF in F, F', B, B'. destruct (fadd_fin _ _ F) as (F1 & F2 & E1). destruct (fadd_fin _ _ F') as (F1' & _ & E1'). destruct (fmul_fin _ _ F1) as (F3 & F4 & E3). destruct (fmul_fin _ _ F1') as (_ & F4' & E3').
  destruct (fsub_fin _ _ F4) as (_ & F5 & E4). destruct (fsub_fin _ _ F4') as (_ & _ & E4'). unfold islopeF in F3. destruct (fdiv_fin _ _ F3) as (FX & H). destruct (H FY) as (NY & E5). clear H. fold (islopeF l) in E5.
  destruct (fsub_fin _ _ FX) as (_ & F6 & EX). destruct (fsub_fin _ _ FY) as (_ & F7 & EY).
  rewrite E1, E3, E4 in B. rewrite E1', E3', E4' in B'. destruct (grid_ok rz n ltac:(lia) ltac:(lia)) as (_ & Eg). destruct (grid_ok rz n' ltac:(lia) ltac:(lia)) as (_ & Eg'). rewrite Eg in B. rewrite Eg' in B'.
  set (tau := V (islopeF l)) in *. set (X := V (fsub _ (fdetx l))) in *. set (Y := V (fsub _ (fdety l))) in *.
  unfold l, ray_lineF in F2, F5, F6, F7, EX, EY, B, B'. cbn [fsrcx fsrcy fdetx fdety] in *.
  destruct (fsub_fin _ _ F2) as (G1 & K1 & H1). destruct (fsub_fin _ _ F6) as (G2 & _ & H2). destruct (fadd_fin _ _ F5) as (G3 & K3 & H3). destruct (fadd_fin _ _ F7) as (G4 & _ & H4).
  destruct (fmul_fin _ _ G1) as (_ & _ & J1). destruct (fmul_fin _ _ G2) as (_ & _ & J2). destruct (fmul_fin _ _ G3) as (_ & _ & J3). destruct (fmul_fin _ _ G4) as (_ & _ & J4).
  destruct (fmul_fin _ _ K1) as (_ & _ & L1). destruct (fmul_fin _ _ K3) as (_ & _ & L3).
  rewrite V_neg, Ropp_mult_distr_l_reverse, rd_opp in J2, J4. rewrite J1, L1 in H1. rewrite J2, L1 in H2. rewrite J3, L3 in H3. rewrite J4, L3 in H4. rewrite H1, H2 in EX. rewrite H3, H4 in EY.
  rewrite H1, H3 in B, B'. clear H1 H2 H3 H4 J1 J2 J3 J4 L1 L3 G1 G2 G3 G4 K1 K3 F F' F1 F1' F2 F3 F4 F4' F5 F6 F7 FX FY I I' E1 E1' E3 E3' E4 E4' Eg Eg'. clearbody tau X Y.
  rewrite Ei in *. fold G in EX, EY, B, B'. set (A := rd (- G * V c)) in *. set (Bb := rd (V yi * V s)) in *. set (Sy := rd (- G * V s)) in *. set (C := rd (V yi * V c)) in *.
  assert (AbsG : Rabs (- G) <= 16384) by (rewrite Rabs_Ropp, Rabs_pos_eq; lra).
  assert (HA : (G / 2 - / 2048 <= A \/ A <= - (G / 2 - / 2048)) /\ - G <= A <= G).
  { split.
    - pose proof (abs_prod _ _ _ _ AbsG Bc) as P. rewrite Rmult_1_r in P. pose proof (rd_small 14 (- G * V c) ltac:(lia)) as Q. change (bpow radix2 14) with 16384 in Q. specialize (Q ltac:(apply Rabs_le; lra)).
      change (bpow radix2 (14 - 25)) with (/ 2048) in Q. fold A in Q. revert Lc. unfold Rabs. destruct (Rcase_abs (V c)); intros Lc; [left|right]; nra.
    - apply abs_inv. apply rd_abs_le; [apply rep_IZR; lia|]. rewrite Rabs_mult, Rabs_Ropp, (Rabs_pos_eq G) by lra. pose proof (Rabs_pos (V c)). nra. }
  assert (HB : - (/ 16384) <= Bb <= / 16384).
  { apply abs_inv. apply rd_abs_le; [change (/ 16384) with (bpow radix2 (-14)); apply generic_format_bpow; rewrite fexp_is; unfold FLT_exp; lia|]. apply Rabs_le. pose proof (abs_prod _ _ _ _ By Bs). lra. }
  assert (HS : - (/ 16384) <= Sy <= / 16384).
  { apply abs_inv. apply rd_abs_le; [change (/ 16384) with (bpow radix2 (-14)); apply generic_format_bpow; rewrite fexp_is; unfold FLT_exp; lia|]. apply Rabs_le. pose proof (abs_prod _ _ _ _ AbsG Bs). lra. }
  assert (HC : - 16384 <= C <= 16384).
  { apply abs_inv. apply rd_abs_le; [apply (rep_IZR 16384); lia|]. apply Rabs_le. pose proof (abs_prod _ _ _ _ By Bc). lra. }
  assert (R15 : forall z, - 32768 <= z <= 32768 -> - (/ 1024) <= rd z - z <= / 1024).
  { intros z Hz'. apply (rd_small 15); [lia|]. change (bpow radix2 15) with 32768. apply Rabs_le. lra. }
  pose proof (R15 (A - Bb) ltac:(lra)) as D1. pose proof (R15 (- A - Bb) ltac:(lra)) as D2. pose proof (R15 (Sy + C) ltac:(lra)) as D3. pose proof (R15 (- Sy + C) ltac:(lra)) as D4.
  set (sx := rd (A - Bb)) in *. set (dx := rd (- A - Bb)) in *. set (sy := rd (Sy + C)) in *. set (dy := rd (- Sy + C)) in *.
  assert (HX : 99 / 100 * G <= X \/ X <= - (99 / 100 * G)).
  { pose proof (rd_small 16 (sx - dx) ltac:(lia)) as Q. change (bpow radix2 16) with 65536 in Q. specialize (Q ltac:(apply Rabs_le; lra)). change (bpow radix2 (16 - 25)) with (/ 512) in Q. rewrite <- EX in Q. destruct (proj1 HA); [left|right]; lra. }
  assert (HY : - (/ 256) <= Y <= / 256).
  { rewrite EY. apply abs_inv. apply rd_abs_le; [change (/ 256) with (bpow radix2 (-8)); apply generic_format_bpow; rewrite fexp_is; unfold FLT_exp; lia|]. apply Rabs_le. lra. }
  assert (HT : 253 * G <= Rabs tau).
  { assert (Q : 253 * G <= Rabs (X / Y)).
    { unfold Rdiv. rewrite Rabs_mult, Rabs_inv. assert (0 < Rabs Y <= / 256) by (split; [now apply Rabs_pos_lt|apply Rabs_le; lra]). assert (256 <= / Rabs Y) by (replace 256 with (/ / 256) by lra; apply Rinv_le; lra).
      assert (99 / 100 * G <= Rabs X) by (revert HX; unfold Rabs; destruct (Rcase_abs X); lra). nra. }
    rewrite E5. assert (Rp : rep (253 * G)) by (unfold G; rewrite <- mult_IZR; apply rep_IZR; lia). assert (253 * G <= X / Y \/ X / Y <= - (253 * G)) as [P|P] by (revert Q; unfold Rabs; destruct (Rcase_abs (X / Y)); lra).
    - apply Rle_trans with (2 := Rle_abs _). now apply rd_ge_rep.
    - rewrite <- Rabs_Ropp. apply Rle_trans with (2 := Rle_abs _). apply (rd_le_rep _ _ (rep_opp _ Rp)) in P. lra. }
  assert (K : forall a, - IZR ry / 2 + 93 / 10000 <= rd (rd (tau * a) + sx) <= IZR ry / 2 - 93 / 10000 -> - (12 / 1000) <= a <= 12 / 1000).
  { intros a Ha. assert (IZR ry <= G) by (apply IZR_le; lia). assert (1 <= IZR ry) by (apply IZR_le; lia).
    assert (W : Rabs (rd (tau * a) + sx) < G) by (apply rd_back; [apply rep_IZR; lia|apply Rabs_def1; lra]). apply Rabs_def2 in W.
    assert (W2 : Rabs (tau * a) < 3 * G). { apply rd_back; [unfold G; rewrite <- mult_IZR; apply rep_IZR; lia|]. apply Rabs_def1; lra. }
    rewrite Rabs_mult in W2. pose proof (Rabs_pos a). apply abs_inv. destruct (Rle_lt_dec (Rabs a) (12 / 1000)) as [|L]; auto. exfalso. assert (253 * G * (12 / 1000) <= Rabs tau * Rabs a) by (apply Rmult_le_compat; lra). lra. }
  apply K in B. apply K in B'. assert (Rz : 1 <= IZR rz <= 8192) by (split; apply IZR_le; lia). assert (0 <= IZR n <= IZR rz) by (split; apply IZR_le; lia). assert (0 <= IZR n' <= IZR rz) by (split; apply IZR_le; lia).
  assert (N1 : IZR n + 1 <= IZR n') by (rewrite <- plus_IZR; apply IZR_le; lia).
  pose proof (R15 (- IZR rz / 2 + IZR n - sy) ltac:(lra)). pose proof (R15 (- IZR rz / 2 + IZR n' - sy) ltac:(lra)). lra.
Qed.

(** ** The rays of the solvers are ordered *)
Lemma close_sign f h x : close f h x -> (0 <= h (V x) -> 999 / 1000 * h (V x) <= V (f x) <= 1001 / 1000 * h (V x)) /\ (h (V x) <= 0 -> 1001 / 1000 * h (V x) <= V (f x) <= 999 / 1000 * h (V x)).
Proof. unfold close. intros H. apply abs_inv in H. split; intros L; [rewrite (Rabs_pos_eq (h (V x))) in H by lra|rewrite (Rabs_left1 (h (V x))) in H by lra]; lra. Qed.
Lemma close_prod s c x : close s sin x -> close c cos x -> (upward (V x) -> 0 <= V (s x) * V (c x)) /\ (~ upward (V x) -> V (s x) * V (c x) <= 0).
Proof.
  intros Hs Hc. destruct (close_sign _ _ _ Hs) as (S1 & S2). destruct (close_sign _ _ _ Hc) as (C1 & C2). unfold upward. set (a := sin (V x)) in *. set (b := cos (V x)) in *. clearbody a b.
  split; intros H; destruct (Rle_lt_dec 0 a) as [A|A], (Rle_lt_dec 0 b) as [B|B];
    try (specialize (S1 ltac:(lra))); try (specialize (S2 ltac:(lra))); try (specialize (C1 ltac:(lra))); try (specialize (C2 ltac:(lra))); try nra.
  all: try (exfalso; apply H; nra).
  all: try (destruct (Req_dec a 0) as [->|N]; [nra|exfalso; nra]).
Qed.
Theorem order_right ry rz xi yi s c x q cy za zb zc : (1 <= ry <= 2 ^ 15)%Z -> (1 <= rz <= 2 ^ 15)%Z -> V xi <= 0 ->
  fin x = true -> Rabs (V x) < 13176795 / 2097152 -> 0 <= V x \/ V x <= - (3 / 1000000000) -> close s sin x -> close c cos x -> calc_quadrantF x = Some q ->
  let t := traceF ry rz q (coordxF rz (ray_lineF xi yi (s x) (c x))) cy za zb zc in StronglySorted xle (map (fcoor t) (zrange 0 (fcsize t))).
Proof.
  intros Hy Hz Hx F B N Hs Hc Hq. apply ordered; auto. destruct (quadrant_right x F B N) as (b & E & R). rewrite Hq in E. injection E as <-.
  destruct (close_prod s c x Hs Hc) as (P1 & P2). destruct (islope_sign xi yi (s x) (c x) Hx) as (I1 & I2). destruct q.
  - apply I1, P1, R; auto.
  - apply I2, P2. intros U. apply R in U. discriminate.
Qed.
Lemma short {A} (l : list A) : (length l <= 1)%nat -> rev l = l.
Proof. destruct l as [|a [|b l]]; cbn; intros; auto. lia. Qed.
Lemma short_sorted (l : list Z) (P : Z -> Prop) : StronglySorted Z.lt l -> (forall n, In n l -> P n) -> (forall n n', (n < n')%Z -> P n -> P n' -> False) -> (length l <= 1)%nat.
Proof.
  destruct l as [|a [|b l]]; cbn; intros S HP H; auto with arith. exfalso. apply StronglySorted_inv in S as (_ & S). apply Forall_inv in S. apply (H a b); auto.
Qed.
Theorem order_tiny ry rz xi yi s c x q cy za zb zc : (1 <= ry <= 2 ^ 13)%Z -> (1 <= rz <= 2 ^ 13)%Z -> V xi = - IZR (ry + rz) -> Rabs (V yi) <= 16384 ->
  - (3 / 1000000000) < V x < 0 -> close s sin x -> close c cos x -> Rabs (V (c x)) <= 1 ->
  let t := traceF ry rz q (coordxF rz (ray_lineF xi yi (s x) (c x))) cy za zb zc in StronglySorted xle (map (fcoor t) (zrange 0 (fcsize t))).
Proof.
  intros Hy Hz Ei By T Hs Hc Bc. set (l := ray_lineF xi yi (s x) (c x)). assert (RG : 2 <= IZR (ry + rz)) by (apply IZR_le; lia). destruct (islope_sign xi yi (s x) (c x) ltac:(lra)) as (I1 & I2). fold l in I1, I2.
  assert (exists q', if q' : bool then 0 <= V (islopeF l) else V (islopeF l) <= 0) as (q' & Hq').
  { destruct (Rle_lt_dec 0 (V (s x) * V (c x))) as [L|L]; [exists true|exists false]; [auto|apply I2; lra]. }
  pose proof (fun z => ordered ry rz q' l cy z zb zc ltac:(lia) ltac:(lia) Hq') as O. cbv zeta in *.
  destruct (fin (fsub (fsrcy l) (fdety l))) eqn:FY.
  2: { apply ordered; try lia. unfold islopeF. rewrite div_inf by auto. destruct q; lra. }
  pose proof PI_bounds as HP. assert (S1 : V x <= sin (V x) <= 0).
  { split; [|rewrite <- (Ropp_involutive (V x)), sin_neg; assert (0 <= sin (- V x)) by (apply sin_ge_0; lra); lra]. pose proof (sin_lt_x (- V x) ltac:(lra)) as Q. rewrite sin_neg in Q. lra. }
  assert (C1 : 3 / 4 <= cos (V x)). { pose proof (sin2_cos2 (V x)) as Q. unfold Rsqr in Q. assert (0 <= cos (V x)) by (apply cos_ge_0; lra). nra. }
  destruct (close_sign _ _ _ Hs) as (_ & Q1). destruct (close_sign _ _ _ Hc) as (Q2 & _). specialize (Q1 ltac:(lra)). specialize (Q2 ltac:(lra)).
  assert (L : (length (na ry rz (coordxF rz l)) <= 1)%nat).
  { apply (short_sorted _ (fun n => (0 <= n <= rz)%Z /\ insideF ry (coordxF rz l n) = true)); [apply na_sorted| |].
    - intros n Hn. unfold na in Hn. apply filter_In in Hn as (Hn & I). apply in_zrange in Hn. split; [lia|auto].
    - intros n n' Hn (R1 & J1) (R2 & J2). apply (flat ry rz xi yi (s x) (c x) n n'); auto; try lia.
      + apply Rabs_le. lra.
      + split; auto. rewrite Rabs_pos_eq; lra. }
  assert (E : forall b : bool, map (fcoor (traceF ry rz b (coordxF rz l) cy za zb zc)) (zrange 0 (fcsize (traceF ry rz b (coordxF rz l) cy za zb zc))) = mergeF (map (pa rz (coordxF rz l)) (na ry rz (coordxF rz l))) (map (pb ry cy) (nb ry rz cy))).
  { intros b. rewrite trace_coor by lia. destruct b; auto. rewrite short; auto. now rewrite map_length. }
  rewrite E, <- (E q'). apply O.
Qed.
Theorem solver_ordered ry rz dx center s c x q d za zb zc : (1 <= ry <= 2 ^ 13)%Z -> (1 <= rz <= 2 ^ 13)%Z -> (0 <= d < dx)%Z -> (dx <= 2 ^ 13)%Z -> fin center = true -> Rabs (V center) <= 8000 ->
  fin x = true -> Rabs (V x) < 13176795 / 2097152 -> close s sin x -> close c cos x -> Rabs (V (c x)) <= 1 -> calc_quadrantF x = Some q ->
  let t := ray_traceF ry rz dx center (s x) (c x) q d za zb zc in StronglySorted xle (map (fcoor t) (zrange 0 (fcsize t))).
Proof.
  intros Hy Hz Hd Hdx Fc Bc F B Hs Hc B1 Hq. unfold ray_traceF, pixel_lineF. destruct (of_int_ok (- ry - rz) ltac:(lia)) as (_ & Ei).
  assert (Ei' : V (of_int (- ry - rz)) = - IZR (ry + rz)) by (rewrite Ei, <- opp_IZR; f_equal; lia). assert (0 <= IZR (ry + rz)) by (apply IZR_le; lia).
  destruct (Rle_lt_dec 0 (V x)) as [L|L]; [|destruct (Rle_lt_dec (V x) (- (3 / 1000000000))) as [L'|L']].
  - apply order_right; auto; try lia; lra.
  - apply order_right; auto; try lia; lra.
  - apply order_tiny; auto. apply yi_ok; auto.
Qed.
