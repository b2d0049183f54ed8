From Verif Require Import Base Order CLoop Model_Ray Proofs_Ray Model_RayF Model_SolverF Spec_SolverF Model_PmlF Proofs_FloatB Proofs_RayF Proofs_RayF2 Proofs_RayF3 Proofs_RayF4.
From Verif Require Import Proofs_SolverF Proofs_SolverF2 Proofs_SolverF4 Proofs_SolverF6 Proofs_SolverF7 Spec_PrepF Spec_VectorF.
From Coq Require Import Reals Lra Psatz.
From Flocq Require Import Core BinarySingleNaN.
Local Open Scope R_scope.

(** ** Rounding error of the sum over a ray *)
Notation u24 := (/ 16777216).
Lemma component_near a b vx vy : fin a = true -> fin b = true -> fin vx = true -> fin vy = true -> let z := Rabs (V a * V vx) + Rabs (V b * V vy) in z <= bpow radix2 100 ->
  fin (fadd (fmul a vx) (fmul b vy)) = true /\ Rabs (V (fadd (fmul a vx) (fmul b vy)) - (V a * V vx + V b * V vy)) <= 2.01 * u24 * z + 4 * eta.
Proof.
  intros Fa Fb Fx Fy z Hz. pose proof (Rabs_pos (V a * V vx)) as P1. pose proof (Rabs_pos (V b * V vy)) as P2.
  assert (R0 : rep (bpow radix2 100)) by (rewrite <- (Rmult_1_l (bpow radix2 100)); apply (rep_dyadic 1); lia). assert (R1 : rep (bpow radix2 102)) by (rewrite <- (Rmult_1_l (bpow radix2 102)); apply (rep_dyadic 1); lia).
  assert (B : bpow radix2 102 = 4 * bpow radix2 100) by (change 102%Z with (2 + 100)%Z; rewrite bpow_plus; cbn; lra). assert (B0 : 1 <= bpow radix2 100) by (change 1 with (bpow radix2 0); apply bpow_le; lia).
  destruct (fmul_ok a vx _ Fa Fx R0 ltac:(unfold z in Hz; lra) ltac:(apply bpow_lt; lia)) as (F1 & V1). destruct (fmul_ok b vy _ Fb Fy R0 ltac:(unfold z in Hz; lra) ltac:(apply bpow_lt; lia)) as (F2 & V2).
  pose proof (rd_rel (V a * V vx)) as E1. pose proof (rd_rel (V b * V vy)) as E2. rewrite <- V1 in E1. rewrite <- V2 in E2. fold eta in E1, E2. assert (H0 : 0 < eta) by apply bpow_gt_0. assert (H1 : eta <= 1) by (unfold eta; change 1 with (bpow radix2 0); apply bpow_le; lia).
  set (p := fmul a vx) in *. set (q := fmul b vy) in *. clearbody p q. set (x := V a * V vx) in *. set (y := V b * V vy) in *. clearbody x y.
  assert (S : Rabs (V p + V q) <= (1 + u24) * z + 2 * eta). { replace (V p + V q) with ((V p - x) + (V q - y) + (x + y)) by ring. pose proof (Rabs_triang (V p - x + (V q - y)) (x + y)). pose proof (Rabs_triang (V p - x) (V q - y)). pose proof (Rabs_triang x y). unfold z. lra. }
  assert (z0 : 0 <= z) by (unfold z; lra).
  destruct (fadd_ok p q _ F1 F2 R1 ltac:(lra) ltac:(apply bpow_lt; lia)) as (F3 & V3). split; auto. rewrite V3. pose proof (rd_rel (V p + V q)) as E3. fold eta in E3.
  replace (rd (V p + V q) - (x + y)) with ((rd (V p + V q) - (V p + V q)) + ((V p - x) + (V q - y))) by ring. pose proof (Rabs_triang (rd (V p + V q) - (V p + V q)) (V p - x + (V q - y))). pose proof (Rabs_triang (V p - x) (V q - y)). unfold z in *. lra.
Qed.
Lemma terms_near (f1 f2 : Z -> Z -> b32) vx vy segs : fin vx = true -> fin vy = true ->
  (forall x y w, In (x, y, w) segs -> fin (f1 x y) = true /\ fin (f2 x y) = true /\ fin w = true /\ Rabs (V (f1 x y) * V vx) + Rabs (V (f2 x y) * V vy) <= bpow radix2 100) ->
  let r := (segs, (vx, vy)) in let l := map (fun '(x, y, w) => (fadd (fmul (f1 x y) vx) (fmul (f2 x y) vy), w)) segs in
  (forall a w, In (a, w) l -> fin a = true /\ fin w = true) /\ Rabs (dotR l - exactV f1 f2 r) <= 2.01 * u24 * sizeV f1 f2 r + 4 * eta * lengthV r /\
  absR l <= (1 + 2.01 * u24) * sizeV f1 f2 r + 4 * eta * lengthV r /\ 0 <= sizeV f1 f2 r /\ 0 <= lengthV r.
Proof.
  intros Fx Fy H. cbv zeta. unfold exactV, sizeV, lengthV. cbn [fst snd]. induction segs as [|((x & y) & w) segs IH]; cbn [map dotR absR fold_right]; [rewrite Rminus_0_r, Rabs_R0; split; [intros ? ? []|]; rewrite !Rmult_0_r; lra|].
  destruct IH as (I1 & I2 & I3 & I4 & I5); [intros; apply H; now right|]. destruct (H x y w ltac:(now left)) as (Fa & Fb & Fw & Hz). destruct (component_near _ _ _ _ Fa Fb Fx Fy Hz) as (Fc & Ec).
  set (c := fadd (fmul (f1 x y) vx) (fmul (f2 x y) vy)) in *. clearbody c. set (e := V (f1 x y) * V vx + V (f2 x y) * V vy) in *. set (z := Rabs (V (f1 x y) * V vx) + Rabs (V (f2 x y) * V vy)) in *.
  assert (Ez : Rabs e <= z) by (unfold e, z; apply Rabs_triang). assert (z0 : 0 <= z) by (pose proof (Rabs_pos e); lra). clearbody e z.
  pose proof (Rabs_pos (V w)) as W0. set (aw := Rabs (V w)) in *.
  match type of I2 with Rabs (?d - ?x) <= _ => set (dd := d) in *; set (xx := x) in * end. match type of I4 with 0 <= ?s => set (ss := s) in * end. match type of I5 with 0 <= ?s => set (ll := s) in * end. clearbody dd xx ss ll.
  assert (M1 : Rabs ((V c - e) * V w) <= 2.01 * u24 * (z * aw) + 4 * eta * aw). { rewrite Rabs_mult. fold aw. replace (2.01 * u24 * (z * aw) + 4 * eta * aw) with ((2.01 * u24 * z + 4 * eta) * aw) by ring. apply Rmult_le_compat_r; auto. }
  assert (M2 : Rabs (e * V w) <= z * aw). { rewrite Rabs_mult. fold aw. apply Rmult_le_compat_r; auto. }
  assert (M0 : 0 <= z * aw) by (apply Rmult_le_pos; auto).
  split; [intros a w' [E|E]; [apply (f_equal fst) in E as E'; apply (f_equal snd) in E; cbn in E, E'; subst; auto|auto]|]. split; [|split; [|split]].
  - replace (V c * V w + dd - (e * V w + xx)) with ((V c - e) * V w + (dd - xx)) by ring. pose proof (Rabs_triang ((V c - e) * V w) (dd - xx)). lra.
  - replace (V c * V w) with ((V c - e) * V w + e * V w) by ring. pose proof (Rabs_triang ((V c - e) * V w) (e * V w)). lra.
  - lra.
  - lra.
Qed.
Theorem seen_near a (f1 f2 : Z -> Z -> b32) segs vx vy : fin a = true -> fin vx = true -> fin vy = true -> (Z.of_nat (length segs) <= 1000000)%Z ->
  (forall x y w, In (x, y, w) segs -> fin (f1 x y) = true /\ fin (f2 x y) = true /\ fin w = true /\ Rabs (V (f1 x y) * V vx) + Rabs (V (f2 x y) * V vy) <= bpow radix2 100) ->
  let r := (segs, (vx, vy)) in let n := INR (length segs) in Rabs (V a) + 2 * sizeV f1 f2 r + lengthV r <= 2 ^ 120 ->
  fin (seenV a f1 f2 r) = true /\ Rabs (V (seenV a f1 f2 r) - (V a + exactV f1 f2 r)) <= (n + 3) / 2 ^ 23 * (Rabs (V a) + sizeV f1 f2 r) + (lengthV r + n) / 2 ^ 147.
Proof.
  intros Fa Fx Fy Hl H r n Hc. destruct (terms_near f1 f2 vx vy segs Fx Fy H) as (T1 & T2 & T3 & T4 & T5). fold r in T2, T3, T4, T5. rewrite <- cap_pow in Hc. pose proof (Rabs_pos (V a)) as A0.
  assert (H0 : 0 < eta) by apply bpow_gt_0. assert (H1 : eta <= / 16) by (unfold eta; replace (/ 16) with (bpow radix2 (-4)) by (cbn; lra); apply bpow_le; lia).
  change (seenV a f1 f2 r) with (dotF a (map (fun '(x, y, w) => (fadd (fmul (f1 x y) vx) (fmul (f2 x y) vy), w)) segs)). set (l := map _ segs) in *. assert (Ll : length l = length segs) by (unfold l; apply map_length).
  set (W := lengthV r) in *. set (A := sizeV f1 f2 r) in *. set (X := exactV f1 f2 r) in *. clearbody W A X. assert (EW : 0 <= eta * W <= / 16 * W) by (split; [apply Rmult_le_pos; lra|apply Rmult_le_compat_r; lra]).
  destruct (dot_error a l Fa T1 ltac:(now rewrite Ll) ltac:(lra)) as (F & E). split; auto. rewrite Ll in E. fold n in E.
  assert (N : 0 <= n <= 1000000). { unfold n. split; [apply pos_INR|]. rewrite INR_IZR_INZ. apply IZR_le. exact Hl. }
  assert (P : (n + 3) / 2 ^ 23 * (Rabs (V a) + A) + (W + n) / 2 ^ 147 = / 8388608 * (n + 3) * (Rabs (V a) + A) + 8 * eta * (W + n)).
  { assert (Ee : eta = / 2 ^ 150) by (unfold eta; change (-150)%Z with (- Z.of_nat 150)%Z; now rewrite bpow_opp, bpow_pow). rewrite Ee. replace 150%nat with (3 + 147)%nat by reflexivity. rewrite pow_add. assert (2 ^ 147 <> 0) by (apply pow_nonzero; lra). set (t := 2 ^ 147) in *. clearbody t. replace (2 ^ 23) with 8388608 by (simpl; ring). replace (2 ^ 3) with 8 by (simpl; ring). field. auto. }
  rewrite P. clear P. set (D := V (dotF a l)) in *. replace (D - (V a + X)) with (D - (V a + dotR l) + (dotR l - X)) by ring. pose proof (Rabs_triang (D - (V a + dotR l)) (dotR l - X)) as T. set (S := absR l) in *. set (ra := Rabs (V a)) in *. clearbody S ra D.
  assert (Q : / 8388608 * (n + 1) * (ra + S) <= / 8388608 * (n + 1) * (ra + ((1 + 2.01 * u24) * A + 4 * eta * W))) by (apply Rmult_le_compat_l; lra).
  assert (Q1 : 0 <= n * A <= 1000000 * A) by (split; [apply Rmult_le_pos; lra|apply Rmult_le_compat_r; lra]). assert (Q2 : 0 <= n * (eta * W) <= 1000000 * (eta * W)) by (split; [apply Rmult_le_pos; lra|apply Rmult_le_compat_r; lra]). assert (Q3 : 0 <= n * ra) by (apply Rmult_le_pos; lra). assert (Q4 : 0 <= n * eta) by (apply Rmult_le_pos; lra).
  replace (/ 8388608 * (n + 1) * (ra + ((1 + 2.01 * u24) * A + 4 * eta * W))) with (/ 8388608 * (n * ra + ra + (1 + 2.01 * u24) * (n * A) + (1 + 2.01 * u24) * A + 4 * (n * (eta * W)) + 4 * (eta * W))) in Q by ring.
  replace (/ 8388608 * (n + 3) * (ra + A) + 8 * eta * (W + n)) with (/ 8388608 * (n * ra + 3 * ra + n * A + 3 * A) + 8 * (eta * W) + 8 * (n * eta)) by ring.
  replace (4 * n * eta) with (4 * (n * eta)) in E by ring. replace (4 * eta * W) with (4 * (eta * W)) in T2 by ring. lra.
Qed.
