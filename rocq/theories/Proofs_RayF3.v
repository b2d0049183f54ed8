From Verif Require Import Base Order CLoop Model_Ray Proofs_Ray Model_RayF Proofs_FloatB Proofs_RayF Proofs_RayF2.
From Coq Require Import Reals Lra Sorted Psatz.
From Flocq Require Import Core BinarySingleNaN.
Local Open Scope R_scope.

(** ** Lengths of the segments *)
Lemma fsqrt_ok x : fin x = true -> 0 <= V x -> fin (fsqrt x) = true /\ 0 <= V (fsqrt x).
Proof.
  intros F H. pose proof (Bsqrt_correct 24 128 p32 e32 mode_NE x) as (E & Fs & _). fold (fsqrt x) in E, Fs. split.
  - unfold fin. rewrite Fs. destruct x as [s|?| |[|] m e B]; cbn in F |- *; auto; try discriminate.
    cbn in H. exfalso. assert (F2R (Float radix2 (Z.neg m) e) < 0) by (apply F2R_lt_0; reflexivity). lra.
  - rewrite E. change (0 <= rd (sqrt (V x))). apply rd_ge_rep; [apply (rep_IZR 0); lia|apply sqrt_pos].
Qed.
Lemma dist_ok (c : arr pointF) n k : (0 <= k <= 2 ^ 15)%Z -> fin (fst (c n)) = true -> fin (snd (c n)) = true -> fin (fst (c (n + 1)%Z)) = true -> fin (snd (c (n + 1)%Z)) = true ->
  Rabs (V (fst (c n))) <= IZR k -> Rabs (V (snd (c n))) <= IZR k -> Rabs (V (fst (c (n + 1)%Z))) <= IZR k -> Rabs (V (snd (c (n + 1)%Z))) <= IZR k ->
  fin (seg_distF c n) = true /\ 0 <= V (seg_distF c n).
Proof.
  intros Hk F1 F2 F3 F4 B1 B2 B3 B4. assert (0 <= IZR k <= IZR (2 ^ 15)) as Rk by (split; apply IZR_le; lia). change (IZR (2 ^ 15)) with 32768 in Rk.
  apply abs_inv in B1, B2, B3, B4.
  assert (D : forall u v, fin u = true -> fin v = true -> - IZR k <= V u <= IZR k -> - IZR k <= V v <= IZR k ->
    fin (fmul (fsub u v) (fsub u v)) = true /\ 0 <= V (fmul (fsub u v) (fsub u v)) <= IZR (2 ^ 32)).
  { intros u v Fu Fv Hu Hv.
    assert (B : Rabs (V u - V v) <= IZR (2 ^ 16)) by (change (IZR (2 ^ 16)) with 65536; apply Rabs_le; lra).
    destruct (fsub_ok u v _ Fu Fv (rep_IZR (2 ^ 16) ltac:(lia)) B (huge_big (2 ^ 16) ltac:(lia))) as (Fs & Es).
    assert (Bs : Rabs (V (fsub u v)) <= 65536) by (rewrite Es; apply rd_abs_le; [apply (rep_IZR (2 ^ 16)); lia|exact B]).
    assert (R32 : rep (IZR (2 ^ 32))). { change (IZR (2 ^ 32)) with (bpow radix2 32). replace (bpow radix2 32) with (IZR 1 * bpow radix2 32) by lra. apply rep_dyadic; lia. }
    apply abs_inv in Bs.
    assert (Sq : 0 <= V (fsub u v) * V (fsub u v) <= IZR (2 ^ 32)) by (change (IZR (2 ^ 32)) with 4294967296; nra).
    destruct (fmul_ok (fsub u v) (fsub u v) (IZR (2 ^ 32)) Fs Fs R32) as (Fm & Em); [apply Rabs_le; lra|apply huge_big; lia|].
    split; [exact Fm|]. rewrite Em. split; [apply rd_ge_rep; [apply (rep_IZR 0); lia|lra]|apply rd_le_rep; [exact R32|lra]]. }
  destruct (D (fst (c (n + 1)%Z)) (fst (c n)) F3 F1 B3 B1) as (Fx & Bx). destruct (D (snd (c (n + 1)%Z)) (snd (c n)) F4 F2 B4 B2) as (Fy & By).
  unfold seg_distF. cbv zeta. set (X := fmul _ _) in *. set (Y := fmul (fsub (snd _) _) _) in *.
  assert (R33 : rep (IZR (2 ^ 33))). { change (IZR (2 ^ 33)) with (bpow radix2 33). replace (bpow radix2 33) with (IZR 1 * bpow radix2 33) by lra. apply rep_dyadic; lia. }
  change (IZR (2 ^ 32)) with 4294967296 in *.
  destruct (fadd_ok X Y (IZR (2 ^ 33)) Fx Fy R33) as (Fs & Es); [apply Rabs_le; change (IZR (2 ^ 33)) with 8589934592; lra|apply huge_big; lia|].
  apply fsqrt_ok; auto. rewrite Es. apply rd_ge_rep; [apply (rep_IZR 0); lia|lra].
Qed.

(** ** How far a computed coordinate is from the line *)
Definition eta : R := bpow radix2 (-150).
Lemma eta_small : 0 <= eta <= / 1000000000000.
Proof. split; [apply bpow_ge_0|]. unfold eta. apply Rle_trans with (bpow radix2 (-40)); [apply bpow_le; lia|]. cbn. lra. Qed.
Lemma rd_back k x : rep k -> Rabs (rd x) < k -> Rabs x < k.
Proof.
  intros Rk H. destruct (Rlt_le_dec (Rabs x) k) as [|L]; auto. exfalso.
  assert (k <= x \/ x <= - k) as [P|P] by (revert L; unfold Rabs; destruct (Rcase_abs x); lra).
  - apply (rd_ge_rep x k Rk) in P. revert H. unfold Rabs. destruct (Rcase_abs (rd x)); lra.
  - apply (rd_le_rep x (- k) (rep_opp _ Rk)) in P. revert H. unfold Rabs. destruct (Rcase_abs (rd x)); lra.
Qed.
Lemma coord_err tau a s : Rabs a <= 131072 -> Rabs s <= 32768 -> Rabs (rd (rd (rd tau * a) + s)) < 8192 ->
  Rabs (rd (rd (rd tau * a) + s) - (s + tau * a)) <= 612 / 100000.
Proof.
  intros Ha Hs HX. set (t := rd tau) in *. set (m := rd (t * a)) in *.
  assert (Hw : Rabs (m + s) < 8192) by (apply rd_back; [apply (rep_IZR (2 ^ 13)); lia|exact HX]).
  assert (E1 : Rabs (rd (m + s) - (m + s)) <= / 4096). { change (/ 4096) with (bpow radix2 (13 - 25)). apply rd_err; [lia|]. change (bpow radix2 13) with 8192. lra. }
  assert (Hm : Rabs m < 65536). { apply abs_inv in Hs. apply Rabs_def2 in Hw. apply Rabs_def1; lra. }
  assert (Hp : Rabs (t * a) < 65536) by (apply rd_back; [apply (rep_IZR (2 ^ 16)); lia|exact Hm]).
  assert (E2 : Rabs (m - t * a) <= / 512). { change (/ 512) with (bpow radix2 (16 - 25)). apply rd_err; [lia|]. change (bpow radix2 16) with 65536. lra. }
  pose proof (rd_rel tau) as E3. fold t in E3. fold eta in E3. pose proof eta_small as Le.
  set (q := Rabs tau * Rabs a). pose proof (Rabs_pos a) as Pa. pose proof (Rabs_pos tau) as Pt.
  assert (E4 : Rabs (t * a - tau * a) <= / 16777216 * q + eta * Rabs a).
  { replace (t * a - tau * a) with ((t - tau) * a) by ring. rewrite Rabs_mult. unfold q.
    apply Rle_trans with ((/ 16777216 * Rabs tau + eta) * Rabs a); [apply Rmult_le_compat_r; auto|right; ring]. }
  assert (E5 : eta * Rabs a <= / 1000000).
  { apply Rle_trans with (/ 1000000000000 * 131072); [apply Rmult_le_compat; lra|lra]. }
  assert (Q : q <= 65536 + (/ 16777216 * q + / 1000000)).
  { unfold q at 1. rewrite <- Rabs_mult. replace (tau * a) with (t * a - (t * a - tau * a)) by ring.
    eapply Rle_trans; [apply Rabs_triang|]. rewrite Rabs_Ropp. lra. }
  apply abs_inv in E1. apply abs_inv in E2. apply abs_inv in E4. apply Rabs_le. lra.
Qed.

(** ** The line cannot pass inside every grid line of one family and inside the first or last of the other *)
Lemma fam_values (Q P s : b32) (r n k : Z) (o : b32) : (1 <= r <= 2 ^ 13)%Z -> (0 <= n <= r)%Z -> (1 <= k <= 2 ^ 13)%Z -> fin s = true -> fin o = true -> Rabs (V s) <= 32768 -> Rabs (V o) <= 32768 ->
  insideF k (fadd (fmul (fdiv Q P) (fsub (gridF r n) o)) s) = true ->
  fin Q = true /\ (fin P = true -> V P <> 0 /\ exists a, Rabs (a - (- IZR r / 2 + IZR n - V o)) <= / 512 /\
    - IZR k / 2 + 93 / 10000 - 612 / 100000 <= V s + V Q / V P * a <= IZR k / 2 - 93 / 10000 + 612 / 100000).
Proof.
  intros Hr Hn Hk Fs Fo Bs Bo H. destruct (inside_ok k _ ltac:(lia) H) as (F & L). destruct (fadd_fin _ _ F) as (F1 & _ & E1). destruct (fmul_fin _ _ F1) as (F2 & F3 & E2).
  destruct (fdiv_fin _ _ F2) as (FQ & D). split; [exact FQ|]. intros FP. destruct (D FP) as (N & E3). split; [exact N|].
  destruct (fsub_fin _ _ F3) as (_ & _ & E4). destruct (grid_ok r n) as (_ & Eg); [lia|lia|]. rewrite Eg in E4.
  set (a := V (fsub (gridF r n) o)) in *. exists a.
  assert (Rr : 1 <= IZR r <= 8192) by (split; [|change 8192 with (IZR (2 ^ 13))]; apply IZR_le; lia).
  assert (Rk : 1 <= IZR k <= 8192) by (split; [|change 8192 with (IZR (2 ^ 13))]; apply IZR_le; lia).
  assert (Rn : 0 <= IZR n <= IZR r) by (split; apply IZR_le; lia). apply abs_inv in Bo as Bo'.
  assert (B : Rabs (- IZR r / 2 + IZR n - V o) <= 65536) by (apply Rabs_le; lra).
  assert (Ea : Rabs (a - (- IZR r / 2 + IZR n - V o)) <= / 512).
  { rewrite E4. change (/ 512) with (bpow radix2 (16 - 25)). apply rd_err; [lia|]. exact B. }
  split; [exact Ea|]. rewrite E1, E2, E3 in L.
  assert (Ba : Rabs a <= 131072). { apply abs_inv in Ea. apply abs_inv in B. apply Rabs_le. lra. }
  assert (BX : Rabs (rd (rd (rd (V Q / V P) * a) + V s)) < 8192) by (apply Rabs_def1; lra).
  pose proof (coord_err _ _ _ Ba Bs BX) as C. apply abs_inv in C. lra.
Qed.
Lemma no_corner (P Q sx sy : b32) (ry rz g : Z) : (1 <= ry <= 2 ^ 13)%Z -> (1 <= rz <= 2 ^ 13)%Z -> fin sx = true -> fin sy = true ->
  Rabs (V sx) <= 32768 -> Rabs (V sy) <= 32768 -> g = 0%Z \/ g = ry ->
  insideF ry (fadd (fmul (fdiv Q P) (fsub (gridF rz 0) sy)) sx) = true ->
  insideF ry (fadd (fmul (fdiv Q P) (fsub (gridF rz rz) sy)) sx) = true ->
  insideF rz (fadd (fmul (fdiv P Q) (fsub (gridF ry g) sx)) sy) = true -> False.
Proof.
  intros Hy Hz Fx Fy Bx By Hg I0 Ir Ig.
  destruct (fam_values Q P sx rz 0 ry sy Hz ltac:(lia) Hy Fx Fy Bx By I0) as (FQ & D0). destruct (fam_values Q P sx rz rz ry sy Hz ltac:(lia) Hy Fx Fy Bx By Ir) as (_ & Dr).
  destruct (fam_values P Q sy ry g rz sx Hy ltac:(lia) Hz Fy Fx By Bx Ig) as (FP & Dg).
  destruct (D0 FP) as (NP & a & Ea & La). destruct (Dr FP) as (_ & b & Eb & Lb). destruct (Dg FQ) as (NQ & c & Ec & Lc). clear D0 Dr Dg I0 Ir Ig.
  apply abs_inv in Ea, Eb, Ec. set (t := V Q / V P) in *. assert (Nt : t <> 0) by (unfold t; apply Rmult_integral_contrapositive_currified; [auto|now apply Rinv_neq_0_compat]).
  replace (V P / V Q) with (/ t) in Lc by (unfold t; field; auto).
  set (d := / t * c) in *. assert (Ed : t * d = c) by (unfold d; field; auto).
  assert (Rz : 1 <= IZR rz) by (apply IZR_le; lia).
  assert (Gy : V sx + c <= - IZR ry / 2 + / 512 \/ IZR ry / 2 - / 512 <= V sx + c) by (destruct Hg as [-> | ->]; [left|right]; lra).
  assert (a <= d) by lra. assert (d <= b) by lra.
  destruct (Rle_or_lt 0 t) as [T|T].
  - assert (t * a <= t * d) by (apply Rmult_le_compat_l; auto). assert (t * d <= t * b) by (apply Rmult_le_compat_l; auto). lra.
  - assert (t * d <= t * a) by (apply Rmult_le_compat_neg_l; lra). assert (t * b <= t * d) by (apply Rmult_le_compat_neg_l; lra). lra.
Qed.

(** ** Counting the points kept *)
Lemma filter_all {A} (p : A -> bool) l : (length l <= length (filter p l))%nat -> forall x, In x l -> p x = true.
Proof.
  induction l as [|y l IH]; cbn; [easy|]. intros H x [<-|Hx].
  - destruct (p y); auto. exfalso. assert (length (filter p l) <= length l)%nat by apply filter_le. lia.
  - destruct (p y); cbn in H; [apply IH; auto; lia|]. exfalso. assert (length (filter p l) <= length l)%nat by apply filter_le. lia.
Qed.
Lemma filter_most (p : Z -> bool) r : (1 <= r)%Z -> (r <= Z.of_nat (length (filter p (zrange 0 (r + 1)))))%Z -> p 0%Z = true \/ p r = true.
Proof.
  intros Hr H. destruct (p 0%Z) eqn:E0; auto. destruct (p r) eqn:E1; auto. exfalso.
  rewrite zrange_snoc, zrange_cons, filter_app in H by lia. cbn in H. rewrite E0, E1, app_nil_r in H.
  assert (length (filter p (zrange 1 r)) <= length (zrange 1 r))%nat by apply filter_le. rewrite zrange_length in *. lia.
Qed.
Theorem buffers ry rz quadrant (l : lineF) za zb zc : (1 <= ry <= 2 ^ 13)%Z -> (1 <= rz <= 2 ^ 13)%Z -> fin (fsrcx l) = true -> fin (fsrcy l) = true ->
  Rabs (V (fsrcx l)) <= 32768 -> Rabs (V (fsrcy l)) <= 32768 ->
  (fasize (traceF ry rz quadrant (coordxF rz l) (coordyF ry l) za zb zc) + fbsize (traceF ry rz quadrant (coordxF rz l) (coordyF ry l) za zb zc) <= ry + rz)%Z.
Proof.
  intros Hy Hz Fx Fy Bx By. destruct (trace_sizes ry rz quadrant (coordxF rz l) (coordyF ry l) za zb zc ltac:(lia) ltac:(lia)) as (Ea & Eb & _). rewrite Ea, Eb.
  pose proof (na_length ry rz (coordxF rz l) ltac:(lia)) as La. pose proof (nb_length ry rz (coordyF ry l) ltac:(lia)) as Lb.
  destruct (Z_le_gt_dec (Z.of_nat (length (na ry rz (coordxF rz l))) + Z.of_nat (length (nb ry rz (coordyF ry l)))) (ry + rz)) as [|G]; auto. exfalso.
  unfold na, nb, hitsF in *.
  destruct (Z.eq_dec (Z.of_nat (length (filter (fun n => insideF ry (coordxF rz l n)) (zrange 0 (rz + 1))))) (rz + 1)) as [A|A].
  - assert (All : forall n, In n (zrange 0 (rz + 1)) -> insideF ry (coordxF rz l n) = true) by (apply filter_all; rewrite zrange_length; lia).
    assert (insideF rz (coordyF ry l 0) = true \/ insideF rz (coordyF ry l ry) = true) as G' by (apply (filter_most (fun n => insideF rz (coordyF ry l n))); lia).
    destruct G' as [G'|G'].
    + eapply (no_corner (fsub (fsrcy l) (fdety l)) (fsub (fsrcx l) (fdetx l)) (fsrcx l) (fsrcy l) ry rz 0); eauto; apply All; apply in_zrange; lia.
    + eapply (no_corner (fsub (fsrcy l) (fdety l)) (fsub (fsrcx l) (fdetx l)) (fsrcx l) (fsrcy l) ry rz ry); eauto; apply All; apply in_zrange; lia.
  - assert (All : forall n, In n (zrange 0 (ry + 1)) -> insideF rz (coordyF ry l n) = true) by (apply filter_all; rewrite zrange_length; lia).
    assert (insideF ry (coordxF rz l 0) = true \/ insideF ry (coordxF rz l rz) = true) as G' by (apply (filter_most (fun n => insideF ry (coordxF rz l n))); lia).
    destruct G' as [G'|G'].
    + eapply (no_corner (fsub (fsrcx l) (fdetx l)) (fsub (fsrcy l) (fdety l)) (fsrcy l) (fsrcx l) rz ry 0); eauto; apply All; apply in_zrange; lia.
    + eapply (no_corner (fsub (fsrcx l) (fdetx l)) (fsub (fsrcy l) (fdety l)) (fsrcy l) (fsrcx l) rz ry rz); eauto; apply All; apply in_zrange; lia.
Qed.
