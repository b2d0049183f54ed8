From Verif Require Import Base Order CLoop Model_Ray Model_RayF Model_SolverF Model_PmlF Model_PrepF Spec_SolverF Spec_PrepF.
From Verif Require Import Proofs_FloatB Proofs_RayF2 Proofs_RayF3 Proofs_SolverF Proofs_SolverF5 Proofs_SolverF7 Proofs_PrepF Proofs_PrepF2.
From Coq Require Import Reals Lra Psatz.
From Flocq Require Import Core BinarySingleNaN.
Local Open Scope R_scope.

Lemma rd_close x B w : Rabs x <= B -> / 16777216 * B + eta <= w -> - w <= rd x - x <= w.
Proof. intros H Hw. pose proof (rd_rel x) as R. fold eta in R. apply abs_inv. lra. Qed.
Lemma abs_shift x y a b : Rabs x <= a -> - b <= y - x <= b -> Rabs y <= a + b.
Proof. intros H1 H2. apply abs_inv in H1. apply Rabs_le. lra. Qed.
(** The line through two computed levels *)
Section Line.
  Variables (l r L R m M k D j : R).
  Hypothesis Hk : 0 <= k.
  Hypothesis Hm : lo60 <= m.
  Hypothesis HM : M <= hi60.
  Let w := unit_ * M.
  Let e := (2 * k + 4) * w.
  Hypothesis HL : m <= L <= M.
  Hypothesis HR : m <= R <= M.
  Hypothesis Hl : Rabs (l - L) <= e.
  Hypothesis Hr : Rabs (r - R) <= e.
  Hypothesis Cond : (12 * k + 40) * w <= m.
  Hypothesis HD : 1 <= D <= 1000000.
  Hypothesis Hj : 0 <= j <= D.
  Let A := L + (R - L) / D * j.
  Lemma w_pos : 0 < w /\ w = / 16777216 * M /\ 0 <= eta <= / 1000000 * w /\ 0 <= e /\ 6 * e + 16 * w <= m.
  Proof.
    assert (M0 : lo60 <= M) by lra. assert (P : 0 < w) by (unfold w, unit_, lo60 in *; lra). pose proof (eta_lo M M0) as E. fold w in E. unfold e. repeat split; try lra. apply Rmult_le_pos; lra.
  Qed.
  Lemma tau : 0 <= j / D <= 1.
  Proof. split; [apply Rmult_le_pos; [lra|left; apply Rinv_0_lt_compat; lra]|]. apply Rmult_le_reg_r with D; [lra|]. unfold Rdiv. rewrite Rmult_assoc, Rinv_l by lra. lra. Qed.
  Lemma line_level : Rabs l <= 2 * M /\ Rabs r <= 2 * M /\ 0 < l /\ 0 < r.
  Proof. destruct w_pos as (W0 & W & Et & E0 & C). apply abs_inv in Hl, Hr. repeat split; try (apply Rabs_le); lra. Qed.
  Lemma line_1 : Rabs (r - l) <= M /\ - (2 * e + 101 / 100 * w) <= rd (r - l) - (R - L) <= 2 * e + 101 / 100 * w /\ Rabs (rd (r - l)) <= 101 / 100 * M.
  Proof.
    destruct w_pos as (W0 & W & Et & E0 & C). pose proof (abs_inv _ _ Hl). pose proof (abs_inv _ _ Hr). assert (B : Rabs (r - l) <= M) by (apply Rabs_le; lra).
    pose proof (rd_close (r - l) M (101 / 100 * w) B ltac:(lra)) as Q. split; [exact B|]. split; [lra|]. eapply Rle_trans; [apply (abs_shift _ _ _ _ B Q)|]. lra.
  Qed.
  Lemma line_2 d : Rabs d <= 101 / 100 * M -> Rabs (d / D) <= 101 / 100 * M /\ - (2.1 * w) <= rd (d / D) * j - d * (j / D) <= 2.1 * w /\ Rabs (rd (d / D) * j) <= 1.02 * M.
  Proof.
    intros Hd. destruct w_pos as (W0 & W & Et & E0 & C). pose proof tau as T. pose proof (rd_rel (d / D)) as Rq. fold eta in Rq. assert (ID : 0 < / D <= 1) by (split; [apply Rinv_0_lt_compat; lra|rewrite <- Rinv_1; apply Rinv_le_contravar; lra]).
    assert (Bd : Rabs (d / D) = Rabs d * / D) by (unfold Rdiv; rewrite Rabs_mult, (Rabs_pos_eq (/ D)); lra). pose proof (Rabs_pos d) as Pd.
    assert (B0 : Rabs (d / D) <= 101 / 100 * M) by (rewrite Bd; nra). split; [exact B0|].
    assert (G : Rabs (rd (d / D) * j - d * (j / D)) <= 2.1 * w).
    { replace (rd (d / D) * j - d * (j / D)) with ((rd (d / D) - d / D) * j) by (field; lra). rewrite Rabs_mult, (Rabs_pos_eq j) by lra.
      apply Rle_trans with ((/ 16777216 * Rabs (d / D) + eta) * j); [apply Rmult_le_compat_r; [lra|exact Rq]|]. rewrite Bd. replace ((/ 16777216 * (Rabs d * / D) + eta) * j) with (/ 16777216 * (Rabs d * (j / D)) + eta * j) by (field; lra).
      assert (Rabs d * (j / D) <= Rabs d * 1) by (apply Rmult_le_compat_l; lra). assert (eta * j <= / 1000000 * w * 1000000) by (apply Rmult_le_compat; lra). lra. }
    apply abs_inv in G. split; [exact G|]. assert (Rabs (d * (j / D)) <= 101 / 100 * M). { rewrite Rabs_mult, (Rabs_pos_eq (j / D)) by lra. assert (Rabs d * (j / D) <= Rabs d * 1) by (apply Rmult_le_compat_l; lra). lra. }
    eapply Rle_trans; [apply (abs_shift _ _ _ _ H G)|]. lra.
  Qed.
  Definition line_value := rd (l + rd (rd (rd (r - l) / D) * j)).
  Theorem line_close : Rabs (rd (rd (rd (r - l) / D) * j)) <= 2 * M /\ Rabs (l + rd (rd (rd (r - l) / D) * j)) <= 2 * M /\
    m <= A <= M /\ Rabs (line_value - A) <= (6 * k + 18) * w.
  Proof.
    destruct w_pos as (W0 & W & Et & E0 & C). destruct line_1 as (B1 & B2 & B3). destruct (line_2 _ B3) as (_ & B4 & B5). pose proof tau as T. set (d := rd (r - l)) in *. set (q := rd (d / D)) in *.
    pose proof (rd_close (q * j) (1.02 * M) (1.03 * w) B5 ltac:(lra)) as B6. set (p := rd (q * j)) in *. pose proof (abs_inv _ _ Hl).
    assert (EA : A = L + (R - L) * (j / D)) by (unfold A, Rdiv; ring). assert (RA : - (2 * e + 101 / 100 * w) <= d * (j / D) - (R - L) * (j / D) <= 2 * e + 101 / 100 * w).
    { assert (0 <= 2 * e + 101 / 100 * w) by lra. replace (d * (j / D) - (R - L) * (j / D)) with ((d - (R - L)) * (j / D)) by ring. set (z := d - (R - L)) in *. clearbody z. split; nra. }
    assert (BA : m <= A <= M). { rewrite EA. replace (L + (R - L) * (j / D)) with (L * (1 - j / D) + R * (j / D)) by ring. split; nra. }
    assert (S : - (3 * e + 4.2 * w) <= l + p - A <= 3 * e + 4.2 * w) by (rewrite EA; lra).
    assert (B7 : Rabs (l + p) <= 3 / 2 * M) by (apply Rabs_le; lra). pose proof (rd_close (l + p) (3 / 2 * M) (1.51 * w) B7 ltac:(lra)) as B8.
    assert (B9 : Rabs p <= 2 * M). { eapply Rle_trans; [apply (abs_shift _ _ _ _ B5 B6)|]. lra. }
    split; [exact B9|]. split; [lra|]. split; [exact BA|]. unfold line_value. fold d. fold q. fold p. apply Rabs_le. unfold e in *. lra.
  Qed.
End Line.
Section BgClose.
  Variables (dz nair : Z) (row : Z -> b32) (m M : R).
  Hypothesis Ha : (1 <= nair <= dz)%Z.
  Hypothesis Hz : (2 <= dz <= 1000000)%Z.
  Hypothesis Hm : lo60 <= m.
  Hypothesis HM : M <= hi60.
  Hypothesis Row : forall j, (0 <= j < dz)%Z -> fin (row j) = true /\ m <= V (row j) <= M.
  Hypothesis Cond : (12 * IZR nair + 40) * (unit_ * M) <= m.
  Notation VV := (B2R (prec := 24) (emax := 128)).
  Lemma level_close (idx : Z -> Z) : (forall q, (0 <= q < nair)%Z -> (0 <= idx q < dz)%Z) ->
    let l := air_level nair (sumF (map (fun q => row (idx q)) (zrange 0 nair))) in let L := meanR (map (fun q => V (row (idx q))) (zrange 0 nair)) in
    fin l = true /\ Rabs (V l - L) <= (2 * IZR nair + 4) * (unit_ * M) /\ m <= L <= M.
  Proof.
    intros Hi. cbv zeta. set (f := fun q => row (idx q)). assert (m <= M) by (specialize (Row 0%Z ltac:(lia)); lra). assert (lo60 = / 1152921504606846976) by reflexivity.
    assert (Len : length (map f (zrange 0 nair)) = Z.to_nat nair) by (rewrite map_length, zrange_length; f_equal; lia). assert (NE : map f (zrange 0 nair) <> []) by (intros Q; rewrite Q in Len; cbn in Len; lia).
    assert (In_ : forall x, In x (map f (zrange 0 nair)) -> fin x = true /\ m <= V x <= M). { intros x Hx. apply in_map_iff in Hx. destruct Hx as (q & <- & Hq). apply in_zrange in Hq. apply Row. auto. }
    destruct (mean_close (map f (zrange 0 nair)) M NE) as (F & E).
    - rewrite Len. lia.
    - intros x Hx. destruct (In_ x Hx) as (Fx & Bx). split; auto. rewrite Rabs_pos_eq; lra.
    - lra.
    - rewrite Len, Z2Nat.id in F, E by lia. rewrite INR_IZR_INZ, Z2Nat.id in E by lia. rewrite map_map in E. fold f in F, E. set (L := meanR _) in *.
      assert (B : m <= L <= M). { apply mean_bounds; [now rewrite zrange_cons by lia|]. intros x Hx. apply in_map_iff in Hx. destruct Hx as (q & <- & Hq). apply in_zrange in Hq. apply Row. auto. }
      unfold air_level. cbv zeta. set (a := fdiv _ _) in *. assert (P : 0 < V a).
      { apply abs_inv in E. assert (0 <= unit_ * M) by (unfold unit_; lra). assert (1 <= IZR nair) by (apply IZR_le; lia). nra. }
      assert (Nle : fle a zeroF = false). { destruct (fle a zeroF) eqn:Q; auto. unfold fle in Q. rewrite Bleb_correct in Q by auto. change (V zeroF) with 0 in Q. destruct (Rle_bool_spec (V a) 0); [lra|discriminate]. }
      rewrite Nle. auto.
  Qed.
  Theorem bg_close j : (0 <= j < dz)%Z ->
    let L := meanR (map (fun q => V (row q)) (zrange 0 nair)) in let R := meanR (map (fun q => V (row (dz - 1 - q)%Z)) (zrange 0 nair)) in let A := lineR dz L R j in
    let o := fdiv (row j) (fadd (air_level nair (sumF (map (fun q => row q) (zrange 0 nair)))) (fmul (fdiv (fsub (air_level nair (sumF (map (fun q => row (dz - 1 - q)%Z) (zrange 0 nair)))) (air_level nair (sumF (map (fun q => row q) (zrange 0 nair))))) (of_int (dz - 1))) (of_int j))) in
    m <= A <= M /\ fin o = true /\ Rabs (V o - V (row j) / A) <= (12 * IZR nair + 40) / 16777216 * (M / m) * (V (row j) / A).
  Proof.
    intros Hj. cbv zeta. destruct (level_close (fun q => q) ltac:(intros; lia)) as (Fl & El & BL). destruct (level_close (fun q => dz - 1 - q)%Z ltac:(intros; lia)) as (Fr & Er & BR). cbv beta zeta in *.
    set (l := air_level _ (sumF (map (fun q => row q) _))) in *. set (r := air_level _ (sumF (map (fun q => row (dz - 1 - q)%Z) _))) in *. set (L := meanR (map (fun q => V (row q)) _)) in *. set (R := meanR (map (fun q => V (row (dz - 1 - q)%Z)) _)) in *.
    assert (K1 : 1 <= IZR nair) by (apply IZR_le; lia). assert (D1 : 1 <= IZR (dz - 1) <= 1000000) by (split; apply IZR_le; lia). assert (J1 : 0 <= IZR j <= IZR (dz - 1)) by (split; apply IZR_le; lia).
    assert (K0 : 0 <= IZR nair) by lra. pose proof (w_pos L m M (IZR nair) K0 Hm BL Cond) as WP. cbv zeta in WP.
    pose proof (line_level (V l) (V r) L R m M (IZR nair) K0 Hm BL BR El Er Cond) as (Bl & Br & _ & _).
    pose proof (line_1 (V l) (V r) L R m M (IZR nair) K0 Hm BL BR El Er Cond) as (B1 & _ & B3).
    pose proof (line_2 L m M (IZR nair) (IZR (dz - 1)) (IZR j) K0 Hm BL Cond D1 J1 _ B3) as (B2 & _ & B5).
    pose proof (line_close (V l) (V r) L R m M (IZR nair) (IZR (dz - 1)) (IZR j) K0 Hm BL BR El Er Cond D1 J1) as (B6 & B7 & BA & EA). cbv zeta in *. unfold line_value in EA.
    assert (H61 : rep (bpow radix2 61)) by (apply rep_bpow; lia). assert (Hh : bpow radix2 61 < huge) by (apply bpow_lt; lia). assert (H2 : 2 * M <= bpow radix2 61). { change 61%Z with (1 + 60)%Z. rewrite bpow_plus, <- hi_bpow. change (bpow radix2 1) with 2. lra. }
    destruct (of_int_ok (dz - 1) ltac:(lia)) as (Fd & Ed). destruct (of_int_ok j ltac:(lia)) as (Fj & Ej).
    destruct (fsub_ok r l (bpow radix2 61) Fr Fl H61) as (Fs & Es); [lra|exact Hh|]. destruct (fdiv_ok (fsub r l) (of_int (dz - 1)) (bpow radix2 61) Fs) as (Fq & Eq); [rewrite Ed; lra|exact H61|rewrite Es, Ed; lra|exact Hh|]. rewrite Es, Ed in Eq.
    destruct (fmul_ok _ _ (bpow radix2 61) Fq Fj H61) as (Fp & Ep); [rewrite Eq, Ej; lra|exact Hh|]. rewrite Eq, Ej in Ep. destruct (fadd_ok _ _ (bpow radix2 61) Fl Fp H61) as (Fa & Ea); [rewrite Ep; lra|exact Hh|]. rewrite Ep in Ea.
    set (a := fadd l _) in *. rewrite <- Ea in EA. clear Es Eq Ep Ea Fs Fq Fp Fl Fr El Er Bl Br B1 B3 B2 B5 B6 B7. assert (QA : L + (R - L) / IZR (dz - 1) * IZR j = lineR dz L R j) by (unfold lineR; rewrite minus_IZR; reflexivity). rewrite QA in *.
    set (A := lineR dz L R j) in *. split; [exact BA|]. destruct (Row j Hj) as (Fx & Bx). destruct WP as (W0 & W & Et & _ & C). set (x := V (row j)) in *. set (w := unit_ * M) in *. set (k := IZR nair) in *.
    assert (mp : 0 < m) by (unfold lo60 in *; lra). apply abs_inv in EA. assert (La : m / 2 <= V a) by lra. assert (Xp : 0 < x / A) by (apply Rdiv_lt_0_compat; lra).
    assert (Q : Rabs (x / V a - x / A) <= (12 * k + 36) * (w / m) * (x / A)).
    { replace (x / V a - x / A) with ((A - V a) / V a * (x / A)) by (field; lra). rewrite Rabs_mult, (Rabs_pos_eq (x / A)) by lra. apply Rmult_le_compat_r; [lra|]. unfold Rdiv at 1. rewrite Rabs_mult, (Rabs_pos_eq (/ V a)) by (left; apply Rinv_0_lt_compat; lra).
      assert (Rabs (A - V a) <= (6 * k + 18) * w) by (apply Rabs_le; lra). assert (0 <= / V a <= 2 * / m). { split; [left; apply Rinv_0_lt_compat; lra|]. replace (2 * / m) with (/ (m / 2)) by (field; lra). apply Rinv_le_contravar; lra. }
      pose proof (Rabs_pos (A - V a)). replace ((12 * k + 36) * (w / m)) with ((6 * k + 18) * w * (2 * / m)) by (field; lra). apply Rmult_le_compat; lra. }
    assert (Wm : 0 <= w / m) by (apply Rmult_le_pos; [lra|left; apply Rinv_0_lt_compat; lra]). assert (Cm : (12 * k + 40) * (w / m) <= 1). { apply Rmult_le_reg_r with m; [lra|]. replace ((12 * k + 40) * (w / m) * m) with ((12 * k + 40) * w) by (field; lra). lra. }
    assert (Um : / 16777216 <= w / m). { apply Rmult_le_reg_r with m; [lra|]. replace (w / m * m) with w by (field; lra). rewrite W. lra. }
    assert (XA : x / A <= / 16777216 * 16777216 * (M / m)). { rewrite Rinv_l, Rmult_1_l by lra. unfold Rdiv. apply Rmult_le_compat; try lra. left. apply Rinv_0_lt_compat. lra. apply Rinv_le_contravar; lra. }
    assert (Kw : 0 <= k * w) by (apply Rmult_le_pos; lra). assert (Mm : M / m <= 16777216 / 40). { apply Rmult_le_reg_r with m; [lra|]. replace (M / m * m) with M by (field; lra). lra. }
    assert (XL : / 16777216 <= x / A). { apply Rle_trans with (m / M); [|unfold Rdiv; apply Rmult_le_compat; try lra; [left; apply Rinv_0_lt_compat; lra|apply Rinv_le_contravar; lra]]. apply Rmult_le_reg_r with M; [lra|]. replace (m / M * M) with m by (field; lra). lra. }
    assert (Xa : Rabs (x / V a) <= 2 * (x / A)). { apply abs_inv in Q. assert ((12 * k + 36) * (w / m) * (x / A) <= 1 * (x / A)) by (apply Rmult_le_compat_r; lra). apply Rabs_le. lra. }
    destruct (fdiv_ok (row j) a (bpow radix2 61) Fx) as (Fo & Eo); [lra|exact H61| |exact Hh|].
    { fold x. assert (2 * 16777216 <= bpow radix2 61) by (cbn; lra). lra. }
    split; [exact Fo|]. rewrite Eo. fold x. pose proof (rd_rel (x / V a)) as Rr. fold eta in Rr. apply abs_inv in Rr, Q. pose proof eta_small as Es.
    assert (Et' : eta <= / 16777216 * (x / A)). { unfold eta. apply Rle_trans with (/ 16777216 * / 16777216); [|lra]. cbn. lra. }
    assert (U2 : / 16777216 * (x / A) <= w / m * (x / A)) by (apply Rmult_le_compat_r; lra). replace ((12 * k + 40) / 16777216 * (M / m) * (x / A)) with ((12 * k + 40) * (w / m) * (x / A)) by (rewrite W; field; lra). apply Rabs_le. lra.
  Qed.
End BgClose.
