(** The Fourier filter of one column: linearity, kernel, gains. *)
From Coq Require Import Reals Lra.
From Verif Require Import Base Cplx Model_Prep Model_Stripe Model_StripeLarge Model_StripeFourier Spec_StripeFourier Proofs_Morph Proofs_Solver Proofs_Stripe Proofs_StripeLarge.
Local Open Scope R_scope.

Lemma re_csum n f : re (csum n f) = sum_to n (fun i => re (f i)).
Proof. unfold csum, sum_to. induction (zrange 0 n) as [|x l IH]; cbn [map fold_right]; auto. unfold cadd, re in *. cbn [fst]. now rewrite IH. Qed.
Lemma sum_to_ext n f g : (forall i, (0 <= i < n)%Z -> f i = g i) -> sum_to n f = sum_to n g.
Proof. exact (zsum_ext n f g). Qed.
Lemma csum_mul_r n k f : csum n (fun i => (f i * k)%C) = (csum n f * k)%C.
Proof. rewrite (csum_ext n _ (fun i => (k * f i)%C)) by (intros; ring). rewrite csum_mul. ring. Qed.
Lemma csum_const n k : (0 <= n)%Z -> csum n (fun _ => k) = (cr (IZR n) * k)%C.
Proof.
  intros H. rewrite <- (Z2Nat.id n) by lia. induction (Z.to_nat n) as [|m IH]; [rewrite csum_0 by lia; cbn [Z.of_nat]; cring|].
  rewrite Nat2Z.inj_succ. unfold Z.succ. rewrite csum_S, IH, plus_IZR, cr_add by lia. ring.
Qed.
Lemma turn_mod n a : (1 <= n)%Z -> turn n a = turn n (a mod n).
Proof. intros H. rewrite (Z.div_mod a n) at 1 by lia. rewrite Z.add_comm. now apply turn_period. Qed.
Lemma csum_turns n k : (1 <= n)%Z -> csum n (fun j => turn n (j * k)) = if (k mod n =? 0)%Z then cr (IZR n) else cr 0.
Proof.
  intros H. rewrite (csum_ext n _ (fun j => turn n (j * (k mod n)))).
  2:{ intros j _. rewrite (turn_mod n (j * k)), (turn_mod n (j * (k mod n))) by auto. f_equal. now rewrite Z.mul_mod_idemp_r by lia. }
  pose proof (Z.mod_pos_bound k n ltac:(lia)). destruct (Z.eqb_spec (k mod n) 0) as [->|E].
  - rewrite (csum_ext n _ (fun _ => cr 1)) by (intros; rewrite Z.mul_0_r; apply turn_0). rewrite csum_const by lia. ring.
  - apply csum_turn. lia.
Qed.
Lemma csum_one n k (v : Z -> cplx) : (0 <= k < n)%Z -> csum n (fun i => if (i =? k)%Z then v i else cr 0) = v k.
Proof.
  revert n. apply (csum_ind (fun n => (0 <= k < n)%Z -> csum n (fun i => if (i =? k)%Z then v i else cr 0) = v k)); [lia|].
  intros n Hn IH Hk. rewrite csum_S by auto. destruct (Z.eqb_spec n k) as [->|E].
  - rewrite csum_zero; [ring|]. intros i Hi. destruct (Z.eqb_spec i k); [lia|auto].
  - rewrite IH by lia. ring.
Qed.

Lemma sign_cos j : sign_of j = cos (PI * IZR j).
Proof.
  unfold sign_of. destruct (Z.even j) eqn:E.
  - apply Z.even_spec in E. destruct E as (k & ->). rewrite mult_IZR. replace (PI * (2 * IZR k)) with (0 + 2 * IZR k * PI) by ring.
    rewrite <- cos_0. symmetry. apply (f_equal fst (expi_2pi k 0)).
  - rewrite <- Z.negb_odd in E. apply negb_false_iff, Z.odd_spec in E. destruct E as (k & ->). rewrite plus_IZR, mult_IZR.
    replace (PI * (2 * IZR k + 1)) with (PI + 2 * IZR k * PI) by ring. rewrite <- cos_PI. symmetry. apply (f_equal fst (expi_2pi k PI)).
Qed.
Lemma sign_sin j : sin (PI * IZR j) = 0.
Proof. apply sin_eq_0_1. exists j. ring. Qed.
Lemma sign_add a b : sign_of (a + b) = sign_of a * sign_of b.
Proof. unfold sign_of. rewrite Z.even_add. destruct (Z.even a), (Z.even b); cbn; ring. Qed.
Lemma sign_opp a : sign_of (- a) = sign_of a.
Proof. unfold sign_of. now rewrite Z.even_opp. Qed.
Lemma sign_sq a : sign_of a * sign_of a = 1.
Proof. unfold sign_of. destruct (Z.even a); ring. Qed.

Lemma sign_turn M (HM : (1 <= M)%Z) h l : M = (2 * h)%Z -> cr (sign_of l) = turn M (h * l).
Proof.
  intros E. unfold turn, expi. replace (2 * PI * IZR (h * l) / IZR M) with (PI * IZR l).
  - rewrite <- sign_cos, sign_sin. reflexivity.
  - rewrite E, !mult_IZR. field. apply not_0_IZR. lia.
Qed.
Lemma wave_turns M f phase l : cr (wave M f phase l) = (cr (/ 2) * expi phase * turn M (f * l) + cr (/ 2) * expi (- phase) * turn M (- f * l))%C.
Proof.
  unfold wave. replace (- f * l)%Z with (- (f * l))%Z by lia. rewrite <- conj_turn. unfold turn. set (t := 2 * PI * IZR (f * l) / IZR M).
  unfold expi. rewrite cos_plus, cos_neg, sin_neg. apply ceq; unfold cadd, cmul, cr, conj, re, im; cbn [fst snd]; field.
Qed.

(** ** The filter on complex samples *)
Section Filter.
  Variables (M : Z) (w : Z -> R).
  Hypothesis HM : (1 <= M)%Z.

  Definition cfilter (x : Z -> cplx) (j : Z) : cplx :=
    (idft M (fun k => (dft M (fun l => (x l * cr (sign_of l))%C) k * cr (w k))%C) j * cr (sign_of j))%C.
  Lemma window_filter_re x j : window_filter M w x j = re (cfilter (fun l => cr (x l)) j).
  Proof. reflexivity. Qed.
  Lemma cfilter_ext x y j : (forall l, (0 <= l < M)%Z -> x l = y l) -> cfilter x j = cfilter y j.
  Proof.
    intros H. unfold cfilter, idft, dft_backward. f_equal. f_equal. apply csum_ext. intros k _. f_equal. f_equal. unfold dft.
    apply csum_ext. intros l Hl. now rewrite H.
  Qed.
  (** one sum over the samples *)
  Lemma cfilter_kernel x j : cfilter x j =
    csum M (fun l => (x l * (cr (sign_of l * sign_of j / IZR M) * csum M (fun k => cr (w k) * turn M (k * (j - l))))%C)%C).
  Proof.
    unfold cfilter, idft, dft_backward.
    transitivity (csum M (fun k => csum M (fun l => (x l * (cr (sign_of l * sign_of j / IZR M) * (cr (w k) * turn M (k * (j - l)))))%C))).
    - rewrite <- csum_mul, <- csum_mul_r. apply csum_ext. intros k _. unfold dft. rewrite <- !csum_mul_r, <- csum_mul, <- csum_mul_r. apply csum_ext. intros l _.
      replace (k * (j - l))%Z with (k * j + - (l * k))%Z by lia. rewrite turn_add.
      replace (sign_of l * sign_of j / IZR M) with (/ IZR M * (sign_of l * sign_of j)) by (unfold Rdiv; ring). rewrite !cr_mul. ring.
    - rewrite csum_swap. apply csum_ext. intros l _. now rewrite csum_mul, csum_mul.
  Qed.
  Lemma cfilter_add x y j : cfilter (fun l => (x l + y l)%C) j = (cfilter x j + cfilter y j)%C.
  Proof. rewrite !cfilter_kernel, <- csum_add. apply csum_ext. intros l _. ring. Qed.
  Lemma cfilter_mul a x j : cfilter (fun l => (a * x l)%C) j = (a * cfilter x j)%C.
  Proof. rewrite !cfilter_kernel, <- csum_mul. apply csum_ext. intros l _. ring. Qed.
  Lemma window_filter_add x y j : window_filter M w (fun l => x l + y l) j = window_filter M w x j + window_filter M w y j.
  Proof.
    rewrite !window_filter_re. rewrite (cfilter_ext _ (fun l => (cr (x l) + cr (y l))%C)) by (intros; apply cr_add). now rewrite cfilter_add.
  Qed.
  Lemma window_filter_mul a x j : window_filter M w (fun l => a * x l) j = a * window_filter M w x j.
  Proof.
    rewrite !window_filter_re. rewrite (cfilter_ext _ (fun l => (cr a * cr (x l))%C)) by (intros; apply cr_mul). rewrite cfilter_mul. unfold cmul, cr, re, im. cbn [fst snd]. ring.
  Qed.
  Lemma window_filter_ext x y j : (forall l, (0 <= l < M)%Z -> x l = y l) -> window_filter M w x j = window_filter M w y j.
  Proof. intros H. rewrite !window_filter_re. f_equal. apply cfilter_ext. intros l Hl. now rewrite H. Qed.

  Lemma window_filter_kernel x j : window_filter M w x j = sum_to M (fun l => x l * kernel M w (j - l)).
  Proof.
    rewrite window_filter_re, cfilter_kernel, re_csum. apply sum_to_ext. intros l _.
    assert (HR : IZR M <> 0) by (apply not_0_IZR; lia).
    transitivity (x l * (sign_of l * sign_of j / IZR M * re (csum M (fun k => (cr (w k) * turn M (k * (j - l)))%C)))).
    { generalize (csum M (fun k => (cr (w k) * turn M (k * (j - l)))%C)). intros z. unfold cmul, cr, re, im. cbn [fst snd]. ring. }
    f_equal. rewrite re_csum. unfold kernel.
    replace (sign_of l * sign_of j) with (sign_of (j - l)) by (unfold Z.sub; rewrite sign_add, sign_opp; ring).
    match goal with |- ?a / _ * ?b = _ => replace (a / IZR M * b) with (a * b / IZR M) by (unfold Rdiv; ring) end. unfold Rdiv at 1 2. f_equal.
    change sum_to with zsum. rewrite <- zsum_scal. apply zsum_ext. intros k _. unfold cmul, cr, turn, expi, re, im. cbn [fst snd].
    rewrite sign_cos. set (d := (j - l)%Z). rewrite mult_IZR.
    replace (PI * IZR d * IZR (2 * k - M) / IZR M) with (2 * PI * (IZR k * IZR d) / IZR M - PI * IZR d) by (rewrite minus_IZR, mult_IZR; field; auto).
    rewrite cos_minus, sign_sin. ring.
  Qed.

  (** waves; M even *)
  Lemma cfilter_turn h f j : M = (2 * h)%Z -> cfilter (fun l => turn M (f * l)) j = (cr (w ((f + h) mod M)) * turn M (f * j))%C.
  Proof.
    intros E. unfold cfilter, idft. assert (HR : IZR M <> 0) by (apply not_0_IZR; lia).
    assert (D : forall k, (0 <= k < M)%Z -> dft M (fun l => (turn M (f * l) * cr (sign_of l))%C) k = if (k =? (f + h) mod M)%Z then cr (IZR M) else cr 0).
    { intros k Hk. unfold dft. rewrite (csum_ext M _ (fun l => turn M (l * (f + h - k)))).
      2:{ intros l _. rewrite (sign_turn M HM h) by auto. rewrite <- !turn_add. f_equal. lia. }
      rewrite csum_turns by auto. replace ((f + h - k) mod M =? 0)%Z with (k =? (f + h) mod M)%Z; auto.
      destruct (Z.eqb_spec k ((f + h) mod M)) as [->|N].
      - symmetry. apply Z.eqb_eq. rewrite Zminus_mod_idemp_r, Z.sub_diag. apply Z.mod_0_l. lia.
      - symmetry. apply Z.eqb_neq. intros Z0. apply N. apply Z.mod_divide in Z0; [|lia]. destruct Z0 as (q & Hq).
        apply (Z.mod_unique_pos _ _ q); lia. }
    unfold dft_backward. pose proof (Z.mod_pos_bound (f + h) M ltac:(lia)) as B. set (k0 := ((f + h) mod M)%Z) in *.
    rewrite (csum_ext M _ (fun k => if (k =? k0)%Z then (cr (IZR M) * cr (w k0) * turn M (k0 * j))%C else cr 0)).
    2:{ intros k Hk. rewrite D by auto. destruct (Z.eqb_spec k k0) as [->|_]; ring. }
    rewrite csum_one by auto. rewrite (sign_turn M HM h) by auto.
    assert (T : (turn M (k0 * j) * turn M (h * j))%C = turn M (f * j)).
    { rewrite <- turn_add. unfold k0. rewrite (turn_mod M ((f + h) mod M * j + h * j)), (turn_mod M (f * j)) by auto. f_equal.
      rewrite Z.add_mod, Z.mul_mod_idemp_l, <- Z.add_mod by lia. replace ((f + h) * j + h * j)%Z with (f * j + j * M)%Z by lia. apply Z_mod_plus_full. }
    transitivity (cr (/ IZR M) * cr (IZR M) * cr (w k0) * (turn M (k0 * j) * turn M (h * j)))%C; [ring|]. rewrite T, <- cr_mul, Rinv_l by auto. ring.
  Qed.
  Lemma window_filter_wave h f phase j : M = (2 * h)%Z ->
    window_filter M w (wave M f phase) j = (w ((f + h) mod M)%Z + w ((- f + h) mod M)%Z) / 2 * wave M f phase j.
  Proof.
    intros E. rewrite window_filter_re. rewrite (cfilter_ext _ _ j (fun l _ => wave_turns M f phase l)).
    rewrite cfilter_add, !cfilter_mul, !(cfilter_turn h) by auto.
    unfold wave. replace (- f * j)%Z with (- (f * j))%Z by lia. rewrite <- conj_turn. unfold turn. set (t := 2 * PI * IZR (f * j) / IZR M).
    unfold expi. rewrite cos_plus, cos_neg, sin_neg. unfold cadd, cmul, cr, conj, re, im. cbn [fst snd]. field.
  Qed.
  Lemma window_filter_const h c j : M = (2 * h)%Z -> window_filter M w (fun _ => c) j = c * w h.
  Proof.
    intros E. rewrite (window_filter_ext _ (fun l => c * wave M 0 0 l)).
    2:{ intros l _. unfold wave. replace (2 * PI * IZR (0 * l) / IZR M + 0) with 0 by (cbn; unfold Rdiv; ring). rewrite cos_0. ring. }
    rewrite window_filter_mul, (window_filter_wave h) by auto. unfold wave. replace (2 * PI * IZR (0 * j) / IZR M + 0) with 0 by (cbn; unfold Rdiv; ring).
    rewrite cos_0. replace ((0 + h) mod M)%Z with h by (rewrite Z.mod_small; lia). replace ((- 0 + h) mod M)%Z with h by (rewrite Z.mod_small; lia). field.
  Qed.
End Filter.

(** ** The gaussian window *)
Lemma gaussian_bell M sigma k : gaussian M sigma k = bell sigma (IZR k - (IZR M - 1) / 2).
Proof. reflexivity. Qed.
Lemma bell_even sigma t : bell sigma (- t) = bell sigma t.
Proof. unfold bell. do 2 f_equal. ring. Qed.
Lemma bell_decreasing sigma s t : sigma <> 0 -> Rabs s < Rabs t -> bell sigma t < bell sigma s.
Proof.
  intros Hs H. unfold bell. apply exp_increasing. assert (P : 0 < 2 * (sigma * sigma)) by nra. unfold Rdiv. apply Rmult_lt_compat_r; [now apply Rinv_0_lt_compat|].
  apply Ropp_lt_contravar. apply Rsqr_lt_abs_1 in H. exact H.
Qed.
Lemma bell_0 sigma : bell sigma 0 = 1.
Proof. unfold bell. replace (- (0 * 0) / (2 * (sigma * sigma))) with 0 by (unfold Rdiv; ring). apply exp_0. Qed.
Lemma gain_0 sigma : gain sigma 0 = bell sigma (1 / 2).
Proof. unfold gain. replace (0 - 1 / 2) with (- (0 + 1 / 2)) by ring. rewrite bell_even. replace (0 + 1 / 2) with (1 / 2) by ring. field. Qed.
Lemma gaussian_gain sigma h f : (- h < f < h)%Z ->
  (gaussian (2 * h) sigma ((f + h) mod (2 * h)) + gaussian (2 * h) sigma ((- f + h) mod (2 * h))) / 2 = gain sigma (IZR f).
Proof.
  intros H. rewrite !Z.mod_small by lia. unfold gain. rewrite !gaussian_bell. f_equal. f_equal.
  - f_equal. rewrite plus_IZR, mult_IZR. field.
  - rewrite <- bell_even. f_equal. rewrite plus_IZR, mult_IZR, opp_IZR. field.
Qed.
Lemma gaussian_middle sigma h : gaussian (2 * h) sigma h = gain sigma 0.
Proof. rewrite gaussian_bell, gain_0. f_equal. rewrite mult_IZR. field. Qed.

(** ** A whole column *)
Lemma pad_even n h : (n = 2 * h)%Z -> (n + 2 * pad_size n = 2 * (h + pad_size n))%Z.
Proof. lia. Qed.
Lemma lowpass_length sigma col : length (lowpass sigma col) = length col.
Proof. unfold lowpass. cbv zeta. rewrite map_length, zrange_length. lia. Qed.
Lemma pad_reflect_range n i : (1 <= n)%Z -> (0 <= i < n + 2 * pad_size n)%Z -> (0 <= pad_reflect n (pad_size n) i < n)%Z.
Proof.
  intros Hn Hi. assert (P : (0 <= pad_size n < n)%Z).
  { unfold pad_size. assert (0 <= n / 10)%Z by (apply Z.div_pos; lia). assert (n / 10 < n)%Z by (apply Z.div_lt; lia). lia. }
  unfold pad_reflect. cbv zeta. destruct (Z.ltb_spec (i - pad_size n) 0); [lia|]. destruct (Z.ltb_spec (i - pad_size n) n); lia.
Qed.
Lemma lowpass_shift sigma col a : Nat.Even (length col) -> lowpass sigma (map (fun x => x + a) col) = map (fun y => y + a * gain sigma 0) (lowpass sigma col).
Proof.
  intros (h & Hh). destruct (Nat.eq_dec h 0) as [->|Hz].
  { destruct col; [reflexivity|cbn in Hh; lia]. }
  unfold lowpass. cbv zeta. rewrite !map_length, map_map. apply map_ext_in. intros j Hj. apply in_zrange in Hj.
  set (n := Z.of_nat (length col)) in *. assert (E : n = (2 * Z.of_nat h)%Z) by (unfold n; lia).
  set (pad := pad_size n). set (M := (n + 2 * pad)%Z). assert (EM : M = (2 * (Z.of_nat h + pad))%Z) by (apply pad_even; exact E).
  assert (HP : (0 <= pad)%Z) by (unfold pad, pad_size; assert (0 <= n / 10)%Z by (apply Z.div_pos; lia); lia).
  rewrite (window_filter_ext M _ _ (fun i => nth (Z.to_nat (pad_reflect n pad i)) col 0 + a)).
  2:{ intros l Hl. pose proof (pad_reflect_range n l ltac:(lia) Hl) as B. fold pad in B.
      rewrite (nth_indep (map (fun x => x + a) col) 0 (0 + a)) by (rewrite map_length; lia). apply (map_nth (fun x => x + a)). }
  rewrite window_filter_add by lia. f_equal. rewrite (window_filter_const M _ ltac:(lia) (Z.of_nat h + pad)) by auto. f_equal. rewrite EM. apply gaussian_middle.
Qed.

(** ** Images whose rows are all the same, in two dimensions *)
Lemma dft_sign M h k : (M = 2 * h)%Z -> (0 <= k < M)%Z -> dft M (fun l => cr (sign_of l)) k = if (k =? h)%Z then cr (IZR M) else cr 0.
Proof.
  intros E Hk. unfold dft. rewrite (csum_ext M _ (fun l => turn M (l * (h - k)))).
  2:{ intros l _. rewrite (sign_turn M ltac:(lia) h) by auto. rewrite <- turn_add. f_equal. lia. }
  rewrite csum_turns by lia. replace ((h - k) mod M =? 0)%Z with (k =? h)%Z; auto. destruct (Z.eqb_spec k h) as [->|N].
  - rewrite Z.sub_diag, Z.mod_0_l by lia. reflexivity.
  - symmetry. apply Z.eqb_neq. intros Z0. apply Z.mod_divide in Z0; [|lia]. destruct Z0 as (q & Hq). destruct (Z_lt_le_dec q 0); [nia|]. destruct (Z.eq_dec q 0); nia.
Qed.

Lemma sum_same n c : (0 <= n)%Z -> zsum n (fun _ => c) = IZR n * c.
Proof.
  revert n. apply natlike_ind; [rewrite zsum_0 by lia; lra|]. intros n Hn IH. unfold Z.succ. rewrite zsum_S, IH, plus_IZR by auto. lra.
Qed.

Section Image.
  Variables nrow ncol pad hy : Z.
  Hypothesis Hy : (nrow + 2 * pad = 2 * hy)%Z.
  Hypothesis Hpos : (1 <= nrow)%Z.
  Hypothesis Hpad : (0 <= pad)%Z.
  Hypothesis Hcol : (1 <= ncol)%Z.

  Lemma win2d_split sigmax sigmay v u : sigmax <> 0 -> sigmay <> 0 ->
    win2d nrow ncol sigmax sigmay pad v u = gaussian (nrow + 2 * pad) sigmay v * gaussian (ncol + 2 * pad) sigmax u.
  Proof.
    intros Hx Hs. unfold win2d, gaussian. cbv zeta. rewrite <- exp_plus. f_equal. field. auto.
  Qed.
  Lemma column_mean_const m c x : (forall y, (0 <= y < nrow)%Z -> m y x = c) -> column_mean nrow m x = c.
  Proof.
    intros H. unfold column_mean. change (rsum (map (fun y => m y x) (zrange 0 nrow))) with (zsum nrow (fun y => m y x)).
    rewrite (zsum_ext nrow _ (fun _ => c)) by auto. rewrite sum_same by lia. field. apply not_0_IZR. lia.
  Qed.
  Lemma clip_range n i : (1 <= n)%Z -> (0 <= clip n i < n)%Z.
  Proof. unfold clip. lia. Qed.
  Lemma matpad_rows m q y x : (forall y x, (0 <= y < nrow)%Z -> (0 <= x < ncol)%Z -> m y x = q x) -> matpad nrow ncol pad m y x = q (clip ncol (x - pad)).
  Proof.
    intros H. unfold matpad. cbv zeta. pose proof (clip_range ncol (x - pad) Hcol).
    destruct (Z.leb_spec 0 (y - pad)), (Z.ltb_spec (y - pad) nrow); cbn [andb]; try (apply column_mean_const; intros; now apply H). apply H; lia.
  Qed.

  Lemma filter_rows sigmax sigmay m q y x : sigmax <> 0 -> sigmay <> 0 ->
    (forall y x, (0 <= y < nrow)%Z -> (0 <= x < ncol)%Z -> m y x = q x) ->
    filter_2d nrow ncol (win2d nrow ncol sigmax sigmay pad) pad m y x =
      gain sigmay 0 * window_filter (ncol + 2 * pad) (gaussian (ncol + 2 * pad) sigmax) (fun i => q (clip ncol (i - pad))) (x + pad).
  Proof.
    intros Hsx Hsy Hm. unfold filter_2d. cbv zeta. set (H := (nrow + 2 * pad)%Z) in *. set (W := (ncol + 2 * pad)%Z).
    assert (HH : (1 <= H)%Z) by (unfold H; lia). assert (HW : (1 <= W)%Z) by (unfold W; lia).
    assert (RH : IZR H <> 0) by (apply not_0_IZR; lia). assert (RW : IZR W <> 0) by (apply not_0_IZR; lia).
    set (wx := gaussian W sigmax). set (Q := fun i => q (clip ncol (i - pad))).
    assert (D : forall v u, (0 <= v < H)%Z -> dft2 H W (fun y x => (cr (matpad nrow ncol pad m y x) * cr (sign_of (x + y)))%C) v u =
      ((if (v =? hy)%Z then cr (IZR H) else cr 0) * dft W (fun l => (cr (Q l) * cr (sign_of l))%C) u)%C).
    { intros v u Hv. rewrite <- (dft_sign H hy v) by auto. unfold dft2, dft. rewrite <- csum_mul_r. apply csum_ext. intros y' _.
      rewrite <- csum_mul. apply csum_ext. intros x' _. rewrite (matpad_rows m q) by auto. fold (Q x'). rewrite sign_add, cr_mul. ring. }
    assert (I : (idft2 H W (fun v u => (dft2 H W (fun y x => (cr (matpad nrow ncol pad m y x) * cr (sign_of (x + y)))%C) v u * cr (win2d nrow ncol sigmax sigmay pad v u))%C) (y + pad) (x + pad)
        * cr (sign_of (x + pad + (y + pad))))%C = (cr (gain sigmay 0) * cfilter W wx (fun l => cr (Q l)) (x + pad))%C).
    { unfold idft2. set (Y := (y + pad)%Z). set (X := (x + pad)%Z).
      rewrite (csum_ext H _ (fun v => if (v =? hy)%Z then (cr (IZR H) * cr (gaussian H sigmay hy) * turn H (Y * hy) *
        dft_backward W (fun k => (dft W (fun l => (cr (Q l) * cr (sign_of l))%C) k * cr (wx k))%C) X)%C else cr 0)).
      2:{ intros v Hv. destruct (Z.eqb_spec v hy) as [->|N].
          - unfold dft_backward. rewrite <- csum_mul. apply csum_ext. intros u Hu. rewrite D by auto. rewrite Z.eqb_refl, win2d_split by auto. fold H W. fold wx. rewrite cr_mul, (Z.mul_comm u X). ring.
          - apply csum_zero. intros u Hu. rewrite D by auto. destruct (Z.eqb_spec v hy); [lia|]. ring. }
      rewrite (csum_one H hy (fun _ => _)) by lia. rewrite sign_add, cr_mul, (sign_turn H HH hy Y) by auto.
      assert (G : gaussian H sigmay hy = gain sigmay 0) by (rewrite Hy; apply gaussian_middle). rewrite G.
      assert (T : (turn H (Y * hy) * turn H (hy * Y))%C = cr 1).
      { rewrite <- turn_add. replace (Y * hy + hy * Y)%Z with (H * Y)%Z by (rewrite Hy; ring). apply turn_mul. lia. }
      unfold cfilter, idft.
      replace (/ (IZR H * IZR W)) with (/ IZR H * / IZR W) by (field; auto). rewrite cr_mul.
      match goal with |- context [dft_backward W ?g X] => set (B := dft_backward W g X) end.
      transitivity (cr (/ IZR H) * cr (IZR H) * (turn H (Y * hy) * turn H (hy * Y)) * (cr (gain sigmay 0) * (cr (/ IZR W) * B * cr (sign_of X))))%C; [ring|].
      rewrite T, <- cr_mul, Rinv_l by auto. ring. }
    rewrite I, window_filter_re. fold Q wx. generalize (cfilter W wx (fun l => cr (Q l)) (x + pad)). intros z. unfold cmul, cr, re, im. cbn [fst snd]. ring.
  Qed.
End Image.
