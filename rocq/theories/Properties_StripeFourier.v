(** C100-C103: how much of a stripe the sorting, filtering, fitting and wavelet methods take out. *)
From Coq Require Import Reals Lra FunctionalExtensionality.
From Verif Require Import Base Order Cplx Model_Prep Model_Stripe Model_StripeLarge Model_StripeFourier Spec_StripeFourier
  Proofs_Morph Proofs_Solver Proofs_Prep Proofs_Stripe Proofs_StripeLarge Proofs_StripeRank Proofs_StripeFourier Proofs_StripeFw Properties_Stripe.
Local Open Scope R_scope.

Local Ltac lists := repeat match goal with |- _ :: _ = _ :: _ => apply f_equal2 end; try reflexivity.

(** ** C100: stripes are removed completely by sorting
    The columns show the same [col], distorted by an increasing response in the columns of [bad]. *)
Theorem C100_removed : forall {V} (lt : V -> V -> bool) dflt sort_value sort_index w size bad (response : Z -> V -> V) col,
  weak_order (fun _ => True) lt -> (forall x y, lt x y = false -> lt y x = false -> x = y) ->
  sorts_by lt snd sort_value -> sorts_by Z.ltb fst sort_index -> (0 < size <= w)%Z -> sparse w size bad ->
  (forall c x y, (0 <= c < w)%Z -> lt (response c x) (response c y) = lt x y) ->
  (forall c x, (0 <= c < w)%Z -> bad c = false -> response c x = x) ->
  remove_stripe_based_sorting sort_value sort_index lt dflt (Some size) 1 (map (fun c => map (response c) col) (zrange 0 w)) =
    map (fun _ => col) (zrange 0 w).
Proof.
  intros V lt dflt sv si w size bad g col wo tot HV HI Hs [H1 H2] Hm Hg. unfold remove_stripe_based_sorting.
  apply (stripes_removed lt wo tot sv si HV HI w size g bad); auto. intros c Hc x y. now apply Hm.
Qed.
(** Single columns that are at least a window apart, and bands of fewer columns than half a window. *)
Lemma count_at_most_one p a b : (forall i j, (a <= i < j)%Z -> (j < b)%Z -> p i = true -> p j = true -> False) -> (count p (zrange a b) <= 1)%nat.
Proof.
  destruct (Z_lt_le_dec b a) as [L|L]; [intros _; rewrite zrange_nil by lia; cbn; lia|].
  replace b with (a + Z.of_nat (Z.to_nat (b - a)))%Z by lia. induction (Z.to_nat (b - a)) as [|n IH]; intros H; [rewrite zrange_nil by lia; cbn; lia|].
  replace (a + Z.of_nat (S n))%Z with (a + Z.of_nat n + 1)%Z in * by lia. rewrite zrange_snoc, count_app by lia. cbn [count].
  destruct (p (a + Z.of_nat n)%Z) eqn:E; [|specialize (IH ltac:(intros; apply (H i j); auto; lia)); lia].
  rewrite count_none; [lia|]. intros i Hi. apply in_zrange in Hi. apply not_true_is_false. intros T. apply (H i (a + Z.of_nat n)%Z); auto; lia.
Qed.
Theorem C100_single : forall w size bad, (3 <= size <= w)%Z -> (forall c, bad c = true -> (size / 2 <= c < w - size / 2)%Z) ->
  (forall c d, bad c = true -> bad d = true -> (c < d)%Z -> (size <= d - c)%Z) -> sparse w size bad.
Proof.
  intros w size bad Hs Hb Hd. split; auto. intros c Hc.
  enough (count bad (zrange (c - size / 2) (c - size / 2 + size)) <= 1)%nat by lia.
  apply count_at_most_one. intros i j Hij Hj Bi Bj. specialize (Hd i j Bi Bj). lia.
Qed.
Lemma count_band a b x y : (count (fun c => (a <=? c)%Z && (c <? b)%Z) (zrange x y) <= Z.to_nat (b - a))%nat.
Proof.
  destruct (Z_lt_le_dec y x) as [L|L]; [rewrite zrange_nil by lia; cbn; lia|].
  enough (G : forall n, (count (fun c => (a <=? c)%Z && (c <? b)%Z) (zrange x (x + Z.of_nat n)) <= Z.to_nat (Z.min b (x + Z.of_nat n) - a))%nat).
  { specialize (G (Z.to_nat (y - x))). replace (x + Z.of_nat (Z.to_nat (y - x)))%Z with y in G by lia. lia. }
  induction n as [|n IH]; [rewrite zrange_nil by lia; cbn; lia|].
  replace (x + Z.of_nat (S n))%Z with (x + Z.of_nat n + 1)%Z by lia. rewrite zrange_snoc, count_app by lia. cbn [count].
  destruct (Z.leb_spec a (x + Z.of_nat n)), (Z.ltb_spec (x + Z.of_nat n) b); cbn [andb]; lia.
Qed.
Theorem C100_wide : forall w size a b, (0 < size <= w)%Z -> (size / 2 <= a)%Z -> (b <= w - size / 2)%Z -> (2 * (b - a) < size)%Z ->
  sparse w size (fun c => (a <=? c)%Z && (c <? b)%Z).
Proof.
  intros w size a b Hs Ha Hb Hw. split; [intros c Hc; lia|]. intros c _. pose proof (count_band a b (c - size / 2) (c - size / 2 + size)). lia.
Qed.
(** Finding: a stripe in the first column stays. *)
Theorem C100_border_refuted : exists s, s = [[5; 7]; [0; 2]; [0; 2]; [0; 2]]%Z /\
  remove_stripe_based_sorting sort_snd sort_fst Z.ltb 0%Z (Some 3%Z) 1 s = s.
Proof. exists [[5; 7]; [0; 2]; [0; 2]; [0; 2]]%Z. split; [reflexivity|vm_compute; reflexivity]. Qed.
Example C100_example : remove_stripe_based_sorting sort_snd sort_fst Z.ltb 0%Z (Some 3%Z) 1 [[2; 0; 1]; [2; 0; 1]; [25; 5; 8]; [2; 0; 1]; [2; 0; 1]]%Z =
  [[2; 0; 1]; [2; 0; 1]; [2; 0; 1]; [2; 0; 1]; [2; 0; 1]]%Z.
Proof. vm_compute. reflexivity. Qed.

(** ** C101: filtering *)
(** The low-pass filter is a convolution. *)
Theorem C101_kernel : forall M window x j, (1 <= M)%Z -> window_filter M window x j = sum_to M (fun l => x l * kernel M window (j - l)).
Proof. intros. now apply window_filter_kernel. Qed.
(** A column is continued by reflection, by a tenth of its length but at most 150 samples on both sides, and weighted with the kernel of a Gaussian window. *)
Theorem C101_value : forall sigma col j, let n := Z.of_nat (length col) in let pad := Z.min 150 (n / 10) in let M := (n + 2 * pad)%Z in (0 <= j < n)%Z ->
  nth (Z.to_nat j) (lowpass sigma col) 0 =
  sum_to M (fun l => nth (Z.to_nat (reflected n (l - pad))) col 0 * kernel M (fun k => bell sigma (IZR k - (IZR M - 1) / 2)) (j - (l - pad))).
Proof.
  intros sigma col j n pad M Hj. unfold lowpass. cbv zeta. fold n. assert (P : pad_size n = pad) by reflexivity. rewrite P. fold M.
  rewrite (nth_indep _ 0 (window_filter M (gaussian M sigma) (fun i => nth (Z.to_nat (pad_reflect n pad i)) col 0) (0 + pad))) by (rewrite map_length, zrange_length; lia).
  rewrite (map_nth (fun j => window_filter M (gaussian M sigma) (fun i => nth (Z.to_nat (pad_reflect n pad i)) col 0) (j + pad)) (zrange 0 n) 0%Z).
  rewrite (nth_error_nth (zrange 0 n) (Z.to_nat j) 0%Z (nth_error_zrange 0 n (Z.to_nat j) ltac:(lia))). rewrite window_filter_kernel by (unfold M, pad; lia). apply sum_to_ext. intros l Hl. f_equal.
  - f_equal. f_equal. unfold pad_reflect, reflected. cbv zeta. destruct (Z.ltb_spec (l - pad) 0); [unfold M, pad in *; lia|]. destruct (Z.ltb_spec (l - pad) n); unfold M, pad in *; lia.
  - replace (j - (l - pad))%Z with (0 + Z.of_nat (Z.to_nat j) + pad - l)%Z by lia. reflexivity.
Qed.
(** Without a window size: a hundredth of the columns, but at least 5, and 21 for more than 2000 columns. *)
Theorem C101_default : forall sort_value sort_index sigma dim sino, let w := Z.of_nat (length sino) in
  exists size, remove_stripe_based_filtering sort_value sort_index sigma None dim sino = remove_stripe_based_filtering sort_value sort_index sigma (Some size) dim sino /\
    ((w > 2000)%Z -> size = 21%Z) /\ ((500 <= w <= 2000)%Z -> size = (w / 100)%Z) /\ ((w < 500)%Z -> size = 5%Z).
Proof.
  intros sv si sigma dim sino w. exists (default_size w). split; [reflexivity|]. unfold default_size. destruct (w >? 2000)%Z eqn:E; repeat split; intros; lia.
Qed.
(** An even number of samples: waves keep their shape; the larger the frequency, the smaller the rest. *)
Theorem C101_wave : forall h sigma f phase j, (- h < f < h)%Z ->
  window_filter (2 * h) (gaussian (2 * h) sigma) (wave (2 * h) f phase) j = gain sigma (IZR f) * wave (2 * h) f phase j.
Proof. intros h sigma f phase j H. rewrite (window_filter_wave (2 * h) _ ltac:(lia) h) by auto. now rewrite gaussian_gain. Qed.
Theorem C101_lowpass : forall sigma f f', sigma <> 0 -> (0 <= f < f')%Z -> 0 < gain sigma (IZR f') < gain sigma (IZR f) /\ gain sigma (IZR f) < 1.
Proof.
  intros sigma f f' Hs H. assert (P : forall t, 0 < bell sigma t) by (intros; apply exp_pos). split; [split|].
  - unfold gain. pose proof (P (IZR f' + 1 / 2)). pose proof (P (IZR f' - 1 / 2)). lra.
  - unfold gain. assert (F : 0 <= IZR f) by (apply IZR_le; lia). assert (F' : IZR f + 1 <= IZR f') by (rewrite <- plus_IZR; apply IZR_le; lia).
    assert (A : bell sigma (IZR f' + 1 / 2) < bell sigma (IZR f + 1 / 2)) by (apply bell_decreasing; auto; rewrite !Rabs_pos_eq by lra; lra).
    destruct (Z.eq_dec f 0) as [->|N].
    + destruct (Z.eq_dec f' 1) as [->|N'].
      * assert (E : bell sigma (1 - 1 / 2) = bell sigma (0 - 1 / 2)) by (rewrite <- bell_even; f_equal; lra). lra.
      * assert (F2 : 2 <= IZR f') by (apply IZR_le; lia).
        assert (B : bell sigma (IZR f' - 1 / 2) < bell sigma (0 - 1 / 2)) by (apply bell_decreasing; auto; rewrite Rabs_left, Rabs_pos_eq by lra; lra). lra.
    + assert (F1 : 1 <= IZR f) by (apply IZR_le; lia).
      assert (B : bell sigma (IZR f' - 1 / 2) < bell sigma (IZR f - 1 / 2)) by (apply bell_decreasing; auto; rewrite !Rabs_pos_eq by lra; lra). lra.
  - unfold gain. assert (B : forall t, t <> 0 -> bell sigma t < 1) by (intros t Ht; rewrite <- (bell_0 sigma); apply bell_decreasing; auto; rewrite Rabs_R0; now apply Rabs_pos_lt).
    assert (HF : forall s, s = 1 \/ s = -1 -> IZR f + s * (1 / 2) <> 0).
    { intros s Hs' E. assert (G : IZR (2 * f) = - s) by (rewrite mult_IZR; lra). destruct Hs' as [-> | ->].
      - assert (G' : IZR (2 * f) = IZR (-1)) by lra. apply eq_IZR in G'. lia.
      - assert (G' : IZR (2 * f) = IZR 1) by lra. apply eq_IZR in G'. lia. }
    pose proof (B (IZR f + 1 / 2) ltac:(specialize (HF 1 (or_introl eq_refl)); lra)). pose proof (B (IZR f - 1 / 2) ltac:(specialize (HF (-1) (or_intror eq_refl)); lra)). lra.
Qed.
(** Constant offsets in the columns of [bad], an even number of projections: the same part of each offset stays, nothing else changes. *)
Theorem C101_stripe : forall sort_value sort_index sigma w size bad offset col,
  sorts_by rltb snd sort_value -> sorts_by Z.ltb fst sort_index -> (0 < size <= w)%Z -> sparse w size bad ->
  (forall c, (0 <= c < w)%Z -> bad c = false -> offset c = 0) -> Nat.Even (length col) ->
  remove_stripe_based_filtering sort_value sort_index sigma (Some size) 1 (map (fun c => map (fun x => x + offset c) col) (zrange 0 w)) =
    map (fun c => map (fun x => x + offset c * (1 - gain sigma 0)) col) (zrange 0 w).
Proof.
  intros sv si sigma w size bad off col HV HI Hs [H1 H2] Ho Ev. unfold remove_stripe_based_filtering, rs_filter. cbv zeta.
  set (L := lowpass sigma col). set (G := gain sigma 0).
  assert (E : map (lowpass sigma) (map (fun c => map (fun x => x + off c) col) (zrange 0 w)) = map (fun c => map (fun y => y + off c * G) L) (zrange 0 w)).
  { rewrite map_map. apply map_ext. intros c. now apply lowpass_shift. }
  rewrite E.
  assert (T : forall x y, rltb x y = false -> rltb y x = false -> x = y) by (intros x y A B; apply rltb_false in A, B; lra).
  rewrite (stripes_removed rltb R_weak_order T sv si HV HI w size (fun c y => y + off c * G) bad L); auto.
  - assert (LL : length L = length col) by apply lowpass_length. clearbody L. clear E Ev.
    induction (zrange 0 w) as [|c z IH]; cbn [map combine]; auto. f_equal; [|exact IH]. clear - LL. revert L LL.
    induction col as [|x col IH]; intros [|y L] LL; cbn in LL |- *; try discriminate; auto. f_equal; [lra|]. apply IH. lia.
  - intros c Hc x y. unfold rltb. destruct (Rlt_dec (x + off c * G) (y + off c * G)), (Rlt_dec x y); auto; lra.
  - intros c x Hc B. rewrite Ho by auto. lra.
Qed.
(** Finding: so the stripe does not vanish. *)
Theorem C101_residue_refuted : exists sort_value sort_index sigma size s, sorts_by rltb snd sort_value /\ sorts_by Z.ltb fst sort_index /\ 0 < sigma /\
  s = [[0; 0]; [1; 1]; [0; 0]] /\ exists r, 0 < r /\
  remove_stripe_based_filtering sort_value sort_index sigma (Some size) 1 s = [[0; 0]; [r; r]; [0; 0]].
Proof.
  assert (RS : sorts_by rltb snd (isort (fun a b : Z * R => rltb (snd a) (snd b)))).
  { intros l. assert (wo : weak_order (fun _ => True) (fun a b : Z * R => rltb (snd a) (snd b))).
    { split; intros; [apply (wo_irrefl R_weak_order)|eapply (wo_trans R_weak_order)|eapply (wo_neg_trans R_weak_order)]; eauto. }
    destruct (isort_sorts _ _ wo l) as [P O]. split; auto. specialize (O ltac:(now apply Forall_forall)). clear P.
    induction O as [|x t O IH F]; cbn; constructor; [exact IH|]. rewrite Forall_forall in *. intros y Hy. apply in_map_iff in Hy. destruct Hy as (z & <- & Hz). now apply F. }
  assert (ZS : sorts_by Z.ltb fst (isort (fun a b : Z * R => (fst a <? fst b)%Z))).
  { intros l. assert (wo : weak_order (fun _ => True) (fun a b : Z * R => (fst a <? fst b)%Z)) by (split; intros; lia).
    destruct (isort_sorts _ _ wo l) as [P O]. split; auto. specialize (O ltac:(now apply Forall_forall)). clear P.
    induction O as [|x t O IH F]; cbn; constructor; [exact IH|]. rewrite Forall_forall in *. intros y Hy. apply in_map_iff in Hy. destruct Hy as (z & <- & Hz). now apply F. }
  exists (isort (fun a b : Z * R => rltb (snd a) (snd b))), (isort (fun a b : Z * R => (fst a <? fst b)%Z)), 3, 3%Z, [[0; 0]; [1; 1]; [0; 0]].
  split; [exact RS|]. split; [exact ZS|]. split; [lra|]. split; [reflexivity|]. exists (1 - gain 3 0). split.
  { destruct (C101_lowpass 3 0 1) as [_ B]; [lra|lia|lra]. }
  pose proof (C101_stripe _ _ 3 3 3 (fun c => (1 <=? c)%Z && (c <? 2)%Z) (fun c => if (c =? 1)%Z then 1 else 0) [0; 0] RS ZS ltac:(lia)) as C.
  change (zrange 0 3) with [0; 1; 2]%Z in C. cbn [map Z.eqb Pos.eqb] in C.
  replace [[0; 0]; [1; 1]; [0; 0]] with [[0 + 0; 0 + 0]; [0 + 1; 0 + 1]; [0 + 0; 0 + 0]] by (lists; lra). rewrite C.
  - lists; lra.
  - apply C100_wide; cbn; lia.
  - intros c Hc B. destruct (Z.eqb_spec c 1); auto. subst. discriminate.
  - now exists 1%nat.
Qed.
Lemma filter_three : let g := bell 1 1 in forall j, window_filter 3 (gaussian 3 1) (fun _ => 1) j = kernel 3 (gaussian 3 1) j + kernel 3 (gaussian 3 1) (j - 1) + kernel 3 (gaussian 3 1) (j - 2) /\
  (j = 0%Z \/ j = 2%Z -> window_filter 3 (gaussian 3 1) (fun _ => 1) j = (1 + 2 * g) / 3) /\ (j = 1%Z -> window_filter 3 (gaussian 3 1) (fun _ => 1) j = (2 + g) / 3).
Proof.
  intros g j.
  assert (W : forall k, gaussian 3 1 k = bell 1 (IZR k - 1)) by (intros k; rewrite gaussian_bell; f_equal; lra).
  assert (K : forall d, kernel 3 (gaussian 3 1) d = (g * cos (PI * IZR d * (-3) / 3) + cos (PI * IZR d * (-1) / 3) + g * cos (PI * IZR d * 1 / 3)) / 3).
  { intros d. unfold kernel, sum_to. change (zrange 0 3) with [0; 1; 2]%Z. cbn [map fold_right]. rewrite !W.
    change (2 * 0 - 3)%Z with (-3)%Z. change (2 * 1 - 3)%Z with (-1)%Z. change (2 * 2 - 3)%Z with 1%Z.
    replace (0 - 1) with (- (1)) by lra. rewrite bell_even. replace (1 - 1) with 0 by lra. replace (2 - 1) with 1 by lra. rewrite bell_0. fold g. unfold Rdiv. ring. }
  assert (c1 : cos (PI * 1 / 3) = 1 / 2) by (rewrite <- cos_PI3; f_equal; field).
  assert (c2 : cos (PI * 2 / 3) = - (1 / 2)).
  { replace (PI * 2 / 3) with (- (PI * 1 / 3) + PI) by field. rewrite neg_cos, cos_neg, c1. lra. }
  assert (K0 : kernel 3 (gaussian 3 1) 0 = (1 + 2 * g) / 3).
  { rewrite K. replace (PI * 0 * (-3) / 3) with 0 by field. replace (PI * 0 * (-1) / 3) with 0 by field. replace (PI * 0 * 1 / 3) with 0 by field. rewrite cos_0. field. }
  assert (K1 : forall d, d = 1%Z \/ d = (-1)%Z -> kernel 3 (gaussian 3 1) d = (1 - g) / 6).
  { intros d Hd. rewrite K. assert (A : cos (PI * IZR d * (-3) / 3) = -1).
    { destruct Hd as [-> | ->]; [replace (PI * 1 * (-3) / 3) with (- PI) by field; rewrite cos_neg|replace (PI * -1 * (-3) / 3) with PI by field]; apply cos_PI. }
    assert (B : cos (PI * IZR d * 1 / 3) = 1 / 2).
    { destruct Hd as [-> | ->]; [replace (PI * 1 * 1 / 3) with (PI * 1 / 3) by field|replace (PI * -1 * 1 / 3) with (- (PI * 1 / 3)) by field; rewrite cos_neg]; exact c1. }
    assert (B' : cos (PI * IZR d * (-1) / 3) = 1 / 2) by (rewrite <- B, <- cos_neg; f_equal; field). rewrite A, B, B'. field. }
  assert (K2 : forall d, d = 2%Z \/ d = (-2)%Z -> kernel 3 (gaussian 3 1) d = (g - 1) / 6).
  { intros d Hd. rewrite K. assert (A : cos (PI * IZR d * (-3) / 3) = 1).
    { rewrite <- cos_2PI. destruct Hd as [-> | ->]; [rewrite <- cos_neg|]; f_equal; field. }
    assert (B : cos (PI * IZR d * 1 / 3) = - (1 / 2)).
    { destruct Hd as [-> | ->]; [replace (PI * 2 * 1 / 3) with (PI * 2 / 3) by field|replace (PI * -2 * 1 / 3) with (- (PI * 2 / 3)) by field; rewrite cos_neg]; exact c2. }
    assert (B' : cos (PI * IZR d * (-1) / 3) = - (1 / 2)) by (rewrite <- B, <- cos_neg; f_equal; field). rewrite A, B, B'. field. }
  assert (E : forall j, window_filter 3 (gaussian 3 1) (fun _ => 1) j = kernel 3 (gaussian 3 1) j + kernel 3 (gaussian 3 1) (j - 1) + kernel 3 (gaussian 3 1) (j - 2)).
  { intros i. rewrite C101_kernel by lia. unfold sum_to. change (zrange 0 3) with [0; 1; 2]%Z. cbn [map fold_right]. rewrite Z.sub_0_r. ring. }
  split; [apply E|]. split; [intros [-> | ->]|intros ->]; rewrite E; repeat match goal with |- context [(?a - ?b)%Z] => let c := eval compute in (a - b)%Z in change (a - b)%Z with c end; rewrite ?K0, ?(K1 1%Z), ?(K1 (-1)%Z), ?(K2 2%Z), ?(K2 (-2)%Z) by auto; field.
Qed.
Lemma bell_one : bell 1 1 < 1.
Proof. apply Rlt_le_trans with (bell 1 0); [apply bell_decreasing; [lra|rewrite Rabs_R0, Rabs_R1; lra]|rewrite bell_0; lra]. Qed.
(** Finding: an odd number of projections: a constant column does not even stay constant under the filter. *)
Theorem C101_odd_refuted : exists sigma a b, 0 < sigma /\ a <> b /\ lowpass sigma [1; 1; 1] = [a; b; a].
Proof.
  exists 1, ((1 + 2 * bell 1 1) / 3), ((2 + bell 1 1) / 3). pose proof bell_one as Hg. split; [lra|]. split; [lra|].
  unfold lowpass. cbv zeta. change (Z.of_nat (length [1; 1; 1])) with 3%Z. change (pad_size 3) with 0%Z. change (3 + 2 * 0)%Z with 3%Z.
  change (zrange 0 3) with [0; 1; 2]%Z. cbn [map Z.add].
  assert (E : forall j, window_filter 3 (gaussian 3 1) (fun i => nth (Z.to_nat (pad_reflect 3 0 i)) [1; 1; 1] 0) j = window_filter 3 (gaussian 3 1) (fun _ => 1) j).
  { intros j. apply window_filter_ext. intros l Hl. unfold pad_reflect. cbv zeta. assert (l = 0 \/ l = 1 \/ l = 2)%Z as [-> | [-> | ->]] by lia; reflexivity. }
  rewrite !E. destruct (filter_three 0) as (_ & A & _), (filter_three 1) as (_ & _ & B), (filter_three 2) as (_ & C & _). rewrite A, B, C by auto. reflexivity.
Qed.
Example C101_example : exists r, lowpass 1 [2; 2] = [r; r] /\ 0 < r < 2.
Proof.
  exists (2 * gain 1 0). destruct (C101_lowpass 1 0 1) as [[A B] C]; [lra|lia|]. split; [|lra].
  pose proof (lowpass_shift 1 [0; 0] 2 ltac:(now exists 1%nat)) as L. cbn [map] in L. replace (0 + 2) with 2 in L by lra. rewrite L.
  assert (Z0 : lowpass 1 [0; 0] = [0; 0]).
  { unfold lowpass. cbv zeta. change (Z.of_nat (length [0; 0])) with 2%Z. change (pad_size 2) with 0%Z. change (2 + 2 * 0)%Z with 2%Z. change (zrange 0 2) with [0; 1]%Z. cbn [map Z.add].
    assert (Zc : forall j, window_filter 2 (gaussian 2 1) (fun i => nth (Z.to_nat (pad_reflect 2 0 i)) [0; 0] 0) j = 0).
    { intros j. rewrite C101_kernel by lia. change sum_to with zsum. apply zsum_zero. intros l Hl.
      replace (nth (Z.to_nat (pad_reflect 2 0 l)) [0; 0] 0) with 0; [lra|]. destruct (Z.to_nat (pad_reflect 2 0 l)) as [|[|[|]]]; reflexivity. }
    now rewrite !Zc. }
  rewrite Z0. cbn [map]. lists; lra.
Qed.

(** ** C102: fitting *)
Section Fitting.
  Variable savgol : Z -> Z -> (Z -> R) -> Z -> R.
  Variables (nrow ncol order : Z) (sigmax sigmay : R).
  Notation fitted := (remove_stripe_based_fitting nrow ncol savgol order sigmax sigmay).
  Definition homogeneous : Prop := forall n o a col y, savgol n o (fun y => a * col y) y = a * savgol n o col y.
  Definition keeps_constants : Prop := forall n o c y, savgol n o (fun _ => c) y = c.

  Lemma mean_2d_ext m m' : (forall y x, (0 <= y < nrow)%Z -> (0 <= x < ncol)%Z -> m y x = m' y x) -> mean_2d nrow ncol m = mean_2d nrow ncol m'.
  Proof. intros H. unfold mean_2d. f_equal. apply (zsum_ext nrow (fun y => rsum (map (m y) (zrange 0 ncol)))). intros y Hy. apply (zsum_ext ncol (m y)). intros x Hx. auto. Qed.
  Lemma mean_2d_scale a m : mean_2d nrow ncol (fun y x => a * m y x) = a * mean_2d nrow ncol m.
  Proof.
    unfold mean_2d. change (zsum nrow (fun y => zsum ncol (fun x => a * m y x)) / (IZR nrow * IZR ncol) = a * (zsum nrow (fun y => zsum ncol (fun x => m y x)) / (IZR nrow * IZR ncol))).
    rewrite (zsum_ext nrow _ (fun y => a * zsum ncol (fun x => m y x))) by (intros; apply zsum_scal). rewrite zsum_scal. unfold Rdiv. ring.
  Qed.
  Hypothesis Hrow : (1 <= nrow)%Z.
  Hypothesis Hcol : (1 <= ncol)%Z.
  Lemma mean_2d_rows q : mean_2d nrow ncol (fun _ x => q x) = zsum ncol q / IZR ncol.
  Proof.
    unfold mean_2d. change (zsum nrow (fun y => zsum ncol q) / (IZR nrow * IZR ncol) = zsum ncol q / IZR ncol). rewrite sum_same by lia.
    field. split; apply not_0_IZR; lia.
  Qed.
  Lemma matpad_scale pad a m y x : matpad nrow ncol pad (fun y x => a * m y x) y x = a * matpad nrow ncol pad m y x.
  Proof.
    unfold matpad. cbv zeta. destruct (_ && _)%bool; auto. unfold column_mean.
    change (zsum nrow (fun y => a * m y (clip ncol (x - pad))) / IZR nrow = a * (zsum nrow (fun y => m y (clip ncol (x - pad))) / IZR nrow)). rewrite zsum_scal. unfold Rdiv. ring.
  Qed.
  Lemma filter_2d_scale win pad a m y x : filter_2d nrow ncol win pad (fun y x => a * m y x) y x = a * filter_2d nrow ncol win pad m y x.
  Proof.
    unfold filter_2d. cbv zeta. set (H := (nrow + 2 * pad)%Z). set (W := (ncol + 2 * pad)%Z).
    set (D := fun m => dft2 H W (fun y x => (cr (matpad nrow ncol pad m y x) * cr (sign_of (x + y)))%C)).
    assert (E : forall v u, D (fun y x => a * m y x) v u = (cr a * D m v u)%C).
    { intros v u. unfold D, dft2. rewrite <- csum_mul. apply csum_ext. intros y' _. rewrite <- csum_mul. apply csum_ext. intros x' _. rewrite matpad_scale, cr_mul. ring. }
    change (re (idft2 H W (fun v u => (D (fun y x => (a * m y x)%R) v u * cr (win v u))%C) (y + pad) (x + pad) * cr (sign_of (x + pad + (y + pad))))%C =
      a * re (idft2 H W (fun v u => (D m v u * cr (win v u))%C) (y + pad) (x + pad) * cr (sign_of (x + pad + (y + pad))))%C).
    assert (I : idft2 H W (fun v u => (D (fun y x => (a * m y x)%R) v u * cr (win v u))%C) (y + pad) (x + pad) = (cr a * idft2 H W (fun v u => (D m v u * cr (win v u))%C) (y + pad) (x + pad))%C).
    { unfold idft2. transitivity (cr (/ (IZR H * IZR W)) * (cr a * csum H (fun v => csum W (fun u => (D m v u * cr (win v u) * (turn H ((y + pad) * v) * turn W ((x + pad) * u)))%C))))%C; [|ring].
      f_equal. rewrite <- csum_mul. apply csum_ext. intros v _. rewrite <- csum_mul. apply csum_ext. intros u _. rewrite E. ring. }
    rewrite I. generalize (idft2 H W (fun v u => (D m v u * cr (win v u))%C) (y + pad) (x + pad)). intros z. unfold cmul, cr, re, im. cbn [fst snd]. ring.
  Qed.

  (** A change of the unit of the data. *)
  Theorem C102_scale : homogeneous -> forall a sino y x, a <> 0 -> fitted (fun y x => a * sino y x) y x = a * fitted sino y x.
  Proof.
    intros Hh a sino y x Ha. unfold remove_stripe_based_fitting, rs_fit. cbv zeta.
    set (n1 := if (nrow mod 2 =? 0)%Z then (nrow - 1)%Z else nrow). set (o := if (n1 <=? order)%Z then (n1 - 1)%Z else order).
    set (pad := pad_size nrow). set (win := win2d nrow ncol sigmax sigmay pad).
    set (fit := fun y x => savgol n1 o (fun y => sino y x) y).
    assert (E : (fun y x => savgol n1 o (fun y => a * sino y x) y) = (fun y x => a * fit y x)).
    { apply functional_extensionality. intros y'. apply functional_extensionality. intros x'. unfold fit. apply (Hh n1 o a (fun y => sino y x')). }
    rewrite E. rewrite (mean_2d_scale a fit), (filter_2d_scale win pad a fit y x).
    rewrite (mean_2d_ext (filter_2d nrow ncol win pad (fun y x => a * fit y x)) (fun y x => a * filter_2d nrow ncol win pad fit y x)) by (intros; apply filter_2d_scale).
    rewrite mean_2d_scale. rewrite (Hh n1 o a (fun y => sino y x)). fold (fit y x).
    generalize (mean_2d nrow ncol fit) (filter_2d nrow ncol win pad fit y x) (mean_2d nrow ncol (filter_2d nrow ncol win pad fit)) (fit y x) (sino y x). intros A B C D S.
    unfold Rdiv. rewrite !Rinv_mult.
    transitivity ((a * / a) * (a * / a) * (a * (S * / D * (A * B * / C)))); [ring|]. rewrite Rinv_r by auto. ring.
  Qed.
  (** Columns that the fit reproduces (polynomials of the order of the fit): the mean value of the sinogram stays. *)
  Theorem C102_mean : forall sino, (forall n o x y, (0 <= x < ncol)%Z -> (0 <= y < nrow)%Z -> savgol n o (fun y => sino y x) y = sino y x) ->
    (forall x y, (0 <= x < ncol)%Z -> (0 <= y < nrow)%Z -> sino y x <> 0) ->
    mean_2d nrow ncol (filter_2d nrow ncol (win2d nrow ncol sigmax sigmay (pad_size nrow)) (pad_size nrow) sino) <> 0 ->
    mean_2d nrow ncol (fitted sino) = mean_2d nrow ncol sino.
  Proof.
    intros sino Hf Hn Hm. unfold remove_stripe_based_fitting, rs_fit. cbv zeta.
    set (n1 := if (nrow mod 2 =? 0)%Z then (nrow - 1)%Z else nrow). set (o := if (n1 <=? order)%Z then (n1 - 1)%Z else order).
    set (pad := pad_size nrow) in *. set (win := win2d nrow ncol sigmax sigmay pad) in *.
    set (fit := fun y x => savgol n1 o (fun y => sino y x) y).
    assert (Fit : forall y x, (0 <= x < ncol)%Z -> (0 <= y < nrow)%Z -> fit y x = sino y x).
    { intros y x Hx Hy. unfold fit. now rewrite Hf by auto. }
    assert (FE : forall y x, filter_2d nrow ncol win pad fit y x = filter_2d nrow ncol win pad sino y x).
    { intros y x. unfold filter_2d. cbv zeta. f_equal. f_equal. unfold idft2. f_equal. apply csum_ext. intros v _. apply csum_ext. intros u _. f_equal. f_equal. unfold dft2.
      apply csum_ext. intros y' _. apply csum_ext. intros x' _. f_equal. f_equal. f_equal. unfold matpad. cbv zeta. assert (C : (0 <= clip ncol (x' - pad) < ncol)%Z) by now apply clip_range.
      destruct (Z.leb_spec 0 (y' - pad)), (Z.ltb_spec (y' - pad) nrow); cbn [andb]; try (unfold column_mean; f_equal; f_equal; apply map_ext_in; intros z Hz; apply in_zrange in Hz; apply Fit; lia).
      apply Fit; lia. }
    rewrite (mean_2d_ext fit sino) by (intros; now apply Fit). rewrite (mean_2d_ext (filter_2d nrow ncol win pad fit) (filter_2d nrow ncol win pad sino)) by (intros; apply FE).
    set (m1 := mean_2d nrow ncol sino). set (m2 := mean_2d nrow ncol (filter_2d nrow ncol win pad sino)) in *.
    rewrite (mean_2d_ext _ (fun y x => m1 / m2 * filter_2d nrow ncol win pad sino y x)).
    - rewrite mean_2d_scale. fold m2. unfold m1. field. auto.
    - intros y x Hy Hx. rewrite FE. fold (fit y x). unfold fit. rewrite Hf by auto. field. auto.
  Qed.

  (** Even sizes, a sinogram with equal rows [1 + eps * wave]: the ripple is damped relative to the mean, and a constant sinogram stays. *)
  Hypothesis Hsx : sigmax <> 0.
  Hypothesis Hsy : sigmay <> 0.
  Lemma gain_pos sigma f : 0 < gain sigma f.
  Proof. unfold gain, bell. pose proof (exp_pos (- ((f + 1 / 2) * (f + 1 / 2)) / (2 * (sigma * sigma)))). pose proof (exp_pos (- ((f - 1 / 2) * (f - 1 / 2)) / (2 * (sigma * sigma)))). lra. Qed.
  Theorem C102_constant : keeps_constants -> Z.even nrow = true -> Z.even ncol = true -> forall c y x, c <> 0 -> fitted (fun _ _ => c) y x = c.
  Proof.
    intros Hk Er Ec c y x Hc. apply Z.even_spec in Er, Ec. destruct Er as (hy & Er), Ec as (hx & Ec). unfold remove_stripe_based_fitting, rs_fit. cbv zeta.
    set (n1 := if (nrow mod 2 =? 0)%Z then (nrow - 1)%Z else nrow). set (o := if (n1 <=? order)%Z then (n1 - 1)%Z else order). set (pad := pad_size nrow).
    assert (HP : (0 <= pad)%Z) by (unfold pad, pad_size; assert (0 <= nrow / 10)%Z by (apply Z.div_pos; lia); lia).
    assert (Fl : forall y x, filter_2d nrow ncol (win2d nrow ncol sigmax sigmay pad) pad (fun y x => savgol n1 o (fun _ => c) y) y x = c * (gain sigmay 0 * gain sigmax 0)).
    { intros y' x'. rewrite (filter_rows nrow ncol pad (hy + pad) ltac:(lia) Hrow HP Hcol sigmax sigmay _ (fun _ => c)) by (auto; intros; apply Hk).
      rewrite (window_filter_const (ncol + 2 * pad) _ ltac:(lia) (hx + pad)) by lia. replace (ncol + 2 * pad)%Z with (2 * (hx + pad))%Z by lia. rewrite gaussian_middle. ring. }
    rewrite Fl. rewrite (mean_2d_ext (filter_2d _ _ _ _ _) (fun _ _ => c * (gain sigmay 0 * gain sigmax 0))) by (intros; apply Fl).
    rewrite (mean_2d_ext (fun y x => savgol n1 o (fun _ => c) y) (fun _ _ => c)) by (intros; apply Hk). rewrite Hk.
    rewrite (mean_2d_rows (fun _ => c)), (mean_2d_rows (fun _ => c * (gain sigmay 0 * gain sigmax 0))). rewrite !sum_same by lia.
    pose proof (gain_pos sigmay 0). pose proof (gain_pos sigmax 0). field. repeat split; try lra. apply not_0_IZR. lia.
  Qed.
  Lemma zsum_wave h f phase : (ncol = 2 * h)%Z -> (0 < f < h)%Z -> zsum ncol (wave ncol f phase) = 0.
  Proof.
    intros E Hf. assert (R1 : forall n F, zsum n F = re (csum n (fun i => cr (F i)))) by (intros; rewrite re_csum; reflexivity).
    rewrite R1. rewrite (csum_ext ncol _ _ (fun l _ => wave_turns ncol f phase l)), csum_add.
    rewrite (csum_ext ncol (fun l => (cr (/ 2) * expi phase * turn ncol (f * l))%C) (fun l => (cr (/ 2) * expi phase * turn ncol (l * f))%C)) by (intros; do 2 f_equal; lia).
    rewrite (csum_ext ncol (fun l => (cr (/ 2) * expi (- phase) * turn ncol (- f * l))%C) (fun l => (cr (/ 2) * expi (- phase) * turn ncol (l * - f))%C)) by (intros; do 2 f_equal; lia).
    rewrite !csum_mul, !csum_turns by lia. rewrite (Z.mod_small f), (Z.mod_opp_l_nz f) by (try rewrite Z.mod_small; lia). rewrite (Z.mod_small f) by lia.
    destruct (Z.eqb_spec f 0); [lia|]. destruct (Z.eqb_spec (ncol - f) 0); [lia|]. unfold cadd, cmul, cr, re, im. cbn [fst snd]. ring.
  Qed.
  Theorem C102_ripple : keeps_constants -> Z.even nrow = true -> (nrow < 10)%Z -> forall h f phase eps y x, (ncol = 2 * h)%Z -> (0 < f < h)%Z -> (0 <= x < ncol)%Z ->
    (forall x, 1 + eps * wave ncol f phase x <> 0) ->
    fitted (fun _ x => 1 + eps * wave ncol f phase x) y x = 1 + eps * (gain sigmax (IZR f) / gain sigmax 0) * wave ncol f phase x.
  Proof.
    intros Hk Er H10 h f phase eps y x Ec Hf Hx Hn. apply Z.even_spec in Er. destruct Er as (hy & Er). unfold remove_stripe_based_fitting, rs_fit. cbv zeta.
    set (n1 := if (nrow mod 2 =? 0)%Z then (nrow - 1)%Z else nrow). set (o := if (n1 <=? order)%Z then (n1 - 1)%Z else order).
    assert (Hp : pad_size nrow = 0%Z) by (unfold pad_size; replace (nrow / 10)%Z with 0%Z by (symmetry; apply Z.div_small; lia); reflexivity). rewrite Hp.
    set (q := fun x => 1 + eps * wave ncol f phase x).
    assert (Fl : forall y x, (0 <= x < ncol)%Z -> filter_2d nrow ncol (win2d nrow ncol sigmax sigmay 0) 0 (fun y x => savgol n1 o (fun _ => q x) y) y x =
      gain sigmay 0 * (gain sigmax 0 + eps * gain sigmax (IZR f) * wave ncol f phase x)).
    { intros y' x' Hx'. rewrite (filter_rows nrow ncol 0 hy ltac:(lia) Hrow ltac:(lia) Hcol sigmax sigmay _ q) by (auto; intros; apply Hk). f_equal.
      change (2 * 0)%Z with 0%Z. rewrite !Z.add_0_r. rewrite (window_filter_ext ncol _ _ (fun i => 1 + eps * wave ncol f phase i)).
      2:{ intros l Hl. unfold q. do 3 f_equal. unfold clip. lia. }
      rewrite (window_filter_add ncol _ (fun _ => 1)), window_filter_mul.
      rewrite (window_filter_const ncol _ ltac:(lia) h) by auto. rewrite (window_filter_wave ncol _ ltac:(lia) h) by auto.
      replace ncol with (2 * h)%Z at 1 2 3 4 5 6. rewrite gaussian_middle, gaussian_gain by lia. replace (2 * h)%Z with ncol. ring. }
    rewrite Fl by auto. rewrite (mean_2d_ext (filter_2d _ _ _ _ _) (fun _ x => gain sigmay 0 * (gain sigmax 0 + eps * gain sigmax (IZR f) * wave ncol f phase x))) by (intros; now apply Fl).
    rewrite (mean_2d_ext (fun y x => savgol n1 o (fun _ => 1 + eps * wave ncol f phase x) y) (fun _ x => 1 + eps * wave ncol f phase x)) by (intros; apply Hk). rewrite Hk.
    rewrite (mean_2d_rows (fun x => 1 + eps * wave ncol f phase x)), (mean_2d_rows (fun x => gain sigmay 0 * (gain sigmax 0 + eps * gain sigmax (IZR f) * wave ncol f phase x))).
    rewrite zsum_scal, !zsum_plus, !zsum_scal, !sum_same, (zsum_wave h) by (auto; lia).
    pose proof (gain_pos sigmay 0). pose proof (gain_pos sigmax 0). specialize (Hn x). field. repeat split; try lra; try apply not_0_IZR; lia.
  Qed.
End Fitting.
(** Finding: with an odd number of columns a constant sinogram does not stay constant. *)
Theorem C102_odd_refuted : exists savgol, keeps_constants savgol /\ remove_stripe_based_fitting 2 3 savgol 1 1 1 (fun _ _ => 1) 0 0 <> remove_stripe_based_fitting 2 3 savgol 1 1 1 (fun _ _ => 1) 0 1.
Proof.
  exists (fun _ _ col => col). split; [intros n o c y; reflexivity|]. unfold remove_stripe_based_fitting, rs_fit. cbv zeta. change (pad_size 2) with 0%Z.
  set (F := filter_2d 2 3 (win2d 2 3 1 1 0) 0 (fun _ _ => 1)).
  assert (E : forall y x, F y x = gain 1 0 * window_filter 3 (gaussian 3 1) (fun _ => 1) x).
  { intros y x. unfold F. rewrite (filter_rows 2 3 0 1 ltac:(lia) ltac:(lia) ltac:(lia) ltac:(lia) 1 1 _ (fun _ => 1)) by (auto; lra). change (3 + 2 * 0)%Z with 3%Z. now rewrite Z.add_0_r. }
  destruct (filter_three 0) as (_ & A & _), (filter_three 1) as (_ & _ & B), (filter_three 2) as (_ & C & _).
  specialize (A (or_introl eq_refl)). specialize (B eq_refl). specialize (C (or_intror eq_refl)). pose proof bell_one as Hg. assert (Gp : 0 < bell 1 1) by apply exp_pos. pose proof (gain_pos 1 0) as G0.
  assert (M : mean_2d 2 3 F = gain 1 0 * ((4 + 5 * bell 1 1) / 9)).
  { unfold mean_2d, rsum. change (zrange 0 2) with [0; 1]%Z. change (zrange 0 3) with [0; 1; 2]%Z. cbn [map fold_right]. rewrite !E, A, B, C. field. }
  assert (M1 : mean_2d 2 3 (fun _ _ => 1) = 1).
  { unfold mean_2d, rsum. change (zrange 0 2) with [0; 1]%Z. change (zrange 0 3) with [0; 1; 2]%Z. cbn [map fold_right]. field. }
  rewrite M, M1, !E, A, B. set (g := bell 1 1) in *. intros H.
  assert (H' : (1 + 2 * g) / 3 = (2 + g) / 3).
  { apply (Rmult_eq_reg_l (9 / (4 + 5 * g))); [|apply Rgt_not_eq, Rdiv_lt_0_compat; lra].
    transitivity (1 / 1 * (1 * (gain 1 0 * ((1 + 2 * g) / 3)) / (gain 1 0 * ((4 + 5 * g) / 9)))); [field; lra|]. rewrite H. field. lra. }
  lra.
Qed.
Example C102_example : remove_stripe_based_fitting 2 2 (fun _ _ col => col) 1 1 1 (fun _ _ => 5) 1 0 = 5.
Proof. apply C102_constant; try reflexivity; try lia; try lra. intros n o c y. reflexivity. Qed.
