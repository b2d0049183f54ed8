(** Finding the rotation centre: limits, histogram and entropy. *)
From Verif Require Import Base CLoop Cplx Model_Prep Model_Sim Model_Corr Model_Rotation.
From Verif Require Proofs_Ray Proofs_Sim.
From Coq Require Import Reals Lra.
Local Open Scope R_scope.

Lemma rltb_spec x y : rltb x y = true <-> x < y.
Proof. unfold rltb. destruct (Rlt_dec x y); split; intros; auto; try discriminate; lra. Qed.
Lemma rltb_false x y : rltb x y = false <-> y <= x.
Proof. unfold rltb. destruct (Rlt_dec x y); split; intros; auto; try discriminate; lra. Qed.
Lemma floor_spec x : IZR (Int_part x) <= x < IZR (Int_part x) + 1.
Proof. destruct (base_Int_part x). lra. Qed.

(** ** Lists of pixels *)
Lemma in_pixels ny nx a v : In v (pixels ny nx a) <-> exists i j, (0 <= i < ny)%Z /\ (0 <= j < nx)%Z /\ v = a i j.
Proof.
  unfold pixels. rewrite in_flat_map. split.
  - intros (i & Hi & H). apply in_map_iff in H as (j & <- & Hj). apply in_zrange in Hi. apply in_zrange in Hj. exists i, j. auto.
  - intros (i & j & Hi & Hj & ->). exists i. rewrite in_zrange. split; [lia|]. apply in_map, in_zrange. lia.
Qed.
Lemma pixels_length ny nx a : (0 <= ny)%Z -> (0 <= nx)%Z -> length (pixels ny nx a) = Z.to_nat (ny * nx).
Proof.
  intros Hy Hx. unfold pixels.
  assert (E : forall l : list Z, length (flat_map (fun i => map (a i) (zrange 0 nx)) l) = (length l * Z.to_nat nx)%nat).
  { induction l as [|i l IH]; [reflexivity|]. cbn. rewrite app_length, map_length, zrange_length, IH. lia. }
  rewrite E, zrange_length. rewrite Z2Nat.inj_mul by lia. f_equal; f_equal; lia.
Qed.
Lemma fold_max_ge x l : forall y, In y l -> y <= fold_right Rmax x l.
Proof. induction l as [|z l IH]; cbn; [easy|]. intros y [->|H]; [apply Rmax_l|]. eapply Rle_trans; [now apply IH|apply Rmax_r]. Qed.
Lemma fold_max_start x l : x <= fold_right Rmax x l.
Proof. induction l as [|z l IH]; cbn; [lra|]. eapply Rle_trans; [exact IH|apply Rmax_r]. Qed.
Lemma fold_max_in x l : fold_right Rmax x l = x \/ In (fold_right Rmax x l) l.
Proof.
  induction l as [|z l IH]; cbn; [now left|]. assert (D : Rmax z (fold_right Rmax x l) = z \/ Rmax z (fold_right Rmax x l) = fold_right Rmax x l) by (unfold Rmax at 1 3; destruct (Rle_dec z (fold_right Rmax x l)); auto).
  destruct D as [E|E]; rewrite E; [right; now left|].
  destruct IH as [H|H]; [now left|right; now right].
Qed.
Lemma fold_min_le x l : forall y, In y l -> fold_right Rmin x l <= y.
Proof. induction l as [|z l IH]; cbn; [easy|]. intros y [->|H]; [apply Rmin_l|]. eapply Rle_trans; [apply Rmin_r|now apply IH]. Qed.
Lemma fold_min_start x l : fold_right Rmin x l <= x.
Proof. induction l as [|z l IH]; cbn; [lra|]. eapply Rle_trans; [apply Rmin_r|exact IH]. Qed.
Lemma fold_min_in x l : fold_right Rmin x l = x \/ In (fold_right Rmin x l) l.
Proof.
  induction l as [|z l IH]; cbn; [now left|]. assert (D : Rmin z (fold_right Rmin x l) = z \/ Rmin z (fold_right Rmin x l) = fold_right Rmin x l) by (unfold Rmin at 1 3; destruct (Rle_dec z (fold_right Rmin x l)); auto).
  destruct D as [E|E]; rewrite E; [right; now left|].
  destruct IH as [H|H]; [now left|right; now right].
Qed.
Lemma list_max_ge l x : In x l -> x <= list_max l.
Proof. destruct l as [|y l]; [easy|]. intros [->|H]; [apply fold_max_start|now apply fold_max_ge]. Qed.
Lemma list_min_le l x : In x l -> list_min l <= x.
Proof. destruct l as [|y l]; [easy|]. intros [->|H]; [apply fold_min_start|now apply fold_min_le]. Qed.
Lemma list_max_in l : l <> [] -> In (list_max l) l.
Proof. destruct l as [|y l]; [easy|]. intros _. destruct (fold_max_in y l) as [H|H]; [left; cbn; now rewrite H|now right]. Qed.
Lemma list_min_in l : l <> [] -> In (list_min l) l.
Proof. destruct l as [|y l]; [easy|]. intros _. destruct (fold_min_in y l) as [H|H]; [left; cbn; now rewrite H|now right]. Qed.
Lemma list_min_max l : list_min l <= list_max l.
Proof. destruct l as [|y l]; [cbn; lra|]. apply list_min_le, list_max_in. discriminate. Qed.
Lemma list_max_scale c l : 0 < c -> list_max (map (Rmult c) l) = c * list_max l.
Proof.
  intros Hc. destruct l as [|y l]; [cbn; ring|]. cbn.
  induction l as [|z l IH]; [reflexivity|]. cbn. rewrite IH.
  apply RmaxRmult. lra.
Qed.

(** ** Limits *)
Lemma adjust_min v : adjust_hist_min v <= v.
Proof. unfold adjust_hist_min. destruct (rltb v 0) eqn:E; [apply rltb_spec in E|apply rltb_false in E]; lra. Qed.
Lemma adjust_max v : v <= adjust_hist_max v.
Proof. unfold adjust_hist_max. destruct (rltb v 0) eqn:E; [apply rltb_spec in E|apply rltb_false in E]; lra. Qed.
Lemma limits_hold n mask rec hmin hmax : adjust_hist_limits n mask rec = (hmin, hmax) ->
  hmin <= hmax /\ forall i j, (0 <= i < n)%Z -> (0 <= j < n)%Z -> hmin <= masked mask n rec i j <= hmax.
Proof.
  unfold adjust_hist_limits. cbv zeta. set (l := pixels n n (masked mask n rec)). intros E. injection E as <- <-.
  pose proof (adjust_min (list_min l)). pose proof (adjust_max (list_max l)). pose proof (list_min_max l).
  split; [lra|]. intros i j Hi Hj.
  assert (I : In (masked mask n rec i j) l) by (apply in_pixels; exists i, j; auto).
  pose proof (list_max_ge _ _ I). pose proof (list_min_le _ _ I). lra.
Qed.

(** ** Histogram *)
Lemma hist_limits_ok lo hi : lo <= hi -> exists lo' hi', hist_limits lo hi = Ok (lo', hi') /\ lo' < hi' /\ lo' <= lo /\ hi <= hi' /\ (lo < hi -> lo' = lo /\ hi' = hi).
Proof.
  intros H. unfold hist_limits. replace (rltb hi lo) with false by (symmetry; now apply rltb_false).
  destruct (Req_EM_T lo hi) as [->|N].
  - exists (hi - 1 / 2), (hi + 1 / 2). repeat split; try lra.
  - exists lo, hi. repeat split; lra.
Qed.
Lemma bin_in n lo hi x : (1 <= n)%Z -> lo < hi -> lo <= x <= hi -> exists k, bin_of n lo hi x = Some k /\ (0 <= k < n)%Z.
Proof.
  intros Hn Hl Hx. unfold bin_of.
  replace (rltb x lo) with false by (symmetry; apply rltb_false; lra). replace (rltb hi x) with false by (symmetry; apply rltb_false; lra).
  cbn. eexists. split; [reflexivity|].
  assert (0 <= (x - lo) / (hi - lo) * IZR n).
  { apply Rmult_le_pos; [|apply IZR_le; lia]. apply Rmult_le_pos; [lra|]. left. apply Rinv_0_lt_compat. lra. }
  assert (0 <= Int_part ((x - lo) / (hi - lo) * IZR n))%Z; [|lia].
  destruct (floor_spec ((x - lo) / (hi - lo) * IZR n)) as [_ F].
  apply Z.lt_succ_r, lt_IZR. rewrite succ_IZR. lra.
Qed.
Lemma bin_out n lo hi x : x < lo \/ hi < x -> bin_of n lo hi x = None.
Proof.
  intros H. unfold bin_of. destruct H as [H|H].
  - replace (rltb x lo) with true by (symmetry; now apply rltb_spec). reflexivity.
  - replace (rltb hi x) with true by (symmetry; now apply rltb_spec). now rewrite orb_true_r.
Qed.
Lemma int_part_iff x k : Int_part x = k <-> IZR k <= x < IZR k + 1.
Proof. split; [intros <-; apply floor_spec|apply Proofs_Ray.Int_part_spec]. Qed.
Lemma in_bin_iff n lo hi k x : (1 <= n)%Z -> lo < hi -> (0 <= k < n)%Z ->
  in_bin n lo hi k x = true <->
  lo + IZR k * (hi - lo) / IZR n <= x /\ (x < lo + IZR (k + 1) * (hi - lo) / IZR n \/ (k = n - 1)%Z /\ x = hi).
Proof.
  intros Hn Hl Hk. assert (Hn' : 0 < IZR n) by (apply IZR_lt; lia).
  assert (HR : forall m, lo + IZR m * (hi - lo) / IZR n <= x <-> IZR m <= (x - lo) / (hi - lo) * IZR n).
  { intros m. replace (lo + IZR m * (hi - lo) / IZR n) with (lo + IZR m * ((hi - lo) / IZR n)) by (unfold Rdiv; ring).
    assert (P : 0 < (hi - lo) / IZR n) by (apply Rdiv_lt_0_compat; lra).
    replace ((x - lo) / (hi - lo) * IZR n) with ((x - lo) / ((hi - lo) / IZR n)) by (field; lra).
    split; intros H.
    - apply Rmult_le_reg_r with ((hi - lo) / IZR n); [exact P|]. unfold Rdiv at 2. rewrite Rmult_assoc, Rinv_l, Rmult_1_r; lra.
    - apply Rmult_le_compat_r with (r := (hi - lo) / IZR n) in H; [|lra]. unfold Rdiv at 2 in H. rewrite Rmult_assoc, Rinv_l, Rmult_1_r in H; lra. }
  assert (HT : lo + IZR n * (hi - lo) / IZR n = hi) by (field; lra).
  unfold in_bin. destruct (Rlt_dec x lo) as [O|O]; [|destruct (Rlt_dec hi x) as [O2|O2]].
  - rewrite bin_out by auto. split; [easy|]. intros [H _].
    assert (0 <= IZR k * (hi - lo) / IZR n); [|lra].
    apply Rmult_le_pos; [apply Rmult_le_pos; [apply IZR_le; lia|lra]|left; now apply Rinv_0_lt_compat].
  - rewrite bin_out by auto. split; [easy|]. intros [_ [H|[_ H]]]; [|lra].
    assert (IZR (k + 1) * (hi - lo) / IZR n <= IZR n * (hi - lo) / IZR n); [|lra].
    apply Rmult_le_compat_r; [left; now apply Rinv_0_lt_compat|]. apply Rmult_le_compat_r; [lra|]. apply IZR_le. lia.
  - unfold bin_of. replace (rltb x lo) with false by (symmetry; apply rltb_false; lra). replace (rltb hi x) with false by (symmetry; apply rltb_false; lra).
    cbn [orb]. rewrite Z.eqb_eq. set (y := (x - lo) / (hi - lo) * IZR n) in *.
    assert (Hx : lo <= x <= hi) by lra.
    pose proof (HR k) as HRk. pose proof (HR (k + 1)%Z) as HRk1. pose proof (HR n) as HRn. rewrite HT in HRn.
    pose proof (floor_spec y) as F.
    assert (Fk : (k <= Int_part y)%Z <-> IZR k <= y).
    { split; intros H; [apply IZR_le in H; lra|]. apply Z.lt_succ_r, lt_IZR. rewrite succ_IZR. lra. }
    assert (Fk1 : (k + 1 <= Int_part y)%Z <-> IZR (k + 1) <= y).
    { split; intros H; [apply IZR_le in H; lra|]. apply Z.lt_succ_r, lt_IZR. rewrite succ_IZR. lra. }
    assert (Fn : (n <= Int_part y)%Z <-> IZR n <= y).
    { split; intros H; [apply IZR_le in H; lra|]. apply Z.lt_succ_r, lt_IZR. rewrite succ_IZR. lra. }
    split.
    + intros H. split; [apply HRk, Fk; lia|].
      destruct (Z.eq_dec k (n - 1)) as [K|K].
      * destruct (Rlt_dec x hi) as [X|X]; [left|right; split; [exact K|lra]].
        replace (k + 1)%Z with n by lia. rewrite HT. exact X.
      * left. apply Rnot_le_lt. intros C. apply HRk1, Fk1 in C. lia.
    + intros [H1 H2]. apply HRk, Fk in H1. destruct H2 as [H2|[K ->]]; [|lia].
      destruct (Z.eq_dec k (n - 1)) as [K|K]; [lia|].
      assert (~ (k + 1 <= Int_part y)%Z); [|lia]. intros C. apply Fk1, HRk1 in C. lra.
Qed.
Lemma count_bins n lo hi l : (1 <= n)%Z -> lo < hi ->
  fold_right Z.add 0%Z (map (fun k => Z.of_nat (count (in_bin n lo hi k) l)) (zrange 0 n)) =
  Z.of_nat (count (fun x => negb (rltb x lo || rltb hi x)) l).
Proof.
  intros Hn Hl. induction l as [|x l IH].
  - cbn [count]. induction (zrange 0 n) as [|k t IHt]; [reflexivity|]. cbn. exact IHt.
  - transitivity (fold_right Z.add 0%Z (map (fun k => if in_bin n lo hi k x then 1 else 0)%Z (zrange 0 n)) +
                  fold_right Z.add 0%Z (map (fun k => Z.of_nat (count (in_bin n lo hi k) l)) (zrange 0 n)))%Z.
    { clear IH. induction (zrange 0 n) as [|k t IHt]; [reflexivity|]. cbn [map fold_right]. rewrite IHt. cbn [count].
      destruct (in_bin n lo hi k x); lia. }
    rewrite IH. cbn [count].
    assert (E : fold_right Z.add 0%Z (map (fun k => if in_bin n lo hi k x then 1 else 0)%Z (zrange 0 n)) =
                (if negb (rltb x lo || rltb hi x) then 1 else 0)%Z).
    { clear IH. destruct (rltb x lo || rltb hi x) eqn:O; cbn [negb].
      - assert (B : forall k, in_bin n lo hi k x = false) by (intros k; unfold in_bin, bin_of; now rewrite O).
        induction (zrange 0 n) as [|k t IHt]; [reflexivity|]. cbn. rewrite B, IHt. reflexivity.
      - apply orb_false_iff in O as [O1 O2]. apply rltb_false in O1. apply rltb_false in O2.
        destruct (@bin_in n lo hi x Hn Hl (Logic.conj O1 O2)) as (b & Eb & Hb).
        assert (B : forall k, in_bin n lo hi k x = (b =? k)%Z) by (intros k; unfold in_bin; now rewrite Eb).
        rewrite <- (@zrange_app 0 b n), <- (@zrange_app b (b + 1) n), zrange_one, !map_app, !fold_right_app by lia.
        assert (Zs : forall t s, (forall k, In k t -> b <> k) -> fold_right Z.add s (map (fun k => if in_bin n lo hi k x then 1 else 0)%Z t) = s).
        { induction t as [|k t IHt]; [reflexivity|]. intros s H. cbn. rewrite IHt by (intros; apply H; now right). rewrite B.
          destruct (Z.eqb_spec b k); [exfalso; eapply H; [now left|auto]|reflexivity]. }
        rewrite (Zs (zrange (b + 1) n)) by (intros k Hk; apply in_zrange in Hk; lia).
        rewrite Zs by (intros k Hk; apply in_zrange in Hk; lia). cbn. rewrite B, Z.eqb_refl. reflexivity. }
    rewrite E. destruct (negb (rltb x lo || rltb hi x)); lia.
Qed.
Lemma count_all {A} (p : A -> bool) l : (forall x, In x l -> p x = true) -> count p l = length l.
Proof. induction l as [|x l IH]; [reflexivity|]. intros H. cbn. rewrite (H x) by now left. rewrite IH; [reflexivity|]. intros; apply H; now right. Qed.
Lemma count_perm {A} (p : A -> bool) l1 l2 : Permutation l1 l2 -> count p l1 = count p l2.
Proof. induction 1; cbn; lia. Qed.

(** ** Entropy *)
Definition term (h : R) : R := - (h * log2 h).
Lemma ln2_pos : 0 < ln 2. Proof. rewrite <- ln_1. apply ln_increasing; lra. Qed.
Lemma ln_le_sub x : 0 < x -> ln x <= x - 1.
Proof.
  intros H. destruct (Req_dec x 1) as [->|N]; [rewrite ln_1; lra|].
  left. assert (E : ln x <> 0) by (intros E; apply N; rewrite <- (exp_ln x H), E; apply exp_0).
  pose proof (exp_ineq1 (ln x) E) as Hx. rewrite exp_ln in Hx by auto. lra.
Qed.
(** The tangent of x log x at y lies below. *)
Lemma term_tangent x y : 0 < x -> 0 < y -> x * log2 x >= x * log2 y + (x - y) / ln 2.
Proof.
  intros Hx Hy. unfold log2. pose proof ln2_pos as L.
  assert (ln (y / x) <= y / x - 1) by (apply ln_le_sub, Rdiv_lt_0_compat; auto).
  unfold Rdiv in H at 1. rewrite ln_mult, ln_Rinv in H by (auto; now apply Rinv_0_lt_compat).
  assert (x * (ln y - ln x) <= y - x).
  { replace (y - x) with (x * (y / x - 1)) by (field; lra). apply Rmult_le_compat_l; lra. }
  assert (x * (ln y - ln x) / ln 2 <= (y - x) / ln 2).
  { apply Rmult_le_compat_r; [left; now apply Rinv_0_lt_compat|lra]. }
  unfold Rdiv in *. lra.
Qed.
Lemma term_chord a b p : 0 < a -> 0 < b -> 0 <= p <= 1 -> (1 - p) * term a + p * term b <= term ((1 - p) * a + p * b).
Proof.
  intros Ha Hb Hp. set (m := (1 - p) * a + p * b).
  assert (Hm : 0 < m) by (unfold m; destruct (Req_dec p 0) as [->|]; [lra|]; assert (0 < p * b) by (apply Rmult_lt_0_compat; lra); assert (0 <= (1 - p) * a) by (apply Rmult_le_pos; lra); lra).
  pose proof (term_tangent a m Ha Hm) as Ta. pose proof (term_tangent b m Hb Hm) as Tb.
  unfold term. 
  assert (E : (1 - p) * (a * log2 m + (a - m) / ln 2) + p * (b * log2 m + (b - m) / ln 2) = m * log2 m).
  { unfold m. field. pose proof ln2_pos; lra. }
  assert ((1 - p) * (a * log2 a) >= (1 - p) * (a * log2 m + (a - m) / ln 2)) by (apply Rmult_ge_compat_l; lra).
  assert (p * (b * log2 b) >= p * (b * log2 m + (b - m) / ln 2)) by (apply Rmult_ge_compat_l; lra).
  lra.
Qed.
Lemma tiny_pos : 0 < tiny. Proof. unfold tiny. apply Rdiv_lt_0_compat; [lra|]. apply pow_lt. lra. Qed.
Lemma rsum_ext {A} (f g : A -> R) l : (forall x, In x l -> f x = g x) -> rsum (map f l) = rsum (map g l).
Proof. induction l as [|x l IH]; [reflexivity|]. intros H. cbn. rewrite (H x) by now left. f_equal. apply IH. intros; apply H; now right. Qed.
Lemma rsum_le {A} (f g : A -> R) l : (forall x, In x l -> f x <= g x) -> rsum (map f l) <= rsum (map g l).
Proof. induction l as [|x l IH]; cbn; [lra|]. intros H. apply Rplus_le_compat; [apply H; now left|apply IH; intros; apply H; now right]. Qed.
Lemma rsum_lin {A} (f g : A -> R) a b l : rsum (map (fun x => a * f x + b * g x) l) = a * rsum (map f l) + b * rsum (map g l).
Proof. unfold rsum. induction l as [|x l IH]; cbn; [ring|]. rewrite IH. ring. Qed.
Lemma rsum_const {A} (a : R) (l : list A) : rsum (map (fun _ => a) l) = INR (length l) * a.
Proof. induction l as [|x l IH]; [cbn; ring|]. cbn [map rsum fold_right length]. rewrite S_INR. fold (rsum (map (fun _ => a) l)). rewrite IH. ring. Qed.
Lemma rsum_opp {A} (f : A -> R) l : - rsum (map f l) = rsum (map (fun x => - f x) l).
Proof. unfold rsum. induction l as [|x l IH]; cbn; [ring|]. rewrite <- IH. ring. Qed.
Lemma entropy_terms size h : entropy size h = rsum (map (fun c => term (IZR c / size + tiny)) h).
Proof. unfold entropy. cbv zeta. now rewrite rsum_opp. Qed.
Lemma izr_sum h : IZR (fold_right Z.add 0%Z h) = rsum (map IZR h).
Proof. induction h as [|c h IH]; [reflexivity|]. cbn. rewrite plus_IZR, IH. reflexivity. Qed.

(** Counts that sum to the size. *)
Section Bounds.
  Variables (size : R) (h : list Z).
  Hypotheses (Hs : 0 < size) (Hc : forall c, In c h -> (0 <= c)%Z) (Hsum : IZR (fold_right Z.add 0%Z h) = size).
  Lemma share c : In c h -> 0 <= IZR c / size <= 1.
  Proof.
    intros I. assert (0 <= IZR c) by (apply IZR_le; auto).
    assert (IZR c <= size).
    { rewrite <- Hsum. apply IZR_le. clear Hsum. revert I. induction h as [|d t IH]; [easy|]. cbn. intros I.
      assert (P : (0 <= fold_right Z.add 0%Z t)%Z).
      { clear IH I. assert (Ht : forall c, In c t -> (0 <= c)%Z) by (intros; apply Hc; now right). clear Hc.
        induction t as [|e t IHt]; cbn; [lia|]. pose proof (Ht e (or_introl eq_refl)).
        assert (0 <= fold_right Z.add 0 t)%Z by (apply IHt; intros; apply Ht; now right). lia. }
      pose proof (Hc d (or_introl eq_refl)). destruct I as [->|I]; [lia|].
      assert (c <= fold_right Z.add 0%Z t)%Z; [|lia]. apply IH; [|exact I]. intros; apply Hc; now right. }
    split; [apply Rmult_le_pos; [auto|left; now apply Rinv_0_lt_compat]|].
    apply Rmult_le_reg_r with size; [auto|]. unfold Rdiv. rewrite Rmult_assoc, Rinv_l, Rmult_1_r; lra.
  Qed.
  Lemma shares : rsum (map (fun c => IZR c / size) h) = 1.
  Proof.
    rewrite (rsum_ext _ (fun c => / size * IZR c + 0 * IZR c)) by (intros; unfold Rdiv; ring).
    rewrite rsum_lin, <- izr_sum, Hsum. field. lra.
  Qed.
  Lemma entropy_least : entropy size h >= INR (length h - 1) * term tiny + term (1 + tiny).
  Proof.
    rewrite entropy_terms. apply Rle_ge.
    assert (h <> []) by (intros ->; cbn in Hsum; lra).
    assert (L : INR (length h - 1) = INR (length h) - 1) by (rewrite minus_INR; [reflexivity|]; destruct h; [easy|cbn; lia]).
    apply Rle_trans with (rsum (map (fun c => 1 * term tiny + (term (1 + tiny) - term tiny) * (IZR c / size)) h)).
    - rewrite (rsum_lin (fun _ => term tiny) (fun c => IZR c / size)), shares, rsum_const, L. lra.
    - apply rsum_le. intros c I. destruct (share _ I) as [P0 P1]. pose proof tiny_pos as T.
      pose proof (@term_chord tiny (1 + tiny) (IZR c / size)) as C.
      replace (IZR c / size + tiny) with ((1 - IZR c / size) * tiny + IZR c / size * (1 + tiny)) by ring.
      eapply Rle_trans; [|apply C; lra]. lra.
  Qed.
  Lemma entropy_most : entropy size h <= INR (length h) * term (1 / INR (length h) + tiny).
  Proof.
    rewrite entropy_terms. assert (h <> []) by (intros ->; cbn in Hsum; lra).
    assert (L : 0 < INR (length h)) by (apply lt_0_INR; destruct h; [easy|cbn; lia]).
    set (y := 1 / INR (length h) + tiny).
    assert (Hy : 0 < y) by (unfold y; pose proof tiny_pos; assert (0 < 1 / INR (length h)) by (apply Rdiv_lt_0_compat; lra); lra).
    pose proof tiny_pos as T.
    apply Rle_trans with (rsum (map (fun c => (- log2 y - 1 / ln 2) * (IZR c / size) + (- tiny * log2 y - (tiny - y) / ln 2) * 1) h)).
    - apply rsum_le. intros c I. destruct (share _ I) as [P0 P1].
      pose proof (@term_tangent (IZR c / size + tiny) y ltac:(lra) Hy) as Tg. unfold term.
      set (q := IZR c / size) in *. clearbody q. unfold Rdiv in *. set (k := / ln 2) in *. clearbody k. set (a := log2 y) in *. clearbody a.
      set (b := log2 (q + tiny)) in *. clearbody b.
      eapply Rle_trans; [apply Ropp_le_contravar, Rge_le, Tg|]. right. ring.
    - rewrite (rsum_lin (fun c => IZR c / size) (fun _ => 1)), shares, rsum_const. unfold term, y.
      right. pose proof ln2_pos. field. repeat split; lra.
  Qed.
End Bounds.
