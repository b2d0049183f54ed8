(** Lemmas for Properties_Align. *)
From Verif Require Import Base Model_Prep Model_Solver Proofs_Prep Model_Align.
From Coq Require Import Reals Lra Psatz.
Local Open Scope R_scope.

(** ** Extreme values *)
Lemma lmax_ge l : forall x, x <= lmax x l /\ Forall (fun y => y <= lmax x l) l.
Proof.
  induction l as [|y l IH]; intros x; cbn [lmax]; [split; [lra|constructor]|]. destruct (IH (Rmax x y)) as (A & B).
  split; [eapply Rle_trans; [apply Rmax_l|exact A]|]. constructor; auto. eapply Rle_trans; [apply Rmax_r|exact A].
Qed.
Lemma lmin_le l : forall x, lmin x l <= x /\ Forall (fun y => lmin x l <= y) l.
Proof.
  induction l as [|y l IH]; intros x; cbn [lmin]; [split; [lra|constructor]|]. destruct (IH (Rmin x y)) as (A & B).
  split; [eapply Rle_trans; [exact A|apply Rmin_l]|]. constructor; auto. eapply Rle_trans; [exact A|apply Rmin_r].
Qed.
Lemma lmax_in l : forall x, In (lmax x l) (x :: l).
Proof. induction l as [|y l IH]; intros x; cbn [lmax]; [left; auto|]. destruct (IH (Rmax x y)) as [E|E]; [rewrite <- E; unfold Rmax; destruct (Rle_dec x y); cbn; auto|cbn; auto]. Qed.
Lemma lmin_in l : forall x, In (lmin x l) (x :: l).
Proof. induction l as [|y l IH]; intros x; cbn [lmin]; [left; auto|]. destruct (IH (Rmin x y)) as [E|E]; [rewrite <- E; unfold Rmin; destruct (Rle_dec x y); cbn; auto|cbn; auto]. Qed.
Lemma extreme_abs x l : (forall y, In y (x :: l) -> Rabs y <= Rmax (Rabs (lmax x l)) (Rabs (lmin x l))) /\ exists y, In y (x :: l) /\ Rabs y = Rmax (Rabs (lmax x l)) (Rabs (lmin x l)).
Proof.
  destruct (lmax_ge l x) as (A & A'). destruct (lmin_le l x) as (B & B'). rewrite Forall_forall in A', B'. split.
  - intros y Hy. assert (H : lmin x l <= y <= lmax x l) by (destruct Hy as [<-|Hy]; [lra|split; auto]).
    unfold Rmax. destruct (Rle_dec _ _); revert n || revert r; unfold Rabs; repeat destruct (Rcase_abs _); lra.
  - unfold Rmax. destruct (Rle_dec _ _); [exists (lmin x l)|exists (lmax x l)]; split; auto using lmax_in, lmin_in.
Qed.
Lemma in_pixels h w f v : In v (pixels h w f) <-> exists r c, (0 <= r < h)%Z /\ (0 <= c < w)%Z /\ v = f r c.
Proof.
  unfold pixels. rewrite in_flat_map. split.
  - intros (r & Hr & Hv). apply in_map_iff in Hv. destruct Hv as (c & <- & Hc). apply in_zrange in Hr, Hc. eauto.
  - intros (r & c & Hr & Hc & ->). exists r. split; [now apply in_zrange|]. apply in_map_iff. exists c. split; auto. now apply in_zrange.
Qed.

(** ** Floor and ceiling *)
Lemma floor_spec x : IZR (floor x) <= x < IZR (floor x) + 1.
Proof. unfold floor. destruct (base_Int_part x). lra. Qed.
Lemma floor_unique x z : IZR z <= x < IZR z + 1 -> floor x = z.
Proof. intros H. unfold floor, Int_part. rewrite <- (tech_up x (z + 1)); rewrite ?plus_IZR; try lra. lia. Qed.
Lemma ceil_spec x : IZR (ceil x) - 1 < x <= IZR (ceil x).
Proof. unfold ceil. rewrite opp_IZR. destruct (base_Int_part (- x)). lra. Qed.
Lemma floor_IZR z : floor (IZR z) = z.
Proof. apply floor_unique. lra. Qed.
Lemma floor_minus x z : floor (x - IZR z) = (floor x - z)%Z.
Proof. apply floor_unique. rewrite minus_IZR. pose proof (floor_spec x). lra. Qed.
Lemma floor_ge x z : IZR z <= x -> (z <= floor x)%Z.
Proof. intros H. pose proof (floor_spec x). assert (IZR z < IZR (floor x + 1)) by (rewrite plus_IZR; lra). apply lt_IZR in H1. lia. Qed.
Lemma floor_le x z : x < IZR z + 1 -> (floor x <= z)%Z.
Proof. intros H. pose proof (floor_spec x). assert (IZR (floor x) < IZR (z + 1)) by (rewrite plus_IZR; lra). apply lt_IZR in H1. lia. Qed.

(** ** Bilinear interpolation *)
Lemma clip_range lo hi x : lo <= hi -> lo <= clip lo hi x <= hi.
Proof. intros H. unfold clip, Rmin, Rmax. destruct (Rle_dec lo x); destruct (Rle_dec hi _); lra. Qed.
Lemma clip_id lo hi x : lo <= x <= hi -> clip lo hi x = x.
Proof. intros H. unfold clip, Rmin, Rmax. destruct (Rle_dec lo x); destruct (Rle_dec hi _); lra. Qed.
Lemma reflect_in n i : (i < n)%Z -> reflect n i = i.
Proof. intros H. unfold reflect. destruct (Z.ltb_spec i n); lia. Qed.
Lemma bilinear_block h w f y x a b : (0 <= a)%Z -> (b <= h)%Z -> IZR a <= y -> y <= IZR (b - 1) -> 0 <= x <= IZR (w - 1) ->
  bilinear (b - a) w (fun r c => f (r + a)%Z c) (y - IZR a) x = bilinear h w f y x.
Proof.
  intros Ha Hb Hy1 Hy2 Hx. unfold bilinear. rewrite floor_minus. set (r := floor y). set (c := floor x).
  assert (R1 : (a <= r <= b - 1)%Z). { split; [now apply floor_ge|apply floor_le; lra]. }
  rewrite minus_IZR. replace (y - IZR a - (IZR r - IZR a)) with (y - IZR r) by ring.
  rewrite (reflect_in h r), (reflect_in (b - a) (r - a)) by lia. replace (r - a + a)%Z with r by ring.
  destruct (Z.eq_dec r (b - 1)) as [E|E].
  - assert (D : y - IZR r = 0). { pose proof (floor_spec y). fold r in H. rewrite E in *. rewrite minus_IZR in *. lra. }
    rewrite D. ring.
  - rewrite (reflect_in h (r + 1)), (reflect_in (b - a) (r - a + 1)) by lia. replace (r - a + 1 + a)%Z with (r + 1)%Z by ring. reflexivity.
Qed.
Lemma bilinear_pixel h w f r c : (0 <= r < h)%Z -> (0 <= c < w)%Z -> bilinear h w f (IZR r) (IZR c) = f r c.
Proof. intros Hr Hc. unfold bilinear. rewrite !floor_IZR, !Rminus_eq_0. rewrite (reflect_in h r), (reflect_in w c) by lia. ring. Qed.
Lemma bilinear_range h w f y x lo hi : (forall r c, (0 <= r < h)%Z -> (0 <= c < w)%Z -> lo <= f r c <= hi) ->
  0 <= y <= IZR (h - 1) -> 0 <= x <= IZR (w - 1) -> lo <= bilinear h w f y x <= hi.
Proof.
  intros H Hy Hx. unfold bilinear. set (r := floor y). set (c := floor x).
  assert (R1 : (0 <= r <= h - 1)%Z) by (split; [apply floor_ge; lra|apply floor_le; lra]).
  assert (C1 : (0 <= c <= w - 1)%Z) by (split; [apply floor_ge; lra|apply floor_le; lra]).
  assert (F : forall n i, (0 <= i <= n - 1)%Z -> (0 <= reflect n i < n)%Z /\ (0 <= reflect n (i + 1) < n)%Z).
  { intros n i Hi. unfold reflect. destruct (Z.ltb_spec i n); destruct (Z.ltb_spec (i + 1) n); lia. }
  destruct (F h r R1) as (F1 & F2). destruct (F w c C1) as (F3 & F4).
  pose proof (floor_spec y) as Y. pose proof (floor_spec x) as X. fold r in Y. fold c in X. set (dy := y - IZR r) in *. set (dx := x - IZR c) in *.
  assert (0 <= dy < 1) by (unfold dy; lra). assert (0 <= dx < 1) by (unfold dx; lra).
  pose proof (H _ _ F1 F3) as V1. pose proof (H _ _ F1 F4) as V2. pose proof (H _ _ F2 F3) as V3. pose proof (H _ _ F2 F4) as V4.
  set (v1 := f (reflect h r) (reflect w c)) in *. set (v2 := f (reflect h r) (reflect w (c + 1))) in *. set (v3 := f (reflect h (r + 1)) (reflect w c)) in *. set (v4 := f (reflect h (r + 1)) (reflect w (c + 1))) in *.
  clearbody dy dx v1 v2 v3 v4.
  assert (W1 : 0 <= (1 - dy) * (1 - dx)) by (apply Rmult_le_pos; lra). assert (W2 : 0 <= (1 - dy) * dx) by (apply Rmult_le_pos; lra).
  assert (W3 : 0 <= dy * (1 - dx)) by (apply Rmult_le_pos; lra). assert (W4 : 0 <= dy * dx) by (apply Rmult_le_pos; lra).
  assert (S : (1 - dy) * (1 - dx) + (1 - dy) * dx + dy * (1 - dx) + dy * dx = 1) by ring.
  set (w1 := (1 - dy) * (1 - dx)) in *. set (w2 := (1 - dy) * dx) in *. set (w3 := dy * (1 - dx)) in *. set (w4 := dy * dx) in *. clearbody w1 w2 w3 w4.
  assert (M : forall p q r, 0 <= p -> q <= r -> p * q <= p * r) by (intros; apply Rmult_le_compat_l; auto).
  pose proof (M w1 lo v1 W1 ltac:(lra)). pose proof (M w2 lo v2 W2 ltac:(lra)). pose proof (M w3 lo v3 W3 ltac:(lra)). pose proof (M w4 lo v4 W4 ltac:(lra)).
  pose proof (M w1 v1 hi W1 ltac:(lra)). pose proof (M w2 v2 hi W2 ltac:(lra)). pose proof (M w3 v3 hi W3 ltac:(lra)). pose proof (M w4 v4 hi W4 ltac:(lra)).
  assert (E : forall k, w1 * k + w2 * k + w3 * k + w4 * k = k) by (intros; rewrite <- !Rmult_plus_distr_r, S; ring).
  pose proof (E lo). pose proof (E hi). lra.
Qed.

(** ** Drift correction *)
Section Drift.
  Variable ref : corners.
  Variable nimg : nat.
  Variable detect : nat -> Z * Z -> corners.
  Notation pass := (pass ref nimg detect).
  Notation first_pass := (first_pass ref nimg detect).
  Lemma quick_diff_nonneg a b : 0 <= quick_diff a b.
  Proof. unfold quick_diff. induction (map _ _) as [|x l IH]; cbn; [lra|]. eapply Rle_trans; [exact IH|apply Rmax_r]. Qed.
  Lemma quick_diff_sym a : forall b, quick_diff a b = quick_diff b a.
  Proof. unfold quick_diff. induction a as [|x a IH]; intros [|y b]; cbn; auto. now rewrite IH, Rabs_minus_sym. Qed.
  Lemma quick_diff_triangle a : forall b c, length a = length b -> length b = length c -> quick_diff a c <= quick_diff a b + quick_diff b c.
  Proof.
    unfold quick_diff. induction a as [|x a IH]; intros [|y b] [|z c] H1 H2; try discriminate; cbn; [lra|].
    injection H1 as H1. injection H2 as H2. specialize (IH b c H1 H2). apply Rmax_lub.
    - eapply Rle_trans; [|apply Rplus_le_compat; apply Rmax_l]. replace (x - z) with ((x - y) + (y - z)) by ring. apply Rabs_triang.
    - eapply Rle_trans; [exact IH|]. apply Rplus_le_compat; apply Rmax_r.
  Qed.
  Lemma quick_diff_same a : quick_diff a a = 0.
  Proof. unfold quick_diff. induction a as [|x a IH]; cbn; auto. rewrite IH, Rminus_eq_0, Rabs_R0. apply Rmax_left. lra. Qed.
  Lemma pass_length k st : length st = nimg -> length (pass k st) = nimg.
  Proof. intros H. unfold pass. rewrite map_length, combine_length, seq_length, H. lia. Qed.
  Lemma nth_error_seq n k : (k < n)%nat -> nth_error (seq 0 n) k = Some k.
  Proof. intros H. rewrite nth_error_nth' with (d := 0%nat) by (rewrite seq_length; lia). f_equal. rewrite seq_nth; lia. Qed.
  Lemma nth_error_combine' {A B} (l : list A) : forall (m : list B) k a b, nth_error l k = Some a -> nth_error m k = Some b -> nth_error (combine l m) k = Some (a, b).
  Proof. induction l as [|x l IH]; intros [|y m] [|k] a b H1 H2; cbn in *; try discriminate; [congruence|auto]. Qed.
  Lemma nth_pass k st n c b : length st = nimg -> nth_error st n = Some (c, b) ->
    nth_error (pass k st) n = Some (if b then (c, b) else if rltb (quick_diff (detect n k) c) (1/10) && rltb (quick_diff (detect n k) ref) 15 then (c, true) else (detect n k, false)).
  Proof.
    intros L H. unfold pass. rewrite nth_error_map. assert (n < nimg)%nat by (rewrite <- L; apply nth_error_Some; congruence).
    now rewrite (nth_error_combine' _ _ n n (c, b) (nth_error_seq _ _ H0) H).
  Qed.
  (** What is known of an image *)
  Definition located (k2 k1 : Z) (n : nat) (c : corners) : Prop :=
    quick_diff (detect n (k2, k1)) ref < 15 /\ c = detect n (k2, k1)
    \/ exists k, In k (kernels k2 k1) /\ quick_diff (detect n k) c < 1/10 /\ quick_diff (detect n k) ref < 15.
  Definition inv (k2 k1 : Z) (st : drift_state) : Prop :=
    length st = nimg /\ forall n c b, nth_error st n = Some (c, b) ->
      (exists k, (k = (k2, k1) \/ In k (kernels k2 k1)) /\ c = detect n k) /\ (b = true -> located k2 k1 n c).
  Lemma inv_first k2 k1 : inv k2 k1 (first_pass k2 k1).
  Proof.
    split; [unfold first_pass; now rewrite map_length, seq_length|]. intros n c b H. unfold first_pass in H. rewrite nth_error_map in H.
    destruct (nth_error (seq 0 nimg) n) as [m|] eqn:E; [|discriminate]. assert (m = n). { assert (n < nimg)%nat by (rewrite <- (seq_length nimg 0); apply nth_error_Some; congruence). rewrite nth_error_seq in E by auto. congruence. }
    subst m. cbn in H. injection H as <- <-. split; [eauto|]. intros R. apply rltb_spec in R. left. auto.
  Qed.
  Lemma inv_pass k2 k1 k st : In k (kernels k2 k1) -> inv k2 k1 st -> inv k2 k1 (pass k st).
  Proof.
    intros Hk (L & I). split; [now apply pass_length|]. intros n c b H.
    destruct (nth_error st n) as [(c0, b0)|] eqn:E.
    - destruct (I n c0 b0 E) as ((k' & K' & ->) & I2). rewrite (nth_pass k st n _ _ L E) in H.
      destruct b0; [injection H as <- <-; eauto|].
      destruct (rltb (quick_diff (detect n k) (detect n k')) (1/10)) eqn:R1; [destruct (rltb (quick_diff (detect n k) ref) 15) eqn:R2|]; cbn [andb] in H; injection H as <- <-.
      + split; [eauto|]. intros _. right. apply rltb_spec in R1, R2. eauto.
      + split; [eauto|discriminate].
      + split; [eauto|discriminate].
    - exfalso. apply nth_error_None in E. assert (n < length (pass k st))%nat by (apply nth_error_Some; congruence). rewrite pass_length in H0; lia.
  Qed.
  Lemma loop_inv k2 k1 fuel : forall counter st r, (counter <= length (kernels k2 k1))%nat -> inv k2 k1 st ->
    drift_loop ref nimg detect fuel (kernels k2 k1) counter st = Some r -> r = Raise IndexError \/ exists st', r = Ok st' /\ inv k2 k1 st' /\ all_found st' = true.
  Proof.
    induction fuel as [|fuel IH]; intros counter st r C I H; cbn [drift_loop] in H; destruct (all_found st) eqn:A.
    - injection H as <-. eauto.
    - discriminate.
    - injection H as <-. eauto.
    - destruct (Nat.ltb_spec (length (kernels k2 k1)) counter); [lia|]. destruct (nth_error (kernels k2 k1) counter) as [k|] eqn:E.
      + apply IH in H; auto; [apply nth_error_Some; congruence|]. apply inv_pass; auto. eapply nth_error_In; eauto.
      + injection H as <-. auto.
  Qed.
  Lemma loop_total k2 k1 fuel : forall counter st, (counter <= length (kernels k2 k1))%nat -> (length (kernels k2 k1) < fuel + counter)%nat -> drift_loop ref nimg detect fuel (kernels k2 k1) counter st <> None.
  Proof.
    induction fuel as [|fuel IH]; intros counter st C F; cbn [drift_loop]; destruct (all_found st); try discriminate; [lia|].
    destruct (Nat.ltb_spec (length (kernels k2 k1)) counter); [discriminate|]. destruct (nth_error _ counter) eqn:E; [|discriminate].
    apply IH; [apply nth_error_Some; congruence|lia].
  Qed.
  Lemma loop_fuel ks fuel : forall fuel' counter st r, (fuel <= fuel')%nat -> drift_loop ref nimg detect fuel ks counter st = Some r -> drift_loop ref nimg detect fuel' ks counter st = Some r.
  Proof.
    induction fuel as [|fuel IH]; intros fuel' counter st r F H; destruct fuel' as [|fuel']; try lia; cbn [drift_loop] in *; destruct (all_found st); auto; try discriminate.
    destruct (Nat.ltb _ _); auto. destruct (nth_error ks counter); auto. apply IH; auto. lia.
  Qed.
  (** An image that is never found *)
  Lemma loop_never k2 k1 n fuel : (forall k, In k (kernels k2 k1) -> 15 <= quick_diff (detect n k) ref) ->
    forall counter st r c, (counter <= length (kernels k2 k1))%nat -> length st = nimg -> nth_error st n = Some (c, false) ->
    drift_loop ref nimg detect fuel (kernels k2 k1) counter st = Some r -> r = Raise IndexError.
  Proof.
    intros N. induction fuel as [|fuel IH]; intros counter st r c C L E H; cbn [drift_loop] in H.
    - assert (A : all_found st = false).
      { destruct (all_found st) eqn:A; auto. unfold all_found in A. rewrite forallb_forall in A. apply nth_error_In, A in E. discriminate. }
      rewrite A in H. discriminate.
    - assert (A : all_found st = false).
      { destruct (all_found st) eqn:A; auto. unfold all_found in A. rewrite forallb_forall in A. apply nth_error_In, A in E. discriminate. }
      rewrite A in H. destruct (Nat.ltb_spec (length (kernels k2 k1)) counter); [lia|]. destruct (nth_error (kernels k2 k1) counter) as [k|] eqn:E'.
      + eapply IH with (c := detect n k); [|apply pass_length; exact L| |exact H].
        * apply nth_error_Some. congruence.
        * rewrite (nth_pass k st n c false L E). assert (R : rltb (quick_diff (detect n k) ref) 15 = false).
          { apply rltb_false. apply nth_error_In in E'. now apply N. }
          rewrite R, andb_false_r. reflexivity.
      + now injection H as <-.
  Qed.
End Drift.
Lemma kernels_length k2 k1 : length (kernels k2 k1) = 225%nat.
Proof. reflexivity. Qed.

(** ** Iterative alignment *)
Lemma zipmap_length {A B C} (f : A -> B -> C) l m : length l = length m -> length (zipmap f l m) = length m.
Proof. intros H. unfold zipmap. rewrite map_length, combine_length. lia. Qed.
Lemma zipmap_snd {A B} (f : A -> B -> B) l : forall m, length l = length m -> (forall a b, In a l -> f a b = b) -> zipmap f l m = m.
Proof. unfold zipmap. induction l as [|a l IH]; intros [|b m] H E; try discriminate; auto. cbn. rewrite E by (cbn; auto). f_equal. apply IH; auto. intros; apply E; cbn; auto. Qed.
