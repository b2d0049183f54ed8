From Verif Require Import Base Order CLoop Model_Prep Proofs_Prep Spec_Stripe3d Model_Stripe3d Proofs_Stripe3d.
From Coq Require Import Reals Lra.
Local Open Scope R_scope.

Lemma sum_over_scale c l f g : (forall a, In a l -> f a = c * g a) -> sum_over l f = c * sum_over l g.
Proof.
  unfold sum_over. induction l as [|a l IH]; intros H; cbn; [ring|]. rewrite (H a) by now left. rewrite IH; [ring|]. intros; apply H; now right.
Qed.
Lemma mean_pairs_scale c l l' f g : (forall a b, In a l -> In b l' -> f a b = c * g a b) -> mean (pairs l l' f) = c * mean (pairs l l' g).
Proof.
  intros H. unfold mean. rewrite !total_pairs, !length_pairs.
  rewrite (sum_over_scale c l (fun a => sum_over l' (f a)) (fun a => sum_over l' (g a))); [unfold Rdiv; ring|].
  intros a Ha. apply sum_over_scale. auto.
Qed.
Lemma sum_over_const l c : sum_over l (fun _ => c) = INR (length l) * c.
Proof. unfold sum_over. induction l as [|a l IH]; cbn [map fold_right length]; [cbn; ring|]. rewrite IH, S_INR. ring. Qed.
Lemma mean_pairs_const l l' f c : l <> [] -> l' <> [] -> (forall a b, In a l -> In b l' -> f a b = c) -> mean (pairs l l' f) = c.
Proof.
  intros N N' H. unfold mean. rewrite total_pairs, length_pairs.
  rewrite (sum_over_ext l _ (fun _ => INR (length l') * c)).
  2:{ intros a Ha. rewrite (sum_over_ext l' _ (fun _ => c)) by auto. apply sum_over_const. }
  rewrite sum_over_const, mult_INR. field. split; apply not_0_INR; [destruct l'|destruct l]; cbn; congruence.
Qed.

Lemma similar_scale c a b : 0 < c -> 0 <= a -> 0 <= b -> similar (c * a) (c * b) = similar a b.
Proof.
  intros Hc Ha Hb. unfold similar.
  assert (M : Rmax (c * a) (c * b) = c * Rmax a b) by (unfold Rmax; destruct (Rle_dec (c * a) (c * b)), (Rle_dec a b); nra).
  assert (N : Rmin (c * a) (c * b) = c * Rmin a b) by (unfold Rmin; destruct (Rle_dec (c * a) (c * b)), (Rle_dec a b); nra).
  rewrite M, N. destruct (Req_EM_T (c * Rmax a b) 0), (Req_EM_T (Rmax a b) 0) as [E|E]; try nra. field. split; lra.
Qed.
Lemma similar_range a b : 0 <= a -> 0 <= b -> 0 <= similar a b <= 1.
Proof.
  intros Ha Hb. unfold similar. destruct (Req_EM_T (Rmax a b) 0) as [E|E]; [lra|].
  assert (0 < Rmax a b) by (pose proof (Rmax_l a b); lra).
  assert (0 <= Rmin a b) by (apply Rmin_glb; auto).
  assert (Rmin a b <= Rmax a b) by (pose proof (Rmin_l a b); pose proof (Rmax_l a b); lra).
  split.
  - apply Rmult_le_pos; auto. now apply Rlt_le, Rinv_0_lt_compat.
  - apply Rmult_le_reg_r with (Rmax a b); auto. unfold Rdiv. rewrite Rmult_assoc, Rinv_l by auto. lra.
Qed.
Lemma similar_0 b : 0 <= b -> similar 0 b = 0.
Proof. intros H. unfold similar. destruct (Req_EM_T _ 0); auto. rewrite Rmin_left by auto. unfold Rdiv. ring. Qed.
Lemma similar_same a : 0 < a -> similar a a = 1.
Proof. intros H. unfold similar. rewrite Rmax_left, Rmin_left by lra. destruct (Req_EM_T a 0); [lra|]. field. lra. Qed.

Section Contrast.
  Variables dx dy dz r h : Z.
  Hypothesis F : fits dx dy dz r h.
  Notation ins := (inside dx dy dz).

  Lemma reach_x i m : (0 <= i < dx)%Z -> (Z.abs m <= 2 \/ Z.abs m <= r)%Z -> (0 <= reach dx i m < dx)%Z.
  Proof. unfold fits in F. intros. apply reach_in; lia. Qed.
  Lemma reach_y i m : (0 <= i < dy)%Z -> (Z.abs m <= 1 \/ Z.abs m <= r)%Z -> (0 <= reach dy i m < dy)%Z.
  Proof. unfold fits in F. intros. apply reach_in; lia. Qed.
  Lemma reach_z i m : (0 <= i < dz)%Z -> (Z.abs m <= 1 \/ Z.abs m <= r \/ Z.abs m <= h)%Z -> (0 <= reach dz i m < dz)%Z.
  Proof. unfold fits in F. intros. apply reach_in; lia. Qed.

  Lemma along_scale c x y : (forall i j k, ins i j k -> jump dx x i j k = c * jump dx y i j k) ->
    forall i j k, ins i j k -> along dx dy dz r x i j k = c * along dx dy dz r y i j k.
  Proof.
    intros H i j k (Hi & Hj & Hk). apply mean_pairs_scale. intros a b Ha Hb. rewrite in_zrange in *. apply H. split; [auto|]. split; [apply reach_y|apply reach_z]; auto; lia.
  Qed.
  Lemma across_scale c s x y : (s = 1 \/ s = -1)%Z -> (forall i j k, ins i j k -> jump dx x i j k = c * jump dx y i j k) ->
    forall i j k, ins i j k -> across dx dy r s x i j k = c * across dx dy r s y i j k.
  Proof.
    intros Hs H i j k (Hi & Hj & Hk). apply mean_pairs_scale. intros a b Ha Hb. rewrite in_zrange in *. cbn in Ha.
    apply H. split; [apply reach_x; auto; lia|]. split; [apply reach_y; auto; lia|auto].
  Qed.
  Lemma around_nonneg x : (forall i j k, ins i j k -> 0 <= x i j k) -> forall i j k, ins i j k -> 0 <= around dx dy dz x i j k.
  Proof.
    intros H i j k (Hi & Hj & Hk). apply total_nonneg. cbn.
    assert (Xa := reach_x i (-1) Hi ltac:(lia)). assert (Xb := reach_x i 1 Hi ltac:(lia)).
    assert (Ya := reach_y j (-1) Hj ltac:(lia)). assert (Yb := reach_y j 1 Hj ltac:(lia)).
    assert (Za := reach_z k (-1) Hk ltac:(lia)). assert (Zb := reach_z k 1 Hk ltac:(lia)).
    intros y [<-|[<-|[<-|[<-|[<-|[<-|[<-|[]]]]]]]]; apply H; unfold inside; auto.
  Qed.
  Lemma around_ext x y : (forall i j k, ins i j k -> x i j k = y i j k) -> forall i j k, ins i j k -> around dx dy dz x i j k = around dx dy dz y i j k.
  Proof.
    intros H i j k (Hi & Hj & Hk). unfold around.
    assert (Xa := reach_x i (-1) Hi ltac:(lia)). assert (Xb := reach_x i 1 Hi ltac:(lia)).
    assert (Ya := reach_y j (-1) Hj ltac:(lia)). assert (Yb := reach_y j 1 Hj ltac:(lia)).
    assert (Za := reach_z k (-1) Hk ltac:(lia)). assert (Zb := reach_z k 1 Hk ltac:(lia)).
    rewrite !H by (unfold inside; auto). reflexivity.
  Qed.
  Lemma jump_ext x y : (forall i j k, ins i j k -> x i j k = y i j k) -> forall i j k, ins i j k -> jump dx x i j k = jump dx y i j k.
  Proof.
    intros H i j k (Hi & Hj & Hk). unfold jump. assert (Xa := reach_x i 2 Hi ltac:(lia)). rewrite !H by (unfold inside; auto). reflexivity.
  Qed.
  Lemma contrast_ext x y : (forall i j k, ins i j k -> x i j k = y i j k) -> forall i j k, ins i j k -> contrast dx dy dz r x i j k = contrast dx dy dz r y i j k.
  Proof.
    intros H i j k I. unfold contrast.
    assert (J : forall i j k, ins i j k -> jump dx x i j k = 1 * jump dx y i j k) by (intros; rewrite Rmult_1_l; now apply jump_ext).
    rewrite (along_scale 1 x y J) by auto. rewrite !(across_scale 1 _ x y) by auto. rewrite !Rmult_1_l. rewrite (around_ext x y H) by auto. reflexivity.
  Qed.
  Lemma contrast_range x : (forall i j k, ins i j k -> 0 <= x i j k) -> forall i j k, ins i j k -> 0 <= contrast dx dy dz r x i j k <= 1.
  Proof.
    intros H i j k I. unfold contrast. pose proof (around_nonneg x H i j k I). destruct (Req_EM_T _ 0).
    - rewrite Rmin_right by lra. lra.
    - pose proof (along_nonneg dx dy dz r x i j k). pose proof (across_nonneg dx dy r 1 x i j k). pose proof (across_nonneg dx dy r (-1) x i j k).
      pose proof (similar_range (along dx dy dz r x i j k) (across dx dy r 1 x i j k) ltac:(auto) ltac:(auto)).
      pose proof (similar_range (along dx dy dz r x i j k) (across dx dy r (-1) x i j k) ltac:(auto) ltac:(auto)).
      split; [apply Rmin_glb; lra|]. pose proof (Rmin_l (similar (along dx dy dz r x i j k) (across dx dy r 1 x i j k)) (similar (along dx dy dz r x i j k) (across dx dy r (-1) x i j k))). lra.
  Qed.
  Lemma contrast_scale c b x : 0 < c -> (forall i j k, ins i j k -> 0 <= x i j k) -> (forall i j k, ins i j k -> 0 <= c * x i j k + b) ->
    forall i j k, ins i j k -> contrast dx dy dz r (fun i j k => c * x i j k + b) i j k = contrast dx dy dz r x i j k.
  Proof.
    intros Hc H1 H2 i j k I. unfold contrast.
    set (y := fun i j k => c * x i j k + b).
    assert (J : forall i j k, ins i j k -> jump dx y i j k = c * jump dx x i j k).
    { intros. unfold jump, y. rewrite <- (Rabs_right c) at 3 by lra. rewrite <- Rabs_mult. f_equal. ring. }
    rewrite (along_scale c y x J) by auto. rewrite !(across_scale c _ y x) by auto.
    pose proof (along_nonneg dx dy dz r x i j k). pose proof (across_nonneg dx dy r 1 x i j k). pose proof (across_nonneg dx dy r (-1) x i j k).
    rewrite !similar_scale by auto.
    pose proof (around_nonneg x H1 i j k I). pose proof (around_nonneg y H2 i j k I).
    rewrite !(Rmin_right _ 0) by lra.
    set (p := along dx dy dz r x i j k) in *. set (q := across dx dy r 1 x i j k) in *.
    assert (M : Rmax (c * p) (c * q) = c * Rmax p q) by (unfold Rmax; destruct (Rle_dec (c * p) (c * q)), (Rle_dec p q); nra).
    rewrite M. destruct (Req_EM_T (c * Rmax p q) 0), (Req_EM_T (Rmax p q) 0); try reflexivity; nra.
  Qed.
  Lemma contrast_still x : (forall i j k, ins i j k -> 0 <= x i j k) -> forall i j k, ins i j k -> along dx dy dz r x i j k = 0 ->
    contrast dx dy dz r x i j k = 0.
  Proof.
    intros H i j k I E. unfold contrast. pose proof (around_nonneg x H i j k I). destruct (Req_EM_T _ 0).
    - rewrite Rmin_right by lra. lra.
    - rewrite E. rewrite !similar_0 by apply across_nonneg. apply Rmin_left. lra.
  Qed.

  Section Columns.
    Variable f : Z -> R.
    Variable x : vol R.
    Hypothesis Hf : forall i j k, ins i j k -> x i j k = f i.
    Lemma jump_columns i j k : ins i j k -> jump dx x i j k = Rabs (f (reach dx i 2) - f i).
    Proof. intros (Hi & Hj & Hk). unfold jump. rewrite !Hf; auto; unfold inside; auto. split; auto. apply reach_x; auto. lia. Qed.
    Lemma along_columns i j k : ins i j k -> along dx dy dz r x i j k = Rabs (f (reach dx i 2) - f i).
    Proof.
      intros (Hi & Hj & Hk). unfold fits in F. apply mean_pairs_const.
      - rewrite (@zrange_cons (- r)%Z) by lia. discriminate.
      - rewrite (@zrange_cons (- r)%Z) by lia. discriminate.
      - intros a b Ha Hb. rewrite in_zrange in *. apply jump_columns. split; [auto|]. split; [apply reach_y|apply reach_z]; auto; lia.
    Qed.
    Lemma across_columns s i j k : (s = 1 \/ s = -1)%Z -> ins i j k ->
      across dx dy r s x i j k = mean (map (fun n => Rabs (f (reach dx (reach dx i (s * n)) 2) - f (reach dx i (s * n)))) (zrange 1 (r + 1))).
    Proof.
      intros Hs (Hi & Hj & Hk). unfold fits in F. unfold across, mean. rewrite total_pairs, length_pairs, map_length, zrange_length.
      set (g := fun n => Rabs (f (reach dx (reach dx i (s * n)) 2) - f (reach dx i (s * n)))).
      rewrite (sum_over_ext _ _ (fun _ => total (map g (zrange 1 (r + 1))))).
      2:{ intros a Ha. cbn in Ha. apply sum_over_ext. intros b Hb. rewrite in_zrange in Hb. apply jump_columns.
          split; [apply reach_x; auto; lia|]. split; [apply reach_y; auto; lia|auto]. }
      rewrite sum_over_const, mult_INR. cbn [length]. replace (INR 3) with 3 by (cbn; ring). field. apply not_0_INR. lia.
    Qed.
  End Columns.
End Contrast.

(** the filter *)
Section Filter.
  Variable qs : list R -> list R.
  Hypothesis Q : sorts (fun _ : R => True) rltb qs.
  Lemma nth_kth (w : list R) n : (n < length w)%nat -> kth rltb w n (nth n (qs w) 0).
  Proof.
    intros H. destruct (Q w) as [P O]. assert (T : Forall (fun _ : R => True) w) by (rewrite Forall_forall; auto).
    apply (sorted_kth _ _ R_weak_order w (qs w) n); auto. apply nth_error_nth'. now rewrite (Permutation_length P).
  Qed.
End Filter.
