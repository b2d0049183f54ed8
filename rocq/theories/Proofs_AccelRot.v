(** What the rotation does, and that the solvers use the angles modulo a full turn. *)
From Coq Require Import Reals Lra Permutation.
From Verif Require Import Base CLoop Model_Prep Model_Ray Proofs_Prep Proofs_Ray Proofs_Morph Proofs_Solver Model_Accel Spec_Accel Proofs_Accel Proofs_AccelRun Proofs_AccelFix.
Local Open Scope R_scope.

Lemma nearest_close v : Rabs (IZR (nearest v) - v) <= 1 / 2.
Proof.
  unfold nearest. pose proof (base_Int_part (v + 1 / 2)) as [H1 H2]. apply Rabs_le. split; lra.
Qed.

Lemma src_came nx ny t k : (0 < nx)%Z -> (0 < ny)%Z ->
  came_from nx ny t k = (src_x nx ny t (k mod ny) (k / ny), src_y nx ny t (k mod ny) (k / ny)).
Proof. intros Hx Hy. unfold came_from, src_x, src_y. now rewrite !rot_center_half by lia. Qed.

Lemma warp_nn_spec {A} nx ny t (zero : A) k : (0 < nx)%Z -> (0 < ny)%Z ->
  exists x y, Rabs (IZR x - fst (came_from nx ny t k)) <= 1 / 2 /\ Rabs (IZR y - snd (came_from nx ny t k)) <= 1 / 2 /\
    ((inside_img nx ny x y /\ forall src, warp_nn nx ny zero t src k = src (y * ny + x)%Z) \/
     (~ inside_img nx ny x y /\ forall src, warp_nn nx ny zero t src k = zero)).
Proof.
  intros Hx Hy. rewrite src_came by auto. cbn [fst snd].
  exists (nearest (src_x nx ny t (k mod ny) (k / ny))), (nearest (src_y nx ny t (k mod ny) (k / ny))).
  split; [apply nearest_close|]. split; [apply nearest_close|].
  set (x := nearest _). set (y := nearest _). unfold inside_img, warp_nn. fold x y. unfold fetch.
  destruct ((0 <=? x) && (x <? ny) && (0 <=? y) && (y <? nx))%Z eqn:E; [left|right]; split; auto; lia.
Qed.

Lemma warp_linear_plane nx ny t src a b c k : (0 < nx)%Z -> (0 < ny)%Z ->
  (forall x y, inside_img nx ny x y -> src (y * ny + x)%Z = a + b * IZR x + c * IZR y) ->
  0 <= fst (came_from nx ny t k) < IZR (ny - 1) -> 0 <= snd (came_from nx ny t k) < IZR (nx - 1) ->
  warp_linear nx ny t src k = a + b * fst (came_from nx ny t k) + c * snd (came_from nx ny t k).
Proof.
  intros Hx Hy Hp. rewrite src_came by auto. cbn [fst snd]. unfold warp_linear.
  set (u := src_x _ _ _ _ _). set (v := src_y _ _ _ _ _). intros Hu Hv. unfold bilinear. cbv zeta.
  assert (Gu : (0 <= Int_part u < ny - 1)%Z).
  { pose proof (base_Int_part u) as [H1 H2]. split.
    - apply Z.lt_succ_r. apply lt_IZR. unfold Z.succ. rewrite plus_IZR. lra.
    - apply lt_IZR. lra. }
  assert (Gv : (0 <= Int_part v < nx - 1)%Z).
  { pose proof (base_Int_part v) as [H1 H2]. split.
    - apply Z.lt_succ_r. apply lt_IZR. unfold Z.succ. rewrite plus_IZR. lra.
    - apply lt_IZR. lra. }
  rewrite !fetch_in by lia. rewrite !Hp by (unfold inside_img; lia). rewrite !plus_IZR. unfold frac. ring.
Qed.

(** Full turns do not matter. *)
Lemma cos_turns t k : cos (t - IZR k * (2 * PI)) = cos t.
Proof.
  assert (G : forall (m : nat) t, cos (t + INR m * (2 * PI)) = cos t) by (intros m t'; replace (t' + INR m * (2 * PI)) with (t' + 2 * INR m * PI) by ring; apply cos_period).
  destruct k as [|p|p].
  - f_equal. ring.
  - rewrite <- (G (Pos.to_nat p) (t - _)). f_equal. rewrite INR_IPR. unfold IZR. ring.
  - rewrite <- (G (Pos.to_nat p) t). f_equal. rewrite INR_IPR. unfold IZR. ring.
Qed.
Lemma sin_turns t k : sin (t - IZR k * (2 * PI)) = sin t.
Proof.
  assert (G : forall (m : nat) t, sin (t + INR m * (2 * PI)) = sin t) by (intros m t'; replace (t' + INR m * (2 * PI)) with (t' + 2 * INR m * PI) by ring; apply sin_period).
  destruct k as [|p|p].
  - f_equal. ring.
  - rewrite <- (G (Pos.to_nat p) (t - _)). f_equal. rewrite INR_IPR. unfold IZR. ring.
  - rewrite <- (G (Pos.to_nat p) t). f_equal. rewrite INR_IPR. unfold IZR. ring.
Qed.

Lemma theta_p_cos theta p : cos (theta_p theta p) = cos (theta p + PI / 2) /\ sin (theta_p theta p) = sin (theta p + PI / 2).
Proof.
  unfold theta_p, fmod. set (k := trunc _).
  replace (theta p + PI / 2 - 2 * PI * IZR k) with (theta p + PI / 2 - IZR k * (2 * PI)) by ring.
  split; [apply cos_turns|apply sin_turns].
Qed.

Lemma rotate_same nx ny cubic m t t' src : m <> Cubic -> cos t = cos t' -> sin t = sin t' -> rotate nx ny cubic m t src = rotate nx ny cubic m t' src.
Proof.
  intros Hm Hc Hs. destruct m; [..|congruence]; unfold rotate, warp_nn, warp_linear, src_x, src_y; now rewrite Hc, Hs.
Qed.
Lemma rotate_theta nx ny cubic m theta p src : m <> Cubic -> rotate nx ny cubic m (theta_p theta p) src = rotate nx ny cubic m (theta p + PI / 2) src.
Proof. intros Hm. apply rotate_same; auto; apply theta_p_cos. Qed.
Lemma rotate_theta_neg nx ny cubic m theta p src : m <> Cubic -> rotate nx ny cubic m (- theta_p theta p) src = rotate nx ny cubic m (- (theta p + PI / 2)) src.
Proof. intros Hm. apply rotate_same; auto; rewrite ?cos_neg, ?sin_neg; [|f_equal]; apply theta_p_cos. Qed.

(** counting with integers and with reals *)
Lemma warp_map {A B} nx ny (zero : A) (f : A -> B) t src k : warp_nn nx ny (f zero) t (fun i => f (src i)) k = f (warp_nn nx ny zero t src k).
Proof. unfold warp_nn, fetch. destruct (_ && _)%bool; reflexivity. Qed.
Lemma ones_hit nx ny cubic t k : (0 <? warp_nn nx ny 0 t (fun _ => 1) k)%Z = if Req_EM_T (rotate nx ny cubic Nn t (fun _ => 1) k) 0 then false else true.
Proof.
  unfold rotate. pose proof (warp_map nx ny 0%Z IZR t (fun _ => 1%Z) k) as E. rewrite E.
  unfold warp_nn, fetch. destruct (_ && _)%bool.
  - destruct (Req_EM_T (IZR 1) 0) as [H|]; [lra|reflexivity].
  - destruct (Req_EM_T (IZR 0) 0) as [|H]; [reflexivity|lra].
Qed.
