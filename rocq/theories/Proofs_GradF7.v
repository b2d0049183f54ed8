From Verif Require Import Base Order CLoop Model_Ray Proofs_Ray Model_RayF Model_SolverF Spec_SolverF Model_PmlF Model_GradF Proofs_FloatB Proofs_RayF Proofs_RayF2 Proofs_RayF3 Proofs_RayF4.
From Verif Require Import Proofs_SolverF Proofs_SolverF2 Proofs_SolverF4 Proofs_SolverF6 Proofs_SolverF7 Proofs_PmlF Spec_PmlF Proofs_PmlF3 Proofs_PmlF4 Proofs_PmlF5 Spec_GradF Proofs_GradF2 Proofs_GradF3 Proofs_GradF4 Proofs_GradF6.
From Coq Require Import Reals Lra.
From Flocq Require Import Core BinarySingleNaN.
Local Open Scope Z_scope.

(** ** Arithmetic with zeros *)
Lemma z_add (x y : b32) : is_zero x -> is_zero y -> is_zero (fadd x y).
Proof. destruct x as [s|s| |s m e H]; try easy. destruct y as [s'|s'| |s' m' e' H']; try easy. destruct s, s'; easy. Qed.
Lemma z_sub (x y : b32) : is_zero x -> is_zero y -> is_zero (fsub x y).
Proof. destruct x as [s|s| |s m e H]; try easy. destruct y as [s'|s'| |s' m' e' H']; try easy. destruct s, s'; easy. Qed.
Lemma z_mul (x y : b32) : is_zero x -> fin y = true -> is_zero (fmul x y).
Proof. destruct x as [s|s| |s m e H]; try easy. destruct y as [s'|s'| |s' m' e' H']; easy. Qed.
Lemma z_mul' (x y : b32) : fin x = true -> is_zero y -> is_zero (fmul x y).
Proof. destruct y as [s|s| |s m e H]; try easy. destruct x as [s'|s'| |s' m' e' H']; easy. Qed.
Lemma z_fin {prec emax} (x : binary_float prec emax) : is_zero x -> is_finite x = true.
Proof. now destruct x. Qed.
Lemma z_div (x y : b32) : is_zero x -> fin y = true -> ~ is_zero y -> is_zero (fdiv x y).
Proof. destruct x as [s|s| |s m e H]; try easy. destruct y as [s'|s'| |s' m' e' H']; cbn; tauto || discriminate. Qed.
Lemma z_dadd (x y : b64) : is_zero x -> is_zero y -> is_zero (dadd x y).
Proof. destruct x as [s|s| |s m e H]; try easy. destruct y as [s'|s'| |s' m' e' H']; try easy. destruct s, s'; easy. Qed.
Lemma z_to64 (x : b32) : is_zero x -> is_zero (to64 x).
Proof. now destruct x. Qed.
Lemma z_dsqrt (x : b64) : is_zero x -> is_zero (dsqrt x).
Proof. now destruct x. Qed.
Lemma nonzero (x : b32) : V x <> 0%R -> ~ is_zero x.
Proof. destruct x; cbn; tauto. Qed.
Lemma z_V (x : b32) : is_zero x -> V x = 0%R.
Proof. destruct x; cbn; tauto. Qed.
Lemma nan_sub_r (x y : b32) : is_nan y = true -> is_nan (fsub x y) = true.
Proof. destruct y; try discriminate. destruct x; reflexivity. Qed.
Lemma nan_sub_l (x y : b32) : is_nan x = true -> is_nan (fsub x y) = true.
Proof. destruct x; try discriminate. destruct y; reflexivity. Qed.
Lemma nan_add_r (x y : b32) : is_nan y = true -> is_nan (fadd x y) = true.
Proof. destruct y; try discriminate. destruct x; reflexivity. Qed.
Lemma nan_add_l (x y : b32) : is_nan x = true -> is_nan (fadd x y) = true.
Proof. destruct x; try discriminate. destruct y; reflexivity. Qed.
Lemma nan_mul_l (x y : b32) : is_nan x = true -> is_nan (fmul x y) = true.
Proof. destruct x; try discriminate. destruct y; reflexivity. Qed.
Lemma nan_mul_r (x y : b32) : is_nan y = true -> is_nan (fmul x y) = true.
Proof. destruct y; try discriminate. destruct x; reflexivity. Qed.
Lemma sub_self (x : b32) : is_zero (fsub x x) \/ is_nan (fsub x x) = true.
Proof.
  destruct (fin x) eqn:F; [left|right; destruct x as [s|s| |s m e H]; try discriminate; [destruct s|]; reflexivity].
  pose proof (Bminus_correct 24 128 p32 e32 mode_NE x x F F) as C. fold (fsub x x) in C. replace (V x - V x)%R with 0%R in C by ring. change (round radix2 (SpecFloat.fexp 24 128) (round_mode mode_NE) 0%R) with (rd 0%R) in C. rewrite rd_0, Rabs_R0, Rlt_bool_true in C by apply bpow_gt_0.
  destruct C as (C1 & C2 & _). destruct (fsub x x) as [s|s| |s m e H]; try discriminate; cbn; auto. apply eq_0_F2R in C1. destruct s; discriminate.
Qed.

Section Blank.
  Variables (segs : Z -> Z -> list (Z * b32)) (dt dx gx gy : Z) (data : Z -> Z -> b32) (r first par c : b32) (prior : option (b32 * (Z -> b32))).
  Hypothesis Hgx : 1 <= gx.
  Hypothesis Hseg : forall p d i w, In (i, w) (segs p d) -> 0 <= i < gx * gy /\ fin w = true.
  Hypothesis Fr : fin r = true.
  Hypothesis Nr : ~ is_zero r.
  Hypothesis Fr2 : fin (fmul (of_int 2) r) = true.
  Hypothesis Hdata : forall p d, 0 <= p < dt -> 0 <= d < dx -> is_zero (data p d).
  Definition zeros (x : Z -> b32) : Prop := forall i, 0 <= i < gx * gy -> is_zero (x i).
  Lemma z_sim x p d : zeros x -> is_zero (simulated segs x p d).
  Proof.
    intros Hx. unfold simulated. pose proof (Hseg p d) as H. revert H. generalize (segs p d). intros l.
    assert (Z : is_zero zeroF) by exact I. revert Z. generalize zeroF. induction l as [|(j & w) l IH]; cbn [map dotF fold_left]; intros a Z H; [exact Z|]. apply IH; [|intros k u Hk; apply (H k u); now right]. destruct (H j w ltac:(now left)) as (Hj & Fw). apply z_add; [exact Z|]. apply z_mul; auto.
  Qed.
  Lemma z_back back q i : (forall p d w, 0 <= p < dt -> 0 <= d < dx -> fin w = true -> is_zero (back (q p d) w)) -> is_zero (back_sum segs dt dx back q i).
  Proof.
    intros H. unfold back_sum. match goal with |- is_zero (fold_left _ ?l _) => assert (K : forall u w, In (u, w) l -> is_zero (back u w)) end.
    { intros u w Hin. unfold rays in Hin. apply in_flat_map in Hin. destruct Hin as (p & Hp & Hin). apply in_flat_map in Hin. destruct Hin as (d & Hd & Hin). apply in_zrange in Hp, Hd. destruct (nez _); [|destruct Hin]. apply in_map_iff in Hin. destruct Hin as (w' & E & Hin). injection E as <- <-.
      unfold lengths in Hin. apply in_map_iff in Hin. destruct Hin as ((j & w0) & E & Hin). cbn in E. subst w0. apply filter_In in Hin. apply H; auto. apply (Hseg p d j w'), Hin. }
    match goal with |- is_zero (fold_left _ ?l _) => revert K; generalize l end. intros l. assert (Z : is_zero zeroF) by exact I. revert Z. generalize zeroF. induction l as [|(u & w) l IH]; cbn [fold_left]; intros a Z K; [exact Z|]. apply IH; [|intros; apply K; now right]. apply z_add; auto. apply K. now left.
  Qed.
  Definition blank_prior : Prop := match prior with None => True | Some (alpha, ref) => fin (fmul (of_int 2) alpha) = true /\ zeros ref end.
  Lemma z_gradient x : blank_prior -> zeros x -> zeros (gradient segs dt dx data r prior x).
  Proof.
    intros Hp Hx i Hi. unfold gradient. assert (Y : is_zero (back_sum segs dt dx (fun q w => fmul (fmul (fmul (of_int 2) r) q) w) (fun p d => fsub (fmul (simulated segs x p d) r) (data p d)) i)).
    { apply z_back. intros p d w H1 H2 Fw. apply z_mul; auto. apply z_mul'; auto. apply z_sub; auto. apply z_mul; auto. apply z_sim, Hx. }
    unfold blank_prior in Hp. destruct prior as [(alpha & ref)|]; auto. destruct Hp as (Fa & Hr). apply z_add; auto. apply z_mul'; auto. apply z_sub; auto.
  Qed.
  (** ** grad and tikh *)
  Hypothesis Ff : fin first = true.
  Lemma bb_nan x x0 y y0 : zeros x -> zeros x0 -> zeros y -> zeros y0 -> is_nan (bb gx gy x x0 y y0) = true.
  Proof.
    intros H1 H2 H3 H4. unfold bb. cbv zeta.
    assert (K : forall l, (forall i, In i l -> 0 <= i < gx * gy) -> forall a b, is_zero a -> is_zero b -> is_zero (fold_left (fun a i => fadd a (fmul (fsub (x i) (x0 i)) (fsub (y i) (y0 i)))) l a) /\
      is_zero (fold_left (fun a i => dadd a (to64 (fmul (fsub (y i) (y0 i)) (fsub (y i) (y0 i))))) l b)).
    { induction l as [|i l IH]; cbn [fold_left]; intros Hl a b Ha Hb; auto. assert (Hi : 0 <= i < gx * gy) by (apply Hl; now left). apply IH; [intros; apply Hl; now right| |].
      - apply z_add; auto. apply z_mul; [apply z_sub; auto|]. apply z_fin, z_sub; auto.
      - apply z_dadd; auto. apply z_to64. apply z_mul; [apply z_sub; auto|]. apply z_fin, z_sub; auto. }
    assert (Z64 : is_zero (of_int64 0)) by exact I.
    destruct (K (zrange 0 (gx * gy)) ltac:(intros i Hi; apply in_zrange in Hi; exact Hi) zeroF (of_int64 0) I Z64) as (A & B). clear K.
    match goal with |- is_nan (to32 (ddiv (to64 ?x) ?y)) = true => generalize dependent x; generalize dependent y end. clear. intros y Hy x Hx. destruct x; try easy. destruct y; easy.
  Qed.
  Lemma grad_zero n x : blank_prior -> zeros x -> (Bltb par (of_int 0) = true -> (n <= 1)%nat) -> (Bltb par (of_int 0) = false -> fin par = true) ->
    let st := grad_run segs dt dx gx gy data r first par prior n x in zeros (fst (fst st)) /\ zeros (snd (fst st)) /\ zeros (snd st).
  Proof.
    intros Hp Hx Hn Fp. induction n as [|n IH]; cbn [grad_run]; cbv zeta.
    - repeat split; cbn [fst snd]; intros i Hi; try exact I; apply z_div; auto.
    - assert (Hn' : Bltb par (of_int 0) = true -> (n <= 1)%nat) by (intros; specialize (Hn H); lia). specialize (IH Hn'). cbv zeta in IH. destruct (grad_run segs dt dx gx gy data r first par prior n x) as ((u & u0) & y0). cbn [fst snd] in IH. destruct IH as (I1 & I2 & I3). unfold grad_next. cbv zeta. cbn [fst snd].
      pose proof (z_gradient u Hp I1) as Y. split; [|auto]. intros i Hi. apply z_sub; auto. apply z_mul'; auto. unfold step. destruct (Bltb par (of_int 0)); [|auto]. destruct n; [exact Ff|]. specialize (Hn eq_refl). lia.
  Qed.
  Lemma grad_nan n x i : blank_prior -> zeros x -> Bltb par (of_int 0) = true -> 0 <= i < gx * gy -> is_nan (fst (fst (grad_run segs dt dx gx gy data r first par prior (S (S n)) x)) i) = true.
  Proof.
    intros Hp Hx Hb Hi. induction n as [|n IH].
    - remember (S O) as one. cbn [grad_run]. pose proof (grad_zero one x Hp Hx ltac:(intros; lia) ltac:(congruence)) as G. cbv zeta in G. destruct (grad_run segs dt dx gx gy data r first par prior one x) as ((u & u0) & y0). cbn [fst snd] in G. destruct G as (I1 & I2 & I3). unfold grad_next. cbv zeta. cbn [fst snd].
      apply nan_sub_r, nan_mul_l. unfold step. rewrite Hb. subst one. apply bb_nan; auto. now apply z_gradient.
    - remember (S (S n)) as k. cbn [grad_run]. destruct (grad_run segs dt dx gx gy data r first par prior k x) as ((u & u0) & y0). unfold grad_next. cbv zeta. cbn [fst snd] in *. now apply nan_sub_l.
  Qed.
  (** ** tv *)
  Hypothesis Fc : fin c = true.
  Hypothesis Fc1 : fin (fadd (of_int 1) c) = true.
  Hypothesis Nc1 : ~ is_zero (fadd (of_int 1) c).
  Lemma z_clipped a x y : is_zero a -> is_zero x -> is_zero y -> fin par = true -> ~ is_zero par -> is_zero (clipped par a x y).
  Proof.
    intros Ha Hx Hy Fp Np. unfold clipped, clip. cbv zeta.
    assert (Q : is_zero (ddiv (dsqrt (to64 (fadd (fmul x x) (fmul y y)))) (to64 par))).
    { assert (A : is_zero (dsqrt (to64 (fadd (fmul x x) (fmul y y))))) by (apply z_dsqrt, z_to64, z_add; apply z_mul; auto; now apply z_fin). destruct (to64_val par Fp) as (F6 & V6). assert (N6 : B2R (to64 par) <> 0%R). { rewrite V6. destruct par as [s|s| |s m e H]; try easy; [destruct Np; exact I|]. cbn. intros E. apply eq_0_F2R in E. destruct s; discriminate. }
      generalize dependent (dsqrt (to64 (fadd (fmul x x) (fmul y y)))). intros b Hb. destruct b; try easy. destruct (to64 par); easy. }
    set (n := ddiv _ _) in *. clearbody n. assert (E : Bltb n (of_int64 1) = true) by (destruct n as [s|s| |s m e H]; try easy; destruct s; reflexivity). rewrite E. destruct a as [s|s| |s m e H]; easy.
  Qed.
  Lemma clipped_nan a x y : (is_zero x \/ is_nan x = true) -> (is_zero y \/ is_nan y = true) -> is_zero par -> is_nan (clipped par a x y) = true.
  Proof.
    intros Hx Hy Hp. unfold clipped, clip. cbv zeta.
    assert (Q : is_nan (ddiv (dsqrt (to64 (fadd (fmul x x) (fmul y y)))) (to64 par)) = true).
    { assert (A : is_zero (fadd (fmul x x) (fmul y y)) \/ is_nan (fadd (fmul x x) (fmul y y)) = true). { destruct Hx as [Hx|Hx]; [|right; apply nan_add_l, nan_mul_l, Hx]. destruct Hy as [Hy|Hy]; [|right; apply nan_add_r, nan_mul_l, Hy]. left. apply z_add; apply z_mul; auto; now apply z_fin. }
      generalize dependent (fadd (fmul x x) (fmul y y)). intros b Hb. destruct par; try easy. destruct b; destruct Hb; easy. }
    set (n := ddiv _ _) in *. clearbody n. destruct n; try discriminate. change (is_nan (to32 (ddiv (to64 a) B754_nan)) = true). generalize (to64 a). intros b. destruct b; reflexivity.
  Qed.
  Definition blank_tv (st : tv_state) : Prop := zeros (tx st) /\ zeros (tu st) /\ zeros (tvx st) /\ zeros (tvy st) /\ forall p d, 0 <= p < dt -> 0 <= d < dx -> is_zero (tq st p d).
  Lemma tv_blank n x : zeros x -> fin par = true -> ~ is_zero par -> blank_tv (tv_run segs dt dx gx gy data r par c n x).
  Proof.
    intros Hx Fp Np. induction n as [|n IH]; cbn [tv_run].
    - split; [|split; [|split; [|split]]]; cbn [tx tu tvx tvy tq]; [| | | |intros p d _ _; exact I]; intros i Hi; try exact I; apply z_div; auto.
    - set (st := tv_run segs dt dx gx gy data r par c n x) in *. clearbody st. destruct IH as (I1 & I2 & I3 & I4 & I5).
      assert (A : forall i, 0 <= i < gx * gy -> inside gx gy i = true -> is_zero (ascent_x c st i) /\ is_zero (ascent_y gx c st i)).
      { intros i Hi T. destruct (inside_next gx gy Hgx i Hi T) as (H1 & H2). unfold ascent_x, ascent_y. split; apply z_add; auto; apply z_mul'; auto; apply z_sub; auto. }
      assert (Vx : zeros (dual_x gx gy par c st)). { intros i Hi. unfold dual_x. destruct (inside gx gy i) eqn:T; auto. destruct (A i Hi T). apply z_clipped; auto. }
      assert (Vy : zeros (dual_y gx gy par c st)). { intros i Hi. unfold dual_y. destruct (inside gx gy i) eqn:T; auto. destruct (A i Hi T). apply z_clipped; auto. }
      assert (Q : forall p d, 0 <= p < dt -> 0 <= d < dx -> is_zero (dual_q segs data r c st p d)).
      { intros p d H1 H2. unfold dual_q. apply z_div; auto. apply z_sub; [|apply z_mul'; auto]. apply z_add; auto. apply z_mul; auto. apply z_mul'; auto. now apply z_sim. }
      assert (P : zeros (primal segs dt dx gx gy data r par c st)).
      { intros i Hi. unfold primal. cbv zeta. apply z_add; [apply z_add; [apply z_sub; auto|]|]; apply z_mul'; auto.
        - apply z_back. intros p d w H1 H2 Fw. apply z_mul; auto. apply z_mul'; auto.
        - destruct (i mod gx =? 0) eqn:T; auto. apply z_sub; auto. apply Vx. now apply mod_prev.
        - destruct (i / gx =? 0) eqn:T; auto. apply z_sub; auto. apply Vy. now apply div_prev. }
      unfold tv_next. split; [|split; [|split; [|split]]]; cbn [tx tu tvx tvy tq]; auto. intros i Hi. apply z_sub; auto. apply z_mul'; auto.
  Qed.
End Blank.

(** A constant image and a penalty of zero: whatever was measured *)
Section Flat.
  Variables (segs : Z -> Z -> list (Z * b32)) (dt dx gx gy : Z) (data : Z -> Z -> b32) (r par c : b32).
  Hypothesis Hgx : 1 <= gx.
  Hypothesis Fc : fin c = true.
  Lemma c_mul x : is_zero x \/ is_nan x = true -> is_zero (fmul c x) \/ is_nan (fmul c x) = true.
  Proof. intros [H|H]; [left; now apply z_mul'|right; now apply nan_mul_r]. Qed.
  Lemma c_add x : is_zero x \/ is_nan x = true -> is_zero (fadd zeroF x) \/ is_nan (fadd zeroF x) = true.
  Proof. intros [H|H]; [left; now apply z_add|right; now apply nan_add_r]. Qed.
  Lemma tv_flat n x v i : (forall i, 0 <= i < gx * gy -> x i = v) -> is_zero par -> 0 <= i < gx * gy -> inside gx gy i = true ->
    let st := tv_run segs dt dx gx gy data r par c (S n) x in is_nan (tx st i) = true /\ is_nan (tu st i) = true /\ is_nan (tvx st i) = true /\ is_nan (tvy st i) = true.
  Proof.
    intros Hx Hp Hi T. cbv zeta.
    assert (K : forall st, is_nan (dual_x gx gy par c st i) = true -> is_nan (dual_y gx gy par c st i) = true -> let st' := tv_next segs dt dx gx gy data r par c st in is_nan (tx st' i) = true /\ is_nan (tu st' i) = true /\ is_nan (tvx st' i) = true /\ is_nan (tvy st' i) = true).
    { intros st H1 H2. cbv zeta. unfold tv_next. cbn [tx tu tvx tvy]. assert (P : is_nan (primal segs dt dx gx gy data r par c st i) = true).
      { unfold primal. cbv zeta. apply nan_add_r, nan_mul_r. destruct (i / gx =? 0); [exact H2|]. now apply nan_sub_l. }
      repeat split; auto. now apply nan_sub_l, nan_mul_r. }
    induction n as [|n IH].
    - cbn [tv_run]. apply K; unfold dual_x, dual_y; rewrite T; (apply clipped_nan; [| |exact Hp]); unfold ascent_x, ascent_y; cbn [tx tvx tvy]; destruct (inside_next gx gy Hgx i Hi T) as (H1 & H2); rewrite ?(Hx _ Hi), ?(Hx _ H1), ?(Hx _ H2); apply c_add, c_mul, sub_self.
    - remember (S n) as k. cbn [tv_run]. destruct IH as (I1 & I2 & I3 & I4). set (st := tv_run segs dt dx gx gy data r par c k x) in *. clearbody st.
      assert (A : is_nan (ascent_x c st i) = true /\ is_nan (ascent_y gx c st i) = true) by (unfold ascent_x, ascent_y; split; now apply nan_add_l). destruct A as (A1 & A2).
      apply K; unfold dual_x, dual_y; rewrite T; apply clipped_nan; auto.
  Qed.
End Flat.
