From Verif Require Import Base Order CLoop Model_Ray Proofs_Ray Model_RayF Model_SolverF Spec_SolverF Proofs_FloatB Proofs_RayF Proofs_RayF2 Proofs_RayF3 Proofs_RayF4.
From Coq Require Import Reals Lra Psatz.
From Flocq Require Import Core BinarySingleNaN.
Local Open Scope R_scope.

(** ** The monad *)
Lemma ofold_ok {St X} (I : St -> Prop) (f : X -> St -> option St) l s :
  I s -> (forall x s, In x l -> I s -> exists s', f x s = Some s' /\ I s') -> exists s', ofold f l s = Some s' /\ I s'.
Proof.
  revert s. induction l as [|x l IH]; cbn; intros s Hs H; [eauto|]. destruct (H x s (or_introl eq_refl) Hs) as (s1 & E & H1). rewrite E. cbn. apply IH; auto.
Qed.
Lemma ofor_ok {St} (I : St -> Prop) a b (f : Z -> St -> option St) s :
  I s -> (forall n s, (a <= n < b)%Z -> I s -> exists s', f n s = Some s' /\ I s') -> exists s', ofor a b f s = Some s' /\ I s'.
Proof. intros Hs H. apply ofold_ok; auto. intros x s' Hx. apply in_zrange in Hx. auto. Qed.
Lemma ofold_inv {St X} (I : St -> Prop) (f : X -> St -> option St) l s s' :
  ofold f l s = Some s' -> I s -> (forall x s s', In x l -> I s -> f x s = Some s' -> I s') -> I s'.
Proof.
  revert s. induction l as [|x l IH]; cbn; intros s E Hs H; [now injection E as <-|]. destruct (f x s) as [s1|] eqn:Ef; [|discriminate]. cbn in E.
  apply (IH s1); [exact E|exact (H x s s1 (or_introl eq_refl) Hs Ef)|]. intros y t t' Hy. apply H. now right.
Qed.
Lemma ofor_inv {St} (I : St -> Prop) a b (f : Z -> St -> option St) s s' :
  ofor a b f s = Some s' -> I s -> (forall n s s', (a <= n < b)%Z -> I s -> f n s = Some s' -> I s') -> I s'.
Proof. intros E Hs H. eapply ofold_inv; eauto. intros x s1 s2 Hx. apply in_zrange in Hx. eauto. Qed.
Lemma ofold_app {St X} (f : X -> St -> option St) l l' s : ofold f (l ++ l') s = let? s' := ofold f l s in ofold f l' s'.
Proof. revert s. induction l as [|x l IH]; cbn; intros s; auto. destruct (f x s); cbn; auto. Qed.
Lemma omap_ok {A B} (f : A -> option B) (P : A -> B -> Prop) l : (forall x, In x l -> exists y, f x = Some y /\ P x y) -> exists r, omap f l = Some r /\ Forall2 P l r.
Proof.
  induction l as [|x l IH]; cbn; intros H; [eauto|]. destruct (H x (or_introl eq_refl)) as (y & E & Py). destruct IH as (r & Er & Fr); auto. rewrite E, Er. cbn. eauto.
Qed.
Lemma omap_forall2 {A B} (f : A -> option B) l r : omap f l = Some r -> Forall2 (fun x y => f x = Some y) l r.
Proof.
  revert r. induction l as [|x l IH]; cbn; intros r E; [injection E as <-; constructor|]. destruct (f x) as [y|] eqn:Ef; [|discriminate]. cbn in E.
  destruct (omap f l) as [r'|]; [|discriminate]. cbn in E. injection E as <-. constructor; auto.
Qed.
Lemma load_ok {A} n (a : arr A) i : (0 <= i < n)%Z -> load n a i = Some (a i).
Proof. intros H. unfold load. replace ((0 <=? i) && (i <? n))%Z with true; auto. symmetry. apply andb_true_iff. lia. Qed.
Lemma store_ok {A} n (a : arr A) i v : (0 <= i < n)%Z -> store n a i v = Some (aset a i v).
Proof. intros H. unfold store. replace ((0 <=? i) && (i <? n))%Z with true; auto. symmetry. apply andb_true_iff. lia. Qed.
Lemma cint_ok z : (- 2 ^ 31 <= z < 2 ^ 31)%Z -> cint z = Some z.
Proof. intros H. unfold cint. replace ((- 2 ^ 31 <=? z) && (z <? 2 ^ 31))%Z with true; auto. symmetry. apply andb_true_iff. lia. Qed.

(** ** calc_quadrant is defined *)
Lemma trunc_bound x k : - IZR k <= x <= IZR k -> (- k <= Ztrunc x <= k)%Z.
Proof.
  intros H. split.
  - rewrite <- (Ztrunc_IZR (- k)). apply Ztrunc_le. rewrite opp_IZR. lra.
  - rewrite <- (Ztrunc_IZR k). apply Ztrunc_le. lra.
Qed.
Lemma Btrunc32 x : Btrunc x = Ztrunc (V x).
Proof.
  pose proof (Btrunc_correct 24 128 e32 x) as T. apply eq_IZR. rewrite T. unfold round, scaled_mantissa, cexp, FIX_exp, F2R. cbn. now rewrite !Rmult_1_r.
Qed.
Lemma Btrunc64 (x : b64) : Btrunc x = Ztrunc (B2R x).
Proof.
  pose proof (Btrunc_correct 53 1024 e64 x) as T. apply eq_IZR. rewrite T. unfold round, scaled_mantissa, cexp, FIX_exp, F2R. cbn. now rewrite !Rmult_1_r.
Qed.
Definition lim : Z := 2146435072.
Lemma rep_lim : rep (IZR lim).
Proof. replace (IZR lim) with (IZR 2047 * bpow radix2 20) by (unfold lim; cbn; lra). apply rep_dyadic; lia. Qed.
Lemma to_int_small x : fin x = true -> Rabs (V x) <= IZR lim -> to_int x = Some (Ztrunc (V x)) /\ (- lim <= Ztrunc (V x) <= lim)%Z.
Proof.
  intros F B. apply abs_inv in B. pose proof (trunc_bound _ _ B) as T. split; [|exact T]. unfold to_int. rewrite F, Btrunc32. cbn [andb].
  unfold lim in T. replace (- 2 ^ 31 <=? Ztrunc (V x))%Z with true by lia. replace (Ztrunc (V x) <? 2 ^ 31)%Z with true by lia. reflexivity.
Qed.
Lemma to_int64_small (x : b64) : is_finite x = true -> Rabs (B2R x) <= IZR lim -> to_int64 x = Some (Ztrunc (B2R x)) /\ (- lim <= Ztrunc (B2R x) <= lim)%Z.
Proof.
  intros F B. apply abs_inv in B. pose proof (trunc_bound _ _ B) as T. split; [|exact T]. unfold to_int64. rewrite F, Btrunc64. cbn [andb].
  unfold lim in T. replace (- 2 ^ 31 <=? Ztrunc (B2R x))%Z with true by lia. replace (Ztrunc (B2R x) <? 2 ^ 31)%Z with true by lia. reflexivity.
Qed.
Lemma ipi_ok : fin (of_int ipi_c) = true /\ V (of_int ipi_c) = 340870432.
Proof. split; [reflexivity|]. rewrite <- SF2R_B2SF. assert (B2SF (of_int ipi_c) = SpecFloat.S754_finite false 10652201 5) as -> by (vm_compute; reflexivity). cbn. unfold F2R. cbn. lra. Qed.
Lemma turn2_ok : is_finite (turns (of_int64 2)) = true /\ B2R (turns (of_int64 2)) = 8983159041828626 / 4194304.
Proof.
  split; [vm_compute; reflexivity|]. rewrite <- SF2R_B2SF. assert (B2SF (turns (of_int64 2)) = SpecFloat.S754_finite false 8983159041828626 (-22)) as -> by (vm_compute; reflexivity).
  cbn. unfold F2R. cbn. lra.
Qed.
Lemma of_int64_ok z : (Z.abs z <= 2 ^ 53)%Z -> is_finite (of_int64 z) = true /\ B2R (of_int64 z) = IZR z.
Proof.
  intros H. pose proof (binary_normalize_correct 53 1024 p64 e64 mode_NE z 0 false) as C. cbv zeta in C. fold (of_int64 z) in C.
  replace (F2R (Float radix2 z 0)) with (IZR z) in C by (unfold F2R; cbn; lra). pose proof (rep64_IZR z H) as G.
  rewrite round_generic in C by (try apply valid_rnd_N; exact G). rewrite Rlt_bool_true in C; [split; apply C|].
  rewrite <- abs_IZR. apply Rle_lt_trans with (IZR (2 ^ 53)); [apply IZR_le; lia|apply big1024; lia].
Qed.
Lemma rep64_lim : rep64 (IZR lim). Proof. apply rep64_IZR. unfold lim. lia. Qed.
Lemma dadd_ok (x y : b64) k : is_finite x = true -> is_finite y = true -> rep64 k -> Rabs (B2R x + B2R y) <= k -> k < bpow radix2 1024 ->
  is_finite (dadd x y) = true /\ Rabs (B2R (dadd x y)) <= k /\ B2R (dadd x y) = round radix2 (SpecFloat.fexp 53 1024) (round_mode mode_NE) (B2R x + B2R y).
Proof.
  intros Fx Fy G B L. pose proof (Bplus_correct 53 1024 p64 e64 mode_NE x y Fx Fy) as C. fold (dadd x y) in C.
  pose proof (r64_abs _ _ G B) as Br. rewrite Rlt_bool_true in C by lra. destruct C as (C1 & C2 & _). rewrite C1. auto.
Qed.
Lemma prod_ok x : fin x = true -> Rabs (V x) <= 629 / 100 -> fin (fmul x (of_int ipi_c)) = true /\ V (fmul x (of_int ipi_c)) = rd (V x * 340870432) /\ Rabs (V (fmul x (of_int ipi_c))) <= IZR lim.
Proof.
  intros F B. destruct ipi_ok as (Fi & Ei).
  assert (Bp : Rabs (V x * V (of_int ipi_c)) <= IZR lim). { rewrite Ei. apply abs_inv in B. unfold lim. apply Rabs_le. lra. }
  destruct (fmul_ok x _ _ F Fi rep_lim Bp (huge_big lim ltac:(unfold lim; lia))) as (F1 & E1). split; auto. rewrite Ei in E1. split; auto. rewrite E1.
  apply rd_abs_le; [apply rep_lim|]. rewrite Ei in Bp. exact Bp.
Qed.
Lemma quadrant_defined x : fin x = true -> Rabs (V x) <= 629 / 100 -> exists b, calc_quadrantF x = Some b.
Proof.
  intros F B. destruct (prod_ok x F B) as (F1 & E1 & B1). destruct (to_int_small _ F1 B1) as (E2 & B2).
  unfold calc_quadrantF. rewrite E2. cbn [obind]. set (z := Ztrunc _) in *. destruct (z <? 0)%Z eqn:N; [|cbn [obind]; eauto].
  destruct (of_int64_ok z) as (F3 & E3); [unfold lim in *; lia|]. destruct turn2_ok as (F4 & E4).
  assert (Bs : Rabs (B2R (of_int64 z) + B2R (turns (of_int64 2))) <= IZR lim).
  { rewrite E3, E4. assert (IZR (- lim) <= IZR z <= IZR 0) by (split; apply IZR_le; lia). unfold lim in *. apply Rabs_le. cbn in H |- *. lra. }
  destruct (dadd_ok _ _ _ F3 F4 rep64_lim Bs (big1024 lim ltac:(unfold lim; lia))) as (F5 & B5 & _).
  destruct (to_int64_small _ F5 B5) as (E6 & _). rewrite E6. cbn [obind]. eauto.
Qed.

(** ** Rays *)
Definition seg_ok (g : geomF) (segs : list (Z * b32)) : Prop := forall i w, In (i, w) segs -> (0 <= i < npixF g)%Z.
Section Safe.
  Variables (fmodf sinf cosf : b32 -> b32) (junk : arr pointF * arr pointF * arr pointF).
  Hypothesis Lm : libm fmodf sinf cosf.
  Variable g : geomF.
  Hypothesis Hg : sizes_ok g.
  Notation segs_ := (segsF fmodf sinf cosf junk g).
  Lemma Forall2_in_r {A B} (P : A -> B -> Prop) l r y : Forall2 P l r -> In y r -> exists x, In x l /\ P x y.
  Proof. intros F. induction F as [|a b l r H F IH]; cbn; [easy|]. intros [->|Hy]; [eauto|]. destruct (IH Hy) as (x & Hx & Px). eauto. Qed.
  Lemma traced_ok buf q cx cy za zb zc : let t := traceF (gxF g) (gyF g) q cx cy za zb zc in (fcsize t <= buf)%Z -> exists segs, traced_of g buf t = Some segs /\ seg_ok g segs.
  Proof.
    intros t Hb. destruct Hg. destruct (trace_sizes (gxF g) (gyF g) q cx cy za zb zc ltac:(lia) ltac:(lia)) as (Ea & Eb & Ec). fold t in Ea, Eb, Ec.
    unfold traced_of. replace ((fasize t <=? buf) && (fbsize t <=? buf) && (fcsize t <=? buf))%Z with true by (symmetry; rewrite !andb_true_iff; lia).
    destruct (omap_ok (fun n => let? i := seg_indiF (gxF g) (gyF g) (fcoor t) n in let? i := cint i in Some (i, seg_distF (fcoor t) n))
                (fun n (y : Z * b32) => (0 <= fst y < npixF g)%Z) (zrange 0 (fcsize t - 1))) as (r & Er & Fr).
    { intros n Hn. apply in_zrange in Hn. destruct (pixels_inside (gxF g) (gyF g) q cx cy za zb zc ltac:(lia) ltac:(lia) n) as (i & j & Ei & Hi & Ej & Hj); [fold t; lia|].
      fold t in Ei, Ej. unfold seg_indiF. rewrite Ei, Ej. cbn [obind]. unfold npixF in *. rewrite cint_ok by nia. cbn [obind]. eexists. split; [reflexivity|]. cbn. nia. }
    rewrite Er. eexists. split; [reflexivity|]. intros i w Hiw. destruct (Forall2_in_r _ _ _ _ Fr Hiw) as (n & _ & H). exact H.
  Qed.
  Lemma ray_ok (Hs : small_ok g) s p d : (0 <= s < dyF g)%Z -> (0 <= p < dtF g)%Z -> (0 <= d < dxF g)%Z -> exists segs, segs_ (centerF g s) p d = Some segs /\ seg_ok g segs.
  Proof.
    intros Hss Hp Hd. pose proof Hg as [? ? ? ? ? ? ? Ht]. destruct Hs as [? ? ? Hc]. unfold segsF. rewrite load_ok by auto. cbn [obind]. destruct (Lm _ (Ht p Hp)) as ((Ff & Bf) & _).
    destruct (Lm _ Ff) as (_ & (Fs & Bs) & (Fc & Bc)). destruct (quadrant_defined _ Ff Bf) as (q & ->). cbn [obind]. destruct junk as ((za & zb) & zc).
    destruct (Hc s Hss) as (Fce & Bce). apply traced_ok. 
    destruct (line_ok (gxF g) (gyF g) (dxF g) (centerF g s) (sinf (fmodf (thetaF g p))) (cosf (fmodf (thetaF g p))) d) as (A1 & A2 & A3 & A4); auto; try lia.
    match goal with |- (fcsize (traceF _ _ _ ?cx ?cy _ _ _) <= _)%Z => destruct (trace_sizes (gxF g) (gyF g) q cx cy za zb zc ltac:(lia) ltac:(lia)) as (_ & _ & ->) end.
    apply buffers; auto; lia.
  Qed.
  Lemma pray_ok center p d : (0 <= p < dtF g)%Z -> exists segs, project_segs fmodf sinf cosf junk g center p d = Some segs /\ seg_ok g segs.
  Proof.
    intros Hp. pose proof Hg as [? ? ? ? ? ? ? Ht]. unfold project_segs. rewrite load_ok by auto. cbn [obind]. destruct (Lm _ (Ht p Hp)) as ((Ff & Bf) & _).
    destruct (quadrant_defined _ Ff Bf) as (q & ->). cbn [obind]. destruct junk as ((za & zb) & zc). apply traced_ok.
    match goal with |- (fcsize (traceF _ _ _ ?cx ?cy _ _ _) <= _)%Z => destruct (trace_sizes (gxF g) (gyF g) q cx cy za zb zc ltac:(lia) ltac:(lia)) as (Ea & Eb & ->);
      pose proof (na_length (gxF g) (gyF g) cx ltac:(lia)); pose proof (nb_length (gxF g) (gyF g) cy ltac:(lia)) end. lia.
  Qed.

  (** ** Indices *)
  Lemma ind_ok s p d : (0 <= s < dyF g)%Z -> (0 <= p < dtF g)%Z -> (0 <= d < dxF g)%Z -> (0 <= d + p * dxF g + s * dtF g * dxF g < ndata g)%Z.
  Proof.
    intros Hs Hp Hd. destruct Hg. unfold ndata. assert (d + p * dxF g < dtF g * dxF g)%Z by nia. assert (s * (dtF g * dxF g) <= (dyF g - 1) * (dtF g * dxF g))%Z by nia. split; nia.
  Qed.
  Lemma ind_data_ok s p d : (0 <= s < dyF g)%Z -> (0 <= p < dtF g)%Z -> (0 <= d < dxF g)%Z -> ind_dataF g s p d = Some (d + p * dxF g + s * dtF g * dxF g)%Z.
  Proof. intros Hs Hp Hd. pose proof (ind_ok s p d Hs Hp Hd). destruct Hg. unfold ind_dataF. apply cint_ok. lia. Qed.
  Lemma rec_ok s i : (0 <= s < dyF g)%Z -> (0 <= i < npixF g)%Z -> (0 <= i + s * gxF g * gyF g < nrec g)%Z.
  Proof. intros Hs Hi. unfold nrec. fold (npixF g). rewrite <- Z.mul_assoc. fold (npixF g). nia. Qed.
  Lemma base_ok s : (0 <= s < dyF g)%Z -> cint (s * gxF g * gyF g) = Some (s * gxF g * gyF g)%Z.
  Proof.
    intros Hs. apply cint_ok. destruct Hg. assert (0 < npixF g)%Z by (unfold npixF; nia). pose proof (rec_ok s 0 Hs ltac:(lia)). lia.
  Qed.
  Lemma store_in (P : b32 -> Prop) n a i v : (0 <= i < n)%Z -> inP P n a -> P v -> exists r, store n a i v = Some r /\ inP P n r.
  Proof. intros Hi Ha Hv. rewrite store_ok by auto. eexists. split; [reflexivity|]. intros j Hj. unfold aset. destruct (Z.eqb _ _); auto. Qed.
  Lemma sim_ok (P : b32 -> Prop) segs s p d model simdata : seg_ok g segs -> (0 <= s < dyF g)%Z -> (0 <= p < dtF g)%Z -> (0 <= d < dxF g)%Z ->
    inP P (nrec g) model -> inP P (ndata g) simdata -> (forall i w, In (i, w) segs -> P w) -> (forall a b c, P a -> P b -> P c -> P (fadd a (fmul b c))) ->
    exists r, simdataF g segs s p d model simdata = Some r /\ inP P (ndata g) r.
  Proof.
    intros Hseg Hs Hp Hd Pm Ps Pw Pf. unfold simdataF. rewrite base_ok, ind_data_ok by auto. cbn [obind].
    apply (ofold_ok (inP P (ndata g))); auto. intros (i & w) a Hx Ha. specialize (Hseg i w Hx). pose proof (rec_ok s i Hs Hseg). pose proof (ind_ok s p d Hs Hp Hd).
    rewrite load_ok by auto. cbn [obind]. rewrite load_ok by auto. cbn [obind]. apply store_in; auto. apply Pf; auto. eapply Pw; eauto.
  Qed.
  Lemma acc_ok (P : b32 -> Prop) (segs : list (Z * b32)) n base (f : b32 -> b32 -> b32) (a0 : arr b32) : (forall i w, In (i, w) segs -> (0 <= i + base < n)%Z) -> inP P n a0 ->
    (forall v i w, P v -> In (i, w) segs -> P (f v w)) ->
    exists r, ofold (fun '(i, w) a => let? v := load n a (i + base)%Z in store n a (i + base)%Z (f v w)) segs a0 = Some r /\ inP P n r.
  Proof.
    intros Hs H0 Hf. apply (ofold_ok (inP P n)); auto. intros (i & w) a Hx Ha. pose proof (Hs i w Hx). rewrite load_ok by auto. cbn [obind]. apply store_in; eauto.
  Qed.
  Lemma acc0_ok (P : b32 -> Prop) (segs : list (Z * b32)) n (f : b32 -> b32 -> b32) (a0 : arr b32) : (forall i w, In (i, w) segs -> (0 <= i < n)%Z) -> inP P n a0 ->
    (forall v i w, P v -> In (i, w) segs -> P (f v w)) ->
    exists r, ofold (fun '(i, w) a => let? v := load n a i in store n a i (f v w)) segs a0 = Some r /\ inP P n r.
  Proof.
    intros Hs H0 Hf. apply (ofold_ok (inP P n)); auto. intros (i & w) a Hx Ha. pose proof (Hs i w Hx). rewrite load_ok by auto. cbn [obind]. apply store_in; eauto.
  Qed.
  Definition T1 (x : b32) : Prop := True.
  Lemma inT n a : inP T1 n a. Proof. intros i _. exact I. Qed.

  (** ** project, fbp and art *)
  Lemma emptyF_no : emptyF g = false.
  Proof. destruct Hg. unfold emptyF. lia. Qed.
  Theorem project_safe obj data : exists r, projectF fmodf sinf cosf junk g obj data = Some r.
  Proof.
    pose proof Hg as [? ? ? ? ? ? ? ?]. unfold projectF. rewrite emptyF_no, load_ok by lia. cbn [obind]. destruct (ofor_ok (fun _ => True) 0 (dtF g)
      (fun p => ofor 0 (dxF g) (fun d data => let? segs := project_segs fmodf sinf cosf junk g (centerF g 0%Z) p d in ofor 0 (dyF g) (fun s data => simdataF g segs s p d obj data) data)) data) as (r & E & _); eauto.
    intros p a Hp _. apply ofor_ok; auto. intros d a' Hd _. destruct (pray_ok (centerF g 0%Z) p d Hp) as (segs & -> & Hs). cbn [obind]. apply ofor_ok; auto. intros s a2 Hss _.
    destruct (sim_ok T1 segs s p d obj a2) as (r & E & _); auto using inT; try (intros; exact I). eauto.
  Qed.
  Hypothesis Hs : small_ok g.
  Lemma seg_rec segs s : seg_ok g segs -> (0 <= s < dyF g)%Z -> forall i w, In (i, w) segs -> (0 <= i + s * gxF g * gyF g < nrec g)%Z.
  Proof. intros H Hss i w Hx. apply rec_ok; auto. eapply H; eauto. Qed.
  Theorem fbp_safe data recon : exists r, fbpF fmodf sinf cosf junk g data recon = Some r.
  Proof.
    pose proof Hg as [? ? ? ? ? ? ? ?]. unfold fbpF. rewrite emptyF_no.
    match goal with |- exists r, ofor 0 ?n ?f ?s = _ => destruct (ofor_ok (fun _ => True) 0 n f s) as (r & E & _) end; eauto. intros s a Hss _. rewrite load_ok by auto. cbn [obind].
    apply ofor_ok; auto. intros p a' Hp _. apply ofor_ok; auto. intros d a2 Hd _. destruct (ray_ok Hs s p d Hss Hp Hd) as (segs & -> & Hseg). cbn [obind].
    rewrite base_ok, ind_data_ok by auto. cbn [obind]. apply ofold_ok; auto. intros (i & w) a3 Hx _. pose proof (seg_rec segs s Hseg Hss i w Hx). pose proof (ind_ok s p d Hss Hp Hd).
    rewrite load_ok by auto. cbn [obind]. rewrite load_ok by auto. cbn [obind]. rewrite store_ok by auto. eauto.
  Qed.
  Theorem art_safe data num_iter recon simdata : exists r, artF fmodf sinf cosf junk g data num_iter recon simdata = Some r.
  Proof.
    pose proof Hg as [? ? ? ? ? ? ? ?]. unfold artF. rewrite emptyF_no.
    match goal with |- exists r, obind (ofor 0 ?n ?f ?s) _ = _ => destruct (ofor_ok (fun _ => True) 0 n f s) as (r & E & _) end; [auto| |rewrite E; cbn; eauto].
    intros k (rc & sd) _ _. rewrite load_ok by lia. cbn [obind]. apply ofor_ok; auto. intros p a' Hp _. apply ofor_ok; auto. intros d a2 Hd _.
    destruct (ray_ok Hs 0%Z p d ltac:(lia) Hp Hd) as (segs & -> & Hseg). cbn [obind]. destruct (nez _); [|eauto]. apply ofor_ok; auto. intros s (rc' & sd') Hss _. unfold art_sliceF.
    destruct (sim_ok T1 segs s p d rc' sd') as (r & -> & _); auto using inT; try (intros; exact I). cbn [obind]. rewrite base_ok, ind_data_ok by auto. cbn [obind]. pose proof (ind_ok s p d Hss Hp Hd).
    rewrite load_ok by auto. cbn [obind]. rewrite load_ok by auto. cbn [obind].
    match goal with |- exists s', obind (ofold (fun '(i, w) a => _) _ _) _ = _ /\ _ => idtac end.
    destruct (acc_ok T1 segs (nrec g) (s * gxF g * gyF g)%Z (fun x w => fadd x (fmul (fdiv (fsub (data (d + p * dxF g + s * dtF g * dxF g)%Z) (r (d + p * dxF g + s * dtF g * dxF g)%Z)) (sum_sq segs)) w)) rc') as (r' & E' & _);
      [apply seg_rec; auto|apply inT|intros; exact I|]. rewrite E'. cbn [obind]. eauto.
  Qed.

  (** ** Ordered subsets.  [P] is kept by the values of all arrays; for safety it is trivial *)
  Variables (ru : ruleF) (data : arr b32) (num_block : Z) (ind_block : arr Z) (P : b32 -> Prop).
  Hypothesis Hb : (1 <= num_block < 2 ^ 31)%Z.
  Hypothesis Hi : num_block = 1%Z \/ forall q, (0 <= q < dtF g)%Z -> (0 <= ind_block q < dtF g)%Z.
  Hypothesis Ht : (dtF g < 2 ^ 31)%Z.
  Hypothesis P0 : P zeroF.
  Hypothesis Pw : forall c p d segs i w, segs_ c p d = Some segs -> In (i, w) segs -> P w.
  Hypothesis Padd : forall a b, P a -> P b -> P (fadd a b).
  Hypothesis Pmac : forall a b c, P a -> P b -> P c -> P (fadd a (fmul b c)).
  Hypothesis Pd : inP P (ndata g) data.
  Hypothesis Pupd : forall b v q, P b -> P v -> P (upd_of ru b v q).
  Hypothesis Pnew : forall x u sd, P x -> P u -> P sd -> P (new_of ru x u sd).
  Notation inv3 := (fun st : arr b32 * arr b32 * arr b32 => let '(sd, su, up) := st in inP P (ndata g) sd /\ inP P (npixF g) su /\ inP P (npixF g) up).
  Lemma memset_in n m a : inP P n (memsetF n a) /\ (inP P m a -> inP P m (memsetF n a)).
  Proof.
    split; [intros i Hin|intros H i Hin]; unfold memsetF.
    - replace ((0 <=? i) && (i <? n))%Z with true by lia. auto.
    - destruct (_ && _)%bool; auto.
  Qed.
  Lemma os_ray_ok s recon p d st : (0 <= s < dyF g)%Z -> (0 <= p < dtF g)%Z -> (0 <= d < dxF g)%Z -> inP P (nrec g) recon -> inv3 st ->
    exists st', os_rayF fmodf sinf cosf junk g ru data s (centerF g s) recon p d st = Some st' /\ inv3 st'.
  Proof.
    intros Hss Hp Hd Pr. destruct st as ((sd & su) & up). intros (I1 & I2 & I3). unfold os_rayF. destruct (ray_ok Hs s p d Hss Hp Hd) as (segs & Es & Hseg). rewrite Es. cbn [obind].
    pose proof (fun i w => Pw _ _ _ _ i w Es) as Pws.
    destruct (sim_ok P segs s p d recon sd) as (r & -> & I1'); auto. cbn [obind].
    destruct (acc0_ok P segs (npixF g) fadd su) as (r2 & -> & I2'); eauto. cbn [obind]. destruct (nez _); [|eexists; split; [reflexivity|cbn; auto]].
    rewrite ind_data_ok by auto. cbn [obind]. pose proof (ind_ok s p d Hss Hp Hd). rewrite load_ok by auto. cbn [obind]. rewrite load_ok by auto. cbn [obind].
    match goal with |- context [fmul ?u _] => destruct (acc0_ok P segs (npixF g) (fun v w => fadd v (fmul u w)) up) as (r3 & E3 & I3') end; auto.
    { intros v i w Pv Hx. apply Pmac; eauto. }
    rewrite E3. cbn [obind]. eexists. split; [reflexivity|]. cbn. auto.
  Qed.
  Lemma os_correct_ok s su up recon : (0 <= s < dyF g)%Z -> inP P (npixF g) su -> inP P (npixF g) up -> inP P (nrec g) recon ->
    exists r, os_correctF g ru s su up recon = Some r /\ inP P (nrec g) r.
  Proof.
    intros Hss I2 I3 I4. apply ofor_ok; auto. intros n a Hn Ha. rewrite load_ok by auto. cbn [obind]. destruct (nez _); [|eauto]. rewrite base_ok by auto. cbn [obind].
    rewrite load_ok by auto. cbn [obind]. pose proof (rec_ok s n Hss Hn). rewrite load_ok by auto. cbn [obind]. apply store_in; auto.
  Qed.
  Lemma pick_ok q : (0 <= q < dtF g)%Z -> exists p, pickF g num_block ind_block q = Some p /\ (0 <= p < dtF g)%Z.
  Proof.
    intros Hq. unfold pickF. destruct (num_block =? 1)%Z eqn:E; [eauto|]. rewrite load_ok by auto. destruct Hi as [->|H]; [discriminate|]. eauto.
  Qed.
  Definition upto (os : Z) : Z := (os * (dtF g / num_block) + Z.min os (dtF g mod num_block))%Z.
  Lemma upto_le os : (0 <= os <= num_block)%Z -> (0 <= upto os <= dtF g)%Z.
  Proof. intros H. destruct Hg. unfold upto. pose proof (Z.div_mod (dtF g) num_block ltac:(lia)). pose proof (Z.mod_pos_bound (dtF g) num_block ltac:(lia)). pose proof (Z.div_pos (dtF g) num_block ltac:(lia) ltac:(lia)). nia. Qed.
  Lemma upto_next os : (0 <= os < num_block)%Z -> upto (os + 1) = (upto os + dtF g / num_block + (if os <? dtF g mod num_block then 1 else 0))%Z.
  Proof. intros H. unfold upto. destruct (os <? dtF g mod num_block)%Z eqn:E; lia. Qed.
  Lemma div_ok : cdiv (dtF g) num_block = Some (dtF g / num_block)%Z /\ crem (dtF g) num_block = Some (dtF g mod num_block)%Z.
  Proof.
    destruct Hg. unfold cdiv, crem. replace (num_block =? 0)%Z with false by lia. rewrite Z.quot_div_nonneg, Z.rem_mod_nonneg by lia.
    pose proof (Z.div_mod (dtF g) num_block ltac:(lia)). pose proof (Z.mod_pos_bound (dtF g) num_block ltac:(lia)). pose proof (Z.div_pos (dtF g) num_block ltac:(lia) ltac:(lia)).
    split; apply cint_ok; nia.
  Qed.
  Notation inv4 := (fun st : arr b32 * arr b32 * arr b32 * arr b32 => let '(rc, sd, su, up) := st in inP P (nrec g) rc /\ inP P (ndata g) sd).
  Lemma os_block_ok s os st : (0 <= s < dyF g)%Z -> (0 <= os < num_block)%Z -> inv4 st ->
    exists st', os_blockF fmodf sinf cosf junk g ru data num_block ind_block s (centerF g s) os (upto os, st) = Some (upto (os + 1), st') /\ inv4 st'.
  Proof.
    intros Hss Hos. destruct st as (((rc & sd) & su) & up). intros (I1 & I2). unfold os_blockF. destruct div_ok as (-> & ->). cbn [obind]. rewrite <- upto_next by lia.
    match goal with |- context [ofor (upto os) ?b ?f ?s0] => destruct (ofor_ok inv3 (upto os) b f s0) as (st & E & I3) end.
    - split; [auto|]. split; apply (proj1 (memset_in _ 0%Z _)).
    - intros q st Hq Ist. pose proof (upto_le os ltac:(lia)). pose proof (upto_le (os + 1) ltac:(lia)). destruct (pick_ok q ltac:(lia)) as (p & -> & Hp). cbn [obind].
      apply (ofor_ok inv3); auto. intros d st' Hd Ist'. apply os_ray_ok; auto.
    - rewrite E. cbn [obind]. destruct st as ((sd' & su') & up'). destruct I3 as (J1 & J2 & J3). destruct (os_correct_ok s su' up' rc) as (r & -> & Ir); auto. cbn [obind]. eexists. split; [reflexivity|]. cbn. auto.
  Qed.
  Lemma os_slice_ok s st : (0 <= s < dyF g)%Z -> inv4 st -> exists st', os_sliceF fmodf sinf cosf junk g ru data num_block ind_block s st = Some st' /\ inv4 st'.
  Proof.
    intros Hss I4. unfold os_sliceF. rewrite load_ok by auto. cbn [obind].
    assert (G : forall n, (0 <= n)%Z -> (n <= num_block)%Z -> exists st', ofor 0 n (os_blockF fmodf sinf cosf junk g ru data num_block ind_block s (centerF g s)) (0%Z, st) = Some (upto n, st') /\ inv4 st').
    { apply (natlike_ind (fun n => (n <= num_block)%Z -> exists st', ofor 0 n (os_blockF fmodf sinf cosf junk g ru data num_block ind_block s (centerF g s)) (0%Z, st) = Some (upto n, st') /\ inv4 st')).
      - intros _. exists st. split; auto. unfold ofor. rewrite zrange_nil by lia. cbn. do 2 f_equal. unfold upto. destruct Hg. pose proof (Z.mod_pos_bound (dtF g) num_block ltac:(lia)). lia.
      - intros n Hn IH L. destruct IH as (st1 & E1 & I1); [lia|]. rewrite <- Z.add_1_r. unfold ofor in *. rewrite zrange_snoc, ofold_app, E1 by lia. cbn [obind ofold].
        destruct (os_block_ok s n st1 Hss ltac:(lia) I1) as (st2 & -> & I2). cbn [obind]. eauto. }
    destruct (G num_block ltac:(lia) ltac:(lia)) as (st' & -> & I5). cbn [obind snd]. eauto.
  Qed.
  Theorem os_ok num_iter recon simdata su up : inP P (nrec g) recon ->
    exists r, os_solveF fmodf sinf cosf junk g ru data num_block ind_block num_iter recon simdata su up = Some r /\ inP P (nrec g) r.
  Proof.
    intros I1. unfold os_solveF. rewrite emptyF_no. destruct div_ok as (-> & _). cbn [obind].
    match goal with |- context [ofor 0 num_iter ?f ?s0] => destruct (ofor_ok (fun st : arr b32 * arr b32 * arr b32 * arr b32 => let '(rc, _, _, _) := st in inP P (nrec g) rc) 0 num_iter f s0) as (st & E & I3) end; auto.
    - intros k (((rc & sd) & su') & up') _ I2. destruct (ofor_ok inv4 0 (dyF g) (os_sliceF fmodf sinf cosf junk g ru data num_block ind_block) (rc, memsetF (ndata g) sd, su', up')) as (st & E & I3).
      + split; auto. apply (proj1 (memset_in _ 0%Z _)).
      + intros s st Hss Ist. apply os_slice_ok; auto.
      + exists st. split; auto. destruct st as (((? & ?) & ?) & ?). apply I3.
    - rewrite E. cbn [obind]. destruct st as (((? & ?) & ?) & ?). eauto.
  Qed.
End Safe.
