From Verif Require Import Base Order CLoop Model_Ray Proofs_Ray Model_RayF Model_SolverF Spec_SolverF Proofs_FloatB Proofs_RayF Proofs_RayF2 Proofs_RayF3 Proofs_RayF4 Proofs_SolverF Proofs_SolverF2 Proofs_SolverF3 Proofs_SolverF6 Model_PmlF Proofs_PmlF5 Proofs_GradF4 Model_VectorF.
From Coq Require Import Reals Lra Psatz.
From Flocq Require Import Core BinarySingleNaN.
Local Open Scope R_scope.

(** ** calc_dist2 finds the pixels of calc_dist *)
Lemma to_int_some x k : to_int x = Some k -> fin x = true /\ k = Ztrunc (V x) /\ (- 2 ^ 31 <= k < 2 ^ 31)%Z.
Proof.
  unfold to_int. rewrite Btrunc32. destruct (fin x && (- 2 ^ 31 <=? Ztrunc (V x)) && (Ztrunc (V x) <? 2 ^ 31))%Z eqn:E; [|discriminate].
  apply andb_true_iff in E. destruct E as (E & E2). apply andb_true_iff in E. destruct E as (E & E1). intros H. apply some_eq in H. subst k. repeat split; auto; lia.
Qed.
Lemma of_int_big z : (- 2 ^ 31 <= z <= 2 ^ 31)%Z -> fin (of_int z) = true /\ V (of_int z) = rd (IZR z).
Proof.
  intros H. pose proof (binary_normalize_correct 24 128 p32 e32 mode_NE z 0 false) as C. cbv zeta in C.
  replace (F2R (Float radix2 z 0)) with (IZR z) in C by (unfold F2R; cbn; lra).
  change (round radix2 (SpecFloat.fexp 24 128) (round_mode mode_NE) (IZR z)) with (rd (IZR z)) in C.
  assert (B : Rabs (IZR z) <= bpow radix2 31). { change (bpow radix2 31) with (IZR (2 ^ 31)). rewrite <- abs_IZR. apply IZR_le. lia. }
  rewrite (small_bool (IZR z) (bpow radix2 31)) in C; [split; apply C| |exact B|apply bpow_lt; lia].
  replace (bpow radix2 31) with (IZR 1 * bpow radix2 31) by lra. apply rep_dyadic; lia.
Qed.
Lemma trunc_abs x i : Ztrunc x = i -> Rabs x < IZR (Z.abs i) + 1.
Proof. intros <-. unfold Ztrunc. destruct (Rlt_bool_spec x 0).
  - rewrite Rabs_left by auto. pose proof (Zceil_ub x). pose proof (Zceil_lb x). assert (Zceil x <= 0)%Z by (apply Zceil_glb; lra). rewrite Z.abs_neq, opp_IZR by auto. lra.
  - rewrite Rabs_right by lra. pose proof (Zfloor_lb x). pose proof (Zfloor_ub x). assert (0 <= Zfloor x)%Z by (apply Zfloor_lub; lra). rewrite Z.abs_eq by auto. lra.
Qed.
Lemma pixel2_same r u v i : pixelF r u v = Some i -> (0 <= i <= 2 ^ 15)%Z -> pixel2F r u v = Some i.
Proof.
  intros E Hi. unfold pixelF in E. unfold pixel2F. set (x := fadd (fmul half (fadd v u)) (fmul half (of_int r))) in *. clearbody x. destruct (to_int x) as [k|] eqn:Ek; [|discriminate]. cbn [obind]. f_equal.
  apply to_int_some in Ek. destruct Ek as (_ & _ & Hk). set (b := if flt x (of_int k) then 1%Z else 0%Z) in *. assert (Hb : (0 <= b <= 1)%Z) by (unfold b; destruct (flt _ _); lia). clearbody b.
  apply to_int_some in E. destruct E as (Fd & Ei & _). symmetry in Ei. pose proof (trunc_abs _ _ Ei) as Bd. assert (Bi : IZR (Z.abs i) + 1 <= 32769) by (assert (IZR (Z.abs i) <= 32768) by (apply IZR_le; lia); lra).
  destruct (of_int_ok b ltac:(lia)) as (Fb & Vb). assert (Rb : 0 <= IZR b <= 1) by (split; apply IZR_le; lia). destruct (of_int_big k ltac:(lia)) as (Fk & Vk).
  assert (Bk : Rabs (V (of_int k)) <= IZR (2 ^ 31)). { rewrite Vk. apply rd_abs_le. - change (IZR (2 ^ 31)) with (bpow radix2 31). replace (bpow radix2 31) with (IZR 1 * bpow radix2 31) by lra. apply rep_dyadic; lia. - rewrite <- abs_IZR. apply IZR_le. lia. }
  assert (R32 : rep (IZR (2 ^ 32))). { change (IZR (2 ^ 32)) with (bpow radix2 32). replace (bpow radix2 32) with (IZR 1 * bpow radix2 32) by lra. apply rep_dyadic; lia. }
  assert (Bs : Rabs (V (of_int k) - V (of_int b)) <= IZR (2 ^ 32)). { rewrite Vb. apply abs_inv in Bk. change (IZR (2 ^ 31)) with 2147483648 in Bk. change (IZR (2 ^ 32)) with 4294967296. apply Rabs_le. lra. }
  destruct (fsub_ok _ _ _ Fk Fb R32 Bs (huge_big (2 ^ 32) ltac:(lia))) as (_ & Es). rewrite Es, Vb in *. clear Bs.
  assert (C : (Z.abs k < 2 ^ 24 \/ 2 ^ 24 <= k \/ k <= - 2 ^ 24)%Z) by lia. destruct C as [C|[C|C]].
  - rewrite Vk, (rd_rep (IZR k)) in Ei by (apply rep_IZR; lia). rewrite <- minus_IZR, (rd_rep (IZR (k - b))) in Ei by (apply rep_IZR; lia). rewrite Ztrunc_IZR in Ei. lia.
  - exfalso. assert (16777216 <= V (of_int k)). { rewrite Vk. apply rd_ge_rep; [apply (rep_IZR (2 ^ 24)); lia|]. apply (IZR_le (2 ^ 24)). lia. }
    assert (16777215 <= rd (V (of_int k) - IZR b)) by (apply rd_ge_rep; [apply (rep_IZR (2 ^ 24 - 1)); lia|lra]). rewrite Rabs_right in Bd by lra. lra.
  - exfalso. assert (V (of_int k) <= - 16777216). { rewrite Vk. apply rd_le_rep; [apply (rep_IZR (- 2 ^ 24)); lia|]. apply (IZR_le _ (- 2 ^ 24)). lia. }
    assert (rd (V (of_int k) - IZR b) <= - 16777215) by (apply rd_le_rep; [apply (rep_IZR (- (2 ^ 24 - 1))); lia|lra]). rewrite Rabs_left in Bd by lra. lra.
Qed.

(** ** Rays *)
Definition flat (g : geomF) (e : Z * Z * b32) : Z * b32 := let '(x, y, w) := e in ((y + x * gyF g)%Z, w).
Definition seg2_ok (g : geomF) (segs : list (Z * Z * b32)) : Prop := forall x y w, In (x, y, w) segs -> (0 <= x < gxF g)%Z /\ (0 <= y < gyF g)%Z.
Lemma omap_flat {A B C} (f : A -> option B) (h : A -> option C) (F : B -> C) l r : omap f l = Some r -> (forall x y, In x l -> f x = Some y -> h x = Some (F y)) -> omap h l = Some (map F r).
Proof.
  revert r. induction l as [|x l IH]; cbn; intros r E H; [apply some_eq in E; subst; reflexivity|]. ob E. ob E. apply some_eq in E. subst. rewrite (H x a) by auto. cbn [obind]. rewrite (IH a0); auto.
Qed.
Lemma traced2_same g buf q cx cy za zb zc : (1 <= gxF g <= 2 ^ 15)%Z -> (1 <= gyF g <= 2 ^ 15)%Z -> let t := traceF (gxF g) (gyF g) q cx cy za zb zc in
  traced_of g buf t = None /\ traced2_of g buf t = None \/
  exists segs, traced2_of g buf t = Some segs /\ traced_of g buf t = Some (map (flat g) segs) /\ seg2_ok g segs.
Proof.
  intros Hx Hy t. unfold traced_of, traced2_of. destruct ((fasize t <=? buf) && (fbsize t <=? buf) && (fcsize t <=? buf))%Z; [right|now left].
  destruct (omap_ok (seg2F (gxF g) (gyF g) (fcoor t)) (fun n (e : Z * Z * b32) => let '(x, y, w) := e in (0 <= x < gxF g)%Z /\ (0 <= y < gyF g)%Z /\ w = seg_distF (fcoor t) n /\
     seg_indiF (gxF g) (gyF g) (fcoor t) n = Some (y + x * gyF g)%Z) (zrange 0 (fcsize t - 1))) as (r & Er & Fr).
  { intros n Hn. apply in_zrange in Hn. destruct (pixels_inside (gxF g) (gyF g) q cx cy za zb zc ltac:(lia) ltac:(lia) n) as (i & j & Ei & Hi & Ej & Hj); [fold t; lia|].
    fold t in Ei, Ej. exists (i, j, seg_distF (fcoor t) n). unfold seg2F. rewrite (pixel2_same _ _ _ i Ei), (pixel2_same _ _ _ j Ej) by lia. cbn [obind]. split; [reflexivity|]. unfold seg_indiF. rewrite Ei, Ej. repeat split; auto; lia. }
  exists r. split; [exact Er|]. split.
  - apply (omap_flat _ _ (flat g) _ r Er). intros n ((x & y) & w) Hn E. apply in_zrange in Hn. destruct (pixels_inside (gxF g) (gyF g) q cx cy za zb zc ltac:(lia) ltac:(lia) n) as (i & j & Ei & Hi & Ej & Hj); [fold t; lia|].
    fold t in Ei, Ej. unfold seg2F in E. rewrite (pixel2_same _ _ _ i Ei), (pixel2_same _ _ _ j Ej) in E by lia. cbn [obind] in E. apply some_eq in E. apply pair_eq in E. destruct E as (E & ->). apply pair_eq in E. destruct E as (-> & ->).
    unfold seg_indiF. rewrite Ei, Ej. cbn [obind]. rewrite cint_ok by nia. reflexivity.
  - intros x y w H. destruct (Forall2_in_r _ _ _ _ Fr H) as (n & _ & G). cbv beta iota in G. tauto.
Qed.
