From Verif Require Import Base Order CLoop Model_Ray Model_RayF Model_SolverF Model_PmlF Model_PrepF Spec_PrepF.
From Verif Require Import Proofs_SolverF Proofs_SolverF2 Proofs_SolverF6 Proofs_PmlF3 Proofs_GradF Proofs_GradF4.
From Flocq Require Import Core BinarySingleNaN.
Local Open Scope Z_scope.

Lemma ofor_run' {St} a b (f : Z -> St -> option St) s : (forall n s, a <= n < b -> exists s', f n s = Some s') -> exists r, ofor a b f s = Some r.
Proof. intros H. destruct (ofor_ok (fun _ => True) a b f s) as (r & E & _); eauto. intros n t Hn _. destruct (H n t Hn) as (t' & ->). eauto. Qed.
(** One round of a loop, the others keep what is observed *)
Lemma ofor_only {St} (P : St -> St -> Prop) a b k (f : Z -> St -> option St) s r : a <= k < b -> ofor a b f s = Some r -> (forall x, P x x) -> (forall x y z, P x y -> P y z -> P x z) ->
  (forall j s t, a <= j < b -> j <> k -> f j s = Some t -> P s t) -> exists s1 s2, P s s1 /\ f k s1 = Some s2 /\ P s2 r.
Proof.
  intros Hk E R T H. unfold ofor in E. rewrite <- (@zrange_app a k b), ofold_app in E by lia. ob E. rewrite (@zrange_cons k b) in E by lia. cbn in E. ob E. exists a0, a1. split; [|split; [exact E1|]].
  - apply (ofor_inv (fun t => P s t) a k f s a0); auto. intros n t t' Hn Pt Et. apply (T _ _ _ Pt). apply (H n); auto; lia.
  - apply (ofor_inv (fun t => P a1 t) (k + 1) b f a1 r); auto. intros n t t' Hn Pt Et. apply (T _ _ _ Pt). apply (H n); auto; lia.
Qed.
Lemma sumF_snoc {X} (f : X -> b32) l x : sumF (map f (l ++ [x])) = fadd (sumF (map f l)) (f x).
Proof. unfold sumF. rewrite map_app, fold_left_app. reflexivity. Qed.

Section Bg.
  Variables (dx dy dz nair : Z).
  Notation n := (dx * dy * dz).
  Hypothesis Hx : 0 <= dx.
  Hypothesis Hy : 0 <= dy.
  Hypothesis Hz : 0 <= dz.
  Lemma row_in m k j : 0 <= m < dx -> 0 <= k < dy -> 0 <= j < dz -> 0 <= m * (dz * dy) + k * dz + j < n.
  Proof. intros H1 H2 H3. assert (0 <= m * dy + k <= dx * dy - 1) by nia. assert ((m * dy + k) * dz <= (dx * dy - 1) * dz) by nia. nia. Qed.
  Lemma row_end m k : 0 <= m < dx -> 0 <= k < dy -> 0 <= m * (dz * dy) + k * dz /\ m * (dz * dy) + k * dz + dz <= n.
  Proof. intros H1 H2. assert (0 <= m * dy + k <= dx * dy - 1) by nia. assert ((m * dy + k) * dz <= (dx * dy - 1) * dz) by nia. nia. Qed.
  Theorem bg_safe data : nair <= dz -> n < 2 ^ 31 -> exists r, normalize_bgF dx dy dz nair data = Some r.
  Proof.
    intros Ha Hn. unfold normalize_bgF. apply ofor_run'. intros m d Hm. destruct (Z.eq_dec dy 0) as [E0|N0].
    { rewrite E0, Z.mul_0_r, cint_ok by lia. cbn [obind]. rewrite Z.mul_0_r, cint_ok by lia. cbn [obind]. unfold ofor. rewrite zrange_nil by lia. cbn. eauto. }
    assert (dz * dy <= n /\ m * (dz * dy) <= n /\ 0 <= dz * dy /\ 0 <= m * (dz * dy)).
    { assert (0 <= dz * dy) by nia. assert ((m + 1) * (dz * dy) <= dx * (dz * dy)) by (apply Z.mul_le_mono_nonneg_r; lia). nia. }
    rewrite cint_ok by lia. cbn [obind]. rewrite cint_ok by lia. cbn [obind]. apply ofor_run'. intros k d' Hk. pose proof (row_end m k Hm Hk). rewrite cint_ok by lia. cbn [obind]. unfold bg_rowF, air_sums. rewrite cint_ok by lia. cbn [obind].
    match goal with |- context [ofor 0 nair ?f ?s0] => destruct (ofor_run' 0 nair f s0) as (q & ->) end.
    - intros j (l & r) Hj. rewrite load_ok by lia. cbn [obind]. rewrite load_ok by lia. cbn [obind]. eauto.
    - cbn [obind]. apply ofor_run'. intros j d2 Hj. rewrite load_ok by lia. cbn [obind]. rewrite store_ok by lia. eauto.
  Qed.
  (** More air pixels than columns: the right mean reads in front of the first row *)
  Theorem bg_unsafe data : 1 <= dx -> 1 <= dy -> dz < nair -> normalize_bgF dx dy dz nair data = None.
  Proof.
    intros Hx1 Hy1 Ha. destruct (normalize_bgF dx dy dz nair data) as [r|] eqn:E; [exfalso|reflexivity]. unfold normalize_bgF, ofor in E. rewrite (@zrange_cons 0 dx) in E by lia. cbn [ofold] in E. ob E. ob E0. ob E0.
    apply cint_some in E1, E2. subst. rewrite (@zrange_cons 0 dy) in E0 by lia. cbn [ofold] in E0. ob E0. ob E1. apply cint_some in E2. subst. unfold bg_rowF, air_sums in E1. ob E1. ob E2. apply cint_some in E3. subst.
    unfold ofor in E2. rewrite <- (@zrange_app 0 dz nair), ofold_app in E2 by lia. ob E2. rewrite (@zrange_cons dz nair) in E2 by lia. cbn [ofold] in E2. ob E2. match type of E4 with (let (_, _) := ?q in _) = _ => destruct q as (l0 & r0) end. ob E4. ob E4. apply load_some in E6. lia.
  Qed.
  Lemma air_value i data a : air_sums dx dy dz nair i data = Some a ->
    fst a = sumF (map (fun j => data (i + j)) (zrange 0 nair)) /\ snd a = sumF (map (fun j => data (i + dz - 1 - j)) (zrange 0 nair)).
  Proof.
    intros E. unfold air_sums in E. ob E. apply cint_some in E0. subst a0. destruct (Z_le_gt_dec 0 nair) as [Ha|Ha].
    2: { unfold ofor in E. rewrite zrange_nil in E by lia. apply some_eq in E. subst a. rewrite zrange_nil by lia. split; reflexivity. }
    refine (ofor_ind (fun q t => fst t = sumF (map (fun j => data (i + j)) (zrange 0 q)) /\ snd t = sumF (map (fun j => data (i + dz - 1 - j)) (zrange 0 q))) 0 nair _ _ _ E Ha _ _); [rewrite zrange_nil by lia; split; reflexivity|].
    intros j (l & r) t Hj (I1 & I2) Et. ob Et. ob Et. apply load_some in E0, E1. apply some_eq in Et. subst t. cbn [fst snd] in *. rewrite zrange_snoc, !sumF_snoc by lia. destruct E0 as (_ & ->), E1 as (_ & ->). rewrite I1, I2. split; reflexivity.
  Qed.
  Definition bg_pixel (nair : Z) (data : arr b32) (i j : Z) : b32 :=
    let l := air_level nair (sumF (map (fun j => data (i + j)) (zrange 0 nair))) in
    let r := air_level nair (sumF (map (fun j => data (i + dz - 1 - j)) (zrange 0 nair))) in
    fdiv (data (i + j)) (fadd l (fmul (fdiv (fsub r l) (of_int (dz - 1))) (of_int j))).
  Lemma bg_row_value i data r : bg_rowF dx dy dz nair i data = Some r ->
    (forall j, 0 <= j < dz -> r (i + j) = bg_pixel nair data i j) /\ (forall c, ~ (i <= c < i + dz) -> r c = data c).
  Proof.
    intros E. unfold bg_rowF in E. ob E. destruct (air_value i data a E0) as (V1 & V2). rewrite V1, V2 in E. unfold bg_pixel. cbv zeta. set (l := air_level _ _) in *. set (r0 := air_level _ (sumF _)) in *. set (sl := fdiv _ _) in *.
    pose proof (ofor_ind (fun q t => (forall j, 0 <= j < q -> t (i + j) = fdiv (data (i + j)) (fadd l (fmul sl (of_int j)))) /\ (forall c, ~ (i <= c < i + q) -> t c = data c)) 0 dz _ _ _ E Hz) as G. apply G.
    - split; [intros; lia|auto].
    - clear G. intros j t t' Hj (I1 & I2) Et. ob Et. apply load_some in E1. apply store_some in Et. destruct E1 as (_ & ->), Et as (_ & ->). split.
      + intros j' Hj'. unfold aset. destruct (Z.eqb_spec (i + j') (i + j)) as [Q|N]; [|apply I1; lia]. replace j' with j by lia. rewrite I2 by lia. reflexivity.
      + intros c Hc. unfold aset. destruct (Z.eqb_spec c (i + j)); [lia|]. apply I2. lia.
  Qed.
  Lemma row_apart m k m' k' c : 0 <= k < dy -> 0 <= k' < dy -> (m', k') <> (m, k) -> 0 <= c < dz -> ~ (m' * (dz * dy) + k' * dz <= m * (dz * dy) + k * dz + c < m' * (dz * dy) + k' * dz + dz).
  Proof.
    intros Hk Hk' N Hc B. set (c' := m * (dz * dy) + k * dz + c - (m' * (dz * dy) + k' * dz)). assert (B' : 0 <= c' < dz) by (unfold c'; lia).
    pose proof (data_inj dy dz m k c m' k' c' Hk Hc Hk' B') as Q. destruct Q as (-> & -> & _); [unfold c'; lia|]. now apply N.
  Qed.
  Theorem bg_value data r m k j : normalize_bgF dx dy dz nair data = Some r -> 0 <= m < dx -> 0 <= k < dy -> 0 <= j < dz ->
    r (m * dy * dz + k * dz + j) = bg_pixel nair data (m * dy * dz + k * dz) j.
  Proof.
    intros E Hm Hk Hj. replace (m * dy * dz) with (m * (dz * dy)) by lia. set (i := m * (dz * dy) + k * dz). set (P := fun s t : arr b32 => forall c, 0 <= c < dz -> t (i + c) = s (i + c)).
    assert (PR : forall x, P x x) by (intros x c Hc; reflexivity). assert (PT : forall x y z, P x y -> P y z -> P x z) by (intros x y z A B c Hc; rewrite B, A by auto; reflexivity).
    assert (A : nair <= dz). { destruct (Z_le_gt_dec nair dz); [auto|]. exfalso. rewrite bg_unsafe in E; [discriminate|lia..]. }
    unfold normalize_bgF in E. destruct (ofor_only P 0 dx m _ _ _ Hm E PR PT) as (s1 & s2 & P1 & E1 & P2).
    { intros m' s t Hm' N Et. ob Et. ob Et. apply cint_some in E0, E1. subst. apply (ofor_inv (fun u => P s u) 0 dy _ s t Et); [apply PR|]. intros k' u u' Hk' Pu Eu. ob Eu. apply cint_some in E0. subst.
      apply (PT _ _ _ Pu). intros c Hc. destruct (bg_row_value _ _ _ Eu) as (_ & K). apply K. unfold i. apply row_apart; auto. congruence. }
    ob E1. ob E1. apply cint_some in E0, E2. subst. destruct (ofor_only P 0 dy k _ _ _ Hk E1 PR PT) as (s3 & s4 & P3 & E3 & P4).
    { intros k' s t Hk' N Et. ob Et. apply cint_some in E0. subst. intros c Hc. destruct (bg_row_value _ _ _ Et) as (_ & K). apply K. unfold i. apply row_apart; auto. congruence. }
    ob E3. apply cint_some in E0. subst. fold i in E3. destruct (bg_row_value _ _ _ E3) as (K & _). rewrite (P2 j Hj), (P4 j Hj), (K j Hj). clear K. pose proof (PT _ _ _ P1 P3) as P5.
    assert (M : forall (g : Z -> Z), (forall q, 0 <= q < nair -> 0 <= g q < dz) -> map (fun q => s3 (i + g q)) (zrange 0 nair) = map (fun q => data (i + g q)) (zrange 0 nair)).
    { intros g Hg. apply map_ext_in. intros q Hq. apply in_zrange in Hq. apply P5. auto. }
    unfold bg_pixel. rewrite (P5 j Hj), (M (fun q => q)) by (intros; lia). pose proof (M (fun q => dz - 1 - q) ltac:(intros; lia)) as M2.
    rewrite (map_ext (fun q => s3 (i + dz - 1 - q)) (fun q => s3 (i + (dz - 1 - q)))) by (intros; f_equal; lia). rewrite (map_ext (fun q => data (i + dz - 1 - q)) (fun q => data (i + (dz - 1 - q)))) by (intros; f_equal; lia). rewrite M2. reflexivity.
  Qed.
End Bg.

Section Sf.
  Variables (dx dy dz size : Z).
  Notation n := (dx * dy * dz).
  Hypothesis Hz : 0 <= dz.
  Lemma sf_in s p j : 0 <= s < dy -> 0 <= p < dx -> 0 <= j < dz -> 0 <= j + s * dz + p * dy * dz < n.
  Proof. intros H1 H2 H3. assert (0 <= p * dy + s <= dx * dy - 1) by nia. assert ((p * dy + s) * dz <= (dx * dy - 1) * dz) by nia. nia. Qed.
  Lemma clamp_edge k : 1 <= dz -> sf_clamp dz k = edge dz k.
  Proof. intros H. unfold sf_clamp, edge. cbv zeta. destruct (Z.ltb_spec k 0); destruct (Z.ltb_spec (dz - 1) 0); destruct (Z.ltb_spec (dz - 1) k); lia. Qed.
  Theorem sf_safe istart iend data : 0 <= istart -> iend <= dy -> size + dz < 2 ^ 31 -> n < 2 ^ 31 -> exists r, remove_stripe_sfF dx dy dz size istart iend data = Some r.
  Proof.
    intros Hs He Hw Hn. unfold remove_stripe_sfF. apply ofor_run'. intros s d Hss. unfold sf_sliceF.
    assert (A : exists a, sf_averageF dx dy dz s d = Some a).
    { unfold sf_averageF. apply ofor_run'. intros j a Hj. apply ofor_run'. intros p a' Hp. pose proof (sf_in s p j ltac:(lia) Hp Hj). unfold sf_ind. rewrite cint_ok by lia. cbn [obind]. rewrite load_ok by lia. cbn [obind]. rewrite load_ok by lia. cbn [obind]. rewrite store_ok by lia. eauto. }
    destruct A as (a & ->). cbn [obind]. assert (B : exists b, sf_smoothF dz size a = Some b).
    { unfold sf_smoothF. apply ofor_run'. intros i b Hi. rewrite store_ok by lia. cbn [obind]. match goal with |- context [ofor 0 size ?f ?s0] => destruct (ofor_run' 0 size f s0) as (q & ->) end.
      - intros j b' Hj. rewrite cint_ok by lia. cbn [obind]. unfold cdiv. change (2 =? 0) with false. cbv iota. pose proof (Z.quot_div_nonneg size 2 ltac:(lia) ltac:(lia)). rewrite cint_ok by lia. cbn [obind].
        rewrite clamp_edge by lia. rewrite load_ok by (unfold edge; lia). cbn [obind]. rewrite load_ok by lia. cbn [obind]. rewrite store_ok by lia. eauto.
      - cbn [obind]. rewrite load_ok by lia. cbn [obind]. rewrite store_ok by lia. eauto. }
    destruct B as (b & ->). cbn [obind]. unfold sf_subtractF. apply ofor_run'. intros p d1 Hp. apply ofor_run'. intros j d2 Hj. pose proof (sf_in s p j ltac:(lia) Hp Hj). unfold sf_ind. rewrite cint_ok by lia. cbn [obind].
    do 3 (rewrite load_ok by lia; cbn [obind]). rewrite store_ok by lia. eauto.
  Qed.
  Definition sf_avg (data : arr b32) (s j : Z) : b32 := sumF (map (fun p => fdiv (data (j + s * dz + p * dy * dz)) (of_int dx)) (zrange 0 dx)).
  Definition sf_smooth (avg : Z -> b32) (i : Z) : b32 := fdiv (sumF (map (fun j => avg (edge dz (i + j - size / 2))) (zrange 0 size))) (of_int size).
  Lemma average_value s data a j : 0 <= dx -> sf_averageF dx dy dz s data = Some a -> 0 <= j < dz -> a j = sf_avg data s j.
  Proof.
    intros Hx E Hj. unfold sf_averageF in E. destruct (ofor_only (fun s t : arr b32 => t j = s j) 0 dz j _ _ _ Hj E) as (s1 & s2 & P1 & E1 & P2); [auto|congruence| |].
    - intros j' t t' Hj' N Et. apply (ofor_inv (fun u => u j = t j) 0 dx _ t t' Et); auto. intros p u u' Hp Pu Eu. ob Eu. ob Eu. ob Eu. apply store_some in Eu. destruct Eu as (_ & ->). unfold aset. destruct (Z.eqb_spec j j'); [congruence|auto].
    - rewrite P2. unfold sf_avg. cbv beta in P1. refine (ofor_ind (fun q t => t j = sumF (map (fun p => fdiv (data (j + s * dz + p * dy * dz)) (of_int dx)) (zrange 0 q))) 0 dx _ _ _ E1 Hx _ _).
      + rewrite zrange_nil by lia. rewrite P1. reflexivity.
      + intros p t t' Hp I Et. ob Et. ob Et. ob Et. unfold sf_ind in E0. apply cint_some in E0. apply load_some in E2, E3. apply store_some in Et. destruct E2 as (_ & ->), E3 as (_ & ->), Et as (_ & ->). subst a0. unfold aset. rewrite Z.eqb_refl. rewrite zrange_snoc, sumF_snoc by lia. rewrite I. reflexivity.
  Qed.
  Lemma smooth_value avg a i : sf_smoothF dz size avg = Some a -> 0 <= i < dz -> a i = sf_smooth avg i.
  Proof.
    intros E Hi. unfold sf_smoothF in E. destruct (ofor_only (fun s t : arr b32 => t i = s i) 0 dz i _ _ _ Hi E) as (s1 & s2 & _ & E1 & P2); [auto|congruence| |].
    - intros i' t t' Hi' N Et. ob Et. ob Et. ob Et. apply store_some in E0, Et. destruct E0 as (_ & ->), Et as (_ & ->). unfold aset at 1. destruct (Z.eqb_spec i i'); [congruence|]. rewrite (ofor_inv (fun u => u i = t i) 0 size _ _ _ E1); auto.
      + unfold aset. destruct (Z.eqb_spec i i'); [congruence|auto].
      + intros p u u' Hp Pu Eu. ob Eu. ob Eu. ob Eu. ob Eu. apply store_some in Eu. destruct Eu as (_ & ->). unfold aset. destruct (Z.eqb_spec i i'); [congruence|auto].
    - rewrite P2. ob E1. ob E1. ob E1. apply store_some in E0, E1. apply load_some in E3. destruct E0 as (_ & ->), E1 as (_ & ->), E3 as (_ & ->). unfold aset at 1. rewrite Z.eqb_refl. unfold sf_smooth. f_equal.
      destruct (Z_le_gt_dec 0 size) as [L|L].
      + refine (ofor_ind (fun q t => t i = sumF (map (fun j => avg (edge dz (i + j - size / 2))) (zrange 0 q))) 0 size _ _ _ E2 L _ _).
        * rewrite zrange_nil by lia. unfold aset. rewrite Z.eqb_refl. reflexivity.
        * intros j t t' Hj I Et. ob Et. ob Et. ob Et. ob Et. apply cint_some in E0. unfold cdiv in E1. change (2 =? 0) with false in E1. cbv iota in E1. apply cint_some in E1. rewrite Z.quot_div_nonneg in E1 by lia. apply load_some in E3, E4. apply store_some in Et.
          destruct E3 as (_ & ->), E4 as (_ & ->), Et as (_ & ->). subst. unfold aset. rewrite Z.eqb_refl. rewrite zrange_snoc, sumF_snoc by lia. rewrite I, clamp_edge by lia. reflexivity.
      + unfold ofor in E2. rewrite zrange_nil in E2 by lia. apply some_eq in E2. subst a1. rewrite zrange_nil by lia. unfold aset. rewrite Z.eqb_refl. reflexivity.
  Qed.
  Lemma subtract_value avg smooth s data r : 0 <= s < dy -> sf_subtractF dx dy dz avg smooth s data = Some r ->
    (forall p j, 0 <= p < dx -> 0 <= j < dz -> let c := j + s * dz + p * dy * dz in r c = fsub (data c) (fsub (avg j) (smooth j))) /\
    (forall s' p j, 0 <= s' < dy -> s' <> s -> 0 <= j < dz -> let c := j + s' * dz + p * dy * dz in r c = data c).
  Proof.
    intros Hs E. split.
    - intros p j Hp Hj c. set (P := fun u v : arr b32 => v c = u c). assert (PR : forall x, P x x) by (intros x; reflexivity). assert (PT : forall x y z, P x y -> P y z -> P x z) by (unfold P; congruence).
      assert (O : forall p' j' u u', 0 <= j' < dz -> (p', j') <> (p, j) -> (let? k := sf_ind dy dz s p' j' in let? x := load n u k in let? a := load dz avg j' in let? m := load dz smooth j' in store n u k (fsub x (fsub a m))) = Some u' -> P u u').
      { intros p' j' u u' Hj' N Eu. ob Eu. ob Eu. ob Eu. ob Eu. apply cint_some in E0. apply store_some in Eu. destruct Eu as (_ & ->). subst. unfold P, aset. destruct (Z.eqb_spec c (j' + s * dz + p' * dy * dz)) as [Q|]; auto. unfold c in Q. apply data_inj in Q; auto. destruct Q as (-> & _ & ->). now destruct N. }
      unfold sf_subtractF in E. destruct (ofor_only P 0 dx p _ _ _ Hp E PR PT) as (s1 & s2 & P1 & E1 & P2).
      { intros p' u u' Hp' N Eu. apply (ofor_inv (fun v => P u v) 0 dz _ u u' Eu); [apply PR|]. intros j' v v' Hj' Pv Ev. apply (PT _ _ _ Pv). apply (O p' j'); auto. congruence. }
      destruct (ofor_only P 0 dz j _ _ _ Hj E1 PR PT) as (s3 & s4 & P3 & E3 & P4). { intros j' u u' Hj' N Eu. apply (O p j'); auto. congruence. }
      ob E3. ob E3. ob E3. ob E3. apply cint_some in E0. apply load_some in E2, E4, E5. apply store_some in E3. destruct E2 as (_ & ->), E4 as (_ & ->), E5 as (_ & ->), E3 as (_ & ->). subst a. fold c in P4 |- *. rewrite P2, P4. unfold aset. rewrite Z.eqb_refl. rewrite P3, P1. reflexivity.
    - intros s' p j Hs' N Hj c. unfold sf_subtractF in E. apply (ofor_inv (fun v => v c = data c) 0 dx _ _ _ E); auto. intros p' u u' Hp' Pu Eu. rewrite <- Pu. apply (ofor_inv (fun v => v c = u c) 0 dz _ _ _ Eu); auto.
      intros j' v v' Hj' Pv Ev. ob Ev. ob Ev. ob Ev. ob Ev. apply cint_some in E0. apply store_some in Ev. destruct Ev as (_ & ->). subst. unfold aset. destruct (Z.eqb_spec c (j' + s * dz + p' * dy * dz)) as [Q|]; auto. unfold c in Q. apply data_inj in Q; auto. destruct Q as (_ & Q & _). congruence.
  Qed.
  Lemma slice_value s data r : 0 <= dx -> 0 <= s < dy -> sf_sliceF dx dy dz size s data = Some r ->
    (forall p j, 0 <= p < dx -> 0 <= j < dz -> let c := j + s * dz + p * dy * dz in r c = fsub (data c) (fsub (sf_avg data s j) (sf_smooth (sf_avg data s) j))) /\
    (forall s' p j, 0 <= s' < dy -> s' <> s -> 0 <= j < dz -> let c := j + s' * dz + p * dy * dz in r c = data c).
  Proof.
    intros Hx Hs E. unfold sf_sliceF in E. ob E. ob E. destruct (subtract_value _ _ _ _ _ Hs E) as (A & B). split; [|exact B]. intros p j Hp Hj c. unfold c. rewrite (A p j Hp Hj). rewrite (average_value s data a j Hx E0 Hj), (smooth_value a a0 j E1 Hj). unfold sf_smooth. f_equal. f_equal. f_equal. f_equal.
    apply map_ext. intros q. apply (average_value s data a _ Hx E0). unfold edge. lia.
  Qed.
  Theorem sf_value istart iend data r s p j : 0 <= istart -> iend <= dy -> remove_stripe_sfF dx dy dz size istart iend data = Some r -> 0 <= s < dy -> 0 <= p < dx -> 0 <= j < dz ->
    let c := j + s * dz + p * dy * dz in
    r c = if (istart <=? s) && (s <? iend) then fsub (data c) (fsub (sf_avg data s j) (sf_smooth (sf_avg data s) j)) else data c.
  Proof.
    intros Hi He E Hs Hp Hj c. set (P := fun u v : arr b32 => forall p j, 0 <= j < dz -> v (j + s * dz + p * dy * dz) = u (j + s * dz + p * dy * dz)). assert (PR : forall x, P x x) by (intros x ? ? ?; reflexivity). assert (PT : forall x y z, P x y -> P y z -> P x z) by (intros x y z A B ? ? ?; rewrite B, A by auto; reflexivity).
    unfold remove_stripe_sfF in E. destruct ((istart <=? s) && (s <? iend)) eqn:B.
    - destruct (ofor_only P istart iend s _ _ _ ltac:(lia) E PR PT) as (s1 & s2 & P1 & E1 & P2).
      + intros s' u u' Hs' N Eu p' j' Hj'. destruct (slice_value s' u u' ltac:(lia) ltac:(lia) Eu) as (_ & K). apply (K s p' j'); auto.
      + destruct (slice_value s s1 s2 ltac:(lia) Hs E1) as (K & _). unfold c. rewrite (P2 p j Hj), (K p j Hp Hj), (P1 p j Hj).
        assert (V : forall i, 0 <= i < dz -> sf_avg s1 s i = sf_avg data s i) by (intros i Hi'; unfold sf_avg; f_equal; apply map_ext; intros q; rewrite (P1 q i Hi'); reflexivity). rewrite (V j Hj). unfold sf_smooth. do 4 f_equal. apply map_ext. intros q. apply V. unfold edge. lia.
    - apply (ofor_inv (fun v => P data v) istart iend _ _ _ E); [apply PR| |auto]. intros s' u u' Hs' Pu Eu. apply (PT _ _ _ Pu). intros p' j' Hj'. destruct (slice_value s' u u' ltac:(lia) ltac:(lia) Eu) as (_ & K). apply (K s p' j'); auto. lia.
  Qed.
End Sf.
