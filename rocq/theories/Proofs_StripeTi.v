(** Lemmas on the vectors and the conjugate gradient loop of remove_stripe_ti. *)
From Verif Require Import Base Model_Prep Model_Solver Model_Ospml Proofs_Prep Proofs_Morph Proofs_Solver Model_StripeTi.
From Coq Require Import Reals Lra.
Local Open Scope R_scope.

(** [v] holds the finite values [v'] at 0 .. n-1. *)
Definition fin (n : Z) (v : nvec) (v' : Z -> R) : Prop := forall k, (0 <= k < n)%Z -> v k = Some (v' k).
Lemma nsum_fin n f f' : fin n f f' -> nsum n f = Some (zsum n f').
Proof.
  unfold fin, nsum, zsum, rsum. intros H. assert (G : forall l, (forall k, In k l -> f k = Some (f' k)) -> fold_right nadd (Some 0) (map f l) = Some (fold_right Rplus 0 (map f' l))).
  { induction l as [|x l IH]; cbn; intros E; auto. rewrite E, IH by auto. reflexivity. }
  apply G. intros k Hk. apply H. now apply in_zrange.
Qed.
Lemma nsum_ext n f g : (forall k, (0 <= k < n)%Z -> f k = g k) -> nsum n f = nsum n g.
Proof. intros H. unfold nsum. f_equal. apply map_ext_in. intros k Hk. apply H. now apply in_zrange. Qed.
Lemma nsum_none n f k : (0 <= k < n)%Z -> f k = None -> nsum n f = None.
Proof.
  intros Hk E. unfold nsum. assert (I : In k (zrange 0 n)) by now apply in_zrange. revert I. induction (zrange 0 n) as [|x l IH]; cbn; [easy|].
  intros [->|I]; [now rewrite E|]. rewrite IH by auto. now destruct (f x).
Qed.
Lemma nsum_fin_inv n f s : nsum n f = Some s -> forall k, (0 <= k < n)%Z -> exists v, f k = Some v.
Proof. intros H k Hk. destruct (f k) as [v|] eqn:E; eauto. rewrite (nsum_none n f k Hk E) in H. discriminate. Qed.
Lemma fin_choose n f : (forall k, (0 <= k < n)%Z -> exists v, f k = Some v) -> exists f', fin n f f'.
Proof.
  intros H. exists (fun k => match f k with Some v => v | None => 0 end). intros k Hk. destruct (H k Hk) as (v & E). now rewrite E.
Qed.
Lemma zsum_sub n f g : zsum n f - zsum n g = zsum n (fun i => f i - g i).
Proof. unfold Rminus. rewrite <- (Rmult_1_l (zsum n g)), Ropp_mult_distr_l, <- zsum_scal, <- zsum_plus. apply zsum_ext. intros. lra. Qed.

Section Cgm.
  Variable h : list R.
  Variable n : Z.
  Let lh := Z.of_nat (length h).
  Definition hr (i : Z) : R := nth (Z.to_nat i) h 0.
  Lemma h_at_fin i : (0 <= i < lh)%Z -> h_at h i = Some (hr i).
  Proof. intros H. unfold h_at, hr. apply nth_error_nth'. unfold lh in H. lia. Qed.
  (** The difference operator H and H' H on reals. *)
  Definition conv_r (la : Z) (a : Z -> R) (b : Z -> R) (k : Z) : R :=
    zsum la (fun i => if (0 <=? k - i)%Z && (k - i <? lh)%Z then a i * b (k - i)%Z else 0).
  Definition diff (x : Z -> R) (i : Z) : R := conv_r n x (fun j => hr (lh - 1 - j)%Z) (i + (lh - 1))%Z.
  Definition normal (x : Z -> R) : Z -> R := conv_r (n - (lh - 1)) (diff x) hr.
  Lemma convolve_fin la a a' b b' : fin la a a' -> fin lh b b' -> forall k, convolve la a lh b k = Some (conv_r la a' b' k).
  Proof.
    intros Ha Hb k. unfold convolve, conv_r. apply nsum_fin. intros i Hi.
    destruct ((0 <=? k - i)%Z && (k - i <? lh)%Z) eqn:E; auto. rewrite Ha, Hb by lia. reflexivity.
  Qed.
  Lemma matxvec_fin x x' : fin n x x' -> forall k, matxvec h n x k = Some (normal x' k).
  Proof.
    intros Hx k. unfold matxvec, normal. cbv zeta. fold lh. apply convolve_fin.
    - intros i Hi. unfold diff. apply convolve_fin; auto. intros j Hj. apply h_at_fin. lia.
    - intros j Hj. now apply h_at_fin.
  Qed.
  Lemma conv_r_lin la a b c (s t : R) k : conv_r la (fun i => s * a i + t * b i) c k = s * conv_r la a c k + t * conv_r la b c k.
  Proof.
    unfold conv_r. rewrite <- !zsum_scal, <- zsum_plus. apply zsum_ext. intros i Hi.
    destruct ((0 <=? k - i)%Z && (k - i <? lh)%Z); lra.
  Qed.
  Lemma conv_r_ext la a b c k : (forall i, (0 <= i < la)%Z -> a i = b i) -> conv_r la a c k = conv_r la b c k.
  Proof. intros H. unfold conv_r. apply zsum_ext. intros i Hi. now rewrite H. Qed.
  Lemma diff_lin a b s t i : diff (fun j => s * a j + t * b j) i = s * diff a i + t * diff b i.
  Proof. apply conv_r_lin. Qed.
  Lemma normal_lin a b s t k : normal (fun i => s * a i + t * b i) k = s * normal a k + t * normal b k.
  Proof.
    unfold normal. rewrite <- conv_r_lin. apply conv_r_ext. intros i _. apply diff_lin.
  Qed.
  Lemma normal_ext a b k : (forall i, (0 <= i < n)%Z -> a i = b i) -> normal a k = normal b k.
  Proof. intros H. apply conv_r_ext. intros i _. now apply conv_r_ext. Qed.

  Variables (alpha : number) (f : nvec).
  Lemma op_fin_inv x z' : fin n (op h n alpha x) z' -> (0 < n)%Z -> exists al x', alpha = Some al /\ fin n x x' /\ (forall k, (0 <= k < n)%Z -> z' k = normal x' k + al * x' k).
  Proof.
    intros H Hn. destruct alpha as [al|] eqn:Ea.
    2:{ specialize (H 0%Z ltac:(lia)). unfold op, vadd, vscale in H. cbn in H. destruct (matxvec h n x 0%Z); discriminate. }
    exists al. destruct (fin_choose n x) as (x' & Hx).
    { intros k Hk. specialize (H k Hk). unfold op, vadd, vscale in H. destruct (x k); eauto. cbn in H. destruct (matxvec h n x k); discriminate. }
    exists x'. split; auto. split; auto. intros k Hk. specialize (H k Hk). unfold op, vadd, vscale in H. rewrite (matxvec_fin x x' Hx), (Hx k Hk) in H. cbn in H. congruence.
  Qed.

  (** Invariant of the loop: subtracting a z from r gives the residual of x. *)
  Definition residual (al : R) (f' x' : Z -> R) (k : Z) : R := f' k - (normal x' k + al * x' k).
  Definition tracked (f' : Z -> R) (s : cg) : Prop :=
    forall r', fin n (vsub (cr s) (vscale (ca s) (cz s))) r' ->
      exists al x', alpha = Some al /\ fin n (cx s) x' /\ forall k, (0 <= k < n)%Z -> r' k = residual al f' x' k.
  Lemma sub_scale_inv r a z r' : (0 < n)%Z -> fin n (vsub r (vscale a z)) r' ->
    exists r0 a' z', fin n r r0 /\ a = Some a' /\ fin n z z' /\ forall k, (0 <= k < n)%Z -> r' k = r0 k - a' * z' k.
  Proof.
    intros Hn H. destruct a as [a'|].
    2:{ specialize (H 0%Z ltac:(lia)). unfold vsub, vscale in H. cbn in H. destruct (r 0%Z); discriminate. }
    destruct (fin_choose n r) as (r0 & Hr). { intros k Hk. specialize (H k Hk). unfold vsub in H. destruct (r k); [eauto|discriminate]. }
    destruct (fin_choose n z) as (z' & Hz).
    { intros k Hk. specialize (H k Hk). unfold vsub, vscale in H. destruct (z k); [eauto|]. destruct (r k); discriminate. }
    exists r0, a', z'. repeat split; auto. intros k Hk. specialize (H k Hk). unfold vsub, vscale in H. rewrite (Hr k Hk), (Hz k Hk) in H. cbn in H. congruence.
  Qed.
  Lemma tracked_next f' x w a r r0 z : (0 < n)%Z ->
    z = op h n alpha w -> fin n r r0 ->
    (exists al x', alpha = Some al /\ fin n x x' /\ forall k, (0 <= k < n)%Z -> r0 k = residual al f' x' k) ->
    tracked f' (mkCg r w z a (vadd x (vscale a w))).
  Proof.
    intros Hn -> Hr (al & x' & Ea & Hx & E) r' H. cbn [cr ca cz cx] in *.
    destruct (sub_scale_inv _ _ _ _ Hn H) as (r1 & a' & z' & Hr1 & -> & Hz & Er).
    destruct (op_fin_inv w z' Hz Hn) as (al' & w' & Ea' & Hw & Ez). assert (al' = al) by congruence. subst al'.
    exists al, (fun k => 1 * x' k + a' * w' k). split; auto. split.
    - intros k Hk. unfold vadd, vscale. rewrite (Hx k Hk), (Hw k Hk). cbn. f_equal. lra.
    - intros k Hk. rewrite Er by auto. rewrite Ez by auto. assert (r1 k = r0 k) by (specialize (Hr1 k Hk); specialize (Hr k Hk); congruence).
      rewrite H0, E by auto. unfold residual. rewrite normal_lin. lra.
  Qed.
  Lemma small_norm_fin r : small_norm n r = true -> exists r', fin n r r' /\ sqrt (zsum n (fun k => r' k * r' k)) < 1 / 10000000.
  Proof.
    unfold small_norm, ndot. destruct (nsum n (fun i => nmul (r i) (r i))) as [d|] eqn:E; [|discriminate]. intros S. apply rltb_spec in S.
    destruct (fin_choose n r) as (r' & Hr). { intros k Hk. destruct (nsum_fin_inv _ _ _ E k Hk) as (v & V). destruct (r k); [eauto|discriminate]. }
    exists r'. split; auto. rewrite (nsum_fin n _ (fun k => r' k * r' k)) in E by (intros k Hk; now rewrite (Hr k Hk)). congruence.
  Qed.
  Lemma cg_loop_residual f' : (0 < n)%Z -> forall fuel s x, tracked f' s -> cg_loop h n alpha fuel s = (x, true) ->
    exists al x', alpha = Some al /\ fin n x x' /\ sqrt (zsum n (fun k => residual al f' x' k * residual al f' x' k)) < 1 / 10000000.
  Proof.
    intros Hn. induction fuel as [|fuel IH]; intros s x T; cbn [cg_loop]; [discriminate|].
    destruct (small_norm n (vsub (cr s) (vscale (ca s) (cz s)))) eqn:S.
    - intros E. injection E as <-. destruct (small_norm_fin _ S) as (r' & Hr & B). destruct (T r' Hr) as (al & x' & Ea & Hx & E).
      exists al, x'. split; auto. split; auto. erewrite zsum_ext; [exact B|]. intros k Hk. cbv beta. now rewrite <- E.
    - intros E. refine (IH _ x _ E). intros r'. cbn [cr ca cz cx]. intros H.
      destruct (sub_scale_inv _ _ _ _ Hn H) as (r0 & _ & _ & Hr0 & _).
      refine (tracked_next f' (cx s) _ _ _ r0 _ Hn eq_refl Hr0 (T r0 Hr0) r' H).
  Qed.
  Lemma normal_zero x k : (forall i, (0 <= i < n)%Z -> x i = 0) -> normal x k = 0.
  Proof.
    intros H. rewrite (normal_ext x (fun i => 0 * x i + 0 * x i)) by (intros i Hi; rewrite H by auto; lra). rewrite normal_lin. lra.
  Qed.
  Lemma cg_start_tracked f' : (0 < n)%Z -> fin n f f' -> tracked f' (cg_start h n alpha f).
  Proof.
    intros Hn Hf. unfold cg_start. cbv zeta. intros r'. cbn [cr ca cz cx]. intros H. destruct (sub_scale_inv _ _ _ _ Hn H) as (r0 & _ & _ & Hr0 & _).
    assert (R0 : exists al x', alpha = Some al /\ fin n (fun _ => Some 0) x' /\ forall k, (0 <= k < n)%Z -> r0 k = residual al f' x' k).
    { assert (F : exists z', fin n (op h n alpha (fun _ => Some 0)) z').
      { apply fin_choose. intros k Hk. specialize (Hr0 k Hk). unfold vsub in Hr0. destruct (op h n alpha (fun _ => Some 0) k); [eauto|]. destruct (f k); discriminate. }
      destruct F as (z' & Hz). destruct (op_fin_inv _ z' Hz Hn) as (al & x' & Ea & Hx & Ez).
      exists al, x'. split; auto. split; auto. intros k Hk. specialize (Hr0 k Hk). unfold vsub in Hr0. rewrite (Hf k Hk), (Hz k Hk) in Hr0. cbn in Hr0. unfold residual. rewrite <- Ez by auto. congruence. }
    refine (tracked_next f' (fun _ => Some 0) _ _ _ r0 _ Hn eq_refl Hr0 R0 r' H).
  Qed.

  (** Once a coefficient is not finite, the result is not finite. *)
  Lemma nan_loop fuel : forall s, (0 < n)%Z -> ca s = None -> (forall k, cx s k = None) -> forall k, fst (cg_loop h n alpha fuel s) k = None.
  Proof.
    induction fuel as [|fuel IH]; intros s Hn Ha Hx k; cbn [cg_loop fst]; auto.
    assert (N : forall k, vsub (cr s) (vscale (ca s) (cz s)) k = None) by (intros i; unfold vsub, vscale; rewrite Ha; cbn; now destruct (cr s i)).
    destruct (small_norm n (vsub (cr s) (vscale (ca s) (cz s)))) eqn:S; [cbn; auto|].
    assert (Ha' : forall w z, ndiv (ndot n (vsub (cr s) (vscale (ca s) (cz s))) w) z = None).
    { intros w z. unfold ndot. rewrite (nsum_none n _ 0%Z) by (try lia; now rewrite N). reflexivity. }
    apply IH; cbn [ca cx]; auto. intros i. unfold vadd. now rewrite Hx.
  Qed.
  Lemma nan_start : (0 < n)%Z -> ca (cg_start h n alpha f) = None -> forall fuel k, fst (cg_loop h n alpha fuel (cg_start h n alpha f)) k = None.
  Proof.
    intros Hn Ha fuel k. apply nan_loop; auto. intros i. unfold cg_start in *. cbv zeta in *. cbn [ca cx] in *. unfold vadd, vscale. rewrite Ha. reflexivity.
  Qed.
  (** A zero right-hand side gives 0/0 for any alpha. *)
  Lemma zero_rhs_nan : (0 < n)%Z -> (forall k, (0 <= k < n)%Z -> f k = Some 0) -> ca (cg_start h n alpha f) = None.
  Proof.
    intros Hn Hf. unfold cg_start. cbv zeta. cbn [ca]. set (r := vsub f (op h n alpha (fun _ => Some 0))).
    assert (A : (alpha = None /\ r 0%Z = None) \/ forall k, (0 <= k < n)%Z -> r k = Some 0).
    { destruct alpha as [al|] eqn:Ea; [right|left].
      - intros k Hk. unfold r, vsub, op, vadd, vscale. rewrite (Hf k Hk), (matxvec_fin _ (fun _ => 0)) by (intros i _; reflexivity).
        rewrite normal_zero by auto. cbn. f_equal. lra.
      - split; auto. unfold r, vsub, op, vadd, vscale. rewrite (Hf 0%Z) by lia. cbn. now destruct (matxvec h n (fun _ => Some 0) 0%Z). }
    destruct A as [[_ A]|A].
    - unfold ndot at 1. rewrite (nsum_none n _ 0%Z) by (try lia; now rewrite A). reflexivity.
    - assert (W : fin n (vneg r) (fun _ => 0)). { intros k Hk. unfold vneg. rewrite (A k Hk). cbn. f_equal. lra. }
      unfold ndot. rewrite (nsum_fin n (fun i => nmul (r i) (vneg r i)) (fun _ => 0)) by (intros k Hk; rewrite (A k Hk), (W k Hk); cbn; f_equal; lra).
      rewrite (zsum_zero n (fun _ => 0)) by auto. unfold ndiv.
      destruct (nsum n (fun i => nmul (vneg r i) (op h n alpha (vneg r) i))) as [d|] eqn:D; auto.
      assert (d = 0).
      { destruct (nsum_fin_inv _ _ _ D 0%Z ltac:(lia)) as (v & V).
        rewrite (nsum_ext n _ (fun _ => Some 0)) in D.
        - rewrite (nsum_fin n _ (fun _ => 0)) in D by (intros k _; reflexivity). rewrite zsum_zero in D by auto. congruence.
        - intros k Hk. destruct (nsum_fin_inv _ _ _ D k Hk) as (u & U). rewrite (W k Hk) in U |- *. destruct (op h n alpha (vneg r) k); [cbn; f_equal; lra|discriminate]. }
      subst d. destruct (Req_EM_T 0 0); [reflexivity|congruence].
  Qed.

  (** H' H of a constant vector is zero if the kernel sums up to zero. *)
  Lemma diff_const c i : (1 <= lh <= n)%Z -> zsum lh hr = 0 -> (0 <= i < n - (lh - 1))%Z -> diff (fun _ => c) i = 0.
  Proof.
    intros Hl Hz Hi. unfold diff, conv_r.
    rewrite (zsum_ext n _ (fun j => c * (if (i <=? j)%Z && (j <? i + lh)%Z then hr (j - i)%Z else 0))).
    2:{ intros j Hj. destruct ((0 <=? i + (lh - 1) - j)%Z && (i + (lh - 1) - j <? lh)%Z) eqn:E1, ((i <=? j)%Z && (j <? i + lh)%Z) eqn:E2; try lia; try lra.
        replace (lh - 1 - (i + (lh - 1) - j))%Z with (j - i)%Z by lia. reflexivity. }
    rewrite zsum_scal. enough (E : zsum n (fun j => if (i <=? j)%Z && (j <? i + lh)%Z then hr (j - i)%Z else 0) = zsum lh hr) by (rewrite E, Hz; lra).
    unfold zsum. rewrite <- (@zrange_app 0 i n), <- (@zrange_app i (i + lh) n) by lia. rewrite !map_app, !rsum_app.
    assert (Z0 : forall a b, (b <= i \/ i + lh <= a)%Z -> rsum (map (fun j => if (i <=? j)%Z && (j <? i + lh)%Z then hr (j - i)%Z else 0) (zrange a b)) = 0).
    { intros a b Hab. assert (G : forall l, (forall j, In j l -> (a <= j < b)%Z) -> rsum (map (fun j => if (i <=? j)%Z && (j <? i + lh)%Z then hr (j - i)%Z else 0) l) = 0).
      { induction l as [|j l IH]; intros Hl'; [reflexivity|]. cbn [map]. unfold rsum in *. cbn [fold_right]. rewrite IH by (intros; apply Hl'; now right).
        specialize (Hl' j (or_introl eq_refl)). destruct ((i <=? j)%Z && (j <? i + lh)%Z) eqn:E; [lia|lra]. }
      apply G. intros j Hj. now apply in_zrange in Hj. }
    rewrite (Z0 0%Z i), (Z0 (i + lh)%Z n) by lia. rewrite Rplus_0_l, Rplus_0_r. f_equal. unfold zrange. rewrite !map_map. replace (Z.to_nat (i + lh - i)) with (Z.to_nat (lh - 0)) by lia.
    apply map_ext_in. intros k Hk. apply in_seq in Hk. destruct ((i <=? i + Z.of_nat k)%Z && (i + Z.of_nat k <? i + lh)%Z) eqn:E; [|lia]. f_equal. lia.
  Qed.
  Lemma normal_const c k : (1 <= lh <= n)%Z -> zsum lh hr = 0 -> normal (fun _ => c) k = 0.
  Proof.
    intros Hl Hz. unfold normal, conv_r. apply zsum_zero. intros i Hi. rewrite diff_const by auto. destruct ((0 <=? k - i)%Z && (k - i <? lh)%Z); lra.
  Qed.
End Cgm.

Lemma zsum_window n i l (g : Z -> R) : (0 <= i)%Z -> (0 <= l)%Z -> (i + l <= n)%Z ->
  zsum n (fun j => if (i <=? j)%Z && (j <? i + l)%Z then g j else 0) = zsum l (fun t => g (i + t)%Z).
Proof.
  intros Hi Hl Hn. unfold zsum. rewrite <- (@zrange_app 0 i n), <- (@zrange_app i (i + l) n) by lia. rewrite !map_app, !rsum_app.
  assert (Z0 : forall a b, (b <= i \/ i + l <= a)%Z -> rsum (map (fun j => if (i <=? j)%Z && (j <? i + l)%Z then g j else 0) (zrange a b)) = 0).
  { intros a b Hab. assert (G : forall m, (forall j, In j m -> (a <= j < b)%Z) -> rsum (map (fun j => if (i <=? j)%Z && (j <? i + l)%Z then g j else 0) m) = 0).
    { induction m as [|j m IH]; intros Hm; [reflexivity|]. cbn [map]. unfold rsum in *. cbn [fold_right]. rewrite IH by (intros; apply Hm; now right).
      specialize (Hm j (or_introl eq_refl)). destruct ((i <=? j)%Z && (j <? i + l)%Z) eqn:E; [lia|lra]. }
    apply G. intros j Hj. now apply in_zrange in Hj. }
  rewrite (Z0 0%Z i), (Z0 (i + l)%Z n) by lia. rewrite Rplus_0_l, Rplus_0_r. f_equal. unfold zrange. rewrite !map_map.
  replace (Z.to_nat (i + l - i)) with (Z.to_nat (l - 0)) by lia.
  apply map_ext_in. intros k Hk. apply in_seq in Hk. destruct ((i <=? i + Z.of_nat k)%Z && (i + Z.of_nat k <? i + l)%Z) eqn:E; [|lia]. f_equal. 
Qed.
Section Energy.
  Variable h : list R.
  Variable n : Z.
  Let lh := Z.of_nat (length h).
  Hypothesis Hl : (1 <= lh <= n)%Z.
  Lemma diff_spec x i : (0 <= i < n - (lh - 1))%Z -> diff h n x i = zsum lh (fun t => hr h t * x (i + t)%Z).
  Proof.
    intros Hi. unfold diff, conv_r. fold lh.
    transitivity (zsum n (fun j => if (i <=? j)%Z && (j <? i + lh)%Z then hr h (j - i) * x j else 0)).
    - apply zsum_ext. intros j Hj.
      destruct ((0 <=? i + (lh - 1) - j)%Z && (i + (lh - 1) - j <? lh)%Z) eqn:E1, ((i <=? j)%Z && (j <? i + lh)%Z) eqn:E2; try lia; auto.
      replace (lh - 1 - (i + (lh - 1) - j))%Z with (j - i)%Z by lia. lra.
    - rewrite zsum_window by lia. apply zsum_ext. intros t _. now replace (i + t - i)%Z with t by lia.
  Qed.
  Lemma normal_adjoint a b : zsum (n - (lh - 1)) (fun i => diff h n a i * diff h n b i) = zsum n (fun k => normal h n a k * b k).
  Proof.
    transitivity (zsum (n - (lh - 1)) (fun i => zsum n (fun k => if (0 <=? k - i)%Z && (k - i <? lh)%Z then diff h n a i * hr h (k - i) * b k else 0))).
    - apply zsum_ext. intros i Hi. rewrite <- (Rmult_1_r (diff h n a i)) at 1. unfold diff at 2. unfold conv_r. fold lh.
      rewrite Rmult_assoc, <- !zsum_scal. apply zsum_ext. intros k Hk.
      destruct ((0 <=? i + (lh - 1) - k)%Z && (i + (lh - 1) - k <? lh)%Z) eqn:E1, ((0 <=? k - i)%Z && (k - i <? lh)%Z) eqn:E2; try lia; [|lra].
      replace (lh - 1 - (i + (lh - 1) - k))%Z with (k - i)%Z by lia. lra.
    - rewrite zsum_swap. apply zsum_ext. intros k Hk. unfold normal, conv_r. fold lh. rewrite Rmult_comm, <- zsum_scal. apply zsum_ext. intros i Hi.
      destruct ((0 <=? k - i)%Z && (k - i <? lh)%Z); lra.
  Qed.
  Definition energy_r (al : R) (pp q : Z -> R) : R :=
    zsum (n - (lh - 1)) (fun i => diff h n (fun k => 1 * pp k + 1 * q k) i * diff h n (fun k => 1 * pp k + 1 * q k) i) + al * zsum n (fun k => q k * q k).
  Lemma zsum_le m f g : (forall i, (0 <= i < m)%Z -> f i <= g i) -> zsum m f <= zsum m g.
  Proof. intros H. assert (0 <= zsum m g - zsum m f); [|lra]. rewrite zsum_sub. apply zsum_nonneg. intros i Hi. specialize (H i Hi). lra. Qed.
  Lemma energy_min al pp q q' : 0 < al ->
    let res := residual h n al (fun k => - normal h n pp k) q in
    energy_r al pp q <= energy_r al pp q' + zsum n (fun k => res k * res k) / al.
  Proof.
    intros Hal res. set (d := fun k => 1 * q' k + (-1) * q k).
    assert (Ed : forall i, diff h n (fun k => 1 * pp k + 1 * q' k) i = diff h n (fun k => 1 * pp k + 1 * q k) i + diff h n d i).
    { intros i. unfold d. rewrite !diff_lin. lra. }
    assert (E1 : zsum (n - (lh - 1)) (fun i => diff h n (fun k => 1 * pp k + 1 * q' k) i * diff h n (fun k => 1 * pp k + 1 * q' k) i)
      = zsum (n - (lh - 1)) (fun i => diff h n (fun k => 1 * pp k + 1 * q k) i * diff h n (fun k => 1 * pp k + 1 * q k) i)
        + 2 * zsum n (fun k => normal h n (fun k => 1 * pp k + 1 * q k) k * d k) + zsum (n - (lh - 1)) (fun i => diff h n d i * diff h n d i)).
    { rewrite <- normal_adjoint, <- zsum_scal, <- !zsum_plus. apply zsum_ext. intros i _. rewrite Ed. lra. }
    assert (E2 : al * zsum n (fun k => q' k * q' k) = al * zsum n (fun k => q k * q k) + 2 * zsum n (fun k => al * q k * d k) + al * zsum n (fun k => d k * d k)).
    { rewrite <- !zsum_scal, <- !zsum_plus. apply zsum_ext. intros k _. unfold d. lra. }
    assert (E3 : 2 * zsum n (fun k => normal h n (fun k => 1 * pp k + 1 * q k) k * d k) + 2 * zsum n (fun k => al * q k * d k) = zsum n (fun k => - (2 * (res k * d k)))).
    { rewrite <- !zsum_scal, <- zsum_plus. apply zsum_ext. intros k _. unfold res, residual. rewrite normal_lin. lra. }
    assert (P : 0 <= zsum (n - (lh - 1)) (fun i => diff h n d i * diff h n d i)) by (apply zsum_nonneg; intros; apply Rle_0_sqr).
    assert (Q : 0 <= zsum n (fun k => - (2 * (res k * d k))) + al * zsum n (fun k => d k * d k) + zsum n (fun k => res k * res k) / al).
    { unfold Rdiv. rewrite (Rmult_comm _ (/ al)), <- !zsum_scal, <- !zsum_plus. apply zsum_nonneg. intros k _.
      assert (S : - (2 * (res k * d k)) + al * (d k * d k) + / al * (res k * res k) = / al * Rsqr (al * d k - res k)) by (unfold Rsqr; field; lra).
      rewrite S. apply Rmult_le_pos; [left; now apply Rinv_0_lt_compat|apply Rle_0_sqr]. }
    unfold energy_r. rewrite E1, E2. lra.
  Qed.
End Energy.

Local Strategy opaque [max_iterations].
Section Blocks.
  Variables (npix nproj : Z) (sino : Z -> Z -> R).
  Lemma ringb_spec m step : (0 < step)%Z -> (0 <= nproj)%Z -> exists new, ringb npix nproj sino m step = Ok new /\
    forall p r, (0 <= p)%Z -> new p r = if (p <? nproj / step * step)%Z then nadd (Some (sino p r)) (correction npix sino m (p / step * step) ((p / step + 1) * step) r) else Some 1.
  Proof.
    intros Hs Hn. unfold ringb. destruct (Z.eqb_spec step 0); [lia|]. cbv zeta. rewrite Z.quot_div_nonneg by lia. eexists. split; [reflexivity|].
    assert (G : forall K p r, (0 <= p)%Z -> fold_left (fun (new : Z -> nvec) k => fun p r =>
         if (k * step <=? p)%Z && (p <? (k + 1) * step)%Z then nadd (Some (sino p r)) (correction npix sino m (k * step) ((k + 1) * step) r) else new p r)
       (zrange 0 (Z.of_nat K)) (fun _ _ => Some 1) p r = if (p <? Z.of_nat K * step)%Z then nadd (Some (sino p r)) (correction npix sino m (p / step * step) ((p / step + 1) * step) r) else Some 1).
    { induction K as [|K IH]; intros p r Hp.
      - cbn. destruct (Z.ltb_spec p 0); [lia|reflexivity].
      - replace (Z.of_nat (S K)) with (Z.of_nat K + 1)%Z by lia. rewrite zrange_snoc by lia. rewrite fold_left_app. cbn [fold_left].
        destruct ((Z.of_nat K * step <=? p)%Z && (p <? (Z.of_nat K + 1) * step)%Z) eqn:E.
        + assert (D : (p / step = Z.of_nat K)%Z) by (symmetry; apply Z.div_unique with (p - Z.of_nat K * step)%Z; lia). rewrite D.
          destruct (Z.ltb_spec p ((Z.of_nat K + 1) * step)); [reflexivity|lia].
        + rewrite IH by auto. destruct (Z.ltb_spec p (Z.of_nat K * step)), (Z.ltb_spec p ((Z.of_nat K + 1) * step)); auto; nia. }
    revert G. generalize (correction npix sino m). intros c G p r Hp. rewrite <- (Z2Nat.id (nproj / step)) by (apply Z.div_pos; lia). now apply G.
  Qed.
  Lemma equal_sums a b : (forall p, (a <= p < b)%Z -> proj_sum npix sino p = proj_sum npix sino a) -> get_parameter npix sino a b = None.
  Proof.
    intros H. unfold get_parameter. cbv zeta.
    assert (G : forall op l c, (forall x : R, op x x = x) -> (forall x, In x l -> x = c) -> fold_right op c l = c).
    { intros op l c Ho. induction l as [|x l IH]; intros Hl; cbn; auto. rewrite IH by (intros; apply Hl; now right). rewrite (Hl x (or_introl eq_refl)). apply Ho. }
    assert (Hd : forall x, In x (map (proj_sum npix sino) (zrange a b)) -> x = hd 0 (map (proj_sum npix sino) (zrange a b))).
    { intros x Hx. apply in_map_iff in Hx. destruct Hx as (p & <- & Hp). apply in_zrange in Hp. rewrite zrange_cons by lia. cbn [map hd]. now apply H. }
    rewrite (G Rmax), (G Rmin); auto.
    - unfold ndiv. destruct (Req_EM_T (2 * (hd 0 (map (proj_sum npix sino) (zrange a b)) - hd 0 (map (proj_sum npix sino) (zrange a b)))) 0); [reflexivity|lra].
    - intros x. apply Rmin_left. lra.
    - intros x. apply Rmax_left. lra.
  Qed.
  Lemma infinite_alpha_nan h f : (0 < npix)%Z -> forall k, ring_cgm h npix None f k = None.
  Proof.
    intros Hn k. unfold ring_cgm. apply nan_start; auto. unfold cg_start. cbv zeta. cbn [ca].
    unfold ndot at 1. rewrite (nsum_none npix _ 0%Z); [reflexivity|lia|]. unfold vsub, op, vadd, vscale. cbn. destruct (matxvec h npix (fun _ => Some 0) 0%Z), (f 0%Z); reflexivity.
  Qed.
  Lemma combine_nan alpha d1 d2 p r : d1 p r = None -> combine_rings npix nproj alpha d1 d2 p r = None.
  Proof. intros H. unfold combine_rings. cbv zeta. rewrite H. reflexivity. Qed.
End Blocks.
