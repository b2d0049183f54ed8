From Verif Require Import Base Order CLoop Model_Ray Proofs_Ray Model_RayF Model_SolverF Spec_SolverF Proofs_FloatB Proofs_RayF Proofs_RayF2 Proofs_RayF3 Proofs_RayF4 Proofs_SolverF Proofs_SolverF2 Proofs_SolverF3.
From Coq Require Import Reals Lra Psatz.
From Flocq Require Import Core BinarySingleNaN.
Local Open Scope R_scope.

(** ** Cells *)
Lemma ofold_dot {St X} (f : X -> St -> option St) (h : St -> b32) (L : X -> list (b32 * b32)) l s r : ofold f l s = Some r ->
  (forall x s s', In x l -> f x s = Some s' -> h s' = dotF (h s) (L x)) -> h r = dotF (h s) (flat_map L l).
Proof.
  revert s. induction l as [|x l IH]; cbn; intros s E H; [injection E as <-; reflexivity|]. ob E. unfold dotF. rewrite fold_left_app. fold (dotF (h s) (L x)). rewrite <- (H x s a (or_introl eq_refl) E0). apply IH; auto.
Qed.
Lemma ofor_dot {St} (f : Z -> St -> option St) (h : St -> b32) (L : Z -> list (b32 * b32)) n m s r : ofor n m f s = Some r ->
  (forall x s s', (n <= x < m)%Z -> f x s = Some s' -> h s' = dotF (h s) (L x)) -> h r = dotF (h s) (flat_map L (zrange n m)).
Proof. intros E H. eapply ofold_dot; [exact E|]. intros x s1 s2 Hx. apply in_zrange in Hx. apply H. lia. Qed.
Lemma flat_one {A B} (L : A -> list B) l x : In x l -> NoDup l -> (forall y, In y l -> y <> x -> L y = []) -> flat_map L l = L x.
Proof.
  induction l as [|y l IH]; cbn; intros Hx ND H; [contradiction|]. apply NoDup_cons_iff in ND as (N & ND). destruct Hx as [->|Hx].
  - replace (flat_map L l) with (@nil B); [apply app_nil_r|]. symmetry. clear IH ND. assert (G : forall y, In y l -> L y = []) by (intros y Hy; apply H; [now right|intros ->; contradiction]).
    clear H N. induction l as [|z l IH]; cbn; auto. rewrite G, IH; cbn; auto. intros y Hy. apply G. now right.
  - rewrite (H y); [cbn; apply IH; auto|auto|]. intros ->. contradiction.
Qed.
Lemma NoDup_zrange a b : NoDup (zrange a b).
Proof. apply (NoDup_map_inv (fun x => (x - a)%Z)). unfold zrange. rewrite map_map. apply FinFun.Injective_map_NoDup; [intros x y; lia|apply seq_NoDup]. Qed.
Lemma data_inj (dt dx s p d s' p' d' : Z) : (0 <= p < dt)%Z -> (0 <= d < dx)%Z -> (0 <= p' < dt)%Z -> (0 <= d' < dx)%Z -> (d + p * dx + s * dt * dx = d' + p' * dx + s' * dt * dx)%Z -> s = s' /\ p = p' /\ d = d'.
Proof.
  intros Hp Hd Hp' Hd' E. assert (E1 : (dx * (p + s * dt) + d = dx * (p' + s' * dt) + d')%Z) by lia. apply Z.div_mod_unique in E1; [|lia|lia]. destruct E1 as (E1 & ->).
  assert (E2 : (dt * s + p = dt * s' + p')%Z) by lia. apply Z.div_mod_unique in E2; lia.
Qed.
Section Values.
  Variables (fmodf sinf cosf : b32 -> b32) (junk : arr pointF * arr pointF * arr pointF) (g : geomF).
  Notation segs_ := (segsF fmodf sinf cosf junk g).
  Notation psegs_ := (project_segs fmodf sinf cosf junk g).
  Lemma sim_cell segs s p d m a r j : simdataF g segs s p d m a = Some r ->
    r j = dotF (a j) (if (d + p * dxF g + s * dtF g * dxF g =? j)%Z then map (fun '(i, w) => (m (i + s * gxF g * gyF g)%Z, w)) segs else []).
  Proof.
    unfold simdataF, ind_dataF. intros E. ob E. ob E. apply cint_some in E0. apply cint_some in E1. subst a0 a1.
    assert (H : r j = dotF (a j) (flat_map (fun '(i, w) => if (d + p * dxF g + s * dtF g * dxF g =? j)%Z then [(m (i + s * gxF g * gyF g)%Z, w)] else []) segs)).
    { eapply (ofold_dot _ (fun st : arr b32 => st j)); [exact E|]. intros (i & w) u v _ F. ob F. ob F. apply load_some in E0, E1. destruct E0 as (_ & ->), E1 as (_ & ->). apply store_some in F. destruct F as (_ & ->).
      destruct (Z.eqb_spec (d + p * dxF g + s * dtF g * dxF g) j) as [<-|N]; [now rewrite aset_eq|]. rewrite aset_ne by auto. reflexivity. }
    rewrite H. f_equal. clear. destruct (_ =? j)%Z; induction segs as [|(i & w) l IH]; cbn; auto. now rewrite IH.
  Qed.
  Theorem project_value obj data r s p d : emptyF g = false -> projectF fmodf sinf cosf junk g obj data = Some r -> (0 <= s < dyF g)%Z -> (0 <= p < dtF g)%Z -> (0 <= d < dxF g)%Z ->
    exists segs, psegs_ (centerF g 0%Z) p d = Some segs /\
      let j := (d + p * dxF g + s * dtF g * dxF g)%Z in r j = dotF (data j) (map (fun '(i, w) => (obj (i + s * gxF g * gyF g)%Z, w)) segs).
  Proof.
    intros Em E Hs Hp Hd. unfold projectF in E. rewrite Em in E. ob E. apply load_some in E0. destruct E0 as (_ & ->).
    assert (exists segs, psegs_ (centerF g 0%Z) p d = Some segs) as (segs & Es).
    { destruct (ofor_at _ p _ _ _ Hp E) as (u & v & _ & E1 & _). destruct (ofor_at _ d _ _ _ Hd E1) as (u' & v' & _ & E2 & _). ob E2. eauto. }
    exists segs. split; auto. cbv zeta. set (j := (d + p * dxF g + s * dtF g * dxF g)%Z).
    set (L := fun p' d' s' : Z => if (d' + p' * dxF g + s' * dtF g * dxF g =? j)%Z then map (fun '(i, w) => (obj (i + s' * gxF g * gyF g)%Z, w)) (match psegs_ (centerF g 0%Z) p' d' with Some l => l | None => [] end) else []).
    assert (H : r j = dotF (data j) (flat_map (fun p' => flat_map (fun d' => flat_map (L p' d') (zrange 0 (dyF g))) (zrange 0 (dxF g))) (zrange 0 (dtF g)))).
    { eapply (ofor_dot _ (fun st : arr b32 => st j)); [exact E|]. clear E data r. intros p' u v Hp' E. cbv beta. eapply (ofor_dot _ (fun st : arr b32 => st j)); [exact E|]. clear E u v. intros d' u v Hd' E. cbv beta. ob E.
      eapply (ofor_dot _ (fun st : arr b32 => st j)); [exact E|]. clear E u v. intros s' u v Hs' E. cbv beta. unfold L. rewrite E0. now apply sim_cell. }
    assert (Z0 : forall p' d' s', (0 <= p' < dtF g)%Z -> (0 <= d' < dxF g)%Z -> (p' <> p \/ d' <> d \/ s' <> s) -> L p' d' s' = []).
    { intros p' d' s' Hp' Hd' N. unfold L. destruct (Z.eqb_spec (d' + p' * dxF g + s' * dtF g * dxF g) j) as [Q|]; auto. exfalso. unfold j in Q. apply data_inj in Q; lia. }
    rewrite H. clear H. f_equal. rewrite (flat_one _ _ p); [|apply in_zrange; lia|apply NoDup_zrange|].
    - rewrite (flat_one _ _ d); [|apply in_zrange; lia|apply NoDup_zrange|].
      + rewrite (flat_one _ _ s); [|apply in_zrange; lia|apply NoDup_zrange|].
        * unfold L. fold j. rewrite Z.eqb_refl, Es. reflexivity.
        * intros s' Hs' N. apply Z0; auto.
      + intros d' Hd' N. apply in_zrange in Hd'. induction (zrange 0 (dyF g)) as [|s' l IH]; cbn; auto. rewrite Z0, IH; auto.
    - intros p' Hp' N. apply in_zrange in Hp'. assert (A : forall d' l, (0 <= d' < dxF g)%Z -> flat_map (L p' d') l = []). { intros d' l Hd'. induction l as [|s' l IH]; cbn; auto. rewrite Z0, IH; auto. }
      assert (B : forall l, (forall d', In d' l -> (0 <= d' < dxF g)%Z) -> flat_map (fun d' => flat_map (L p' d') (zrange 0 (dyF g))) l = []).
      { induction l as [|d' l IH]; cbn; intros Hl; auto. rewrite A by auto. cbn. auto. }
      apply B. intros d' Hd'. apply in_zrange in Hd'. auto.
  Qed.
  (** The measurements of the rays through pixel i, in the order of the loops *)
  Definition hits (data : arr b32) (c : b32) (s i : Z) : list (b32 * b32) :=
    flat_map (fun p => flat_map (fun d => map (fun '(_, w) => (data (d + p * dxF g + s * dtF g * dxF g)%Z, w))
      (filter (fun '(j, _) => (j =? i)%Z) (match segs_ c p d with Some l => l | None => [] end))) (zrange 0 (dxF g))) (zrange 0 (dtF g)).
  Hypothesis Hx : (1 <= gxF g <= 2 ^ 15)%Z.
  Hypothesis Hy : (1 <= gyF g <= 2 ^ 15)%Z.
  Lemma seg_in c p d segs : segs_ c p d = Some segs -> seg_ok g segs.
  Proof. intros E. apply (segs_seg fmodf sinf cosf junk g ltac:(lia) ltac:(lia) ltac:(lia) ltac:(lia) c p d segs E). Qed.
  Lemma pix_inj s i s' i' : (0 <= i < npixF g)%Z -> (0 <= i' < npixF g)%Z -> (i + s * gxF g * gyF g = i' + s' * gxF g * gyF g)%Z -> s = s' /\ i = i'.
  Proof. unfold npixF. intros Hi Hi' E. assert (E1 : (gxF g * gyF g * s + i = gxF g * gyF g * s' + i')%Z) by lia. apply Z.div_mod_unique in E1; lia. Qed.
  Theorem fbp_value data recon r s i : emptyF g = false -> fbpF fmodf sinf cosf junk g data recon = Some r -> (0 <= s < dyF g)%Z -> (0 <= i < npixF g)%Z ->
    let j := (i + s * gxF g * gyF g)%Z in r j = dotF (recon j) (hits data (centerF g s) s i).
  Proof.
    intros Em E Hs Hi. cbv zeta. set (j := (i + s * gxF g * gyF g)%Z). unfold fbpF in E. rewrite Em in E.
    assert (H : r j = dotF (recon j) (flat_map (fun s' => if (s' =? s)%Z then hits data (centerF g s) s i else []) (zrange 0 (dyF g)))).
    { eapply (ofor_dot _ (fun st : arr b32 => st j)); [exact E|]. clear E recon r. intros s' u v Hs' E. cbv beta. ob E. apply load_some in E0. destruct E0 as (_ & ->).
      assert (A : forall d p u v, (let? segs := segs_ (centerF g s') p d in let? ind_recon := cint (s' * gxF g * gyF g) in let? k := ind_dataF g s' p d in
          ofold (fun '(i, w) recon => let? b := load (ndata g) data k in let? v := load (nrec g) recon (i + ind_recon) in store (nrec g) recon (i + ind_recon) (fadd v (fmul b w))) segs u) = Some v ->
        v j = dotF (u j) (if (s' =? s)%Z then map (fun '(_, w) => (data (d + p * dxF g + s * dtF g * dxF g)%Z, w)) (filter (fun '(j, _) => (j =? i)%Z) (match segs_ (centerF g s) p d with Some l => l | None => [] end)) else [])).
      { clear E u v. intros d p u v E. ob E. pose proof (seg_in _ _ _ _ E0) as So. ob E. ob E. unfold ind_dataF in E2. apply cint_some in E1, E2. subst a0 a1.
        assert (B : v j = dotF (u j) (flat_map (fun '(k, w) => if (s' =? s)%Z && (k =? i)%Z then [(data (d + p * dxF g + s' * dtF g * dxF g)%Z, w)] else []) a)).
        { eapply (ofold_dot _ (fun st : arr b32 => st j)); [exact E|]. intros (k & w) u1 v1 Hk F. specialize (So k w Hk). ob F. ob F. apply load_some in E1, E2. destruct E1 as (_ & ->), E2 as (_ & ->). apply store_some in F. destruct F as (_ & ->).
          destruct (Z.eqb_spec s' s) as [->|N]; cbn [andb].
          - destruct (Z.eqb_spec k i) as [->|N]; [fold j; now rewrite aset_eq|]. rewrite aset_ne; [reflexivity|]. unfold j. lia.
          - rewrite aset_ne; [reflexivity|]. unfold j. intros Q. symmetry in Q. apply pix_inj in Q; lia. }
        rewrite B. f_equal. destruct (Z.eqb_spec s' s) as [->|N]; cbn [andb].
        - rewrite E0. clear. induction a as [|(k & w) l IH]; cbn; auto. destruct (k =? i)%Z; cbn; now rewrite IH.
        - clear. induction a as [|(k & w) l IH]; cbn; auto. }
      destruct (Z.eqb_spec s' s) as [->|N].
      - unfold hits. eapply (ofor_dot _ (fun st : arr b32 => st j)); [exact E|]. clear E u v. intros p u v Hp E. cbv beta. eapply (ofor_dot _ (fun st : arr b32 => st j)); [exact E|]. clear E u v. intros d u v Hd E. apply A in E. exact E.
      - cbn. symmetry. eapply (ofor_inv (fun st : arr b32 => u j = st j)); [exact E|reflexivity|]. clear E. intros p u1 v1 _ H1 E. rewrite H1. symmetry. eapply (ofor_inv (fun st : arr b32 => st j = u1 j)); [exact E|reflexivity|].
        intros d u2 v2 _ H2 F. apply A in F. cbn in F. now rewrite F. }
    rewrite H. f_equal. rewrite (flat_one _ _ s); [now rewrite Z.eqb_refl|apply in_zrange; lia|apply NoDup_zrange|]. intros s' _ N. apply Z.eqb_neq in N. now rewrite N.
  Qed.
End Values.
