From Verif Require Import Base Order CLoop Model_Ray Proofs_Ray Model_RayF Model_SolverF Spec_SolverF Proofs_FloatB Proofs_RayF Proofs_RayF2 Proofs_RayF3 Proofs_RayF4 Proofs_SolverF Proofs_SolverF2 Proofs_SolverF3 Proofs_SolverF6 Model_PmlF Proofs_GradF4 Model_VectorF Spec_PrepF Proofs_PrepF Proofs_VectorF Proofs_VectorF2 Spec_VectorF.
From Coq Require Import Reals Lra Psatz.
From Flocq Require Import Core BinarySingleNaN.
Local Open Scope Z_scope.

(** ** Two nested loops as one *)
Lemma ofold_map {St X Y} (f : Y -> St -> option St) (h : X -> Y) l s : ofold f (map h l) s = ofold (fun x => f (h x)) l s.
Proof. revert s. induction l as [|x l IH]; cbn; intros s; auto. destruct (f (h x) s); cbn; auto. Qed.
Lemma ofold_prod {St X Y} (f : X -> Y -> St -> option St) l m s : ofold (fun x => ofold (f x) m) l s = ofold (fun xy => f (fst xy) (snd xy)) (list_prod l m) s.
Proof.
  revert s. induction l as [|x l IH]; cbn; intros s; auto. rewrite ofold_app, ofold_map. cbn [fst snd]. change (fun x0 : Y => f x x0) with (f x). destruct (ofold (f x) m s); cbn; auto.
Qed.
Lemma ofor_prod {St} (f : Z -> Z -> St -> option St) a b c d s : ofor a b (fun x => ofor c d (f x)) s = ofold (fun xy => f (fst xy) (snd xy)) (list_prod (zrange a b) (zrange c d)) s.
Proof. unfold ofor. apply ofold_prod. Qed.
Lemma NoDup_prod {A B} (l : list A) (m : list B) : NoDup l -> NoDup m -> NoDup (list_prod l m).
Proof.
  intros Nl Nm. induction Nl as [|x l Hx Nl IH]; cbn; [constructor|].
  assert (G : forall l1 l2 : list (A * B), NoDup l1 -> NoDup l2 -> (forall z, In z l1 -> ~ In z l2) -> NoDup (l1 ++ l2)).
  { induction l1 as [|z l1 IH1]; cbn; intros l2 N1 N2 D; auto. apply NoDup_cons_iff in N1. destruct N1 as (N1 & N1'). constructor; [|apply IH1; auto].
    intros H. apply in_app_or in H. destruct H as [H|H]; [auto|]. apply (D z); auto. }
  apply G; auto.
  - apply FinFun.Injective_map_NoDup; auto. intros u v H. congruence.
  - intros (u & v) H H'. apply in_map_iff in H. destruct H as (w & E & _). apply in_prod_iff in H'. destruct H' as (H' & _). congruence.
Qed.
Lemma ofold_once {St X} {W} (h : St -> W) (F : W -> W) (f : X -> St -> option St) x0 l s r : ofold f l s = Some r -> In x0 l -> NoDup l ->
  (forall x s s', In x l -> x <> x0 -> f x s = Some s' -> h s' = h s) -> (forall s s', f x0 s = Some s' -> h s' = F (h s)) -> h r = F (h s).
Proof.
  intros E Hi N K V. assert (Kp : forall l s r, ofold f l s = Some r -> ~ In x0 l -> (forall x s s', In x l -> x <> x0 -> f x s = Some s' -> h s' = h s) -> h r = h s).
  { clear. induction l as [|x l IH]; cbn; intros s r E N K; [apply some_eq in E; now subst|]. ob E. transitivity (h a).
    - apply IH; [exact E|tauto|]. intros z s1 s1' Hz. apply (K z s1 s1'). now right.
    - apply (K x s a); [now left|tauto|exact E0]. }
  revert s r E Hi N K. induction l as [|x l IH]; cbn; intros s r E Hi N K; [contradiction|]. ob E. apply NoDup_cons_iff in N. destruct N as (Nx & N). destruct Hi as [->|Hi].
  - rewrite <- (V s a E0). apply (Kp l a r E); auto. intros x s1 s1' Hx. apply K; auto.
  - rewrite <- (K x s a); [|auto|intros ->; contradiction|exact E0]. apply IH; auto. intros z s1 s1' Hz. apply K; auto.
Qed.

Section Values.
  Variables (fmodf sinf cosf : b32 -> b32) (junk : arr pointF * arr pointF * arr pointF) (g : geomF) (data : arr b32).
  Hypothesis Hx : 1 <= gxF g <= 2 ^ 15.
  Hypothesis Hy : 1 <= gyF g <= 2 ^ 15.
  Notation buf := (gxF g + gyF g).
  Notation ray_ b := (ray2F fmodf sinf cosf junk g b).
  Lemma ray2_in b c p d segs v : ray_ b c p d = Some (segs, v) -> seg2_ok g segs.
  Proof.
    unfold ray2F. intros E. ob E. ob E. destruct junk as ((za & zb) & zc). ob E. apply some_eq in E. apply pair_eq in E. destruct E as (E & _). cbn [fst] in E. subst a1.
    match type of E2 with traced2_of _ _ (traceF _ _ _ ?cx ?cy _ _ _) = _ => destruct (traced2_same g b a0 cx cy za zb zc Hx Hy) as [(_ & N)|(s2 & Es & _ & S2)] end; [congruence|]. rewrite E2 in Es. apply some_eq in Es. now subst.
  Qed.
  Notation kd s p d := (d + p * dxF g + s * dtF g * dxF g).
  Notation jr s x y := (y + x * gyF g + s * gxF g * gyF g).
  (** ** Simulated data *)
  Lemma sim2_cell nobj segs v axis s p d mx my a r : simdata2F g nobj segs v axis s p d mx my a = Some r ->
    (forall j, j <> kd s p d -> r j = a j) /\
    r (kd s p d) = dotF (a (kd s p d)) (map (fun '(x, y, w) => let i := match locF g axis s x y with Some i => i | None => 0 end in (fadd (fmul (mx i) (fst v)) (fmul (my i) (snd v)), w)) segs).
  Proof.
    unfold simdata2F. revert a. induction segs as [|((x & y) & w) l IH]; cbn [ofold map]; intros a E; [apply some_eq in E; subst; auto|]. ob E. ob E0. unfold ind_dataF in E1. apply cint_some in E1. subst a1. ob E0. rewrite E1. ob E0. ob E0. ob E0.
    apply load_some in E2, E3, E4. destruct E2 as (_ & ->), E3 as (_ & ->), E4 as (_ & ->). apply store_some in E0. destruct E0 as (_ & ->). destruct (IH _ E) as (K & W). split.
    - intros j N. rewrite K by auto. now rewrite aset_ne by lia.
    - rewrite W, aset_eq. reflexivity.
  Qed.
  Lemma loc0 s x y i : locF g 0 s x y = Some i -> i = jr s x y.
  Proof. unfold locF. cbn [Z.eqb]. apply cint_some. Qed.
  Lemma map_loc0 nobj segs v s p d mx my a r : simdata2F g nobj segs v 0 s p d mx my a = Some r ->
    r (kd s p d) = seenV (a (kd s p d)) (fun x y => mx (jr s x y)) (fun x y => my (jr s x y)) (segs, v).
  Proof.
    intros E. rewrite (proj2 (sim2_cell _ _ _ _ _ _ _ _ _ _ _ E)). unfold seenV. cbn [fst snd]. f_equal. revert a E. unfold simdata2F. induction segs as [|((x & y) & w) l IH]; cbn [ofold map]; intros a E; auto. ob E. rewrite (IH _ E). f_equal.
    ob E0. ob E0. rewrite E2. apply loc0 in E2. now subst.
  Qed.
  (** ** Sums per pixel *)
  Lemma addF_cell f segs a r x y : seg2_ok g segs -> 0 <= x < gxF g -> 0 <= y < gyF g -> addF g f segs a = Some r -> r (y + x * gyF g) = fold_left fadd (map f (map snd (filter (fun '(x', y', _) => (x' =? x) && (y' =? y))%Z segs))) (a (y + x * gyF g)).
  Proof.
    intros So Hxx Hyy. unfold addF. revert a. induction segs as [|((x' & y') & w) l IH]; cbn [ofold filter]; intros a E; [apply some_eq in E; now subst|]. ob E. ob E0. unfold pixF in E1. apply cint_some in E1. subst a1. ob E0. apply load_some in E1. destruct E1 as (_ & ->). apply store_some in E0. destruct E0 as (_ & ->).
    rewrite (IH (fun u v w' H => So u v w' (or_intror H)) _ E). destruct (So x' y' w (or_introl eq_refl)) as (Hx' & Hy'). destruct ((x' =? x) && (y' =? y)) eqn:Q.
    - assert (x' = x /\ y' = y) as (-> & ->) by lia. cbn [map snd fold_left]. now rewrite aset_eq.
    - rewrite aset_ne; auto. intros Z1. assert (x' = x /\ y' = y); [|lia]. assert (Z2 : gyF g * x' + y' = gyF g * x + y) by lia. apply Z.div_mod_unique in Z2; lia.
  Qed.
  Lemma sq2 segs v : sum_sq2 segs = squaresV (segs, v).
  Proof. unfold sum_sq2, squaresV, dotF, zeroF. cbn [fst]. generalize (@B754_zero 24 128 false). induction segs as [|((x & y) & w) l IH]; cbn; intros z; auto. Qed.
  Section Ray.
    Variables (s : Z) (c : b32) (r1 r2 : arr b32).
    Notation f1 := (fun x y => r1 (jr s x y)).
    Notation f2 := (fun x y => r2 (jr s x y)).
    Notation ray0 p d := (match ray_ buf c p d with Some r => r | None => ([], (zeroF, zeroF)) end).
    Notation lens x y pd := (lengthsV x y (ray0 (fst pd) (snd pd))).
    Notation cor1 x y pd := (correctionsV f1 f2 x y (data (kd s (fst pd) (snd pd))) (fst (snd (ray0 (fst pd) (snd pd)))) (ray0 (fst pd) (snd pd))).
    Notation cor2 x y pd := (correctionsV f1 f2 x y (data (kd s (fst pd) (snd pd))) (snd (snd (ray0 (fst pd) (snd pd)))) (ray0 (fst pd) (snd pd))).
    Lemma ray_cell p d sd su u1 u2 sd' su' u1' u2' x y : 0 <= x < gxF g -> 0 <= y < gyF g -> vec_rayF fmodf sinf cosf junk g data s c r1 r2 p d ((sd, su), (u1, u2)) = Some ((sd', su'), (u1', u2')) ->
      (forall j, j <> kd s p d -> sd' j = sd j) /\ (exists r, ray_ buf c p d = Some r) /\
      (sd (kd s p d) = zeroF -> let i := y + x * gyF g in
        su' i = fold_left fadd (lens x y (p, d)) (su i) /\ u1' i = fold_left fadd (cor1 x y (p, d)) (u1 i) /\ u2' i = fold_left fadd (cor2 x y (p, d)) (u2 i)).
    Proof.
      intros Hxx Hyy E. unfold vec_rayF in E. ob E. destruct a as (segs & (vx & vy)). cbn [fst snd]. rewrite E0. pose proof (ray2_in _ _ _ _ _ _ E0) as So. ob E. rename a into sd1. rename E1 into Es. ob E. rename a into su1. rename E1 into Eu.
      pose proof (proj1 (sim2_cell _ _ _ _ _ _ _ _ _ _ _ Es)) as Ks. pose proof (map_loc0 _ _ _ _ _ _ _ _ _ _ Es) as Vs. pose proof (addF_cell _ _ _ _ x y So Hxx Hyy Eu) as Vu. rewrite map_id in Vu.
      rewrite (sq2 segs (vx, vy)) in E. unfold nez in E. cbn [fst snd]. unfold correctionsV, lengthsV. cbn [fst snd]. change (@B754_zero 24 128 false) with zeroF. destruct (Beqb (squaresV (segs, (vx, vy))) zeroF) eqn:Q; cbn [negb] in E.
      - apply some_eq in E. apply pair_eq in E. destruct E as (E1 & E2). apply pair_eq in E1, E2. cbn [fst snd] in E1, E2. destruct E1 as (-> & ->), E2 as (-> & ->). split; [exact Ks|]. split; [eauto|]. intros Z0. cbv zeta. cbn [fold_left]. auto.
      - ob E. unfold ind_dataF in E1. apply cint_some in E1. subst a. ob E. apply load_some in E1. destruct E1 as (_ & ->). ob E. apply load_some in E1. destruct E1 as (_ & ->). ob E. rename a into w1. ob E. rename a into w2.
        apply some_eq in E. apply pair_eq in E. destruct E as (E3 & E4). apply pair_eq in E3, E4. cbn [fst snd] in E3, E4. destruct E3 as (-> & ->), E4 as (-> & ->). split; [exact Ks|]. split; [eauto|]. intros Z0. cbv zeta.
        split; [exact Vu|]. pose proof (addF_cell _ _ _ _ x y So Hxx Hyy E1) as W1. pose proof (addF_cell _ _ _ _ x y So Hxx Hyy E2) as W2. rewrite W1, W2. unfold shareV. rewrite Vs, Z0. auto.
    Qed.
    Lemma rays_cell x y l : 0 <= x < gxF g -> 0 <= y < gyF g -> NoDup l -> (forall pd, In pd l -> 0 <= fst pd < dtF g /\ 0 <= snd pd < dxF g) -> forall sd su u1 u2 sd' su' u1' u2',
      ofold (fun pd => vec_rayF fmodf sinf cosf junk g data s c r1 r2 (fst pd) (snd pd)) l ((sd, su), (u1, u2)) = Some ((sd', su'), (u1', u2')) ->
      (forall pd, In pd l -> sd (kd s (fst pd) (snd pd)) = zeroF) -> let i := y + x * gyF g in
      (forall pd, In pd l -> exists r, ray_ buf c (fst pd) (snd pd) = Some r) /\
      su' i = fold_left fadd (flat_map (fun pd => lens x y pd) l) (su i) /\ u1' i = fold_left fadd (flat_map (fun pd => cor1 x y pd) l) (u1 i) /\ u2' i = fold_left fadd (flat_map (fun pd => cor2 x y pd) l) (u2 i).
    Proof.
      intros Hxx Hyy N. induction N as [|(p & d) l Nx N IH]; cbn [ofold flat_map]; intros R sd su u1 u2 sd' su' u1' u2' E Z0; cbv zeta.
      - apply some_eq in E. apply pair_eq in E. destruct E as (E1 & E2). apply pair_eq in E1, E2. cbn [fst snd] in E1, E2. destruct E1 as (-> & ->), E2 as (-> & ->). repeat split; auto. intros pd [].
      - ob E. destruct a as ((sd1 & su1) & (w1 & w2)). cbn [fst snd] in E0. destruct (ray_cell _ _ _ _ _ _ _ _ _ _ x y Hxx Hyy E0) as (K & Ex & W). specialize (W (Z0 _ (or_introl eq_refl))). cbv zeta in W. destruct W as (W0 & W1 & W2).
        destruct (IH (fun pd H => R pd (or_intror H)) _ _ _ _ _ _ _ _ E) as (Q0 & Q1 & Q2 & Q3).
        { intros (p' & d') H. rewrite K; [exact (Z0 _ (or_intror H))|]. intros Q. cbn [fst snd] in Q. destruct (R _ (or_introl eq_refl)), (R _ (or_intror H)). cbn [fst snd] in *. apply data_inj in Q; auto. destruct Q as (_ & -> & ->). contradiction. }
        rewrite !fold_left_app. rewrite Q1, Q2, Q3, W0, W1, W2. split; [|auto]. intros pd [<-|H]; [exact Ex|auto].
    Qed.
  End Ray.
  (** ** The last loop *)
  Lemma bump_cell s m n su u r r' : bumpF g s m n su u r = Some r' -> r' = aset r (jr s m n) (fadd (r (jr s m n)) (fdiv (u (n + m * gyF g)) (su (n + m * gyF g)))).
  Proof.
    unfold bumpF. intros E. ob E. apply cint_some in E0. subst a. ob E. apply cint_some in E0. subst a. ob E. apply load_some in E0. destruct E0 as (_ & ->). ob E. apply load_some in E0. destruct E0 as (_ & ->). ob E. apply load_some in E0. destruct E0 as (_ & ->).
    apply store_some in E. destruct E as (_ & ->). reflexivity.
  Qed.
  Lemma bumps_cell s su u1 u2 r1 r2 r1' r2' : ofor 0 (gxF g) (fun m => ofor 0 (gyF g) (fun n '(r1, r2) => let? r1 := bumpF g s m n su u1 r1 in let? r2 := bumpF g s m n su u2 r2 in Some (r1, r2))) (r1, r2) = Some (r1', r2') ->
    (forall s' x y, s' <> s -> 0 <= x < gxF g -> 0 <= y < gyF g -> r1' (jr s' x y) = r1 (jr s' x y) /\ r2' (jr s' x y) = r2 (jr s' x y)) /\
    (forall x y, 0 <= x < gxF g -> 0 <= y < gyF g -> let i := y + x * gyF g in r1' (jr s x y) = fadd (r1 (jr s x y)) (fdiv (u1 i) (su i)) /\ r2' (jr s x y) = fadd (r2 (jr s x y)) (fdiv (u2 i) (su i))).
  Proof.
    intros E. rewrite (ofor_prod (fun m n '(r1, r2) => let? r1 := bumpF g s m n su u1 r1 in let? r2 := bumpF g s m n su u2 r2 in Some (r1, r2))) in E.
    assert (Inj : forall s' x y m n, 0 <= x < gxF g -> 0 <= y < gyF g -> 0 <= m < gxF g -> 0 <= n < gyF g -> jr s m n = jr s' x y -> s = s' /\ m = x /\ n = y).
    { clear - Hx Hy. intros s' x y m n H1 H2 H3 H4 Q. assert (Q1 : gyF g * (m + s * gxF g) + n = gyF g * (x + s' * gxF g) + y) by lia. apply Z.div_mod_unique in Q1; [|lia|lia]. destruct Q1 as (Q1 & ->).
      assert (Q2 : gxF g * s + m = gxF g * s' + x) by lia. apply Z.div_mod_unique in Q2; lia. }
    assert (Step : forall mn st st', (let f := (fun (m n : Z) '(r1, r2) => let? r1 := bumpF g s m n su u1 r1 in let? r2 := bumpF g s m n su u2 r2 in Some (r1, r2)) in f (fst mn) (snd mn) st = Some st') ->
      fst st' = aset (fst st) (jr s (fst mn) (snd mn)) (fadd (fst st (jr s (fst mn) (snd mn))) (fdiv (u1 (snd mn + fst mn * gyF g)) (su (snd mn + fst mn * gyF g)))) /\
      snd st' = aset (snd st) (jr s (fst mn) (snd mn)) (fadd (snd st (jr s (fst mn) (snd mn))) (fdiv (u2 (snd mn + fst mn * gyF g)) (su (snd mn + fst mn * gyF g))))).
    { intros (m & n) (a & b) st' F. cbn [fst snd] in F |- *. ob F. ob F. apply some_eq in F. subst st'. apply bump_cell in E0, E1. subst. cbn [fst snd]. auto. }
    split.
    - intros s' x y N H1 H2. change (fst (r1', r2') (jr s' x y) = r1 (jr s' x y) /\ snd (r1', r2') (jr s' x y) = r2 (jr s' x y)). eapply (ofold_inv (fun st : arr b32 * arr b32 => fst st (jr s' x y) = r1 (jr s' x y) /\ snd st (jr s' x y) = r2 (jr s' x y))); [exact E|auto|].
      intros (m & n) st st' Hmn (I1 & I2) F. apply in_prod_iff in Hmn. destruct Hmn as (Hm & Hn). apply in_zrange in Hm, Hn. apply Step in F. cbn [fst snd] in F. destruct F as (-> & ->).
      rewrite !aset_ne; auto; intros Q; [symmetry in Q|symmetry in Q]; apply Inj in Q; lia.
    - intros x y H1 H2. cbv zeta. change (fst (r1', r2') (jr s x y) = fadd (fst (r1, r2) (jr s x y)) (fdiv (u1 (y + x * gyF g)) (su (y + x * gyF g))) /\ snd (r1', r2') (jr s x y) = fadd (snd (r1, r2) (jr s x y)) (fdiv (u2 (y + x * gyF g)) (su (y + x * gyF g)))).
      assert (In (x, y) (list_prod (zrange 0 (gxF g)) (zrange 0 (gyF g)))) by (apply in_prod; apply in_zrange; lia). assert (NoDup (list_prod (zrange 0 (gxF g)) (zrange 0 (gyF g)))) by (apply NoDup_prod; apply NoDup_zrange).
      split.
      + apply (ofold_once (fun st : arr b32 * arr b32 => fst st (jr s x y)) (fun v => fadd v (fdiv (u1 (y + x * gyF g)) (su (y + x * gyF g)))) _ (x, y) _ _ _ E); auto.
        * intros (m & n) st st' Hmn N F. apply in_prod_iff in Hmn. destruct Hmn as (Hm & Hn). apply in_zrange in Hm, Hn. apply Step in F. cbn [fst snd] in F. destruct F as (-> & _). rewrite aset_ne; auto. intros Q. symmetry in Q. apply Inj in Q; try lia. apply N. f_equal; lia.
        * intros st st' F. apply Step in F. cbn [fst snd] in F. destruct F as (-> & _). now rewrite aset_eq.
      + apply (ofold_once (fun st : arr b32 * arr b32 => snd st (jr s x y)) (fun v => fadd v (fdiv (u2 (y + x * gyF g)) (su (y + x * gyF g)))) _ (x, y) _ _ _ E); auto.
        * intros (m & n) st st' Hmn N F. apply in_prod_iff in Hmn. destruct Hmn as (Hm & Hn). apply in_zrange in Hm, Hn. apply Step in F. cbn [fst snd] in F. destruct F as (_ & ->). rewrite aset_ne; auto. intros Q. symmetry in Q. apply Inj in Q; try lia. apply N. f_equal; lia.
        * intros st st' F. apply Step in F. cbn [fst snd] in F. destruct F as (_ & ->). now rewrite aset_eq.
  Qed.
End Values.
