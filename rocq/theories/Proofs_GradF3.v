From Verif Require Import Base Order CLoop Model_Ray Proofs_Ray Model_RayF Model_SolverF Spec_SolverF Model_PmlF Model_GradF Proofs_FloatB Proofs_RayF Proofs_RayF2 Proofs_RayF3 Proofs_RayF4.
From Verif Require Import Proofs_SolverF Proofs_SolverF2 Proofs_SolverF6 Proofs_PmlF Spec_PmlF Proofs_PmlF3 Proofs_PmlF4 Spec_GradF Proofs_GradF2.
From Flocq Require Import Core BinarySingleNaN.
Local Open Scope Z_scope.

Lemma ofold_ext {St X} (f f' : X -> St -> option St) l s : (forall x s, f x s = f' x s) -> ofold f l s = ofold f' l s.
Proof. intros H. revert s. induction l as [|x l IH]; intros s; cbn; auto. rewrite H. destruct (f' x s); cbn; auto. Qed.
Lemma flat_map_ext_in' {A B} (f f' : A -> list B) l : (forall x, In x l -> f x = f' x) -> flat_map f l = flat_map f' l.
Proof. induction l as [|x l IH]; cbn; intros H; auto. rewrite H, IH; auto. Qed.
Lemma flat_one {A} (l : list A) : flat_map (fun x => [x]) l = l.
Proof. induction l; cbn; congruence. Qed.
Lemma pixels_flat {St} g s f (st : St) : 0 <= gxF g -> 0 <= gyF g -> pixelsF g s f st = let? base := cint (s * gxF g * gyF g) in ofor 0 (gxF g * gyF g) (fun j st => let? q := cint (base + j) in f q st) st.
Proof.
  intros H1 H2. unfold pixelsF. destruct (cint _) as [base|]; [|reflexivity]. cbn [obind]. rewrite <- nest_flat by auto. apply ofold_ext. intros iy t. apply ofold_ext. intros ix t'. now rewrite Z.add_assoc.
Qed.
(** ** Images that agree on the grid *)
Section Ext.
  Variables (segs : Z -> Z -> list (Z * b32)) (dt dx gx gy : Z) (data : Z -> Z -> b32) (r first par : b32) (prior prior' : option (b32 * (Z -> b32))).
  Definition agree (x x' : Z -> b32) : Prop := forall i, 0 <= i < gx * gy -> x i = x' i.
  Hypothesis Hseg : forall p d i w, In (i, w) (segs p d) -> 0 <= i < gx * gy.
  Lemma simulated_ext x x' p d : agree x x' -> simulated segs x p d = simulated segs x' p d.
  Proof. intros H. unfold simulated. f_equal. apply map_ext_in. intros (j & w) Hj. f_equal. apply H. eapply Hseg; eauto. Qed.
  Lemma back_ext back q q' i : (forall p d, 0 <= p < dt -> 0 <= d < dx -> q p d = q' p d) -> back_sum segs dt dx back q i = back_sum segs dt dx back q' i.
  Proof.
    intros H. unfold back_sum. f_equal. unfold rays. apply flat_map_ext_in'. intros p Hp. apply in_zrange in Hp. apply flat_map_ext_in'. intros d Hd. apply in_zrange in Hd. destruct (nez _); auto. apply map_ext. intros w. now rewrite H.
  Qed.
  Lemma gradient_ext x x' : agree x x' -> agree (gradient segs dt dx data r prior x) (gradient segs dt dx data r prior x').
  Proof. intros H i Hi. unfold gradient. rewrite (H i Hi). erewrite back_ext; [reflexivity|]. intros p d _ _. cbv beta. now rewrite (simulated_ext x x'). Qed.
  Lemma bb_ext x x0 y y0 x' x0' y' y0' : agree x x' -> agree x0 x0' -> agree y y' -> agree y0 y0' -> bb gx gy x x0 y y0 = bb gx gy x' x0' y' y0'.
  Proof.
    intros H1 H2 H3 H4. unfold bb. cbv zeta.
    assert (K : forall l, (forall i, In i l -> 0 <= i < gx * gy) -> forall a b, fold_left (fun a i => fadd a (fmul (fsub (x i) (x0 i)) (fsub (y i) (y0 i)))) l a = fold_left (fun a i => fadd a (fmul (fsub (x' i) (x0' i)) (fsub (y' i) (y0' i)))) l a /\
      fold_left (fun a i => dadd a (to64 (fmul (fsub (y i) (y0 i)) (fsub (y i) (y0 i))))) l b = fold_left (fun a i => dadd a (to64 (fmul (fsub (y' i) (y0' i)) (fsub (y' i) (y0' i))))) l b).
    { induction l as [|i l IH]; cbn [fold_left]; intros Hl a b; auto. assert (Hi : 0 <= i < gx * gy) by (apply Hl; now left). rewrite (H1 i Hi), (H2 i Hi), (H3 i Hi), (H4 i Hi). apply IH. intros j Hj. apply Hl. now right. }
    destruct (K (zrange 0 (gx * gy)) ltac:(intros i Hi; apply in_zrange in Hi; exact Hi) zeroF (of_int64 0)) as (-> & ->). reflexivity.
  Qed.
  Lemma step_ext k x x0 y y0 x' x0' y' y0' : agree x x' -> agree x0 x0' -> agree y y' -> agree y0 y0' -> step gx gy first par k x x0 y y0 = step gx gy first par k x' x0' y' y0'.
  Proof. intros. unfold step. erewrite bb_ext by eauto. reflexivity. Qed.
End Ext.

Section Value.
  Variables (fmodf sinf cosf : b32 -> b32) (junk : arr pointF * arr pointF * arr pointF) (g : geomF).
  Hypothesis Hx : 1 <= gxF g <= 2 ^ 15.
  Hypothesis Hy : 1 <= gyF g <= 2 ^ 15.
  Hypothesis Hd : 0 <= dxF g.
  Hypothesis Ht : 0 <= dtF g.
  Hypothesis Hdy : 0 <= dyF g.
  Variables (data : arr b32) (nreg : Z) (reg : arr b32) (prior : option (Z * arr b32)).
  Notation segs_ := (segs_of fmodf sinf cosf junk g).
  Notation img := (img_of g).
  Notation dat := (data_of g).
  Notation agree_ := (agree (gxF g) (gyF g)).
  Definition prior_of (s : Z) : option (b32 * (Z -> b32)) := match prior with None => None | Some (_, rd) => Some (reg 1, img rd s) end.
  Notation gradient_ s r := (gradient (segs_ (centerF g s%Z)) (dtF g) (dxF g) (dat data s%Z) r (prior_of s%Z)).
  Notation step_ := (step (gxF g) (gyF g) first_step (reg 0)).
  Lemma seg_s s p d i w : In (i, w) (segs_ (centerF g s) p d) -> 0 <= i < gxF g * gyF g.
  Proof. intros H. apply (segs_in fmodf sinf cosf junk g Hx Hy _ _ _ _ _ H). Qed.
  (** The observed cell: pixel i of slice s *)
  Section Cell.
    Variables (s i : Z).
    Hypothesis Hs : 0 <= s < dyF g.
    Hypothesis Hi : 0 <= i < npixF g.
    Notation at_ := (fun a : arr b32 => a (i + s * gxF g * gyF g)).
    Lemma scale_value op a r : ofor 0 (dyF g) (scaleF g op) a = Some r -> img r s i = op (img a s i).
    Proof.
      intros E. unfold img_of. apply (slices_once g at_ op _ _ _ s E Hs). intros s' u v F. apply (pixels_once g Hx Hy at_ op _ _ _ _ s i F Hi). intros q u' v' F'. ob F'. ldl. apply store_some in F'. destruct F' as (_ & ->).
      destruct (Z.eqb_spec q (i + s * gxF g * gyF g)) as [->|N]; [now rewrite aset_eq|]. now rewrite aset_ne by congruence.
    Qed.
    Lemma grad_radon r rc pr sd' pr' gr' : ofor 0 (dyF g) (radon_sliceF fmodf sinf cosf junk g data (grad_res r) (grad_back r) rc) (calloc, pr, calloc) = Some (sd', pr', gr') ->
      img gr' s i = back_sum (segs_ (centerF g s)) (dtF g) (dxF g) (grad_back r) (fun p d => fsub (fmul (simulated (segs_ (centerF g s)) (img rc s) p d) r) (dat data s p d)) i.
    Proof.
      intros E. set (B := back_sum _ _ _ _ _ _). pose (I := fun n (st : arr b32 * arr b32 * arr b32) => let '(sd, _, gr) := st in (forall j, n * dtF g * dxF g <= j -> sd j = zeroF) /\ img gr s i = if s <? n then B else zeroF).
      assert (G : I (dyF g) (sd', pr', gr')).
      { eapply (ofor_ind I); [exact E|lia| |].
        - split; [reflexivity|]. replace (s <? 0) with false by lia. reflexivity.
        - clear E sd' pr' gr'. intros n ((sd & px) & gr) ((sd' & px') & gr') Hn (A1 & A2) E. apply (radon_slice_value fmodf sinf cosf junk g Hx Hy Hd Ht data) in E; [|exact A1]. destruct E as (E1 & _ & E3). split; [exact E1|].
          rewrite (E3 i s Hi), A2. destruct (Z.eqb_spec n s) as [->|N].
          + replace (s <? s) with false by lia. replace (s <? s + 1) with true by lia. reflexivity.
          + replace (s <? n + 1) with (s <? n) by lia. reflexivity. }
      destruct G as (_ & G). rewrite G. replace (s <? dyF g) with true by lia. reflexivity.
    Qed.
    Lemma prior_value rc gr r : ofor 0 (dyF g) (priorF g nreg reg prior rc) gr = Some r ->
      img r s i = match prior_of s with None => img gr s i | Some (alpha, ref) => fadd (img gr s i) (fmul (fmul (of_int 2) alpha) (fsub (img rc s i) (ref i))) end.
    Proof.
      intros E. unfold prior_of, priorF in *. destruct prior as [(n & rd)|].
      - unfold img_of. apply (slices_once g at_ (fun v => fadd v (fmul (fmul (of_int 2) (reg 1)) (fsub (rc (i + s * gxF g * gyF g)) (rd (i + s * gxF g * gyF g))))) _ _ _ s E Hs). intros s' u v F.
        apply (pixels_once g Hx Hy at_ (fun v => fadd v (fmul (fmul (of_int 2) (reg 1)) (fsub (rc (i + s * gxF g * gyF g)) (rd (i + s * gxF g * gyF g))))) _ _ _ _ s i F Hi). intros q u' v' F'. ob F'. ldl. ob F'. ldl. ob F'. ldl. ob F'. ldl. apply store_some in F'. destruct F' as (_ & ->).
        destruct (Z.eqb_spec q (i + s * gxF g * gyF g)) as [->|N]; [now rewrite aset_eq|]. now rewrite aset_ne by congruence.
      - apply (slices_once g (fun a => img a s i) (fun v => v) _ _ _ s E Hs). intros s' u v F. injection F as <-. destruct (s' =? s); reflexivity.
    Qed.
    Lemma descend_value l gr a r : ofor 0 (dyF g) (descendF g l gr) a = Some r -> img r s i = fsub (img a s i) (fmul (l s) (img gr s i)).
    Proof.
      intros E. unfold img_of. apply (slices_once g at_ (fun v => fsub v (fmul (l s) (gr (i + s * gxF g * gyF g)))) _ _ _ s E Hs). intros s' u v F.
      rewrite (pixels_once g Hx Hy at_ (fun v => fsub v (fmul (l s') (gr (i + s * gxF g * gyF g)))) _ _ _ _ s i F Hi); [destruct (Z.eqb_spec s' s) as [->|N]; reflexivity|]. intros q u' v' F'. ob F'. ldl. ob F'. ldl. ob F'. ldl. apply store_some in F'. destruct F' as (_ & ->).
      destruct (Z.eqb_spec q (i + s * gxF g * gyF g)) as [->|N]; [now rewrite aset_eq|]. now rewrite aset_ne by congruence.
    Qed.
  End Cell.
  Lemma bb_value rc rc0 gr gr0 s v : bb_stepF g rc rc0 gr gr0 s = Some v -> v = bb (gxF g) (gyF g) (img rc s) (img rc0 s) (img gr s) (img gr0 s).
  Proof.
    intros E. unfold bb_stepF in E. ob E. injection E as <-. rewrite pixels_flat in E0 by lia. ob E0. apply cint_some in E. subst a0. unfold bb. cbv zeta. unfold ofor in E0.
    assert (Q : forall q, s * gxF g * gyF g + q = q + s * gxF g * gyF g) by (intros; ring). do 2 f_equal; [f_equal|].
    - rewrite (ofold_acc (fun a i => fadd a (fmul (fsub (img rc s i) (img rc0 s i)) (fsub (img gr s i) (img gr0 s i)))) _ fst (fun j => [j]) _ _ _ E0).
      + rewrite flat_one. reflexivity.
      + intros q (l & u) t _ F. ob F. apply cint_some in E. subst a0. ob F. ldl. ob F. ldl. ob F. ldl. ob F. ldl. injection F as <-. cbn [fst fold_left]. unfold img_of. now rewrite Q.
    - rewrite (ofold_acc (fun a i => dadd a (to64 (fmul (fsub (img gr s i) (img gr0 s i)) (fsub (img gr s i) (img gr0 s i))))) _ snd (fun j => [j]) _ _ _ E0).
      + rewrite flat_one. reflexivity.
      + intros q (l & u) t _ F. ob F. apply cint_some in E. subst a0. ob F. ldl. ob F. ldl. ob F. ldl. ob F. ldl. injection F as <-. cbn [snd fold_left]. unfold img_of. now rewrite Q.
  Qed.
  Lemma step_value k rc rc0 gr gr0 l r s : 0 <= k -> ofor 0 (dyF g) (stepF g nreg reg k rc rc0 gr gr0) l = Some r -> 0 <= s < dyF g -> r s = step_ (Z.to_nat k) (img rc s) (img rc0 s) (img gr s) (img gr0 s).
  Proof.
    intros Hk E Hs. apply (slices_once g (fun a : arr b32 => a s) (fun _ => step_ (Z.to_nat k) (img rc s) (img rc0 s) (img gr s) (img gr0 s)) _ _ _ s E Hs). intros s' u v F. unfold stepF in F. ob F. ldl. ob F. apply store_some in F. destruct F as (_ & ->).
    destruct (Z.eqb_spec s' s) as [->|N]; [|now rewrite aset_ne by congruence]. rewrite aset_eq. unfold step, fltb in *. destruct (Bltb _ _).
    - destruct (Z.eqb_spec k 0) as [->|N]; [now injection E0 as <-|]. apply bb_value in E0. destruct (Z.to_nat k) eqn:K; [lia|exact E0].
    - now injection E0 as <-.
  Qed.
  Lemma grad_iter_value r k st st' s : 0 <= k -> grad_iterF fmodf sinf cosf junk g data nreg reg prior r k st = Some st' -> 0 <= s < dyF g ->
    let x := img (fst (fst (fst (fst st)))) s in let x0 := img (snd (fst (fst (fst st)))) s in let y0 := img (snd (fst (fst st))) s in
    let x' := img (fst (fst (fst (fst st')))) s in let x0' := img (snd (fst (fst (fst st')))) s in let y0' := img (snd (fst (fst st'))) s in
    agree_ x' (fun i => fsub (x i) (fmul (step_ (Z.to_nat k) x x0 (gradient_ s r x) y0) (gradient_ s r x i))) /\ x0' = x /\ agree_ y0' (gradient_ s r x).
  Proof.
    destruct st as ((((rc & rc0) & gr0) & pr) & l). unfold grad_iterF. intros Hk E Hs. cbv zeta. ob E. destruct a as ((sd & pr') & gr). ob E. ob E. ob E. injection E as <-. cbn [fst snd].
    assert (Y : agree_ (img a s) (gradient_ s r (img rc s))).
    { intros i Hi. rewrite (prior_value s i Hs Hi _ _ _ E1). unfold gradient. rewrite (grad_radon s i Hs Hi _ _ _ _ _ _ E0). reflexivity. }
    split; [|split; [reflexivity|exact Y]]. intros i Hi. rewrite (descend_value s i Hs Hi _ _ _ _ E3), (Y i Hi), (step_value _ _ _ _ _ _ _ s Hk E2 Hs). do 2 f_equal.
    apply (step_ext (gxF g) (gyF g)); try exact Y; intros j Hj; reflexivity.
  Qed.
  Theorem grad_value num_iter l recon res s i : emptyF g = false -> 0 <= num_iter -> gradF fmodf sinf cosf junk g data nreg reg prior num_iter l recon = Some res -> 0 <= s < dyF g -> 0 <= i < npixF g ->
    img res s i = grad_image (segs_ (centerF g s)) (dtF g) (dxF g) (gxF g) (gyF g) (dat data s) (step_r (dxF g * dtF g)) first_step (reg 0) (prior_of s) (Z.to_nat num_iter) (img recon s) i.
  Proof.
    intros Em Hn E Hs Hi. unfold gradF in E. rewrite Em in E. ob E. clear E0. ob E. clear E0. ob E. apply cint_some in E0. subst. set (r := step_r (dxF g * dtF g)) in *. ob E. ob E. destruct a2 as ((((rc & rc0) & gr0) & pr) & l').
    pose (run := fun n => grad_run (segs_ (centerF g s)) (dtF g) (dxF g) (gxF g) (gyF g) (dat data s) r first_step (reg 0) (prior_of s) (Z.to_nat n) (img recon s)).
    pose (I := fun n (st : stateG) => agree_ (img (fst (fst (fst (fst st)))) s) (fst (fst (run n))) /\ agree_ (img (snd (fst (fst (fst st)))) s) (snd (fst (run n))) /\ agree_ (img (snd (fst (fst st))) s) (snd (run n))).
    assert (G : I num_iter ((((rc, rc0), gr0), pr), l')).
    { eapply (ofor_ind I); [exact E1|lia| |].
      - split; [|split].
        + intros j Hj. apply (scale_value s j Hs Hj _ _ _ E0).
        + intros j Hj. apply (scale_value s j Hs Hj _ _ _ E0).
        + intros j Hj. reflexivity.
      - intros n st st' Hn' (A1 & A2 & A3) E'. apply (grad_iter_value _ _ _ _ s) in E'; [|lia|exact Hs]. cbv zeta in E'. destruct E' as (B1 & B2 & B3). unfold I, run. replace (Z.to_nat (n + 1)) with (S (Z.to_nat n)) by lia. cbn [grad_run].
        fold (run n). destruct (run n) as ((x & x0) & y0). cbn [fst snd] in A1, A2, A3. unfold grad_next. cbn [fst snd].
        assert (Y : agree_ (gradient_ s r (img (fst (fst (fst (fst st)))) s)) (gradient_ s r x)). { apply gradient_ext; [apply seg_s|exact A1]. }
        split; [|split].
        + intros j Hj. rewrite (B1 j Hj), (A1 j Hj), (Y j Hj). do 2 f_equal. apply step_ext; assumption.
        + rewrite B2. exact A1.
        + intros j Hj. rewrite (B3 j Hj). apply Y; auto. }
    rewrite (scale_value s i Hs Hi _ _ _ E). unfold grad_image. f_equal. apply (proj1 G). exact Hi.
  Qed.
End Value.
