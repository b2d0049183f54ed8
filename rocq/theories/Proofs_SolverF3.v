From Verif Require Import Base Order CLoop Model_Ray Proofs_Ray Model_RayF Model_SolverF Spec_SolverF Proofs_FloatB Proofs_RayF Proofs_RayF2 Proofs_RayF3 Proofs_RayF4 Proofs_SolverF Proofs_SolverF2.
From Coq Require Import Reals Lra Psatz.
From Flocq Require Import Core BinarySingleNaN.
Local Open Scope R_scope.

(** ** NaN or no sign *)
Lemma nn_V x : nn x -> 0 <= V x.
Proof. destruct x as [s|s| |s m e H]; unfold nn; cbn; intros E; try lra. subst. apply F2R_ge_0. cbn. lia. Qed.
Lemma nn_overflow (z : b32) : B2SF z = binary_overflow 24 128 mode_NE false -> nn z.
Proof. destruct z as [s|s| |s m e H]; cbn; intros E; try discriminate. injection E as ->. reflexivity. Qed.
Lemma nn_add x y : nn x -> nn y -> nn (fadd x y).
Proof.
  intros Hx Hy. destruct (fin x) eqn:Fx; [destruct (fin y) eqn:Fy|].
  - pose proof (Bplus_correct 24 128 p32 e32 mode_NE x y Fx Fy) as C. fold (fadd x y) in C. destruct (Rlt_bool _ _).
    + destruct C as (_ & _ & C). unfold nn. rewrite C. pose proof (nn_V x Hx). pose proof (nn_V y Hy). destruct (Rcompare_spec (V x + V y) 0); [lra| |reflexivity]. rewrite Hx. reflexivity.
    + destruct C as (C & _). rewrite Hx in C. apply nn_overflow. exact C.
  - destruct y as [s|s| |s m e H]; try discriminate; unfold nn in *; destruct x as [s'|s'| |s' m' e' H']; cbn in *; subst; try reflexivity; discriminate.
  - destruct x as [s|s| |s m e H]; try discriminate; unfold nn in *; destruct y as [s'|s'| |s' m' e' H']; cbn in *; subst; try reflexivity; discriminate.
Qed.
Lemma sign_mul x y : xorb (Bsign x) (Bsign y) = false -> nn (fmul x y).
Proof.
  intros E. pose proof (Bmult_correct 24 128 p32 e32 mode_NE x y) as C. fold (fmul x y) in C. destruct (Rlt_bool _ _).
  - destruct C as (_ & _ & C). unfold nn. destruct (is_nan (fmul x y)) eqn:N; [destruct (fmul x y); try discriminate; reflexivity|]. rewrite C by auto. exact E.
  - rewrite E in C. apply nn_overflow. exact C.
Qed.
Lemma nn_mul x y : nn x -> nn y -> nn (fmul x y).
Proof. intros Hx Hy. apply sign_mul. rewrite Hx, Hy. reflexivity. Qed.
Lemma nn_sqr x : nn (fmul x x).
Proof. apply sign_mul. apply xorb_nilpotent. Qed.
Lemma nn_div x y : nn x -> nn y -> nn (fdiv x y).
Proof.
  intros Hx Hy. destruct (Req_dec (V y) 0) as [Z0|N0].
  - destruct y as [s|s| |s m e H]; unfold nn in *; cbn in Hy; try subst s.
    + destruct x as [s'|s'| |s' m' e' H']; cbn in *; subst; reflexivity.
    + destruct x as [s'|s'| |s' m' e' H']; cbn in *; subst; reflexivity.
    + destruct x as [s'|s'| |s' m' e' H']; cbn in *; subst; reflexivity.
    + exfalso. apply eq_0_F2R in Z0. cbn in Z0. discriminate.
  - pose proof (Bdiv_correct 24 128 p32 e32 mode_NE x y N0) as C. fold (fdiv x y) in C. destruct (Rlt_bool _ _).
    + destruct C as (_ & _ & C). unfold nn. destruct (is_nan (fdiv x y)) eqn:N; [destruct (fdiv x y); try discriminate; reflexivity|]. rewrite C by auto. rewrite Hx, Hy. reflexivity.
    + rewrite Hx, Hy in C. apply nn_overflow. exact C.
Qed.
Lemma nn_sqrt x : nn x -> nn (fsqrt x).
Proof.
  intros Hx. pose proof (Bsqrt_correct 24 128 p32 e32 mode_NE x) as (_ & _ & C). fold (fsqrt x) in C. unfold nn.
  destruct (is_nan (fsqrt x)) eqn:N; [destruct (fsqrt x); try discriminate; reflexivity|]. rewrite C; auto.
Qed.
Lemma nn_dist c n : nn (seg_distF c n).
Proof. unfold seg_distF. apply nn_sqrt, nn_add; apply nn_sqr. Qed.
Lemma nn_traced g buf t segs i w : traced_of g buf t = Some segs -> In (i, w) segs -> nn w.
Proof.
  unfold traced_of. destruct (_ && _)%bool; [|discriminate]. intros E Hi. apply omap_forall2 in E. destruct (Forall2_in_r _ _ _ _ E Hi) as (n & _ & F). ob F. ob F. injection F as <- <-. apply nn_dist.
Qed.
Lemma nn_segs fmodf sinf cosf junk g c p d segs i w : segsF fmodf sinf cosf junk g c p d = Some segs -> In (i, w) segs -> nn w.
Proof. unfold segsF. intros E Hi. ob E. ob E. destruct junk as ((? & ?) & ?). eapply nn_traced; eauto. Qed.
Lemma nn_psegs fmodf sinf cosf junk g c p d segs i w : project_segs fmodf sinf cosf junk g c p d = Some segs -> In (i, w) segs -> nn w.
Proof. unfold project_segs. intros E Hi. ob E. ob E. destruct junk as ((? & ?) & ?). eapply nn_traced; eauto. Qed.

(** Signs in the results, for every run that ends *)
Section Signs.
  Variables (fmodf sinf cosf : b32 -> b32) (junk : arr pointF * arr pointF * arr pointF) (g : geomF).
  Notation nnr := (inP nn (nrec g)).
  Notation nnd := (inP nn (ndata g)).
  Lemma in_store (P : b32 -> Prop) n m (a : arr b32) i v r : store m a i v = Some r -> inP P n a -> P v -> inP P n r.
  Proof. intros E Ha Hv. apply store_some in E. destruct E as (_ & ->). intros j Hj. unfold aset. destruct (Z.eqb _ _); auto. Qed.
  Lemma sim_nn segs s p d m a r : (forall i w, In (i, w) segs -> nn w) -> simdataF g segs s p d m a = Some r -> nnr m -> nnd a -> nnd r.
  Proof.
    intros Hw E Hm Ha. unfold simdataF in E. ob E. ob E. eapply (ofold_inv nnd); [exact E|exact Ha|]. intros (i & w) u v Hi Hu F. ob F. ob F. apply load_some in E2, E3. destruct E2 as (H2 & ->), E3 as (H3 & ->).
    eapply in_store; [exact F|exact Hu|]. apply nn_add; [apply Hu; auto|]. apply nn_mul; [apply Hm; auto|eauto].
  Qed.
  Theorem project_nn obj data r : projectF fmodf sinf cosf junk g obj data = Some r -> nnr obj -> nnd data -> nnd r.
  Proof.
    intros E Ho Hd. unfold projectF in E. destruct (emptyF g); [same|]. ob E. eapply (ofor_inv nnd); [exact E|exact Hd|]. clear E Hd data r. intros p u v _ Hu F.
    eapply (ofor_inv nnd); [exact F|exact Hu|]. clear F Hu u v. intros d u v _ Hu F. ob F. eapply (ofor_inv nnd); [exact F|exact Hu|]. clear F Hu u v. intros s u v _ Hu F.
    eapply sim_nn; [|exact F|exact Ho|exact Hu]. intros i w. eapply nn_psegs; eassumption.
  Qed.
  Theorem fbp_nn data recon r : fbpF fmodf sinf cosf junk g data recon = Some r -> nnd data -> nnr recon -> nnr r.
  Proof.
    intros E Hd Hr. unfold fbpF in E. destruct (emptyF g); [same|]. eapply (ofor_inv nnr); [exact E|exact Hr|]. clear E Hr recon r. intros s u v _ Hu F. ob F.
    eapply (ofor_inv nnr); [exact F|exact Hu|]. clear F Hu u v. intros p u v _ Hu F. eapply (ofor_inv nnr); [exact F|exact Hu|]. clear F Hu u v. intros d u v _ Hu F. ob F. ob F. ob F.
    eapply (ofold_inv nnr); [exact F|exact Hu|]. clear F Hu u v. intros (i & w) u v Hi Hu F. ob F. ob F. apply load_some in E3, E4. destruct E3 as (H3 & ->), E4 as (H4 & ->).
    eapply in_store; [exact F|exact Hu|]. apply nn_add; [apply Hu; auto|]. apply nn_mul; [apply Hd; auto|]. eapply nn_segs; eauto.
  Qed.
  Section Os.
    Variables (data : arr b32) (num_block : Z) (ind_block : arr Z).
    Notation os_ := (os_solveF fmodf sinf cosf junk g osem_ruleF data num_block ind_block).
    Notation nnp := (inP nn (npixF g)).
    Lemma add_nn (segs : list (Z * b32)) (f : b32 -> b32 -> b32) (a r : arr b32) : (forall v i w, In (i, w) segs -> nn v -> nn (f v w)) ->
      ofold (fun '(i, w) a => let? v := load (npixF g) a i in store (npixF g) a i (f v w)) segs a = Some r -> nnp a -> nnp r.
    Proof.
      intros Hf E Ha. eapply (ofold_inv nnp); [exact E|exact Ha|]. intros (i & w) u v Hi Hu F. ob F. apply load_some in E0. destruct E0 as (H0 & ->). eapply in_store; [exact F|exact Hu|]. eapply Hf; eauto.
    Qed.
    Lemma memset_nn n a : inP nn n (memsetF n a).
    Proof. intros i Hi. unfold memsetF. replace ((0 <=? i) && (i <? n))%Z with true by lia. reflexivity. Qed.
    Theorem osem_nn num_iter recon sd su up r : os_ num_iter recon sd su up = Some r -> nnd data -> nnr recon -> nnr r.
    Proof.
      intros E Hd Hr. unfold os_solveF in E. destruct (emptyF g); [same|]. ob E. ob E. set (R4 := fun st : arr b32 * arr b32 * arr b32 * arr b32 => nnr (fst (fst (fst st)))).
      assert (Q : R4 a0).
      { eapply (ofor_inv R4); [exact E1|exact Hr|]. clear E E1 Hr. intros it (((rc & d1) & d2) & d3) v _ Hu F. unfold R4 in Hu. cbn [fst] in Hu.
        set (I4 := fun st : arr b32 * arr b32 * arr b32 * arr b32 => nnr (fst (fst (fst st))) /\ nnd (snd (fst (fst st)))).
        assert (Q : I4 v); [|apply Q]. eapply (ofor_inv I4); [exact F|split; [exact Hu|apply memset_nn]|]. clear F Hu v rc d1 d2 d3. intros s u v _ Hu F. unfold os_sliceF in F. ob F. ob F. injection F as <-.
        eapply (ofor_inv (fun x => I4 (snd x))); [exact E1|exact Hu|]. clear E1 Hu u. intros os (start & (((rc & sd1) & su1) & up1)) v _ (Hu1 & Hu2) F'. cbn [fst snd] in Hu1, Hu2. unfold os_blockF in F'. ob F'. ob F'. ob F'.
        set (I3 := fun st : arr b32 * arr b32 * arr b32 => nnd (fst (fst st)) /\ nnp (snd (fst st)) /\ nnp (snd st)).
        assert (Q3 : I3 a5).
        { eapply (ofor_inv I3); [exact E3|split; [exact Hu2|split; apply memset_nn]|]. clear E3 F' a5. intros q x y _ Hx F'. ob F'. eapply (ofor_inv I3); [exact F'|exact Hx|]. clear F' Hx x y.
          intros d ((x1 & x2) & x3) y _ (Hx1 & Hx2 & Hx3) F'. cbn [fst snd] in *. unfold os_rayF in F'. ob F'. pose proof (fun i w => nn_segs _ _ _ _ _ _ _ _ _ i w E4) as Hw. ob F'. ob F'.
          pose proof (sim_nn _ _ _ _ _ _ _ Hw E5 Hu1 Hx1) as G1. assert (G2 : nnp a8) by (eapply (add_nn _ fadd); [|exact E6|exact Hx2]; intros; apply nn_add; eauto).
          destruct (nez _); [|injection F' as <-; repeat split; assumption]. ob F'. ob F'. ob F'. ob F'. injection F' as <-. apply load_some in E8, E9. destruct E8 as (H9 & ->), E9 as (H10 & ->).
          split; [exact G1|]. split; [exact G2|]. eapply (add_nn _ (fun v w => fadd v (fmul _ w))); [|exact E10|exact Hx3]. intros v' i w Hi Hv. apply nn_add; auto. apply nn_mul; [|eauto]. cbn. apply nn_div; [apply Hd; auto|apply G1; auto]. }
        destruct a5 as ((x1 & x2) & x3). ob F'. injection F' as <-. destruct Q3 as (G1 & G2 & G3). cbn [fst snd] in *. split; [|exact G1]. cbn [fst snd].
        eapply (ofor_inv nnr); [exact E4|exact Hu1|]. clear E4 Hu1. intros n x y _ Hx F'. ob F'. apply load_some in E4. destruct E4 as (H5 & ->). destruct (nez _); [|same]. ob F'. ob F'. ob F'.
        apply load_some in E5, E6. destruct E5 as (H6 & ->), E6 as (H7 & ->). eapply in_store; [exact F'|exact Hx|]. cbn. apply nn_mul; [apply Hx; auto|]. apply nn_div; [apply G3|apply G2]; auto. }
      destruct a0 as (((? & ?) & ?) & ?). injection E as <-. exact Q.
    Qed.
  End Os.
  (** A property of a cell kept by the correction *)
  Theorem os_cell ru data num_block ind_block num_iter recon sd su up r (Q : b32 -> Prop) k : (forall x u s, Q x -> Q (new_of ru x u s)) ->
    os_solveF fmodf sinf cosf junk g ru data num_block ind_block num_iter recon sd su up = Some r -> Q (recon k) -> Q (r k).
  Proof.
    intros HQ E Hr. unfold os_solveF in E. destruct (emptyF g); [same|]. ob E. ob E. set (R4 := fun st : arr b32 * arr b32 * arr b32 * arr b32 => Q (fst (fst (fst st)) k)).
    assert (H : R4 a0).
    { eapply (ofor_inv R4); [exact E1|exact Hr|]. clear E E1 Hr. intros it (((rc & d1) & d2) & d3) v _ Hu F. eapply (ofor_inv R4); [exact F|exact Hu|]. clear F Hu v rc d1 d2 d3. intros s u v _ Hu F.
      unfold os_sliceF in F. ob F. ob F. injection F as <-. eapply (ofor_inv (fun x => R4 (snd x))); [exact E1|exact Hu|]. clear E1 Hu u. intros os (start & (((rc & sd1) & su1) & up1)) v _ Hu F.
      unfold os_blockF in F. ob F. ob F. ob F. destruct a5 as ((x1 & x2) & x3). ob F. injection F as <-. unfold R4 in *. cbn [fst snd] in *.
      eapply (ofor_inv (fun x : arr b32 => Q (x k))); [exact E4|exact Hu|]. clear E4 Hu. intros n x y _ Hx F. ob F. destruct (nez _); [|same]. ob F. ob F. ob F. apply load_some in E7. destruct E7 as (_ & ->).
      apply store_some in F. destruct F as (_ & ->). unfold aset. destruct (Z.eqb_spec k (n + a7)) as [->|N]; auto. }
    destruct a0 as (((? & ?) & ?) & ?). injection E as <-. exact H.
  Qed.
End Signs.
