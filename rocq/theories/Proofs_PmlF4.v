From Verif Require Import Base Order CLoop Model_Ray Proofs_Ray Model_RayF Model_SolverF Spec_SolverF Model_PmlF Proofs_FloatB Proofs_RayF Proofs_RayF2 Proofs_RayF3 Proofs_RayF4 Proofs_SolverF Proofs_SolverF2 Proofs_SolverF6 Proofs_PmlF Spec_PmlF Proofs_PmlF3.
From Flocq Require Import Core BinarySingleNaN.
Local Open Scope Z_scope.

Ltac ldl := match goal with H : load _ _ _ = Some _ |- _ => apply load_some in H; destruct H as (_ & ->) end.
Section Value.
  Variables (fmodf sinf cosf : b32 -> b32) (junk : arr pointF * arr pointF * arr pointF) (g : geomF).
  Variables (hybrid : bool) (nreg : Z) (reg : arr b32) (data : arr b32) (ind_block : arr Z).
  Hypothesis Hx : 2 <= gxF g <= 2 ^ 15.
  Hypothesis Hy : 2 <= gyF g <= 2 ^ 15.
  Hypothesis Hd : 0 <= dxF g.
  Hypothesis Ht : 0 <= dtF g.
  Definition segs_of (c : b32) (p d : Z) : list (Z * b32) := match segsF fmodf sinf cosf junk g c p d with Some l => l | None => [] end.
  Definition data_of (s p d : Z) : b32 := data (d + p * dxF g + s * dtF g * dxF g).
  Definition img_of (rc : arr b32) (s i : Z) : b32 := rc (i + s * gxF g * gyF g).
  Lemma segs_of_in c p d : seg_ok g (segs_of c p d).
  Proof. unfold segs_of. destruct (segsF fmodf sinf cosf junk g c p d) eqn:E; [|intros i w []]. apply (seg_in fmodf sinf cosf junk g ltac:(lia) ltac:(lia) c p d l E). Qed.

  (** One ray *)
  Section Ray.
    Variables (s : Z) (rc : arr b32) (i : Z).
    Notation c := (centerF g s).
    Notation segs := (segs_of c).
    Notation img := (img_of rc s).
    Notation L1 := (lengths segs i).
    Notation L2 := (fun p d => if nez (sum_sq (segs p d)) then map (fun w => (fdiv (data_of s p d) (simulated segs img p d), w)) (lengths segs i p d) else []).
    Notation acc2 := (fun (v : b32) '(u, w) => fsub v (fmul (fmul (img i) u) w)).
    Notation base := (s * dtF g * dxF g).
    Lemma ray_value p d st st' : pml_rayF fmodf sinf cosf junk g data s c rc p d st = Some st' -> 0 <= i < npixF g -> fst (fst st) (d + p * dxF g + base) = zeroF ->
      (forall j, j <> d + p * dxF g + base -> fst (fst st') j = fst (fst st) j) /\
      snd (fst st') i = fold_left fadd (L1 p d) (snd (fst st) i) /\ snd st' i = fold_left acc2 (L2 p d) (snd st i).
    Proof.
      destruct st as ((sd & su) & e). cbn [fst snd]. intros E Hi H0. unfold pml_rayF in E. ob E.
      assert (Q : segs p d = a) by (unfold segs_of; now rewrite E0). ob E. pose proof (fun j => sim_cell g _ _ _ _ _ _ _ j E1) as S. ob E.
      assert (P1 : forall j, j <> d + p * dxF g + base -> a0 j = sd j). { intros j N. rewrite S. destruct (Z.eqb_spec (d + p * dxF g + base) j); [congruence|reflexivity]. }
      assert (P2 : a1 i = fold_left fadd (L1 p d) (su i)).
      { unfold lengths. rewrite Q. rewrite (ofold_acc fadd _ (fun st : arr b32 => st i) (fun '(j, w) => if j =? i then [w] else []) _ _ _ E2).
        - f_equal. clear. induction a as [|(j & w) l IH]; cbn; auto. destruct (j =? i); cbn; now rewrite IH.
        - intros (j & w) u v _ F. ob F. ldl. apply store_some in F. destruct F as (_ & ->). destruct (Z.eqb_spec j i) as [->|N]; [now rewrite aset_eq|]. rewrite aset_ne by congruence. reflexivity. }
      cbv beta. rewrite Q. destruct (nez (sum_sq a)) eqn:NZ; [|injection E as <-; cbn [fst snd]; auto].
      ob E. ob E. unfold ind_dataF in E3. apply cint_some in E3. apply cint_some in E4. subst a2 a3. ob E. ldl. ob E. ldl. ob E. injection E as <-. cbn [fst snd]. split; [exact P1|split; [exact P2|]].
      assert (V : a0 (d + p * dxF g + base) = simulated segs img p d). { rewrite S, Z.eqb_refl, H0. unfold simulated. now rewrite Q. }
      rewrite V in E3. fold (data_of s p d) in E3. set (u0 := fdiv (data_of s p d) (simulated segs img p d)) in *. unfold lengths. rewrite Q.
      rewrite (ofold_acc acc2 _ (fun st : arr b32 => st i) (fun '(j, w) => if j =? i then [(u0, w)] else []) _ _ _ E3).
      - f_equal. clear. induction a as [|(j & w) l IH]; cbn; auto. destruct (j =? i); cbn; now rewrite IH.
      - intros (j & w) u v _ F. ob F. ldl. ob F. ldl. apply store_some in F. destruct F as (_ & ->). destruct (Z.eqb_spec j i) as [->|N]; [now rewrite aset_eq|]. rewrite aset_ne by congruence. reflexivity.
    Qed.
    (** All rays of the slice *)
    Lemma rays_value sd st : 0 <= i < npixF g -> (forall j, base <= j -> sd j = zeroF) ->
      ofor 0 (dtF g) (fun q st => let? p := pickF g 1 ind_block q in ofor 0 (dxF g) (pml_rayF fmodf sinf cosf junk g data s c rc p) st) (sd, calloc, calloc) = Some st ->
      (forall j, base + dtF g * dxF g <= j -> fst (fst st) j = zeroF) /\
      snd (fst st) i = pix_length segs (dtF g) (dxF g) i /\ snd st i = pix_e segs (dtF g) (dxF g) (data_of s) img i.
    Proof.
      intros Hi H0 E. pose (R := fun (A : Type) (f : Z -> Z -> list A) n => flat_map (fun p => flat_map (f p) (zrange 0 (dxF g))) (zrange 0 n)).
      pose (I := fun n (st : arr b32 * arr b32 * arr b32) => (forall j, n * dxF g + base <= j -> fst (fst st) j = zeroF) /\ snd (fst st) i = fold_left fadd (R _ L1 n) zeroF /\ snd st i = fold_left acc2 (R _ L2 n) zeroF).
      assert (G : I (dtF g) st).
      { eapply (ofor_ind I); [exact E|lia| |].
        - split; [|split; reflexivity]. intros j Hj. apply H0. lia.
        - clear E st. intros p st st' Hp (A & B & C) E. ob E. unfold pickF in E0. cbn in E0. injection E0 as <-.
          pose (J := fun d (st : arr b32 * arr b32 * arr b32) => (forall j, d + p * dxF g + base <= j -> fst (fst st) j = zeroF) /\ snd (fst st) i = fold_left fadd (R _ L1 p ++ flat_map (L1 p) (zrange 0 d)) zeroF /\ snd st i = fold_left acc2 (R _ L2 p ++ flat_map (L2 p) (zrange 0 d)) zeroF).
          assert (H : J (dxF g) st').
          { eapply (ofor_ind J); [exact E|lia| |].
            - split; [intros j Hj; apply A; lia|]. split; rewrite zrange_nil by lia; cbn [flat_map]; rewrite app_nil_r; assumption.
            - clear E st st' A B C. intros d st st' Hd' (A & B & C) E. apply ray_value in E; [|exact Hi|apply A; lia]. destruct E as (E1 & E2 & E3). split; [|split].
              + intros j Hj. rewrite E1 by lia. apply A. lia.
              + rewrite E2, B, zrange_snoc, flat_map_app by lia. cbn [flat_map]. rewrite app_nil_r, app_assoc, !fold_left_app. reflexivity.
              + rewrite E3, C, zrange_snoc, flat_map_app by lia. cbn [flat_map]. rewrite app_nil_r, app_assoc, !fold_left_app. reflexivity. }
          destruct H as (A' & B' & C'). split; [intros j Hj; apply A'; lia|]. unfold R in *. rewrite zrange_snoc, !flat_map_app by lia. cbn [flat_map]. rewrite !app_nil_r. split; assumption. }
      destruct G as (A & B & C). split; [intros j Hj; apply A; lia|]. split; assumption.
    Qed.
  End Ray.

  (** The penalty *)
  Lemma coef_value w x y k : coefF hybrid nreg reg w x y = Some k -> k = coef hybrid (reg 0) (reg 1) w x y.
  Proof. unfold coefF, coef. intros E. ob E. ldl. destruct hybrid; [ob E; ldl|]; now injection E as <-. Qed.
  Lemma penalty_value s rc FG n m : penaltyF g hybrid nreg reg s rc = Some FG -> 0 <= n < gxF g -> 0 <= m < gyF g ->
    (fst FG (m + n * gyF g), snd FG (m + n * gyF g)) = pix_fg (gxF g) (gyF g) hybrid (reg 0) (reg 1) (img_of rc s) n m.
  Proof.
    intros E Hn Hm. set (i := m + n * gyF g). set (x := img_of rc s i).
    pose (acc := fun '(f, gg) (ow : Z * b32) => let y := img_of rc s (i + fst ow) in let k := coef hybrid (reg 0) (reg 1) (snd ow) x y in (fadd f k, fsub gg (fmul k (fadd x y)))).
    unfold penaltyF in E. pose proof (ofold_acc acc _ (fun FG : arr b32 * arr b32 => (fst FG i, snd FG i)) (fun v => if fst v =? i then snd v else []) _ _ _ E) as H. cbv beta in H. rewrite H; clear H.
    - replace (flat_map _ (visitsF (gxF g) (gyF g))) with (flat_map snd (filter (fun v => fst v =? i) (visitsF (gxF g) (gyF g)))).
      2:{ clear. induction (visitsF (gxF g) (gyF g)) as [|(a & b) l IH]; cbn [filter flat_map fst snd]; auto. destruct (a =? i); cbn [flat_map snd app]; now rewrite IH. }
      unfold i at 1. rewrite visitsF_at by lia. cbn [flat_map snd]. rewrite app_nil_r, nb_spec by lia. unfold pix_fg. fold i x. cbn [fst snd calloc]. change (calloc i) with zeroF.
      generalize (zeroF, zeroF). generalize (offsets (gxF g) (gyF g) n m). unfold acc. clearbody x.
      assert (Q : forall a b, m + b + (n + a) * gyF g = i + (b + a * gyF g)) by (intros; unfold i; ring).
      intros l. induction l as [|(a & b) l IH]; cbn [map fold_left]; intros fg; auto. rewrite IH. f_equal. destruct fg. cbn [fst snd]. rewrite Q. reflexivity.
    - intros (ind0 & nb) u v _ F. unfold pen_pxF in F. ob F. apply cint_some in E0. subst a. cbn [fst snd]. destruct (Z.eqb_spec ind0 i) as [->|N].
      + replace nb with (flat_map (fun ow : Z * b32 => [ow]) nb) by (clear; induction nb; cbn; congruence).
        eapply (ofold_acc acc _ (fun FG : arr b32 * arr b32 => (fst FG i, snd FG i))); [exact F|]. intros (o & w) (a & b) v' _ F'. ob F'. apply cint_some in E0. subst a0. ob F'. ldl. ob F'. ldl. ob F'. apply coef_value in E0. subst a0.
        ob F'. ldl. ob F'. apply store_some in E0. destruct E0 as (_ & ->). ob F'. ldl. ob F'. apply store_some in E0. destruct E0 as (_ & ->). injection F' as <-. cbn [fold_left fst snd]. rewrite !aset_eq. unfold acc. cbn [fst snd].
        unfold x, img_of. replace (i + s * gxF g * gyF g + o) with (i + o + s * gxF g * gyF g) by ring. reflexivity.
      + cbn [fold_left]. symmetry. eapply (ofold_inv (fun v : arr b32 * arr b32 => (fst u i, snd u i) = (fst v i, snd v i))); [exact F|reflexivity|]. intros (o & w) (a & b) v' _ H F'. rewrite H. clear H.
        ob F'. ob F'. ob F'. ob F'. ob F'. ob F'. apply store_some in E5. destruct E5 as (_ & ->). ob F'. ob F'. apply store_some in E6. destruct E6 as (_ & ->). injection F' as <-. cbn [fst snd]. rewrite !aset_ne by congruence. reflexivity.
  Qed.
  Lemma add_sum_value su G r i : add_sumF g su G = Some r -> 0 <= i < npixF g -> r i = fadd (G i) (su i).
  Proof.
    intros E Hi. assert (H : forall j, r j = if (0 <=? j) && (j <? npixF g) then fadd (G j) (su j) else G j).
    { eapply (ofor_ind (fun n (r : arr b32) => forall j, r j = if (0 <=? j) && (j <? n) then fadd (G j) (su j) else G j)); [exact E|lia| |].
      - intros j. replace ((0 <=? j) && (j <? 0)) with false by lia. reflexivity.
      - intros n u v Hn H F. ob F. ldl. ob F. ldl. apply store_some in F. destruct F as (_ & ->). intros j. destruct (Z.eq_dec j n) as [->|N].
        + rewrite aset_eq, H. replace ((0 <=? n) && (n <? n)) with false by lia. replace ((0 <=? n) && (n <? n + 1)) with true by lia. reflexivity.
        + rewrite aset_ne, H by auto. replace ((0 <=? j) && (j <? n + 1)) with ((0 <=? j) && (j <? n)) by lia. reflexivity. }
    rewrite H. replace ((0 <=? i) && (i <? npixF g)) with true by lia. reflexivity.
  Qed.
  Lemma new_value s e f G rc r : pml_newF g s e f G rc = Some r -> forall j, r j =
    let i := j - s * gxF g * gyF g in if (0 <=? i) && (i <? npixF g) then if nez (f i) then rootF (e i) (f i) (G i) else rc j else rc j.
  Proof.
    intros E. cbv zeta. pose (I := fun n (r : arr b32) => forall j, r j = let i := j - s * gxF g * gyF g in if (0 <=? i) && (i <? n) then if nez (f i) then rootF (e i) (f i) (G i) else rc j else rc j).
    change (I (npixF g) r). unfold npixF. eapply (ofor_ind (fun n => I (n * gyF g))); [exact E|lia| |].
    - intros j. cbv zeta. replace ((0 <=? j - s * gxF g * gyF g) && (j - s * gxF g * gyF g <? 0 * gyF g)) with false by lia. reflexivity.
    - clear E r. intros n u v Hn H E. replace ((n + 1) * gyF g) with (gyF g + n * gyF g) by ring. eapply (ofor_ind (fun m => I (m + n * gyF g))); [exact E|lia|exact H|].
      clear E u v H. intros m u v Hm H E j. cbv zeta. ob E. apply cint_some in E0. subst a. ob E. ldl. replace (m + 1 + n * gyF g) with (m + n * gyF g + 1) by ring. set (q := m + n * gyF g) in *. assert (0 <= q) by (unfold q; nia).
      destruct (Z.eq_dec (j - s * gxF g * gyF g) q) as [Q|N].
      + rewrite Q. replace ((0 <=? q) && (q <? q + 1)) with true by lia. destruct (nez (f q)).
        * ob E. apply cint_some in E0. subst a. ob E. ldl. ob E. ldl. apply store_some in E. destruct E as (_ & ->). replace (q + s * gxF g * gyF g) with j by lia. now rewrite aset_eq.
        * injection E as <-. rewrite H. cbv zeta. rewrite Q. replace ((0 <=? q) && (q <? q)) with false by lia. reflexivity.
      + replace ((0 <=? j - s * gxF g * gyF g) && (j - s * gxF g * gyF g <? q + 1)) with ((0 <=? j - s * gxF g * gyF g) && (j - s * gxF g * gyF g <? q)) by lia.
        destruct (nez (f q)).
        * ob E. apply cint_some in E0. subst a. ob E. ob E. apply store_some in E. destruct E as (_ & ->). rewrite aset_ne by lia. apply H.
        * injection E as <-. apply H.
  Qed.
  Notation new_ s := (pix_new (segs_of (centerF g s%Z)) (dtF g) (dxF g) (gxF g) (gyF g) (data_of s) hybrid (reg 0) (reg 1)).
  (** One slice *)
  Lemma slice_value s st st' : pml_sliceF fmodf sinf cosf junk g hybrid nreg reg data 1 ind_block s st = Some st' -> (forall j, s * dtF g * dxF g <= j -> snd st j = zeroF) ->
    (forall j, (s + 1) * dtF g * dxF g <= j -> snd st' j = zeroF) /\
    forall j, fst st' j = let i := j - s * gxF g * gyF g in if (0 <=? i) && (i <? npixF g) then new_ s (img_of (fst st) s) i else fst st j.
  Proof.
    unfold pml_sliceF. intros E H0. ob E. ldl. ob E. injection E as <-. unfold ofor in E0. cbn [zrange Z.to_nat Z.sub Z.add Z.opp Pos.to_nat Pos.iter_op Nat.add seq map ofold] in E0. change (zrange 0 1) with [0] in E0. cbn [ofold] in E0. ob E0. injection E0 as <-.
    destruct st as (rc & sd). cbn [fst snd] in *. unfold pml_blockF in E. ob E. ob E. unfold cdiv, crem in E0, E1. replace (1 =? 0) with false in E0, E1 by reflexivity. rewrite Z.quot_1_r in E0. rewrite Z.rem_1_r in E1. apply cint_some in E0, E1. subst a a1.
    change (Z.of_nat 0 <? 0) with false in E. cbv iota in E. rewrite Z.add_0_l, Z.add_0_r in E. ob E. destruct a as ((sd' & su') & e'). ob E. ob E. ob E. injection E as <-. cbn [fst snd].
    split.
    - intros j Hj. assert (P : 0 <= 0 < npixF g) by (unfold npixF; nia). destruct (rays_value s rc 0 sd _ P H0 E0) as (A & _). cbn [fst snd] in A. apply A. lia.
    - intros j. rewrite (new_value _ _ _ _ _ _ E3). cbv zeta. set (i := j - s * gxF g * gyF g). destruct ((0 <=? i) && (i <? npixF g)) eqn:R; [|reflexivity].
      assert (P : 0 <= i < npixF g) by lia. destruct (rays_value s rc i sd _ P H0 E0) as (_ & B & C). cbn [fst snd] in B, C. unfold pix_new.
      assert (Hn : 0 <= i / gyF g < gxF g). { unfold npixF in P. split; [apply Z.div_pos; lia|]. apply Z.div_lt_upper_bound; lia. }
      pose proof (Z.mod_pos_bound i (gyF g) ltac:(lia)) as Hm. pose proof (penalty_value _ _ _ _ _ E1 Hn Hm) as F. replace (i mod gyF g + i / gyF g * gyF g) with i in F by (pose proof (Z.div_mod i (gyF g)); lia).
      rewrite <- F, C. rewrite (add_sum_value _ _ _ _ E2 P), B. destruct (nez (fst a i)); [reflexivity|]. unfold img_of, i. f_equal. lia.
  Qed.
  (** pix_new reads only the slice *)
  Lemma offsets_in n m a b : In (a, b) (offsets (gxF g) (gyF g) n m) -> 0 <= n + a < gxF g /\ 0 <= m + b < gyF g.
  Proof. unfold offsets. intros H. apply filter_In in H. destruct H as (_ & H). lia. Qed.
  Lemma new_ext s im im' i : (forall k, 0 <= k < npixF g -> im k = im' k) -> 0 <= i < npixF g -> new_ s im i = new_ s im' i.
  Proof.
    intros H Hi. unfold pix_new. rewrite (H i Hi).
    assert (Hn : 0 <= i / gyF g < gxF g). { unfold npixF in Hi. split; [apply Z.div_pos; lia|]. apply Z.div_lt_upper_bound; lia. }
    pose proof (Z.mod_pos_bound i (gyF g) ltac:(lia)) as Hm.
    assert (A : pix_fg (gxF g) (gyF g) hybrid (reg 0) (reg 1) im (i / gyF g) (i mod gyF g) = pix_fg (gxF g) (gyF g) hybrid (reg 0) (reg 1) im' (i / gyF g) (i mod gyF g)).
    { unfold pix_fg. cbv zeta. rewrite (H (i mod gyF g + i / gyF g * gyF g)) by (unfold npixF; nia). pose proof (offsets_in (i / gyF g) (i mod gyF g)) as O. revert O. generalize (offsets (gxF g) (gyF g) (i / gyF g) (i mod gyF g)). generalize (zeroF, zeroF).
      intros fg l. revert fg. induction l as [|(a & b) l IH]; intros fg O; cbn [fold_left]; auto. destruct fg. destruct (O a b (or_introl eq_refl)). rewrite (H (i mod gyF g + b + (i / gyF g + a) * gyF g)) by (unfold npixF; nia). apply IH. intros; apply O; now right. }
    rewrite A. assert (B : forall p d, simulated (segs_of (centerF g s)) im p d = simulated (segs_of (centerF g s)) im' p d).
    { intros p d. unfold simulated. f_equal. apply map_ext_in. intros (j & w) Hj. f_equal. apply H. apply (segs_of_in _ _ _ _ _ Hj). }
    replace (pix_e (segs_of (centerF g s)) (dtF g) (dxF g) (data_of s) im i) with (pix_e (segs_of (centerF g s)) (dtF g) (dxF g) (data_of s) im' i); [reflexivity|].
    unfold pix_e. rewrite (H i Hi). f_equal. unfold rays. apply flat_map_ext. intros p. apply flat_map_ext. intros d. destruct (nez _); auto. apply map_ext. intros w. now rewrite B.
  Qed.
  (** One pass *)
  Lemma pass_value rc r : 0 <= dyF g -> ofor 0 (dyF g) (pml_sliceF fmodf sinf cosf junk g hybrid nreg reg data 1 ind_block) (rc, calloc) = Some r ->
    forall s i, 0 <= s < dyF g -> 0 <= i < npixF g -> img_of (fst r) s i = new_ s (img_of rc s) i.
  Proof.
    intros Hdy E. pose (I := fun n (st : arr b32 * arr b32) => (forall j, n * dtF g * dxF g <= j -> snd st j = zeroF) /\
      forall s i, 0 <= s -> 0 <= i < npixF g -> img_of (fst st) s i = if s <? n then new_ s (img_of rc s) i else img_of rc s i).
    assert (G : I (dyF g) r).
    { eapply (ofor_ind I); [exact E|lia| |].
      - split; [reflexivity|]. intros s i Hs Hi. replace (s <? 0) with false by lia. reflexivity.
      - clear E r. intros n st st' Hn (A & B) E. apply slice_value in E; [|exact A]. destruct E as (E1 & E2). split; [exact E1|]. intros s i Hs Hi. unfold img_of at 1. rewrite E2. cbv zeta.
        destruct (Z.eq_dec s n) as [->|N].
        + replace (i + n * gxF g * gyF g - n * gxF g * gyF g) with i by ring. replace ((0 <=? i) && (i <? npixF g)) with true by lia. replace (n <? n + 1) with true by lia. apply new_ext; auto.
          intros k Hk. rewrite B by lia. replace (n <? n) with false by lia. reflexivity.
        + replace ((0 <=? i + s * gxF g * gyF g - n * gxF g * gyF g) && (i + s * gxF g * gyF g - n * gxF g * gyF g <? npixF g)) with false.
          * change (fst st (i + s * gxF g * gyF g)) with (img_of (fst st) s i). rewrite (B s i) by auto. replace (s <? n + 1) with (s <? n) by lia. reflexivity.
          * symmetry. apply Bool.not_true_is_false. intros T. unfold npixF in *. assert (s < n \/ n < s) as [|] by lia; [assert ((s + 1) * (gxF g * gyF g) <= n * (gxF g * gyF g)) by nia; nia|assert ((n + 1) * (gxF g * gyF g) <= s * (gxF g * gyF g)) by nia; nia]. }
    intros s i Hs Hi. destruct G as (_ & G). rewrite (G s i ltac:(lia) Hi). replace (s <? dyF g) with true by lia. reflexivity.
  Qed.
  Theorem pml_value num_iter recon r s i : emptyF g = false -> 0 <= num_iter -> pmlF fmodf sinf cosf junk g hybrid nreg reg data 1 ind_block num_iter recon = Some r -> 0 <= s < dyF g -> 0 <= i < npixF g ->
    r (i + s * gxF g * gyF g) = passes (segs_of (centerF g s)) (dtF g) (dxF g) (gxF g) (gyF g) (data_of s) hybrid (reg 0) (reg 1) (Z.to_nat num_iter) (fun i => recon (i + s * gxF g * gyF g)) i.
  Proof.
    intros Em Hn E Hs Hi. unfold pmlF in E. rewrite Em in E. ob E. clear E0. revert i Hi.
    pose (I := fun n (r : arr b32) => forall i, 0 <= i < npixF g -> r (i + s * gxF g * gyF g) = passes (segs_of (centerF g s)) (dtF g) (dxF g) (gxF g) (gyF g) (data_of s) hybrid (reg 0) (reg 1) (Z.to_nat n) (fun i => recon (i + s * gxF g * gyF g)) i).
    change (I num_iter r). eapply (ofor_ind I); [exact E|lia| |].
    - intros i Hi. reflexivity.
    - clear E r. intros n u v Hn' H E i Hi. ob E. injection E as <-. pose proof (pass_value u a0 ltac:(lia) E0 s i Hs Hi) as Q. unfold img_of at 1 in Q. rewrite Q. replace (Z.to_nat (n + 1)) with (S (Z.to_nat n)) by lia. cbn [passes].
      apply new_ext; auto.
  Qed.
End Value.
