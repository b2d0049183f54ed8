From Verif Require Import Base Order CLoop Model_Ray Proofs_Ray Model_RayF Model_SolverF Spec_SolverF Model_PmlF Proofs_FloatB Proofs_RayF Proofs_RayF2 Proofs_RayF3 Proofs_RayF4 Proofs_SolverF Proofs_SolverF2.
From Flocq Require Import Core BinarySingleNaN.
Local Open Scope Z_scope.

(** ** Neighbours stay in the slice *)
Ltac destruct_or H := match type of H with _ \/ _ => let K := fresh in destruct H as [K|H]; [rewrite <- K; clear K|destruct_or H] | False => destruct H end.
Lemma in_weigh total near diag o w : In (o, w) (weighF total near diag) -> In o near \/ In o diag.
Proof. unfold weighF. intros H. apply in_app_or in H. destruct H as [H|H]; apply in_map_iff in H; destruct H as (o' & Q & H); injection Q as <- <-; auto. Qed.
Definition nb_ok (np : Z) (v : Z * list (Z * b32)) : Prop := 0 <= fst v < np /\ forall o w, In (o, w) (snd v) -> 0 <= fst v + o < np.
Lemma visits_ok gx gy : 2 <= gx -> 2 <= gy -> Forall (nb_ok (gx * gy)) (visitsF gx gy).
Proof.
  intros Hx Hy. unfold visitsF. cbv zeta.
  assert (K : forall gx' i j o1 o2, 0 <= i < gx -> 0 <= j < gy -> 0 <= i + o1 < gx -> 0 <= j + o2 < gy -> gx' = j + i * gy + (o2 + o1 * gy) -> 0 <= gx' < gx * gy) by (intros; nia).
  assert (M : forall i j total near diag, 0 <= i < gx -> 0 <= j < gy -> (forall o, In o near \/ In o diag -> exists o1 o2, o = o2 + o1 * gy /\ 0 <= i + o1 < gx /\ 0 <= j + o2 < gy) -> nb_ok (gx * gy) (j + i * gy, weighF total near diag)).
  { intros i j total near diag Hi Hj H. split; cbn [fst snd]; [nia|]. intros o w Ho. apply in_weigh in Ho. destruct (H o Ho) as (o1 & o2 & -> & H1 & H2). apply (K _ i j o1 o2); auto; lia. }
  Ltac nb := intros o [H|H]; cbn [In] in H; destruct_or H.
  Ltac wit a b := exists a, b; split; [ring|lia].
  Ltac find_ gy := match goal with
    | |- exists o1 o2, 1 = _ /\ _ => wit 0 1 | |- exists o1 o2, -1 = _ /\ _ => wit 0 (-1)
    | |- exists o1 o2, gy = _ /\ _ => wit 1 0 | |- exists o1 o2, - gy = _ /\ _ => wit (-1) 0
    | |- exists o1 o2, gy + 1 = _ /\ _ => wit 1 1 | |- exists o1 o2, gy - 1 = _ /\ _ => wit 1 (-1)
    | |- exists o1 o2, - gy + 1 = _ /\ _ => wit (-1) 1 | |- exists o1 o2, - gy - 1 = _ /\ _ => wit (-1) (-1) end.
  rewrite !Forall_app. split; [|split; [|split; [|split; [|split]]]].
  - apply Forall_flat_map. apply Forall_forall. intros n Hn. apply in_zrange in Hn. apply Forall_map, Forall_forall. intros m Hm. apply in_zrange in Hm. apply M; try lia. nb; find_ gy.
  - apply Forall_map, Forall_forall. intros m Hm. apply in_zrange in Hm. replace m with (m + 0 * gy) at 1 by ring. apply M; try lia. nb; find_ gy.
  - apply Forall_map, Forall_forall. intros m Hm. apply in_zrange in Hm. apply M; try lia. nb; find_ gy.
  - apply Forall_map, Forall_forall. intros m Hm. apply in_zrange in Hm. replace (m * gy) with (0 + m * gy) by ring. apply M; try lia. nb; find_ gy.
  - apply Forall_map, Forall_forall. intros m Hm. apply in_zrange in Hm. apply M; try lia. nb; find_ gy.
  - repeat apply Forall_cons; [| | | |apply Forall_nil].
    + replace 0 with (0 + 0 * gy) at 1 by ring. apply M; try lia. nb; find_ gy.
    + replace (gy - 1) with (gy - 1 + 0 * gy) at 1 by ring. apply M; try lia. nb; find_ gy.
    + replace ((gx - 1) * gy) with (0 + (gx - 1) * gy) by ring. apply M; try lia. nb; find_ gy.
    + apply M; try lia. nb; find_ gy.
Qed.

(** ** Safety *)
Section Safe.
  Variables (fmodf sinf cosf : b32 -> b32) (junk : arr pointF * arr pointF * arr pointF).
  Hypothesis Lm : libm fmodf sinf cosf.
  Variable g : geomF.
  Hypothesis Hg : sizes_ok g.
  Hypothesis Hs : small_ok g.
  Hypothesis Hx : 2 <= gxF g.
  Hypothesis Hy : 2 <= gyF g.
  Variables (hybrid : bool) (nreg : Z) (reg : arr b32) (data : arr b32) (num_block : Z) (ind_block : arr Z).
  Hypothesis Hr : (if hybrid then 2 else 1) <= nreg.
  Hypothesis Hb : 1 <= num_block < 2 ^ 31.
  Hypothesis Hi : num_block = 1 \/ forall q, 0 <= q < dtF g -> 0 <= ind_block q < dtF g.
  Hypothesis Ht : dtF g < 2 ^ 31.
  Let Tw : forall c p d segs i w, segsF fmodf sinf cosf junk g c p d = Some segs -> In (i, w) segs -> T1 w := fun _ _ _ _ _ _ _ _ => I.
  Notation upto_ := (upto g num_block).
  Lemma coef_ok w x y : exists k, coefF hybrid nreg reg w x y = Some k.
  Proof. unfold coefF. destruct hybrid; rewrite load_ok by lia; cbn [obind]; [rewrite load_ok by lia; cbn [obind]|]; eauto. Qed.
  Lemma int_rec i : 0 <= i < nrec g -> cint i = Some i.
  Proof. intros H. apply cint_ok. destruct Hg. lia. Qed.
  Lemma penalty_ok s recon : 0 <= s < dyF g -> exists FG, penaltyF g hybrid nreg reg s recon = Some FG.
  Proof.
    intros Hss. unfold penaltyF. match goal with |- exists r, ofold ?f ?l ?s0 = _ => destruct (ofold_ok (fun _ => True) f l s0) as (r & E & _) end; eauto.
    intros (ind0 & nb) st Hin _. pose proof (visits_ok (gxF g) (gyF g) Hx Hy) as Q. rewrite Forall_forall in Q. destruct (Q _ Hin) as (H0 & Hn). cbn [fst snd] in H0, Hn. unfold pen_pxF.
    pose proof (rec_ok g s ind0 Hss H0) as H1. rewrite int_rec by auto. cbn [obind]. apply ofold_ok; auto. intros (o & w) (F & G) Ho _. pose proof (rec_ok g s _ Hss (Hn o w Ho)) as H2.
    replace (ind0 + o + s * gxF g * gyF g) with (ind0 + s * gxF g * gyF g + o) in H2 by ring. rewrite int_rec by auto. cbn [obind]. rewrite load_ok by auto. cbn [obind]. rewrite load_ok by auto. cbn [obind].
    destruct (coef_ok w (recon (ind0 + s * gxF g * gyF g)) (recon (ind0 + s * gxF g * gyF g + o))) as (k & ->). cbn [obind].
    rewrite load_ok by auto. cbn [obind]. rewrite store_ok by auto. cbn [obind]. rewrite load_ok by auto. cbn [obind]. rewrite store_ok by auto. cbn [obind]. eauto.
  Qed.
  Lemma pml_ray_ok s recon p d st : 0 <= s < dyF g -> 0 <= p < dtF g -> 0 <= d < dxF g -> exists st', pml_rayF fmodf sinf cosf junk g data s (centerF g s) recon p d st = Some st' /\ True.
  Proof.
    intros Hss Hp Hd. destruct st as ((sd & su) & e). unfold pml_rayF. destruct (ray_ok fmodf sinf cosf junk Lm g Hg Hs s p d Hss Hp Hd) as (segs & -> & Hseg). cbn [obind].
    destruct (sim_ok g Hg T1 segs s p d recon sd) as (r & -> & _); auto using inT; try (intros; exact I). cbn [obind].
    destruct (acc0_ok T1 segs (npixF g) fadd su) as (r2 & -> & _); auto using inT; try (intros; exact I). cbn [obind]. destruct (nez _); [|eauto].
    rewrite ind_data_ok, base_ok by auto. cbn [obind]. pose proof (ind_ok g Hg s p d Hss Hp Hd). rewrite load_ok by auto. cbn [obind]. rewrite load_ok by auto. cbn [obind].
    match goal with |- context [ofold ?f segs e] => destruct (ofold_ok (fun _ => True) f segs e) as (r3 & -> & _) end; [auto| |cbn [obind]; eauto].
    intros (i & w) a Hin _. pose proof (Hseg i w Hin). pose proof (rec_ok g s i Hss ltac:(auto)). rewrite load_ok by auto. cbn [obind]. rewrite load_ok by auto. cbn [obind]. rewrite store_ok by auto. eauto.
  Qed.
  Lemma add_sum_ok su G : exists r, add_sumF g su G = Some r.
  Proof.
    unfold add_sumF. match goal with |- exists r, ofor 0 ?n ?f ?s0 = _ => destruct (ofor_ok (fun _ => True) 0 n f s0) as (r & E & _) end; eauto.
    intros n a Hn _. rewrite load_ok by auto. cbn [obind]. rewrite load_ok by auto. cbn [obind]. rewrite store_ok by auto. eauto.
  Qed.
  Lemma pml_new_ok s e f G recon : 0 <= s < dyF g -> exists r, pml_newF g s e f G recon = Some r.
  Proof.
    intros Hss. unfold pml_newF. match goal with |- exists r, ofor 0 ?n ?f ?s0 = _ => destruct (ofor_ok (fun _ => True) 0 n f s0) as (r & E & _) end; eauto.
    intros n a Hn _. apply ofor_ok; auto. intros m a' Hm _. assert (Hq : 0 <= m + n * gyF g < npixF g) by (unfold npixF; nia). pose proof (rec_ok g s _ Hss Hq) as H2. destruct Hg.
    rewrite cint_ok by (unfold nrec in *; nia). cbn [obind]. rewrite load_ok by auto. cbn [obind]. destruct (nez _); [|eauto]. rewrite int_rec by auto. cbn [obind].
    rewrite load_ok by auto. cbn [obind]. rewrite load_ok by auto. cbn [obind]. rewrite store_ok by auto. eauto.
  Qed.
  Lemma pml_block_ok s os st : 0 <= s < dyF g -> 0 <= os < num_block -> exists st', pml_blockF fmodf sinf cosf junk g hybrid nreg reg data num_block ind_block s (centerF g s) os (upto_ os, st) = Some (upto_ (os + 1), st').
  Proof.
    intros Hss Hos. destruct st as (rc & sd). unfold pml_blockF. destruct (div_ok fmodf sinf cosf junk g Hg num_block T1 Hb Ht Tw) as (-> & ->). cbn [obind].
    rewrite <- (upto_next fmodf sinf cosf junk g num_block T1 Hb Tw) by lia.
    match goal with |- context [ofor (upto_ os) ?b ?f ?s0] => destruct (ofor_ok (fun _ => True) (upto_ os) b f s0) as (st & E & _) end; auto.
    - intros q st Hq _. pose proof (upto_le fmodf sinf cosf junk g Hg num_block T1 Hb Tw os ltac:(lia)). pose proof (upto_le fmodf sinf cosf junk g Hg num_block T1 Hb Tw (os + 1) ltac:(lia)).
      destruct (pick_ok g num_block ind_block Hb Hi q ltac:(lia)) as (p & -> & Hp). cbn [obind]. apply ofor_ok; auto. intros d st' Hd _. apply pml_ray_ok; auto.
    - rewrite E. cbn [obind]. destruct st as ((sd' & su') & e'). destruct (penalty_ok s rc Hss) as (FG & ->). cbn [obind]. destruct (add_sum_ok su' (snd FG)) as (G & ->). cbn [obind].
      destruct (pml_new_ok s e' (fst FG) G rc Hss) as (r & ->). cbn [obind]. eauto.
  Qed.
  Lemma pml_slice_ok s st : 0 <= s < dyF g -> exists st', pml_sliceF fmodf sinf cosf junk g hybrid nreg reg data num_block ind_block s st = Some st' /\ True.
  Proof.
    intros Hss. unfold pml_sliceF. rewrite load_ok by auto. cbn [obind]. set (blk := pml_blockF fmodf sinf cosf junk g hybrid nreg reg data num_block ind_block s (centerF g s)).
    assert (G : forall n, 0 <= n -> n <= num_block -> exists st', ofor 0 n blk (0, st) = Some (upto_ n, st')).
    { apply (natlike_ind (fun n => n <= num_block -> exists st', ofor 0 n blk (0, st) = Some (upto_ n, st'))).
      - intros _. exists st. unfold ofor. rewrite zrange_nil by lia. cbn. do 2 f_equal. unfold upto. destruct Hg. pose proof (Z.mod_pos_bound (dtF g) num_block ltac:(lia)). lia.
      - intros n Hn IH L. destruct IH as (st1 & E1); [lia|]. rewrite <- Z.add_1_r. unfold ofor in *. rewrite zrange_snoc, ofold_app, E1 by lia. cbn [obind ofold].
        destruct (pml_block_ok s n st1 Hss ltac:(lia)) as (st2 & E2). unfold blk. rewrite E2. cbn [obind]. eauto. }
    destruct (G num_block ltac:(lia) ltac:(lia)) as (st' & ->). cbn [obind snd]. eauto.
  Qed.
  Theorem pml_safe num_iter recon : exists r, pmlF fmodf sinf cosf junk g hybrid nreg reg data num_block ind_block num_iter recon = Some r.
  Proof.
    unfold pmlF. rewrite emptyF_no by auto. destruct (div_ok fmodf sinf cosf junk g Hg num_block T1 Hb Ht Tw) as (-> & _). cbn [obind].
    match goal with |- exists r, ofor 0 ?n ?f ?s0 = _ => destruct (ofor_ok (fun _ => True) 0 n f s0) as (r & E & _) end; eauto.
    intros k rc _ _. match goal with |- context [ofor 0 ?n ?f ?s0] => destruct (ofor_ok (fun _ => True) 0 n f s0) as (r & -> & _) end; [auto|intros; apply pml_slice_ok; auto|]. cbn [obind]. eauto.
  Qed.
End Safe.
