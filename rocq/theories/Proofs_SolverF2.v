From Verif Require Import Base Order CLoop Model_Ray Proofs_Ray Model_RayF Model_SolverF Spec_SolverF Proofs_FloatB Proofs_RayF Proofs_RayF2 Proofs_RayF3 Proofs_RayF4 Proofs_SolverF.
From Flocq Require Import Core BinarySingleNaN.
Local Open Scope Z_scope.

(** ** The work buffers of the ray tracing do not matter *)
Lemma trace_coor ry rz (q : bool) cx cy za zb zc : 1 <= ry -> 1 <= rz -> let t := traceF ry rz q cx cy za zb zc in
  map (fcoor t) (zrange 0 (fcsize t)) = mergeF (if q then map (pa rz cx) (na ry rz cx) else rev (map (pa rz cx) (na ry rz cx))) (map (pb ry cy) (nb ry rz cy)).
Proof.
  intros Hy Hz. cbv zeta. unfold traceF, trim_aF, trim_bF. pose proof (trim_specF ry cx (pa rz cx) (rz + 1) za ltac:(lia)) as (A & A').
  pose proof (trim_specF rz cy (pb ry cy) (ry + 1) zb ltac:(lia)) as (B & B'). fold (na ry rz cx) in A, A'. fold (nb ry rz cy) in B, B'. unfold pa, pb in *.
  destruct (for_ (rz + 1) _ _) as [asz a], (for_ (ry + 1) _ _) as [bsz b]. cbn [fst snd] in *. subst.
  pose proof (sort_specF q _ a _ b (Zle_0_nat (length (na ry rz cx))) (Zle_0_nat (length (nb ry rz cy))) zc) as (S1 & S2).
  destruct (sort_intersectionsF _ _ _ _ _ _) as [cs c]. cbn [fst snd] in *. subst. cbn [fcsize fcoor]. rewrite S2, B', <- A'. f_equal. destruct q; [reflexivity|]. apply selF_rev. lia.
Qed.
Lemma omap_ext {A B} (f f' : A -> option B) l : (forall x, In x l -> f x = f' x) -> omap f l = omap f' l.
Proof. induction l as [|x l IH]; cbn; intros H; auto. rewrite H, IH by auto. reflexivity. Qed.
Lemma traced_junk g buf q cx cy za zb zc za' zb' zc' : 1 <= gxF g -> 1 <= gyF g ->
  traced_of g buf (traceF (gxF g) (gyF g) q cx cy za zb zc) = traced_of g buf (traceF (gxF g) (gyF g) q cx cy za' zb' zc').
Proof.
  intros Hx Hy. destruct (trace_sizes (gxF g) (gyF g) q cx cy za zb zc Hx Hy) as (A1 & B1 & C1). destruct (trace_sizes (gxF g) (gyF g) q cx cy za' zb' zc' Hx Hy) as (A2 & B2 & C2).
  pose proof (trace_coor (gxF g) (gyF g) q cx cy za zb zc Hx Hy) as M1. pose proof (trace_coor (gxF g) (gyF g) q cx cy za' zb' zc' Hx Hy) as M2. cbv zeta in M1, M2. rewrite <- M2 in M1. clear M2.
  set (t := traceF _ _ _ _ _ za zb zc) in *. set (t' := traceF _ _ _ _ _ za' zb' zc') in *. assert (EA : fasize t = fasize t') by congruence. assert (EB : fbsize t = fbsize t') by congruence.
  assert (EC : fcsize t = fcsize t') by congruence. rewrite EC in M1. pose proof (ext_in_map M1) as M. unfold traced_of. rewrite EA, EB, EC. destruct (_ && _)%bool; auto.
  apply omap_ext. intros n Hn. apply in_zrange in Hn. unfold seg_indiF, seg_indxF, seg_indyF, seg_distF. rewrite !(M n), !(M (n + 1)) by (apply in_zrange; lia). reflexivity.
Qed.
(** Two geometries with the same rays *)
Lemma segs_same fmodf sinf cosf junk junk' g g' c p d : same_rays g g' -> 1 <= gxF g -> 1 <= gyF g -> segsF fmodf sinf cosf junk g c p d = segsF fmodf sinf cosf junk' g' c p d.
Proof.
  intros [Et Ex Egx Egy Eth] Hx Hy. unfold segsF, ray_traceF. rewrite <- Et, <- Ex, <- Egx, <- Egy, <- Eth. destruct (load _ _ _); auto. cbn [obind]. destruct (calc_quadrantF _) as [q|]; auto. cbn [obind].
  destruct junk as ((? & ?) & ?), junk' as ((? & ?) & ?). unfold traced_of at 2. rewrite <- Egx, <- Egy. fold (traced_of g). apply traced_junk; auto.
Qed.
Lemma psegs_same fmodf sinf cosf junk junk' g g' c p d : same_rays g g' -> 1 <= gxF g -> 1 <= gyF g ->
  project_segs fmodf sinf cosf junk g c p d = project_segs fmodf sinf cosf junk' g' c p d.
Proof.
  intros [Et Ex Egx Egy Eth] Hx Hy. unfold project_segs, project_lineF. rewrite <- Et, <- Ex, <- Egx, <- Egy, <- Eth. destruct (load _ _ _); auto. cbn [obind]. destruct (calc_quadrantF _) as [q|]; auto. cbn [obind].
  destruct junk as ((? & ?) & ?), junk' as ((? & ?) & ?). unfold traced_of at 2. rewrite <- Egx, <- Egy. fold (traced_of g). apply traced_junk; auto.
Qed.

(** ** Two runs side by side *)
Lemma obind_some {A B} (x : option A) (f : A -> option B) r : obind x f = Some r -> exists a, x = Some a /\ f a = Some r.
Proof. destruct x; cbn; [eauto|discriminate]. Qed.
Ltac ob H := let a := fresh "a" in let E := fresh "E" in apply obind_some in H; destruct H as (a & E & H).
Ltac same := repeat match goal with H : Some _ = Some _ |- _ => injection H as H; subst end; assumption.
Lemma ofold_rel {St St' X} (R : St -> St' -> Prop) (f : X -> St -> option St) (f' : X -> St' -> option St') l s s' r r' :
  ofold f l s = Some r -> ofold f' l s' = Some r' -> R s s' -> (forall x s s' t t', In x l -> R s s' -> f x s = Some t -> f' x s' = Some t' -> R t t') -> R r r'.
Proof.
  revert s s'. induction l as [|x l IH]; cbn; intros s s' E E' Hs H; [congruence|]. ob E. ob E'. eapply IH; eauto.
Qed.
Lemma ofor_rel {St St'} (R : St -> St' -> Prop) a b (f : Z -> St -> option St) (f' : Z -> St' -> option St') s s' r r' :
  ofor a b f s = Some r -> ofor a b f' s' = Some r' -> R s s' -> (forall n s s' t t', a <= n < b -> R s s' -> f n s = Some t -> f' n s' = Some t' -> R t t') -> R r r'.
Proof. intros E E' Hs H. eapply ofold_rel; eauto. intros x s1 s2 t t' Hx. apply in_zrange in Hx. eauto. Qed.
Lemma ofor_at {St} n k (f : Z -> St -> option St) s r : 0 <= k < n -> ofor 0 n f s = Some r ->
  exists s1 s2, ofor 0 k f s = Some s1 /\ f k s1 = Some s2 /\ ofor (k + 1) n f s2 = Some r.
Proof.
  intros Hk E. unfold ofor in *. rewrite <- (@zrange_app 0 k n), ofold_app in E by lia. ob E. rewrite (@zrange_cons k n) in E by lia. cbn in E. ob E. eauto 6.
Qed.
Lemma ofor_slice {St St'} (R : St -> St' -> Prop) n n' k k' (f : Z -> St -> option St) (f' : Z -> St' -> option St') s s' r r' : 0 <= k < n -> 0 <= k' < n' ->
  (forall j s s' t, 0 <= j < n -> j <> k -> R s s' -> f j s = Some t -> R t s') -> (forall j s s' t', 0 <= j < n' -> j <> k' -> R s s' -> f' j s' = Some t' -> R s t') ->
  (forall s s' t t', R s s' -> f k s = Some t -> f' k' s' = Some t' -> R t t') -> ofor 0 n f s = Some r -> ofor 0 n' f' s' = Some r' -> R s s' -> R r r'.
Proof.
  intros Hk Hk' F F' Hb E E' Hs. destruct (ofor_at _ k _ _ _ Hk E) as (s1 & s2 & E1 & E2 & E3). destruct (ofor_at _ k' _ _ _ Hk' E') as (s1' & s2' & E1' & E2' & E3').
  assert (R1 : R s1 s') by (eapply (ofor_inv (fun s => R s s')); [exact E1|exact Hs|]; intros j t t' Hj Ht; apply F; auto; lia).
  assert (R2 : R s1 s1') by (eapply (ofor_inv (fun s => R s1 s)); [exact E1'|exact R1|]; intros j t t' Hj Ht; apply F'; auto; lia).
  pose proof (Hb _ _ _ _ R2 E2 E2') as R3.
  assert (R4 : R r s2') by (eapply (ofor_inv (fun s => R s s2')); [exact E3|exact R3|]; intros j t t' Hj Ht; apply F; auto; lia).
  eapply (ofor_inv (fun s => R r s)); [exact E3'|exact R4|]. intros j t t' Hj Ht. apply F'; auto; lia.
Qed.
Lemma load_some {A} n (a : arr A) i v : load n a i = Some v -> 0 <= i < n /\ v = a i.
Proof. unfold load. destruct ((0 <=? i) && (i <? n)) eqn:E; [|discriminate]. intros [= <-]. split; [lia|auto]. Qed.
Lemma store_some {A} n (a : arr A) i v r : store n a i v = Some r -> 0 <= i < n /\ r = aset a i v.
Proof. unfold store. destruct ((0 <=? i) && (i <? n)) eqn:E; [|discriminate]. intros [= <-]. split; [lia|auto]. Qed.
Lemma cint_some z r : cint z = Some r -> r = z.
Proof. unfold cint. destruct (_ && _); congruence. Qed.

(** Cells of a slice *)
Lemma win_set n o o' a a' i v : 0 <= i < n -> win n o o' a a' -> win n o o' (aset a (i + o) v) (aset a' (i + o') v).
Proof.
  intros Hi H j Hj. destruct (Z.eq_dec j i) as [->|N]; [now rewrite !aset_eq|]. rewrite !aset_ne by lia. auto.
Qed.
Lemma win_left n o o' a a' i v : (forall j, 0 <= j < n -> j + o <> i) -> win n o o' a a' -> win n o o' (aset a i v) a'.
Proof. intros Hi H j Hj. rewrite aset_ne by (specialize (Hi j Hj); lia). auto. Qed.
Lemma win_right n o o' a a' i v : (forall j, 0 <= j < n -> j + o' <> i) -> win n o o' a a' -> win n o o' a (aset a' i v).
Proof. intros Hi H j Hj. rewrite aset_ne by (specialize (Hi j Hj); lia). auto. Qed.
Lemma win_memset n o o' m m' a a' : (forall i, 0 <= i < n -> 0 <= i + o < m /\ 0 <= i + o' < m') -> win n o o' (memsetF m a) (memsetF m' a').
Proof. intros H i Hi. destruct (H i Hi). unfold memsetF. replace ((0 <=? i + o) && (i + o <? m)) with true by lia. replace ((0 <=? i + o') && (i + o' <? m')) with true by lia. reflexivity. Qed.

(** Slice s of a run with the geometry g, slice s' of a run with g' *)
Section Slices.
  Variables (fmodf sinf cosf : b32 -> b32) (junk junk' : arr pointF * arr pointF * arr pointF) (g g' : geomF) (k k' : Z).
  Hypothesis S : same_rays g g'.
  Hypothesis Hx : 1 <= gxF g.
  Hypothesis Hy : 1 <= gyF g.
  Hypothesis Hdx : 0 <= dxF g.
  Hypothesis Hdt : 0 <= dtF g.
  Hypothesis Hk : 0 <= k < dyF g.
  Hypothesis Hk' : 0 <= k' < dyF g'.
  Notation np := (npixF g).
  Notation nd := (dtF g * dxF g).
  Notation winr := (win np (k * gxF g * gyF g) (k' * gxF g * gyF g)).
  Notation wind := (win nd (k * dtF g * dxF g) (k' * dtF g * dxF g)).
  Lemma off_pix j i n o : 0 <= i < np -> 0 <= n < np -> j <> o -> i + o * gxF g * gyF g <> n + j * gxF g * gyF g.
  Proof. unfold npixF. intros Hi Hn N E. assert (Ej : o * (gxF g * gyF g) + i = j * (gxF g * gyF g) + n) by lia. assert (o = j); [|lia]. nia. Qed.
  Lemma in_nd p d : 0 <= p < dtF g -> 0 <= d < dxF g -> 0 <= d + p * dxF g < nd.
  Proof. intros Hp Hd. nia. Qed.
  Lemma off_data j i n o : 0 <= i < nd -> 0 <= n < nd -> j <> o -> i + o * dtF g * dxF g <> n + j * dtF g * dxF g.
  Proof. intros Hi Hn N E. assert (Ej : o * (dtF g * dxF g) + i = j * (dtF g * dxF g) + n) by lia. assert (o = j); [|lia]. nia. Qed.
  Lemma segs_range junk0 g0 c p d segs : segsF fmodf sinf cosf junk0 g0 c p d = Some segs -> 0 <= p < dtF g0.
  Proof. intros E. unfold segsF in E. ob E. apply load_some in E0. tauto. Qed.
  Lemma psegs_range junk0 g0 c p d segs : project_segs fmodf sinf cosf junk0 g0 c p d = Some segs -> 0 <= p < dtF g0.
  Proof. intros E. unfold project_segs in E. ob E. apply load_some in E0. tauto. Qed.

  (** calc_simdata *)
  Lemma sim_win segs p d m m' a a' r r' : 0 <= p < dtF g -> 0 <= d < dxF g -> seg_ok g segs -> simdataF g segs k p d m a = Some r -> simdataF g' segs k' p d m' a' = Some r' -> winr m m' -> wind a a' -> wind r r'.
  Proof.
    intros Hp Hd Hs E E' Wm Wa. destruct S as [Et Ex Egx Egy Eth]. unfold simdataF, ind_dataF in *. rewrite <- Et, <- Ex, <- Egx, <- Egy in E'.
    ob E. apply cint_some in E0. subst. ob E. apply cint_some in E0. subst. ob E'. apply cint_some in E0. subst. ob E'. apply cint_some in E0. subst.
    eapply (ofold_rel wind); [exact E|exact E'|exact Wa|]. intros (i & w) s s' t t' Hi R F F'. ob F. ob F. ob F'. ob F'.
    apply load_some in E0, E1, E2, E3. apply store_some in F, F'. destruct E0 as (_ & ->), E1 as (_ & ->), E2 as (_ & ->), E3 as (_ & ->), F as (_ & ->), F' as (_ & ->).
    pose proof (in_nd p d Hp Hd). rewrite <- (Wm i), <- (R (d + p * dxF g)) by (auto; eapply Hs; eauto). apply win_set; auto.
  Qed.
  Lemma sim_left segs j p d m a a' r : 0 <= p < dtF g -> 0 <= d < dxF g -> j <> k -> simdataF g segs j p d m a = Some r -> wind a a' -> wind r a'.
  Proof.
    intros Hp Hd N E W. unfold simdataF, ind_dataF in E. ob E. ob E. apply cint_some in E1. subst. eapply (ofold_inv (fun r => wind r a')); [exact E|exact W|]. intros (i & w) s t Hi R F. ob F. ob F.
    apply store_some in F. destruct F as (_ & ->). apply win_left; auto. intros n Hn. apply off_data; auto using in_nd.
  Qed.
  Lemma sim_right segs j p d m a a' r : 0 <= p < dtF g -> 0 <= d < dxF g -> j <> k' -> simdataF g' segs j p d m a' = Some r -> wind a a' -> wind a r.
  Proof.
    intros Hp Hd N E W. destruct S as [Et Ex Egx Egy Eth]. unfold simdataF, ind_dataF in E. rewrite <- Et, <- Ex in E. ob E. ob E. apply cint_some in E1. subst. eapply (ofold_inv (fun r => wind a r)); [exact E|exact W|].
    intros (i & w) s t Hi R F. ob F. ob F. apply store_some in F. destruct F as (_ & ->). apply win_right; auto. intros n Hn. apply off_data; auto using in_nd.
  Qed.

  (** project *)
  Lemma traced_seg buf q cx cy za zb zc segs : gxF g <= 2 ^ 15 -> gyF g <= 2 ^ 15 -> traced_of g buf (traceF (gxF g) (gyF g) q cx cy za zb zc) = Some segs -> seg_ok g segs.
  Proof.
    intros Lx Ly E i w Hi. unfold traced_of in E. destruct (_ && _)%bool; [|discriminate]. apply omap_forall2 in E. destruct (Forall2_in_r _ _ _ _ E Hi) as (n & Hn & F). apply in_zrange in Hn.
    destruct (pixels_inside (gxF g) (gyF g) q cx cy za zb zc ltac:(lia) ltac:(lia) n ltac:(lia)) as (i1 & i2 & Ei & Hi1 & Ej & Hi2). unfold seg_indiF in F. rewrite Ei, Ej in F. cbn [obind] in F.
    ob F. apply cint_some in E0. injection F as <- <-. subst. unfold npixF. nia.
  Qed.
  Hypothesis Lx : gxF g <= 2 ^ 15.
  Hypothesis Ly : gyF g <= 2 ^ 15.
  Lemma psegs_seg c p d segs : project_segs fmodf sinf cosf junk g c p d = Some segs -> seg_ok g segs.
  Proof. intros E. unfold project_segs in E. ob E. ob E. destruct junk as ((? & ?) & ?). eapply traced_seg; eauto. Qed.
  Lemma segs_seg c p d segs : segsF fmodf sinf cosf junk g c p d = Some segs -> seg_ok g segs.
  Proof. intros E. unfold segsF, ray_traceF in E. ob E. ob E. destruct junk as ((? & ?) & ?). eapply traced_seg; eauto. Qed.
  Theorem project_slices obj obj' data data' r r' : centerF g 0 = centerF g' 0 -> projectF fmodf sinf cosf junk g obj data = Some r -> projectF fmodf sinf cosf junk' g' obj' data' = Some r' ->
    winr obj obj' -> wind data data' -> wind r r'.
  Proof.
    intros Ec E E' Wo Wd. unfold projectF in *. assert (Em : (dtF g =? 0) || (dxF g =? 0) = (dtF g' =? 0) || (dxF g' =? 0)) by (rewrite (sr_t _ _ S), (sr_x _ _ S); reflexivity). unfold emptyF in *.
    replace (dyF g =? 0) with false in E by lia. replace (dyF g' =? 0) with false in E' by lia. cbn [orb] in E, E'. rewrite <- Em in E'. destruct ((dtF g =? 0) || (dxF g =? 0)); [injection E as <-; injection E' as <-; assumption|].
    ob E. ob E'. apply load_some in E0, E1. destruct E0 as (_ & ->), E1 as (_ & ->). rewrite <- (sr_t _ _ S), <- (sr_x _ _ S) in E'.
    eapply (ofor_rel wind); [exact E|exact E'|exact Wd|]. cbn. intros p s s' t t' Hp W F F'. eapply (ofor_rel wind); [exact F|exact F'|exact W|]. clear s s' t t' W F F'. intros d s s' t t' Hd W F F'.
    ob F. ob F'. rewrite <- Ec, <- (psegs_same fmodf sinf cosf junk junk' g g') in E1 by auto. assert (a0 = a) by congruence. subst. pose proof (psegs_seg _ _ _ _ E0) as Hs.
    eapply (ofor_slice wind (dyF g) (dyF g') k k'); [auto|auto| | | |exact F|exact F'|exact W]; cbn beta.
    - intros j u u' v Hj N W' G. eapply sim_left; eauto.
    - intros j u u' v Hj N W' G. eapply sim_right; eauto.
    - intros u u' v v' W' G G'. eapply (sim_win _ p d obj obj'); eauto.
  Qed.

  (** fbp *)
  Hypothesis Ec : centerF g k = centerF g' k'.
  Theorem fbp_slices data data' recon recon' r r' : fbpF fmodf sinf cosf junk g data recon = Some r -> fbpF fmodf sinf cosf junk' g' data' recon' = Some r' ->
    wind data data' -> winr recon recon' -> winr r r'.
  Proof.
    intros E E' Wd Wr. unfold fbpF in *. assert (Em : (dtF g =? 0) || (dxF g =? 0) = (dtF g' =? 0) || (dxF g' =? 0)) by (rewrite (sr_t _ _ S), (sr_x _ _ S); reflexivity). unfold emptyF in *.
    replace (dyF g =? 0) with false in E by lia. replace (dyF g' =? 0) with false in E' by lia. cbn [orb] in E, E'. rewrite <- Em in E'. destruct ((dtF g =? 0) || (dxF g =? 0)); [injection E as <-; injection E' as <-; assumption|].
    rewrite <- (sr_t _ _ S), <- (sr_x _ _ S) in E'. unfold ind_dataF in *. rewrite <- (sr_t _ _ S), <- (sr_x _ _ S), <- (sr_gx _ _ S), <- (sr_gy _ _ S) in E'.
    eapply (ofor_slice winr (dyF g) (dyF g') k k'); [auto|auto| | | |exact E|exact E'|exact Wr]; cbn beta; clear E E' Wr r r' recon recon'.
    - intros j u u' v Hj N W F. ob F. eapply (ofor_inv (fun u => winr u u')); [exact F|exact W|]. clear u v F W. intros p u v Hp W F.
      eapply (ofor_inv (fun u => winr u u')); [exact F|exact W|]. clear u v F W. intros d u v Hd W F. ob F. ob F. ob F. apply cint_some in E1. subst.
      eapply (ofold_inv (fun u => winr u u')); [exact F|exact W|]. clear u v F W. intros (i & w) u v Hi W F. ob F. ob F. apply store_some in F. destruct F as (_ & ->).
      apply win_left; auto. intros n Hn. apply off_pix; auto. eapply segs_seg; eauto.
    - intros j u u' v Hj N W F. ob F. eapply (ofor_inv (fun u' => winr u u')); [exact F|exact W|]. clear u' v F W. intros p u' v Hp W F.
      eapply (ofor_inv (fun u' => winr u u')); [exact F|exact W|]. clear u' v F W. intros d u' v Hd W F. ob F. ob F. ob F. apply cint_some in E1. subst.
      eapply (ofold_inv (fun u' => winr u u')); [exact F|exact W|]. clear u' v F W. intros (i & w) u' v Hi W F. ob F. ob F. apply store_some in F. destruct F as (_ & ->).
      apply win_right; auto. intros n Hn. apply off_pix; auto. rewrite <- (segs_same fmodf sinf cosf junk junk' g g') in E0 by auto. eapply segs_seg; eauto.
    - intros u u' v v' W F F'. ob F. ob F'. apply load_some in E, E0. destruct E as (_ & ->), E0 as (_ & ->). rewrite <- Ec in F'.
      eapply (ofor_rel winr); [exact F|exact F'|exact W|]. clear u u' v v' W F F'. intros p u u' v v' Hp W F F'. eapply (ofor_rel winr); [exact F|exact F'|exact W|]. clear u u' v v' W F F'. intros d u u' v v' Hd W F F'.
      ob F. ob F'. rewrite <- (segs_same fmodf sinf cosf junk junk' g g') in E0 by auto. assert (a0 = a) by congruence. subst. ob F. ob F. ob F'. ob F'. apply cint_some in E1, E2, E3, E4. subst.
      eapply (ofold_rel winr); [exact F|exact F'|exact W|]. clear u u' v v' W F F'. intros (i & w) u u' v v' Hi W F F'. ob F. ob F. ob F'. ob F'.
      apply load_some in E1, E2, E3, E4. apply store_some in F, F'. destruct E1 as (_ & ->), E2 as (_ & ->), E3 as (_ & ->), E4 as (_ & ->), F as (_ & ->), F' as (_ & ->).
      pose proof (segs_seg _ _ _ _ E i w Hi). rewrite <- (Wd (d + p * dxF g)), <- (W i) by (auto using in_nd). apply win_set; auto.
  Qed.

  (** Adding along a ray *)
  Lemma addr_left segs j (f : b32 -> b32 -> b32) a a' r : seg_ok g segs -> j <> k ->
    ofold (fun '(i, w) a => let? v := load (nrec g) a (i + j * gxF g * gyF g) in store (nrec g) a (i + j * gxF g * gyF g) (f v w)) segs a = Some r -> winr a a' -> winr r a'.
  Proof.
    intros Hs N E W. eapply (ofold_inv (fun u => winr u a')); [exact E|exact W|]. intros (i & w) u v Hi R F. ob F. apply store_some in F. destruct F as (_ & ->).
    apply win_left; auto. intros n Hn. apply off_pix; eauto.
  Qed.
  Lemma addr_right segs j (f : b32 -> b32 -> b32) a a' r : seg_ok g segs -> j <> k' ->
    ofold (fun '(i, w) a => let? v := load (nrec g') a (i + j * gxF g * gyF g) in store (nrec g') a (i + j * gxF g * gyF g) (f v w)) segs a' = Some r -> winr a a' -> winr a r.
  Proof.
    intros Hs N E W. eapply (ofold_inv (fun u => winr a u)); [exact E|exact W|]. intros (i & w) u v Hi R F. ob F. apply store_some in F. destruct F as (_ & ->).
    apply win_right; auto. intros n Hn. apply off_pix; eauto.
  Qed.
  Lemma addr_win segs (f : b32 -> b32 -> b32) a a' r r' : seg_ok g segs ->
    ofold (fun '(i, w) a => let? v := load (nrec g) a (i + k * gxF g * gyF g) in store (nrec g) a (i + k * gxF g * gyF g) (f v w)) segs a = Some r ->
    ofold (fun '(i, w) a => let? v := load (nrec g') a (i + k' * gxF g * gyF g) in store (nrec g') a (i + k' * gxF g * gyF g) (f v w)) segs a' = Some r' -> winr a a' -> winr r r'.
  Proof.
    intros Hs E E' W. eapply (ofold_rel winr); [exact E|exact E'|exact W|]. intros (i & w) u u' v v' Hi R F F'. ob F. ob F'. apply load_some in E0, E1. apply store_some in F, F'.
    destruct E0 as (_ & ->), E1 as (_ & ->), F as (_ & ->), F' as (_ & ->). pose proof (Hs i w Hi). rewrite <- (R i) by auto. apply win_set; auto.
  Qed.

  (** art *)
  Notation winp := (fun st st' : arr b32 * arr b32 => winr (fst st) (fst st') /\ wind (snd st) (snd st')).
  Lemma nd_in i : 0 <= i < nd -> 0 <= i + k * dtF g * dxF g < ndata g /\ 0 <= i + k' * dtF g * dxF g < ndata g'.
  Proof.
    intros Hi. unfold ndata. rewrite <- (sr_t _ _ S), <- (sr_x _ _ S), <- !Z.mul_assoc. split; nia.
  Qed.
  Theorem art_slices data data' num_iter recon recon' sd sd' r r' : centerF g 0 = centerF g' 0 -> artF fmodf sinf cosf junk g data num_iter recon sd = Some r ->
    artF fmodf sinf cosf junk' g' data' num_iter recon' sd' = Some r' -> wind data data' -> winr recon recon' -> winr r r'.
  Proof.
    intros Ec0 E E' Wd Wr. unfold artF in *. assert (Em : (dtF g =? 0) || (dxF g =? 0) = (dtF g' =? 0) || (dxF g' =? 0)) by (rewrite (sr_t _ _ S), (sr_x _ _ S); reflexivity). unfold emptyF in *.
    replace (dyF g =? 0) with false in E by lia. replace (dyF g' =? 0) with false in E' by lia. cbn [orb] in E, E'. rewrite <- Em in E'.
    destruct ((dtF g =? 0) || (dxF g =? 0)); [injection E as <-; injection E' as <-; assumption|]. ob E. ob E'. injection E as <-. injection E' as <-.
    eapply (ofor_rel (fun st st' : arr b32 * arr b32 => winr (fst st) (fst st'))); [exact E0|exact E1|exact Wr|]. clear E0 E1 Wr a a0 recon recon' sd sd'.
    intros it (rc & sd) (rc' & sd') t t' _ W F F'. cbn [fst] in W. ob F. ob F'. apply load_some in E, E0. destruct E as (_ & ->), E0 as (_ & ->). rewrite <- Ec0, <- (sr_t _ _ S), <- (sr_x _ _ S) in F'.
    assert (W2 : winp (rc, memsetF (ndata g) sd) (rc', memsetF (ndata g') sd')) by (split; [exact W|apply win_memset, nd_in]).
    apply (fun H => proj1 (ofor_rel winp _ _ _ _ _ _ _ _ F F' W2 H)). clear F F' W2 W t t' rc rc' sd sd'. intros p u u' v v' Hp W F F'.
    eapply (ofor_rel winp); [exact F|exact F'|exact W|]. clear F F' W u u' v v'. intros d u u' v v' Hd W F F'. ob F. ob F'. rewrite <- (segs_same fmodf sinf cosf junk junk' g g') in E0 by auto.
    assert (a0 = a) by congruence. subst. destruct (nez _); [|same]. pose proof (segs_seg _ _ _ _ E) as Hs. clear E E0.
    eapply (ofor_slice winp (dyF g) (dyF g') k k'); [auto|auto| | | |exact F|exact F'|exact W]; cbn beta; clear F F' W u u' v v'.
    - intros j (rc & sd) (rc' & sd') v Hj N (W1 & W2) F. cbn [fst snd] in *. unfold art_sliceF in F. ob F. ob F. ob F. ob F. ob F. ob F. injection F as <-. apply cint_some in E1. subst. cbn [fst snd]. split.
      + eapply (addr_left a j (fun x w => fadd x (fmul _ w))); eauto.
      + eapply sim_left; eauto.
    - intros j (rc & sd) (rc' & sd') v Hj N (W1 & W2) F. cbn [fst snd] in *. unfold art_sliceF in F. ob F. ob F. ob F. ob F. ob F. ob F. injection F as <-. apply cint_some in E1. subst. cbn [fst snd]. split.
      + rewrite <- (sr_gx _ _ S), <- (sr_gy _ _ S) in E4. eapply (addr_right a j (fun x w => fadd x (fmul _ w))); eauto.
      + eapply sim_right; eauto.
    - intros (rc & sd) (rc' & sd') v v' (W1 & W2) F F'. cbn [fst snd] in *. unfold art_sliceF, ind_dataF in F, F'.
      ob F. ob F. ob F. ob F. ob F. ob F. injection F as <-. ob F'. ob F'. ob F'. ob F'. ob F'. ob F'. injection F' as <-. cbn [fst snd].
      apply cint_some in E0, E1, E6, E7. apply load_some in E2, E3, E8, E9. destruct E2 as (_ & ->), E3 as (_ & ->), E8 as (_ & ->), E9 as (_ & ->). subst.
      rewrite <- (sr_gx _ _ S), <- (sr_gy _ _ S), <- (sr_t _ _ S), <- (sr_x _ _ S) in E10. pose proof (sim_win _ p d _ _ _ _ _ _ Hp Hd Hs E E5 W1 W2) as W3.
      split; [|exact W3]. rewrite <- (Wd (d + p * dxF g)), <- (W3 (d + p * dxF g)) in E10 by (apply in_nd; auto). eapply (addr_win a (fun x w => fadd x (fmul _ w))); eauto.
  Qed.

  (** Ordered subsets *)
  Variables (ru : ruleF) (data data' : arr b32) (num_block : Z) (ind_block : arr Z).
  Hypothesis Wd : wind data data'.
  Notation win0 := (win np 0 0).
  Notation win3 := (fun st st' : arr b32 * arr b32 * arr b32 => let '(sd, su, up) := st in let '(sd', su', up') := st' in wind sd sd' /\ win0 su su' /\ win0 up up').
  Lemma add_win segs (f : b32 -> b32 -> b32) a a' r r' : seg_ok g segs ->
    ofold (fun '(i, w) a => let? v := load (npixF g) a i in store (npixF g) a i (f v w)) segs a = Some r ->
    ofold (fun '(i, w) a => let? v := load (npixF g) a i in store (npixF g) a i (f v w)) segs a' = Some r' -> win0 a a' -> win0 r r'.
  Proof.
    intros Hs E E' W. eapply (ofold_rel win0); [exact E|exact E'|exact W|]. intros (i & w) u u' v v' Hi R F F'. ob F. ob F'. apply load_some in E0, E1. apply store_some in F, F'.
    destruct E0 as (_ & ->), E1 as (_ & ->), F as (_ & ->), F' as (_ & ->). pose proof (Hs i w Hi) as Hi'. pose proof (R i Hi') as Ri. rewrite !Z.add_0_r in Ri. rewrite <- Ri.
    pose proof (win_set np 0 0 u u' i (f (u i) w) Hi' R) as Q. rewrite !Z.add_0_r in Q. exact Q.
  Qed.
  Lemma npix_same : npixF g' = npixF g.
  Proof. unfold npixF. now rewrite (sr_gx _ _ S), (sr_gy _ _ S). Qed.
  Lemma os_ray_win rc rc' p d st st' r r' : 0 <= d < dxF g -> os_rayF fmodf sinf cosf junk g ru data k (centerF g k) rc p d st = Some r ->
    os_rayF fmodf sinf cosf junk' g' ru data' k' (centerF g k) rc' p d st' = Some r' -> winr rc rc' -> win3 st st' -> win3 r r'.
  Proof.
    intros Hd F F' Wr. destruct st as ((sd & su) & up), st' as ((sd' & su') & up'). intros (W1 & W2 & W3). unfold os_rayF in *. rewrite npix_same in F'. unfold ind_dataF in *.
    ob F. ob F'. pose proof (segs_range _ _ _ _ _ _ E) as Hp. rewrite <- (segs_same fmodf sinf cosf junk junk' g g') in E0 by auto. assert (a0 = a) by congruence. subst. pose proof (segs_seg _ _ _ _ E) as Hs. clear E E0.
    ob F. ob F'. pose proof (sim_win _ p d _ _ _ _ _ _ Hp Hd Hs E E0 Wr W1) as W4. ob F. ob F'. pose proof (add_win a fadd _ _ _ _ Hs E1 E2 W2) as W5.
    destruct (nez _); [|injection F as <-; injection F' as <-; auto].
    ob F. ob F. ob F. ob F. ob F'. ob F'. ob F'. ob F'. injection F as <-. injection F' as <-. apply cint_some in E3, E7. apply load_some in E4, E5, E8, E9.
    destruct E4 as (_ & ->), E5 as (_ & ->), E8 as (_ & ->), E9 as (_ & ->). subst. rewrite <- (sr_t _ _ S), <- (sr_x _ _ S) in E10.
    rewrite <- (Wd (d + p * dxF g)), <- (W4 (d + p * dxF g)) in E10 by (apply in_nd; auto). split; [exact W4|]. split; [exact W5|]. eapply (add_win a (fun v w => fadd v (fmul _ w))); eauto.
  Qed.
  Lemma os_correct_win su su' up up' rc rc' r r' : os_correctF g ru k su up rc = Some r -> os_correctF g' ru k' su' up' rc' = Some r' -> win0 su su' -> win0 up up' -> winr rc rc' -> winr r r'.
  Proof.
    intros F F' W1 W2 W3. unfold os_correctF in *. rewrite npix_same in F'. eapply (ofor_rel winr); [exact F|exact F'|exact W3|]. clear F F' W3 rc rc' r r'. intros n u u' v v' Hn W F F'.
    pose proof (W1 n Hn) as Q1. pose proof (W2 n Hn) as Q2. rewrite !Z.add_0_r in Q1, Q2. ob F. ob F'. apply load_some in E, E0. destruct E as (_ & ->), E0 as (_ & ->). rewrite <- Q1 in F'.
    destruct (nez _); [|same]. ob F. ob F. ob F. ob F'. ob F'. ob F'. apply cint_some in E, E2. apply load_some in E0, E1, E3, E4. apply store_some in F, F'.
    destruct E0 as (_ & ->), E1 as (_ & ->), E3 as (_ & ->), E4 as (_ & ->), F as (_ & ->), F' as (_ & ->). subst. rewrite <- (sr_gx _ _ S), <- (sr_gy _ _ S), <- Q2, <- (W n) by auto. apply win_set; auto.
  Qed.
  Lemma os_correct_left j su up rc rc' r : j <> k -> os_correctF g ru j su up rc = Some r -> winr rc rc' -> winr r rc'.
  Proof.
    intros N F W. unfold os_correctF in F. eapply (ofor_inv (fun u => winr u rc')); [exact F|exact W|]. clear F W rc r. intros n u v Hn W F. ob F. destruct (nez _); [|same]. ob F. ob F. ob F.
    apply cint_some in E0. apply store_some in F. destruct F as (_ & ->). subst. apply win_left; auto. intros i Hi. apply off_pix; auto.
  Qed.
  Lemma os_correct_right j su up rc rc' r : j <> k' -> os_correctF g' ru j su up rc' = Some r -> winr rc rc' -> winr rc r.
  Proof.
    intros N F W. unfold os_correctF in F. rewrite npix_same in F. eapply (ofor_inv (fun u => winr rc u)); [exact F|exact W|]. clear F W rc' r. intros n u v Hn W F. ob F. destruct (nez _); [|same]. ob F. ob F. ob F.
    apply cint_some in E0. apply store_some in F. destruct F as (_ & ->). subst. rewrite <- (sr_gx _ _ S), <- (sr_gy _ _ S). apply win_right; auto. intros i Hi. apply off_pix; auto.
  Qed.
  Notation st4 := (arr b32 * arr b32 * arr b32 * arr b32)%type.
  Notation win4 := (fun st st' : st4 => let '(rc, sd, _, _) := st in let '(rc', sd', _, _) := st' in winr rc rc' /\ wind sd sd').
  Lemma os_ray_left j c rc p d sd su up sd0 r : j <> k -> 0 <= d < dxF g -> os_rayF fmodf sinf cosf junk g ru data j c rc p d (sd, su, up) = Some r -> wind sd sd0 -> wind (fst (fst r)) sd0.
  Proof.
    intros N Hd F W. unfold os_rayF in F. ob F. pose proof (segs_range _ _ _ _ _ _ E) as Hp. ob F. ob F. pose proof (sim_left _ _ p d _ _ _ _ Hp Hd N E0 W) as W'.
    destruct (nez _); [ob F; ob F; ob F; ob F|]; injection F as <-; exact W'.
  Qed.
  Lemma os_ray_right j c rc p d sd su up sd0 r : j <> k' -> 0 <= d < dxF g -> os_rayF fmodf sinf cosf junk' g' ru data' j c rc p d (sd, su, up) = Some r -> wind sd0 sd -> wind sd0 (fst (fst r)).
  Proof.
    intros N Hd F W. unfold os_rayF in F. ob F. pose proof (segs_range _ _ _ _ _ _ E) as Hp. rewrite <- (sr_t _ _ S) in Hp. ob F. ob F. pose proof (sim_right _ _ p d _ _ _ _ Hp Hd N E0 W) as W'.
    destruct (nez _); [ob F; ob F; ob F; ob F|]; injection F as <-; exact W'.
  Qed.
  Lemma os_slice_left j st st' r : j <> k -> os_sliceF fmodf sinf cosf junk g ru data num_block ind_block j st = Some r -> win4 st st' -> win4 r st'.
  Proof.
    intros N F W. unfold os_sliceF in F. ob F. ob F. injection F as <-. eapply (ofor_inv (fun u => win4 (snd u) st')); [exact E0|exact W|]. clear E0 W st a0.
    intros os (start & (((rc & sd) & su) & up)) v _ W F. destruct st' as (((rc' & sd') & su') & up'). cbn [snd] in W. destruct W as (W1 & W2). unfold os_blockF in F. ob F. ob F. ob F.
    assert (W3 : wind (fst (fst a2)) sd').
    { eapply (ofor_inv (fun u : arr b32 * arr b32 * arr b32 => wind (fst (fst u)) sd')); [exact E2|exact W2|]. clear E2 F a2. intros q u u2 _ W F. ob F.
      eapply (ofor_inv (fun u : arr b32 * arr b32 * arr b32 => wind (fst (fst u)) sd')); [exact F|exact W|]. clear F W u u2. intros d ((u1 & u2) & u3) v' Hd W F. eapply os_ray_left; eauto. }
    destruct a2 as ((sd2 & su2) & up2). ob F. injection F as <-. cbn [snd]. split; [eapply os_correct_left; eauto|exact W3].
  Qed.
  Lemma os_slice_right j st st' r : j <> k' -> os_sliceF fmodf sinf cosf junk' g' ru data' num_block ind_block j st' = Some r -> win4 st st' -> win4 st r.
  Proof.
    intros N F W. unfold os_sliceF in F. ob F. ob F. injection F as <-. eapply (ofor_inv (fun u => win4 st (snd u))); [exact E0|exact W|]. clear E0 W st' a0.
    intros os (start & (((rc' & sd') & su') & up')) v _ W F. destruct st as (((rc & sd) & su) & up). cbn [snd] in W. destruct W as (W1 & W2). unfold os_blockF in F. ob F. ob F. ob F.
    assert (W3 : wind sd (fst (fst a2))).
    { eapply (ofor_inv (fun u : arr b32 * arr b32 * arr b32 => wind sd (fst (fst u)))); [exact E2|exact W2|]. clear E2 F a2. intros q u u2 _ W F. ob F. rewrite <- (sr_x _ _ S) in F.
      eapply (ofor_inv (fun u : arr b32 * arr b32 * arr b32 => wind sd (fst (fst u)))); [exact F|exact W|]. clear F W u u2. intros d ((u1 & u2) & u3) v' Hd W F. eapply os_ray_right; eauto. }
    destruct a2 as ((sd2 & su2) & up2). ob F. injection F as <-. cbn [snd]. split; [eapply os_correct_right; eauto|exact W3].
  Qed.
  Lemma os_slice_win st st' r r' : os_sliceF fmodf sinf cosf junk g ru data num_block ind_block k st = Some r -> os_sliceF fmodf sinf cosf junk' g' ru data' num_block ind_block k' st' = Some r' -> win4 st st' -> win4 r r'.
  Proof.
    intros F F' W. unfold os_sliceF in *. ob F. ob F. ob F'. ob F'. injection F as <-. injection F' as <-. apply load_some in E, E1. destruct E as (_ & ->), E1 as (_ & ->). rewrite <- Ec in E2.
    apply (fun H => proj2 (ofor_rel (fun u u' : Z * st4 => fst u = fst u' /\ win4 (snd u) (snd u')) _ _ _ _ _ _ _ _ E0 E2 (conj eq_refl W) H)). clear E0 E2 W a0 a2 st st'.
    intros os (start & (((rc & sd) & su) & up)) (start' & (((rc' & sd') & su') & up')) v v' _ (Q & W1 & W2) F F'. cbn [fst snd] in Q, W1, W2. subst start'. unfold os_blockF in F, F'.
    unfold pickF in F, F'. rewrite <- (sr_t _ _ S), <- (sr_x _ _ S), npix_same in F'.
    ob F. ob F. ob F. ob F'. ob F'. ob F'. assert (a = a2) by congruence. assert (a0 = a3) by congruence. subst a2 a3. clear E E0 E2 E3.
    assert (W3 : win3 a1 a4).
    { eapply (ofor_rel win3); [exact E1|exact E4| |]; clear E1 E4 F F' a1 a4.
      - split; [exact W2|]. assert (forall i, 0 <= i < np -> 0 <= i + 0 < npixF g /\ 0 <= i + 0 < npixF g) by lia. split; apply win_memset; auto.
      - intros q u u' w w' _ W F F'. ob F. ob F'. assert (a1 = a2) by congruence. subst a2. eapply (ofor_rel win3); [exact F|exact F'|exact W|]. clear F F' W u u' w w'. intros d u u' w w' Hd W F F'. eapply os_ray_win; eauto. }
    destruct a1 as ((? & ?) & ?), a4 as ((? & ?) & ?). ob F. ob F'. injection F as <-. injection F' as <-. destruct W3 as (W3 & W4 & W5). cbn [fst snd]. split; auto. split; auto. eapply os_correct_win; eauto.
  Qed.
  Theorem os_slices num_iter recon recon' sd sd' su su' up up' r r' : os_solveF fmodf sinf cosf junk g ru data num_block ind_block num_iter recon sd su up = Some r ->
    os_solveF fmodf sinf cosf junk' g' ru data' num_block ind_block num_iter recon' sd' su' up' = Some r' -> winr recon recon' -> winr r r'.
  Proof.
    intros E E' Wr. unfold os_solveF in *. assert (Em : (dtF g =? 0) || (dxF g =? 0) = (dtF g' =? 0) || (dxF g' =? 0)) by (rewrite (sr_t _ _ S), (sr_x _ _ S); reflexivity). unfold emptyF in *.
    replace (dyF g =? 0) with false in E by lia. replace (dyF g' =? 0) with false in E' by lia. cbn [orb] in E, E'. rewrite <- Em in E'.
    destruct ((dtF g =? 0) || (dxF g =? 0)); [injection E as <-; injection E' as <-; assumption|]. ob E. ob E'. ob E. ob E'.
    assert (W : (fun st st' : st4 => winr (fst (fst (fst st))) (fst (fst (fst st')))) a1 a2).
    { eapply (ofor_rel (fun st st' : st4 => winr (fst (fst (fst st))) (fst (fst (fst st'))))); [exact E2|exact E3|exact Wr|]. clear E E' E2 E3.
      intros it (((rc & d1) & d2) & d3) (((rc' & d1') & d2') & d3') t t' _ W F F'. cbn [fst] in W.
      assert (Q : win4 t t').
      { eapply (ofor_slice win4 (dyF g) (dyF g') k k'); [auto|auto| | | |exact F|exact F'|]; cbn beta.
        - intros j u u' v Hj N W' G. eapply os_slice_left; eauto.
        - intros j u u' v Hj N W' G. eapply os_slice_right; eauto.
        - intros u u' v v' W' G G'. eapply os_slice_win; eauto.
        - split; [exact W|]. apply win_memset, nd_in. }
      destruct t as (((? & ?) & ?) & ?), t' as (((? & ?) & ?) & ?). apply Q. }
    destruct a1 as (((? & ?) & ?) & ?), a2 as (((? & ?) & ?) & ?). cbn [fst] in W. same.
  Qed.
End Slices.
