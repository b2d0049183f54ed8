From Verif Require Import Base Order CLoop Model_Ray Proofs_Ray Model_RayF Model_SolverF Spec_SolverF Model_PmlF Model_GradF Proofs_FloatB Proofs_RayF Proofs_RayF2 Proofs_RayF3 Proofs_RayF4.
From Verif Require Import Proofs_SolverF Proofs_SolverF2 Proofs_SolverF6 Proofs_PmlF Spec_PmlF Proofs_PmlF3 Proofs_PmlF4 Spec_GradF Proofs_GradF2 Proofs_GradF3.
From Flocq Require Import Core BinarySingleNaN.
Local Open Scope Z_scope.

(** ** tv *)
Lemma some_eq {A} (x y : A) : Some x = Some y -> y = x.
Proof. congruence. Qed.
Lemma pair_eq {A B} (a c : A) (b d : B) : (a, b) = (c, d) -> a = c /\ b = d.
Proof. intros E. split; congruence. Qed.
Ltac si H := apply some_eq in H; match type of H with ?v = _ => subst v end.
Section Grid.
  Variables (gx gy : Z).
  Hypothesis Hgx : 1 <= gx.
  Lemma inside_next i : 0 <= i < gx * gy -> inside gx gy i = true -> 0 <= i + 1 < gx * gy /\ 0 <= i + gx < gx * gy.
  Proof. unfold inside. intros H T. pose proof (Z.div_mod i gx ltac:(lia)). pose proof (Z.mod_pos_bound i gx ltac:(lia)). assert (0 <= i / gx) by (apply Z.div_pos; lia). nia. Qed.
  Lemma mod_prev i : 0 <= i < gx * gy -> (i mod gx =? 0) = false -> 0 <= i - 1 < gx * gy.
  Proof. intros H T. destruct (Z.eq_dec i 0) as [->|]; [rewrite Z.mod_0_l in T by lia; discriminate|lia]. Qed.
  Lemma div_prev i : 0 <= i < gx * gy -> (i / gx =? 0) = false -> 0 <= i - gx < gx * gy.
  Proof. intros H T. pose proof (Z.div_mod i gx ltac:(lia)). pose proof (Z.mod_pos_bound i gx ltac:(lia)). assert (0 <= i / gx) by (apply Z.div_pos; lia). nia. Qed.
End Grid.
Section Ext.
  Variables (segs : Z -> Z -> list (Z * b32)) (dt dx gx gy : Z) (data : Z -> Z -> b32) (r par c : b32).
  Hypothesis Hgx : 1 <= gx.
  Hypothesis Hseg : forall p d i w, In (i, w) (segs p d) -> 0 <= i < gx * gy.
  Definition agree2 (q q' : Z -> Z -> b32) : Prop := forall p d, 0 <= p < dt -> 0 <= d < dx -> q p d = q' p d.
  Definition same_tv (st st' : tv_state) : Prop :=
    agree gx gy (tx st) (tx st') /\ agree gx gy (tu st) (tu st') /\ agree gx gy (tvx st) (tvx st') /\ agree gx gy (tvy st) (tvy st') /\ agree2 (tq st) (tq st').
  Lemma tv_next_ext st st' : same_tv st st' -> same_tv (tv_next segs dt dx gx gy data r par c st) (tv_next segs dt dx gx gy data r par c st').
  Proof.
    intros (A1 & A2 & A3 & A4 & A5). set (vx := dual_x gx gy par c). set (vy := dual_y gx gy par c). set (q := dual_q segs data r c).
    assert (B0 : forall i, 0 <= i < gx * gy -> inside gx gy i = true -> ascent_x c st i = ascent_x c st' i /\ ascent_y gx c st i = ascent_y gx c st' i).
    { intros i Hi T. destruct (inside_next gx gy Hgx i Hi T) as (H1 & H2). unfold ascent_x, ascent_y. rewrite (A1 i Hi), (A1 _ H1), (A1 _ H2), (A3 i Hi), (A4 i Hi). auto. }
    assert (B1 : agree gx gy (vx st) (vx st')). { intros i Hi. unfold vx, dual_x. rewrite (A3 i Hi). destruct (inside gx gy i) eqn:T; [|reflexivity]. destruct (B0 i Hi T) as (-> & ->). reflexivity. }
    assert (B2 : agree gx gy (vy st) (vy st')). { intros i Hi. unfold vy, dual_y. rewrite (A4 i Hi). destruct (inside gx gy i) eqn:T; [|reflexivity]. destruct (B0 i Hi T) as (-> & ->). reflexivity. }
    assert (B3 : agree2 (q st) (q st')). { intros p d Hp Hd. unfold q, dual_q. rewrite (A5 p d Hp Hd), (simulated_ext segs gx gy Hseg (tx st) (tx st') p d A1). reflexivity. }
    assert (B4 : agree gx gy (primal segs dt dx gx gy data r par c st) (primal segs dt dx gx gy data r par c st')).
    { intros i Hi. unfold primal. fold vx vy q. cbv zeta. rewrite (A2 i Hi), (back_ext segs dt dx _ (q st) (q st') i B3), (B1 i Hi), (B2 i Hi). f_equal; [f_equal; f_equal|f_equal].
      - destruct (i mod gx =? 0) eqn:T; [reflexivity|]. now rewrite (B1 _ (mod_prev gx gy Hgx i Hi T)).
      - destruct (i / gx =? 0) eqn:T; [reflexivity|]. now rewrite (B2 _ (div_prev gx gy Hgx i Hi T)). }
    unfold tv_next. repeat split; cbn [tx tu tvx tvy tq]; auto. intros i Hi. rewrite (B4 i Hi), (A2 i Hi). reflexivity.
  Qed.
End Ext.

Section Value.
  Variables (fmodf sinf cosf : b32 -> b32) (junk : arr pointF * arr pointF * arr pointF) (g : geomF).
  Hypothesis Hx : 1 <= gxF g <= 2 ^ 15.
  Hypothesis Hy : 1 <= gyF g <= 2 ^ 15.
  Hypothesis Hd : 0 <= dxF g.
  Hypothesis Ht : 0 <= dtF g.
  Hypothesis Hdy : 0 <= dyF g.
  Variables (data : arr b32) (nreg : Z) (reg : arr b32).
  Notation segs_ := (segs_of fmodf sinf cosf junk g).
  Notation img := (img_of g).
  Notation dat := (data_of g).
  Notation agree_ := (agree (gxF g) (gyF g)).
  Notation same_ := (same_tv (dtF g) (dxF g) (gxF g) (gyF g)).
  Notation next_ s r lam := (tv_next (segs_ (centerF g s%Z)) (dtF g) (dxF g) (gxF g) (gyF g) (dat data s%Z) r lam tv_c).
  Definition view (st : arr b32 * arr b32 * arr b32 * arr b32 * arr b32) (s : Z) : tv_state :=
    let '(rc, up, px, py, pr) := st in mkTv (img rc s) (img up s) (img px s) (img py s) (dat pr s).
  Section Cell.
    Variables (s s' i : Z).
    Hypothesis Hi : 0 <= i < npixF g.
    Notation at_ := (fun a : arr b32 => a (i + s' * gxF g * gyF g)).
    Notation cell := (fun P : arr b32 * arr b32 => (fst P (i + s' * gxF g * gyF g), snd P (i + s' * gxF g * gyF g))).
    Lemma tv_grad_value rc P P' : tv_gradF g rc s P = Some P' -> cell P' = if (s =? s') && inside (gxF g) (gyF g) i then
      (fadd (img (fst P) s' i) (fmul tv_c (fsub (img rc s' (i + 1)) (img rc s' i))), fadd (img (snd P) s' i) (fmul tv_c (fsub (img rc s' (i + gxF g)) (img rc s' i)))) else cell P.
    Proof.
      intros E. unfold tv_gradF in E. cbv beta. rewrite (inside_once g Hx Hy cell (fun v => (fadd (fst v) (fmul tv_c (fsub (img rc s' (i + 1)) (img rc s' i))), fadd (snd v) (fmul tv_c (fsub (img rc s' (i + gxF g)) (img rc s' i))))) _ _ _ _ s' i E Hi).
      - reflexivity.
      - intros q (a & b) v F. ob F. ldl. ob F. ldl. ob F. ldl. ob F. apply store_some in E0. destruct E0 as (_ & ->). ob F. ldl. ob F. ldl. ob F. apply store_some in E0. destruct E0 as (_ & ->). si F. cbn [fst snd].
        destruct (Z.eqb_spec q (i + s' * gxF g * gyF g)) as [->|N]; [|now rewrite !aset_ne by congruence]. rewrite !aset_eq. unfold img_of.
        replace (i + 1 + s' * gxF g * gyF g) with (i + s' * gxF g * gyF g + 1) by ring. replace (i + gxF g + s' * gxF g * gyF g) with (i + s' * gxF g * gyF g + gxF g) by ring. reflexivity.
    Qed.
    Lemma tv_shrink_value lam P P' : tv_shrinkF g lam s P = Some P' -> cell P' = if (s =? s') && inside (gxF g) (gyF g) i then
      (clipped lam (img (fst P) s' i) (img (fst P) s' i) (img (snd P) s' i), clipped lam (img (snd P) s' i) (img (fst P) s' i) (img (snd P) s' i)) else cell P.
    Proof.
      intros E. unfold tv_shrinkF in E. cbv beta. rewrite (inside_once g Hx Hy cell (fun v => (clipped lam (fst v) (fst v) (snd v), clipped lam (snd v) (fst v) (snd v))) _ _ _ _ s' i E Hi).
      - reflexivity.
      - intros q (a & b) v F. ob F. ldl. ob F. ldl. ob F. apply store_some in E0. destruct E0 as (_ & ->). ob F. apply store_some in E0. destruct E0 as (_ & ->). si F. cbn [fst snd].
        destruct (Z.eqb_spec q (i + s' * gxF g * gyF g)) as [->|N]; [|now rewrite !aset_ne by congruence]. rewrite !aset_eq. reflexivity.
    Qed.
    Lemma copy_value src dst r : copyF g src s dst = Some r -> img r s' i = if s =? s' then img src s' i else img dst s' i.
    Proof.
      intros E. unfold copyF in E. ob E. apply cint_some in E0. subst a. unfold img_of. rewrite (ofor_once at_ (fun v => if s =? s' then src (i + s' * gxF g * gyF g) else v) 0 (npixF g) i _ _ _ E).
      - replace ((0 <=? i) && (i <? npixF g)) with true by lia. reflexivity.
      - intros n u v Hn F. ob F. ldl. apply store_some in F. destruct F as (_ & ->). destruct (Z.eqb_spec n i) as [->|N]; [destruct (Z.eqb_spec s s') as [->|N]|].
        + replace (s' * gxF g * gyF g + i) with (i + s' * gxF g * gyF g) by ring. now rewrite aset_eq.
        + rewrite aset_ne; [reflexivity|]. intros T. destruct (pix_inj g s' i s i Hi Hi); [lia|]. congruence.
        + rewrite aset_ne; [reflexivity|]. intros T. destruct (pix_inj g s' i s n Hi Hn); [lia|]. congruence.
    Qed.
    Lemma tv_over_value up a r : tv_overF g up s a = Some r -> img r s' i = if s =? s' then fsub (fmul (of_int 2) (img up s' i)) (img a s' i) else img a s' i.
    Proof.
      intros E. unfold img_of. apply (pixels_once g Hx Hy at_ (fun v => fsub (fmul (of_int 2) (up (i + s' * gxF g * gyF g))) v) _ _ _ _ s' i E Hi). intros q u v F. ob F. ldl. ob F. ldl. apply store_some in F. destruct F as (_ & ->).
      destruct (Z.eqb_spec q (i + s' * gxF g * gyF g)) as [->|N]; [now rewrite aset_eq|]. now rewrite aset_ne by congruence.
    Qed.
    Lemma tv_back_value px py ad a r : tv_backF g px py ad s a = Some r -> img r s' i = if s =? s' then
      fadd (fadd (fsub (img a s' i) (fmul tv_c (img ad s' i))) (fmul tv_c (if i mod gxF g =? 0 then img px s' i else fsub (img px s' i) (img px s' (i - 1)))))
        (fmul tv_c (if i / gxF g =? 0 then img py s' i else fsub (img py s' i) (img py s' (i - gxF g)))) else img a s' i.
    Proof.
      intros E. unfold tv_backF in E. ob E. apply cint_some in E0. subst a0.
      pose (F_ := fun iy ix v => if s =? s' then fadd (fadd (fsub v (fmul tv_c (img ad s' i))) (fmul tv_c (if ix =? 0 then img px s' i else fsub (img px s' i) (img px s' (i - 1))))) (fmul tv_c (if iy =? 0 then img py s' i else fsub (img py s' i) (img py s' (i - gxF g)))) else v).
      unfold img_of at 1. rewrite (nest_once at_ F_ (gyF g) (gxF g) (gxF g) i _ _ _ ltac:(lia) ltac:(lia) E).
      - rewrite (px_in g Hx i Hi). reflexivity.
      - intros iy ix u v Hiy Hix F. ob F. apply cint_some in E0. subst a0. ob F. ldl. ob F. ldl. ob F. ldl. ob F. rename E0 into X1. ob F. ldl. ob F. rename E0 into X2. apply store_some in F. destruct F as (_ & ->).
        pose proof (px_slice g Hx Hy s s' iy ix i Hiy Hix Hi) as Q. destruct (Z.eqb_spec (iy * gxF g + ix) i) as [T|N].
        + unfold F_. destruct (Z.eqb_spec s s') as [->|N].
          * cbn [andb] in Q. apply Z.eqb_eq in Q. rewrite Q in *. rewrite aset_eq. unfold img_of. destruct (ix =? 0); [|ob X1; ldl]; si X1; (destruct (iy =? 0); [|ob X2; ldl]; si X2);
              repeat match goal with |- context [i - ?k + s' * gxF g * gyF g] => replace (i - k + s' * gxF g * gyF g) with (i + s' * gxF g * gyF g - k) by ring end; reflexivity.
          * rewrite aset_ne by (cbn [andb] in Q; lia). reflexivity.
        + rewrite aset_ne by (rewrite Bool.andb_false_r in Q; lia). reflexivity.
    Qed.
  End Cell.
  Lemma tv_slice_value r lam s rc up px py pr sd ad st' : tv_sliceF fmodf sinf cosf junk g data r lam s (rc, up, px, py, pr, sd, ad) = Some st' ->
    (forall j, s * dtF g * dxF g <= j -> sd j = zeroF) -> (forall i, 0 <= i < npixF g -> img ad s i = zeroF) ->
    let '(rc', up', px', py', pr', sd', ad') := st' in
    (forall j, (s + 1) * dtF g * dxF g <= j -> sd' j = zeroF) /\ (forall s' i, s' <> s -> 0 <= i < npixF g -> img ad' s' i = img ad s' i) /\
    forall s', same_ (view (rc', up', px', py', pr') s') (if s =? s' then next_ s r lam (view (rc, up, px, py, pr) s) else view (rc, up, px, py, pr) s').
  Proof.
    intros E H0 Ha. unfold tv_sliceF in E. ob E. rename E0 into X1. ob E. rename E0 into X2. destruct a as (px1 & py1). destruct a0 as (px2 & py2). ob E. destruct a as ((sd' & pr') & ad'). rename E0 into X3. ob E. rename E0 into X4. ob E. rename E0 into X5. ob E. rename E0 into X6. si E.
    apply (radon_slice_value fmodf sinf cosf junk g Hx Hy Hd Ht data) in X3; [|exact H0]. destruct X3 as (Y1 & Y2 & Y3). split; [exact Y1|]. split.
    { intros s' i N Hi. rewrite (Y3 i s' Hi). replace (s =? s') with false by lia. reflexivity. }
    intros s'. unfold view.
    pose (w0 := view (rc, up, px, py, pr) s). pose (vx := dual_x (gxF g) (gyF g) lam tv_c w0). pose (vy := dual_y (gxF g) (gyF g) lam tv_c w0).
    assert (V : forall i, 0 <= i < npixF g -> img px2 s' i = (if s =? s' then vx i else img px s' i) /\ img py2 s' i = (if s =? s' then vy i else img py s' i)).
    { intros i Hi. pose proof (tv_grad_value s s' i Hi _ _ _ X1) as Z1. pose proof (tv_shrink_value s s' i Hi _ _ _ X2) as Z2. cbn [fst snd] in Z1, Z2. unfold vx, vy, dual_x, dual_y, ascent_x, ascent_y, w0, view in *. cbn [tx tvx tvy]. unfold img_of in *. destruct (Z.eqb_spec s s') as [<-|N]; cbn [andb] in *.
      - destruct (inside _ _ i); apply pair_eq in Z1; destruct Z1 as (A1 & A2); apply pair_eq in Z2; destruct Z2 as (B1 & B2); rewrite B1, B2, A1, A2; auto.
      - apply pair_eq in Z1; destruct Z1 as (A1 & A2); apply pair_eq in Z2; destruct Z2 as (B1 & B2); rewrite B1, B2, A1, A2; auto. }
    assert (U : forall i, 0 <= i < npixF g -> img a0 s' i = if s =? s' then tu (next_ s r lam (view (rc, up, px, py, pr) s)) i else img up s' i).
    { intros i Hi. rewrite (tv_back_value s s' i Hi _ _ _ _ _ X5). destruct (Z.eqb_spec s s') as [<-|N]; [|reflexivity]. pose proof V as V'. unfold tv_next, primal. cbv zeta. cbn [tu]. fold w0. fold vx vy. change (tu w0 i) with (img up s i).
      rewrite (Y3 i s Hi), Z.eqb_refl, (Ha i Hi), (proj1 (V' i Hi)), (proj2 (V' i Hi)). f_equal; [f_equal; f_equal|f_equal].
      - destruct (i mod gxF g =? 0) eqn:T; [reflexivity|]. rewrite (proj1 (V' _ (mod_prev (gxF g) (gyF g) ltac:(lia) i Hi T))). reflexivity.
      - destruct (i / gxF g =? 0) eqn:T; [reflexivity|]. rewrite (proj2 (V' _ (div_prev (gxF g) (gyF g) ltac:(lia) i Hi T))). reflexivity. }
    repeat split; cbn [tx tu tvx tvy tq].
    - intros i Hi. rewrite (tv_over_value s s' i Hi _ _ _ X6), (copy_value s s' i Hi _ _ _ X4), (U i Hi). destruct (Z.eqb_spec s s') as [<-|N]; reflexivity.
    - intros i Hi. rewrite (U i Hi). destruct (s =? s'); reflexivity.
    - intros i Hi. rewrite (proj1 (V i Hi)). destruct (s =? s'); reflexivity.
    - intros i Hi. rewrite (proj2 (V i Hi)). destruct (s =? s'); reflexivity.
    - intros p d Hp Hdd. rewrite (Y2 s' p d Hp Hdd). destruct (s =? s'); reflexivity.
  Qed.
  Lemma same_refl st : same_ st st. Proof. repeat split; intros ? ?; reflexivity. Qed.
  Lemma same_trans a b c : same_ a b -> same_ b c -> same_ a c.
  Proof. intros (A1 & A2 & A3 & A4 & A5) (B1 & B2 & B3 & B4 & B5). repeat split; [intros i Hi; rewrite A1; auto|intros i Hi; rewrite A2; auto|intros i Hi; rewrite A3; auto|intros i Hi; rewrite A4; auto|intros p d Hp Hdd; rewrite A5; auto]. Qed.
  Lemma seg_s' s p d i w : In (i, w) (segs_ (centerF g s) p d) -> 0 <= i < gxF g * gyF g.
  Proof. intros H. apply (segs_in fmodf sinf cosf junk g Hx Hy _ _ _ _ _ H). Qed.
  Lemma tv_iter_value r lam st st' s : tv_iterF fmodf sinf cosf junk g data r lam st = Some st' -> 0 <= s < dyF g -> same_ (view st' s) (next_ s r lam (view st s)).
  Proof.
    destruct st as ((((rc & up) & px) & py) & pr). unfold tv_iterF. intros E Hs. ob E. destruct a as ((((((rc' & up') & px') & py') & pr') & sd') & ad'). si E.
    pose (v0 := view (rc, up, px, py, pr)).
    pose (I := fun n (st : stateT) => let '(rc', up', px', py', pr', sd', ad') := st in (forall j, n * dtF g * dxF g <= j -> sd' j = zeroF) /\ (forall s i, n <= s -> 0 <= i < npixF g -> img ad' s i = zeroF) /\
      forall s, same_ (view (rc', up', px', py', pr') s) (if (0 <=? s) && (s <? n) then next_ s r lam (v0 s) else v0 s)).
    assert (G : I (dyF g) (rc', up', px', py', pr', sd', ad')).
    { eapply (ofor_ind I); [exact E0|lia| |].
      - split; [reflexivity|]. split; [reflexivity|]. intros s1. replace ((0 <=? s1) && (s1 <? 0)) with false by lia. apply same_refl.
      - clear E0. intros n ((((((rc1 & up1) & px1) & py1) & pr1) & sd1) & ad1) ((((((rc2 & up2) & px2) & py2) & pr2) & sd2) & ad2) Hn (A1 & A2 & A3) E. apply tv_slice_value in E; [|exact A1|intros i Hi; apply A2; [lia|exact Hi]]. destruct E as (E1 & E2 & E3). split; [exact E1|]. split.
        + intros s1 i H1 Hi. rewrite (E2 s1 i ltac:(lia) Hi). apply A2; [lia|exact Hi].
        + intros s1. eapply same_trans; [apply E3|]. destruct (Z.eqb_spec n s1) as [<-|N].
          * replace ((0 <=? n) && (n <? n + 1)) with true by lia. apply tv_next_ext; [lia|apply seg_s'|]. pose proof (A3 n) as A. replace ((0 <=? n) && (n <? n)) with false in A by lia. exact A.
          * replace ((0 <=? s1) && (s1 <? n + 1)) with ((0 <=? s1) && (s1 <? n)) by lia. apply A3. }
    destruct G as (_ & _ & G). pose proof (G s) as G'. replace ((0 <=? s) && (s <? dyF g)) with true in G' by lia. exact G'.
  Qed.
  Theorem tv_value num_iter recon res s i : emptyF g = false -> 0 <= num_iter -> tvF fmodf sinf cosf junk g data nreg reg num_iter recon = Some res -> 0 <= s < dyF g -> 0 <= i < npixF g ->
    img res s i = tv_image (segs_ (centerF g s)) (dtF g) (dxF g) (gxF g) (gyF g) (dat data s) (step_r (dxF g * dtF g)) (reg 0) tv_c (Z.to_nat num_iter) (img recon s) i.
  Proof.
    intros Em Hn E Hs Hi. unfold tvF in E. rewrite Em in E. ob E. clear E0. ob E. clear E0. ob E. ldl. ob E. apply cint_some in E0. subst. set (r := step_r (dxF g * dtF g)) in *. ob E. ob E. destruct a2 as ((((rc & up) & px) & py) & pr).
    pose (run := fun n => tv_run (segs_ (centerF g s)) (dtF g) (dxF g) (gxF g) (gyF g) (dat data s) r (reg 0) tv_c (Z.to_nat n) (img recon s)).
    assert (Rn : forall n, 0 <= n -> run (n + 1) = next_ s r (reg 0) (run n)).
    { intros n Hn0. unfold run. rewrite Z.add_1_r, Z2Nat.inj_succ by lia. reflexivity. }
    assert (G : same_ (view (rc, up, px, py, pr) s) (run num_iter)).
    { eapply (ofor_ind (fun n st => same_ (view st s) (run n))); [exact E1|lia| |].
      - repeat split; cbn [tx tu tvx tvy tq view run tv_run Z.to_nat]; try (intros j Hj; apply (scale_value g Hx Hy s j Hs Hj _ _ _ E0)); intros j Hj; reflexivity.
      - intros n st st' Hn' A E'. pose proof (tv_iter_value r (reg 0) st st' s E' Hs) as K. cbv beta in A |- *. rewrite (Rn n) by lia. apply (same_trans _ _ _ K). apply tv_next_ext; [lia|apply seg_s'|exact A]. }
    rewrite (scale_value g Hx Hy s i Hs Hi _ _ _ E). unfold tv_image. fold r. pose proof (proj1 G i Hi) as K. cbn [tx view] in K. unfold run in K. rewrite K. reflexivity.
  Qed.
End Value.
