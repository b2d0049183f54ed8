From Verif Require Import Base Order CLoop Model_Ray Proofs_Ray Model_RayF Model_SolverF Spec_SolverF Model_PmlF Model_GradF Proofs_FloatB Proofs_RayF Proofs_RayF2 Proofs_RayF3 Proofs_RayF4.
From Verif Require Import Proofs_SolverF Proofs_SolverF2 Proofs_SolverF6 Proofs_PmlF Spec_PmlF Proofs_PmlF3 Proofs_PmlF4 Spec_GradF.
From Flocq Require Import Core BinarySingleNaN.
Local Open Scope Z_scope.

(** ** Loops that change what is observed in one round only *)
Lemma ofor_once {St W} (at_ : St -> W) (F : W -> W) a b c (f : Z -> St -> option St) s r : ofor a b f s = Some r ->
  (forall n s s', a <= n < b -> f n s = Some s' -> at_ s' = if n =? c then F (at_ s) else at_ s) -> at_ r = if (a <=? c) && (c <? b) then F (at_ s) else at_ s.
Proof.
  intros E H. destruct (Z_le_gt_dec a b) as [L|L].
  - eapply (ofor_ind (fun n t => at_ t = if (a <=? c) && (c <? n) then F (at_ s) else at_ s)); [exact E|exact L| |].
    + replace ((a <=? c) && (c <? a)) with false by lia. reflexivity.
    + intros n t t' Hn I E'. rewrite (H n t t' Hn E'), I. destruct (Z.eqb_spec n c) as [->|N].
      * replace ((a <=? c) && (c <? c)) with false by lia. replace ((a <=? c) && (c <? c + 1)) with true by lia. reflexivity.
      * replace ((a <=? c) && (c <? n + 1)) with ((a <=? c) && (c <? n)) by lia. reflexivity.
  - unfold ofor in E. rewrite zrange_nil in E by lia. injection E as <-. replace ((a <=? c) && (c <? b)) with false by lia. reflexivity.
Qed.
Lemma nest_once {St W} (at_ : St -> W) (F : Z -> Z -> W -> W) ny nx gx i (f : Z -> Z -> St -> option St) s r : 1 <= gx -> nx <= gx ->
  ofor 0 ny (fun iy => ofor 0 nx (f iy)) s = Some r ->
  (forall iy ix s s', 0 <= iy < ny -> 0 <= ix < nx -> f iy ix s = Some s' -> at_ s' = if iy * gx + ix =? i then F iy ix (at_ s) else at_ s) ->
  at_ r = if (0 <=? i / gx) && (i / gx <? ny) && (i mod gx <? nx) then F (i / gx) (i mod gx) (at_ s) else at_ s.
Proof.
  intros Hg Hn E H. pose proof (Z.div_mod i gx ltac:(lia)) as D. pose proof (Z.mod_pos_bound i gx ltac:(lia)) as M.
  rewrite (ofor_once at_ (fun v => if i mod gx <? nx then F (i / gx) (i mod gx) v else v) 0 ny (i / gx) _ s r E).
  - destruct ((0 <=? i / gx) && (i / gx <? ny)); [destruct (i mod gx <? nx)|]; reflexivity.
  - clear s r E. intros iy s r Hy E. rewrite (ofor_once at_ (F iy (i - iy * gx)) 0 nx (i - iy * gx) _ s r E).
    + destruct (Z.eqb_spec iy (i / gx)) as [Q|N].
      * replace (i - iy * gx) with (i mod gx) by nia. rewrite Q. replace (0 <=? i mod gx) with true by lia. reflexivity.
      * replace ((0 <=? i - iy * gx) && (i - iy * gx <? nx)) with false; [reflexivity|]. symmetry. apply Bool.not_true_is_false. intros T. apply N. apply Z.div_unique with (i - iy * gx); lia.
    + clear s r E. intros ix s r Hx E. rewrite (H iy ix s r Hy Hx E). replace (iy * gx + ix =? i) with (ix =? i - iy * gx) by lia. destruct (Z.eqb_spec ix (i - iy * gx)) as [->|N]; reflexivity.
Qed.
(** Two loops as one *)
Lemma nest_flat {St} ny nx (f : Z -> St -> option St) s : 0 <= nx -> 0 <= ny -> ofor 0 ny (fun iy => ofor 0 nx (fun ix => f (iy * nx + ix))) s = ofor 0 (nx * ny) f s.
Proof.
  intros Hx Hy. revert ny Hy. apply (natlike_ind (fun ny => ofor 0 ny (fun iy => ofor 0 nx (fun ix => f (iy * nx + ix))) s = ofor 0 (nx * ny) f s)).
  - rewrite Z.mul_0_r. reflexivity.
  - intros ny Hy IH. rewrite <- Z.add_1_r. unfold ofor in *. rewrite zrange_snoc, ofold_app, IH by lia. replace (nx * (ny + 1)) with (nx * ny + nx) by ring. rewrite <- (zrange_app (a := 0) (b := nx * ny) (c := nx * ny + nx)) by nia. rewrite ofold_app.
    destruct (ofold f (zrange 0 (nx * ny)) s) as [t|]; [|reflexivity]. cbn [obind ofold].
    assert (Q : forall t, ofold (fun ix => f (ny * nx + ix)) (zrange 0 nx) t = ofold f (zrange (nx * ny) (nx * ny + nx)) t).
    { intros t0. assert (Z1 : zrange (nx * ny) (nx * ny + nx) = map (fun ix => ny * nx + ix) (zrange 0 nx)).
      { unfold zrange. replace (nx * ny + nx - nx * ny) with (nx - 0) by lia. rewrite map_map. apply map_ext. intros k. lia. }
      rewrite Z1. clear Z1 IH. revert t0. induction (zrange 0 nx) as [|x l IHl]; intros t0; cbn [ofold map]; auto. destruct (f (ny * nx + x) t0); cbn [obind]; auto. }
    rewrite Q. destruct (ofold f _ t); reflexivity.
Qed.

Section Value.
  Variables (fmodf sinf cosf : b32 -> b32) (junk : arr pointF * arr pointF * arr pointF) (g : geomF).
  Hypothesis Hx : 1 <= gxF g <= 2 ^ 15.
  Hypothesis Hy : 1 <= gyF g <= 2 ^ 15.
  Hypothesis Hd : 0 <= dxF g.
  Hypothesis Ht : 0 <= dtF g.
  Variable data : arr b32.
  Notation segs_ := (segs_of fmodf sinf cosf junk g).
  Notation img := (img_of g).
  Notation dat := (data_of g).
  Lemma segs_in c p d : seg_ok g (segs_ c p d).
  Proof. unfold segs_of. destruct (segsF fmodf sinf cosf junk g c p d) eqn:E; [|intros i w []]. apply (seg_in fmodf sinf cosf junk g ltac:(lia) ltac:(lia) c p d l E). Qed.

  (** ** Pixels of a slice *)
  Lemma px_slice s s' iy ix i : 0 <= iy < gyF g -> 0 <= ix < gxF g -> 0 <= i < npixF g -> (s * gxF g * gyF g + iy * gxF g + ix =? i + s' * gxF g * gyF g) = (s =? s') && (iy * gxF g + ix =? i).
  Proof.
    intros H1 H2 H3. destruct (Z.eqb_spec (s * gxF g * gyF g + iy * gxF g + ix) (i + s' * gxF g * gyF g)) as [E|N]; [|nia]. assert (Q : 0 <= iy * gxF g + ix < npixF g) by (unfold npixF; nia).
    destruct (pix_inj g s (iy * gxF g + ix) s' i Q H3); [lia|]. subst. lia.
  Qed.
  Lemma px_in i : 0 <= i < npixF g -> (0 <=? i / gxF g) && (i / gxF g <? gyF g) && (i mod gxF g <? gxF g) = true.
  Proof.
    unfold npixF. intros H. pose proof (Z.mod_pos_bound i (gxF g) ltac:(lia)). assert (0 <= i / gxF g) by (apply Z.div_pos; lia). assert (i / gxF g < gyF g) by (apply Z.div_lt_upper_bound; lia). lia.
  Qed.
  Lemma pixels_once {St W} (at_ : St -> W) (F : W -> W) s f st r s' i : pixelsF g s f st = Some r -> 0 <= i < npixF g ->
    (forall q st st', f q st = Some st' -> at_ st' = if q =? i + s' * gxF g * gyF g then F (at_ st) else at_ st) -> at_ r = if s =? s' then F (at_ st) else at_ st.
  Proof.
    intros E Hi H. unfold pixelsF in E. ob E. apply cint_some in E0. subst a. rewrite (nest_once at_ (fun _ _ v => if s =? s' then F v else v) (gyF g) (gxF g) (gxF g) i _ st r ltac:(lia) ltac:(lia) E).
    - rewrite px_in by auto. reflexivity.
    - intros iy ix u v Hiy Hix Q. ob Q. apply cint_some in E0. subst a. rewrite (H _ _ _ Q), px_slice by auto. destruct (iy * gxF g + ix =? i), (s =? s'); reflexivity.
  Qed.
  Lemma inside_once {St W} (at_ : St -> W) (F : W -> W) s f st r s' i : insideF g s f st = Some r -> 0 <= i < npixF g ->
    (forall q st st', f q st = Some st' -> at_ st' = if q =? i + s' * gxF g * gyF g then F (at_ st) else at_ st) -> at_ r = if (s =? s') && inside (gxF g) (gyF g) i then F (at_ st) else at_ st.
  Proof.
    intros E Hi H. unfold insideF in E. ob E. apply cint_some in E0. subst a. rewrite (nest_once at_ (fun _ _ v => if s =? s' then F v else v) (gyF g - 1) (gxF g - 1) (gxF g) i _ st r ltac:(lia) ltac:(lia) E).
    - pose proof (px_in i Hi). unfold inside. replace (0 <=? i / gxF g) with true by lia. cbn [andb]. destruct (s =? s'); cbn [andb]; [reflexivity|]. match goal with |- (if ?b then _ else _) = _ => destruct b end; reflexivity.
    - intros iy ix u v Hiy Hix Q. ob Q. apply cint_some in E0. subst a. rewrite (H _ _ _ Q), px_slice by (auto; lia). destruct (iy * gxF g + ix =? i), (s =? s'); reflexivity.
  Qed.
  Lemma slices_once {St W} (at_ : St -> W) (F : W -> W) (f : Z -> St -> option St) st r s' : ofor 0 (dyF g) f st = Some r -> 0 <= s' < dyF g ->
    (forall s st st', f s st = Some st' -> at_ st' = if s =? s' then F (at_ st) else at_ st) -> at_ r = F (at_ st).
  Proof. intros E Hs H. rewrite (ofor_once at_ F 0 (dyF g) s' f st r E) by (intros; eauto). replace ((0 <=? s') && (s' <? dyF g)) with true by lia. reflexivity. Qed.

  (** ** One ray *)
  Section Ray.
    Variables (res : b32 -> b32 -> b32 -> b32) (back : b32 -> b32 -> b32) (s : Z) (rc : arr b32).
    Notation c := (centerF g s).
    Notation segs := (segs_ c).
    Notation bd := (s * dtF g * dxF g).
    Definition Q_ (px : arr b32) (p d : Z) : b32 := res (dat px s p d) (simulated segs (img rc s) p d) (dat data s p d).
    Definition L_ (px : arr b32) (i p d : Z) : list (b32 * b32) := if nez (sum_sq (segs p d)) then map (fun w => (Q_ px p d, w)) (lengths segs i p d) else [].
    Notation acc := (fun (v : b32) '(u, w) => fadd v (back u w)).
    Definition sd_of (st : stateR) := fst (fst (fst st)).
    Definition px_of (st : stateR) := snd (fst (fst st)).
    Definition gr_of (st : stateR) := snd st.
    Lemma radon_ray_value p d st st' : radon_rayF fmodf sinf cosf junk g data res back s c rc p d st = Some st' -> sd_of st (d + p * dxF g + bd) = zeroF ->
      (forall j, j <> d + p * dxF g + bd -> sd_of st' j = sd_of st j) /\
      (forall j, px_of st' j = if j =? d + p * dxF g + bd then Q_ (px_of st) p d else px_of st j) /\
      (forall i s', 0 <= i < npixF g -> img (gr_of st') s' i = if s =? s' then fold_left acc (L_ (px_of st) i p d) (img (gr_of st) s' i) else img (gr_of st) s' i).
    Proof.
      destruct st as (((sd & px) & su) & gr). unfold sd_of, px_of, gr_of. cbn [fst snd]. intros E H0. unfold radon_rayF in E. ob E.
      assert (Q : segs p d = a) by (unfold segs_of; now rewrite E0). pose proof (segs_in c p d) as Hseg. rewrite Q in Hseg. ob E. pose proof (fun j => sim_cell g _ _ _ _ _ _ _ j E1) as S. ob E. unfold ind_dataF in E2. apply cint_some in E2. subst a1.
      assert (P1 : forall j, j <> d + p * dxF g + bd -> a0 j = sd j). { intros j N. rewrite S. destruct (Z.eqb_spec (d + p * dxF g + bd) j); [congruence|reflexivity]. }
      assert (P2 : a0 (d + p * dxF g + bd) = simulated segs (img rc s) p d). { rewrite S, Z.eqb_refl, H0. unfold simulated. now rewrite Q. }
      ob E. ldl. ob E. ldl. ob E. ldl. ob E. apply store_some in E2. destruct E2 as (_ & ->). rewrite P2 in *. ob E. clear E2.
      assert (P3 : forall j, aset px (d + p * dxF g + bd) (Q_ px p d) j = if j =? d + p * dxF g + bd then Q_ px p d else px j). { intros j. destruct (Z.eqb_spec j (d + p * dxF g + bd)) as [->|N]; [now rewrite aset_eq|]. now rewrite aset_ne. }
      fold (dat data s p d) (dat px s p d) in E. fold (Q_ px p d) in E. unfold L_. rewrite Q. destruct (nez (sum_sq a)) eqn:NZ.
      - ob E. apply cint_some in E2. subst a2. ob E. injection E as <-. cbn [fst snd]. split; [exact P1|]. split; [exact P3|]. intros i s' Hi. unfold img_of.
        rewrite (ofold_acc acc _ (fun st : arr b32 => st (i + s' * gxF g * gyF g)) (fun '(j, w) => if (j =? i) && (s =? s') then [(Q_ px p d, w)] else []) _ _ _ E2).
        + destruct (Z.eqb_spec s s') as [<-|N].
          * f_equal. unfold lengths. rewrite Q. clear. induction a as [|(j & w) l IH]; cbn; auto. rewrite Bool.andb_true_r. destruct (j =? i); cbn; now rewrite IH.
          * replace (flat_map _ a) with (@nil (b32 * b32)); [reflexivity|]. clear. induction a as [|(j & w) l IH]; cbn; auto. rewrite Bool.andb_false_r. exact IH.
        + intros (j & w) u v Hin F. ob F. ldl. ob F. ldl. rewrite aset_eq in F. apply store_some in F. destruct F as (_ & ->). pose proof (Hseg j w Hin) as Hj.
          destruct (Z.eqb_spec j i) as [->|N]; [destruct (Z.eqb_spec s s') as [->|N]|]; cbn [andb fold_left].
          * now rewrite aset_eq.
          * rewrite aset_ne; [reflexivity|]. intros T. destruct (pix_inj g s' i s i Hi Hj T). congruence.
          * rewrite aset_ne; [reflexivity|]. intros T. destruct (pix_inj g s' i s j Hi Hj T). congruence.
      - injection E as <-. cbn [fst snd]. split; [exact P1|]. split; [exact P3|]. intros i s' Hi. destruct (s =? s'); reflexivity.
    Qed.
    (** All rays of the slice *)
    Lemma radon_rays_value st0 st : (forall j, bd <= j -> sd_of st0 j = zeroF) ->
      ofor 0 (dtF g) (fun p => ofor 0 (dxF g) (radon_rayF fmodf sinf cosf junk g data res back s c rc p)) st0 = Some st ->
      (forall j, (s + 1) * dtF g * dxF g <= j -> sd_of st j = zeroF) /\
      (forall j, px_of st j = let k := j - bd in if (0 <=? k) && (k <? dtF g * dxF g) then Q_ (px_of st0) (k / dxF g) (k mod dxF g) else px_of st0 j) /\
      (forall i s', 0 <= i < npixF g -> img (gr_of st) s' i = if s =? s' then fold_left acc (rays (dtF g) (dxF g) (L_ (px_of st0) i)) (img (gr_of st0) s' i) else img (gr_of st0) s' i).
    Proof.
      intros H0 E. pose (px0 := px_of st0). pose (R := fun i n => flat_map (fun p => flat_map (L_ px0 i p) (zrange 0 (dxF g))) (zrange 0 n)).
      pose (B := fun n (st : stateR) => (forall j, n + bd <= j -> sd_of st j = zeroF) /\ forall j, px_of st j = let k := j - bd in if (0 <=? k) && (k <? n) then Q_ px0 (k / dxF g) (k mod dxF g) else px0 j).
      pose (G := fun l (st : stateR) => forall i s', 0 <= i < npixF g -> img (gr_of st) s' i = if s =? s' then fold_left acc (l i) (img (gr_of st0) s' i) else img (gr_of st0) s' i).
      assert (K : B (dtF g * dxF g) st /\ G (fun i => R i (dtF g)) st).
      { eapply (ofor_ind (fun n st => B (n * dxF g) st /\ G (fun i => R i n) st)); [exact E|lia| |].
        - split; [split|].
          + intros j Hj. apply H0. lia.
          + intros j. cbv zeta. replace ((0 <=? j - bd) && (j - bd <? 0 * dxF g)) with false by lia. reflexivity.
          + intros i s' Hi. unfold R. change (zrange 0 0) with (@nil Z). cbn. destruct (s =? s'); reflexivity.
        - clear E st. intros p st st' Hp (A1 & A2) E. cut (B (dxF g + p * dxF g) st' /\ G (fun i => R i p ++ flat_map (L_ px0 i p) (zrange 0 (dxF g))) st').
          { intros (C1 & C2). replace ((p + 1) * dxF g) with (dxF g + p * dxF g) by ring. split; [exact C1|]. intros i s' Hi. rewrite (C2 i s' Hi). unfold R. rewrite zrange_snoc, flat_map_app by lia. cbn [flat_map]. rewrite app_nil_r. reflexivity. }
          eapply (ofor_ind (fun d st => B (d + p * dxF g) st /\ G (fun i => R i p ++ flat_map (L_ px0 i p) (zrange 0 d)) st)); [exact E|lia| |].
          + split; [exact A1|]. intros i s' Hi. change (zrange 0 0) with (@nil Z). cbn [flat_map]. rewrite app_nil_r. apply A2; auto.
          + clear E st st' A1 A2. intros d st st' Hd' ((A1 & A2) & A3) E. apply radon_ray_value in E; [|apply A1; lia]. destruct E as (E1 & E2 & E3).
            assert (X : Q_ (px_of st) p d = Q_ px0 p d).
            { unfold Q_. f_equal. unfold data_of. rewrite A2. cbv zeta. replace ((0 <=? d + p * dxF g + bd - bd) && (d + p * dxF g + bd - bd <? d + p * dxF g)) with false by lia. reflexivity. }
            split; [split|].
            * intros j Hj. rewrite E1 by lia. apply A1. lia.
            * assert (0 <= p * dxF g) by nia. intros j. rewrite E2. cbv zeta. destruct (Z.eqb_spec j (d + p * dxF g + bd)) as [->|N].
              -- replace (d + p * dxF g + bd - bd) with (p * dxF g + d) by ring. replace ((0 <=? p * dxF g + d) && (p * dxF g + d <? d + 1 + p * dxF g)) with true by lia.
                 rewrite X. rewrite Z.div_add_l, Z.div_small, Z.add_0_r by lia. rewrite Z.add_comm, Z.mod_add, Z.mod_small by lia. reflexivity.
              -- rewrite A2. cbv zeta. replace ((0 <=? j - bd) && (j - bd <? d + 1 + p * dxF g)) with ((0 <=? j - bd) && (j - bd <? d + p * dxF g)) by lia. reflexivity.
            * intros i s' Hi. rewrite (E3 i s' Hi), (A3 i s' Hi). destruct (s =? s'); [|reflexivity]. rewrite zrange_snoc, flat_map_app by lia. cbn [flat_map]. rewrite app_nil_r, app_assoc, (fold_left_app _ (_ ++ _)).
              f_equal. unfold L_. rewrite X. reflexivity. }
      destruct K as ((K1 & K2) & K3). split; [intros j Hj; apply K1; lia|]. split; [exact K2|exact K3].
    Qed.
    Lemma radon_slice_value sd px gr sd' px' gr' : (forall j, bd <= j -> sd j = zeroF) -> radon_sliceF fmodf sinf cosf junk g data res back rc s (sd, px, gr) = Some (sd', px', gr') ->
      (forall j, (s + 1) * dtF g * dxF g <= j -> sd' j = zeroF) /\
      (forall s' p d, 0 <= p < dtF g -> 0 <= d < dxF g -> dat px' s' p d = if s =? s' then Q_ px p d else dat px s' p d) /\
      (forall i s', 0 <= i < npixF g -> img gr' s' i = if s =? s' then fold_left acc (rays (dtF g) (dxF g) (L_ px i)) (img gr s' i) else img gr s' i).
    Proof.
      intros H0 E. unfold radon_sliceF in E. ob E. ldl. ob E. apply radon_rays_value in E0; [|exact H0]. destruct a as (((? & ?) & ?) & ?). injection E as -> -> ->. destruct E0 as (E1 & E2 & E3). unfold sd_of, px_of, gr_of in *. cbn [fst snd] in *.
      split; [exact E1|]. split; [|exact E3]. intros s' p d Hp Hdd. unfold data_of. rewrite E2. cbv zeta. assert (P : 0 <= d + p * dxF g < dtF g * dxF g) by nia. destruct (Z.eqb_spec s s') as [<-|N].
      - replace (d + p * dxF g + bd - bd) with (p * dxF g + d) by ring. replace ((0 <=? p * dxF g + d) && (p * dxF g + d <? dtF g * dxF g)) with true by lia.
        rewrite Z.div_add_l, Z.div_small, Z.add_0_r by lia. rewrite Z.add_comm, Z.mod_add, Z.mod_small by lia. reflexivity.
      - replace ((0 <=? d + p * dxF g + s' * dtF g * dxF g - bd) && (d + p * dxF g + s' * dtF g * dxF g - bd <? dtF g * dxF g)) with false; [reflexivity|]. symmetry. apply Bool.not_true_is_false. intros T.
        assert (s < s' \/ s' < s) as [|] by lia; [assert ((s + 1) * (dtF g * dxF g) <= s' * (dtF g * dxF g)) by nia; nia|assert ((s' + 1) * (dtF g * dxF g) <= s * (dtF g * dxF g)) by nia; nia].
    Qed.
  End Ray.
End Value.
