From Verif Require Import Base CLoop Model_Prep Model_Ray Model_Solver Model_Grad Proofs_Prep Proofs_Morph Proofs_Ray Properties_Ray Proofs_Solver Proofs_Art Proofs_Subsets Proofs_Bart Proofs_Em Proofs_Lsq Proofs_Grad Proofs_Pdhg.
From Coq Require Import Reals Lra Psatz FunctionalExtensionality.
Local Open Scope R_scope.

Lemma fold2_other {A T} (key : T -> Z) (F H : T -> A -> A -> A) l (a b : arr A) x : (forall t, In t l -> key t <> x) ->
  let r := fold_left (fun st t => let '(a, b) := st in (aset a (key t) (F t (a (key t)) (b (key t))), aset b (key t) (H t (a (key t)) (b (key t))))) l (a, b) in
  fst r x = a x /\ snd r x = b x.
Proof.
  cbv zeta. revert a b. induction l as [|t l IH]; intros a b Hx; cbn [fold_left]; auto.
  destruct (IH (aset a (key t) (F t (a (key t)) (b (key t)))) (aset b (key t) (H t (a (key t)) (b (key t)))) ltac:(intros; apply Hx; now right)) as [E1 E2].
  rewrite E1, E2. rewrite !aset_ne; auto; intros E; apply (Hx t); auto; now left.
Qed.
Lemma fold2_cell {A T} (key : T -> Z) (F H : T -> A -> A -> A) l (a b : arr A) t : NoDup l -> In t l -> (forall t', In t' l -> key t' = key t -> t' = t) ->
  let r := fold_left (fun st t => let '(a, b) := st in (aset a (key t) (F t (a (key t)) (b (key t))), aset b (key t) (H t (a (key t)) (b (key t))))) l (a, b) in
  fst r (key t) = F t (a (key t)) (b (key t)) /\ snd r (key t) = H t (a (key t)) (b (key t)).
Proof.
  cbv zeta. revert a b. induction l as [|v l IH]; intros a b ND Hi Hk; [destruct Hi|]. inversion ND as [|? ? Hn Hl]; subst. cbn [fold_left].
  destruct Hi as [->|Hi].
  - destruct (fold2_other key F H l (aset a (key t) (F t (a (key t)) (b (key t)))) (aset b (key t) (H t (a (key t)) (b (key t)))) (key t)) as [E1 E2].
    { intros t' Ht E. apply Hn. rewrite <- (Hk t'); auto. now right. }
    rewrite E1, E2, !aset_eq. auto.
  - assert (N : key t <> key v) by (intros E; apply Hn; rewrite (Hk v); auto; now left).
    destruct (IH (aset a (key v) (F v (a (key v)) (b (key v)))) (aset b (key v) (H v (a (key v)) (b (key v)))) Hl Hi) as [E1 E2]; [intros; apply Hk; auto; now right|].
    rewrite E1, E2, !aset_ne by auto. auto.
Qed.

Section Tv.
  Variable g : geom.
  Hypothesis Hgx : (1 <= ngridx g)%Z.
  Hypothesis Hgy : (1 <= ngridy g)%Z.
  Hypothesis Hdt : (1 <= dt g)%Z.
  Hypothesis Hdx : (1 <= dx g)%Z.
  Hypothesis Hdy : (1 <= dy g)%Z.
  Variable data : arr R.
  Variable lambda : R.
  Let N := npix g.
  Let nx := ngridx g.
  Let ny := ngridy g.
  Let r := scale_r g.
  Lemma N_eq : N = (nx * ny)%Z. Proof. reflexivity. Qed.
  Lemma nx1 : (1 <= nx)%Z. Proof. exact Hgx. Qed.
  Lemma ny1 : (1 <= ny)%Z. Proof. exact Hgy. Qed.
  Definition inn (k : Z) : bool := ((k mod nx <? nx - 1) && (k / nx <? ny - 1))%Z%bool.
  Definition icells : list Z := cells nx (ny - 1) (nx - 1).
  Lemma in_icells k : In k icells <-> (0 <= k < N)%Z /\ inn k = true.
  Proof.
    unfold icells. rewrite in_cells. unfold inn. pose proof N_eq. pose proof nx1. pose proof ny1. split.
    - intros (iy & ix & Hy & Hx & ->). assert (E : ((iy * nx + ix) / nx = iy /\ (iy * nx + ix) mod nx = ix)%Z).
      { split; [rewrite Z.div_add_l by lia; rewrite Z.div_small by lia; lia|]. rewrite Z.add_comm, Z.mod_add by lia. apply Z.mod_small. lia. }
      destruct E as [-> ->]. split; [nia|lia].
    - intros [Hk Hi]. exists (k / nx)%Z, (k mod nx)%Z. assert (0 <= k / nx)%Z by (apply Z.div_pos; lia).
      pose proof (Z.mod_pos_bound k nx). pose proof (Z.div_mod k nx). lia.
  Qed.
  Lemma NoDup_icells : NoDup icells. Proof. apply NoDup_cells. lia. Qed.
  Lemma inn_range k : (0 <= k < N)%Z -> inn k = true -> (0 <= k + 1 < N /\ 0 <= k + nx < N)%Z.
  Proof.
    intros Hk Hi. unfold inn in Hi. apply andb_prop in Hi as [H1 H2]. pose proof N_eq. pose proof nx1. pose proof ny1.
    pose proof (Z.mod_pos_bound k nx). pose proof (Z.div_mod k nx). assert (k / nx + 1 <= ny - 1)%Z by lia. nia.
  Qed.
  Notation hold := (holds g).
  Lemma ascend_spec s recon px py xb P1 P2 : hold s recon xb -> hold s px P1 -> hold s py P2 ->
    let '(px', py') := tv_ascend g s recon (px, py) in
    hold s px' (fun k => if inn k then P1 k + tv_c * (xb (k + 1)%Z - xb k) else P1 k) /\ hold s py' (fun k => if inn k then P2 k + tv_c * (xb (k + nx)%Z - xb k) else P2 k).
  Proof.
    intros Hr H1 H2. unfold tv_ascend. rewrite for_grid_fold. fold nx ny. fold icells.
    set (F := fun (k : Z) (a b : number) => nadd a (nmul (Some tv_c) (nsub (recon (s * N + k + 1)%Z) (recon (s * N + k)%Z)))).
    set (H := fun (k : Z) (a b : number) => nadd b (nmul (Some tv_c) (nsub (recon (s * N + k + nx)%Z) (recon (s * N + k)%Z)))).
    match goal with |- context [fold_left ?B icells (px, py)] => change (fold_left B icells (px, py)) with (fold_left (fun st t => let '(a, b) := st in (aset a (s * N + t)%Z (F t (a (s * N + t)%Z) (b (s * N + t)%Z)), aset b (s * N + t)%Z (H t (a (s * N + t)%Z) (b (s * N + t)%Z)))) icells (px, py)) end.
    pose proof (fold2_other (fun t => (s * N + t)%Z) F H icells px py) as O. pose proof (fun t => fold2_cell (fun t => (s * N + t)%Z) F H icells px py t NoDup_icells) as C.
    cbv zeta beta in O, C. match goal with |- context [fold_left ?B icells (px, py)] => destruct (fold_left B icells (px, py)) as (px', py') end. cbn [fst snd] in *.
    assert (G : forall k, (0 <= k < N)%Z -> px' (s * N + k)%Z = Some (if inn k then P1 k + tv_c * (xb (k + 1)%Z - xb k) else P1 k) /\ py' (s * N + k)%Z = Some (if inn k then P2 k + tv_c * (xb (k + nx)%Z - xb k) else P2 k)).
    { intros k Hk. destruct (inn k) eqn:E.
      - destruct (C k) as [C1 C2]; [now apply in_icells|intros; lia|]. rewrite C1, C2. unfold F, H. destruct (inn_range k Hk E) as [R1 R2]. rewrite <- !Z.add_assoc. rewrite !Hr, H1, H2 by auto. auto.
      - destruct (O (s * N + k)%Z) as [O1 O2]; [intros t Ht E'; apply in_icells in Ht as [_ Ht]; assert (t = k) by lia; congruence|]. rewrite O1, O2. auto. }
    split; intros k Hk; now apply G.
  Qed.
  Definition clip_m (x y : R) : R := Rmax 1 (sqrt (x * x + y * y) / lambda).
  Lemma clip_m_pos x y : 1 <= clip_m x y. Proof. apply Rmax_l. Qed.
  Lemma tv_norm_spec x y : lambda <> 0 -> tv_norm lambda (Some x) (Some y) = Some (clip_m x y).
  Proof.
    intros Hl. unfold tv_norm, ndiv, clip_m. destruct (Req_EM_T lambda 0); [contradiction|]. f_equal. unfold rltb. destruct (Rlt_dec _ 1); [rewrite Rmax_left; lra|rewrite Rmax_right; lra].
  Qed.
  Lemma shrink_spec s px py P1 P2 : lambda <> 0 -> hold s px P1 -> hold s py P2 ->
    let '(px', py') := tv_shrink g lambda s (px, py) in
    hold s px' (fun k => if inn k then P1 k / clip_m (P1 k) (P2 k) else P1 k) /\ hold s py' (fun k => if inn k then P2 k / clip_m (P1 k) (P2 k) else P2 k).
  Proof.
    intros Hl H1 H2. unfold tv_shrink. rewrite for_grid_fold. fold nx ny. fold icells.
    set (F := fun (k : Z) (a b : number) => ndiv a (tv_norm lambda a b)). set (H := fun (k : Z) (a b : number) => ndiv b (tv_norm lambda a b)).
    match goal with |- context [fold_left ?B icells (px, py)] => change (fold_left B icells (px, py)) with (fold_left (fun st t => let '(a, b) := st in (aset a (s * N + t)%Z (F t (a (s * N + t)%Z) (b (s * N + t)%Z)), aset b (s * N + t)%Z (H t (a (s * N + t)%Z) (b (s * N + t)%Z)))) icells (px, py)) end.
    pose proof (fold2_other (fun t => (s * N + t)%Z) F H icells px py) as O. pose proof (fun t => fold2_cell (fun t => (s * N + t)%Z) F H icells px py t NoDup_icells) as C.
    cbv zeta beta in O, C. match goal with |- context [fold_left ?B icells (px, py)] => destruct (fold_left B icells (px, py)) as (px', py') end. cbn [fst snd] in *.
    assert (G : forall k, (0 <= k < N)%Z -> px' (s * N + k)%Z = Some (if inn k then P1 k / clip_m (P1 k) (P2 k) else P1 k) /\ py' (s * N + k)%Z = Some (if inn k then P2 k / clip_m (P1 k) (P2 k) else P2 k)).
    { intros k Hk. destruct (inn k) eqn:E.
      - destruct (C k) as [C1 C2]; [now apply in_icells|intros; lia|]. rewrite C1, C2. unfold F, H. rewrite H1, H2, tv_norm_spec by auto. unfold ndiv. pose proof (clip_m_pos (P1 k) (P2 k)). destruct (Req_EM_T _ 0); [lra|auto].
      - destruct (O (s * N + k)%Z) as [O1 O2]; [intros t Ht E'; apply in_icells in Ht as [_ Ht]; assert (t = k) by lia; congruence|]. rewrite O1, O2. auto. }
    split; intros k Hk; now apply G.
  Qed.
  (** The rays of a slice *)
  Notation W := (Rw g).
  Definition holdq (s : Z) (a : arr number) (q : Z * Z -> R) : Prop := forall p d, In (p, d) (pairs g) -> a (ind_data g s p d) = Some (q (p, d)).
  Definition nq (s : Z) (xb : Z -> R) (q : Z * Z -> R) (pd : Z * Z) : R := (q pd + tv_c * (r * fwd N (W s) xb pd) - tv_c * bb g data s pd) / (1 + tv_c).
  Lemma tv_rays recon s xb q l sim prox adj v : hold s recon xb -> (forall pd, In pd l -> In pd (pairs g)) -> NoDup l ->
    (forall p d, In (p, d) l -> sim (ind_data g s p d) = Some 0) -> (forall p d, In (p, d) l -> prox (ind_data g s p d) = Some (q (p, d))) -> hold s adj v ->
    let '(sim', prox', adj') := fold_left (fun st '(p, d) => tv_ray g data recon s p d st) l (sim, prox, adj) in
    hold s adj' (fun j => v j + lsum (fun pd => r * nq s xb q pd * W s pd j) l) /\ (forall p d, In (p, d) l -> prox' (ind_data g s p d) = Some (nq s xb q (p, d))) /\
    (forall p d, In (p, d) (pairs g) -> ~ In (p, d) l -> prox' (ind_data g s p d) = prox (ind_data g s p d)).
  Proof.
    intros Hx. revert sim prox adj v. induction l as [|(p, d) l IH]; intros sim prox adj v Hl ND Hsim Hprox Hv.
    - cbn [fold_left]. repeat split; auto; [|intros ? ? []]. apply (holds_ext g s adj v); auto. intros. unfold lsum. cbn. lra.
    - inversion ND as [|? ? Hn Hnd]; subst. cbn [fold_left]. unfold tv_ray at 2. cbv zeta.
      destruct (n_simdata_spec (rays g s p d) (s * npix g) (ind_data g s p d) recon sim 0 xb) as [E1 E2].
      { intros i w Hi. rewrite Z.add_comm. apply Hx. exact (rays_grid g Hgx Hgy s p d i w Hi). }
      { apply Hsim. now left. }
      set (sim1 := n_simdata _ _ _ _ _) in *. rewrite E1. rewrite Rplus_0_l, (dot_fwd g Hgx Hgy s (p, d)). rewrite (Hprox p d) by now left. cbn [nmul nadd nsub].
      pose proof (proj1 (in_pairs g _ _) (Hl _ (or_introl eq_refl))) as Hpd.
      assert (Eq : ndiv (Some (q (p, d) + tv_c * fwd (npix g) (W s) xb (p, d) * scale_r g - tv_c * data (ind_data g s p d))) (Some (1 + tv_c)) = Some (nq s xb q (p, d))).
      { unfold ndiv, nq, bb. unfold tv_c. destruct (Req_EM_T _ 0); [lra|]. f_equal. cbn [fst snd]. unfold N, r. field. }
      rewrite Eq. rewrite aset_eq.
      set (prox1 := aset prox _ _). set (adj1 := if Req_EM_T _ 0 then _ else _).
      specialize (IH sim1 prox1 adj1 (fun j => v j + r * nq s xb q (p, d) * W s (p, d) j)).
      assert (Dif : forall p' d', In (p', d') (pairs g) -> (p', d') <> (p, d) -> ind_data g s p' d' <> ind_data g s p d).
      { intros p' d' Hi Hne E. apply in_pairs in Hi. apply ind_data_inj in E as (_ & -> & ->); tauto. }
      match type of IH with _ -> _ -> _ -> _ -> _ -> ?C => assert (J : C) end.
      { apply IH.
        * intros; apply Hl; now right.
        * auto.
        * intros p' d' Hi. rewrite E2; [apply Hsim; now right|]. apply Dif; [apply Hl; now right|]. intros E. apply Hn. now rewrite <- E.
        * intros p' d' Hi. unfold prox1. rewrite aset_ne; [apply Hprox; now right|]. apply Dif; [apply Hl; now right|]. intros E. apply Hn. now rewrite <- E.
        * unfold adj1. destruct (Req_EM_T _ 0) as [Z0|Z0].
          { eapply holds_ext; [|exact Hv]. intros j _. cbn. rewrite (zero_ray g s (p, d) j) by exact Z0. ring. }
          { intros j Hj. cbn [nmul]. erewrite (n_add_at_spec g) by (apply Hv; exact Hj). f_equal. unfold Rw. cbn [fst snd]. fold N. replace (s * N + j - s * N)%Z with j by lia. reflexivity. }
      }
      clear IH. revert J. match goal with |- (match ?x with _ => _ end) -> (match ?y with _ => _ end) => change y with x; destruct x as ((sim', prox'), adj') end. intros (I1 & I2 & I3).
      split; [|split].
        * eapply holds_ext; [|exact I1]. intros j _. cbv beta. rewrite lsum_cons. ring.
        * intros p' d' [E|Hi]; [|now apply I2]. injection E as <- <-. rewrite (I3 p d); auto; [|now apply in_pairs]. unfold prox1. apply aset_eq.
        * intros p' d' Hi Hne. rewrite (I3 p' d' Hi) by (intros H; apply Hne; now right). unfold prox1. rewrite aset_ne; auto. apply Dif; auto. intros E. apply Hne. now left.
  Qed.
  (** The descent step *)
  Definition up (a P1 P2 u : Z -> R) (k : Z) : R :=
    u k - tv_c * a k + tv_c * (P1 k - (if (k mod nx =? 0)%Z then 0 else P1 (k - 1)%Z)) + tv_c * (P2 k - (if (k / nx =? 0)%Z then 0 else P2 (k - nx)%Z)).
  Lemma aset_aset {A} (a : arr A) i x y : aset (aset a i x) i y = aset a i y.
  Proof. apply functional_extensionality. intros j. destruct (Z.eq_dec i j) as [<-|H]; [now rewrite !aset_eq|now rewrite !aset_ne by congruence]. Qed.
  Definition dcell (s : Z) (adj px py : arr number) (k : Z) (x : number) : number :=
    let i := (s * N + k)%Z in
    let x := nsub x (nmul (Some tv_c) (adj i)) in
    let x := nadd x (nmul (Some tv_c) (if (k mod nx =? 0)%Z then px i else nsub (px i) (px (i - 1)%Z))) in
    nadd x (nmul (Some tv_c) (if (k / nx =? 0)%Z then py i else nsub (py i) (py (i - nx)%Z))).
  Lemma descend_fold s adj px py u : tv_descend g s adj px py u = fold_left (fun u k => aset u (s * N + k)%Z (dcell s adj px py k (u (s * N + k)%Z))) (cells nx ny nx) u.
  Proof.
    unfold tv_descend. fold nx ny N. rewrite <- (for_grid_fold nx ny nx (fun k u => aset u (s * N + k)%Z (dcell s adj px py k (u (s * N + k)%Z)))).
    unfold for_grid. apply for_ext. intros iy u1 Hy. apply for_ext. intros ix u2 Hx. cbv zeta. set (i := (s * N + (iy * nx + ix))%Z).
    assert (E1 : ((iy * nx + ix) mod nx = ix)%Z) by (rewrite Z.add_comm, Z.mod_add by lia; apply Z.mod_small; lia).
    assert (E2 : ((iy * nx + ix) / nx = iy)%Z) by (rewrite Z.div_add_l by lia; rewrite Z.div_small by lia; lia).
    unfold dcell. rewrite E1, E2. fold i. destruct (ix =? 0)%Z, (iy =? 0)%Z; rewrite !aset_aset, !aset_eq; reflexivity.
  Qed.
  Lemma descend_spec s adj px py u a P1 P2 U : (0 <= s)%Z -> hold s adj a -> hold s px P1 -> hold s py P2 -> hold s u U ->
    hold s (tv_descend g s adj px py u) (up a P1 P2 U).
  Proof.
    intros Hs Ha H1 H2 Hu. rewrite descend_fold.
    intros k Hk. fold N. rewrite (fold_cell (fun k => (s * N + k)%Z) (dcell s adj px py) (cells nx ny nx) u k).
      + unfold dcell. rewrite Hu, Ha, H1, H2 by auto. unfold up. fold nx. pose proof (Z.mod_pos_bound k nx). pose proof (Z.div_mod k nx). assert (0 <= k / nx)%Z by (apply Z.div_pos; lia).
        destruct (Z.eqb_spec (k mod nx) 0) as [M|M], (Z.eqb_spec (k / nx) 0) as [D|D].
        * cbn. apply f_equal. ring.
        * replace (s * N + k - nx)%Z with (s * N + (k - nx))%Z by lia. rewrite H2 by nia. cbn. apply f_equal. ring.
        * replace (s * N + k - 1)%Z with (s * N + (k - 1))%Z by lia. rewrite H1 by nia. cbn. apply f_equal. ring.
        * replace (s * N + k - nx)%Z with (s * N + (k - nx))%Z by lia. replace (s * N + k - 1)%Z with (s * N + (k - 1))%Z by lia. rewrite H1, H2 by nia. cbn. apply f_equal. ring.
      + apply NoDup_cells. lia.
      + now apply cells_all.
      + intros; lia.
  Qed.
  Lemma extrapolate_spec s update recon U V : hold s update U -> hold s recon V ->
    hold s (tv_extrapolate g s update recon) (fun k => 2 * U k - V k).
  Proof.
    intros Hu Hv. unfold tv_extrapolate. rewrite for_grid_fold. fold N nx ny.
    intros k Hk. fold N. rewrite (fold_cell (fun k => (s * N + k)%Z) (fun k x => nsub (nmul (Some 2) (update (s * N + k)%Z)) x) (cells nx ny nx) recon k).
      + now rewrite Hu, Hv by auto.
      + apply NoDup_cells. lia.
      + now apply cells_all.
      + intros; lia.
  Qed.

  (** ** One slice *)
  Definition rstate : Type := ((Z -> R) * (Z -> R) * (Z -> R) * (Z -> R) * (Z * Z -> R))%type.
  Definition rstep (s : Z) (st : rstate) : rstate :=
    let '(xb, u, P1, P2, q) := st in
    let v1 := fun k => P1 k + tv_c * (xb (k + 1)%Z - xb k) in let v2 := fun k => P2 k + tv_c * (xb (k + nx)%Z - xb k) in
    let P1' := fun k => if inn k then v1 k / clip_m (v1 k) (v2 k) else P1 k in
    let P2' := fun k => if inn k then v2 k / clip_m (v1 k) (v2 k) else P2 k in
    let q' := nq s xb q in
    let u' := up (fun j => lsum (fun pd => r * q' pd * W s pd j) (pairs g)) P1' P2' u in
    (fun k => 2 * u' k - u k, u', P1', P2', q').
  Definition shold (s : Z) (st : tv_state) (rs : rstate) : Prop :=
    let '(recon, update, px, py, prox1, _, _) := st in let '(xb, u, P1, P2, q) := rs in
    hold s recon xb /\ hold s update u /\ hold s px P1 /\ hold s py P2 /\ holdq s prox1 q.
  Definition cleared (s : Z) (st : tv_state) : Prop :=
    let '(_, _, _, _, _, sim, adj) := st in holdq s sim (fun _ => 0) /\ hold s adj (fun _ => 0).
  Lemma slice_step s st rs : lambda <> 0 -> (0 <= s)%Z -> shold s st rs -> cleared s st -> shold s (tv_slice g data lambda s st) (rstep s rs).
  Proof.
    destruct st as ((((((recon, update), px), py), prox1), sim), adj). destruct rs as ((((xb, u), P1), P2), q). intros Hl Hs (H1 & H2 & H3 & H4 & H5) (H6 & H7).
    unfold tv_slice. pose proof (ascend_spec s recon px py xb P1 P2 H1 H3 H4) as A1. destruct (tv_ascend g s recon (px, py)) as (px1, py1). destruct A1 as (A1 & A2).
    pose proof (shrink_spec s px1 py1 _ _ Hl A1 A2) as B1. destruct (tv_shrink g lambda s (px1, py1)) as (px2, py2). destruct B1 as (B1 & B2).
    rewrite (ray_loops g (fun p d => tv_ray g data recon s p d)).
    pose proof (tv_rays recon s xb q (pairs g) sim prox1 adj (fun _ => 0) H1 ltac:(auto) (NoDup_pairs g) H6 H5 H7) as C.
    match type of C with (match ?x with _ => _ end) => match goal with |- context [fold_left ?B (pairs g) ?y] => change (fold_left B (pairs g) y) with x; destruct x as ((sim', prox1'), adj') end end. destruct C as (C1 & C2 & _).
    assert (D0 : hold s (copy_slice g s update recon) u) by (intros j Hj; unfold copy_slice; fold N; replace (_ && _)%bool with true by lia; now apply H2).
    assert (B1' : hold s px2 (fun k => if inn k then (P1 k + tv_c * (xb (k + 1)%Z - xb k)) / clip_m (P1 k + tv_c * (xb (k + 1)%Z - xb k)) (P2 k + tv_c * (xb (k + nx)%Z - xb k)) else P1 k)) by (eapply holds_ext; [|exact B1]; intros j _; cbv beta; destruct (inn j); reflexivity).
    assert (B2' : hold s py2 (fun k => if inn k then (P2 k + tv_c * (xb (k + nx)%Z - xb k)) / clip_m (P1 k + tv_c * (xb (k + 1)%Z - xb k)) (P2 k + tv_c * (xb (k + nx)%Z - xb k)) else P2 k)) by (eapply holds_ext; [|exact B2]; intros j _; cbv beta; destruct (inn j); reflexivity).
    assert (C1' : hold s adj' (fun j => lsum (fun pd => r * nq s xb q pd * W s pd j) (pairs g))) by (eapply holds_ext; [|exact C1]; intros; cbv beta; ring).
    pose proof (descend_spec s adj' px2 py2 update _ _ _ _ Hs C1' B1' B2' H2) as D1.
    pose proof (extrapolate_spec s _ _ _ _ D1 D0) as E1.
    cbn [shold rstep]. split; [exact E1|]. split; [exact D1|]. split; [exact B1'|]. split; [exact B2'|]. intros p d Hi. now apply C2.
  Qed.
  (** The other slices are untouched, and so are their work arrays. *)
  Definition same_slice (s : Z) (st st' : tv_state) : Prop :=
    let '(recon, update, px, py, prox1, sim, adj) := st in let '(recon', update', px', py', prox1', sim', adj') := st' in
    (forall j, (0 <= j < N)%Z -> recon' (s * N + j)%Z = recon (s * N + j)%Z /\ update' (s * N + j)%Z = update (s * N + j)%Z /\ px' (s * N + j)%Z = px (s * N + j)%Z /\
       py' (s * N + j)%Z = py (s * N + j)%Z /\ adj' (s * N + j)%Z = adj (s * N + j)%Z) /\
    (forall p d, In (p, d) (pairs g) -> prox1' (ind_data g s p d) = prox1 (ind_data g s p d) /\ sim' (ind_data g s p d) = sim (ind_data g s p d)).
  Lemma same_shold s st st' rs : same_slice s st st' -> shold s st rs -> shold s st' rs.
  Proof.
    destruct st as ((((((recon, update), px), py), prox1), sim), adj). destruct st' as ((((((recon', update'), px'), py'), prox1'), sim'), adj'). destruct rs as ((((xb, u), P1), P2), q).
    intros [S1 S2] (H1 & H2 & H3 & H4 & H5). cbn [shold]. split; [|split; [|split; [|split]]].
    - intros j Hj. fold N. destruct (S1 j Hj) as (-> & _). now apply H1.
    - intros j Hj. fold N. destruct (S1 j Hj) as (_ & -> & _). now apply H2.
    - intros j Hj. fold N. destruct (S1 j Hj) as (_ & _ & -> & _). now apply H3.
    - intros j Hj. fold N. destruct (S1 j Hj) as (_ & _ & _ & -> & _). now apply H4.
    - intros p d Hi. destruct (S2 p d Hi) as [-> _]. now apply H5.
  Qed.
  Lemma same_cleared s st st' : same_slice s st st' -> cleared s st -> cleared s st'.
  Proof.
    destruct st as ((((((recon, update), px), py), prox1), sim), adj). destruct st' as ((((((recon', update'), px'), py'), prox1'), sim'), adj').
    intros [S1 S2] (H1 & H2). cbn [cleared]. split.
    - intros p d Hi. destruct (S2 p d Hi) as [_ ->]. now apply H1.
    - intros j Hj. fold N. destruct (S1 j Hj) as (_ & _ & _ & _ & ->). now apply H2.
  Qed.
  Lemma grid2_other s s' ny' nx' (F H : Z -> number -> number -> number) a b j : (ny' <= ny)%Z -> (nx' <= nx)%Z -> s' <> s -> (0 <= j < N)%Z ->
    let r := for_grid nx ny' nx' (fun k '(a, b) => (aset a (s * N + k)%Z (F k (a (s * N + k)%Z) (b (s * N + k)%Z)), aset b (s * N + k)%Z (H k (a (s * N + k)%Z) (b (s * N + k)%Z)))) (a, b) in
    fst r (s' * N + j)%Z = a (s' * N + j)%Z /\ snd r (s' * N + j)%Z = b (s' * N + j)%Z.
  Proof.
    intros Hy Hx Hs Hj. cbv zeta. rewrite for_grid_fold. apply (fold2_other (fun t => (s * N + t)%Z) F H). intros t Ht. apply in_cells in Ht as (iy & ix & H1 & H2 & ->). pose proof N_eq. nia.
  Qed.
  Lemma grid_other s s' (F : Z -> arr number -> number) a j : s' <> s -> (0 <= j < N)%Z ->
    fold_left (fun a k => aset a (s * N + k)%Z (F k a)) (cells nx ny nx) a (s' * N + j)%Z = a (s' * N + j)%Z.
  Proof.
    intros Hs Hj. apply (fold_other (fun t => (s * N + t)%Z) F). intros t Ht. apply cells_all in Ht; [|apply nx1]. pose proof N_eq. nia.
  Qed.
  Lemma rays_other recon s s' l st : s' <> s -> (forall pd, In pd l -> In pd (pairs g)) ->
    let '(sim, prox, adj) := st in let '(sim', prox', adj') := fold_left (fun st '(p, d) => tv_ray g data recon s p d st) l st in
    (forall p d, In (p, d) (pairs g) -> prox' (ind_data g s' p d) = prox (ind_data g s' p d) /\ sim' (ind_data g s' p d) = sim (ind_data g s' p d)) /\
    (forall j, (0 <= j < N)%Z -> adj' (s' * N + j)%Z = adj (s' * N + j)%Z).
  Proof.
    intros Hs. revert st. induction l as [|(p, d) l IH]; intros ((sim, prox), adj) Hl; [cbn; auto|]. cbn [fold_left].
    specialize (IH (tv_ray g data recon s p d (sim, prox, adj)) ltac:(intros; apply Hl; now right)). unfold tv_ray at 1 in IH. cbv zeta in IH.
    match goal with |- context [fold_left ?B l ?x] => destruct (fold_left B l x) as ((sim', prox'), adj') end. destruct IH as [I1 I2]. pose proof (proj1 (in_pairs g _ _) (Hl _ (or_introl eq_refl))) as Hp. split.
    - intros p' d' Hi. destruct (I1 p' d' Hi) as [-> ->]. assert (D : ind_data g s' p' d' <> ind_data g s p d) by (intros E; apply in_pairs in Hi; apply ind_data_inj in E; tauto).
      rewrite aset_ne by auto. split; auto. now apply n_simdata_other.
    - intros j Hj. rewrite I2 by auto. destruct (Req_EM_T _ 0); auto. apply (n_add_at_other g); [now apply rays_grid|]. fold N. pose proof N_eq. pose proof nx1. pose proof ny1. nia.
  Qed.
  Lemma slice_other s s' st : s' <> s -> same_slice s' st (tv_slice g data lambda s st).
  Proof.
    destruct st as ((((((recon, update), px), py), prox1), sim), adj). intros Hs. unfold tv_slice.
    assert (A : forall j, (0 <= j < N)%Z -> fst (tv_ascend g s recon (px, py)) (s' * N + j)%Z = px (s' * N + j)%Z /\ snd (tv_ascend g s recon (px, py)) (s' * N + j)%Z = py (s' * N + j)%Z).
    { intros j Hj. apply (grid2_other s s' (ny - 1) (nx - 1) (fun k a b => nadd a (nmul (Some tv_c) (nsub (recon (s * N + k + 1)%Z) (recon (s * N + k)%Z)))) (fun k a b => nadd b (nmul (Some tv_c) (nsub (recon (s * N + k + nx)%Z) (recon (s * N + k)%Z))))); auto; lia. }
    destruct (tv_ascend g s recon (px, py)) as (px1, py1). cbn [fst snd] in A.
    assert (B : forall j, (0 <= j < N)%Z -> fst (tv_shrink g lambda s (px1, py1)) (s' * N + j)%Z = px1 (s' * N + j)%Z /\ snd (tv_shrink g lambda s (px1, py1)) (s' * N + j)%Z = py1 (s' * N + j)%Z).
    { intros j Hj. apply (grid2_other s s' (ny - 1) (nx - 1) (fun k a b => ndiv a (tv_norm lambda a b)) (fun k a b => ndiv b (tv_norm lambda a b))); auto; lia. }
    destruct (tv_shrink g lambda s (px1, py1)) as (px2, py2). cbn [fst snd] in B.
    rewrite (ray_loops g (fun p d => tv_ray g data recon s p d)). pose proof (rays_other recon s s' (pairs g) (sim, prox1, adj) Hs ltac:(auto)) as C. cbv beta iota in C.
    match type of C with (match ?x with _ => _ end) => match goal with |- context [fold_left ?B (pairs g) ?y] => change (fold_left B (pairs g) y) with x; destruct x as ((sim', prox1'), adj') end end. destruct C as [C1 C2]. cbn [same_slice]. split.
    - intros j Hj. destruct (A j Hj) as [A1 A2]. destruct (B j Hj) as [B1 B2]. rewrite B1, B2, A1, A2, C2 by auto.
      assert (D : forall px py, tv_descend g s adj' px py update (s' * N + j)%Z = update (s' * N + j)%Z) by (intros; rewrite descend_fold; now apply grid_other).
      rewrite D. repeat split; auto. unfold tv_extrapolate. rewrite for_grid_fold. fold N nx ny. rewrite grid_other by auto. unfold copy_slice. fold N. replace (_ && _)%bool with false by nia. reflexivity.
    - intros p d Hi. now apply C1.
  Qed.
  (** ** One iteration *)
  Lemma iter_step s st rs : lambda <> 0 -> (0 <= s < dy g)%Z -> shold s st rs -> shold s (tv_iter g data lambda st) (rstep s rs).
  Proof.
    intros Hl Hs H. unfold tv_iter. destruct st as ((((((recon, update), px), py), prox1), sim), adj).
    set (st0 := (recon, update, px, py, prox1, memset0 (Some 0) (dy g * dt g * dx g) sim, memset0 (Some 0) (dy g * npix g) adj)).
    assert (C0 : cleared s st0).
    { split.
      - intros p d Hi. apply in_pairs in Hi. unfold memset0. pose proof (ind_data_range g s p d Hs (proj1 Hi) (proj2 Hi)). replace (_ && _)%bool with true by lia. reflexivity.
      - intros j Hj. unfold memset0. pose proof (slice_range g s j Hs Hj) as Hr. unfold N. replace (_ && _)%bool with true by lia. reflexivity. }
    assert (S0 : shold s st0 rs) by (destruct rs as ((((xb, u), P1), P2), q); exact H).
    assert (G : forall k, (0 <= k <= dy g)%Z -> ((k <= s)%Z -> cleared s (for_ k (tv_slice g data lambda) st0)) /\ shold s (for_ k (tv_slice g data lambda) st0) (if (s <? k)%Z then rstep s rs else rs)).
    { intros k [Hk0 Hk]. revert Hk. pattern k. apply natlike_ind; auto.
      - intros _. rewrite for_0 by lia. destruct (Z.ltb_spec s 0); [lia|]. auto.
      - intros k' Hk' IH Hk. rewrite <- Z.add_1_r in *. rewrite for_S by lia. destruct (IH ltac:(lia)) as [I1 I2]. destruct (Z.eq_dec k' s) as [->|Hn].
        + split; [lia|]. destruct (Z.ltb_spec s (s + 1)); [|lia]. destruct (Z.ltb_spec s s) in I2; [lia|]. apply slice_step; try (exact Hl || exact I2 || lia). apply I1. lia.
        + pose proof (slice_other k' s (for_ k' (tv_slice g data lambda) st0) ltac:(auto)) as O. split.
          * intros Hle. eapply same_cleared; [exact O|]. apply I1. lia.
          * eapply same_shold; [exact O|]. destruct (Z.ltb_spec s k'), (Z.ltb_spec s (k' + 1)); auto; lia. }
    destruct (G (dy g) ltac:(lia)) as [_ R]. destruct (Z.ltb_spec s (dy g)); [exact R|lia].
  Qed.
  (** ** The run *)
  Definition rinit (u : Z -> R) : rstate := (u, u, fun _ => 0, fun _ => 0, fun _ => 0).
  Fixpoint rrun (s : Z) (u : Z -> R) (n : nat) : rstate := match n with 0%nat => rinit u | S n => rstep s (rrun s u n) end.
  Definition st_xb (st : rstate) : Z -> R := let '(a, _, _, _, _) := st in a.
  Lemma tv_spec n s recon px py prox1 sim adj X : lambda <> 0 -> (0 <= s < dy g)%Z -> hold s recon X ->
    hold s (tv g data lambda (Z.of_nat n) recon px py prox1 sim adj) (fun j => r * st_xb (rrun s (fun j => X j / r) n) j).
  Proof.
    intros Hl Hs HX. unfold tv, empty. destruct (Z.eqb_spec (dy g) 0), (Z.eqb_spec (dt g) 0), (Z.eqb_spec (dx g) 0); try lia. cbn [orb].
    assert (G : shold s (for_ (Z.of_nat n) (fun _ => tv_iter g data lambda) (tv_init g (scale_in g recon) px py prox1 sim adj)) (rrun s (fun j => X j / r) n)).
    { induction n as [|n IH].
      - rewrite for_0 by lia. cbn [rrun]. unfold tv_init, rinit, shold. assert (S0 : hold s (scale_in g recon) (fun j => X j / r)) by now apply scale_in_spec.
        assert (Z0 : forall a, hold s (memset0 (Some 0) (dy g * npix g) a) (fun _ => 0)).
        { intros a j Hj. unfold memset0. pose proof (slice_range g s j Hs Hj) as Hr. unfold N. replace (_ && _)%bool with true by lia. reflexivity. }
        repeat split; auto. intros p d Hi. apply in_pairs in Hi. unfold memset0. pose proof (ind_data_range g s p d Hs (proj1 Hi) (proj2 Hi)). replace (_ && _)%bool with true by lia. reflexivity.
      - rewrite Nat2Z.inj_succ, <- Z.add_1_r, for_S by lia. cbn [rrun]. now apply iter_step. }
    match goal with |- context [for_ (Z.of_nat n) ?B ?x] => destruct (for_ (Z.of_nat n) B x) as ((((((recon', update'), px'), py'), prox1'), sim'), adj') end. destruct (rrun s (fun j => X j / r) n) as ((((xb, u), P1), P2), q). destruct G as (G & _).
    intros j Hj. rewrite scale_out_spec by auto. rewrite G by auto. cbn. f_equal. unfold r. ring.
  Qed.
  (** ** lambda = 0: the quotient |prox0| / lambda of the first cell is 0 / 0 *)
  Lemma slice_zero s st : lambda = 0 -> (2 <= nx)%Z -> (2 <= ny)%Z -> let '(recon, _, _, _, _, _, _) := tv_slice g data lambda s st in recon (s * N + 0)%Z = None.
  Proof.
    intros Hl Hx Hy. destruct st as ((((((recon, update), px), py), prox1), sim), adj). unfold tv_slice. destruct (tv_ascend g s recon (px, py)) as (px1, py1).
    assert (B : fst (tv_shrink g lambda s (px1, py1)) (s * N + 0)%Z = None).
    { unfold tv_shrink. rewrite for_grid_fold. fold nx ny. fold icells.
      set (F := fun (k : Z) (a b : number) => ndiv a (tv_norm lambda a b)). set (H := fun (k : Z) (a b : number) => ndiv b (tv_norm lambda a b)).
      match goal with |- context [fold_left ?B icells (px1, py1)] => change (fold_left B icells (px1, py1)) with (fold_left (fun st t => let '(a, b) := st in (aset a (s * N + t)%Z (F t (a (s * N + t)%Z) (b (s * N + t)%Z)), aset b (s * N + t)%Z (H t (a (s * N + t)%Z) (b (s * N + t)%Z)))) icells (px1, py1)) end.
      destruct (fold2_cell (fun t => (s * N + t)%Z) F H icells px1 py1 0%Z NoDup_icells) as [C1 C2].
      - apply in_icells. pose proof N_eq. split; [nia|]. unfold inn. rewrite Z.mod_0_l, Z.div_0_l by lia. lia.
      - intros; lia.
      - etransitivity; [exact C1|]. cbv beta. unfold F, tv_norm, ndiv. destruct (px1 _) as [x|], (py1 _) as [y|]; auto. destruct (Req_EM_T lambda 0); [reflexivity|contradiction]. }
    destruct (tv_shrink g lambda s (px1, py1)) as (px2, py2). cbn [fst] in B.
    match goal with |- context [for_ (dt g) ?F ?x] => destruct (for_ (dt g) F x) as ((sim', prox'), adj') end.
    unfold tv_extrapolate. rewrite for_grid_fold. fold N nx ny.
    rewrite (fold_cell (fun k => (s * N + k)%Z) (fun k x => nsub (nmul (Some 2) (tv_descend g s adj' px2 py2 update (s * N + k)%Z)) x) (cells nx ny nx) _ 0%Z).
    - rewrite descend_fold. rewrite (fold_cell (fun k => (s * N + k)%Z) (dcell s adj' px2 py2) (cells nx ny nx) update 0%Z).
      + unfold dcell. rewrite Z.mod_0_l, Z.div_0_l by lia. cbn [Z.eqb]. rewrite B. cbn [nmul]. destruct (nsub (update _) _); reflexivity.
      + apply NoDup_cells. lia.
      + apply cells_all; [exact Hgx|]. pose proof N_eq. nia.
      + intros; lia.
    - apply NoDup_cells. lia.
    - apply cells_all; [exact Hgx|]. pose proof N_eq. nia.
    - intros; lia.
  Qed.
  Lemma zero_nan s recon px py prox1 sim adj : lambda = 0 -> (2 <= nx)%Z -> (2 <= ny)%Z -> (0 <= s < dy g)%Z ->
    tv g data lambda 1 recon px py prox1 sim adj (s * N + 0)%Z = None.
  Proof.
    intros Hl Hx Hy Hs. unfold tv, empty. destruct (Z.eqb_spec (dy g) 0), (Z.eqb_spec (dt g) 0), (Z.eqb_spec (dx g) 0); try lia. cbn [orb].
    change 1%Z with (0 + 1)%Z. rewrite for_S, for_0 by lia. unfold tv_init, tv_iter. set (st0 := (_, _, _, _, _, _, _)).
    assert (G : forall k, (0 <= k <= dy g)%Z -> (s < k)%Z -> let '(recon, _, _, _, _, _, _) := for_ k (tv_slice g data lambda) st0 in recon (s * N + 0)%Z = None).
    { intros k [Hk0 Hk]. revert Hk. pattern k. apply natlike_ind; auto; [lia|]. intros k' Hk' IH Hk Hlt. rewrite <- Z.add_1_r in *. rewrite for_S by lia. destruct (Z.eq_dec k' s) as [->|Hn].
      - now apply slice_zero.
      - pose proof (slice_other k' s (for_ k' (tv_slice g data lambda) st0) ltac:(auto)) as O. specialize (IH ltac:(lia) ltac:(lia)).
        destruct (for_ k' (tv_slice g data lambda) st0) as ((((((a1, a2), a3), a4), a5), a6), a7). destruct (tv_slice g data lambda k' _) as ((((((b1, b2), b3), b4), b5), b6), b7).
        destruct O as [O _]. destruct (O 0%Z ltac:(pose proof N_eq; nia)) as (-> & _). exact IH. }
    specialize (G (dy g) ltac:(lia) ltac:(lia)). destruct (for_ (dy g) (tv_slice g data lambda) st0) as ((((((a1, a2), a3), a4), a5), a6), a7).
    unfold N. rewrite scale_out_spec by (auto; pose proof N_eq; fold N; nia). fold N. now rewrite G.
  Qed.
End Tv.
