From Verif Require Import Base CLoop Model_Prep Model_Ray Model_Solver Proofs_Prep Proofs_Morph Proofs_Ray Properties_Ray Proofs_Solver Proofs_Art.
From Coq Require Import Reals Lra Psatz.
Local Open Scope R_scope.

Lemma n_simdata_spec segs off idx (m : arr number) sd r0 mR :
  (forall i w, In (i, w) segs -> m (i + off)%Z = Some (mR i)) -> sd idx = Some r0 ->
  n_simdata segs off idx m sd idx = Some (r0 + dot segs mR) /\
  (forall x, x <> idx -> n_simdata segs off idx m sd x = sd x).
Proof.
  unfold n_simdata, dot, rsum. revert sd r0. induction segs as [|[i w] l IH]; intros sd r0 Hm H0; cbn [fold_left map fold_right].
  - rewrite Rplus_0_r. auto.
  - rewrite H0, (Hm i w) by now left. cbn [nmul nadd].
    edestruct (IH (aset sd idx (Some (r0 + mR i * w))) (r0 + mR i * w)) as [E1 E2].
    + intros; eapply Hm; right; eauto.
    + apply aset_eq.
    + rewrite E1. split; [f_equal; lra|]. intros x Hx. rewrite E2, aset_ne; auto.
Qed.
Lemma n_add_scaled_spec segs k up upR :
  (forall i w, In (i, w) segs -> up i = Some (upR i)) ->
  forall x, (up x = Some (upR x)) -> n_add_scaled segs (Some k) up x = Some (upR x + k * wt segs x).
Proof.
  unfold n_add_scaled. revert up upR. induction segs as [|[i w] l IH]; intros up upR Hu x Hx; cbn [fold_left wt].
  - rewrite Hx. f_equal. lra.
  - rewrite (Hu i w) by now left. cbn [nmul nadd].
    rewrite (IH (aset up i (Some (upR i + k * w))) (fun y => if (y =? i)%Z then upR i + k * w else upR y)).
    + f_equal. destruct (x =? i)%Z eqn:E; [apply Z.eqb_eq in E; subst; lra|lra].
    + intros j w' Hj. unfold aset. destruct (j =? i)%Z; auto. eapply Hu. right; eauto.
    + unfold aset. destruct (x =? i)%Z; auto.
Qed.

Lemma fold_pairs {S} (F : Z -> Z -> S -> S) (pick : Z -> Z) a b n st :
  for_range a b (fun q => for_ n (fun d => F (pick q) d)) st
  = fold_left (fun st '(p, d) => F p d st) (flat_map (fun q => map (pair (pick q)) (zrange 0 n)) (zrange a b)) st.
Proof.
  unfold for_range, for_. revert st. induction (zrange a b) as [|q l IH]; intros st; cbn [flat_map fold_left]; auto.
  rewrite fold_left_app, IH. f_equal. generalize (zrange 0 n). intros l'. revert st.
  induction l' as [|d l' IH']; intros st; cbn [map fold_left]; auto.
Qed.

Lemma NoDup_app_iff' {A} (l l' : list A) : NoDup l /\ NoDup l' /\ (forall x, In x l -> In x l' -> False) -> NoDup (l ++ l').
Proof.
  intros (H1 & H2 & H3). induction l as [|x l IH]; auto. inversion H1 as [|? ? Hn Hl]; subst. cbn. constructor.
  - rewrite in_app_iff. intros [H|H]; [auto|]. apply (H3 x); auto. now left.
  - apply IH; auto. intros y Hy. apply H3. now right.
Qed.
Definition lsum {A} (f : A -> R) (l : list A) : R := rsum (map f l).
Lemma lsum_cons {A} (f : A -> R) x l : lsum f (x :: l) = f x + lsum f l. Proof. reflexivity. Qed.
Lemma lsum_ext {A} (f h : A -> R) l : (forall x, In x l -> f x = h x) -> lsum f l = lsum h l.
Proof. intros H. unfold lsum. f_equal. now apply map_ext_in. Qed.
Lemma lsum_nonneg {A} (f : A -> R) l : (forall x, In x l -> 0 <= f x) -> 0 <= lsum f l.
Proof.
  induction l as [|x l IH]; intros H; [unfold lsum; cbn; lra|]. rewrite lsum_cons.
  pose proof (H x ltac:(now left)). pose proof (IH ltac:(intros; apply H; now right)). lra.
Qed.
Lemma lsum_zero {A} (f : A -> R) l : (forall x, In x l -> 0 <= f x) -> lsum f l = 0 -> forall x, In x l -> f x = 0.
Proof.
  induction l as [|y l IH]; intros H E x Hx; [destruct Hx|]. rewrite lsum_cons in E.
  pose proof (H y ltac:(now left)). pose proof (lsum_nonneg f l ltac:(intros; apply H; now right)).
  destruct Hx as [->|Hx]; [lra|]. apply IH; auto; [intros; apply H; now right|lra].
Qed.
Lemma lsum_zsum {A} n (f : A -> Z -> R) (l : list A) : zsum n (fun j => lsum (fun a => f a j) l) = lsum (fun a => zsum n (f a)) l.
Proof.
  induction l as [|a l IH]; [unfold lsum; cbn; now apply zsum_zero|].
  rewrite lsum_cons, <- IH, <- zsum_plus. apply zsum_ext. intros. reflexivity.
Qed.
Lemma lsum_scal {A} k (f : A -> R) l : lsum (fun a => k * f a) l = k * lsum f l.
Proof. induction l as [|x l IH]; [unfold lsum; cbn; lra|]. rewrite !lsum_cons, IH. lra. Qed.

Section Subsets.
  Variable g : geom.
  Hypothesis Hgx : (1 <= ngridx g)%Z.
  Hypothesis Hgy : (1 <= ngridy g)%Z.
  Variable rl : rule.
  Variable data : arr R.
  Variable num_block : Z.
  Variable ind_block : arr Z.
  Let N := npix g.
  Variables vR cR : R -> R -> R -> R.
  Variable ok : R -> R -> R -> Prop.
  Hypothesis Hv : forall b s s2, s2 <> 0 -> ok b s s2 -> value rl b (Some s) s2 = Some (vR b s s2).
  Hypothesis Hc : forall x u sd, sd <> 0 -> correct rl (Some x) (Some u) sd = Some (cR x u sd).
  Let pk := pick num_block ind_block.

  (** One update of a slice by the rays in L, over the reals. *)
  Definition hits_sum (s : Z) (L : list (Z * Z)) (j : Z) : R := lsum (fun '(p, d) => wt (rays g s p d) j) L.
  Definition upd_sum (s : Z) (L : list (Z * Z)) (m : Z -> R) (j : Z) : R :=
    lsum (fun '(p, d) => let segs := rays g s p d in
            if Req_EM_T (sum_dist2 segs) 0 then 0
            else vR (data (ind_data g s p d)) (dot segs m) (sum_dist2 segs) * wt segs j) L.
  Definition step (s : Z) (L : list (Z * Z)) (m : Z -> R) : Z -> R :=
    fun j => if Req_EM_T (hits_sum s L j) 0 then m j else cR (m j) (upd_sum s L m j) (hits_sum s L j).
  Definition all_ok (s : Z) (m : Z -> R) : Prop := forall p d, (0 <= p < dt g)%Z -> (0 <= d < dx g)%Z ->
    sum_dist2 (rays g s p d) <> 0 -> ok (data (ind_data g s p d)) (dot (rays g s p d) m) (sum_dist2 (rays g s p d)).

  Definition in_range (L : list (Z * Z)) : Prop := forall p d, In (p, d) L -> (0 <= p < dt g)%Z /\ (0 <= d < dx g)%Z.
  Definition is_slice (s : Z) (recon : arr number) (m : Z -> R) : Prop := forall j, (0 <= j < N)%Z -> recon (j + s * N)%Z = Some (m j).

  Lemma rays_loop s recon m L : is_slice s recon m -> all_ok s m -> in_range L -> NoDup L ->
    forall sim sd up upR, (forall p d, In (p, d) L -> sim (ind_data g s p d) = Some 0) ->
    (forall j, (0 <= j < N)%Z -> up j = Some (upR j)) ->
    let st := fold_left (fun st '(p, d) => os_ray g rl data s recon p d st) L (sim, sd, up) in
    (forall j, snd (fst st) j = sd j + hits_sum s L j) /\
    (forall j, (0 <= j < N)%Z -> snd st j = Some (upR j + upd_sum s L m j)) /\
    (forall x, (forall p d, In (p, d) L -> x <> ind_data g s p d) -> fst (fst st) x = sim x).
  Proof.
    intros Hm Hok. induction L as [|[p d] L IH]; intros Hr Hnd sim sd up upR Hz Hu; cbn [fold_left].
    - cbn [fst snd]. unfold hits_sum, upd_sum, lsum. cbn. repeat split; intros; auto; [lra|]. rewrite Hu by auto. f_equal. lra.
    - inversion Hnd as [|? ? Hni Hnd']; subst.
      destruct (Hr p d ltac:(now left)) as [Hp Hd].
      assert (Hg : in_grid N (rays g s p d)) by now apply rays_grid.
      set (segs := rays g s p d) in *.
      edestruct (n_simdata_spec segs (s * N) (ind_data g s p d) recon sim 0 m) as [E1 E2].
      { intros i w Hi. apply Hm. now apply (Hg i w). }
      { apply Hz. now left. }
      rewrite Rplus_0_l in E1.
      set (sim' := n_simdata segs (s * N) (ind_data g s p d) recon sim) in *.
      assert (Eos : os_ray g rl data s recon p d (sim, sd, up) = (sim', add_dist segs sd,
        if Req_EM_T (sum_dist2 segs) 0 then up
        else n_add_scaled segs (value rl (data (ind_data g s p d)) (Some (dot segs m)) (sum_dist2 segs)) up)).
      { unfold os_ray. cbv zeta. fold segs. fold N. fold sim'. now rewrite E1. }
      cbv zeta. rewrite !Eos.
      set (v := vR (data (ind_data g s p d)) (dot segs m) (sum_dist2 segs)).
      match goal with |- context [fold_left _ L (sim', ?sd', ?up')] => set (sd1 := sd'); set (up1 := up') end.
      assert (Hu1 : forall j, (0 <= j < N)%Z -> up1 j = Some (upR j + (if Req_EM_T (sum_dist2 segs) 0 then 0 else v * wt segs j))).
      { intros j Hj. unfold up1. destruct (Req_EM_T (sum_dist2 segs) 0) as [E|E].
        - rewrite Hu by auto. f_equal. lra.
        - rewrite Hv; [|auto|apply Hok; auto]. fold v. apply n_add_scaled_spec; auto.
          intros i w Hi. apply Hu. now apply (Hg i w). }
      destruct (IH ltac:(intros p' d' H; apply Hr; now right) Hnd' sim' sd1 up1
        (fun j => upR j + (if Req_EM_T (sum_dist2 segs) 0 then 0 else v * wt segs j))) as (A1 & A2 & A3); [|exact Hu1|].
      { intros p' d' Hin. destruct (Hr p' d' ltac:(now right)). rewrite E2; [apply Hz; now right|].
        intros E. apply ind_data_inj in E; auto. destruct E as (_ & -> & ->). now apply Hni. }
      repeat split.
      + intros j. rewrite A1. unfold sd1. rewrite add_dist_spec. unfold hits_sum. rewrite lsum_cons. fold segs. lra.
      + intros j Hj. rewrite A2 by auto. f_equal. unfold upd_sum. rewrite lsum_cons. cbv zeta. fold segs. fold v. lra.
      + intros x Hx. rewrite A3 by (intros; apply Hx; now right). apply E2. apply Hx. now left.
  Qed.

  Lemma correct_spec s sd up (recon : arr number) :
    (forall j, (0 <= j < N)%Z -> os_correct g rl s sd up recon (j + s * N)%Z
       = if Req_EM_T (sd j) 0 then recon (j + s * N)%Z else correct rl (recon (j + s * N)%Z) (up j) (sd j)) /\
    (forall x, (forall j, (0 <= j < N)%Z -> x <> j + s * N)%Z -> os_correct g rl s sd up recon x = recon x).
  Proof.
    pose proof (N_pos g Hgx Hgy) as HN.
    pose (P k (r : arr number) :=
      (forall j, (0 <= j < k)%Z -> r (j + s * N)%Z
        = if Req_EM_T (sd j) 0 then recon (j + s * N)%Z else correct rl (recon (j + s * N)%Z) (up j) (sd j)) /\
      (forall x, (forall j, (0 <= j < k)%Z -> x <> j + s * N)%Z -> r x = recon x)).
    assert (P N (os_correct g rl s sd up recon)) as [P1 P2]; [|split; auto].
    unfold os_correct. apply (for_inv P); [unfold N; lia| |].
    - split; intros; auto. lia.
    - intros k r Hk [P1 P2]. split.
      + intros j Hj. destruct (Z.eq_dec j k) as [->|Hne].
        * destruct (Req_EM_T (sd k) 0); [apply P2; intros; lia|]. rewrite aset_eq, P2 by (intros; unfold N; lia). reflexivity.
        * destruct (Req_EM_T (sd k) 0); [apply P1; lia|]. rewrite aset_ne by (unfold N; lia). apply P1. lia.
      + intros x Hx. destruct (Req_EM_T (sd k) 0); [apply P2; intros; apply Hx; lia|].
        rewrite aset_ne by (apply Hx; lia). apply P2; intros; apply Hx; lia.
  Qed.

  Definition pairs (a b : Z) : list (Z * Z) := flat_map (fun q => map (pair (pk q)) (zrange 0 (dx g))) (zrange a b).
  (** One block. *)
  Lemma block_spec s a b recon sim sd up m : is_slice s recon m -> all_ok s m ->
    in_range (pairs a b) -> NoDup (pairs a b) ->
    (forall p d, In (p, d) (pairs a b) -> sim (ind_data g s p d) = Some 0) ->
    let st := os_block g rl data num_block ind_block s a b (recon, sim, sd, up) in
    is_slice s (fst (fst (fst st))) (step s (pairs a b) m) /\
    (forall x, (forall j, (0 <= j < N)%Z -> x <> j + s * N)%Z -> fst (fst (fst st)) x = recon x) /\
    (forall x, (forall p d, In (p, d) (pairs a b) -> x <> ind_data g s p d) -> snd (fst (fst st)) x = sim x).
  Proof.
    intros Hm Hok Hr Hnd Hz. cbv zeta. unfold os_block, os_rays. fold pk. rewrite fold_pairs. fold (pairs a b).
    pose proof (rays_loop s recon m (pairs a b) Hm Hok Hr Hnd sim (memset0 0 (npix g) sd) (memset0 (Some 0) (npix g) up) (fun _ => 0) Hz) as H.
    cbv zeta in H. destruct H as (A1 & A2 & A3).
    { intros j Hj. unfold memset0, N in *. now replace ((0 <=? j) && (j <? npix g))%Z with true by lia. }
    destruct (fold_left _ _ _) as [[sim' sd'] up'] eqn:E. cbn [fst snd] in *.
    destruct (correct_spec s sd' up' recon) as [C1 C2].
    repeat split; auto. intros j Hj. rewrite C1 by auto. unfold step.
    assert (Es : sd' j = hits_sum s (pairs a b) j).
    { rewrite A1. unfold memset0, N in *. replace ((0 <=? j) && (j <? npix g))%Z with true by lia. lra. }
    rewrite Es. destruct (Req_EM_T _ 0); [now apply Hm|]. rewrite (Hm j Hj), A2, Rplus_0_l by auto. now apply Hc.
  Qed.

  (** Subset boundaries. *)
  Definition bnd (k : Z) : Z := fold_right Z.add 0%Z (map (subset_len g num_block) (zrange 0 k)).
  Lemma bnd_0 : bnd 0 = 0%Z. Proof. reflexivity. Qed.
  Lemma sum_app (l l' : list Z) : fold_right Z.add 0%Z (l ++ l') = (fold_right Z.add 0 l + fold_right Z.add 0 l')%Z.
  Proof. induction l; cbn; lia. Qed.
  Lemma bnd_S k : (0 <= k)%Z -> bnd (k + 1) = (bnd k + subset_len g num_block k)%Z.
  Proof. intros H. unfold bnd. rewrite zrange_snoc, map_app, sum_app by auto. cbn. lia. Qed.
  Hypothesis Hnb : (1 <= num_block)%Z.
  Hypothesis Hdt : (0 <= dt g)%Z.
  Lemma bnd_closed k : (0 <= k <= num_block)%Z -> bnd k = (k * (dt g / num_block) + Z.min k (dt g mod num_block))%Z.
  Proof.
    intros [H0 H1]. revert H1. pattern k. apply natlike_ind; auto; clear k H0.
    - intros _. rewrite bnd_0. generalize (Z.mod_pos_bound (dt g) num_block). lia.
    - intros k Hk IH H1. rewrite <- Z.add_1_r in *. rewrite bnd_S, IH by lia. unfold subset_len.
      destruct (k <? dt g mod num_block)%Z eqn:E; nia.
  Qed.
  Lemma bnd_all : bnd num_block = dt g.
  Proof. rewrite bnd_closed by lia. generalize (Z.div_mod (dt g) num_block), (Z.mod_pos_bound (dt g) num_block). lia. Qed.
  Lemma len_nonneg k : (0 <= subset_len g num_block k)%Z.
  Proof. unfold subset_len. assert (0 <= dt g / num_block)%Z by (apply Z.div_pos; lia). destruct (_ <? _)%Z; lia. Qed.
  Lemma bnd_mono k k' : (0 <= k <= k')%Z -> (bnd k <= bnd k')%Z.
  Proof.
    intros [H0 H1]. revert H1. pattern k'. replace k' with (k + (k' - k))%Z by lia. intros H1.
    assert (G : forall n, (0 <= n)%Z -> (bnd k <= bnd (k + n))%Z).
    { intros n Hn. pattern n. apply natlike_ind; auto; [now rewrite Z.add_0_r|].
      intros n' Hn' IH. replace (k + Z.succ n')%Z with (k + n' + 1)%Z by lia. rewrite bnd_S by lia.
      generalize (len_nonneg (k + n')). lia. }
    apply G. lia.
  Qed.
  Definition blocks : list (list (Z * Z)) := map (fun os => pairs (bnd os) (bnd (os + 1))) (zrange 0 num_block).
  Lemma pairs_app a b c : (a <= b <= c)%Z -> pairs a b ++ pairs b c = pairs a c.
  Proof. intros H. unfold pairs. rewrite <- (zrange_app H). now rewrite flat_map_app. Qed.
  Lemma blocks_concat k : (0 <= k)%Z -> concat (map (fun os => pairs (bnd os) (bnd (os + 1))) (zrange 0 k)) = pairs 0 (bnd k).
  Proof.
    intros Hk. pattern k. apply natlike_ind; auto; clear k Hk.
    intros k Hk IH. rewrite <- Z.add_1_r. rewrite zrange_snoc, map_app, concat_app, IH by auto. cbn [map concat]. rewrite app_nil_r.
    apply pairs_app. pose proof (bnd_mono 0 k ltac:(lia)). rewrite bnd_0 in *. split; auto. apply bnd_mono. lia.
  Qed.
  Lemma in_pairs a b p d : In (p, d) (pairs a b) <-> (0 <= d < dx g)%Z /\ exists q, (a <= q < b)%Z /\ pk q = p.
  Proof.
    unfold pairs. rewrite in_flat_map. split.
    - intros (q & Hq & H). apply in_map_iff in H as (d' & [= <- <-] & Hd). rewrite in_zrange in Hq, Hd. split; auto. exists q. auto.
    - intros (Hd & q & Hq & <-). exists q. rewrite in_zrange. split; auto. apply in_map_iff. exists d. rewrite in_zrange. auto.
  Qed.

  (** The whole solver, under an invariant P that keeps all rays defined. *)
  Hypothesis Hpk : forall q, (0 <= q < dt g)%Z -> (0 <= pk q < dt g)%Z.
  Hypothesis Hinj : forall q q', (0 <= q < dt g)%Z -> (0 <= q' < dt g)%Z -> pk q = pk q' -> q = q'.
  Lemma pairs_range a b : (0 <= a)%Z -> (b <= dt g)%Z -> in_range (pairs a b).
  Proof. intros Ha Hb p d Hin. apply in_pairs in Hin as (Hd & q & Hq & <-). split; auto. apply Hpk. lia. Qed.
  Lemma NoDup_pairs a b : (0 <= a)%Z -> (b <= dt g)%Z -> NoDup (pairs a b).
  Proof.
    intros Ha Hb. unfold pairs.
    assert (forall l, NoDup l -> (forall q, In q l -> (0 <= q < dt g)%Z) ->
              NoDup (flat_map (fun q => map (pair (pk q)) (zrange 0 (dx g))) l)) as G.
    { induction l as [|q l IH]; intros Hl Hq; cbn [flat_map]; [constructor|]. inversion Hl as [|? ? Hni Hl']; subst.
      apply NoDup_app_iff'; repeat split.
      - apply FinFun.Injective_map_NoDup; [intros x y [= ->]; auto|apply NoDup_zrange].
      - apply IH; auto. intros; apply Hq; now right.
      - intros [p d] H1 H2. apply in_map_iff in H1 as (d' & [= <- <-] & _).
        apply in_flat_map in H2 as (q' & Hq' & H2). apply in_map_iff in H2 as (d'' & [= E <-] & _).
        apply Hinj in E; [subst; auto|apply Hq; now right|apply Hq; now left]. }
    apply G; [apply NoDup_zrange|]. intros q Hq. apply in_zrange in Hq. lia.
  Qed.

  Section Run.
  Variable P : Z -> (Z -> R) -> Prop.
  Hypothesis HPok : forall s m, P s m -> all_ok s m.
  Hypothesis HPstep : forall s m L, (0 <= s < dy g)%Z -> In L blocks -> P s m -> P s (step s L m).
  Definition sweep (s : Z) (m : Z -> R) : Z -> R := fold_left (fun m L => step s L m) blocks m.
  Definition state := (arr number * arr number * arr R * arr number)%type.
  Definition rec_of (st : state) : arr number := fst (fst (fst st)).
  Definition sim_of (st : state) : arr number := snd (fst (fst st)).
  Definition sim_clear (s : Z) (q0 : Z) (sim : arr number) : Prop := forall q d, (q0 <= q < dt g)%Z -> (0 <= d < dx g)%Z ->
    sim (ind_data g s (pk q) d) = Some 0.

  Lemma slice_run s (st : state) m : (0 <= s < dy g)%Z -> is_slice s (rec_of st) m -> P s m -> sim_clear s 0 (sim_of st) ->
    let st' := os_slice g rl data num_block ind_block s st in
    is_slice s (rec_of st') (sweep s m) /\ P s (sweep s m) /\
    (forall x, (forall j, (0 <= j < N)%Z -> x <> j + s * N)%Z -> rec_of st' x = rec_of st x) /\
    (forall x, (forall p d, (0 <= p < dt g)%Z -> (0 <= d < dx g)%Z -> x <> ind_data g s p d) -> sim_of st' x = sim_of st x).
  Proof.
    intros Hs Hm HP Hz. cbv zeta. unfold os_slice.
    pose (I k (es : Z * state) := fst es = bnd k /\ exists m',
      m' = fold_left (fun m L => step s L m) (map (fun os => pairs (bnd os) (bnd (os + 1))) (zrange 0 k)) m /\
      is_slice s (rec_of (snd es)) m' /\ P s m' /\ sim_clear s (bnd k) (sim_of (snd es)) /\
      (forall x, (forall j, (0 <= j < N)%Z -> x <> j + s * N)%Z -> rec_of (snd es) x = rec_of st x) /\
      (forall x, (forall p d, (0 <= p < dt g)%Z -> (0 <= d < dx g)%Z -> x <> ind_data g s p d) -> sim_of (snd es) x = sim_of st x)).
    match goal with |- context [for_ num_block ?f ?x] => set (body := f); set (res := for_ num_block body x) end.
    assert (I num_block res) as (_ & m' & -> & R1 & R2 & _ & R3 & R4).
    { apply (for_inv I); [lia| |].
      - split; auto. exists m. cbn [snd]. repeat split; auto.
      - intros k [e [[[recon sim] sd] up]] Hk (E & m' & Em & J1 & J2 & J3 & J4 & J5). cbn [fst snd] in *. subst e.
        unfold body. cbv beta iota.
        rewrite <- bnd_S by lia. unfold rec_of, sim_of in J1, J3, J4, J5. cbn [fst snd] in J1, J3, J4, J5.
        assert (Hb : (0 <= bnd k)%Z) by (rewrite <- bnd_0; apply bnd_mono; lia).
        assert (Hb2 : (bnd (k + 1) <= dt g)%Z) by (rewrite <- bnd_all; apply bnd_mono; lia).
        assert (Hbk : (bnd k <= bnd (k + 1))%Z) by (apply bnd_mono; lia).
        pose proof (pairs_range _ _ Hb Hb2) as Hr. pose proof (NoDup_pairs _ _ Hb Hb2) as Hn.
        destruct (block_spec s (bnd k) (bnd (k + 1)) recon sim sd up m' J1 (HPok s m' J2) Hr Hn) as (B1 & B2 & B3).
        { intros p d Hin. apply in_pairs in Hin as (Hd & q & Hq & <-). apply J3; auto. lia. }
        split; auto. exists (step s (pairs (bnd k) (bnd (k + 1))) m').
        assert (In (pairs (bnd k) (bnd (k + 1))) blocks) by (unfold blocks; apply in_map_iff; exists k; split; auto; apply in_zrange; lia).
        repeat split.
        + rewrite zrange_snoc, map_app, fold_left_app by lia. cbn [map fold_left]. now rewrite <- Em.
        + exact B1.
        + apply HPstep; auto.
        + intros q d Hq Hd. unfold sim_of. cbn [snd]. rewrite B3; [apply J3; auto; lia|].
          intros p' d' Hin E. apply in_pairs in Hin as (Hd' & q' & Hq' & <-).
          apply ind_data_inj in E; auto; try (apply Hpk; lia). destruct E as (_ & E & _). apply Hinj in E; lia.
        + intros x Hx. cbn [snd]. unfold rec_of. rewrite B2 by auto. now apply J4.
        + intros x Hx. cbn [snd]. unfold sim_of. rewrite B3; [now apply J5|].
          intros p d Hin. apply Hx; now apply (Hr p d). }
    repeat split; auto.
  Qed.

  Lemma iter_run (st : state) (m : Z -> Z -> R) : (forall s, (0 <= s < dy g)%Z -> is_slice s (rec_of st) (m s) /\ P s (m s)) ->
    let st' := os_iter g rl data num_block ind_block st in
    (forall s, (0 <= s < dy g)%Z -> is_slice s (rec_of st') (sweep s (m s)) /\ P s (sweep s (m s))) /\
    (forall x, (x < 0 \/ dy g * N <= x)%Z -> rec_of st' x = rec_of st x).
  Proof.
    destruct st as [[[recon sim] sd] up]. unfold rec_of. cbn [fst snd]. intros Hm. cbv zeta. unfold os_iter.
    destruct (Z.le_gt_cases (dy g) 0) as [H0|H0]; [rewrite for_0 by lia; split; auto; intros; lia|].
    set (sim0 := memset0 (Some 0) (dy g * dt g * dx g) sim).
    pose (I k (st : state) :=
      (forall s, (0 <= s < k)%Z -> is_slice s (rec_of st) (sweep s (m s)) /\ P s (sweep s (m s))) /\
      (forall s, (k <= s < dy g)%Z -> is_slice s (rec_of st) (m s) /\ sim_clear s 0 (sim_of st)) /\
      (forall x, (x < 0 \/ dy g * N <= x)%Z -> rec_of st x = recon x)).
    enough (I (dy g) (for_ (dy g) (os_slice g rl data num_block ind_block) (recon, sim0, sd, up))) as (E1 & _ & E2) by auto.
    apply (for_inv I); [lia| |].
    - repeat split; auto; try lia.
      + apply Hm. lia.
      + intros q d Hq Hd. unfold sim_of. cbn [fst snd]. unfold sim0, memset0.
        pose proof (ind_data_range g s (pk q) d ltac:(lia) ltac:(apply Hpk; lia) Hd).
        now replace ((0 <=? ind_data g s (pk q) d) && (ind_data g s (pk q) d <? dy g * dt g * dx g))%Z with true by lia.
    - intros k st Hk (I1 & I2 & I3).
      destruct (I2 k ltac:(lia)) as [J1 J2]. destruct (Hm k ltac:(lia)) as [_ HP].
      destruct (slice_run k st (m k) ltac:(lia) J1 HP J2) as (S1 & S2 & S3 & S4).
      assert (forall s j, (0 <= j < N)%Z -> s <> k -> forall j', (0 <= j' < N)%Z -> (j + s * N <> j' + k * N)%Z) as Hne.
      { intros s j Hj Hs j' Hj' E. apply (slice_inj g) in E; auto. lia. }
      split; [|split].
      + intros s Hs. destruct (Z.eq_dec s k) as [->|Hsk]; auto.
        destruct (I1 s ltac:(lia)) as [K1 K2]. split; auto. intros j Hj. rewrite S3; [now apply K1|]. now apply Hne.
      + intros s Hs. destruct (I2 s ltac:(lia)) as [K1 K2]. split.
        * intros j Hj. rewrite S3; [now apply K1|]. apply Hne; auto. lia.
        * intros q d Hq Hd. rewrite S4; [now apply K2|]. intros p' d' Hp' Hd' E.
          apply ind_data_inj in E; auto. lia.
      + intros x Hx. rewrite S3; [now apply I3|]. intros j Hj ->.
        pose proof (slice_range g k j ltac:(lia) Hj). unfold N in *. lia.
  Qed.

  Fixpoint sweeps (n : nat) (s : Z) (m : Z -> R) : Z -> R := match n with O => m | S k => sweep s (sweeps k s m) end.
  Theorem solve_run num_iter recon sim sd up (m : Z -> Z -> R) : (0 < dt g)%Z -> (0 < dx g)%Z ->
    (forall s, (0 <= s < dy g)%Z -> is_slice s recon (m s) /\ P s (m s)) ->
    let r := os_solve g rl data num_block ind_block num_iter recon sim sd up in
    (forall s, (0 <= s < dy g)%Z -> is_slice s r (sweeps (Z.to_nat num_iter) s (m s)) /\ P s (sweeps (Z.to_nat num_iter) s (m s))) /\
    (forall x, (x < 0 \/ dy g * N <= x)%Z -> r x = recon x).
  Proof.
    intros Ht Hx Hm. cbv zeta. unfold os_solve.
    destruct (Z.eq_dec (dy g) 0) as [E|E].
    - replace (empty g) with true by (unfold empty; lia). split; auto. intros; lia.
    - replace (empty g) with false by (unfold empty; lia).
      destruct (Z.le_gt_cases num_iter 0) as [H0|H0].
      { rewrite for_0 by lia. replace (Z.to_nat num_iter) with 0%nat by lia. auto. }
      pose (I k (st : state) := (forall s, (0 <= s < dy g)%Z -> is_slice s (rec_of st) (sweeps (Z.to_nat k) s (m s)) /\ P s (sweeps (Z.to_nat k) s (m s))) /\
        (forall x, (x < 0 \/ dy g * N <= x)%Z -> rec_of st x = recon x)).
      refine (for_inv I num_iter _ _ _ _ _); [lia|split; auto|].
      intros k st Hk [I1 I2]. destruct (iter_run st (fun s => sweeps (Z.to_nat k) s (m s)) I1) as [A1 A2].
      split.
      + replace (Z.to_nat (k + 1)) with (S (Z.to_nat k)) by lia. exact A1.
      + intros x Hx'. rewrite A2 by auto. now apply I2.
  Qed.
  End Run.
End Subsets.
