From Verif Require Import Base CLoop Model_Prep Model_Ray Model_Solver Proofs_Prep Proofs_Morph Proofs_Ray Properties_Ray Proofs_Solver Proofs_Art Proofs_Subsets Proofs_Bart.
From Coq Require Import Reals Lra Psatz.
Local Open Scope R_scope.

(** * Finite values stay non-negative *)
Definition nn (v : number) : Prop := match v with Some x => 0 <= x | None => True end.
Definition nnr (n : Z) (a : arr number) : Prop := forall i, (0 <= i < n)%Z -> nn (a i).
Lemma nn_add a b : nn a -> nn b -> nn (nadd a b). Proof. destruct a, b; cbn; auto; lra. Qed.
Lemma nn_mul a b : nn a -> nn b -> nn (nmul a b). Proof. destruct a, b; cbn; auto; nra. Qed.
Lemma nn_div a b : nn a -> nn b -> nn (ndiv a b).
Proof.
  destruct a as [x|], b as [y|]; cbn; auto. destruct (Req_EM_T y 0); cbn; auto. intros Hx Hy.
  apply Rmult_le_pos; auto. left. apply Rinv_0_lt_compat. lra.
Qed.
Lemma nn_set n a k v : nnr n a -> nn v -> nnr n (aset a k v).
Proof. intros Ha Hv i Hi. unfold aset. destruct (_ =? _)%Z; auto. Qed.
Lemma nn_memset n a : nnr n (memset0 (Some 0) n a).
Proof. intros i Hi. unfold memset0. replace (_ && _)%bool with true by lia. cbn. lra. Qed.
Lemma for_range_inv {S} (P : S -> Prop) a b (body : Z -> S -> S) s :
  P s -> (forall q s, (a <= q < b)%Z -> P s -> P (body q s)) -> P (for_range a b body s).
Proof.
  intros H0 Hb. unfold for_range.
  assert (forall l s, (forall q, In q l -> (a <= q < b)%Z) -> P s -> P (fold_left (fun s j => body j s) l s)) as G.
  { induction l as [|q l IH]; intros s' Hl Hs; auto. cbn. apply IH; [intros; apply Hl; now right|]. apply Hb; auto. apply Hl; now left. }
  apply G; auto. intros q Hq. now apply in_zrange.
Qed.
Lemma for_keep {S} (P : S -> Prop) n (body : Z -> S -> S) s :
  P s -> (forall q s, (0 <= q < n)%Z -> P s -> P (body q s)) -> P (for_ n body s).
Proof.
  intros H0 Hb. destruct (Z.le_gt_cases n 0); [now rewrite for_0 by lia|].
  apply (for_inv (fun _ s => P s)); auto; lia.
Qed.
Lemma nn_simdata N M segs off idx m sim : in_grid N segs -> (forall i w, In (i, w) segs -> 0 <= w) -> (0 <= idx < M)%Z ->
  (forall i, (0 <= i < N)%Z -> nn (m (i + off)%Z)) -> nnr M sim -> nnr M (n_simdata segs off idx m sim).
Proof.
  intros Hg Hw Hi Hm. unfold n_simdata. revert sim. induction segs as [|[i w] l IH]; intros sim Hs; auto. cbn.
  apply IH; [intros j v H; apply (Hg j v); now right|intros j v H; apply (Hw j v); now right|].
  apply nn_set; auto. apply nn_add; [now apply Hs|]. apply nn_mul; [apply Hm, (Hg i w); now left|].
  cbn. apply (Hw i w). now left.
Qed.
Lemma nn_add_scaled N segs k up : in_grid N segs -> (forall i w, In (i, w) segs -> 0 <= w) -> nn k -> nnr N up -> nnr N (n_add_scaled segs k up).
Proof.
  intros Hg Hw Hk. unfold n_add_scaled. revert up. induction segs as [|[i w] l IH]; intros up Hs; auto. cbn.
  apply IH; [intros j v H; apply (Hg j v); now right|intros j v H; apply (Hw j v); now right|].
  apply nn_set; auto. apply nn_add; [apply Hs, (Hg i w); now left|]. apply nn_mul; auto.
  cbn. apply (Hw i w). now left.
Qed.

Section Nonneg.
  Variable g : geom.
  Hypothesis Hgx : (1 <= ngridx g)%Z.
  Hypothesis Hgy : (1 <= ngridy g)%Z.
  Variable data : arr R.
  Variable num_block : Z.
  Variable ind_block : arr Z.
  Hypothesis Hnb : (1 <= num_block)%Z.
  Hypothesis Hpick : forall q, (0 <= q < dt g)%Z -> (0 <= pick num_block ind_block q < dt g)%Z.
  Hypothesis Hdata : forall s p d, (0 <= s < dy g)%Z -> (0 <= p < dt g)%Z -> (0 <= d < dx g)%Z -> 0 <= data (ind_data g s p d).
  Let N := npix g.
  Let M := (dy g * dt g * dx g)%Z.
  Hypothesis Ht : (0 <= dt g)%Z.

  Definition okst (st : arr number * arr number * arr R * arr number) : Prop :=
    let '(recon, sim, _, _) := st in nnr (dy g * N) recon /\ nnr M sim.
  Lemma nn_block s a b st : (0 <= s < dy g)%Z -> (0 <= a)%Z -> (b <= dt g)%Z -> okst st ->
    okst (os_block g osem_rule data num_block ind_block s a b st).
  Proof.
    intros Hs Ha Hb. destruct st as [[[recon sim] sd] up]. intros [H1 H2]. unfold os_block.
    assert (Hm : forall i, (0 <= i < N)%Z -> nn (recon (i + s * N)%Z)).
    { intros i Hi. apply H1. pose proof (slice_range g s i Hs Hi). unfold N in *. lia. }
    pose (P (t : arr number * arr R * arr number) :=
      let '(sim, sd, up) := t in nnr M sim /\ (forall i, (0 <= i < N)%Z -> 0 <= sd i) /\ nnr N up).
    assert (HP : P (os_rays g osem_rule data num_block ind_block s recon a b
                     (sim, memset0 0 (npix g) sd, memset0 (Some 0) (npix g) up))).
    { unfold os_rays. apply (for_range_inv P).
      - unfold P. split; auto. split; [|apply nn_memset].
        intros i Hi. unfold memset0. replace (_ && _)%bool with true by (unfold N in *; lia). lra.
      - intros q t Hq Pt. apply (for_keep P); auto. intros d [[sim' sd'] up'] Hd (P1 & P2 & P3). unfold os_ray, P.
        set (p := pick num_block ind_block q). assert (Hp : (0 <= p < dt g)%Z) by (apply Hpick; lia).
        assert (Hidx : (0 <= ind_data g s p d < M)%Z) by (pose proof (ind_data_range g s p d); unfold M; lia).
        assert (Hsim : nnr M (n_simdata (rays g s p d) (s * npix g) (ind_data g s p d) recon sim')).
        { apply (nn_simdata N); auto; [now apply rays_grid|intros i w; now apply rays_nonneg]. }
        split; auto. split.
        + intros i Hi. rewrite add_dist_spec. specialize (P2 i Hi).
          assert (0 <= wt (rays g s p d) i) by (apply wt_nonneg; intros j w; now apply rays_nonneg). lra.
        + destruct (Req_EM_T _ 0); auto. apply (nn_add_scaled N); auto; [now apply rays_grid|intros i w; now apply rays_nonneg|].
          cbn [value osem_rule]. apply nn_div; [cbn; now apply Hdata|now apply Hsim]. }
    destruct (os_rays _ _ _ _ _ _ _ _ _ _) as [[sim' sd'] up']. destruct HP as (P1 & P2 & P3). split; auto.
    unfold os_correct. apply (for_keep (nnr (dy g * N))); auto. intros n r Hn Hr.
    destruct (Req_EM_T (sd' n) 0); auto. apply nn_set; auto. cbn [correct osem_rule].
    apply nn_mul; [apply Hr; pose proof (slice_range g s n Hs Hn); unfold N in *; lia|].
    apply nn_div; [now apply P3|cbn; now apply P2].
  Qed.
  Lemma nn_solve num_iter recon sim sd up : nnr (dy g * N) recon ->
    nnr (dy g * N) (osem g data num_block ind_block num_iter recon sim sd up).
  Proof.
    intros H. unfold osem, os_solve. destruct (empty g); auto.
    assert (G : let '(r, _, _, _) := for_ num_iter (fun _ => os_iter g osem_rule data num_block ind_block) (recon, sim, sd, up) in nnr (dy g * N) r).
    { apply (for_keep (fun t => let '(r, _, _, _) := t in nnr (dy g * N) r)); auto.
      intros q [[[r s] d] u] Hq Hr. unfold os_iter.
      enough (E : okst (for_ (dy g) (os_slice g osem_rule data num_block ind_block) (r, memset0 (Some 0) (dy g * dt g * dx g) s, d, u))).
      { destruct (for_ (dy g) _ _) as [[[? ?] ?] ?]. apply E. }
      apply (for_keep okst); [split; auto; apply nn_memset|].
      intros sl st Hsl Hst. unfold os_slice.
      pose (I k (x : Z * (arr number * arr number * arr R * arr number)) := fst x = bnd g num_block k /\ okst (snd x)).
      enough (E : I num_block (for_ num_block (fun os '(subset_end, st) =>
           let subset_start := subset_end in
           let subset_end := (subset_start + subset_len g num_block os)%Z in
           (subset_end, os_block g osem_rule data num_block ind_block sl subset_start subset_end st)) (0%Z, st))) by apply E.
      apply (for_inv I); [lia|split; auto|]. intros k [e st'] Hk [E1 E2]. cbn [fst snd] in *. subst e. split; cbn [fst snd].
      - rewrite (bnd_S g num_block ind_block) by lia. reflexivity.
      - assert (Hle : (bnd g num_block (k + 1) <= dt g)%Z).
        { rewrite <- (bnd_all g num_block ind_block) by lia. apply (bnd_mono g num_block ind_block); lia. }
        assert (0 <= bnd g num_block k)%Z by (rewrite <- (bnd_0 g num_block); apply (bnd_mono g num_block ind_block); lia).
        rewrite (bnd_S g num_block ind_block) in Hle by lia. apply nn_block; auto. }
    destruct (for_ num_iter _ _) as [[[? ?] ?] ?]. exact G.
  Qed.
End Nonneg.

(** * Positive data *)
Definition osem_v (b s _s2 : R) : R := b / s.
Definition osem_c (x u sd : R) : R := x * (u / sd).
Definition osem_ok (_b s _s2 : R) : Prop := s <> 0.
Lemma osem_Hv b s s2 : s2 <> 0 -> osem_ok b s s2 -> value osem_rule b (Some s) s2 = Some (osem_v b s s2).
Proof. unfold osem_ok. intros H Hs. cbn. destruct (Req_EM_T s 0); [lra|reflexivity]. Qed.
Lemma osem_Hc x u sd : sd <> 0 -> correct osem_rule (Some x) (Some u) sd = Some (osem_c x u sd).
Proof. intros H. cbn. destruct (Req_EM_T sd 0); [lra|reflexivity]. Qed.

Lemma lsum_pos {A} (f : A -> R) l : (forall x, In x l -> 0 <= f x) -> (exists x, In x l /\ 0 < f x) -> 0 < lsum f l.
Proof.
  intros H (x & Hx & Hp). assert (0 <= lsum f l) by now apply lsum_nonneg.
  destruct (Req_EM_T (lsum f l) 0) as [E|E]; [|lra]. pose proof (lsum_zero f l H E x Hx). lra.
Qed.
Lemma lsum_ne {A} (f : A -> R) l : lsum f l <> 0 -> exists x, In x l /\ f x <> 0.
Proof.
  induction l as [|x l IH]; [unfold lsum; cbn; lra|]. rewrite lsum_cons. intros H.
  destruct (Req_EM_T (f x) 0) as [E|E]; [|exists x; split; auto; now left].
  destruct IH as (y & Hy & Hf); [lra|]. exists y. split; auto. now right.
Qed.
Section Em.
  Variable g : geom.
  Hypothesis Hgx : (1 <= ngridx g)%Z.
  Hypothesis Hgy : (1 <= ngridy g)%Z.
  Variable data : arr R.
  Let N := npix g.
  Variable s : Z.
  Definition pos_image (m : Z -> R) : Prop := forall j, (0 <= j < N)%Z -> 0 < m j.
  Lemma dot_pos p d m : pos_image m -> sum_dist2 (rays g s p d) <> 0 -> 0 < dot (rays g s p d) m.
  Proof.
    intros Hm Hs. unfold dot.
    assert (G : 0 < lsum (fun '(i, w) => m i * w) (rays g s p d)); [|exact G].
    assert (Hnn : forall x, In x (rays g s p d) -> 0 <= (fun '(i, w) => m i * w) x).
    { intros [i w] Hi. apply Rmult_le_pos; [left; apply Hm, (rays_grid g Hgx Hgy s p d i w Hi)|apply (rays_nonneg g Hgx Hgy s p d i w Hi)]. }
    apply lsum_pos; auto.
    assert (E : exists x, In x (rays g s p d) /\ snd x <> 0).
    { rewrite sum_dist2_spec in Hs. destruct (lsum_ne (fun '(_, w) => w * w) (rays g s p d) Hs) as ([i w] & Hi & Hw).
      exists (i, w). split; auto. cbn. intros ->. lra. }
    destruct E as ([i w] & Hi & Hw). exists (i, w). split; auto. cbn in Hw.
    pose proof (rays_nonneg g Hgx Hgy s p d i w Hi). pose proof (Hm i (rays_grid g Hgx Hgy s p d i w Hi)).
    apply Rmult_lt_0_compat; lra.
  Qed.
  Variable L : list (Z * Z).
  Let st := step g data osem_v osem_c s L.
  Lemma wt0 p d j : sum_dist2 (rays g s p d) = 0 -> wt (rays g s p d) j = 0.
  Proof. intros E. apply wt_not_in. intros i w Hi _. apply (proj1 (sum_dist2_zero _) E i w Hi). Qed.
  Lemma wtp p d j : 0 <= wt (rays g s p d) j.
  Proof. apply wt_nonneg. intros i w. now apply rays_nonneg. Qed.
  Lemma hits_nonneg j : 0 <= hits_sum g s L j.
  Proof. apply lsum_nonneg. intros [p d] _. apply wtp. Qed.
  Lemma em_positive m : (forall p d, In (p, d) L -> 0 < data (ind_data g s p d)) -> pos_image m -> pos_image (st m).
  Proof.
    intros Hd Hm j Hj. unfold st, step. destruct (Req_EM_T _ 0) as [E|E]; [now apply Hm|].
    pose proof (hits_nonneg j). unfold osem_c. apply Rmult_lt_0_compat; [now apply Hm|].
    apply Rdiv_lt_0_compat; [|lra]. unfold upd_sum. apply lsum_pos.
    - intros [p d] Hin. cbv zeta. destruct (Req_EM_T _ 0) as [|Ez]; [lra|]. apply Rmult_le_pos; [|apply wtp].
      left. apply Rdiv_lt_0_compat; auto. now apply dot_pos.
    - destruct (lsum_ne (fun '(p, d) => wt (rays g s p d) j) L E) as ([p d] & Hin & Hw).
      exists (p, d). split; auto. cbv zeta. destruct (Req_EM_T _ 0) as [Ez|Ez]; [now rewrite wt0 in Hw|].
      apply Rmult_lt_0_compat; [apply Rdiv_lt_0_compat; auto; now apply dot_pos|]. pose proof (wtp p d j). lra.
  Qed.
  Lemma em_fixed m z : pos_image z -> (forall j, (0 <= j < N)%Z -> m j = z j) ->
    (forall p d, In (p, d) L -> dot (rays g s p d) z = data (ind_data g s p d)) ->
    forall j, (0 <= j < N)%Z -> st m j = z j.
  Proof.
    intros Hz Hm Hr j Hj. unfold st, step. destruct (Req_EM_T _ 0) as [E|E]; [now apply Hm|].
    replace (upd_sum g data osem_v s L m j) with (hits_sum g s L j); [unfold osem_c; rewrite Hm by auto; field; auto|].
    unfold hits_sum, upd_sum. apply lsum_ext. intros [p d] Hin. cbv zeta. destruct (Req_EM_T _ 0) as [Ez|Ez]; [now apply wt0|].
    unfold osem_v. rewrite (dot_ext N _ m z) by (auto; now apply rays_grid). rewrite <- (Hr p d Hin).
    pose proof (dot_pos p d z Hz Ez). field. lra.
  Qed.
  (** The total of the rays of L after the update: the total of the data of the rays that cross the grid. *)
  Lemma em_counts m : pos_image m ->
    lsum (fun '(p, d) => dot (rays g s p d) (st m)) L
    = lsum (fun '(p, d) => if Req_EM_T (sum_dist2 (rays g s p d)) 0 then 0 else data (ind_data g s p d)) L.
  Proof.
    intros Hm.
    assert (E1 : lsum (fun '(p, d) => dot (rays g s p d) (st m)) L = zsum N (fun j => st m j * hits_sum g s L j)).
    { transitivity (zsum N (fun j => lsum (fun pd => st m j * wt (rays g s (fst pd) (snd pd)) j) L)).
      - rewrite lsum_zsum. apply lsum_ext. intros [p d] Hin. apply dot_wt. now apply rays_grid.
      - apply zsum_ext. intros j Hj. rewrite lsum_scal. f_equal. apply lsum_ext. intros [p d] _. reflexivity. }
    rewrite E1.
    assert (E2 : forall j, (0 <= j < N)%Z -> st m j * hits_sum g s L j = m j * upd_sum g data osem_v s L m j).
    { intros j Hj. unfold st, step. destruct (Req_EM_T _ 0) as [E|E]; [|unfold osem_c; field; auto].
      rewrite E. replace (upd_sum g data osem_v s L m j) with 0; [lra|]. symmetry.
      unfold upd_sum. rewrite (lsum_ext _ (fun _ => 0)); [clear; unfold lsum, rsum; induction L; cbn in *; lra|].
      intros [p d] Hin. cbv zeta. destruct (Req_EM_T _ 0); auto.
      assert (Hnn : forall x, In x L -> 0 <= (fun '(p, d) => wt (rays g s p d) j) x) by (intros [p' d'] _; apply wtp).
      pose proof (lsum_zero _ L Hnn E (p, d) Hin) as E0. cbn in E0. rewrite E0. lra. }
    rewrite (zsum_ext N _ (fun j => lsum (fun pd => m j * (let segs := rays g s (fst pd) (snd pd) in
            if Req_EM_T (sum_dist2 segs) 0 then 0
            else osem_v (data (ind_data g s (fst pd) (snd pd))) (dot segs m) (sum_dist2 segs) * wt segs j)) L)).
    2:{ intros j Hj. rewrite E2, lsum_scal by auto. f_equal. apply lsum_ext. intros [p d] _. reflexivity. }
    rewrite lsum_zsum. apply lsum_ext. intros [p d] Hin. cbn [fst snd]. cbv zeta. destruct (Req_EM_T _ 0) as [Ez|Ez].
    - apply zsum_zero. intros; lra.
    - rewrite (zsum_ext N _ (fun j => osem_v (data (ind_data g s p d)) (dot (rays g s p d) m) (sum_dist2 (rays g s p d)) * (m j * wt (rays g s p d) j)))
        by (intros; ring).
      rewrite zsum_scal, <- dot_wt by now apply rays_grid. unfold osem_v. pose proof (dot_pos p d m Hm Ez). field. lra.
  Qed.
End Em.
