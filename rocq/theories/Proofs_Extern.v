(** Which cells of the arrays the solvers read and write. *)
From Verif Require Import Base CLoop Model_Prep Model_Ray Model_Solver Model_Ospml Model_Grad Proofs_Solver Proofs_Ospml Spec_Extern.
From Coq Require Import Reals String.
Local Open Scope R_scope.

(** ** Loops keep relations *)
Lemma fold_rel {S T A} (P : S -> T -> Prop) (l : list A) (f : S -> A -> S) (h : T -> A -> T) s t :
  (forall x s t, In x l -> P s t -> P (f s x) (h t x)) -> P s t -> P (fold_left f l s) (fold_left h l t).
Proof.
  revert s t. induction l as [|x l IH]; intros s t H H0; cbn [fold_left]; auto.
  apply IH; [intros y u v Hy; apply H; now right|]. apply H; [now left|exact H0].
Qed.
Lemma for_rel {S T} (P : S -> T -> Prop) n (f : Z -> S -> S) (h : Z -> T -> T) s t :
  (forall i s t, (0 <= i < n)%Z -> P s t -> P (f i s) (h i t)) -> P s t -> P (for_ n f s) (for_ n h t).
Proof. intros H. unfold for_. apply fold_rel. intros x u v Hx. apply in_zrange in Hx. now apply H. Qed.
Lemma for_range_rel {S T} (P : S -> T -> Prop) a b (f : Z -> S -> S) (h : Z -> T -> T) s t :
  (forall i s t, (a <= i < b)%Z -> P s t -> P (f i s) (h i t)) -> P s t -> P (for_range a b f s) (for_range a b h t).
Proof. intros H. unfold for_range. apply fold_rel. intros x u v Hx. apply in_zrange in Hx. now apply H. Qed.
Lemma for_grid_rel {S T} (P : S -> T -> Prop) stride ny nx (f : Z -> S -> S) (h : Z -> T -> T) s t :
  (forall iy ix s t, (0 <= iy < ny)%Z -> (0 <= ix < nx)%Z -> P s t -> P (f (iy * stride + ix)%Z s) (h (iy * stride + ix)%Z t)) ->
  P s t -> P (for_grid stride ny nx f s) (for_grid stride ny nx h t).
Proof. intros H. unfold for_grid. apply for_rel. intros iy u v Hy. apply for_rel. intros ix u' v' Hx. now apply H. Qed.
(** One run: an invariant. *)
Lemma for_keep {S} (P : S -> Prop) n (f : Z -> S -> S) s :
  (forall i s, (0 <= i < n)%Z -> P s -> P (f i s)) -> P s -> P (for_ n f s).
Proof. intros H. apply (for_rel (fun a _ : S => P a) n f f s s). intros i u v Hi. now apply H. Qed.
Lemma fold_keep {S A} (P : S -> Prop) (l : list A) (f : S -> A -> S) s :
  (forall x s, In x l -> P s -> P (f s x)) -> P s -> P (fold_left f l s).
Proof. intros H. apply (fold_rel (fun a _ : S => P a) l f f s s). intros i u v Hi. now apply H. Qed.

(** ** agree and untouched *)
Lemma agree_refl {A} n (a : Z -> A) : agree n a a. Proof. now intros i Hi. Qed.
Lemma agree_aset {A} n (a b : arr A) i x y : agree n a b -> x = y -> agree n (aset a i x) (aset b i y).
Proof. intros H -> j Hj. unfold aset. destruct (j =? i)%Z; auto. Qed.
Lemma agree_memset {A} (z : A) n (a b : arr A) : agree n (memset0 z n a) (memset0 z n b).
Proof. intros i Hi. unfold memset0. destruct ((0 <=? i) && (i <? n))%Z eqn:E; auto. lia. Qed.
Lemma untouched_refl {A} n (a : Z -> A) : untouched n a a. Proof. now intros i Hi. Qed.
Lemma untouched_aset {A} n (a b : arr A) i x : untouched n a b -> (0 <= i < n)%Z -> untouched n a (aset b i x).
Proof. intros H Hi j Hj. rewrite aset_ne by lia. now apply H. Qed.

(** The neighbours visited by the penalty of ospml lie in the slice. *)
Lemma visits_in gx gy : (2 <= gx)%Z -> (2 <= gy)%Z -> forall i nb, In (i, nb) (visits gx gy) ->
  (0 <= i < gx * gy)%Z /\ forall o w, In (o, w) nb -> (0 <= i + o < gx * gy)%Z.
Proof.
  intros Hx Hy i nb H. assert (2 * gy <= gx * gy)%Z as HM by nia. unfold visits in H. rewrite !in_app_iff in H.
  assert (forall tot near diag o w, In (o, w) (weigh tot near diag) -> In o near \/ In o diag) as W.
  { intros tot near diag o w K. unfold weigh in K. apply in_app_iff in K. destruct K as [K|K]; apply in_map_iff in K; destruct K as [z [E K]];
      injection E as -> _; auto. }
  destruct H as [H|[H|[H|[H|[H|H]]]]].
  - apply in_flat_map in H. destruct H as [n [Hn H]]. apply in_map_iff in H. destruct H as [m [E H]]. injection E as <- <-.
    apply in_zrange in Hn. apply in_zrange in H. assert ((n + 2) * gy <= gx * gy)%Z by nia. assert (gy <= n * gy)%Z by nia.
    split; [lia|]. intros o w Ho. destruct (W _ _ _ _ _ Ho) as [K|K]; cbn [In] in K; lia.
  - apply in_map_iff in H. destruct H as [m [E H]]. injection E as <- <-. apply in_zrange in H.
    split; [lia|]. intros o w Ho. destruct (W _ _ _ _ _ Ho) as [K|K]; cbn [In] in K; lia.
  - apply in_map_iff in H. destruct H as [m [E H]]. injection E as <- <-. apply in_zrange in H. assert ((gx - 1) * gy = gx * gy - gy)%Z by lia.
    split; [lia|]. intros o w Ho. destruct (W _ _ _ _ _ Ho) as [K|K]; cbn [In] in K; lia.
  - apply in_map_iff in H. destruct H as [n [E H]]. injection E as <- <-. apply in_zrange in H. assert ((n + 2) * gy <= gx * gy)%Z by nia.
    assert (gy <= n * gy)%Z by nia. split; [lia|]. intros o w Ho. destruct (W _ _ _ _ _ Ho) as [K|K]; cbn [In] in K; lia.
  - apply in_map_iff in H. destruct H as [n [E H]]. injection E as <- <-. apply in_zrange in H. assert ((n + 2) * gy <= gx * gy)%Z by nia.
    assert (gy <= n * gy)%Z by nia. split; [lia|]. intros o w Ho. destruct (W _ _ _ _ _ Ho) as [K|K]; cbn [In] in K; lia.
  - assert ((gx - 1) * gy = gx * gy - gy)%Z by lia. cbn [In] in H.
    destruct H as [H|[H|[H|[H|[]]]]]; injection H as <- <-; (split; [lia|]); intros o w Ho;
      (destruct (W _ _ _ _ _ Ho) as [K|K]; cbn [In] in K; lia).
Qed.

(** ** The geometry read through its arrays *)
Record same_geom (cells : Z) (g g' : geom) : Prop := {
  sg_x : ngridx g' = ngridx g; sg_y : ngridy g' = ngridy g; sg_dy : dy g' = dy g; sg_dt : dt g' = dt g; sg_dx : dx g' = dx g;
  sg_center : agree cells (center g) (center g'); sg_theta : agree (dt g) (theta g) (theta g') }.

Section Two.
  Variables (g g' : geom) (cells : Z).
  Hypothesis Hg : same_geom cells g g'.
  Hypothesis Hgx : (1 <= ngridx g)%Z.
  Hypothesis Hgy : (1 <= ngridy g)%Z.
  Let N := npix g.
  Let D := (dy g * dt g * dx g)%Z.
  Let M := (dy g * N)%Z.
  Lemma same_npix : npix g' = npix g. Proof. unfold npix. destruct Hg. now rewrite sg_x0, sg_y0. Qed.
  Lemma same_empty : empty g' = empty g. Proof. unfold empty. destruct Hg. now rewrite sg_dy0, sg_dt0, sg_dx0. Qed.
  Lemma same_ind s p d : ind_data g' s p d = ind_data g s p d.
  Proof. unfold ind_data. destruct Hg. now rewrite sg_dt0, sg_dx0. Qed.
  Lemma same_rays c p d : (0 <= c < cells)%Z -> (0 <= p < dt g)%Z -> rays g' c p d = rays g c p d.
  Proof. intros Hc Hp. unfold rays. destruct Hg. rewrite sg_x0, sg_y0, sg_dx0. now rewrite <- (sg_center0 c Hc), <- (sg_theta0 p Hp). Qed.

  Lemma in_slice s i : (0 <= s < dy g)%Z -> (0 <= i < N)%Z -> (0 <= i + s * N < M)%Z.
  Proof. intros Hs Hi. apply slice_range; auto. Qed.

  (** ** art *)
  Lemma simdata_rel segs s idx m m' sd sd' : in_grid N segs -> (0 <= s < dy g)%Z -> agree M m m' -> agree D sd sd' -> (0 <= idx < D)%Z ->
    agree D (calc_simdata segs (s * N) idx m sd) (calc_simdata segs (s * N) idx m' sd').
  Proof.
    intros HS Hs Hm Hsd Hi. unfold calc_simdata. apply fold_rel; auto. intros [i w] u v Hx Huv.
    apply agree_aset; auto. rewrite (Huv idx) by auto. rewrite (Hm (i + s * N)%Z); auto. apply in_slice; auto. exact (HS i w Hx).
  Qed.
  Lemma add_scaled_rel segs s k m m' : in_grid N segs -> (0 <= s < dy g)%Z -> agree M m m' ->
    agree M (add_scaled segs (s * N) k m) (add_scaled segs (s * N) k m').
  Proof.
    intros HS Hs Hm. unfold add_scaled. apply fold_rel; auto. intros [i w] u v Hx Huv. apply agree_aset; auto.
    rewrite (Huv (i + s * N)%Z); auto. apply in_slice; auto. exact (HS i w Hx).
  Qed.
  Lemma add_scaled_out segs s k m m' : in_grid N segs -> (0 <= s < dy g)%Z -> untouched M m m' -> untouched M m (add_scaled segs (s * N) k m').
  Proof.
    intros HS Hs Hm. unfold add_scaled. apply fold_keep; auto. intros [i w] u Hx Hu. apply untouched_aset; auto.
    apply in_slice; auto. exact (HS i w Hx).
  Qed.

  Section Art.
    Hypothesis Hcells : (1 <= cells)%Z.
    Variables data data' : arr R.
    Hypothesis Hdata : agree D data data'.
    Let P2 (s t : arr R * arr R) : Prop := agree M (fst s) (fst t) /\ agree D (snd s) (snd t).
    Lemma art_iter_rel st st' : agree M (fst st) (fst st') -> P2 (art_iter g data st) (art_iter g' data' st').
    Proof.
      intros H1. unfold art_iter. destruct Hg as [E1 E2 E3 E4 E5 _ _]. rewrite E3, E4, E5.
      apply for_rel; [|split; [exact H1|apply agree_memset]].
      intros p u v Hp Huv. apply for_rel; auto. clear u v Huv. intros d u v Hd Huv. unfold art_ray.
      rewrite same_rays by lia. destruct (Req_EM_T (sum_dist2 (rays g 0 p d)) 0); auto. rewrite E3.
      apply for_rel; auto. clear u v Huv. intros s [u1 u2] [v1 v2] Hs [Huv1 Huv2]. cbn [fst snd] in *. unfold art_slice.
      rewrite same_npix, same_ind. fold N.
      assert (in_grid N (rays g 0 p d)) as HS by (apply rays_grid; auto).
      assert (0 <= ind_data g s p d < D)%Z as Hi by (apply ind_data_range; auto).
      pose proof (simdata_rel _ _ (ind_data g s p d) _ _ _ _ HS Hs Huv1 Huv2 Hi) as Hsd. split; cbn [fst snd]; auto.
      rewrite (Hsd _ Hi), (Hdata _ Hi). now apply add_scaled_rel.
    Qed.
    Lemma art_rel n r r' sd sd' : agree M r r' -> agree M (art g data n r sd) (art g' data' n r' sd').
    Proof.
      intros H. unfold art. rewrite same_empty. destruct (empty g); auto.
      apply (for_rel (fun s t : arr R * arr R => agree M (fst s) (fst t))); auto. intros i s t Hi Hst. now apply art_iter_rel.
    Qed.
    Lemma art_out n r sd : untouched M r (art g data n r sd).
    Proof.
      unfold art. destruct (empty g); [apply untouched_refl|].
      apply (for_keep (fun s : arr R * arr R => untouched M r (fst s))); [|apply untouched_refl].
      intros _ st _ Hst. unfold art_iter. apply (for_keep (fun s : arr R * arr R => untouched M r (fst s))); auto.
      intros p st1 Hp H1. apply (for_keep (fun s : arr R * arr R => untouched M r (fst s))); auto.
      intros d st2 Hd H2. unfold art_ray. destruct (Req_EM_T _ 0); auto.
      apply (for_keep (fun s : arr R * arr R => untouched M r (fst s))); auto.
      intros s [a b] Hs H3. unfold art_slice. cbn [fst] in *. apply add_scaled_out; auto. apply rays_grid; auto.
    Qed.
  End Art.

  (** ** project and fbp *)
  Lemma simdata_out segs off idx m sd sd' : (0 <= idx < D)%Z -> untouched D sd sd' -> untouched D sd (calc_simdata segs off idx m sd').
  Proof. intros Hi H. unfold calc_simdata. apply fold_keep; auto. intros [i w] u _ Hu. now apply untouched_aset. Qed.
  Lemma project_rel obj obj' data data' : (1 <= cells)%Z -> agree M obj obj' -> agree D data data' ->
    agree D (project g obj data) (project g' obj' data').
  Proof.
    intros Hc Ho Hd. unfold project. rewrite same_empty. destruct (empty g); auto. destruct Hg as [E1 E2 E3 E4 E5 _ _]. rewrite E3, E4, E5.
    apply for_rel; auto. intros p u v Hp Huv. apply for_rel; auto. clear u v Huv. intros d u v Hd' Huv. apply for_rel; auto.
    clear u v Huv. intros s u v Hs Huv. rewrite same_npix, same_ind, same_rays by lia. apply simdata_rel; auto.
    - apply rays_grid; auto.
    - apply ind_data_range; auto.
  Qed.
  Lemma project_out obj data : untouched D data (project g obj data).
  Proof.
    unfold project. destruct (empty g); [apply untouched_refl|].
    apply for_keep; [|apply untouched_refl]. intros p u Hp Hu. apply for_keep; auto. intros d v Hd Hv. apply for_keep; auto.
    intros s w Hs Hw. apply simdata_out; auto. apply ind_data_range; auto.
  Qed.
  Lemma fbp_rel data data' r r' : (dy g <= cells)%Z -> agree D data data' -> agree M r r' -> agree M (fbp g data r) (fbp g' data' r').
  Proof.
    intros Hc Hd Hr. unfold fbp. rewrite same_empty. destruct (empty g); auto. destruct Hg as [E1 E2 E3 E4 E5 _ _]. rewrite E3, E4, E5.
    apply for_rel; auto. intros s u v Hs Huv. apply for_rel; auto. clear u v Huv. intros p u v Hp Huv. apply for_rel; auto.
    clear u v Huv. intros d u v Hd' Huv. rewrite same_npix, same_ind, same_rays by lia.
    rewrite (Hd _ (ind_data_range g s p d Hs Hp Hd')). apply add_scaled_rel; auto. apply rays_grid; auto.
  Qed.
  Lemma fbp_out data r : untouched M r (fbp g data r).
  Proof.
    unfold fbp. destruct (empty g); [apply untouched_refl|].
    apply for_keep; [|apply untouched_refl]. intros s u Hs Hu. apply for_keep; auto. intros p v Hp Hv. apply for_keep; auto.
    intros d w Hd Hw. apply add_scaled_out; auto. apply rays_grid; auto.
  Qed.

  (** ** bart and osem *)
  Lemma n_simdata_rel segs s idx m m' sd sd' : in_grid N segs -> (0 <= s < dy g)%Z -> agree M m m' -> agree D sd sd' -> (0 <= idx < D)%Z ->
    agree D (n_simdata segs (s * N) idx m sd) (n_simdata segs (s * N) idx m' sd').
  Proof.
    intros HS Hs Hm Hsd Hi. unfold n_simdata. apply fold_rel; auto. intros [i w] u v Hx Huv.
    apply agree_aset; auto. rewrite (Huv idx) by auto. rewrite (Hm (i + s * N)%Z); auto. apply in_slice; auto. exact (HS i w Hx).
  Qed.
  Lemma n_add_scaled_rel segs k m m' : in_grid N segs -> agree N m m' -> agree N (n_add_scaled segs k m) (n_add_scaled segs k m').
  Proof.
    intros HS Hm. unfold n_add_scaled. apply fold_rel; auto. intros [i w] u v Hx Huv. apply agree_aset; auto.
    rewrite (Huv i); auto. exact (HS i w Hx).
  Qed.
  Lemma add_dist_rel segs m m' : in_grid N segs -> agree N m m' -> agree N (add_dist segs m) (add_dist segs m').
  Proof.
    intros HS Hm. unfold add_dist. apply fold_rel; auto. intros [i w] u v Hx Huv. apply agree_aset; auto.
    rewrite (Huv i); auto. exact (HS i w Hx).
  Qed.

  Section Subsets.
    Hypothesis Hcells : (dy g <= cells)%Z.
    Variables data data' : arr R.
    Hypothesis Hdata : agree D data data'.
    Variable num_block : Z.
    Variables ib ib' : arr Z.
    (** The entries of ind_block that are read name projections. *)
    Hypothesis Hib : num_block <> 1%Z -> agree (dt g) ib ib' /\ forall q, (0 <= q < dt g)%Z -> (0 <= ib q < dt g)%Z.
    Hypothesis Hnb : (1 <= num_block)%Z.
    Hypothesis Hdt : (0 <= dt g)%Z.
    Lemma pick_same q : (0 <= q < dt g)%Z -> pick num_block ib' q = pick num_block ib q /\ (0 <= pick num_block ib q < dt g)%Z.
    Proof.
      intros Hq. unfold pick. destruct (num_block =? 1)%Z eqn:E; [lia|]. apply Z.eqb_neq in E. destruct (Hib E) as [H1 H2].
      rewrite <- (H1 q Hq). split; auto.
    Qed.
    (** The subsets cover 0 .. dt - 1. *)
    Lemma subset_len_nonneg os : (0 <= subset_len g num_block os)%Z.
    Proof. unfold subset_len. assert (0 <= dt g / num_block)%Z by (apply Z.div_pos; lia). destruct (os <? _)%Z; lia. Qed.
    Definition upto (k : Z) : Z := (k * (dt g / num_block) + Z.min k (dt g mod num_block))%Z.
    Lemma upto_next k : (0 <= k)%Z -> (upto k + subset_len g num_block k = upto (k + 1))%Z.
    Proof. intros Hk. unfold upto, subset_len. destruct (k <? dt g mod num_block)%Z eqn:E; nia. Qed.
    Lemma upto_le k : (0 <= k <= num_block)%Z -> (0 <= upto k <= dt g)%Z.
    Proof.
      intros Hk. unfold upto. pose proof (Z.div_mod (dt g) num_block ltac:(lia)) as E.
      pose proof (Z.mod_pos_bound (dt g) num_block ltac:(lia)) as Hm. assert (0 <= dt g / num_block)%Z as Hq by (apply Z.div_pos; lia). nia.
    Qed.
    (** A loop over the subsets, each one a range of positions below dt. *)
    Lemma subsets_rel {S T} (P : S -> T -> Prop) (f : Z -> Z -> S -> S) (h : Z -> Z -> T -> T) s t :
      (forall a b s t, (0 <= a)%Z -> (b <= dt g)%Z -> P s t -> P (f a b s) (h a b t)) -> P s t ->
      P (snd (for_ num_block (fun os '(e, st) => ((e + subset_len g num_block os)%Z, f e (e + subset_len g num_block os)%Z st)) (0%Z, s)))
        (snd (for_ num_block (fun os '(e, st) => ((e + subset_len g num_block os)%Z, h e (e + subset_len g num_block os)%Z st)) (0%Z, t))).
    Proof.
      intros HP H0.
      set (F := fun (os : Z) '(e, st) => ((e + subset_len g num_block os)%Z, f e (e + subset_len g num_block os)%Z st)).
      set (G := fun (os : Z) '(e, st) => ((e + subset_len g num_block os)%Z, h e (e + subset_len g num_block os)%Z st)).
      cut (forall k, (0 <= k <= num_block)%Z -> fst (for_ k F (0%Z, s)) = upto k /\ fst (for_ k G (0%Z, t)) = upto k
           /\ P (snd (for_ k F (0%Z, s))) (snd (for_ k G (0%Z, t)))).
      { intros K. apply (K num_block). lia. }
      intros k [Hk0 Hk]. revert Hk. pattern k. apply natlike_ind; auto.
      - intros _. rewrite !for_0 by lia. unfold upto. cbn [fst snd]. split; [|split]; auto; pose proof (Z.mod_pos_bound (dt g) num_block ltac:(lia)); lia.
      - intros j Hj IH Hj'. rewrite <- Z.add_1_r in *. destruct IH as [I1 [I2 I3]]; [lia|]. rewrite !for_S by lia.
        destruct (for_ j F (0%Z, s)) as [e1 s1]. destruct (for_ j G (0%Z, t)) as [e2 t1]. cbn [fst snd] in *. subst e1 e2.
        unfold F, G. cbn [fst snd]. rewrite upto_next by lia. split; [|split]; auto.
        apply HP; auto; [pose proof (upto_le j ltac:(lia)); lia|pose proof (upto_le (j + 1) ltac:(lia)); lia].
    Qed.

    Section Os.
      Variable rl : rule.
      Let P3 (s t : arr number * arr R * arr number) : Prop :=
        agree D (fst (fst s)) (fst (fst t)) /\ agree N (snd (fst s)) (snd (fst t)) /\ agree N (snd s) (snd t).
      Lemma os_rays_rel s r r' a b st st' : (0 <= s < dy g)%Z -> (0 <= a)%Z -> (b <= dt g)%Z -> agree M r r' -> P3 st st' ->
        P3 (os_rays g rl data num_block ib s r a b st) (os_rays g' rl data' num_block ib' s r' a b st').
      Proof.
        intros Hs Ha Hb Hr H. unfold os_rays. destruct Hg as [E1 E2 E3 E4 E5 _ _]. rewrite E5.
        apply for_range_rel; auto. clear st st' H. intros q st st' Hq H. apply for_rel; auto. clear st st' H.
        intros d [[u1 u2] u3] [[v1 v2] v3] Hd [H1 [H2 H3]]. cbn [fst snd] in *. unfold os_ray.
        destruct (pick_same q ltac:(lia)) as [Ep Hp]. rewrite Ep. set (p := pick num_block ib q) in *.
        rewrite same_npix, same_ind, same_rays by lia. fold N.
        assert (in_grid N (rays g s p d)) as HS by (apply rays_grid; auto).
        assert (0 <= ind_data g s p d < D)%Z as Hi by (apply ind_data_range; auto).
        pose proof (n_simdata_rel _ _ _ _ _ _ _ HS Hs Hr H1 Hi) as Hsd. split; [|split]; cbn [fst snd]; auto.
        - now apply add_dist_rel.
        - destruct (Req_EM_T _ 0); auto. rewrite (Hsd _ Hi), (Hdata _ Hi). now apply n_add_scaled_rel.
      Qed.
      Lemma os_correct_rel s sd sd' u u' r r' : (0 <= s < dy g)%Z -> agree N sd sd' -> agree N u u' -> agree M r r' ->
        agree M (os_correct g rl s sd u r) (os_correct g' rl s sd' u' r').
      Proof.
        intros Hs Hsd Hu Hr. unfold os_correct. rewrite same_npix. fold N. apply for_rel; auto. clear r r' Hr. intros n r r' Hn Hr.
        rewrite <- (Hsd n Hn), <- (Hu n Hn). destruct (Req_EM_T (sd n) 0); auto. apply agree_aset; auto.
        rewrite (Hr (n + s * N)%Z); auto. now apply in_slice.
      Qed.
      Lemma os_correct_out s sd u r0 r : (0 <= s < dy g)%Z -> untouched M r0 r -> untouched M r0 (os_correct g rl s sd u r).
      Proof.
        intros Hs Hr. unfold os_correct. apply for_keep; auto. intros n v Hn Hv. destruct (Req_EM_T (sd n) 0); auto.
        apply untouched_aset; auto. now apply in_slice.
      Qed.
      Let st4 : Type := arr number * arr number * arr R * arr number.
      Let P4 (s t : st4) : Prop := agree M (fst (fst (fst s))) (fst (fst (fst t))) /\ agree D (snd (fst (fst s))) (snd (fst (fst t))).
      Let Q (r0 : arr number) (s : st4) : Prop := untouched M r0 (fst (fst (fst s))).
      Lemma os_block_rel s a b st st' : (0 <= s < dy g)%Z -> (0 <= a)%Z -> (b <= dt g)%Z -> P4 st st' ->
        P4 (os_block g rl data num_block ib s a b st) (os_block g' rl data' num_block ib' s a b st').
      Proof.
        intros Hs Ha Hb. destruct st as [[[r sm] sd] u]. destruct st' as [[[r' sm'] sd'] u']. intros [H1 H2]. cbn [fst snd] in *. unfold os_block.
        rewrite same_npix. fold N.
        pose proof (os_rays_rel s r r' a b (sm, memset0 0 N sd, memset0 (Some 0) N u) (sm', memset0 0 N sd', memset0 (Some 0) N u') Hs Ha Hb H1
          (conj H2 (conj (agree_memset 0 N sd sd') (agree_memset (Some 0) N u u')))) as [K1 [K2 K3]].
        destruct (os_rays g rl _ _ _ _ _ _ _ _) as [[a1 a2] a3]. destruct (os_rays g' rl _ _ _ _ _ _ _ _) as [[b1 b2] b3].
        cbn [fst snd] in *. split; cbn [fst snd]; auto. now apply os_correct_rel.
      Qed.
      Lemma os_block_out r0 s a b st : (0 <= s < dy g)%Z -> Q r0 st -> Q r0 (os_block g rl data num_block ib s a b st).
      Proof.
        intros Hs H. destruct st as [[[r sm] sd] u]. unfold Q in *. cbn [fst] in *. unfold os_block.
        destruct (os_rays g rl _ _ _ _ _ _ _ _) as [[a1 a2] a3]. cbn [fst]. now apply os_correct_out.
      Qed.
      Lemma os_iter_rel st st' : agree M (fst (fst (fst st))) (fst (fst (fst st'))) ->
        P4 (os_iter g rl data num_block ib st) (os_iter g' rl data' num_block ib' st').
      Proof.
        destruct st as [[[r sm] sd] u]. destruct st' as [[[r' sm'] sd'] u']. cbn [fst snd]. intros H. unfold os_iter.
        destruct Hg as [E1 E2 E3 E4 E5 _ _]. rewrite E3, E4, E5. apply for_rel; [|split; [exact H|apply agree_memset]].
        intros s st st' Hs Hst. unfold os_slice.
        assert (subset_len g' = subset_len g) as EL by (unfold subset_len; now rewrite E4). rewrite EL.
        refine (subsets_rel P4 (os_block g rl data num_block ib s) (os_block g' rl data' num_block ib' s) st st' _ Hst).
        intros a b x y Ha Hb Hxy. now apply os_block_rel.
      Qed.
      Lemma os_iter_out r0 st : Q r0 st -> Q r0 (os_iter g rl data num_block ib st).
      Proof.
        destruct st as [[[r sm] sd] u]. intros H. unfold os_iter. apply (for_keep (Q r0)); auto. intros s st Hs Hst. unfold os_slice.
        refine (subsets_rel (fun x _ : st4 => Q r0 x) (os_block g rl data num_block ib s) (os_block g rl data num_block ib s) st st _ Hst).
        intros a b x _ _ _ Hx. now apply os_block_out.
      Qed.
      Lemma os_rel n r r' sm sm' sd sd' u u' : agree M r r' ->
        agree M (os_solve g rl data num_block ib n r sm sd u) (os_solve g' rl data' num_block ib' n r' sm' sd' u').
      Proof.
        intros H. unfold os_solve. rewrite same_empty. destruct (empty g); auto.
        apply (for_rel (fun s t : st4 => agree M (fst (fst (fst s))) (fst (fst (fst t))))); auto. intros i s t Hi Hst. now apply os_iter_rel.
      Qed.
      Lemma os_out n r sm sd u : untouched M r (os_solve g rl data num_block ib n r sm sd u).
      Proof.
        unfold os_solve. destruct (empty g); [apply untouched_refl|]. apply (for_keep (Q r)); [|apply untouched_refl].
        intros _ st _ Hst. now apply os_iter_out.
      Qed.
    End Os.

    (** ** ospml_quad and ospml_hybrid *)
    Section Ospml.
      Variable gam : number -> number -> number.
      Variable beta : R.
      Hypothesis Hgx2 : (2 <= ngridx g)%Z.
      Hypothesis Hgy2 : (2 <= ngridy g)%Z.
      Let P2 (s t : arr number * arr number) : Prop := agree N (fst s) (fst t) /\ agree N (snd s) (snd t).
      Lemma penalty_rel s r r' st st' : (0 <= s < dy g)%Z -> agree M r r' -> P2 st st' ->
        P2 (penalty gam beta g s r st) (penalty gam beta g' s r' st').
      Proof.
        intros Hs Hr H. unfold penalty. destruct Hg as [E1 E2 E3 E4 E5 _ _]. rewrite E1, E2. apply fold_rel; auto. clear st st' H.
        intros [i nb] st st' Hi H. destruct (visits_in _ _ Hgx2 Hgy2 _ _ Hi) as [Hi0 Hnb0]. unfold pen_px. rewrite same_npix. fold N.
        fold (npix g) in Hi0, Hnb0. fold N in Hi0, Hnb0.
        rewrite <- (Hr (i + s * N)%Z) by (apply in_slice; auto).
        apply fold_rel; auto. clear st st' H. intros [o w] [F G] [F' G'] Ho [H1 H2]. cbn [fst snd] in *.
        assert (agree M r r') as Hr' by exact Hr. rewrite <- (Hr' (i + s * N + o)%Z).
        2: { replace (i + s * N + o)%Z with (i + o + s * N)%Z by lia. apply in_slice; auto. exact (Hnb0 o w Ho). }
        split; cbn [fst snd]; apply agree_aset; auto; [now rewrite (H1 i Hi0)|now rewrite (H2 i Hi0)].
      Qed.
      Let P3 (s t : arr number * arr R * arr number) : Prop :=
        agree D (fst (fst s)) (fst (fst t)) /\ agree N (snd (fst s)) (snd (fst t)) /\ agree N (snd s) (snd t).
      Lemma pml_ray_rel s r r' p d st st' : (0 <= s < dy g)%Z -> (0 <= p < dt g)%Z -> (0 <= d < dx g)%Z -> agree M r r' -> P3 st st' ->
        P3 (pml_ray g data s r p d st) (pml_ray g' data' s r' p d st').
      Proof.
        intros Hs Hp Hd Hr. destruct st as [[u1 u2] u3]. destruct st' as [[v1 v2] v3]. intros [H1 [H2 H3]]. cbn [fst snd] in *. unfold pml_ray.
        rewrite same_npix, same_ind, same_rays by lia. fold N.
        assert (in_grid N (rays g s p d)) as HS by (apply rays_grid; auto).
        assert (0 <= ind_data g s p d < D)%Z as Hi by (apply ind_data_range; auto).
        pose proof (n_simdata_rel _ _ _ _ _ _ _ HS Hs Hr H1 Hi) as Hsd. split; [|split]; cbn [fst snd]; auto.
        - now apply add_dist_rel.
        - destruct (Req_EM_T _ 0); auto. rewrite (Hsd _ Hi), (Hdata _ Hi). cbn zeta. apply fold_rel; auto. intros [i w] x y Hx Hxy.
          apply agree_aset; auto. rewrite (Hxy i (HS i w Hx)), (Hr (i + s * N)%Z); auto. apply in_slice; auto. exact (HS i w Hx).
      Qed.
      Let PM (s t : arr number * arr number) : Prop := agree M (fst s) (fst t) /\ agree D (snd s) (snd t).
      Lemma pml_block_rel s a b st st' : (0 <= s < dy g)%Z -> (0 <= a)%Z -> (b <= dt g)%Z -> PM st st' ->
        PM (pml_block gam beta g data num_block ib s a b st) (pml_block gam beta g' data' num_block ib' s a b st').
      Proof.
        intros Hs Ha Hb. destruct st as [r sm]. destruct st' as [r' sm']. intros [H1 H2]. cbn [fst snd] in *. unfold pml_block.
        pose proof Hg as [E1 E2 E3 E4 E5 _ _]. rewrite E1, E2, E5, same_npix. fold N.
        match goal with |- context [for_range ?a ?b ?f (sm, ?x, ?y)] => set (X := for_range a b f (sm, x, y)) end.
        match goal with |- context [for_range ?a ?b ?f (sm', ?x, ?y)] => set (Y := for_range a b f (sm', x, y)) end. assert (P3 X Y) as K.
        { unfold X, Y. apply for_range_rel; [|split; [exact H2|split; apply agree_refl]]. clear X Y. intros q st st' Hq H. apply for_rel; auto.
          intros d u v Hd Huv. destruct (pick_same q ltac:(lia)) as [-> Hp]. now apply pml_ray_rel. }
        clearbody X Y. destruct X as [[x1 x2] x3]. destruct Y as [[y1 y2] y3]. destruct K as [K1 [K2 K3]]. cbn [fst snd] in *.
        pose proof (penalty_rel s r r' (nzero, nzero) (nzero, nzero) Hs H1 (conj (agree_refl N _) (agree_refl N _))) as KP.
        destruct (penalty gam beta g s r (nzero, nzero)) as [F G]. destruct (penalty gam beta g' s r' (nzero, nzero)) as [F' G'].
        destruct KP as [KF KG]. cbn [fst snd] in *.
        set (G1 := for_ N (fun n G => aset G n (nadd (G n) (Some (x2 n)))) G). set (G1' := for_ N (fun n G => aset G n (nadd (G n) (Some (y2 n)))) G').
        assert (agree N G1 G1') as KG1.
        { unfold G1, G1'. apply for_rel; auto. intros n u v Hn Huv. apply agree_aset; auto. now rewrite (Huv n Hn), (K2 n Hn). }
        clearbody G1 G1'. split; cbn [fst snd]; auto. apply for_rel; auto. intros n u v Hn Huv. apply for_rel; auto. clear u v Huv.
        intros m u v Hm Huv. cbn zeta. set (q := (m + n * ngridy g)%Z).
        assert (0 <= q < N)%Z as Hq. { assert ((n + 1) * ngridy g <= ngridx g * ngridy g)%Z by nia. unfold q, N, npix. nia. }
        rewrite <- (KF q Hq), <- (K3 q Hq), <- (KG1 q Hq). destruct (F q) as [f|]; [destruct (Req_EM_T f 0); auto|]; now apply agree_aset.
      Qed.
      Lemma pml_block_out r0 s a b st : (0 <= s < dy g)%Z -> untouched M r0 (fst st) -> untouched M r0 (fst (pml_block gam beta g data num_block ib s a b st)).
      Proof.
        intros Hs. destruct st as [r sm]. cbn [fst]. intros H. unfold pml_block.
        match goal with |- context [for_range ?a ?b ?f ?x] => destruct (for_range a b f x) as [[x1 x2] x3] end.
        destruct (penalty gam beta g s r (nzero, nzero)) as [F G]. cbn [fst]. apply for_keep; auto. intros n u Hn Hu. apply for_keep; auto.
        clear u Hu. intros m u Hm Hu. cbn zeta. fold N. set (q := (m + n * ngridy g)%Z).
        assert (0 <= q < N)%Z as Hq. { assert ((n + 1) * ngridy g <= ngridx g * ngridy g)%Z by nia. unfold q, N, npix. nia. }
        destruct (F q) as [f|]; [destruct (Req_EM_T f 0); auto|]; (apply untouched_aset; auto; now apply in_slice).
      Qed.
      Lemma ospml_rel n r r' : agree M r r' ->
        agree M (ospml gam beta g data num_block ib n r) (ospml gam beta g' data' num_block ib' n r').
      Proof.
        intros H. unfold ospml. rewrite same_empty. destruct (empty g); auto. apply for_rel; auto. clear r r' H. intros _ r r' _ H.
        unfold pml_iter. pose proof Hg as [E1 E2 E3 E4 E5 _ _]. rewrite E3.
        apply (for_rel PM); [|split; [exact H|apply agree_refl]].
        intros s st st' Hs Hst. unfold pml_slice.
        assert (subset_len g' = subset_len g) as EL by (unfold subset_len; now rewrite E4). rewrite EL.
        refine (subsets_rel PM (pml_block gam beta g data num_block ib s) (pml_block gam beta g' data' num_block ib' s) st st' _ Hst).
        intros a b x y Ha Hb Hxy. now apply pml_block_rel.
      Qed.
      Lemma ospml_out n r : untouched M r (ospml gam beta g data num_block ib n r).
      Proof.
        unfold ospml. destruct (empty g); [apply untouched_refl|]. apply for_keep; [|apply untouched_refl]. intros _ u _ Hu. unfold pml_iter.
        apply (for_keep (fun s : arr number * arr number => untouched M r (fst s))); auto. intros s st Hs Hst. unfold pml_slice.
        refine (subsets_rel (fun x _ : arr number * arr number => untouched M r (fst x)) (pml_block gam beta g data num_block ib s)
                  (pml_block gam beta g data num_block ib s) st st _ Hst).
        intros a b x _ _ _ Hx. now apply pml_block_out.
      Qed.
    End Ospml.
  End Subsets.

  (** ** grad, tikh and tv *)
  Lemma grid_slice iy ix : (0 <= iy < ngridy g)%Z -> (0 <= ix < ngridx g)%Z -> (0 <= iy * ngridx g + ix < N)%Z.
  Proof. intros Hy Hx. unfold N, npix. assert ((iy + 1) * ngridx g <= ngridy g * ngridx g)%Z by nia. nia. Qed.
  Lemma grid_at s iy ix : (0 <= s < dy g)%Z -> (0 <= iy < ngridy g)%Z -> (0 <= ix < ngridx g)%Z -> (0 <= s * N + (iy * ngridx g + ix) < M)%Z.
  Proof. intros Hs Hy Hx. pose proof (in_slice s _ Hs (grid_slice iy ix Hy Hx)). lia. Qed.
  (** Pointwise updates of an image. *)
  Lemma sweep_rel (f f' : Z -> Z -> arr number -> number) r r' : agree M r r' ->
    (forall s k m m', (0 <= s < dy g)%Z -> (0 <= s * N + k < M)%Z -> (0 <= k < N)%Z -> agree M m m' -> f s k m = f' s k m') ->
    agree M (for_ (dy g) (fun s => for_grid (ngridx g) (ngridy g) (ngridx g) (fun k m => aset m (s * N + k)%Z (f s k m))) r)
            (for_ (dy g) (fun s => for_grid (ngridx g) (ngridy g) (ngridx g) (fun k m => aset m (s * N + k)%Z (f' s k m))) r').
  Proof.
    intros H E. apply for_rel; auto. intros s u v Hs Huv. apply for_grid_rel; auto. clear u v Huv. intros iy ix u v Hy Hx Huv.
    apply agree_aset; auto. apply E; auto; [now apply grid_at|now apply grid_slice].
  Qed.
  Lemma sweep_out (f : Z -> Z -> arr number -> number) r0 r : untouched M r0 r ->
    untouched M r0 (for_ (dy g) (fun s => for_grid (ngridx g) (ngridy g) (ngridx g) (fun k m => aset m (s * N + k)%Z (f s k m))) r).
  Proof.
    intros H. apply for_keep; auto. intros s u Hs Hu. unfold for_grid. apply for_keep; auto. intros iy v Hy Hv. apply for_keep; auto.
    intros ix w Hx Hw. apply untouched_aset; auto. now apply grid_at.
  Qed.
  Lemma scale_same : scale_r g' = scale_r g. Proof. destruct Hg. unfold scale_r. now rewrite sg_dx0, sg_dt0. Qed.
  Lemma scale_in_rel r r' : agree M r r' -> agree M (scale_in g r) (scale_in g' r').
  Proof.
    intros H. unfold scale_in. rewrite same_npix, scale_same. pose proof Hg as [E1 E2 E3 E4 E5 _ _]. rewrite E1, E2, E3. fold N.
    apply (sweep_rel (fun s k m => ndiv (m (s * N + k)%Z) (Some (scale_r g))) (fun s k m => ndiv (m (s * N + k)%Z) (Some (scale_r g)))); auto.
    intros s k m m' Hs Hk _ Hm. now rewrite (Hm _ Hk).
  Qed.
  Lemma scale_out_rel r r' : agree M r r' -> agree M (scale_out g r) (scale_out g' r').
  Proof.
    intros H. unfold scale_out. rewrite same_npix, scale_same. pose proof Hg as [E1 E2 E3 E4 E5 _ _]. rewrite E1, E2, E3. fold N.
    apply (sweep_rel (fun s k m => nmul (m (s * N + k)%Z) (Some (scale_r g))) (fun s k m => nmul (m (s * N + k)%Z) (Some (scale_r g)))); auto.
    intros s k m m' Hs Hk _ Hm. now rewrite (Hm _ Hk).
  Qed.
  Lemma n_add_at_rel segs s k m m' : in_grid N segs -> (0 <= s < dy g)%Z -> agree M m m' -> agree M (n_add_at segs (s * N) k m) (n_add_at segs (s * N) k m').
  Proof.
    intros HS Hs Hm. unfold n_add_at. apply fold_rel; auto. intros [i w] u v Hx Huv. apply agree_aset; auto.
    rewrite (Huv (s * N + i)%Z); auto. rewrite Z.add_comm. apply in_slice; auto. exact (HS i w Hx).
  Qed.

  Section Gradient.
    Hypothesis Hcells : (dy g <= cells)%Z.
    Variables data data' : arr R.
    Hypothesis Hdata : agree D data data'.
    Variables (reg0 : R) (prior prior' : option (R * arr R)).
    Hypothesis Hprior : match prior, prior' with
      | None, None => True
      | Some (k, d), Some (k', d') => k = k' /\ agree M d d'
      | _, _ => False
      end.
    Let P2 (s t : arr number * arr number) : Prop := agree D (fst s) (fst t) /\ agree M (snd s) (snd t).
    Lemma gd_gradient_rel r r' st st' : agree M r r' -> P2 (gd_gradient g data r st) (gd_gradient g' data' r' st').
    Proof.
      intros Hr. unfold gd_gradient. rewrite same_npix. pose proof Hg as [E1 E2 E3 E4 E5 _ _]. rewrite E3, E4, E5. fold N.
      apply for_rel; [|split; apply agree_memset]. clear st st'. intros s st st' Hs H. apply for_rel; auto. clear st st' H. intros p st st' Hp H.
      apply for_rel; auto. clear st st' H. intros d [u1 u2] [v1 v2] Hd [H1 H2]. cbn [fst snd] in *. unfold gd_ray.
      rewrite same_npix, same_ind, same_rays, scale_same by lia. fold N.
      assert (in_grid N (rays g s p d)) as HS by (apply rays_grid; auto).
      assert (0 <= ind_data g s p d < D)%Z as Hi by (apply ind_data_range; auto).
      pose proof (n_simdata_rel _ _ _ _ _ _ _ HS Hs Hr H1 Hi) as Hsd. split; cbn [fst snd]; auto.
      destruct (Req_EM_T _ 0); auto. cbn zeta. rewrite (Hsd _ Hi), (Hdata _ Hi). now apply n_add_at_rel.
    Qed.
    Lemma add_prior_rel r r' d d' : agree M r r' -> agree M d d' -> agree M (add_prior g prior r d) (add_prior g' prior' r' d').
    Proof.
      intros Hr H. unfold add_prior. destruct prior as [[k a]|]; destruct prior' as [[k' a']|]; auto; try easy. destruct Hprior as [<- Ha].
      rewrite same_npix. pose proof Hg as [E1 E2 E3 E4 E5 _ _]. rewrite E1, E2, E3. fold N.
      refine (sweep_rel (fun s k0 m => nadd (m (s * N + k0)%Z) (nmul (Some (2 * k)) (nsub (r (s * N + k0)%Z) (Some (a (s * N + k0)%Z)))))
               (fun s k0 m => nadd (m (s * N + k0)%Z) (nmul (Some (2 * k)) (nsub (r' (s * N + k0)%Z) (Some (a' (s * N + k0)%Z))))) d d' H _).
      intros s j m m' Hs Hj _ Hm. now rewrite (Hm _ Hj), (Hr _ Hj), (Ha _ Hj).
    Qed.
    Lemma gd_lambda_rel i r r' q q' d d' e e' s : (0 <= s < dy g)%Z -> agree M r r' -> agree M q q' -> agree M d d' -> agree M e e' ->
      gd_lambda g reg0 i r q d e s = gd_lambda g' reg0 i r' q' d' e' s.
    Proof.
      intros Hs Hr Hq Hd He. unfold gd_lambda. destruct (rltb reg0 0); auto. destruct (i =? 0)%Z; auto. rewrite same_npix.
      pose proof Hg as [E1 E2 E3 E4 E5 _ _]. rewrite E1, E2. fold N.
      match goal with |- context [for_grid ?a ?b ?c ?f ?x] => set (X := for_grid a b c f x) end.
      match goal with |- context [for_grid ?a ?b ?c ?f ?x] => set (Y := for_grid a b c f x) end. assert (X = Y) as ->; auto. unfold X, Y.
      apply for_grid_rel; auto. intros iy ix [a b] t Hy Hx <-. cbn zeta. pose proof (grid_at s iy ix Hs Hy Hx) as Hk.
      now rewrite (Hr _ Hk), (Hq _ Hk), (Hd _ Hk), (He _ Hk).
    Qed.
    Lemma gd_update_rel l l' d d' r r' : (forall s, (0 <= s < dy g)%Z -> l s = l' s) -> agree M d d' -> agree M r r' ->
      agree M (gd_update g l d r) (gd_update g' l' d' r').
    Proof.
      intros Hl Hd Hr. unfold gd_update. rewrite same_npix. pose proof Hg as [E1 E2 E3 E4 E5 _ _]. rewrite E1, E2, E3. fold N.
      refine (sweep_rel (fun s k m => nsub (m (s * N + k)%Z) (nmul (l s) (d (s * N + k)%Z)))
               (fun s k m => nsub (m (s * N + k)%Z) (nmul (l' s) (d' (s * N + k)%Z))) r r' Hr _).
      intros s j m m' Hs Hj _ Hm. now rewrite (Hm _ Hj), (Hd _ Hj), (Hl s Hs).
    Qed.
    Let P3 (s t : gd_state) : Prop := let '(r, r0, g0, _, _) := s in let '(r', r0', g0', _, _) := t in
      agree M r r' /\ agree M r0 r0' /\ agree M g0 g0'.
    Lemma gd_iter_rel i st st' : P3 st st' -> P3 (gd_iter g data reg0 prior i st) (gd_iter g' data' reg0 prior' i st').
    Proof.
      destruct st as [[[[r r0] g0] sm] gr]. destruct st' as [[[[r' r0'] g0'] sm'] gr']. intros [H1 [H2 H3]]. unfold gd_iter.
      pose proof (gd_gradient_rel r r' (sm, gr) (sm', gr') H1) as [K1 K2].
      destruct (gd_gradient g data r (sm, gr)) as [a b]. destruct (gd_gradient g' data' r' (sm', gr')) as [a' b']. cbn [fst snd] in *.
      pose proof (add_prior_rel r r' b b' H1 K2) as K3. split; [|split]; auto. apply gd_update_rel; auto.
      intros s Hs. now apply gd_lambda_rel.
    Qed.
    Lemma gd_rel n r r' sm sm' gr gr' g0 g0' : agree M r r' ->
      agree M (gd_solve g data reg0 prior n r sm gr g0) (gd_solve g' data' reg0 prior' n r' sm' gr' g0').
    Proof.
      intros H. unfold gd_solve. rewrite same_empty. destruct (empty g); auto.
      rewrite same_npix. pose proof Hg as [E1 E2 E3 E4 E5 _ _]. rewrite E3. fold N.
      pose proof (scale_in_rel r r' H) as H0.
      match goal with |- context [for_ n ?f (?a, ?b, ?c, sm, ?d)] => set (X := for_ n f (a, b, c, sm, d)) end.
      match goal with |- context [for_ n ?f (?a, ?b, ?c, sm', ?d)] => set (Y := for_ n f (a, b, c, sm', d)) end. assert (P3 X Y) as K.
      { unfold X, Y. apply for_rel; [intros; now apply gd_iter_rel|]. split; [|split]; auto. apply agree_memset. }
      clearbody X Y. destruct X as [[[[x1 x2] x3] x4] x5]. destruct Y as [[[[y1 y2] y3] y4] y5]. destruct K as [K _]. now apply scale_out_rel.
    Qed.
    Lemma gd_out n r sm gr g0 : untouched M r (gd_solve g data reg0 prior n r sm gr g0).
    Proof.
      unfold gd_solve. destruct (empty g); [apply untouched_refl|].
      assert (untouched M r (scale_in g r)) as H0.
      { unfold scale_in. apply (sweep_out (fun s k m => ndiv (m (s * N + k)%Z) (Some (scale_r g)))). apply untouched_refl. }
      match goal with |- context [for_ n ?f ?x] => set (X := for_ n f x) end. assert (let '(a, _, _, _, _) := X in untouched M r a) as K.
      { unfold X. apply (for_keep (fun st : gd_state => let '(a, _, _, _, _) := st in untouched M r a)); [|exact H0].
        intros i [[[[a b] c] d] e] _ Ha. unfold gd_iter. destruct (gd_gradient g data a (d, e)) as [x y].
        unfold gd_update. refine (sweep_out (fun s k m => nsub (m (s * N + k)%Z) (nmul (gd_lambda g reg0 i a b _ c s) (_ (s * N + k)%Z))) r a Ha). }
      clearbody X. destruct X as [[[[x1 x2] x3] x4] x5]. unfold scale_out.
      now apply (sweep_out (fun s k m => nmul (m (s * N + k)%Z) (Some (scale_r g)))).
    Qed.
  End Gradient.

  Section Tv.
    Hypothesis Hcells : (dy g <= cells)%Z.
    Variables data data' : arr R.
    Hypothesis Hdata : agree D data data'.
    Variable lambda : R.
    Let PP (s t : arr number * arr number) : Prop := agree M (fst s) (fst t) /\ agree M (snd s) (snd t).
    Lemma tv_ascend_rel s r r' st st' : (0 <= s < dy g)%Z -> agree M r r' -> PP st st' -> PP (tv_ascend g s r st) (tv_ascend g' s r' st').
    Proof.
      intros Hs Hr H. unfold tv_ascend. rewrite same_npix. pose proof Hg as [E1 E2 E3 E4 E5 _ _]. rewrite E1, E2. fold N.
      apply for_grid_rel; auto. clear st st' H. intros iy ix [a b] [a' b'] Hy Hx [H1 H2]. cbn [fst snd] in *. cbn zeta.
      set (k := (s * N + (iy * ngridx g + ix))%Z).
      assert (0 <= k < M)%Z as Hk by (apply grid_at; lia).
      assert (0 <= k + 1 < M)%Z as Hk1. { replace (k + 1)%Z with (s * N + (iy * ngridx g + (ix + 1)))%Z by (unfold k; lia). apply grid_at; lia. }
      assert (0 <= k + ngridx g < M)%Z as Hk2. { replace (k + ngridx g)%Z with (s * N + ((iy + 1) * ngridx g + ix))%Z by (unfold k; lia). apply grid_at; lia. }
      split; cbn [fst snd]; apply agree_aset; auto.
      - now rewrite (H1 k Hk), (Hr k Hk), (Hr (k + 1)%Z Hk1).
      - now rewrite (H2 k Hk), (Hr k Hk), (Hr (k + ngridx g)%Z Hk2).
    Qed.
    Lemma tv_shrink_rel s st st' : (0 <= s < dy g)%Z -> PP st st' -> PP (tv_shrink g lambda s st) (tv_shrink g' lambda s st').
    Proof.
      intros Hs H. unfold tv_shrink. rewrite same_npix. pose proof Hg as [E1 E2 E3 E4 E5 _ _]. rewrite E1, E2. fold N.
      apply for_grid_rel; auto. clear st st' H. intros iy ix [a b] [a' b'] Hy Hx [H1 H2]. cbn [fst snd] in *. cbn zeta.
      set (k := (s * N + (iy * ngridx g + ix))%Z).
      assert (0 <= k < M)%Z as Hk by (apply grid_at; lia). rewrite (H1 k Hk), (H2 k Hk).
      split; cbn [fst snd]; apply agree_aset; auto.
    Qed.
    Let P3 (s t : arr number * arr number * arr number) : Prop :=
      agree D (fst (fst s)) (fst (fst t)) /\ agree D (snd (fst s)) (snd (fst t)) /\ agree M (snd s) (snd t).
    Lemma tv_ray_rel r r' s p d st st' : (0 <= s < dy g)%Z -> (0 <= p < dt g)%Z -> (0 <= d < dx g)%Z -> agree M r r' -> P3 st st' ->
      P3 (tv_ray g data r s p d st) (tv_ray g' data' r' s p d st').
    Proof.
      intros Hs Hp Hd Hr. destruct st as [[u1 u2] u3]. destruct st' as [[v1 v2] v3]. intros [H1 [H2 H3]]. cbn [fst snd] in *. unfold tv_ray.
      rewrite same_npix, same_ind, same_rays, scale_same by lia. fold N.
      assert (in_grid N (rays g s p d)) as HS by (apply rays_grid; auto).
      assert (0 <= ind_data g s p d < D)%Z as Hi by (apply ind_data_range; auto).
      pose proof (n_simdata_rel _ _ _ _ _ _ _ HS Hs Hr H1 Hi) as Hsd. cbn zeta. rewrite (Hsd _ Hi), (Hdata _ Hi), (H2 _ Hi).
      split; [|split]; cbn [fst snd]; auto.
      - now apply agree_aset.
      - destruct (Req_EM_T _ 0); auto. rewrite !aset_eq. now apply n_add_at_rel.
    Qed.
    Lemma tv_descend_rel s a a' x x' y y' u u' : (0 <= s < dy g)%Z -> agree M a a' -> agree M x x' -> agree M y y' -> agree M u u' ->
      agree M (tv_descend g s a x y u) (tv_descend g' s a' x' y' u').
    Proof.
      intros Hs Ha Hx Hy H. unfold tv_descend. rewrite same_npix. pose proof Hg as [E1 E2 E3 E4 E5 _ _]. rewrite E1, E2. fold N.
      apply for_rel; auto. clear u u' H. intros iy u u' Hiy H. apply for_rel; auto. clear u u' H. intros ix u u' Hix H. cbn zeta.
      set (k := (s * N + (iy * ngridx g + ix))%Z).
      assert (0 <= k < M)%Z as Hk by (apply grid_at; lia).
      rewrite !aset_eq, (H k Hk), (Ha k Hk), (Hx k Hk), (Hy k Hk).
      assert (ix <> 0%Z -> x (k - 1)%Z = x' (k - 1)%Z) as Hx1.
      { intros Hn. apply Hx. replace (k - 1)%Z with (s * N + (iy * ngridx g + (ix - 1)))%Z by (unfold k; lia). apply grid_at; lia. }
      assert (iy <> 0%Z -> y (k - ngridx g)%Z = y' (k - ngridx g)%Z) as Hy1.
      { intros Hn. apply Hy. replace (k - ngridx g)%Z with (s * N + ((iy - 1) * ngridx g + ix))%Z by (unfold k; lia). apply grid_at; lia. }
      assert (forall v v' : number, v = v' -> agree M (aset u k v) (aset u' k v')) as G by (intros; now apply agree_aset).
      destruct (ix =? 0)%Z eqn:Ex; destruct (iy =? 0)%Z eqn:Ey; rewrite ?aset_eq;
        repeat (apply agree_aset); auto; rewrite ?Hx1, ?Hy1 by (intros ->; discriminate); auto.
    Qed.
    Let P7 (s t : tv_state) : Prop := let '(r, u, x, y, p1, sm, a) := s in let '(r', u', x', y', p1', sm', a') := t in
      agree M r r' /\ agree M u u' /\ agree M x x' /\ agree M y y' /\ agree D p1 p1' /\ agree D sm sm' /\ agree M a a'.
    Lemma tv_slice_rel s st st' : (0 <= s < dy g)%Z -> P7 st st' -> P7 (tv_slice g data lambda s st) (tv_slice g' data' lambda s st').
    Proof.
      intros Hs. destruct st as [[[[[[r u] x] y] p1] sm] a]. destruct st' as [[[[[[r' u'] x'] y'] p1'] sm'] a'].
      intros [H1 [H2 [H3 [H4 [H5 [H6 H7]]]]]]. unfold tv_slice. pose proof Hg as [E1 E2 E3 E4 E5 _ _]. rewrite E4, E5.
      pose proof (tv_ascend_rel s r r' (x, y) (x', y') Hs H1 (conj H3 H4)) as K.
      destruct (tv_ascend g s r (x, y)) as [x1 y1]. destruct (tv_ascend g' s r' (x', y')) as [x1' y1'].
      pose proof (tv_shrink_rel s (x1, y1) (x1', y1') Hs K) as K'. clear K.
      destruct (tv_shrink g lambda s (x1, y1)) as [x2 y2]. destruct (tv_shrink g' lambda s (x1', y1')) as [x2' y2']. destruct K' as [Kx Ky]. cbn [fst snd] in *.
      match goal with |- context [for_ (dt g) ?f (sm, ?b, ?c)] => set (X := for_ (dt g) f (sm, b, c)) end.
      match goal with |- context [for_ (dt g) ?f (sm', ?b, ?c)] => set (Y := for_ (dt g) f (sm', b, c)) end.
      assert (P3 X Y) as K.
      { unfold X, Y. apply for_rel; [|split; [exact H6|split; [exact H5|exact H7]]]. intros p v w Hp Hvw. apply for_rel; auto.
        intros d v' w' Hd Hvw'. now apply tv_ray_rel. }
      clearbody X Y. destruct X as [[sm1 p2] a1]. destruct Y as [[sm1' p2'] a1']. destruct K as [K1 [K2 K3]]. cbn [fst snd] in *.
      pose proof (tv_descend_rel s a1 a1' x2 x2' y2 y2' u u' Hs K3 Kx Ky H2) as Kd.
      repeat split; auto. unfold tv_extrapolate. rewrite same_npix, E1, E2. fold N. apply for_grid_rel.
      - intros iy ix v w Hy Hx Hvw. apply agree_aset; auto. pose proof (grid_at s iy ix Hs Hy Hx) as Hk. now rewrite (Kd _ Hk), (Hvw _ Hk).
      - intros i Hi. unfold copy_slice. rewrite same_npix. fold N. destruct (_ && _)%bool; auto.
    Qed.
    Lemma tv_rel n r r' x x' y y' p1 p1' sm sm' a a' : agree M r r' ->
      agree M (tv g data lambda n r x y p1 sm a) (tv g' data' lambda n r' x' y' p1' sm' a').
    Proof.
      intros H. unfold tv. rewrite same_empty. destruct (empty g); auto. pose proof (scale_in_rel r r' H) as H0.
      set (Q7 := fun s t : tv_state => let '(r, u, x, y, p1, _, _) := s in let '(r', u', x', y', p1', _, _) := t in
        agree M r r' /\ agree M u u' /\ agree M x x' /\ agree M y y' /\ agree D p1 p1').
      match goal with |- context [for_ n ?f (tv_init g ?b ?c ?d ?e sm ?h)] => set (X := for_ n f (tv_init g b c d e sm h)) end.
      match goal with |- context [for_ n ?f (tv_init g' ?b ?c ?d ?e sm' ?h)] => set (Y := for_ n f (tv_init g' b c d e sm' h)) end.
      assert (Q7 X Y) as K.
      { unfold X, Y. pose proof Hg as [E1 E2 E3 E4 E5 _ _]. apply for_rel.
        - intros _ st st' _. destruct st as [[[[[[r1 u1] x1] y1] q1] sm1] a1]. destruct st' as [[[[[[r2 u2] x2] y2] q2] sm2] a2]. intros [K1 [K2 [K3 [K4 K5]]]].
          unfold tv_iter. rewrite E3, E4, E5, same_npix. fold N.
          match goal with |- Q7 ?a ?b => assert (P7 a b) as K6 end.
          { apply for_rel; [intros; now apply tv_slice_rel|]. repeat split; auto; apply agree_memset. }
          revert K6. match goal with |- P7 ?v ?w -> _ => destruct v as [[[[[[? ?] ?] ?] ?] ?] ?]; destruct w as [[[[[[? ?] ?] ?] ?] ?] ?] end. intros [? [? [? [? [? _]]]]]. repeat split; auto.
        - unfold tv_init. rewrite E3, E4, E5, same_npix. fold N. repeat split; auto; apply agree_memset. }
      clearbody X Y. destruct X as [[[[[[? ?] ?] ?] ?] ?] ?]; destruct Y as [[[[[[? ?] ?] ?] ?] ?] ?]. destruct K as [K _]. now apply scale_out_rel.
    Qed.
    Lemma tv_out n r x y p1 sm a : untouched M r (tv g data lambda n r x y p1 sm a).
    Proof.
      unfold tv. destruct (empty g); [apply untouched_refl|].
      assert (untouched M r (scale_in g r)) as H0.
      { unfold scale_in. apply (sweep_out (fun s k m => ndiv (m (s * N + k)%Z) (Some (scale_r g)))). apply untouched_refl. }
      set (Q7 := fun s : tv_state => let '(b, u, _, _, _, _, _) := s in untouched M r b /\ untouched M r u).
      match goal with |- context [for_ n ?f ?b] => set (X := for_ n f b) end.
      assert (Q7 X) as K.
      { unfold X. apply for_keep; [|split; exact H0]. clear X. intros _ [[[[[[b u] x1] y1] q1] sm1] a1] _ [K1 K2]. unfold tv_iter.
        apply for_keep; [|split; auto]. clear b u x1 y1 q1 sm1 a1 K1 K2. intros s [[[[[[b u] x1] y1] q1] sm1] a1] Hs [K1 K2]. unfold tv_slice.
        destruct (tv_ascend g s b (x1, y1)) as [x2 y2]. destruct (tv_shrink g lambda s (x2, y2)) as [x3 y3].
        match goal with |- context [for_ (dt g) ?f ?e] => destruct (for_ (dt g) f e) as [[sm2 q2] a2] end. split.
        - unfold tv_extrapolate, for_grid. apply for_keep.
          + intros iy v Hy Hv. apply for_keep; auto. intros ix w Hx Hw. apply untouched_aset; auto. now apply grid_at.
          + intros i Hi. unfold copy_slice. destruct ((s * npix g <=? i) && (i <? s * npix g + npix g))%Z eqn:E; auto.
        - unfold tv_descend. apply for_keep; auto. intros iy v Hy Hv. apply for_keep; auto. intros ix w Hx Hw. cbn zeta.
          pose proof (grid_at s iy ix Hs Hy Hx) as Hk. destruct (ix =? 0)%Z; destruct (iy =? 0)%Z; repeat (apply untouched_aset; auto). }
      clearbody X. destruct X as [[[[[[? ?] ?] ?] ?] ?] ?]. destruct K as [K _]. unfold scale_out.
      now apply (sweep_out (fun s k m => nmul (m (s * N + k)%Z) (Some (scale_r g)))).
    Qed.
  End Tv.
End Two.
