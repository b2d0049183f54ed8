(** Penalised likelihood solvers (ospml_quad, ospml_hybrid, pml_quad, pml_hybrid), exact real arithmetic. *)
From Verif Require Import Base CLoop Model_Prep Model_Ray Model_Solver Model_Ospml Proofs_Prep Proofs_Morph Proofs_Ray Properties_Ray Proofs_Solver Proofs_Art Proofs_Subsets Proofs_Bart Proofs_Em Proofs_Unit Proofs_Ospml Properties_Solver.
From Coq Require Import Reals Lra Psatz Sorting.Permutation.
Local Open Scope R_scope.

(** ** Vocabulary *)
Inductive penalty_kind := Quadratic | Hybrid (delta : R).
Definition kind_ok (k : penalty_kind) : Prop := match k with Quadratic => True | Hybrid d => d <> 0 end.
Definition penalised (k : penalty_kind) (beta : R) := match k with Quadratic => ospml_quad beta | Hybrid d => ospml_hybrid beta d end.
Definition penalised1 (k : penalty_kind) (beta : R) := match k with Quadratic => pml_quad beta | Hybrid d => pml_hybrid beta d end.
(** Weight of the difference of two pixel values. *)
Definition slope (k : penalty_kind) (x y : R) : R :=
  match k with Quadratic => 1 | Hybrid d => 1 / (1 + Rabs ((x - y) / d)) end.
(** Pixels are numbered row by row. *)
Definition row_of (g : geom) (j : Z) : Z := (j / ngridy g)%Z.
Definition col_of (g : geom) (j : Z) : Z := (j mod ngridy g)%Z.
(** The pixels that touch pixel j, and the inverse of their distance. *)
Definition touching (g : geom) (j : Z) : list Z :=
  filter (fun k => negb (k =? j) && (Z.abs (row_of g k - row_of g j) <=? 1) && (Z.abs (col_of g k - col_of g j) <=? 1))%Z
    (zrange 0 (npix g)).
Definition inv_distance (g : geom) (j k : Z) : R :=
  / sqrt (IZR ((row_of g k - row_of g j) * (row_of g k - row_of g j) + (col_of g k - col_of g j) * (col_of g k - col_of g j))).
(** Weighted mean over the touching pixels. *)
Definition touching_mean (g : geom) (j : Z) (f : Z -> R) : R :=
  rsum (map (fun k => inv_distance g j k * f k) (touching g j)) / rsum (map (inv_distance g j) (touching g j)).
(** Negative log-likelihood surrogate of pixel j around the image x plus the penalty, as function of the
    new pixel value y. *)
Definition surrogate (k : penalty_kind) (beta : R) (g : geom) (data : arr R) (s : Z) (x : Z -> R) (j : Z) (y : R) : R :=
  total (dt g) (fun p => total (dx g) (fun d =>
    let segs := rays g s p d in
    inside_length segs j * y -
    (if Req_EM_T (total_square segs) 0 then 0
     else data (ind_data g s p d) * (x j * inside_length segs j / ray_sum segs x)) * ln y))
  + beta / 2 * touching_mean g j (fun i => slope k (x j) (x i) * ((2 * y - x j - x i) * (2 * y - x j - x i))).

(** ** Auxiliary *)
Definition gamma_of (k : penalty_kind) : number -> number -> number := match k with Quadratic => quad_gamma | Hybrid d => hybrid_gamma d end.
Lemma gamma_slope k x y : kind_ok k -> gamma_of k (Some x) (Some y) = Some (slope k x y).
Proof.
  destruct k as [|d]; cbn; auto. intros Hd. destruct (Req_EM_T d 0); [contradiction|]. cbn.
  destruct (Req_EM_T (1 + Rabs ((x - y) / d)) 0) as [E|E]; auto. pose proof (Rabs_pos ((x - y) / d)). lra.
Qed.
Lemma penalised_ospml k beta : penalised k beta = ospml (gamma_of k) beta. Proof. now destruct k. Qed.
Lemma penalised1_ospml k beta g data : penalised1 k beta g data = ospml (gamma_of k) beta g data 1 (fun q => q). Proof. now destruct k. Qed.
Lemma slope_pos k x y : 0 < slope k x y.
Proof.
  destruct k as [|d]; cbn; [lra|]. apply Rdiv_lt_0_compat; [lra|]. pose proof (Rabs_pos ((x - y) / d)). lra.
Qed.
Lemma rsum_perm l l' : Permutation l l' -> rsum l = rsum l'.
Proof. unfold rsum. induction 1; cbn; lra. Qed.
Lemma flat_row_col g a b : (2 <= ngridx g)%Z -> (2 <= ngridy g)%Z -> (0 <= a < ngridx g)%Z -> (0 <= b < ngridy g)%Z ->
  row_of g (flat g a b) = a /\ col_of g (flat g a b) = b /\ (0 <= flat g a b < npix g)%Z.
Proof.
  intros Hx Hy Ha Hb. unfold row_of, col_of, flat, npix. repeat split.
  - rewrite Z.div_add, Z.div_small; lia.
  - rewrite Z.mod_add, Z.mod_small; lia.
  - nia.
  - assert (a * ngridy g <= (ngridx g - 1) * ngridy g)%Z by (apply Z.mul_le_mono_nonneg_r; lia). lia.
Qed.
Lemma pixel_split g j : (2 <= ngridy g)%Z -> is_pixel g j ->
  (0 <= row_of g j < ngridx g)%Z /\ (0 <= col_of g j < ngridy g)%Z /\ j = flat g (row_of g j) (col_of g j).
Proof. intros Hy Hj. exact (row_col quad_gamma (fun _ _ => 1) (fun _ _ => eq_refl) 0 g Hy 0%Z (fun q => q) j Hj). Qed.
Lemma in_neighbours gx gy n m a b : In (a, b) (neighbours gx gy n m) <->
  (0 <= a < gx /\ 0 <= b < gy /\ Z.abs (a - n) <= 1 /\ Z.abs (b - m) <= 1 /\ (a <> n \/ b <> m))%Z.
Proof.
  unfold neighbours. rewrite filter_In. split.
  - intros [H1 H2]. apply in_map_iff in H1 as ([x y] & [= <- <-] & H). unfold around in H. cbn in H.
    repeat destruct H as [H|H]; try contradiction; injection H as <- <-; lia.
  - intros (H1 & H2 & H3 & H4 & H5). split; [|lia]. apply in_map_iff. exists (a - n, b - m)%Z. split; [f_equal; lia|].
    assert (Ha : (a - n = -1 \/ a - n = 0 \/ a - n = 1)%Z) by lia. assert (Hb : (b - m = -1 \/ b - m = 0 \/ b - m = 1)%Z) by lia.
    unfold around. destruct Ha as [Ha|[Ha|Ha]], Hb as [Hb|[Hb|Hb]]; rewrite Ha, Hb; cbn; try tauto. lia.
Qed.
Lemma touching_perm g j : (2 <= ngridx g)%Z -> (2 <= ngridy g)%Z -> is_pixel g j ->
  Permutation (map (fun '(a, b) => flat g a b) (neighbours (ngridx g) (ngridy g) (row_of g j) (col_of g j))) (touching g j).
Proof.
  intros Hx Hy Hj. apply NoDup_Permutation.
  - assert (N1 : NoDup (neighbours (ngridx g) (ngridy g) (row_of g j) (col_of g j))).
    { apply NoDup_filter. apply FinFun.Injective_map_NoDup.
      - intros [a b] [a' b'] E. injection E as E1 E2. f_equal; lia.
      - unfold around. repeat constructor; cbn; intros H; repeat destruct H as [H|H]; try discriminate H; auto. }
    revert N1.
    assert (G : forall a b, In (a, b) (neighbours (ngridx g) (ngridy g) (row_of g j) (col_of g j)) -> (0 <= a < ngridx g)%Z /\ (0 <= b < ngridy g)%Z).
    { intros a b H. apply in_neighbours in H. tauto. }
    revert G. generalize (neighbours (ngridx g) (ngridy g) (row_of g j) (col_of g j)).
    induction l as [|[a b] l IH]; intros G N1; cbn; [constructor|]. inversion N1 as [|? ? Hn Hl]; subst. constructor.
    + intros H. apply in_map_iff in H as ([a' b'] & E & H). apply Hn.
      destruct (G a b ltac:(now left)) as [Ga Gb]. destruct (G a' b' ltac:(now right)) as [Ga' Gb'].
      destruct (flat_row_col g a b Hx Hy Ga Gb) as (R1 & C1 & _). destruct (flat_row_col g a' b' Hx Hy Ga' Gb') as (R2 & C2 & _).
      rewrite E in R2, C2. congruence.
    + apply IH; auto. intros; apply G; now right.
  - apply NoDup_filter, NoDup_zrange.
  - intros k. unfold touching. rewrite filter_In, in_zrange, in_map_iff. split.
    + intros ([a b] & <- & H). apply in_neighbours in H as (H1 & H2 & H3 & H4 & H5).
      destruct (flat_row_col g a b Hx Hy H1 H2) as (R1 & C1 & B). split; auto. rewrite R1, C1.
      assert (flat g a b <> j). { intros E. rewrite E in R1, C1. lia. } lia.
    + intros [Hk Hc]. destruct (pixel_split g k Hy Hk) as (H1 & H2 & H3).
      exists (row_of g k, col_of g k). split; [symmetry; exact H3|]. apply in_neighbours. repeat split; try tauto; try lia.
      destruct (Z.eq_dec (row_of g k) (row_of g j)) as [E1|E1]; auto. destruct (Z.eq_dec (col_of g k) (col_of g j)) as [E2|E2]; auto.
      exfalso. assert (k = j); [|lia]. rewrite H3. destruct (pixel_split g j Hy Hj) as (_ & _ & H3'). rewrite H3'. now rewrite E1, E2.
Qed.
Lemma near_touching g j f : (2 <= ngridx g)%Z -> (2 <= ngridy g)%Z -> is_pixel g j -> near g j f = touching_mean g j f.
Proof.
  intros Hx Hy Hj. unfold near, nb_mean, touching_mean.
  pose proof (touching_perm g j Hx Hy Hj) as P.
  assert (C : forall a b, In (a, b) (neighbours (ngridx g) (ngridy g) (row_of g j) (col_of g j)) ->
    closeness (row_of g j) (col_of g j) (a, b) = inv_distance g j (flat g a b)).
  { intros a b H. apply in_neighbours in H as (H1 & H2 & _). destruct (flat_row_col g a b Hx Hy H1 H2) as (R1 & C1 & _).
    unfold closeness, inv_distance. now rewrite R1, C1. }
  f_equal; [|f_equal].
  - rewrite <- (rsum_perm _ _ (Permutation_map _ P)). rewrite map_map. unfold lsum. f_equal. apply map_ext_in.
    intros [a b] H. cbn [fst snd]. unfold at_nb. f_equal. now apply C.
  - rewrite <- (rsum_perm _ _ (Permutation_map _ P)). rewrite map_map. unfold lsum. f_equal. apply map_ext_in.
    intros [a b] H. now apply C.
Qed.
Lemma touching_some g j : (2 <= ngridx g)%Z -> (2 <= ngridy g)%Z -> is_pixel g j -> exists k, In k (touching g j).
Proof.
  intros Hx Hy Hj. destruct (pixel_split g j Hy Hj) as (H1 & H2 & _).
  set (a := if (row_of g j =? 0)%Z then 1%Z else (row_of g j - 1)%Z).
  exists (flat g a (col_of g j)). apply (Permutation_in _ (touching_perm g j Hx Hy Hj)). apply in_map_iff.
  exists (a, col_of g j). split; auto. apply in_neighbours.
  unfold a. destruct (row_of g j =? 0)%Z eqn:E; lia.
Qed.
Lemma inv_distance_pos g j k : (2 <= ngridx g)%Z -> (2 <= ngridy g)%Z -> is_pixel g j -> In k (touching g j) -> 0 < inv_distance g j k.
Proof.
  intros Hx Hy Hj Hk. unfold inv_distance. apply Rinv_0_lt_compat, sqrt_lt_R0. apply IZR_lt.
  apply (Permutation_in _ (Permutation_sym (touching_perm g j Hx Hy Hj))) in Hk. apply in_map_iff in Hk as ([a b] & <- & H).
  apply in_neighbours in H as (H1 & H2 & H3 & H4 & H5). destruct (flat_row_col g a b Hx Hy H1 H2) as (-> & -> & _). nia.
Qed.
Lemma touching_mean_pos g j f : (2 <= ngridx g)%Z -> (2 <= ngridy g)%Z -> is_pixel g j ->
  (forall k, is_pixel g k -> 0 < f k) -> 0 < touching_mean g j f.
Proof.
  intros Hx Hy Hj Hf. destruct (touching_some g j Hx Hy Hj) as [k0 Hk0].
  assert (forall h : Z -> R, (forall k, In k (touching g j) -> 0 < h k) -> 0 < rsum (map h (touching g j))) as G.
  { intros h Hh. change (0 < lsum h (touching g j)). apply lsum_pos; [intros; left; auto|]. exists k0. auto. }
  unfold touching_mean. apply Rdiv_lt_0_compat; apply G; intros k Hk; pose proof (inv_distance_pos g j k Hx Hy Hj Hk); auto.
  apply Rmult_lt_0_compat; auto. apply Hf. unfold touching in Hk. apply filter_In in Hk as [Hk _]. now apply in_zrange in Hk.
Qed.
Lemma touching_mean_const g j c : (2 <= ngridx g)%Z -> (2 <= ngridy g)%Z -> is_pixel g j -> touching_mean g j (fun _ => c) = c.
Proof.
  intros Hx Hy Hj. assert (H : 0 < touching_mean g j (fun _ => 1)) by (apply touching_mean_pos; auto; intros; lra).
  assert (E : forall l c, rsum (map (fun k => inv_distance g j k * c) l) = c * rsum (map (inv_distance g j) l)).
  { intros l c'. unfold rsum. induction l; cbn; [lra|]. rewrite IHl. lra. }
  unfold touching_mean in *. set (l := touching g j) in *.
  rewrite E in *. assert (rsum (map (inv_distance g j) l) <> 0).
  { intros E0. rewrite E0 in H. unfold Rdiv in H. rewrite Rmult_0_r, Rmult_0_l in H. lra. }
  field. auto.
Qed.
Lemma touching_mean_ext g j f h : (forall k, is_pixel g k -> f k = h k) -> touching_mean g j f = touching_mean g j h.
Proof.
  intros H. unfold touching_mean. do 2 f_equal. apply map_ext_in. intros k Hk. unfold touching in Hk. apply filter_In in Hk as [Hk _].
  apply in_zrange in Hk. now rewrite H.
Qed.
Lemma touching_mean_lin g j a b c f h e : touching_mean g j (fun k => a * f k + b * h k + c * e k)
  = a * touching_mean g j f + b * touching_mean g j h + c * touching_mean g j e.
Proof.
  unfold touching_mean, Rdiv. set (i := / _).
  assert (E : rsum (map (fun k => inv_distance g j k * (a * f k + b * h k + c * e k)) (touching g j))
    = a * rsum (map (fun k => inv_distance g j k * f k) (touching g j)) + b * rsum (map (fun k => inv_distance g j k * h k) (touching g j))
      + c * rsum (map (fun k => inv_distance g j k * e k) (touching g j))).
  { unfold rsum. induction (touching g j); cbn; [lra|]. rewrite IHl. lra. }
  rewrite E. ring.
Qed.
Definition grid_ok (g : geom) : Prop := valid g /\ (2 <= ngridx g)%Z /\ (2 <= ngridy g)%Z.

Section Aux.
  Variable k : penalty_kind.
  Variable beta : R.
  Variable g : geom.
  Variable data : arr R.
  Hypothesis Hk : kind_ok k.
  Hypothesis Hg : grid_ok g.
  Hypothesis Hb : 0 < beta.
  Let Hx : (2 <= ngridx g)%Z. Proof. apply Hg. Qed.
  Let Hy : (2 <= ngridy g)%Z. Proof. apply Hg. Qed.
  Lemma fval_pos m j : is_pixel g j -> 0 < fval (slope k) beta g m j.
  Proof.
    intros Hj. unfold fval. rewrite near_touching by auto. apply Rmult_lt_0_compat; [lra|].
    apply touching_mean_pos; auto. intros. apply slope_pos.
  Qed.
  Lemma gpen_neg m j : is_pixel g j -> pos_image g m -> gpen (slope k) beta g m j < 0.
  Proof.
    intros Hj Hm. unfold gpen. rewrite near_touching by auto.
    assert (0 < touching_mean g j (fun i => slope k (m j) (m i) * (m j + m i))).
    { apply touching_mean_pos; auto. intros i Hi. pose proof (slope_pos k (m j) (m i)). pose proof (Hm i Hi). pose proof (Hm j Hj).
      apply Rmult_lt_0_compat; lra. }
    assert (0 < 2 * beta * touching_mean g j (fun i => slope k (m j) (m i) * (m j + m i))) by (apply Rmult_lt_0_compat; lra). lra.
  Qed.
  Lemma eval_nonneg s L m j : is_pixel g j -> pos_image g m -> (forall p d, In (p, d) L -> 0 <= data (ind_data g s p d)) -> 0 <= eval g data s L m j.
  Proof.
    intros Hj Hm Hd. unfold eval. apply Rmult_le_pos; [left; now apply Hm|]. apply lsum_nonneg. intros [p d] Hin. cbv zeta.
    destruct (Req_EM_T _ 0) as [|E]; [lra|]. apply Rmult_le_pos; [|apply wtp; lia].
    unfold osem_v. apply Rmult_le_pos; [now apply Hd|]. left. apply Rinv_0_lt_compat. apply dot_pos; auto; lia.
  Qed.
  Lemma eval_pos s L m j : is_pixel g j -> pos_image g m -> (forall p d, In (p, d) L -> 0 < data (ind_data g s p d)) ->
    hits_sum g s L j <> 0 -> 0 < eval g data s L m j.
  Proof.
    intros Hj Hm Hd Hh. unfold eval. apply Rmult_lt_0_compat; [now apply Hm|]. unfold upd_sum. apply lsum_pos.
    - intros [p d] Hin. cbv zeta. destruct (Req_EM_T _ 0) as [|Ez]; [lra|]. apply Rmult_le_pos; [|apply wtp; lia].
      left. apply Rdiv_lt_0_compat; auto. apply dot_pos; auto; lia.
    - destruct (lsum_ne (fun '(p, d) => wt (rays g s p d) j) L Hh) as ([p d] & Hin & Hw).
      exists (p, d). split; auto. cbv zeta. destruct (Req_EM_T _ 0) as [Ez|Ez]; [now rewrite (wt0 g s) in Hw|].
      apply Rmult_lt_0_compat; [apply Rdiv_lt_0_compat; auto; apply dot_pos; auto; lia|].
      pose proof (wtp g ltac:(lia) ltac:(lia) s p d j). lra.
  Qed.
  (** The new value is positive and solves the quadratic equation. *)
  Lemma step_root s L m j : is_pixel g j -> pos_image g m -> (forall p d, In (p, d) L -> 0 < data (ind_data g s p d)) ->
    let x := pml_step (slope k) beta g data s L m j in
    let f := fval (slope k) beta g m j in let G := gval (slope k) beta g s L m j in let e := eval g data s L m j in
    0 < x /\ 0 < f /\ 0 <= e /\ 2 * f * (x * x) + G * x = e.
  Proof.
    intros Hj Hm Hd. cbv zeta. pose proof (fval_pos m j Hj) as Hf. pose proof (gpen_neg m j Hj Hm) as Hgp.
    assert (He : 0 <= eval g data s L m j) by (apply eval_nonneg; auto; intros; left; auto).
    unfold pml_step. destruct (Req_EM_T _ 0) as [E0|E0]; [lra|]. unfold Proofs_Ospml.disc.
    split; [|split; [auto|split; [auto|now apply root_eq]]].
    destruct (Req_EM_T (hits_sum g s L j) 0) as [Eh|Eh].
    - assert (HG : gval (slope k) beta g s L m j < 0) by (unfold gval; lra).
      apply Rdiv_lt_0_compat; [|lra]. apply Rplus_lt_le_0_compat; [lra|apply sqrt_pos].
    - apply root_pos; auto. now apply eval_pos.
  Qed.
  Lemma disc_nonneg s L m : pos_image g m -> (forall p d, In (p, d) L -> 0 < data (ind_data g s p d)) -> disc_ok (slope k) beta g data s L m.
  Proof.
    intros Hm Hd j Hj _. destruct (step_root s L m j Hj Hm Hd) as (_ & Hf & He & _). unfold Proofs_Ospml.disc.
    assert (0 <= eval g data s L m j * fval (slope k) beta g m j) by (apply Rmult_le_pos; lra).
    apply Rplus_le_le_0_compat; [apply Rle_0_sqr|]. rewrite Rmult_assoc. apply Rmult_le_pos; [lra|auto].
  Qed.
End Aux.

Lemma pml_invariant (P : Z -> (Z -> R) -> Prop) k beta g data nb ib n recon m : kind_ok k -> grid_ok g -> order_ok g nb ib ->
  (forall s m, (0 <= s < dy g)%Z -> P s m -> all_ok g data osem_ok s m) ->
  (forall s m L, (0 <= s < dy g)%Z -> in_range g L -> P s m -> disc_ok (slope k) beta g data s L m) ->
  (forall s m L, (0 <= s < dy g)%Z -> in_range g L -> P s m -> P s (pml_step (slope k) beta g data s L m)) ->
  finite g recon m -> (forall s, (0 <= s < dy g)%Z -> P s (m s)) ->
  let m' s := Nat.iter (Z.to_nat n) (pml_sweep (slope k) beta g data nb ib s) (m s) in
  finite g (penalised k beta g data nb ib n recon) m' /\ forall s, (0 <= s < dy g)%Z -> P s (m' s).
Proof.
  intros Hk ((H1 & H2 & H3 & H4 & H5) & Hx & Hy) Ho HPok HPd HPs Hr HP m'. pose proof (order_pick g nb ib Ho) as [Hp Hi]. destruct Ho as [Hnb _].
  destruct (ospml_run (gamma_of k) (slope k) (fun x y => gamma_slope k x y Hk) beta g Hx Hy data nb ib Hnb ltac:(lia) ltac:(lia) Hp Hi P HPok HPd HPs n recon m) as [A _].
  { intros s Hs. split; auto. intros j Hj. now apply Hr. }
  rewrite penalised_ospml. split; [intros s j Hs Hj; now apply (A s Hs)|intros s Hs; now apply (A s Hs)].
Qed.

(** ** C28 *)
(** Positive data and start: every value of every iterate is finite and positive. *)
Theorem C28_positive : forall k beta g data num_block ind_block num_iter recon image,
  kind_ok k -> grid_ok g -> order_ok g num_block ind_block -> 0 < beta ->
  data_all g (Rlt 0) data -> finite g recon image -> (forall s j, (0 <= s < dy g)%Z -> is_pixel g j -> 0 < image s j) ->
  exists image', finite g (penalised k beta g data num_block ind_block num_iter recon) image' /\
    forall s j, (0 <= s < dy g)%Z -> is_pixel g j -> 0 < image' s j.
Proof.
  intros k beta g data nb ib n recon m Hk Hg Ho Hb Hd Hr Hm. pose proof Hg as ((H1 & H2 & _) & _).
  destruct (pml_invariant (fun _ x => pos_image g x) k beta g data nb ib n recon m) as [A B]; auto.
  - intros s x Hs Hx p d Hp Hd' Hs2. unfold osem_ok. pose proof (dot_pos g H1 H2 s p d x Hx Hs2). lra.
  - intros s x L Hs HL Hx. apply disc_nonneg; auto. intros p d Hin. apply Hd; auto. exact (HL p d Hin).
  - intros s x L Hs HL Hx j Hj. apply step_root; auto. intros p d Hin. apply Hd; auto. exact (HL p d Hin).
  - intros s Hs j Hj. now apply Hm.
  - eexists. split; [exact A|]. intros s j Hs Hj. now apply (B s Hs).
Qed.
Lemma pml_sweep_1 gR beta g data s m : pml_sweep gR beta g data 1 (fun q => q) s m
  = pml_step gR beta g data s (pairs g 1 (fun q => q) 0 (dt g)) m.
Proof.
  unfold pml_sweep, blocks. change (zrange 0 1) with [0%Z]. cbn [map fold_left]. f_equal.
  unfold bnd. change (zrange 0 0) with (@nil Z). change (zrange 0 (0 + 1)) with [0%Z]. cbn [map fold_right].
  unfold subset_len. rewrite Z.mod_1_r, Z.div_1_r. cbn. now rewrite !Z.add_0_r.
Qed.
Lemma surrogate_eq k beta g data s x j : kind_ok k -> grid_ok g -> is_pixel g j ->
  exists c, forall y, surrogate k beta g data s x j y =
    fval (slope k) beta g x j * (y * y) + gval (slope k) beta g s (pairs g 1 (fun q => q) 0 (dt g)) x j * y
    - eval g data s (pairs g 1 (fun q => q) 0 (dt g)) x j * ln y + c.
Proof.
  intros Hk ((H1 & H2 & H3 & H4 & H5) & Hx & Hy) Hj. set (L := pairs g 1 (fun q => q) 0 (dt g)).
  exists (beta / 2 * touching_mean g j (fun i => slope k (x j) (x i) * ((x j + x i) * (x j + x i)))). intros y. unfold surrogate.
  assert (E1 : total (dt g) (fun p => total (dx g) (fun d =>
    let segs := rays g s p d in inside_length segs j * y -
    (if Req_EM_T (total_square segs) 0 then 0 else data (ind_data g s p d) * (x j * inside_length segs j / ray_sum segs x)) * ln y))
    = hits_sum g s L j * y - eval g data s L x j * ln y).
  { rewrite <- (lsum_pairs (fun '(p, d) => let segs := rays g s p d in inside_length segs j * y -
      (if Req_EM_T (total_square segs) 0 then 0 else data (ind_data g s p d) * (x j * inside_length segs j / ray_sum segs x)) * ln y) g (dt g) ltac:(lia)).
    fold L. unfold eval, hits_sum, upd_sum. generalize L. intros l. induction l as [|[p d] l IH].
    - unfold lsum, rsum. cbn. lra.
    - rewrite !lsum_cons, IH. cbv zeta. rewrite inside_length_wt.
      rewrite <- (sum_dist2_spec (rays g s p d) : _ = total_square (rays g s p d)).
      change (ray_sum (rays g s p d) x) with (dot (rays g s p d) x).
      destruct (Req_EM_T (sum_dist2 (rays g s p d)) 0); unfold osem_v, Rdiv; ring. }
  etransitivity; [exact (f_equal2 Rplus E1 eq_refl)|]. unfold gval, gpen, fval. rewrite !near_touching by auto.
  rewrite (touching_mean_ext g j (fun i => slope k (x j) (x i) * ((2 * y - x j - x i) * (2 * y - x j - x i)))
    (fun i => 4 * (y * y) * slope k (x j) (x i) + - (4 * y) * (slope k (x j) (x i) * (x j + x i)) + 1 * (slope k (x j) (x i) * ((x j + x i) * (x j + x i)))))
    by (intros; ring).
  rewrite touching_mean_lin. field.
Qed.
(** pml_quad and pml_hybrid: the next iterate is positive and minimises the penalised surrogate around
    the last one, pixel by pixel. *)
Theorem C28_minimises : forall k beta g data num_iter recon image,
  kind_ok k -> grid_ok g -> 0 < beta -> (0 <= num_iter)%Z ->
  data_all g (Rlt 0) data -> finite g recon image -> (forall s j, (0 <= s < dy g)%Z -> is_pixel g j -> 0 < image s j) ->
  exists last next, finite g (penalised1 k beta g data num_iter recon) last /\
    finite g (penalised1 k beta g data (num_iter + 1) recon) next /\
    forall s j, (0 <= s < dy g)%Z -> is_pixel g j -> 0 < next s j /\
      forall y, 0 < y -> surrogate k beta g data s (last s) j (next s j) <= surrogate k beta g data s (last s) j y.
Proof.
  intros k beta g data n recon m Hk Hg Hb Hn Hd Hr Hm. pose proof Hg as ((H1 & H2 & H3 & H4 & H5) & _).
  assert (G : forall n, finite g (penalised1 k beta g data n recon) (fun s => Nat.iter (Z.to_nat n) (pml_sweep (slope k) beta g data 1 (fun q => q) s) (m s)) /\
    forall s, (0 <= s < dy g)%Z -> pos_image g (Nat.iter (Z.to_nat n) (pml_sweep (slope k) beta g data 1 (fun q => q) s) (m s))).
  { intros n'. rewrite penalised1_ospml, <- penalised_ospml.
    apply (pml_invariant (fun _ x => pos_image g x) k beta g data 1 (fun q => q) n' recon m); auto.
    - split; [lia|now left].
    - intros s x Hs Hx p d Hp Hd' Hs2. unfold osem_ok. pose proof (dot_pos g H1 H2 s p d x Hx Hs2). lra.
    - intros s x L Hs HL Hx. apply disc_nonneg; auto. intros p d Hin. apply Hd; auto. exact (HL p d Hin).
    - intros s x L Hs HL Hx j Hj. apply step_root; auto. intros p d Hin. apply Hd; auto. exact (HL p d Hin).
    - intros s Hs j Hj. now apply Hm. }
  destruct (G n) as [A PA]. destruct (G (n + 1)%Z) as [B _]. eexists. eexists. split; [exact A|]. split; [exact B|].
  intros s j Hs Hj. cbv beta. replace (Z.to_nat (n + 1)) with (S (Z.to_nat n)) by lia. cbn [Nat.iter nat_rect].
  change (nat_rect _ ?a ?b ?c) with (Nat.iter c (pml_sweep (slope k) beta g data 1 (fun q => q) s) (m s)).
  specialize (PA s Hs). set (x := Nat.iter (Z.to_nat n) (pml_sweep (slope k) beta g data 1 (fun q => q) s) (m s)) in *.
  rewrite pml_sweep_1. set (L := pairs g 1 (fun q => q) 0 (dt g)).
  destruct (step_root k beta g data Hg Hb s L x j Hj PA) as (P1 & P2 & P3 & P4).
  { intros p d Hin. apply in_pairs in Hin as [Hd' (q & Hq & <-)]. apply Hd; auto. split; cbn; auto. }
  split; [exact P1|]. intros y Hy. destruct (surrogate_eq k beta g data s x j Hk Hg Hj) as [c Hc]. fold L in Hc. rewrite !Hc.
  pose proof (minimiser _ _ _ _ P3 P2 P1 P4 y Hy). lra.
Qed.
(** A constant positive image with the measured ray sums stays as it is, for every number of blocks. *)
Theorem C28_constant : forall k beta g data num_block ind_block num_iter recon c,
  kind_ok k -> grid_ok g -> order_ok g num_block ind_block -> 0 < beta -> 0 < c ->
  finite g recon (fun _ _ => c) -> (forall s, (0 <= s < dy g)%Z -> consistent g s s data (fun _ => c)) ->
  finite g (penalised k beta g data num_block ind_block num_iter recon) (fun _ _ => c).
Proof.
  intros k beta g data nb ib n recon c Hk Hg Ho Hb Hc Hr Hd. pose proof Hg as ((H1 & H2 & H3 & H4 & H5) & Hx & Hy).
  pose (P (s : Z) (x : Z -> R) := (0 <= s < dy g)%Z /\ forall j, is_pixel g j -> x j = c).
  assert (Hslope : slope k c c = 1).
  { destruct k; cbn; auto. unfold Rdiv. rewrite Rminus_diag_eq, Rmult_0_l, Rabs_R0 by auto. field. }
  assert (V : forall s x L j, in_range g L -> P s x -> is_pixel g j ->
    fval (slope k) beta g x j = 2 * beta /\ gval (slope k) beta g s L x j = hits_sum g s L j - 4 * beta * c /\
    eval g data s L x j = c * hits_sum g s L j).
  { intros s x L j HL [Hs HP] Hj. unfold fval, gval, gpen. rewrite !near_touching by auto.
    rewrite (touching_mean_ext g j _ (fun _ => 1)), (touching_mean_ext g j (fun i => slope k (x j) (x i) * (x j + x i)) (fun _ => 2 * c)), !touching_mean_const;
      auto; try (intros i Hi; rewrite !HP by auto; rewrite Hslope; ring).
    split; [ring|split; [ring|]]. unfold eval. rewrite HP by auto. f_equal.
    unfold hits_sum, upd_sum. apply lsum_ext. intros [p d] Hin. cbv zeta. destruct (Req_EM_T _ 0) as [Ez|Ez]; [symmetry; now apply wt0|].
    assert (Hpos : pos_image g (fun _ => c)) by (intros i Hi; auto).
    unfold osem_v. rewrite (dot_ext (npix g) _ x (fun _ => c)) by (auto; now apply rays_grid).
    rewrite <- (Hd s Hs p d (HL p d Hin)). change (ray_sum ?a ?b) with (dot a b).
    pose proof (dot_pos g H1 H2 s p d _ Hpos Ez). field. lra. }
  assert (S : forall s x L j, in_range g L -> P s x -> is_pixel g j -> 0 <= Proofs_Ospml.disc (slope k) beta g data s L x j /\ pml_step (slope k) beta g data s L x j = c).
  { intros s x L j HL HP Hj. destruct (V s x L j HL HP Hj) as (E1 & E2 & E3). unfold pml_step, Proofs_Ospml.disc. rewrite E1, E2, E3.
    pose proof (hits_nonneg g H1 H2 s L j) as Hh. set (h := hits_sum g s L j) in *.
    assert (0 < beta * c) by now apply Rmult_lt_0_compat.
    replace ((h - 4 * beta * c) * (h - 4 * beta * c) + 8 * (c * h) * (2 * beta)) with ((h + 4 * (beta * c)) * (h + 4 * (beta * c))) by ring.
    split; [apply Rle_0_sqr|]. destruct (Req_EM_T _ 0); [lra|]. rewrite sqrt_square by lra. field. lra. }
  destruct (pml_invariant P k beta g data nb ib n recon (fun _ _ => c)) as [A B]; auto.
  - intros s x _ [Hs HP] p d Hp Hd' Hs2. unfold osem_ok.
    assert (pos_image g x) as Hpos by (intros j Hj; rewrite HP by auto; auto). pose proof (dot_pos g H1 H2 s p d x Hpos Hs2). lra.
  - intros s x L Hs HL HP j Hj _. now apply (S s x L j HL HP Hj).
  - intros s x L Hs HL HP. split; auto. intros j Hj. now apply (S s x L j HL HP Hj).
  - intros s Hs. split; auto.
  - intros s j Hs Hj. rewrite (A s j Hs Hj). f_equal. now apply (B s Hs).
Qed.
(** Without penalty nothing happens: the image is returned unchanged, whatever the data. *)
Theorem C28_zero_penalty : forall k g data num_block ind_block num_iter recon image,
  kind_ok k -> grid_ok g -> order_ok g num_block ind_block ->
  finite g recon image -> (forall s j, (0 <= s < dy g)%Z -> is_pixel g j -> 0 < image s j) ->
  finite g (penalised k 0 g data num_block ind_block num_iter recon) image.
Proof.
  intros k g data nb ib n recon m Hk Hg Ho Hr Hm. pose proof Hg as ((H1 & H2 & H3 & H4 & H5) & Hx & Hy).
  pose (P (s : Z) (x : Z -> R) := (0 <= s < dy g)%Z /\ forall j, is_pixel g j -> x j = m s j).
  assert (F : forall x j, fval (slope k) 0 g x j = 0) by (intros; unfold fval; ring).
  destruct (pml_invariant P k 0 g data nb ib n recon m) as [A B]; auto.
  - intros s x _ [Hs HP] p d Hp Hd' Hs2. unfold osem_ok.
    assert (pos_image g x) as Hpos by (intros j Hj; rewrite HP by auto; auto). pose proof (dot_pos g H1 H2 s p d x Hpos Hs2). lra.
  - intros s x L Hs HL HP j Hj Hf. now rewrite F in Hf.
  - intros s x L Hs HL [Hs' HP]. split; auto. intros j Hj. unfold pml_step. rewrite F. destruct (Req_EM_T 0 0); [auto|lra].
  - intros s Hs. split; auto.
  - intros s j Hs Hj. rewrite (A s j Hs Hj). f_equal. now apply (B s Hs).
Qed.
(** ** C59 *)
(** At least two rows and columns: only the slice itself matters. *)
Lemma step_same k beta g data data' s L x x' : kind_ok k -> grid_ok g -> in_range g L ->
  (forall p d, is_ray g p d -> data (ind_data g s p d) = data' (ind_data g s p d)) ->
  (forall j, is_pixel g j -> x j = x' j) -> forall j, is_pixel g j ->
  pml_step (slope k) beta g data s L x j = pml_step (slope k) beta g data' s L x' j.
Proof.
  intros Hk ((H1 & H2 & _) & Hx & Hy) HL Hd He j Hj.
  assert (F : fval (slope k) beta g x j = fval (slope k) beta g x' j).
  { unfold fval. rewrite !near_touching by auto. f_equal. apply touching_mean_ext. intros i Hi. now rewrite !He. }
  assert (G : gval (slope k) beta g s L x j = gval (slope k) beta g s L x' j).
  { unfold gval, gpen. rewrite !near_touching by auto. do 3 f_equal. apply touching_mean_ext. intros i Hi. now rewrite !He. }
  assert (E : eval g data s L x j = eval g data' s L x' j).
  { unfold eval. rewrite (He j Hj). f_equal. unfold upd_sum. apply lsum_ext. intros [p d] Hin. cbv zeta.
    rewrite (Hd p d (HL p d Hin)), (dot_ext (npix g) _ x x') by (auto; now apply rays_grid). reflexivity. }
  unfold pml_step, Proofs_Ospml.disc. now rewrite F, G, E, He.
Qed.
Theorem C59_separate : forall k beta g data data' num_block ind_block num_iter recon recon' image image' s,
  kind_ok k -> grid_ok g -> order_ok g num_block ind_block -> 0 < beta -> (0 <= s < dy g)%Z ->
  data_all g (Rlt 0) data -> data_all g (Rlt 0) data' -> finite g recon image -> finite g recon' image' ->
  (forall s j, (0 <= s < dy g)%Z -> is_pixel g j -> 0 < image s j /\ 0 < image' s j) ->
  (forall p d, is_ray g p d -> data (ind_data g s p d) = data' (ind_data g s p d)) ->
  (forall j, is_pixel g j -> image s j = image' s j) ->
  forall j, is_pixel g j ->
    penalised k beta g data num_block ind_block num_iter recon (j + s * npix g)%Z
    = penalised k beta g data' num_block ind_block num_iter recon' (j + s * npix g)%Z.
Proof.
  intros k beta g data data' nb ib n recon recon' m m' s Hk Hg Ho Hb Hs Hd Hd' Hr Hr' Hm Hsame He.
  pose proof Hg as ((H1 & H2 & H3 & H4 & H5) & _).
  assert (G : forall data recon m, data_all g (Rlt 0) data -> finite g recon m -> (forall s j, (0 <= s < dy g)%Z -> is_pixel g j -> 0 < m s j) ->
    finite g (penalised k beta g data nb ib n recon) (fun s => Nat.iter (Z.to_nat n) (pml_sweep (slope k) beta g data nb ib s) (m s))).
  { clear - Hk Hg Ho Hb H1 H2. intros data recon m Hd Hr Hm.
    apply (pml_invariant (fun _ x => pos_image g x) k beta g data nb ib n recon m); auto.
    - intros s x Hs Hx p d Hp Hd' Hs2. unfold osem_ok. pose proof (dot_pos g H1 H2 s p d x Hx Hs2). lra.
    - intros s x L Hs HL Hx. apply disc_nonneg; auto. intros p d Hin. apply Hd; auto. exact (HL p d Hin).
    - intros s x L Hs HL Hx j Hj. apply step_root; auto. intros p d Hin. apply Hd; auto. exact (HL p d Hin).
    - intros s Hs j Hj. now apply Hm. }
  intros j Hj. rewrite (G data recon m Hd Hr (fun s j H H' => proj1 (Hm s j H H')) s j Hs Hj).
  rewrite (G data' recon' m' Hd' Hr' (fun s j H H' => proj2 (Hm s j H H')) s j Hs Hj). f_equal.
  revert j Hj. generalize (Z.to_nat n). intros q.
  assert (HB : forall L, In L (blocks g nb ib) -> in_range g L).
  { intros L HL. unfold blocks in HL. apply in_map_iff in HL as (os & <- & Hos). apply in_zrange in Hos.
    pose proof (order_pick g nb ib Ho) as [Hp Hi]. destruct Ho as [Hnb _].
    apply pairs_range; auto; try lia.
    - pose proof (bnd_mono g nb ib Hnb ltac:(lia) 0%Z os ltac:(lia)) as B. rewrite bnd_0 in B. exact B.
    - pose proof (bnd_mono g nb ib Hnb ltac:(lia) (os + 1)%Z nb ltac:(lia)) as B. rewrite (bnd_all g nb ib) in B by lia. exact B. }
  assert (SW : forall x x', (forall j, is_pixel g j -> x j = x' j) -> forall j, is_pixel g j ->
    pml_sweep (slope k) beta g data nb ib s x j = pml_sweep (slope k) beta g data' nb ib s x' j).
  { unfold pml_sweep. revert HB. generalize (blocks g nb ib). induction l as [|L l IH]; intros HB x x' Hx j Hj; cbn [fold_left]; auto.
    apply IH; auto; [intros; apply HB; now right|]. apply step_same; auto. apply HB. now left. }
  induction q as [|q IH]; intros j Hj; [now apply He|]. cbn [Nat.iter nat_rect].
  apply SW; auto.
Qed.
Print Assumptions C59_separate.
(** One row: the two corner passes visit every pixel twice and read the rows above and below, which are
    not there. Slice 0 of a two-slice volume then depends on slice 1. No ray meets the grid. *)
Definition row_geom : geom := mkGeom 1 2 2 1 1 (fun _ => 10) (fun _ => 0).
Definition row_volume (v : R) : arr number := fun i => if (i =? 2)%Z then Some v else Some 1.
Lemma row_rays s : rays row_geom s 0 0 = [].
Proof.
  unfold rays, row_geom. cbn. apply ray_none; [lia|lia|]. intros p Hs Hg. unfold seen in Hs. rewrite cos_0, sin_0 in Hs.
  destruct Hg as [(H & _)|(_ & Hw & _)]; [rewrite sin_0 in H; lra|]. unfold within, grid, margin in Hw.
  destruct (C21_detector 1 10 0) as [E|E]; rewrite E in Hs; cbn in Hw; lra.
Qed.
Definition row_visits : list (Z * list (Z * R)) :=
  [(0, weigh w_corner [1; 2] [3]); (1, weigh w_corner [-1; 2] [1]); (0, weigh w_corner [1; -2] [-1]); (1, weigh w_corner [-1; -2] [-3])]%Z.
Lemma row_FG v : let '(F, G) := penalty quad_gamma 1 row_geom 0 (row_volume v) (nzero, nzero) in
  F 0%Z = Some 4 /\ G 0%Z = Some (- (8 + 2 * (v - 1) / w_corner)) /\ F 1%Z = Some 4 /\ exists g1, G 1%Z = Some g1.
Proof.
  unfold penalty. change (visits (ngridx row_geom) (ngridy row_geom)) with row_visits. unfold row_visits, weigh.
  cbn [map app fold_left]. unfold pen_px. cbn [fold_left].
  assert (W : w_corner <> 0). { unfold w_corner. pose proof (Rdiv_lt_0_compat 1 (sqrt 2) ltac:(lra) sqrt2_pos). lra. }
  assert (W1 : 2 * (1 / w_corner) + 1 / sqrt 2 / w_corner = 1).
  { pose proof sqrt2_pos. unfold w_corner in *. field. split; [lra|]. intros E. apply W. rewrite <- (Rmult_1_r (2 + 1 / sqrt 2)). 
    replace ((2 + 1 / sqrt 2)) with ((2 * sqrt 2 + 1) / sqrt 2) by (field; lra). rewrite E. unfold Rdiv. ring. }
  change (npix row_geom) with 2%Z.
  cbv - [Rplus Rmult Rminus Ropp Rdiv Rinv IZR sqrt w_corner].
  set (p := 1 / w_corner) in *. set (q := 1 / sqrt 2 / w_corner) in *.
  repeat split; try (eexists; reflexivity); f_equal; unfold Rdiv; try (replace q with (1 - 2 * p) by lra).
  all: try ring.
  replace (/ w_corner) with p by (unfold p; unfold Rdiv; ring). ring.
Qed.
Lemma row_block v sim : let recon := fst (pml_block quad_gamma 1 row_geom (fun _ => 1) 1 (fun q => q) 0 0 1 (row_volume v, sim)) in
  0 <= v -> recon 0%Z = Some (1 + (v - 1) / (4 * w_corner)).
Proof.
  intros recon Hv. subst recon. unfold pml_block.
  change (for_range 0 1 (fun q => for_ (dx row_geom) (fun d => pml_ray row_geom (fun _ => 1) 0 (row_volume v) (pick 1 (fun i => i) q) d)) (sim, fun _ => 0, nzero))
    with (pml_ray row_geom (fun _ => 1) 0 (row_volume v) 0 0 (sim, fun _ => 0, nzero)).
  unfold pml_ray. rewrite row_rays. cbn [n_simdata add_dist fold_left].
  destruct (Req_EM_T (sum_dist2 []) 0) as [_|E]; [|exfalso; apply E; reflexivity].
  pose proof (row_FG v) as H. destruct (penalty quad_gamma 1 row_geom 0 (row_volume v) (nzero, nzero)) as [F G].
  destruct H as (F0 & G0 & F1 & g1 & G1). change (npix row_geom) with 2%Z.
  set (G' := for_ 2 _ G). assert (E0 : G' 0%Z = Some (- (8 + 2 * (v - 1) / w_corner) + 0)).
  { unfold G'. change (for_ 2 ?f G) with (f 1%Z (f 0%Z G)). cbv beta. rewrite aset_ne by lia. rewrite aset_eq, G0. reflexivity. }
  change (for_ (ngridx row_geom) ?f (row_volume v)) with (f 0%Z (row_volume v)). cbv beta.
  change (for_ (ngridy row_geom) ?f (row_volume v)) with (f 1%Z (f 0%Z (row_volume v))). cbv beta.
  change (0 + 0 * ngridy row_geom)%Z with 0%Z. change (1 + 0 * ngridy row_geom)%Z with 1%Z.
  rewrite F0, F1. destruct (Req_EM_T 4 0); [lra|]. cbn [fst]. rewrite aset_ne by lia. change (0 + 0 * 2)%Z with 0%Z. rewrite aset_eq, E0.
  unfold nzero, nroot. set (w := 2 * (v - 1) / w_corner).
  assert (W : 2 < w_corner). { unfold w_corner. pose proof (Rdiv_lt_0_compat 1 (sqrt 2) ltac:(lra) sqrt2_pos). lra. }
  assert (Hw : -1 < w). { unfold w. apply Rmult_lt_reg_r with w_corner; [lra|]. unfold Rdiv. rewrite Rmult_assoc, Rinv_l by lra. lra. }
  assert (D : (- (8 + w) + 0) * (- (8 + w) + 0) - 8 * 0 * 4 = (8 + w) * (8 + w)) by ring. rewrite D.
  unfold rltb. destruct (Rlt_dec _ 0) as [Hl|_]; [pose proof (Rle_0_sqr (8 + w)); unfold Rsqr in *; lra|].
  rewrite sqrt_square by lra. f_equal. unfold w. field. lra.
Qed.
Lemma row_other st : fst (pml_block quad_gamma 1 row_geom (fun _ => 1) 1 (fun q => q) 1 0 1 st) 0%Z = fst st 0%Z.
Proof.
  destruct st as [recon sim]. unfold pml_block. destruct (for_range 0 1 _ _) as [[sim' sd] E]. destruct (penalty _ _ _ _ _ _) as [F G].
  change (npix row_geom) with 2%Z. generalize (for_ 2 (fun n G => aset G n (nadd (G n) (Some (sd n)))) G). intros G'.
  change (for_ (ngridx row_geom) ?f recon) with (f 0%Z recon). cbv beta.
  change (for_ (ngridy row_geom) ?f recon) with (f 1%Z (f 0%Z recon)). cbv beta. cbn [fst].
  change (0 + 0 * ngridy row_geom)%Z with 0%Z. change (1 + 0 * ngridy row_geom)%Z with 1%Z.
  destruct (F 1%Z) as [f1|]; [destruct (Req_EM_T f1 0)|]; rewrite ?(aset_ne _ (1 + 1 * 2)%Z) by lia;
    (destruct (F 0%Z) as [f0|]; [destruct (Req_EM_T f0 0)|]); rewrite ?aset_ne by lia; reflexivity.
Qed.
Lemma row_result v : 0 <= v -> pml_quad 1 row_geom (fun _ => 1) 1 (row_volume v) 0%Z = Some (1 + (v - 1) / (4 * w_corner)).
Proof.
  intros Hv. change (pml_quad 1 row_geom (fun _ => 1) 1 (row_volume v)) with
    (fst (pml_block quad_gamma 1 row_geom (fun _ => 1) 1 (fun q => q) 1 0 1
            (pml_block quad_gamma 1 row_geom (fun _ => 1) 1 (fun q => q) 0 0 1 (row_volume v, nzero)))).
  rewrite row_other. now apply row_block.
Qed.
(** An image of one row: the result of slice 0 changes with the content of slice 1 only. *)
Theorem C59_single_row_refuted : exists g data recon recon',
  valid g /\ ngridx g = 1%Z /\ ngridy g = 2%Z /\
  (forall i, (i < npix g)%Z -> recon i = recon' i) /\ (forall i, exists x, 0 < x /\ recon i = Some x) /\
  pml_quad 1 g data 1 recon 0%Z <> pml_quad 1 g data 1 recon' 0%Z.
Proof.
  exists row_geom, (fun _ => 1), (row_volume 1), (row_volume 2). split; [unfold valid; cbn; lia|]. do 2 (split; [reflexivity|]).
  split; [|split].
  - intros i Hi. change (npix row_geom) with 2%Z in Hi. unfold row_volume. destruct (i =? 2)%Z eqn:E; auto. lia.
  - intros i. exists 1. unfold row_volume. split; [lra|]. now destruct (i =? 2)%Z.
  - rewrite !row_result by lra. intros E.
    assert (W : 2 < w_corner). { unfold w_corner. pose proof (Rdiv_lt_0_compat 1 (sqrt 2) ltac:(lra) sqrt2_pos). lra. }
    assert (0 < (2 - 1) / (4 * w_corner)) by (apply Rdiv_lt_0_compat; lra).
    assert (E' : 1 + (1 - 1) / (4 * w_corner) = 1 + (2 - 1) / (4 * w_corner)) by congruence.
    unfold Rdiv in *. replace ((1 - 1) * / (4 * w_corner)) with 0 in E' by ring. lra.
Qed.

(** The hypotheses are met: 2 x 2 pixels, all values one. *)
Definition square_geom : geom := mkGeom 2 2 1 1 1 (fun _ => 10) (fun _ => 0).
Example C28_ex : kind_ok Quadratic /\ kind_ok (Hybrid 2) /\ grid_ok square_geom /\ order_ok square_geom 1 (fun q => q) /\
  data_all square_geom (Rlt 0) (fun _ => 1) /\ finite square_geom (fun _ => Some 1) (fun _ _ => 1).
Proof. unfold kind_ok, grid_ok, valid, order_ok, data_all, finite. cbn. repeat split; auto; try lia; try lra; intros; lra. Qed.
(** Pixel 0 of a 3 x 3 image touches 1, 3 and 4; the centre touches all others. *)
Example C28_touching_ex : touching (mkGeom 3 3 1 1 1 (fun _ => 0) (fun _ => 0)) 0 = [1; 3; 4]%Z /\
  touching (mkGeom 3 3 1 1 1 (fun _ => 0) (fun _ => 0)) 4 = [0; 1; 2; 3; 5; 6; 7; 8]%Z.
Proof. split; reflexivity. Qed.

Print Assumptions C28_positive.
Print Assumptions C28_minimises.
Print Assumptions C28_constant.
Print Assumptions C28_zero_penalty.
Print Assumptions C59_single_row_refuted.
