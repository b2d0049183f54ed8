(** Runs of the accelerated solvers. *)
From Coq Require Import Reals Lra Permutation.
From Verif Require Import Base CLoop Model_Prep Model_Ray Proofs_Prep Proofs_Ray Proofs_Morph Proofs_Solver Model_Accel Spec_Accel Proofs_Accel.
Local Open Scope R_scope.

(** ** Geometry *)
Lemma rot_center_half n : (0 <= n)%Z -> rot_center n = (n / 2)%Z.
Proof.
  intros Hn. unfold rot_center, trunc.
  assert (H0 : 0 <= IZR n) by (now apply IZR_le).
  assert (E : rltb (IZR n / 2 + (if Z.even n then 1 / 2 else 0)) 0 = false).
  { apply rltb_false. destruct (Z.even n); lra. }
  rewrite E. apply Int_part_spec.
  destruct (Z.even n) eqn:Ev.
  - apply Z.even_spec in Ev as (h & ->). replace (2 * h / 2)%Z with h by (rewrite Z.mul_comm, Z.div_mul; lia). rewrite mult_IZR. lra.
  - assert (Ho : Z.odd n = true) by (rewrite <- Z.negb_even; now rewrite Ev).
    apply Z.odd_spec in Ho as (h & ->). replace ((2 * h + 1) / 2)%Z with h by lia. rewrite plus_IZR, mult_IZR. lra.
Qed.

Lemma nearest_int k : nearest (IZR k) = k.
Proof. unfold nearest. apply Int_part_spec. lra. Qed.
Lemma nearest_between a b v : IZR a <= v <= IZR b -> (a <= nearest v <= b)%Z.
Proof.
  intros H. unfold nearest. destruct (base_Int_part (v + 1 / 2)) as [H1 H2].
  split; apply le_IZR.
  - destruct (Z_le_gt_dec a (Int_part (v + 1 / 2))) as [|G]; [now apply IZR_le|].
    assert (IZR (Int_part (v + 1 / 2)) <= IZR a - 1) by (rewrite <- minus_IZR; apply IZR_le; lia). lra.
  - destruct (Z_le_gt_dec (Int_part (v + 1 / 2)) b) as [|G]; [now apply IZR_le|].
    assert (IZR b + 1 <= IZR (Int_part (v + 1 / 2))) by (rewrite <- plus_IZR; apply IZR_le; lia). lra.
Qed.

Lemma turn_bound t u v r : 0 <= r -> u * u + v * v <= r * r -> Rabs (cos t * u - sin t * v) <= r /\ Rabs (sin t * u + cos t * v) <= r.
Proof.
  intros Hr H. pose proof (sin2_cos2 t) as Hsc. unfold Rsqr in Hsc.
  assert (E : (cos t * u - sin t * v) * (cos t * u - sin t * v) + (sin t * u + cos t * v) * (sin t * u + cos t * v) = u * u + v * v).
  { transitivity ((sin t * sin t + cos t * cos t) * (u * u + v * v)); [ring|]. rewrite Hsc. ring. }
  assert (Q : forall w, w * w <= r * r -> Rabs w <= r).
  { intros w Hw. apply Rabs_le. split; nra. }
  pose proof (Rle_0_sqr (cos t * u - sin t * v)). pose proof (Rle_0_sqr (sin t * u + cos t * v)). unfold Rsqr in *. split; apply Q; lra.
Qed.

Lemma fetch_in {A} nx ny (zero : A) src x y : (0 <= x < ny)%Z -> (0 <= y < nx)%Z -> fetch nx ny zero src x y = src (y * ny + x)%Z.
Proof. intros Hx Hy. unfold fetch. now replace ((0 <=? x) && (x <? ny) && (0 <=? y) && (y <? nx))%Z with true by lia. Qed.

Lemma disc_source n t k : (0 < n)%Z -> in_disc n k ->
  exists k', (0 <= k' < n * n)%Z /\ forall (A : Type) (zero : A) (src : arr A), warp_nn n n zero t src k = src k'.
Proof.
  intros Hn Hd. unfold in_disc, from_center in Hd.
  set (c := (n / 2)%Z) in *. set (r := ((n - 1) / 2)%Z) in *. set (u := (k mod n - c)%Z) in *. set (v := (k / n - c)%Z) in *.
  assert (Hr : (0 <= r /\ r <= c /\ c + r <= n - 1)%Z) by (unfold r, c; lia).
  assert (Hrr : 0 <= IZR r) by (apply IZR_le; lia).
  assert (Hd' : IZR u * IZR u + IZR v * IZR v <= IZR r * IZR r) by (rewrite <- !mult_IZR, <- plus_IZR; now apply IZR_le).
  destruct (turn_bound t (IZR u) (IZR v) (IZR r) Hrr Hd') as [B1 B2].
  assert (Hc : rot_center n = c) by (now apply rot_center_half; lia).
  assert (Hx : (c - r <= nearest (src_x n n t (k mod n) (k / n)) <= c + r)%Z).
  { apply nearest_between. unfold src_x. rewrite Hc. fold u v. rewrite minus_IZR, plus_IZR.
    pose proof (Rle_abs (cos t * IZR u - sin t * IZR v)). pose proof (Rle_abs (- (cos t * IZR u - sin t * IZR v))) as P.
    rewrite Rabs_Ropp in P. lra. }
  assert (Hy : (c - r <= nearest (src_y n n t (k mod n) (k / n)) <= c + r)%Z).
  { apply nearest_between. unfold src_y. rewrite Hc. fold u v. rewrite minus_IZR, plus_IZR.
    pose proof (Rle_abs (sin t * IZR u + cos t * IZR v)). pose proof (Rle_abs (- (sin t * IZR u + cos t * IZR v))) as P.
    rewrite Rabs_Ropp in P. lra. }
  exists (nearest (src_y n n t (k mod n) (k / n)) * n + nearest (src_x n n t (k mod n) (k / n)))%Z.
  split; [nia|]. intros A zero src. unfold warp_nn. apply fetch_in; lia.
Qed.

(** Quarter turns. *)

Lemma quarter_cs t : quarter t -> exists a b, cos t = IZR a /\ sin t = IZR b /\ (a * a + b * b = 1)%Z.
Proof.
  intros (q & ->).
  assert (G : forall m : nat, exists a b, cos (INR m * (PI / 2)) = IZR a /\ sin (INR m * (PI / 2)) = IZR b /\ (a * a + b * b = 1)%Z).
  { induction m as [|m (a & b & Ha & Hb & H1)].
    - exists 1%Z, 0%Z. cbn [INR]. rewrite Rmult_0_l, cos_0, sin_0. repeat split; lia.
    - exists (- b)%Z, a. rewrite S_INR. replace ((INR m + 1) * (PI / 2)) with (INR m * (PI / 2) + PI / 2) by ring.
      rewrite cos_plus, sin_plus, cos_PI2, sin_PI2, Ha, Hb, opp_IZR. repeat split; [ring|ring|lia]. }
  destruct (Z_le_gt_dec 0 q) as [Hq|Hq].
  - destruct (G (Z.to_nat q)) as (a & b & Ha & Hb & H1). rewrite INR_IZR_INZ, Z2Nat.id in Ha, Hb by lia. eauto.
  - destruct (G (Z.to_nat (- q))) as (a & b & Ha & Hb & H1). rewrite INR_IZR_INZ, Z2Nat.id in Ha, Hb by lia.
    exists a, (- b)%Z. rewrite opp_IZR in *. replace (IZR q * (PI / 2)) with (- (- IZR q * (PI / 2))) by ring.
    rewrite cos_neg, sin_neg, Ha, Hb. repeat split; lia.
Qed.

Lemma unit_cases a b : (a * a + b * b = 1)%Z -> ((a = 1 \/ a = -1) /\ b = 0 \/ a = 0 /\ (b = 1 \/ b = -1))%Z.
Proof. intros H. assert (-1 <= a <= 1)%Z by nia. assert (-1 <= b <= 1)%Z by nia. assert (a = -1 \/ a = 0 \/ a = 1)%Z as [->|[-> | ->]] by lia; assert (b = -1 \/ b = 0 \/ b = 1)%Z as [->|[-> | ->]] by lia; lia. Qed.

(** The source cell of a quarter turn with cosine [a] and sine [b] in a square image with an odd number of rows. *)
Definition turned (n a b k : Z) : Z :=
  ((b * (k mod n - n / 2) + a * (k / n - n / 2) + n / 2) * n + (a * (k mod n - n / 2) - b * (k / n - n / 2) + n / 2))%Z.

Lemma turned_range n a b k : (0 < n)%Z -> Z.odd n = true -> (a * a + b * b = 1)%Z -> (0 <= k < n * n)%Z ->
  (0 <= b * (k mod n - n / 2) + a * (k / n - n / 2) + n / 2 < n)%Z /\ (0 <= a * (k mod n - n / 2) - b * (k / n - n / 2) + n / 2 < n)%Z.
Proof.
  intros Hn Ho Hab Hk. apply Z.odd_spec in Ho as (h & Eh).
  assert (H2 : (n / 2 = h)%Z) by lia. rewrite H2.
  assert (Hx : (0 <= k mod n < n)%Z) by (apply Z.mod_pos_bound; lia).
  assert (Hy : (0 <= k / n < n)%Z) by (split; [apply Z.div_pos; lia|apply Z.div_lt_upper_bound; nia]).
  destruct (unit_cases a b Hab) as [([-> | ->] & ->)|(-> & [-> | ->])]; lia.
Qed.

Lemma turned_cell n a b k : (0 < n)%Z -> Z.odd n = true -> (a * a + b * b = 1)%Z -> (0 <= k < n * n)%Z ->
  (0 <= turned n a b k < n * n)%Z /\ turned n a (- b) (turned n a b k) = k.
Proof.
  intros Hn Ho Hab Hk. destruct (turned_range n a b k Hn Ho Hab Hk) as [Hr Hq].
  set (y := (b * (k mod n - n / 2) + a * (k / n - n / 2) + n / 2)%Z) in *. set (x := (a * (k mod n - n / 2) - b * (k / n - n / 2) + n / 2)%Z) in *.
  assert (E : turned n a b k = (y * n + x)%Z) by reflexivity. rewrite E. split; [clearbody x y; nia|]. unfold turned.
  assert (E1 : ((y * n + x) / n = y)%Z) by (rewrite Z.div_add_l by lia; rewrite Z.div_small by lia; ring).
  assert (E2 : ((y * n + x) mod n = x)%Z) by (rewrite Z.add_comm, Z.mod_add by lia; apply Z.mod_small; lia).
  rewrite E1, E2. unfold x, y. pose proof (Z.div_mod k n). destruct (unit_cases a b Hab) as [([-> | ->] & ->)|(-> & [-> | ->])]; lia.
Qed.

Lemma warp_turned {A} n t a b (zero : A) src k : (0 < n)%Z -> Z.odd n = true -> cos t = IZR a -> sin t = IZR b -> (a * a + b * b = 1)%Z -> (0 <= k < n * n)%Z ->
  warp_nn n n zero t src k = src (turned n a b k).
Proof.
  intros Hn Ho Ha Hb Hab Hk. unfold warp_nn, src_x, src_y. rewrite (rot_center_half n) by lia. rewrite Ha, Hb.
  rewrite <- !mult_IZR, <- minus_IZR, <- !plus_IZR, !nearest_int.
  destruct (turned_range n a b k Hn Ho Hab Hk). rewrite fetch_in by lia. reflexivity.
Qed.

Lemma turn_back {A} n t (zero : A) src k : (0 < n)%Z -> Z.odd n = true -> quarter t -> (0 <= k < n * n)%Z ->
  warp_nn n n zero t (warp_nn n n zero (- t) src) k = src k.
Proof.
  intros Hn Ho Hq Hk. destruct (quarter_cs t Hq) as (a & b & Ha & Hb & Hab).
  rewrite (warp_turned n t a b) by auto. destruct (turned_cell n a b k) as [Hr E]; auto.
  rewrite (warp_turned n (- t) a (- b)); auto; [now rewrite E|now rewrite cos_neg|now rewrite sin_neg, Hb, opp_IZR|lia].
Qed.

Lemma fmod_quarter t : quarter t -> quarter (fmod (t + PI / 2) (2 * PI)).
Proof.
  intros (q & ->). unfold fmod. set (k := trunc _). exists (q + 1 - 4 * k)%Z. rewrite minus_IZR, plus_IZR, mult_IZR. field.
Qed.
Lemma quarter_neg t : quarter t -> quarter (- t).
Proof. intros (q & ->). exists (- q)%Z. rewrite opp_IZR. ring. Qed.

(** Half a turn of an image with an even number of rows. *)
Lemma half_turn n src y : (0 < n)%Z -> Z.even n = true -> (0 <= y)%Z -> warp_nn n n 0 PI src (y * n)%Z = 0.
Proof.
  intros Hn He Hy. unfold warp_nn.
  rewrite Z.div_mul, Z.mod_mul by lia. unfold src_x. rewrite (rot_center_half n) by lia. rewrite cos_PI, sin_PI.
  unfold fetch.
  assert (E : nearest (-1 * IZR (0 - n / 2) - 0 * IZR (y - n / 2) + IZR (n / 2)) = n).
  { replace (-1 * IZR (0 - n / 2) - 0 * IZR (y - n / 2) + IZR (n / 2)) with (IZR n); [apply nearest_int|].
    rewrite minus_IZR. apply Z.even_spec in He as (h & ->). replace (2 * h / 2)%Z with h by lia. rewrite mult_IZR. ring. }
  rewrite E. now replace ((0 <=? n) && (n <? n))%Z with false by lia.
Qed.

(** ** Runs *)
Section Runs.
  Variables dy dt dx nx ny : Z.
  Variable theta : arr R.
  Variable rot_op : R -> arr R -> arr R.
  Variable change apply : R -> R -> R.
  Hypothesis Hdy : (0 <= dy)%Z.
  Hypothesis Hdt : (0 <= dt)%Z.
  Hypothesis Hdx : (0 <= dx)%Z.
  Hypothesis Hnx : (0 < nx)%Z.
  Hypothesis Hny : (0 < ny)%Z.
  Hypothesis Hle : (dx <= ny)%Z.
  Notation N := (nx * ny)%Z.
  Hypothesis Hlocal : forall t, local_op N (rot_op t).

  (** the image of a slice, the measured rays of a projection of a slice *)
  Notation slice_of := (slice_of N).
  Notation rays_of := (rays_of dt dx).
  Definition seen (j : Z) : Z :=
    if (j <? dx * nx)%Z then how_many dt (fun p => 0 <? warp_nn nx ny 0 (- theta_p theta p) (fun _ => 1) j)%Z else 0%Z.
  Definition back (data recon : arr R) (s p j : Z) : R :=
    rot_op (theta_p theta p) (corrected nx dx change (rays_of data s p) (rot_op (- theta_p theta p) (slice_of recon s))) j.

  Lemma total_ext nn f g : (forall i, (0 <= i < nn)%Z -> f i = g i) -> total_to nn f = total_to nn g.
  Proof. intros H. rewrite !total_zsum. now apply zsum_ext. Qed.

  Lemma corrected_ext meas meas' a b : same_on N a b -> (forall d, (0 <= d < dx)%Z -> meas d = meas' d) ->
    same_on N (corrected nx dx change meas a) (corrected nx dx change meas' b).
  Proof.
    intros H Hm k Hk. unfold corrected. rewrite (H k Hk). destruct (k <? dx * nx)%Z eqn:E; auto.
    assert (Hd : (0 <= k / nx < dx)%Z) by (split; [apply Z.div_pos; lia|apply Z.div_lt_upper_bound; lia]).
    rewrite (Hm _ Hd). rewrite (ray_total_ext nx a b (k / nx)); auto.
    intros i Hi. apply H. nia.
  Qed.

  Lemma slice_task_at data recon p s j : (0 <= j < N)%Z ->
    slice_task dt dx nx ny theta rot_op change data recon p s j = back data recon s p j.
  Proof.
    intros Hj. unfold slice_task, back. cbv zeta. apply Hlocal; auto. intros k Hk.
    rewrite rays_at by lia. apply corrected_ext; auto.
    apply Hlocal. intros i Hi. unfold Spec_Accel.slice_of. f_equal. ring.
  Qed.

  Lemma step_at data order recon s j : (0 <= s < dy)%Z -> (0 <= j < N)%Z -> Permutation order (zrange 0 dt) ->
    slice_of (iteration dy dt dx nx ny theta rot_op change apply data order recon) s j =
    if ((seen j =? 0) || (dx =? 0))%Z then slice_of recon s j
    else apply (slice_of recon s j) (total_to dt (fun p => back data recon s p j) / IZR (seen j) / IZR dx).
  Proof.
    intros Hs Hj Hp. unfold Spec_Accel.slice_of at 1. rewrite iteration_at by auto. cbv zeta.
    rewrite sum_dist_at by auto. fold (seen j). destruct ((seen j =? 0) || (dx =? 0))%Z; auto.
    rewrite (total_ext dt _ (fun p => back data recon s p j)); auto. intros p _. now apply slice_task_at.
  Qed.

  Lemma back_ext data data' recon recon' s s' p j : (0 <= j < N)%Z ->
    same_on N (slice_of recon s) (slice_of recon' s') -> (forall d, (0 <= d < dx)%Z -> rays_of data s p d = rays_of data' s' p d) ->
    back data recon s p j = back data' recon' s' p j.
  Proof. intros Hj Hr Hd. unfold back. apply Hlocal; auto. apply corrected_ext; auto. now apply Hlocal. Qed.

  (** Same slice, same data of the slice: same result, whatever the orders and the rest of the volume. *)
  Lemma run_slice data data' recon recon' num_iter orders orders' s s' : (0 <= num_iter)%Z -> (0 <= s < dy)%Z -> (0 <= s' < dy)%Z ->
    (forall i, Permutation (orders i) (zrange 0 dt)) -> (forall i, Permutation (orders' i) (zrange 0 dt)) ->
    same_on N (slice_of recon s) (slice_of recon' s') ->
    (forall p d, (0 <= p < dt)%Z -> (0 <= d < dx)%Z -> rays_of data s p d = rays_of data' s' p d) ->
    same_on N (slice_of (solve dy dt dx nx ny theta rot_op change apply data num_iter orders recon) s)
              (slice_of (solve dy dt dx nx ny theta rot_op change apply data' num_iter orders' recon') s').
  Proof.
    intros Hi Hs Hs' Ho Ho' Hr Hd. unfold solve.
    assert (G : forall l, same_on N (slice_of (fold_left (fun r i => iteration dy dt dx nx ny theta rot_op change apply data (orders i) r) l recon) s)
        (slice_of (fold_left (fun r i => iteration dy dt dx nx ny theta rot_op change apply data' (orders' i) r) l recon') s')).
    { intros l. revert recon recon' Hr. induction l as [|i l IH]; intros recon recon' Hr; cbn [fold_left]; auto.
      apply IH. intros j Hj. rewrite !step_at by auto. rewrite (Hr j Hj).
      destruct ((seen j =? 0) || (dx =? 0))%Z; auto. f_equal. f_equal. f_equal. apply total_ext. intros p Hp. now apply back_ext; auto. }
    apply G.
  Qed.

  Lemma run_inv (P : (Z -> R) -> Prop) data num_iter orders recon s : (0 <= num_iter)%Z -> (0 <= s < dy)%Z -> (forall i, Permutation (orders i) (zrange 0 dt)) ->
    P (slice_of recon s) ->
    (forall r order, Permutation order (zrange 0 dt) -> P (slice_of r s) -> P (slice_of (iteration dy dt dx nx ny theta rot_op change apply data order r) s)) ->
    P (slice_of (solve dy dt dx nx ny theta rot_op change apply data num_iter orders recon) s).
  Proof.
    intros Hi Hs Ho H0 Hstep. unfold solve.
    apply (for_inv (fun _ r => P (slice_of r s)) num_iter); auto.
  Qed.

  Lemma run_unseen data num_iter orders recon s j : (0 <= num_iter)%Z -> (0 <= s < dy)%Z -> (0 <= j < N)%Z -> (forall i, Permutation (orders i) (zrange 0 dt)) ->
    seen j = 0%Z -> slice_of (solve dy dt dx nx ny theta rot_op change apply data num_iter orders recon) s j = slice_of recon s j.
  Proof.
    intros Hi Hs Hj Ho H0.
    apply (run_inv (fun v => v j = slice_of recon s j)); auto.
    intros r order Hp Hr. rewrite step_at by auto. rewrite H0. cbn. exact Hr.
  Qed.

  Lemma seen_range j : (0 <= seen j <= dt)%Z.
  Proof. unfold seen. destruct (j <? dx * nx)%Z; [now apply how_many_range|lia]. Qed.

  Lemma ray_total_nonneg a d : (0 <= d < dx)%Z -> cells_ok N (Rle 0) a -> 0 <= ray_total nx a d.
  Proof. intros Hd H. unfold ray_total. rewrite total_zsum. apply zsum_nonneg. intros i Hi. apply H. nia. Qed.

  (** Positive operators, positive data *)
  Lemma corrected_nonneg meas a : change = Rdiv -> (forall d, (0 <= d < dx)%Z -> 0 <= meas d) -> cells_ok N (Rle 0) a -> cells_ok N (Rle 0) (corrected nx dx change meas a).
  Proof.
    intros -> Hm H k Hk. unfold corrected. specialize (H k Hk) as H'. destruct (k <? dx * nx)%Z eqn:E; [|lra].
    assert (Hd : (0 <= k / nx < dx)%Z) by (split; [apply Z.div_pos; lia|apply Z.div_lt_upper_bound; lia]).
    destruct (Req_EM_T _ 0); [lra|]. pose proof (ray_total_nonneg a (k / nx) Hd H). specialize (Hm _ Hd).
    assert (0 <= meas (k / nx)%Z / ray_total nx a (k / nx)); [|lra].
    apply Rmult_le_pos; auto. apply Rlt_le, Rinv_0_lt_compat. lra.
  Qed.

  Lemma run_nonneg data num_iter orders recon s : change = Rdiv -> apply = Rmult -> (forall t, positive_op N (rot_op t)) ->
    (0 <= num_iter)%Z -> (0 <= s < dy)%Z -> (forall i, Permutation (orders i) (zrange 0 dt)) ->
    (forall p d, (0 <= p < dt)%Z -> (0 <= d < dx)%Z -> 0 <= rays_of data s p d) -> cells_ok N (Rle 0) (slice_of recon s) ->
    cells_ok N (Rle 0) (slice_of (solve dy dt dx nx ny theta rot_op change apply data num_iter orders recon) s).
  Proof.
    intros Hc Ha Hpos Hi Hs Ho Hd Hr. apply (run_inv (cells_ok N (Rle 0))); auto.
    intros r order Hp IH j Hj. rewrite step_at by auto. specialize (IH j Hj) as IHj.
    destruct ((seen j =? 0) || (dx =? 0))%Z eqn:E; auto. rewrite Ha.
    pose proof (seen_range j). assert (0 < IZR (seen j)) by (apply IZR_lt; lia). assert (0 < IZR dx) by (apply IZR_lt; lia).
    apply Rmult_le_pos; auto. apply Rmult_le_pos; [|apply Rlt_le, Rinv_0_lt_compat; auto]. apply Rmult_le_pos; [|apply Rlt_le, Rinv_0_lt_compat; auto].
    rewrite total_zsum. apply zsum_nonneg. intros p Hp'. unfold back. apply Hpos; auto. apply corrected_nonneg; auto. now apply Hpos.
  Qed.

  (** Homogeneity *)
  Lemma scaled_total c a b d : (0 <= d < dx)%Z -> same_on N a (fun k => c * b k) -> ray_total nx a d = c * ray_total nx b d.
  Proof. intros Hd H. unfold ray_total. rewrite !total_zsum, <- zsum_scal. apply zsum_ext. intros i Hi. apply H. nia. Qed.

  Lemma corrected_scale c meas meas' a b : c <> 0 -> (forall x y, change (c * x) (c * y) = c * change x y) ->
    same_on N a (fun k => c * b k) -> (forall d, (0 <= d < dx)%Z -> meas d = c * meas' d) ->
    same_on N (corrected nx dx change meas a) (fun k => c * corrected nx dx change meas' b k).
  Proof.
    intros Hc Hch H Hm k Hk. unfold corrected. rewrite (H k Hk). destruct (k <? dx * nx)%Z eqn:E; [|ring].
    assert (Hd : (0 <= k / nx < dx)%Z) by (split; [apply Z.div_pos; lia|apply Z.div_lt_upper_bound; lia]).
    rewrite (scaled_total c a b _ Hd H), (Hm _ Hd).
    destruct (Req_EM_T (c * ray_total nx b (k / nx)) 0) as [E0|E0], (Req_EM_T (ray_total nx b (k / nx)) 0) as [E1|E1]; try ring.
    - exfalso. apply Rmult_integral in E0 as [|]; auto.
    - exfalso. apply E0. rewrite E1. ring.
    - rewrite Hch. ring.
  Qed.

  Lemma scaled_op c a b t : (forall t, linear_op N (rot_op t)) -> same_on N a (fun k => c * b k) -> same_on N (rot_op t a) (fun k => c * rot_op t b k).
  Proof.
    intros Hl H k Hk. rewrite (Hlocal t a (fun k => c * b k + 0 * b k)); auto; [|intros i Hi; rewrite (H i Hi); ring].
    rewrite (Hl t c 0 b b k Hk). ring.
  Qed.

  Lemma run_scale c data data' recon recon' num_iter orders s : c <> 0 -> (forall x y, change (c * x) (c * y) = c * change x y) ->
    (forall x y, apply (c * x) (c * y) = c * apply x y) -> (forall t, linear_op N (rot_op t)) ->
    (0 <= num_iter)%Z -> (0 <= s < dy)%Z -> (forall i, Permutation (orders i) (zrange 0 dt)) ->
    same_on N (slice_of recon s) (fun k => c * slice_of recon' s k) ->
    (forall p d, (0 <= p < dt)%Z -> (0 <= d < dx)%Z -> rays_of data s p d = c * rays_of data' s p d) ->
    same_on N (slice_of (solve dy dt dx nx ny theta rot_op change apply data num_iter orders recon) s)
              (fun k => c * slice_of (solve dy dt dx nx ny theta rot_op change apply data' num_iter orders recon') s k).
  Proof.
    intros Hc Hch Hap Hl Hi Hs Ho Hr Hd. unfold solve, for_.
    assert (G : forall l, same_on N (slice_of (fold_left (fun r i => iteration dy dt dx nx ny theta rot_op change apply data (orders i) r) l recon) s)
        (fun k => c * slice_of (fold_left (fun r i => iteration dy dt dx nx ny theta rot_op change apply data' (orders i) r) l recon') s k)).
    { intros l. revert recon recon' Hr. induction l as [|i l IH]; intros recon recon' Hr; cbn [fold_left]; auto.
      apply IH. intros j Hj. rewrite !step_at by auto. rewrite (Hr j Hj).
      destruct ((seen j =? 0) || (dx =? 0))%Z; auto. rewrite <- Hap. f_equal.
      assert (E : total_to dt (fun p => back data recon s p j) = c * total_to dt (fun p => back data' recon' s p j)).
      { rewrite !total_zsum, <- zsum_scal. apply zsum_ext. intros p Hp. unfold back. apply scaled_op; auto. apply corrected_scale; auto. now apply scaled_op. }
      rewrite E. unfold Rdiv. ring. }
    apply G.
  Qed.

  (** An image of zeros *)
  Lemma zero_op a t : (forall t, linear_op N (rot_op t)) -> same_on N a (fun _ => 0) -> same_on N (rot_op t a) (fun _ => 0).
  Proof.
    intros Hl H k Hk. rewrite (Hlocal t a (fun k => 0 * a k + 0 * a k)); auto; [|intros i Hi; rewrite (H i Hi); ring].
    rewrite (Hl t 0 0 a a k Hk). ring.
  Qed.
  Lemma corrected_zero meas a : same_on N a (fun _ => 0) -> same_on N (corrected nx dx change meas a) (fun _ => 0).
  Proof.
    intros H k Hk. unfold corrected. rewrite (H k Hk). destruct (k <? dx * nx)%Z eqn:E; [|ring].
    assert (Hd : (0 <= k / nx < dx)%Z) by (split; [apply Z.div_pos; lia|apply Z.div_lt_upper_bound; lia]).
    destruct (Req_EM_T _ 0) as [|E0]; [ring|]. exfalso. apply E0. unfold ray_total. rewrite total_zsum. apply zsum_zero. intros i Hi. apply H. nia.
  Qed.
  Lemma run_zero data num_iter orders recon s : (forall x, apply 0 (0 / IZR x / IZR dx) = 0) -> (forall t, linear_op N (rot_op t)) ->
    (0 <= num_iter)%Z -> (0 <= s < dy)%Z -> (forall i, Permutation (orders i) (zrange 0 dt)) ->
    same_on N (slice_of recon s) (fun _ => 0) ->
    same_on N (slice_of (solve dy dt dx nx ny theta rot_op change apply data num_iter orders recon) s) (fun _ => 0).
  Proof.
    intros Hap Hl Hi Hs Ho Hr. apply (run_inv (fun v => same_on N v (fun _ => 0))); auto.
    intros r order Hp IH j Hj. rewrite step_at by auto. rewrite (IH j Hj).
    destruct ((seen j =? 0) || (dx =? 0))%Z; auto.
    replace (total_to dt (fun p => back data r s p j)) with 0; [apply Hap|].
    symmetry. rewrite total_zsum. apply zsum_zero. intros p Hp'. unfold back. apply zero_op; auto. apply corrected_zero. now apply zero_op.
  Qed.
End Runs.
