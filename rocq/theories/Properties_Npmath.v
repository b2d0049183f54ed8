(** C117-C119: the correction of detector drift, misc/npmath.py and the enhancement of projections. *)
From Verif Require Import Base Order Model_Prep Model_Solver Model_Align Model_Npmath Spec_Npmath Proofs_Prep Proofs_Align Proofs_Ray Proofs_Npmath.
From Coq Require Import Reals Lra Psatz Sorted.
Local Open Scope R_scope.

(** ** C117 *)
(** There is always a least solution. *)
Theorem C117_exists src tgt : exists m, lstsq src tgt m.
Proof. apply lstsq_exists. Qed.
(** Marks that were moved by an affine map give this map. *)
Theorem C117_affine src a b m : spanning src -> lstsq src (map (moved a b) src) m -> m = mkM a b (0, 0, 1).
Proof.
  intros S L. apply lstsq_rows in L. destruct L as (A & B & C). assert (E : length src = length (map (moved a b) src)) by now rewrite map_length.
  destruct m as [x y z]. cbn [m_x m_y m_1] in *. f_equal.
  - apply (exact_row fst src (map (moved a b) src)); auto. intros p q H. apply combine_map_in in H. now subst q.
  - apply (exact_row snd src (map (moved a b) src)); auto. intros p q H. apply combine_map_in in H. now subst q.
  - apply (exact_row (fun _ => 1) src (map (moved a b) src)); auto. intros p q _. cbn. ring.
Qed.
(** The last row is that of an affine map. *)
Theorem C117_last_row src tgt m : spanning src -> length src = length tgt -> lstsq src tgt m -> m_1 m = (0, 0, 1).
Proof. intros S E L. apply lstsq_rows in L. apply (exact_row (fun _ => 1) src tgt); auto; [apply L|]. intros p q _. cbn. ring. Qed.
(** The errors cancel, alone and weighted with any affine function of the place; in particular the centre of the marks goes
    to the centre of the targets. *)
Theorem C117_errors src tgt m u : lstsq src tgt m ->
  sum (map (fun '(p, q) => (apply3 (m_x m) p - fst q) * apply3 u p) (combine src tgt)) = 0 /\
  sum (map (fun '(p, q) => (apply3 (m_y m) p - snd q) * apply3 u p) (combine src tgt)) = 0.
Proof. intros L. apply lstsq_rows in L. split; [apply (normal fst)|apply (normal snd)]; apply L. Qed.
(** At most one matrix fits best. *)
Theorem C117_unique src tgt m m' : spanning src -> length src = length tgt -> lstsq src tgt m -> lstsq src tgt m' -> m = m'.
Proof.
  intros S E L L'. pose proof (lstsq_rows _ _ _ L) as (A & B & C). pose proof (lstsq_rows _ _ _ L') as (A' & B' & C').
  assert (U : forall f a b, (forall c, err_row f src tgt a <= err_row f src tgt c) -> (forall c, err_row f src tgt b <= err_row f src tgt c) -> a = b).
  { intros f [[a1 a2] a3] [[b1 b2] b3] Ha Hb. pose proof (err_shift f src tgt a1 a2 a3 (b1 - a1) (b2 - a2) (b3 - a3) 1) as Q.
    replace (a1 + 1 * (b1 - a1)) with b1 in Q by ring. replace (a2 + 1 * (b2 - a2)) with b2 in Q by ring. replace (a3 + 1 * (b3 - a3)) with b3 in Q by ring.
    rewrite (normal f src tgt (a1, a2, a3) (b1 - a1, b2 - a2, b3 - a3) Ha) in Q. specialize (Hb (a1, a2, a3)).
    assert (Z : forall p, In p src -> apply3 (b1 - a1, b2 - a2, b3 - a3) p = apply3 (0, 0, 0) p).
    { assert (N : sum (map (fun '(p, q) => sq (apply3 (b1 - a1, b2 - a2, b3 - a3) p)) (combine src tgt)) <= 0) by lra.
      intros p Hp. destruct (in_combine_some src tgt p E Hp) as (q & Hq). replace (apply3 (0, 0, 0) p) with 0 by (cbn; ring).
      clear - N Hq. revert N. unfold sum. induction (combine src tgt) as [|[p' q'] l IH]; [destruct Hq|]. cbn [map fold_right]. intros N.
      assert (0 <= fold_right Rplus 0 (map (fun '(p, q) => sq (apply3 (b1 - a1, b2 - a2, b3 - a3) p)) l)).
      { clear. induction l as [|[p q] l IH]; cbn [map fold_right]; [lra|]. pose proof (sq_nonneg (apply3 (b1 - a1, b2 - a2, b3 - a3) p)). lra. }
      pose proof (sq_nonneg (apply3 (b1 - a1, b2 - a2, b3 - a3) p')). destruct Hq as [Hq|Hq]; [injection Hq as <- <-; apply sq_0; lra|]. apply IH; auto. lra. }
    apply (row_unique _ _ src S) in Z. injection Z as Z1 Z2 Z3. f_equal; [f_equal|]; lra. }
  destruct m as [x y z], m' as [x' y' z']. cbn [m_x m_y m_1] in *. f_equal; eapply U; eauto.
Qed.

(** The corners of all images are those of the reference moved by whole pixels: what the correction does. *)
Theorem C117_shift interp cnrs ref dx dy im out : (forall i r c, interp i (IZR r) (IZR c) = i r c) -> spanning cnrs ->
  cnrs = map (shifted (IZR dx, IZR dy)) ref -> corrected interp cnrs ref im out -> forall r c, out r c = im (r - dx)%Z (c - dy)%Z.
Proof.
  intros I S Ec (m & L & E) r c. rewrite E. unfold affine_transform.
  assert (R : ref = map (moved (1, 0, - IZR dx) (0, 1, - IZR dy)) cnrs).
  { subst cnrs. rewrite map_map. rewrite <- (map_id ref) at 1. apply map_ext. intros [x y]. unfold moved, shifted. cbn. f_equal; ring. }
  rewrite R in L. apply C117_affine in L; auto. subst m. cbn [m_x m_y apply3 fst snd]. rewrite <- I. rewrite !minus_IZR. f_equal; ring.
Qed.
(** The scene [scene] with the corners [ref] is seen moved by dx columns and dy rows: the result is moved by dx + dy in
    both directions. *)
Theorem C117_scene interp cnrs ref dx dy scene im out : (forall i r c, interp i (IZR r) (IZR c) = i r c) -> spanning cnrs ->
  cnrs = map (shifted (IZR dx, IZR dy)) ref -> (forall r c, im r c = scene (r - dy)%Z (c - dx)%Z) -> corrected interp cnrs ref im out ->
  forall r c, out r c = scene (r - (dx + dy))%Z (c - (dx + dy))%Z.
Proof. intros I S Ec M C r c. rewrite (C117_shift _ _ _ _ _ _ _ I S Ec C), M. f_equal; lia. Qed.
(** So drift is not removed. *)
Definition corners4 : list point := [(0, 0); (0, 1); (1, 1); (1, 0)].
Lemma corners4_span d : spanning (map (shifted d) corners4).
Proof. exists (shifted d (0, 0)), (shifted d (0, 1)), (shifted d (1, 0)). cbn. repeat split; auto. intros H. lra. Qed.
Theorem C117_drift_refuted interp : (forall i r c, interp i (IZR r) (IZR c) = i r c) -> exists (scene im : img),
  (forall r c, im r c = scene r (c - 1)%Z) /\
  (exists out, corrected interp (map (shifted (1, 0)) corners4) corners4 im out) /\
  forall out, corrected interp (map (shifted (1, 0)) corners4) corners4 im out -> out 0%Z 0%Z <> scene 0%Z 0%Z.
Proof.
  intros I. set (scene := fun r c => if ((r =? 0) && (c =? 0))%Z then 1 else 0). exists scene, (fun r c => scene r (c - 1)%Z). split; [reflexivity|]. split.
  - destruct (lstsq_exists (map (shifted (1, 0)) corners4) corners4) as (m & L). exists (affine_transform interp m (fun r c => scene r (c - 1)%Z)). exists m. split; auto.
  - intros out C. rewrite (C117_scene interp (map (shifted (1, 0)) corners4) corners4 1 0 scene (fun r c => scene r (c - 1)%Z) out I (corners4_span _) eq_refl) ; auto.
    + unfold scene. cbn. lra.
    + intros r c. now rewrite Z.sub_0_r.
Qed.

(** ** C118 *)
Lemma square_pos x : x <> 0 -> 0 < x ^ 2.
Proof. intros H. simpl. destruct (Rtotal_order x 0) as [L|[L|L]]; [nra|lra|nra]. Qed.
Theorem C118_peak A mu sigma x : gauss1d A mu sigma mu = A /\ Rabs (gauss1d A mu sigma x) <= Rabs A.
Proof.
  unfold gauss1d. split.
  - replace (- (mu - mu) ^ 2 / (2 * sigma ^ 2)) with 0 by (unfold Rdiv; ring). rewrite exp_0. ring.
  - rewrite Rabs_mult. rewrite <- (Rmult_1_r (Rabs A)) at 2. apply Rmult_le_compat_l; [apply Rabs_pos|].
    rewrite Rabs_right by (left; apply exp_pos). rewrite <- exp_0.
    destruct (Req_dec sigma 0) as [->|N].
    + replace (2 * 0 ^ 2) with 0 by ring. unfold Rdiv. rewrite Rinv_0, Rmult_0_r. lra.
    + assert (Q : - (x - mu) ^ 2 / (2 * sigma ^ 2) <= 0).
      { unfold Rdiv. pose proof (square_pos sigma N). assert (0 < / (2 * sigma ^ 2)) by (apply Rinv_0_lt_compat; lra).
        pose proof (pow2_ge_0 (x - mu)). nra. }
      destruct Q as [Q|Q]; [left; now apply exp_increasing|rewrite Q; lra].
Qed.
(** Places at the same distance from the peak have the same value, places farther away smaller ones. *)
Theorem C118_falls A mu sigma x y : sigma <> 0 -> Rabs (x - mu) < Rabs (y - mu) -> A <> 0 -> Rabs (gauss1d A mu sigma y) < Rabs (gauss1d A mu sigma x).
Proof.
  intros N H NA. unfold gauss1d. rewrite !Rabs_mult. apply Rmult_lt_compat_l; [now apply Rabs_pos_lt|].
  rewrite !Rabs_right by (left; apply exp_pos). apply exp_increasing.
  pose proof (square_pos sigma N). assert (I : 0 < / (2 * sigma ^ 2)) by (apply Rinv_0_lt_compat; lra).
  assert (Q : (x - mu) ^ 2 < (y - mu) ^ 2).
  { rewrite <- (pow2_abs (x - mu)), <- (pow2_abs (y - mu)). pose proof (Rabs_pos (x - mu)). simpl. nra. }
  unfold Rdiv. nra.
Qed.
Theorem C118_symmetric A mu sigma d : gauss1d A mu sigma (mu + d) = gauss1d A mu sigma (mu - d) /\ gauss1d A mu (- sigma) (mu + d) = gauss1d A mu sigma (mu + d).
Proof. unfold gauss1d. split; [replace ((mu + d - mu) ^ 2) with ((mu - d - mu) ^ 2) by ring|replace ((- sigma) ^ 2) with (sigma ^ 2) by ring]; reflexivity. Qed.

(** discrete_cdf: the points are those of the sorted data, each twice, with the heights i / (n - 1) and (i + 1) / (n - 1). *)
Definition stairs (x : list R) (y : list number) (n : nat) (point : nat -> R -> Prop) : Prop :=
  length x = (2 * n)%nat /\ length y = (2 * n)%nat /\ forall i, (i < n)%nat -> exists v, point i v /\
    nth_error x (2 * i) = Some v /\ nth_error x (2 * i + 1) = Some v /\
    nth_error y (2 * i) = Some (Some (INR i / INR (n - 1))) /\ nth_error y (2 * i + 1) = Some (Some (INR (i + 1) / INR (n - 1))).
Lemma stairs_of (x : list R) (point : nat -> R -> Prop) : (2 <= length x)%nat -> (forall i v, nth_error x i = Some v -> point i v) ->
  stairs (twice x) (flat_map (fun y => [ndiv (Some (IZR y)) (Some (IZR (Z.of_nat (length x) - 1))); ndiv (Some (IZR (y + 1))) (Some (IZR (Z.of_nat (length x) - 1)))])
    (zrange 0 (Z.of_nat (length x)))) (length x) point.
Proof.
  intros N P. split; [apply twice_length|]. split; [rewrite pairs_length, zrange_length; lia|]. intros i Hi.
  destruct (nth_error x i) as [v|] eqn:E; [|apply nth_error_None in E; lia]. exists v. split; [auto|].
  destruct (twice_nth x i) as (-> & ->). split; [exact E|]. split; [exact E|].
  destruct (pairs_nth (fun y => ndiv (Some (IZR y)) (Some (IZR (Z.of_nat (length x) - 1)))) (fun y => ndiv (Some (IZR (y + 1))) (Some (IZR (Z.of_nat (length x) - 1))))
    (zrange 0 (Z.of_nat (length x))) i) as (-> & ->).
  assert (nth_error (zrange 0 (Z.of_nat (length x))) i = Some (Z.of_nat i)) as ->.
  { unfold zrange. rewrite nth_error_map. rewrite (nth_error_nth' _ 0%nat) by (rewrite seq_length; lia). rewrite seq_nth by lia. cbn. f_equal. }
  cbn [option_map ndiv]. destruct (Req_EM_T (IZR (Z.of_nat (length x) - 1)) 0) as [Z|_]; [exfalso; apply eq_IZR in Z; lia|].
  rewrite !INR_IZR_INZ, !Nat2Z.inj_add, Nat2Z.inj_sub by lia. auto.
Qed.
Lemma cdf_form sort data steps x : (1 <= length (sort data))%nat -> thin steps (sort data) = Ok x -> (1 <= length x)%nat ->
  discrete_cdf sort data steps = Ok (twice x, flat_map (fun y => [ndiv (Some (IZR y)) (Some (IZR (Z.of_nat (length x) - 1)));
    ndiv (Some (IZR (y + 1))) (Some (IZR (Z.of_nat (length x) - 1)))]) (zrange 0 (Z.of_nat (length x)))).
Proof.
  intros L T Lx. unfold discrete_cdf. rewrite T. destruct (sort data) as [|v l]; [cbn in L; lia|]. cbn [Ok]. destruct x as [|w lx]; [cbn in Lx; lia|]. reflexivity.
Qed.
Theorem C118_cdf sort data steps : sorts_numbers sort -> (2 <= length data)%nat -> (forall s, steps = Some s -> (Z.of_nat (length data) <= s)%Z) ->
  exists x y, discrete_cdf sort data steps = Ok (x, y) /\ stairs x y (length data) (fun i v => (below data v <= i < up_to data v)%nat).
Proof.
  intros So N Hs. destruct (So data) as (P & S).
  assert (El : length (sort data) = length data) by now apply Permutation_length.
  assert (T : thin steps (sort data) = Ok (sort data)).
  { unfold thin. destruct steps as [s|]; auto. specialize (Hs s eq_refl). rewrite El. destruct (Z.ltb_spec s (Z.of_nat (length data))); [lia|auto]. }
  do 2 eexists. split; [eapply cdf_form; [|exact T|]; lia|].
  rewrite <- El. apply stairs_of; [lia|]. intros i v Hv. rewrite <- (below_perm _ _ v P), <- (up_to_perm _ _ v P). now apply sorted_rank.
Qed.
(** The last height is n / (n - 1), not 1. *)
Theorem C118_one_refuted sort data : sorts_numbers sort -> (2 <= length data)%nat -> exists x y, discrete_cdf sort data None = Ok (x, y) /\
  exists h, nth_error y (2 * length data - 1) = Some (Some h) /\ 1 < h.
Proof.
  intros So N. destruct (C118_cdf sort data None So N) as (x & y & E & _ & _ & H); [discriminate|]. exists x, y. split; auto.
  destruct (H (length data - 1)%nat) as (v & _ & _ & _ & _ & L); [lia|]. eexists. split.
  - rewrite <- L. f_equal. lia.
  - replace (length data - 1 + 1)%nat with (length data) by lia. assert (0 < INR (length data - 1)) by (apply lt_0_INR; lia).
    apply (Rmult_lt_reg_r (INR (length data - 1))); auto. unfold Rdiv. rewrite Rmult_assoc, Rinv_l, Rmult_1_r, Rmult_1_l by lra. apply lt_INR. lia.
Qed.
(** No data, one number *)
Theorem C118_few sort steps v : sorts_numbers sort -> discrete_cdf sort [] steps = Ok ([], []) /\ discrete_cdf sort [v] None = Ok ([v; v], [None; None]).
Proof.
  intros So. unfold discrete_cdf. destruct (So []) as (P & _). apply Permutation_sym, Permutation_nil in P. rewrite P. split; [reflexivity|].
  destruct (So [v]) as (Q & _). apply Permutation_sym, Permutation_length_1_inv in Q. rewrite Q. cbn. destruct (Req_EM_T 0 0); [reflexivity|lra].
Qed.
(** Fewer steps than data: every k-th number, at most as many as asked for. *)
Lemma ceil_div a b : (0 < b)%Z -> ceil (IZR a / IZR b) = cdiv a b.
Proof.
  intros H. pose proof (ceil_spec (IZR a / IZR b)) as (L & U). assert (0 < IZR b) by now apply IZR_lt.
  set (k := ceil (IZR a / IZR b)) in *.
  assert (IZR a <= IZR k * IZR b) as A1. { apply (Rmult_le_compat_r (IZR b)) in U; [|lra]. unfold Rdiv in U. rewrite Rmult_assoc, Rinv_l in U; lra. }
  assert ((IZR k - 1) * IZR b < IZR a) as A2. { apply (Rmult_lt_compat_r (IZR b)) in L; [|lra]. unfold Rdiv in L. rewrite Rmult_assoc, Rinv_l in L; lra. }
  rewrite <- mult_IZR in A1. apply le_IZR in A1. rewrite <- minus_IZR, <- mult_IZR in A2. apply lt_IZR in A2. unfold cdiv. nia.
Qed.
Lemma nth_seq n : forall a i j, nth_error (seq a n) i = Some j -> j = (a + i)%nat /\ (i < n)%nat.
Proof.
  induction n as [|n IH]; intros a i j H; [destruct i; discriminate H|]. destruct i as [|i]; cbn in H; [injection H as <-; lia|]. apply IH in H. lia.
Qed.
Lemma every_nth k x i v : (0 < k)%Z -> nth_error (every k x) i = Some v -> nth_error x (i * Z.to_nat k) = Some v.
Proof.
  intros Hk. unfold every. rewrite nth_error_map. unfold pyrange. rewrite (proj2 (Z.ltb_lt 0 k) Hk). rewrite nth_error_map.
  destruct (nth_error (seq 0 _) i) as [j|] eqn:E; [|discriminate]. cbn [option_map]. intros H. injection H as <-.
  apply nth_seq in E. destruct E as (-> & Hi). cbn [Nat.add].
  assert (Z.of_nat i * k < Z.of_nat (length x))%Z by (assert (Z.of_nat i < (Z.of_nat (length x) - 0 + k - 1) / k)%Z by lia; nia).
  cbn [Z.add]. replace (Z.to_nat (Z.of_nat i * k)) with (i * Z.to_nat k)%nat by nia. apply nth_error_nth'. nia.
Qed.
Lemma every_length k x : (0 < k)%Z -> Z.of_nat (length (every k x)) = cdiv (Z.of_nat (length x)) k.
Proof.
  intros Hk. unfold every. rewrite map_length. unfold pyrange. rewrite (proj2 (Z.ltb_lt 0 k) Hk). rewrite map_length, seq_length. unfold cdiv.
  rewrite Z2Nat.id by nia. nia.
Qed.
Theorem C118_thinned sort data s : sorts_numbers sort -> (2 <= s < Z.of_nat (length data))%Z -> exists x y m,
  discrete_cdf sort data (Some s) = Ok (x, y) /\ (2 <= Z.of_nat m <= s)%Z /\
  stairs x y m (fun i v => (below data v <= i * Z.to_nat (cdiv (Z.of_nat (length data)) s) < up_to data v)%nat).
Proof.
  intros So Hs. destruct (So data) as (P & S).
  assert (El : length (sort data) = length data) by now apply Permutation_length.
  set (k := cdiv (Z.of_nat (length data)) s). assert (Hk : (0 < k)%Z) by (unfold k, cdiv; nia).
  assert (T : thin (Some s) (sort data) = Ok (every k (sort data))).
  { unfold thin. rewrite El. rewrite (proj2 (Z.ltb_lt s (Z.of_nat (length data)))) by lia. rewrite (proj2 (Z.eqb_neq s 0)) by lia.
    rewrite ceil_div by lia. fold k. rewrite (proj2 (Z.eqb_neq k 0)) by lia. reflexivity. }
  pose proof (every_length k (sort data) Hk) as Ek. rewrite El in Ek.
  assert (B : (2 <= Z.of_nat (length (every k (sort data))) <= s)%Z).
  { rewrite Ek. split.
    - unfold cdiv, k. assert (k < Z.of_nat (length data))%Z as Q by (unfold k, cdiv; nia). unfold k in Q. unfold cdiv in *. nia.
    - unfold k, cdiv. nia. }
  do 2 eexists. exists (length (every k (sort data))). split; [eapply cdf_form; [|exact T|]; lia|]. split; [exact B|].
  apply stairs_of; [lia|]. intros i v Hv. apply every_nth in Hv; auto. rewrite <- (below_perm _ _ v P), <- (up_to_perm _ _ v P). now apply sorted_rank.
Qed.
(** The largest number may be lost. *)
Theorem C118_largest_refuted sort : sorts_numbers sort -> exists x y, discrete_cdf sort [1; 2; 3; 4] (Some 2%Z) = Ok (x, y) /\ ~ In 4 x.
Proof.
  intros So. destruct (So [1; 2; 3; 4]) as (P & S).
  assert (E : sort [1; 2; 3; 4] = [1; 2; 3; 4]).
  { assert (U : forall l l' : list R, StronglySorted Rle l -> StronglySorted Rle l' -> Permutation l l' -> l = l').
    { clear. induction l as [|a l IH]; intros l' A B P; [now apply Permutation_nil in P|]. destruct l' as [|b l']; [apply Permutation_sym, Permutation_nil in P; discriminate|].
      inversion A as [|? ? A1 A2]; inversion B as [|? ? B1 B2]; subst. rewrite Forall_forall in A2, B2.
      assert (a = b) as ->.
      { pose proof (Permutation_in a P (or_introl eq_refl)) as I1. pose proof (Permutation_in b (Permutation_sym P) (or_introl eq_refl)) as I2.
        destruct I1 as [I1|I1], I2 as [I2|I2]; auto. apply Rle_antisym; auto. }
      f_equal. apply IH; auto. now apply Permutation_cons_inv in P. }
    apply U; auto. repeat constructor; lra. }
  unfold discrete_cdf. rewrite E. cbn [thin length]. change (2 <? Z.of_nat 4)%Z with true. cbn [Z.eqb]. cbv iota. rewrite ceil_div by lia. cbn.
  do 2 eexists. split; [reflexivity|]. change (Pos.to_nat 2) with 2%nat. cbn. change (Pos.to_nat 2) with 2%nat. intros H. cbn in H. lra.
Qed.
(** No steps or a negative number of them *)
Theorem C118_no_steps sort data s : sorts_numbers sort -> data <> [] -> (s <= 0)%Z ->
  discrete_cdf sort data (Some s) = Raise ZeroDivisionError \/ discrete_cdf sort data (Some s) = Raise IndexError.
Proof.
  intros So N Hs. destruct (So data) as (P & _). unfold discrete_cdf.
  destruct (sort data) as [|v0 l] eqn:E; [apply Permutation_nil in P; congruence|]. set (x := v0 :: l) in *.
  unfold thin. assert (L : (0 < Z.of_nat (length x))%Z) by (cbn; lia). rewrite (proj2 (Z.ltb_lt s (Z.of_nat (length x)))) by lia.
  destruct (Z.eqb_spec s 0) as [->|Ns]; [now left|]. set (k := ceil _).
  assert (Hk : (k <= 0)%Z).
  { pose proof (ceil_spec (IZR (Z.of_nat (length x)) / IZR s)) as (A & _). fold k in A.
    assert (IZR (Z.of_nat (length x)) / IZR s < 0) as Q.
    { assert (0 < IZR (Z.of_nat (length x))) by now apply IZR_lt. assert (IZR s < 0) by (apply IZR_lt; lia).
      unfold Rdiv. pose proof (Rinv_lt_0_compat (IZR s) H0). nra. }
    apply le_IZR. apply Rnot_lt_le. intros F. assert (1 <= IZR k) by (apply IZR_le; apply lt_IZR in F; lia). lra. }
  destruct (Z.eqb_spec k 0) as [_|Nk]; [now left|]. right. cbn [Ok]. 
  assert (every k x = []) as ->; [|reflexivity]. unfold every, pyrange.
  rewrite (proj2 (Z.ltb_ge 0 k)) by lia. rewrite (proj2 (Z.ltb_lt k 0)) by lia.
  replace (Z.to_nat ((0 - Z.of_nat (length x) - k - 1) / - k)) with 0%nat; [reflexivity|].
  assert ((0 - Z.of_nat (length x) - k - 1) / - k <= 0)%Z by nia. lia.
Qed.

(** ** C119 *)
Section Enhance.
  Variables (sort : list R -> list R) (medfilt : img -> img) (h w : Z).
  Hypothesis So : sorts_numbers sort.
  (** The weight of a pixel is the share of the pixels that are darker, counting the pixel itself. *)
  Theorem C119_weight im r c : inside h w r c -> histequal_wgt sort h w im r c = INR (below (pixels h w im) (im r c) + 1) / IZR (h * w).
  Proof.
    intros I. unfold histequal_wgt. destruct (So (pixels h w im)) as (P & S). rewrite (searchsorted_below _ _ S), (below_perm _ _ _ P).
    rewrite INR_IZR_INZ, Nat2Z.inj_add. reflexivity.
  Qed.
  Lemma area_pos r c : inside h w r c -> 0 < IZR (h * w).
  Proof. intros I. apply IZR_lt. destruct I. nia. Qed.
  Theorem C119_range im r c : inside h w r c -> 0 < histequal_wgt sort h w im r c <= 1.
  Proof.
    intros I. pose proof (area_pos r c I) as A. rewrite C119_weight by auto. split.
    - apply Rdiv_lt_0_compat; auto. apply lt_0_INR. lia.
    - apply (Rmult_le_reg_r (IZR (h * w))); auto. unfold Rdiv. rewrite Rmult_assoc, Rinv_l, Rmult_1_r, Rmult_1_l by lra.
      pose proof (below_lt (pixels h w im) (im r c) (in_pixels h w im r c I)) as B. rewrite INR_IZR_INZ. apply IZR_le.
      rewrite <- (pixels_length h w im) by (destruct I; lia). lia.
  Qed.
  (** Brighter pixels have at least the weight of darker ones. *)
  Theorem C119_monotone im r c r' c' : inside h w r c -> inside h w r' c' -> im r c <= im r' c' -> histequal_wgt sort h w im r c <= histequal_wgt sort h w im r' c'.
  Proof.
    intros I I' L. pose proof (area_pos r c I) as A. rewrite !C119_weight by auto. unfold Rdiv. apply Rmult_le_compat_r; [left; now apply Rinv_0_lt_compat|].
    apply le_INR. pose proof (below_le (pixels h w im) _ _ L). lia.
  Qed.
  Theorem C119_strict im r c r' c' : inside h w r c -> inside h w r' c' -> im r c < im r' c' -> histequal_wgt sort h w im r c < histequal_wgt sort h w im r' c'.
  Proof.
    intros I I' L. pose proof (area_pos r c I) as A. rewrite !C119_weight by auto. unfold Rdiv. apply Rmult_lt_compat_r; [now apply Rinv_0_lt_compat|].
    apply lt_INR. apply Nat.add_lt_mono_r. pose proof (in_pixels h w im r c I) as Hin. unfold below.
    revert Hin. generalize (pixels h w im) as l. induction l as [|x l IH]; intros Hin; [destruct Hin|]. cbn [count].
    assert (M : (count (fun x => if Rlt_dec x (im r c) then true else false) l <= count (fun x => if Rlt_dec x (im r' c') then true else false) l)%nat).
    { apply count_mono. intros y _. destruct (Rlt_dec y (im r c)), (Rlt_dec y (im r' c')); auto; lra. }
    destruct Hin as [->|Hin].
    - destruct (Rlt_dec (im r c) (im r c)); [lra|]. destruct (Rlt_dec (im r c) (im r' c')); [lia|lra].
    - specialize (IH Hin). destruct (Rlt_dec x (im r c)), (Rlt_dec x (im r' c')); try lra; lia.
  Qed.
  (** Any change of the grey values that keeps their order keeps the weights. *)
  Theorem C119_recoded im g r c : (forall x y, x < y <-> g x < g y) -> inside h w r c ->
    histequal_wgt sort h w (fun r c => g (im r c)) r c = histequal_wgt sort h w im r c.
  Proof.
    intros G I. rewrite !C119_weight by auto. do 3 f_equal. unfold below.
    replace (pixels h w (fun r c => g (im r c))) with (map g (pixels h w im)).
    - rewrite count_map. apply count_ext. intros x _. destruct (Rlt_dec (g x) (g (im r c))) as [L|L], (Rlt_dec x (im r c)) as [L'|L']; auto.
      + now apply G in L.
      + now apply G in L'.
    - unfold pixels. generalize (zrange 0 h) as l. induction l as [|y l IH]; [reflexivity|]. cbn [flat_map]. rewrite map_app, IH, map_map. reflexivity.
  Qed.

  (** The values of the result *)
  Definition brightest (im : img) (v : R) : Prop :=
    (exists r c, inside h w r c /\ v = enhance_raw sort medfilt h w im r c) /\ forall r c, inside h w r c -> enhance_raw sort medfilt h w im r c <= v.
  Lemma enhance_form im : (exists r c, inside h w r c) -> exists v, brightest im v /\
    enhance sort medfilt h w im = Ok (fun r c => ndiv (Some (enhance_raw sort medfilt h w im r c)) (Some v)).
  Proof.
    intros (r0 & c0 & I0). unfold enhance. pose proof (in_pixels h w (enhance_raw sort medfilt h w im) r0 c0 I0) as In0.
    destruct (pixels h w (enhance_raw sort medfilt h w im)) as [|x l] eqn:E; [destruct In0|]. exists (lmax x l). split; [|reflexivity]. split.
    - pose proof (lmax_in l x) as H. rewrite <- E in H. apply pixels_in in H. destruct H as (r & c & I & Ev). eauto.
    - intros r c I. pose proof (in_pixels h w (enhance_raw sort medfilt h w im) r c I) as H. rewrite E in H.
      destruct (lmax_ge l x) as (A & B). rewrite Forall_forall in B. destruct H as [<-|H]; auto.
  Qed.
  Lemma raw_nonneg im r c : inside h w r c -> 0 <= enhance_raw sort medfilt h w im r c.
  Proof. intros I. unfold enhance_raw. pose proof (C119_range im r c I). pose proof (pow2_ge_0 (medfilt im r c)). nra. Qed.
  (** Between 0 and 1, and 1 is reached. *)
  Theorem C119_normalised im : (exists r c, inside h w r c /\ medfilt im r c <> 0) -> exists out, enhance sort medfilt h w im = Ok out /\
    (forall r c, inside h w r c -> exists v, out r c = Some v /\ 0 <= v <= 1) /\ exists r c, inside h w r c /\ out r c = Some 1.
  Proof.
    intros (r0 & c0 & I0 & N). destruct (enhance_form im) as (v & ((r1 & c1 & I1 & E1) & M) & E); [eauto|].
    assert (0 < v) as V.
    { specialize (M r0 c0 I0). pose proof (C119_range im r0 c0 I0). pose proof (square_pos _ N). unfold enhance_raw in M. nra. }
    eexists. split; [exact E|]. cbn [ndiv]. destruct (Req_EM_T v 0) as [Z|_]; [lra|]. split.
    - intros r c I. eexists. split; [reflexivity|]. pose proof (raw_nonneg im r c I). specialize (M r c I). split.
      + apply Rmult_le_pos; [auto|]. left. now apply Rinv_0_lt_compat.
      + apply (Rmult_le_reg_r v); auto. unfold Rdiv. rewrite Rmult_assoc, Rinv_l; lra.
    - exists r1, c1. split; auto. rewrite <- E1. f_equal. unfold Rdiv. apply Rinv_r. lra.
  Qed.
  (** Pixels that are brighter before and after the median filter stay brighter. *)
  Theorem C119_order im out r c r' c' x x' : enhance sort medfilt h w im = Ok out -> inside h w r c -> inside h w r' c' ->
    im r c <= im r' c' -> Rabs (medfilt im r c) <= Rabs (medfilt im r' c') -> out r c = Some x -> out r' c' = Some x' -> x <= x'.
  Proof.
    intros E I I' L A X X'. destruct (enhance_form im) as (v & ((r1 & c1 & I1 & E1) & M) & E'); [eauto|]. rewrite E' in E. injection E as <-.
    cbn [ndiv] in X, X'. destruct (Req_EM_T v 0) as [Z|N]; [discriminate X|]. injection X as <-. injection X' as <-.
    assert (0 < v) as V. { pose proof (raw_nonneg im r1 c1 I1). rewrite <- E1 in *. lra. }
    unfold Rdiv. apply Rmult_le_compat_r; [left; now apply Rinv_0_lt_compat|]. unfold enhance_raw.
    apply Rmult_le_compat; [apply pow2_ge_0|left; now apply C119_range| |now apply C119_monotone].
    rewrite <- (pow2_abs (medfilt im r c)), <- (pow2_abs (medfilt im r' c')). apply pow_incr. split; [apply Rabs_pos|auto].
  Qed.
  (** Exposure does not matter. *)
  Theorem C119_exposure im k out out' : 0 < k -> (forall r c, medfilt (times k im) r c = k * medfilt im r c) ->
    enhance sort medfilt h w im = Ok out -> enhance sort medfilt h w (times k im) = Ok out' -> forall r c, inside h w r c -> out' r c = out r c.
  Proof.
    intros K Md E E' r c I.
    assert (Raw : forall r c, inside h w r c -> enhance_raw sort medfilt h w (times k im) r c = k ^ 2 * enhance_raw sort medfilt h w im r c).
    { intros a b Iab. unfold enhance_raw. rewrite Md. rewrite (C119_recoded im (fun x => k * x)); [ring| |auto]. intros x y. split; nra. }
    destruct (enhance_form im) as (v & ((r1 & c1 & I1 & V) & M) & F); [eauto|].
    destruct (enhance_form (times k im)) as (v' & ((r2 & c2 & I2 & V') & M') & F'); [eauto|].
    rewrite E in F. injection F as ->. rewrite E' in F'. injection F' as ->.
    assert (Hk : 0 < k ^ 2) by (apply square_pos; lra).
    assert (v' = k ^ 2 * v) as ->.
    { apply Rle_antisym.
      - rewrite V', Raw by auto. specialize (M r2 c2 I2). apply Rmult_le_compat_l; lra.
      - specialize (M' r1 c1 I1). rewrite Raw, <- V in M' by auto. exact M'. }
    rewrite Raw by auto. cbn [ndiv]. destruct (Req_EM_T (k ^ 2 * v) 0) as [Z|N], (Req_EM_T v 0) as [Z'|N']; auto.
    - apply Rmult_integral in Z. lra.
    - subst v. exfalso. apply N. ring.
    - f_equal. field. split; [auto|lra].
  Qed.
  (** A black image is divided by zero. *)
  Theorem C119_black_refuted im : (exists r c, inside h w r c) -> (forall r c, medfilt im r c = 0) -> exists out, enhance sort medfilt h w im = Ok out /\
    forall r c, out r c = None.
  Proof.
    intros I Z. destruct (enhance_form im I) as (v & ((r1 & c1 & I1 & V) & _) & E). eexists. split; [exact E|]. intros r c. cbn [ndiv].
    destruct (Req_EM_T v 0) as [_|N]; [reflexivity|]. exfalso. apply N. rewrite V. unfold enhance_raw. rewrite Z. ring.
  Qed.
  (** Every image of a stack is treated alone, in order. *)
  Theorem C119_stack ims outs : enhance_projs sort medfilt h w ims = Ok outs -> Forall2 (fun im out => enhance sort medfilt h w im = Ok out) ims outs.
  Proof.
    unfold enhance_projs. destruct ims as [|im0 l0]; [discriminate|]. generalize (im0 :: l0) as l. clear. intros l. revert outs.
    induction l as [|im l IH]; cbn [fold_right]; intros outs E; [injection E as <-; constructor|].
    destruct (enhance sort medfilt h w im) as [e|o] eqn:E1; [discriminate|]. destruct (fold_right _ _ l) as [e|os] eqn:E2; [discriminate|]. injection E as <-.
    constructor; auto.
  Qed.
End Enhance.
(** Negative values: the darker pixel becomes the brighter one. *)
Theorem C119_negative_refuted sort : sorts_numbers sort -> exists (im : img) out, im 0%Z 0%Z < im 0%Z 1%Z /\
  enhance sort (fun i => i) 1 2 im = Ok out /\ exists x y, out 0%Z 0%Z = Some x /\ out 0%Z 1%Z = Some y /\ y < x.
Proof.
  intros So. set (im := fun r c : Z => if (c =? 0)%Z then -2 else 1). 
  destruct (enhance_form sort (fun i => i) 1 2 im) as (v & ((r & c & I & V) & M) & E); [exists 0%Z, 0%Z; repeat split; lia|].
  exists im. eexists. split; [cbn; lra|]. split; [exact E|]. cbn [ndiv].
  assert (I0 : inside 1 2 0 0) by (repeat split; lia). assert (I1 : inside 1 2 0 1) by (repeat split; lia).
  assert (Px : pixels 1 2 im = [-2; 1]) by reflexivity.
  assert (W0 : enhance_raw sort (fun i => i) 1 2 im 0%Z 0%Z = 2).
  { unfold enhance_raw. rewrite (C119_weight sort 1 2 So im 0%Z 0%Z I0). rewrite Px. unfold below. cbn [count]. change (im 0%Z 0%Z) with (-2).
    destruct (Rlt_dec (-2) (-2)); [lra|]. destruct (Rlt_dec 1 (-2)); [lra|]. cbn. lra. }
  assert (W1 : enhance_raw sort (fun i => i) 1 2 im 0%Z 1%Z = 1).
  { unfold enhance_raw. rewrite (C119_weight sort 1 2 So im 0%Z 1%Z I1). rewrite Px. unfold below. cbn [count]. change (im 0%Z 1%Z) with 1.
    destruct (Rlt_dec (-2) 1); [|lra]. destruct (Rlt_dec 1 1); [lra|]. cbn. lra. }
  pose proof (M 0%Z 0%Z I0) as M0. rewrite W0 in M0. destruct (Req_EM_T v 0); [lra|]. do 2 eexists. split; [reflexivity|]. split; [reflexivity|].
  rewrite W0, W1. unfold Rdiv. apply Rmult_lt_compat_r; [|lra]. apply Rinv_0_lt_compat. lra.
Qed.

(** ** Examples *)
Lemma insertion_sorts : sorts_numbers (isort rltb).
Proof.
  intros l. split; [apply isort_perm|]. induction l as [|a l IH]; [constructor|]. cbn [isort fold_right]. fold (isort rltb l).
  induction IH as [|b m Hm IHm F]; [repeat constructor|]. cbn [insert]. destruct (rltb b a) eqn:E.
  - constructor; [exact IHm|]. apply rltb_spec in E. rewrite Forall_forall in F |- *. intros x Hx.
    apply (Permutation_in _ (insert_perm rltb a m)) in Hx. destruct Hx as [<-|Hx]; [lra|auto].
  - apply rltb_false in E. constructor; [now constructor|]. constructor; [lra|]. rewrite Forall_forall in F |- *. intros x Hx. specialize (F x Hx). lra.
Qed.
(** The slits moved by three columns: the fitted matrix moves them back. *)
Example C117_example m : lstsq (map (shifted (3, 0)) corners4) corners4 m -> m = mkM (1, 0, -3) (0, 1, 0) (0, 0, 1).
Proof.
  intros L. apply (C117_affine (map (shifted (3, 0)) corners4) (1, 0, -3) (0, 1, 0)); [apply corners4_span|].
  replace (map (moved (1, 0, -3) (0, 1, 0)) (map (shifted (3, 0)) corners4)) with corners4; [exact L|].
  unfold corners4, moved, shifted, apply3. cbn. repeat (apply f_equal2; [apply f_equal2; ring|]). reflexivity.
Qed.
Example C117_example_shift out : corrected (fun i y x => i (Int_part y) (Int_part x)) (map (shifted (3, 0)) corners4) corners4 (fun r c => IZR c) out -> out 5%Z 5%Z = 5.
Proof.
  intros C. rewrite (C117_shift (fun i y x => i (Int_part y) (Int_part x)) (map (shifted (3, 0)) corners4) corners4 3 0 (fun r c => IZR c) out); auto.
  - intros i r c. rewrite !(Int_part_spec (IZR _) _) by (split; [apply Rle_refl|lra]). reflexivity.
  - apply corners4_span.
Qed.
Example C118_example : gauss1d 3 1 2 1 = 3 /\ gauss1d 3 1 2 5 < 3.
Proof.
  split; [apply (C118_peak 3 1 2 1)|]. pose proof (C118_falls 3 1 2 1 5) as H. pose proof (proj1 (C118_peak 3 1 2 1)) as P.
  rewrite P in H. assert (Rabs (gauss1d 3 1 2 5) < Rabs 3). { apply H; [lra| |lra]. replace (1 - 1) with 0 by ring. rewrite Rabs_R0. apply Rabs_pos_lt. lra. }
  rewrite (Rabs_right 3) in H0 by lra. pose proof (Rle_abs (gauss1d 3 1 2 5)). lra.
Qed.
Example C118_example_cdf : exists x y, discrete_cdf (isort rltb) [7; 3] None = Ok (x, y) /\ nth_error y 3 = Some (Some 2).
Proof.
  destruct (C118_cdf (isort rltb) [7; 3] None insertion_sorts) as (x & y & E & _ & _ & H); [cbn; lia|discriminate|]. exists x, y. split; auto.
  destruct (H 1%nat) as (v & _ & _ & _ & _ & L); [cbn; lia|]. transitivity (Some (Some (INR (1 + 1) / INR (length [7; 3] - 1)))); [exact L|]. do 2 f_equal. cbn. lra.
Qed.
Definition ramp : img := fun r c => IZR (c + 1).
Example C119_example : histequal_wgt (isort rltb) 1 2 ramp 0%Z 0%Z = 1 / 2 /\ histequal_wgt (isort rltb) 1 2 ramp 0%Z 1%Z = 1.
Proof.
  rewrite !(C119_weight (isort rltb) 1 2 insertion_sorts) by (repeat split; lia). assert (pixels 1 2 ramp = [1; 2]) as -> by reflexivity.
  unfold below. cbn [count]. change (ramp 0%Z 0%Z) with 1. change (ramp 0%Z 1%Z) with 2.
  destruct (Rlt_dec 1 1); [lra|]. destruct (Rlt_dec 2 1); [lra|]. destruct (Rlt_dec 1 2); [|lra]. destruct (Rlt_dec 2 2); [lra|]. cbn. lra.
Qed.
Example C119_example_enhance : exists out, enhance (isort rltb) (fun i => i) 1 2 ramp = Ok out /\ exists r c, inside 1 2 r c /\ out r c = Some 1.
Proof.
  destruct (C119_normalised (isort rltb) (fun i => i) 1 2 insertion_sorts ramp) as (out & E & _ & H); eauto.
  exists 0%Z, 0%Z. split; [repeat split; lia|]. unfold ramp. cbn. lra.
Qed.

Print Assumptions C117_exists.
Print Assumptions C117_affine.
Print Assumptions C117_last_row.
Print Assumptions C117_errors.
Print Assumptions C117_unique.
Print Assumptions C117_shift.
Print Assumptions C117_scene.
Print Assumptions C117_drift_refuted.
Print Assumptions C118_peak.
Print Assumptions C118_falls.
Print Assumptions C118_symmetric.
Print Assumptions C118_cdf.
Print Assumptions C118_one_refuted.
Print Assumptions C118_few.
Print Assumptions C118_thinned.
Print Assumptions C118_largest_refuted.
Print Assumptions C118_no_steps.
Print Assumptions C119_weight.
Print Assumptions C119_range.
Print Assumptions C119_monotone.
Print Assumptions C119_strict.
Print Assumptions C119_recoded.
Print Assumptions C119_normalised.
Print Assumptions C119_order.
Print Assumptions C119_exposure.
Print Assumptions C119_black_refuted.
Print Assumptions C119_stack.
Print Assumptions C119_negative_refuted.
