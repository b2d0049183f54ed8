From Verif Require Import Base Order CLoop Model_Ray Proofs_Ray Model_RayF Proofs_FloatB Proofs_RayF.
From Coq Require Import Reals Lra Sorted Psatz.
From Flocq Require Import Core BinarySingleNaN.
Local Open Scope R_scope.

(** ** Values of the grid *)
Lemma rep_half z : (Z.abs z <= 2 ^ 24)%Z -> rep (IZR z / 2).
Proof. intros H. change (rep (IZR z * bpow radix2 (-1))). apply rep_dyadic; lia. Qed.
Lemma huge_big z : (z <= 2 ^ 100)%Z -> IZR z < huge.
Proof. intros H. apply Rle_lt_trans with (IZR (2 ^ 100)); [now apply IZR_le|]. change (IZR (2 ^ 100)) with (bpow radix2 100). apply bpow_lt. lia. Qed.
Lemma abs_inv x b : Rabs x <= b -> - b <= x <= b.
Proof. unfold Rabs; destruct (Rcase_abs x); lra. Qed.
Lemma abs_le x a b : - b <= a -> a <= b -> x = a -> Rabs x <= b.
Proof. intros H1 H2 ->. apply Rabs_le. lra. Qed.
Lemma mhalf_ok z : (Z.abs z <= 2 ^ 24)%Z -> fin (fmul (of_int z) half) = true /\ V (fmul (of_int z) half) = IZR z / 2 /\
  fin (fmul half (of_int z)) = true /\ V (fmul half (of_int z)) = IZR z / 2.
Proof.
  intros H. destruct (of_int_ok z H) as (F & E). destruct half_ok as (Fh & Eh).
  assert (Rabs (V (of_int z) * V half) <= IZR (2 ^ 24)) as B.
  { rewrite E, Eh. apply Rabs_le. assert (IZR (- 2 ^ 24) <= IZR z <= IZR (2 ^ 24)) by (split; apply IZR_le; lia). rewrite opp_IZR in H0. cbn in *. lra. }
  assert (L : IZR (2 ^ 24) < huge) by (apply huge_big; lia). assert (Rk : rep (IZR (2 ^ 24))) by (apply rep_IZR; lia).
  destruct (fmul_ok (of_int z) half (IZR (2 ^ 24)) F Fh Rk B L) as (A1 & A2).
  assert (B' : Rabs (V half * V (of_int z)) <= IZR (2 ^ 24)) by (rewrite Rmult_comm; exact B).
  destruct (fmul_ok half (of_int z) (IZR (2 ^ 24)) Fh F Rk B' L) as (A3 & A4).
  assert (Rz : rep (IZR z / 2)) by now apply rep_half.
  split; [exact A1|]. split; [|split; [exact A3|]].
  - rewrite A2, E, Eh. apply rd_rep. exact Rz.
  - rewrite A4, E, Eh, Rmult_comm. apply rd_rep. exact Rz.
Qed.
Lemma grid_ok r i : (1 <= r <= 2 ^ 20)%Z -> (0 <= i <= r)%Z -> fin (gridF r i) = true /\ V (gridF r i) = - IZR r / 2 + IZR i.
Proof.
  intros Hr Hi. destruct (mhalf_ok (- r)) as (F1 & E1 & _); [lia|]. destruct (of_int_ok i) as (F2 & E2); [lia|].
  assert (E : V (fmul (of_int (- r)) half) + V (of_int i) = IZR (2 * i - r) / 2) by (rewrite E1, E2, minus_IZR, mult_IZR, opp_IZR; field).
  assert (B : Rabs (V (fmul (of_int (- r)) half) + V (of_int i)) <= IZR (2 ^ 24)).
  { rewrite E. apply Rabs_le. assert (IZR (- 2 ^ 24) <= IZR (2 * i - r) <= IZR (2 ^ 24)) by (split; apply IZR_le; lia). rewrite opp_IZR in H. cbn in *. lra. }
  destruct (fadd_ok _ _ (IZR (2 ^ 24)) F1 F2 (rep_IZR (2 ^ 24) ltac:(lia)) B (huge_big (2 ^ 24) ltac:(lia))) as (A1 & A2).
  split; [exact A1|]. unfold gridF. rewrite A2, E, rd_rep by (apply rep_half; lia). rewrite minus_IZR, mult_IZR. field.
Qed.

(** ** Points inside the margins *)
Lemma bpow_val k v : bpow radix2 k = v -> forall x, Rabs x <= v -> (-124 <= k)%Z -> Rabs (rd x - x) <= bpow radix2 (k - 25).
Proof. intros <- x H Hk. now apply rd_err. Qed.
Lemma IZR_range r : (1 <= r <= 2 ^ 15)%Z -> 1 <= IZR r <= 32768.
Proof. intros H. split; [|change 32768 with (IZR (2 ^ 15))]; apply IZR_le; lia. Qed.
Lemma edges_ok r : (1 <= r <= 2 ^ 15)%Z -> fin (fadd (gridF r 0) c001) = true /\ fin (fsub (gridF r r) c001) = true /\
  - IZR r / 2 + 93 / 10000 <= V (fadd (gridF r 0) c001) /\ V (fsub (gridF r r) c001) <= IZR r / 2 - 93 / 10000.
Proof.
  intros Hr. pose proof (IZR_range r Hr) as Rr. destruct (grid_ok r 0) as (F0 & E0); [lia|lia|]. destruct (grid_ok r r) as (F1 & E1); [lia|lia|].
  destruct c001_ok as (Fc & Ec). cbn in E0.
  assert (Bx : forall x, Rabs x <= 16384 -> Rabs (rd x - x) <= / 2048).
  { intros x Hx. change (/ 2048) with (bpow radix2 (14 - 25)). apply (bpow_val 14 16384); [reflexivity|auto|lia]. }
  assert (B0 : Rabs (V (gridF r 0) + V c001) <= IZR (2 ^ 14)). { rewrite E0, Ec. change (IZR (2 ^ 14)) with 16384. apply Rabs_le. lra. }
  assert (B1 : Rabs (V (gridF r r) - V c001) <= IZR (2 ^ 14)). { rewrite E1, Ec. change (IZR (2 ^ 14)) with 16384. apply Rabs_le. lra. }
  destruct (fadd_ok _ _ _ F0 Fc (rep_IZR (2 ^ 14) ltac:(lia)) B0 (huge_big (2 ^ 14) ltac:(lia))) as (A1 & A2).
  destruct (fsub_ok _ _ _ F1 Fc (rep_IZR (2 ^ 14) ltac:(lia)) B1 (huge_big (2 ^ 14) ltac:(lia))) as (A3 & A4).
  specialize (Bx _ B0) as B0'. specialize (Bx _ B1) as B1'. apply abs_inv in B0'. apply abs_inv in B1'. rewrite A2, A4. rewrite E0, Ec in B0'. rewrite E1, Ec in B1'. rewrite E0, E1, Ec.
  repeat split; auto; lra.
Qed.
Lemma inside_ok r x : (1 <= r <= 2 ^ 15)%Z -> insideF r x = true -> fin x = true /\ - IZR r / 2 + 93 / 10000 <= V x <= IZR r / 2 - 93 / 10000.
Proof.
  intros Hr H. unfold insideF in H. apply andb_true_iff in H. destruct H as (H1 & H2). destruct (edges_ok r Hr) as (F0 & F1 & L0 & L1).
  destruct (fle_fin x _ F0 H1 _ F1 H2) as (F & L). split; [auto|lra].
Qed.

(** ** Pixels *)
Lemma pixel_ok r u v : (1 <= r <= 2 ^ 15)%Z -> fin u = true -> fin v = true -> Rabs (V u) <= IZR r / 2 -> Rabs (V v) <= IZR r / 2 ->
  V u <= IZR r / 2 - 93 / 10000 \/ V v <= IZR r / 2 - 93 / 10000 -> exists i, pixelF r u v = Some i /\ (0 <= i < r)%Z.
Proof.
  intros Hr Fu Fv Bu Bv L. pose proof (IZR_range r Hr) as Rr. apply abs_inv in Bu. apply abs_inv in Bv.
  destruct half_ok as (Fh & Eh).
  (* sum *)
  assert (Bs : Rabs (V v + V u) <= IZR (2 ^ 15)) by (change (IZR (2 ^ 15)) with 32768; apply Rabs_le; lra).
  destruct (fadd_ok v u _ Fv Fu (rep_IZR (2 ^ 15) ltac:(lia)) Bs (huge_big (2 ^ 15) ltac:(lia))) as (Fs & Es).
  assert (Rp1 : rep (IZR (r * 256 - 1) * bpow radix2 (-8))) by (apply rep_dyadic; lia).
  assert (Ep1 : IZR (r * 256 - 1) * bpow radix2 (-8) = IZR r - / 256) by (rewrite minus_IZR, mult_IZR; cbn; field).
  assert (S1 : - IZR r <= V (fadd v u) <= IZR r - / 256).
  { rewrite Es. split.
    - apply rd_ge_rep; [apply rep_opp, rep_IZR; lia|lra].
    - rewrite <- Ep1. apply rd_le_rep; auto. rewrite Ep1. lra. }
  (* mean *)
  assert (Bm : Rabs (V half * V (fadd v u)) <= IZR (2 ^ 15)) by (rewrite Eh; change (IZR (2 ^ 15)) with 32768; apply Rabs_le; lra).
  destruct (fmul_ok half (fadd v u) _ Fh Fs (rep_IZR (2 ^ 15) ltac:(lia)) Bm (huge_big (2 ^ 15) ltac:(lia))) as (Fm & Em).
  assert (Rp2 : rep (IZR (r * 256 - 1) * bpow radix2 (-9))) by (apply rep_dyadic; lia).
  assert (Ep2 : IZR (r * 256 - 1) * bpow radix2 (-9) = IZR r / 2 - / 512) by (rewrite minus_IZR, mult_IZR; cbn; field).
  assert (S2 : - IZR r / 2 <= V (fmul half (fadd v u)) <= IZR r / 2 - / 512).
  { rewrite Em, Eh. split.
    - apply rd_ge_rep; [|lra]. replace (- IZR r / 2) with (IZR (- r) / 2) by (rewrite opp_IZR; reflexivity). apply rep_half; lia.
    - rewrite <- Ep2. apply rd_le_rep; auto. rewrite Ep2. lra. }
  (* place *)
  destruct (mhalf_ok r) as (_ & _ & Fr & Er); [lia|].
  set (m := fmul half (fadd v u)) in *.
  assert (Bx : Rabs (V m + V (fmul half (of_int r))) <= IZR (2 ^ 15)) by (rewrite Er; change (IZR (2 ^ 15)) with 32768; apply Rabs_le; lra).
  destruct (fadd_ok m (fmul half (of_int r)) _ Fm Fr (rep_IZR (2 ^ 15) ltac:(lia)) Bx (huge_big (2 ^ 15) ltac:(lia))) as (Fx & Ex).
  assert (Rp3 : rep (IZR (r * 512 - 1) * bpow radix2 (-9))) by (apply rep_dyadic; lia).
  assert (Ep3 : IZR (r * 512 - 1) * bpow radix2 (-9) = IZR r - / 512) by (rewrite minus_IZR, mult_IZR; cbn; field).
  assert (S3 : 0 <= V (fadd m (fmul half (of_int r))) <= IZR r - / 512).
  { rewrite Ex, Er. split.
    - apply rd_ge_rep; [apply rep_IZR; lia|lra].
    - rewrite <- Ep3. apply rd_le_rep; auto. rewrite Ep3. lra. }
  unfold pixelF. fold m. set (x := fadd m (fmul half (of_int r))) in *.
  destruct (to_int_ok x Fx ltac:(lra)) as (k & Ek & Lk & Hk). rewrite Ek. destruct (of_int_ok k) as (Fk & Vk); [lia|].
  assert (flt x (of_int k) = false) as ->.
  { destruct (flt x (of_int k)) eqn:E; auto. apply flt_fin in E; auto. rewrite Vk in E. lra. }
  destruct (of_int_ok 0) as (F0 & V0); [lia|].
  assert (Bk : Rabs (V (of_int k) - V (of_int 0)) <= IZR (2 ^ 24)).
  { rewrite Vk, V0. apply Rabs_le. assert (0 <= IZR k <= IZR (2 ^ 24)) by (split; apply IZR_le; lia). cbn in *. lra. }
  destruct (fsub_ok _ _ _ Fk F0 (rep_IZR (2 ^ 24) ltac:(lia)) Bk (huge_big (2 ^ 24) ltac:(lia))) as (Fd & Ed).
  assert (Ed' : V (fsub (of_int k) (of_int 0)) = IZR k) by (rewrite Ed, Vk, V0; rewrite Rminus_0_r; apply rd_rep, rep_IZR; lia).
  assert (0 <= IZR k < 16777216) by (split; [apply IZR_le; lia|lra]).
  destruct (to_int_ok _ Fd ltac:(rewrite Ed'; lra)) as (j & Ej & Lj & Hj). rewrite Ed' in Lj. exists j. split; [exact Ej|].
  assert (IZR j <= IZR k < IZR (j + 1)) as (J1 & J2) by (rewrite plus_IZR; lra). apply le_IZR in J1. apply lt_IZR in J2.
  assert (IZR k < IZR r) as J3 by lra. apply lt_IZR in J3. lia.
Qed.

(** At most one of the points lies at the upper edge. *)
Section Pixels.
  Variables (ry rz : Z) (quadrant : bool) (cx cy : Z -> b32) (za zb zc : arr pointF).
  Hypothesis Hy : (1 <= ry <= 2 ^ 15)%Z.
  Hypothesis Hz : (1 <= rz <= 2 ^ 15)%Z.
  Let t := traceF ry rz quadrant cx cy za zb zc.
  Definition high (r : Z) (x : b32) : bool := negb (fle x (fsub (gridF r r) c001)).
  Lemma point_ok p : In p (map (fcoor t) (zrange 0 (fcsize t))) -> fin (fst p) = true /\ fin (snd p) = true /\
    Rabs (V (fst p)) <= IZR ry / 2 /\ Rabs (V (snd p)) <= IZR rz / 2.
  Proof.
    intros H. eapply Permutation_in in H; [|apply trace_points; lia]. apply in_app_or in H. destruct H as [H|H]; apply in_map_iff in H; destruct H as (n & <- & Hn).
    - apply na_in in Hn. destruct Hn as (Hn & I). destruct (inside_ok ry (cx n) Hy I) as (F & L). destruct (grid_ok rz n) as (Fg & Eg); [lia|lia|].
      cbn [pa fst snd]. repeat split; auto; apply Rabs_le; [lra|]. rewrite Eg. assert (0 <= IZR n <= IZR rz) by (split; apply IZR_le; lia). lra.
    - apply nb_in in Hn. destruct Hn as (Hn & I). destruct (inside_ok rz (cy n) Hz I) as (F & L). destruct (grid_ok ry n) as (Fg & Eg); [lia|lia|].
      cbn [pb fst snd]. repeat split; auto; apply Rabs_le; [|lra]. rewrite Eg. assert (0 <= IZR n <= IZR ry) by (split; apply IZR_le; lia). lra.
  Qed.
  Lemma not_high r x : (1 <= r <= 2 ^ 15)%Z -> fin x = true -> high r x = false -> V x <= IZR r / 2 - 93 / 10000.
  Proof.
    intros Hr F H. unfold high in H. apply negb_false_iff in H. destruct (edges_ok r Hr) as (_ & F1 & _ & L1).
    unfold fle in H. rewrite Bleb_correct in H by auto. destruct (Rle_bool_spec (V x) (V (fsub (gridF r r) c001))); [lra|discriminate].
  Qed.
  Lemma high_grid r n : (1 <= r <= 2 ^ 15)%Z -> (0 <= n <= r)%Z -> high r (gridF r n) = true -> n = r.
  Proof.
    intros Hr Hn H. destruct (Z.eq_dec n r) as [|N]; auto. exfalso. unfold high in H. apply negb_true_iff in H.
    destruct (grid_ok r n) as (Fg & Eg); [lia|lia|]. destruct (grid_ok r r) as (Fr & Er); [lia|lia|]. destruct c001_ok as (Fc & Ec).
    assert (B1 : Rabs (V (gridF r r) - V c001) <= IZR (2 ^ 14)). { pose proof (IZR_range r Hr). rewrite Er, Ec. change (IZR (2 ^ 14)) with 16384. apply Rabs_le. lra. }
    destruct (fsub_ok _ _ _ Fr Fc (rep_IZR (2 ^ 14) ltac:(lia)) B1 (huge_big (2 ^ 14) ltac:(lia))) as (A3 & A4).
    unfold fle in H. rewrite Bleb_correct in H by auto. destruct (Rle_bool_spec (V (gridF r n)) (V (fsub (gridF r r) c001))) as [|L]; [discriminate|].
    assert (V (gridF r n) <= V (fsub (gridF r r) c001)); [|lra]. rewrite A4. apply rd_ge_rep; [apply rep_V|]. rewrite Eg, Er, Ec.
    assert (IZR n <= IZR (r - 1)) as Q by (apply IZR_le; lia). rewrite minus_IZR in Q. lra.
  Qed.
  Lemma high_inside r x : insideF r x = true -> high r x = false.
  Proof. unfold insideF, high. intros H. apply andb_true_iff in H. now rewrite (proj2 H). Qed.
  Lemma count_one {A} (p : A -> bool) l a : NoDup l -> (forall x, In x l -> p x = true -> x = a) -> (count p l <= 1)%nat.
  Proof.
    induction l as [|x l IH]; cbn; intros N H; [lia|]. inversion N as [|? ? N1 N2]; subst.
    destruct (p x) eqn:E; [|apply IH; auto]. rewrite (count_none p l); [lia|]. intros y Hy'. destruct (p y) eqn:E'; auto.
    assert (x = a) by auto. assert (y = a) by auto. subst. contradiction.
  Qed.
  Lemma hits_nodup r c N : NoDup (hitsF r c N). Proof. apply NoDup_filter, NoDup_zrange. Qed.
  Lemma high_once : (count (fun p => high ry (fst p)) (map (fcoor t) (zrange 0 (fcsize t))) <= 1)%nat /\
    (count (fun p => high rz (snd p)) (map (fcoor t) (zrange 0 (fcsize t))) <= 1)%nat.
  Proof.
    pose proof (trace_points ry rz quadrant cx cy za zb zc ltac:(lia) ltac:(lia)) as P. fold t in P.
    rewrite !(count_perm _ _ _ P), !count_app, !count_map. cbn [pa pb fst snd]. split.
    - rewrite (count_none _ (na ry rz cx)) by (intros n Hn; apply na_in in Hn; now apply high_inside).
      apply (count_one _ _ ry); [apply hits_nodup|]. intros n Hn H. apply nb_in in Hn. apply high_grid in H; auto. apply Hn.
    - rewrite (count_none _ (nb ry rz cy)) by (intros n Hn; apply nb_in in Hn; now apply high_inside). rewrite Nat.add_0_r.
      apply (count_one _ _ rz); [apply hits_nodup|]. intros n Hn H. apply na_in in Hn. apply high_grid in H; auto. apply Hn.
  Qed.
  Lemma two_high {A} (p : A -> bool) (f : Z -> A) N n : (count p (map f (zrange 0 N)) <= 1)%nat -> (0 <= n)%Z -> (n + 1 < N)%Z -> p (f n) = false \/ p (f (n + 1)%Z) = false.
  Proof.
    intros C H0 H1. destruct (p (f n)) eqn:E; auto. destruct (p (f (n + 1)%Z)) eqn:E'; auto. exfalso.
    rewrite <- (@zrange_app 0 n N) in C by lia. rewrite (@zrange_cons n N), (@zrange_cons (n + 1) N) in C by lia.
    rewrite map_app, count_app in C. cbn [map count] in C. rewrite E, E' in C. lia.
  Qed.
  Lemma seg_points n : (0 <= n < fcsize t)%Z -> In (fcoor t n) (map (fcoor t) (zrange 0 (fcsize t))).
  Proof. intros H. apply in_map. apply in_zrange. lia. Qed.
  Theorem pixels_inside n : (0 <= n < fcsize t - 1)%Z -> exists i j, seg_indxF ry (fcoor t) n = Some i /\ (0 <= i < ry)%Z /\
    seg_indyF rz (fcoor t) n = Some j /\ (0 <= j < rz)%Z.
  Proof.
    intros Hn. destruct (point_ok (fcoor t n)) as (A1 & A2 & A3 & A4); [apply seg_points; lia|].
    destruct (point_ok (fcoor t (n + 1)%Z)) as (B1 & B2 & B3 & B4); [apply seg_points; lia|]. destruct high_once as (C1 & C2).
    destruct (pixel_ok ry (fst (fcoor t n)) (fst (fcoor t (n + 1)%Z)) Hy A1 B1 A3 B3) as (i & Ei & Hi).
    { destruct (two_high _ _ _ n C1 ltac:(lia) ltac:(lia)) as [H|H]; [left|right]; apply not_high; auto. }
    destruct (pixel_ok rz (snd (fcoor t n)) (snd (fcoor t (n + 1)%Z)) Hz A2 B2 A4 B4) as (j & Ej & Hj).
    { destruct (two_high _ _ _ n C2 ltac:(lia) ltac:(lia)) as [H|H]; [left|right]; apply not_high; auto. }
    exists i, j. auto.
  Qed.
End Pixels.
