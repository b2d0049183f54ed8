From Verif Require Import Base Order CLoop Model_Ray Proofs_Ray Model_RayF Proofs_FloatB Proofs_RayF Proofs_RayF2 Proofs_RayF3.
From Coq Require Import Reals Lra Sorted Psatz.
From Flocq Require Import Core BinarySingleNaN.
Local Open Scope R_scope.

(** ** Order of the points *)
Lemma selF_rev a asize : (0 <= asize)%Z -> map (selF false asize a) (zrange 0 asize) = rev (map a (zrange 0 asize)).
Proof.
  intros H. unfold selF.
  assert (G : forall n, (0 <= n)%Z -> (n <= asize)%Z -> map (fun i => a (asize - 1 - i)%Z) (zrange 0 n) = rev (map a (zrange (asize - n) asize))).
  { apply (natlike_ind (fun n => (n <= asize)%Z -> map (fun i => a (asize - 1 - i)%Z) (zrange 0 n) = rev (map a (zrange (asize - n) asize)))).
    - intros _. rewrite !zrange_nil by lia. reflexivity.
    - intros n Hn IH L. rewrite <- Z.add_1_r. rewrite zrange_snoc, map_app, IH by lia. rewrite (@zrange_cons (asize - (n + 1)) asize) by lia. cbn [map rev].
      replace (asize - (n + 1) + 1)%Z with (asize - n)%Z by lia. cbn. do 3 f_equal. lia. }
  rewrite (G asize) by lia. now rewrite Z.sub_diag.
Qed.
Definition xle (p q : pointF) : Prop := V (fst p) <= V (fst q).
Lemma coord_mono rz l n n' : (1 <= rz <= 2 ^ 15)%Z -> (0 <= n <= n')%Z -> (n' <= rz)%Z -> fin (coordxF rz l n) = true -> fin (coordxF rz l n') = true ->
  (0 <= V (islopeF l) -> V (coordxF rz l n) <= V (coordxF rz l n')) /\ (V (islopeF l) <= 0 -> V (coordxF rz l n') <= V (coordxF rz l n)).
Proof.
  intros Hz Hn Hn' F F'. unfold coordxF in *. destruct (fadd_fin _ _ F) as (F1 & _ & ->). destruct (fmul_fin _ _ F1) as (_ & F2 & ->). destruct (fsub_fin _ _ F2) as (_ & _ & ->).
  destruct (fadd_fin _ _ F') as (F1' & _ & ->). destruct (fmul_fin _ _ F1') as (_ & F2' & ->). destruct (fsub_fin _ _ F2') as (_ & _ & ->).
  destruct (grid_ok rz n) as (_ & ->); [lia|lia|]. destruct (grid_ok rz n') as (_ & ->); [lia|lia|].
  assert (IZR n <= IZR n') by (apply IZR_le; lia).
  assert (rd (- IZR rz / 2 + IZR n - V (fsrcy l)) <= rd (- IZR rz / 2 + IZR n' - V (fsrcy l))) by (apply rd_le; lra).
  split; intros S; apply rd_le; apply Rplus_le_compat_r; apply rd_le.
  - apply Rmult_le_compat_l; auto.
  - apply Rmult_le_compat_neg_l; auto.
Qed.
Lemma na_sorted ry rz cx : StronglySorted Z.lt (na ry rz cx).
Proof. apply StronglySorted_filter, zrange_sorted. Qed.
Theorem ordered ry rz (quadrant : bool) l cy za zb zc : (1 <= ry <= 2 ^ 15)%Z -> (1 <= rz <= 2 ^ 15)%Z ->
  (if quadrant then 0 <= V (islopeF l) else V (islopeF l) <= 0) ->
  let t := traceF ry rz quadrant (coordxF rz l) cy za zb zc in StronglySorted xle (map (fcoor t) (zrange 0 (fcsize t))).
Proof.
  intros Hy Hz Hq. unfold traceF, trim_aF, trim_bF. cbv zeta. pose proof (trim_specF ry (coordxF rz l) (pa rz (coordxF rz l)) (rz + 1) za ltac:(lia)) as (A & A').
  pose proof (trim_specF rz cy (pb ry cy) (ry + 1) zb ltac:(lia)) as (B & B').
  fold (na ry rz (coordxF rz l)) in A, A'. fold (nb ry rz cy) in B, B'. unfold pa, pb in *.
  destruct (for_ (rz + 1) _ _) as [asz a], (for_ (ry + 1) _ _) as [bsz b]. cbn [fst snd] in *. subst.
  pose proof (sort_specF quadrant _ a _ b (Zle_0_nat (length (na ry rz (coordxF rz l)))) (Zle_0_nat (length (nb ry rz cy))) zc) as (S1 & S2).
  destruct (sort_intersectionsF _ _ _ _ _ _) as [cs c]. cbn [fst snd] in *. subst. cbn [fcsize fcoor]. rewrite S2. clear S2.
  assert (Fa : forall n, In n (na ry rz (coordxF rz l)) -> (0 <= n <= rz)%Z /\ fin (coordxF rz l n) = true).
  { intros n Hn. apply na_in in Hn. destruct Hn as (Hn & I). destruct (inside_ok ry _ Hy I). auto. }
  assert (Fb : forall n, In n (nb ry rz cy) -> (0 <= n <= ry)%Z) by (intros n Hn; now apply nb_in in Hn).
  assert (Sa : StronglySorted xle (map (selF quadrant (Z.of_nat (length (na ry rz (coordxF rz l)))) a) (zrange 0 (Z.of_nat (length (na ry rz (coordxF rz l))))))).
  { destruct quadrant.
    - change (map (selF true _ a)) with (map a). rewrite A'. apply StronglySorted_map. eapply StronglySorted_impl; [|apply na_sorted].
      intros x y Hx Hy' L. destruct (Fa x Hx), (Fa y Hy'). unfold xle. cbn [fst]. apply (proj1 (coord_mono rz l x y Hz ltac:(lia) ltac:(lia) ltac:(auto) ltac:(auto))); auto.
    - rewrite selF_rev by lia. rewrite A'. apply (StronglySorted_rev (fun p q => xle q p)). apply StronglySorted_map. eapply StronglySorted_impl; [|apply na_sorted].
      intros x y Hx Hy' L. destruct (Fa x Hx), (Fa y Hy'). unfold xle. cbn [fst]. apply (proj2 (coord_mono rz l x y Hz ltac:(lia) ltac:(lia) ltac:(auto) ltac:(auto))); auto. }
  assert (Sb : StronglySorted xle (map b (zrange 0 (Z.of_nat (length (nb ry rz cy)))))).
  { rewrite B'. apply StronglySorted_map. eapply StronglySorted_impl; [|apply (na_sorted rz ry cy)].
    intros x y Hx Hy' L. unfold xle, pb. cbn [fst]. destruct (grid_ok ry x) as (_ & ->); [lia|apply Fb in Hx; lia|]. destruct (grid_ok ry y) as (_ & ->); [lia|apply Fb in Hy'; lia|].
    assert (IZR x <= IZR y) by (apply IZR_le; lia). lra. }
  assert (FA : forall p, In p (map (selF quadrant (Z.of_nat (length (na ry rz (coordxF rz l)))) a) (zrange 0 (Z.of_nat (length (na ry rz (coordxF rz l)))))) -> fin (fst p) = true).
  { intros p Hp. eapply Permutation_in in Hp; [|apply selF_perm]. rewrite A' in Hp. apply in_map_iff in Hp. destruct Hp as (n & <- & Hn). now apply Fa. }
  assert (FB : forall p, In p (map b (zrange 0 (Z.of_nat (length (nb ry rz cy))))) -> fin (fst p) = true).
  { intros p Hp. rewrite B' in Hp. apply in_map_iff in Hp. destruct Hp as (n & <- & Hn). cbn. apply grid_ok; [lia|auto]. }
  apply mergeF_sorted; auto; unfold xle.
  - intros x y z H1 H2. lra.
  - intros x y Hx Hy' L. apply flt_fin in L; auto. lra.
  - intros x y Hx Hy' L. destruct (Rle_or_lt (V (fst y)) (V (fst x))) as [|G]; auto. apply flt_fin in G; auto. congruence.
Qed.

(** ** Nothing behind the points is written *)
Lemma sort_frame cond asize a bsize b c0 k : (0 <= asize)%Z -> (0 <= bsize)%Z -> (k < 0 \/ asize + bsize <= k)%Z -> snd (sort_intersectionsF cond asize a bsize b c0) k = c0 k.
Proof.
  intros Ha Hb Hk. unfold sort_intersectionsF. cbv zeta. cbn [snd]. set (fuel := Z.to_nat (asize + bsize)).
  set (I := fun s : sortingF => (0 <= fi s <= asize)%Z /\ (0 <= fj s <= bsize)%Z /\ fk s = (fi s + fj s)%Z /\ fc s k = c0 k).
  assert (Ia : forall s, I s -> (fi s < asize)%Z -> I (take_aF cond asize a s)).
  { intros s (H1 & H2 & H3 & H4) L. unfold I, take_aF. cbn. repeat split; try lia. rewrite aset_ne; auto. lia. }
  assert (Ib : forall s, I s -> (fj s < bsize)%Z -> I (take_bF b s)).
  { intros s (H1 & H2 & H3 & H4) L. unfold I, take_bF. cbn. repeat split; try lia. rewrite aset_ne; auto. lia. }
  assert (W : forall c f s, (forall s, I s -> c s = true -> I (f s)) -> I s -> forall n, I (while n c f s)).
  { intros c f s Hf Hs n. revert s Hs. induction n as [|n IH]; cbn; intros s Hs; auto. destruct (c s) eqn:E; auto. }
  match goal with |- fc ?s k = _ => assert (I s) as (_ & _ & _ & E); [|exact E] end.
  apply W; [intros s Hs C; apply Ib; auto; lia|]. apply W; [intros s Hs C; apply Ia; auto; lia|].
  apply W; [|unfold I; cbn; repeat split; lia]. intros s Hs C. destruct (flt _ _); [apply Ia|apply Ib]; auto; lia.
Qed.
Theorem frame ry rz quadrant cx cy za zb zc k : (1 <= ry)%Z -> (1 <= rz)%Z -> let t := traceF ry rz quadrant cx cy za zb zc in
  (k < 0 \/ fcsize t <= k)%Z -> fcoor t k = zc k.
Proof.
  intros Hy Hz. cbv zeta. intros Hk. destruct (trace_sizes ry rz quadrant cx cy za zb zc Hy Hz) as (Ea & Eb & Ec). revert Hk Ea Eb Ec.
  unfold traceF. destruct (trim_aF _ _ _ _) as [asz a], (trim_bF _ _ _ _) as [bsz b]. pose proof (sort_frame quadrant asz a bsz b zc k) as F.
  destruct (sort_intersectionsF _ _ _ _ _ _) as [cs c]. cbn [fcsize fcoor fasize fbsize snd] in *. intros Hk Ea Eb Ec. apply F; lia.
Qed.

(** ** The rays of the solvers *)
Lemma r64_abs x k : generic_format radix2 (SpecFloat.fexp 53 1024) k -> Rabs x <= k -> Rabs (round radix2 (SpecFloat.fexp 53 1024) (round_mode mode_NE) x) <= k.
Proof. intros G H. apply abs_round_le_generic; auto; [apply fexp_correct; reflexivity|apply valid_rnd_N]. Qed.
Definition rep64 (x : R) : Prop := generic_format radix2 (SpecFloat.fexp 53 1024) x.
Lemma rep64_IZR z : (Z.abs z <= 2 ^ 53)%Z -> rep64 (IZR z).
Proof.
  intros H. unfold rep64. change (SpecFloat.fexp 53 1024) with (FLT_exp (-1074) 53). destruct (Z.eq_dec (Z.abs z) (2 ^ 53)) as [E|N].
  - replace (IZR z) with (F2R (Float radix2 (Z.sgn z) 53)). 2:{ unfold F2R. cbn [Fnum Fexp]. change (bpow radix2 53) with (IZR (2 ^ 53)). rewrite <- mult_IZR. f_equal. lia. }
    apply generic_format_FLT. exists (Float radix2 (Z.sgn z) 53); auto; cbn [Fnum Fexp]; [change (radix2 ^ 53)%Z with (2 ^ 53)%Z; lia|lia].
  - replace (IZR z) with (F2R (Float radix2 z 0)) by (unfold F2R; cbn; lra). apply generic_format_FLT. exists (Float radix2 z 0); auto; cbn [Fnum Fexp]; [change (radix2 ^ 53)%Z with (2 ^ 53)%Z; lia|lia].
Qed.
Lemma norm64_ok m e s k : rep64 k -> Rabs (F2R (Float radix2 m e)) <= k -> k < bpow radix2 1024 ->
  is_finite (binary_normalize 53 1024 p64 e64 mode_NE m e s) = true /\ Rabs (B2R (binary_normalize 53 1024 p64 e64 mode_NE m e s)) <= k.
Proof.
  intros G H L. pose proof (binary_normalize_correct 53 1024 p64 e64 mode_NE m e s) as C. cbv zeta in C.
  pose proof (r64_abs _ _ G H) as B. rewrite Rlt_bool_true in C by lra. destruct C as (C1 & C2 & _). split; auto. now rewrite C1.
Qed.
Lemma norm32_ok m e s k : rep k -> Rabs (F2R (Float radix2 m e)) <= k -> k < huge ->
  is_finite (binary_normalize 24 128 p32 e32 mode_NE m e s) = true /\ Rabs (B2R (binary_normalize 24 128 p32 e32 mode_NE m e s)) <= k.
Proof.
  intros G H L. pose proof (binary_normalize_correct 24 128 p32 e32 mode_NE m e s) as C. cbv zeta in C.
  pose proof (rd_abs_le _ _ G H) as B. change (round radix2 (SpecFloat.fexp 24 128) (round_mode mode_NE) (F2R (Float radix2 m e))) with (rd (F2R (Float radix2 m e))) in C. rewrite (small_bool _ k G H L) in C. destruct C as (C1 & C2 & _). split; auto. rewrite C1. exact B.
Qed.
Lemma to64_ok x k : rep64 k -> 0 <= k -> fin x = true -> Rabs (V x) <= k -> k < bpow radix2 1024 -> is_finite (to64 x) = true /\ Rabs (B2R (to64 x)) <= k.
Proof. intros G P F H L. destruct x as [s|?| |s m e B]; try discriminate; cbn [to64]; [cbn; rewrite Rabs_R0; auto|]. apply norm64_ok; auto. Qed.
Lemma to32_ok x k : rep k -> 0 <= k -> is_finite x = true -> Rabs (B2R x) <= k -> k < huge -> fin (to32 x) = true /\ Rabs (V (to32 x)) <= k.
Proof. intros G P F H L. destruct x as [s|?| |s m e B]; try discriminate; cbn [to32]; [cbn; rewrite Rabs_R0; auto|]. apply norm32_ok; auto. Qed.
Lemma big1024 z : (z <= 2 ^ 100)%Z -> IZR z < bpow radix2 1024.
Proof. intros H. eapply Rlt_trans; [apply huge_big, H|]. unfold huge. apply bpow_lt. lia. Qed.
Lemma plus_half m K : (0 <= K <= 2 ^ 23)%Z -> fin m = true -> Rabs (V m) <= IZR K -> fin (to32 (dadd (to64 m) half64)) = true /\ Rabs (V (to32 (dadd (to64 m) half64))) <= IZR (K + 1).
Proof.
  intros HK F B. assert (0 <= IZR K) by (apply IZR_le; lia).
  destruct (to64_ok m (IZR K)) as (F1 & B1); auto; [apply rep64_IZR; lia|apply big1024; lia|].
  assert (F2 : is_finite half64 = true) by reflexivity. assert (E2 : B2R half64 = / 2) by (cbn; unfold F2R; cbn; lra).
  pose proof (Bplus_correct 53 1024 p64 e64 mode_NE (to64 m) half64 F1 F2) as C. fold (dadd (to64 m) half64) in C.
  assert (Bs : Rabs (B2R (to64 m) + B2R half64) <= IZR (K + 1)) by (rewrite E2, plus_IZR; apply abs_inv in B1; apply Rabs_le; lra).
  pose proof (r64_abs _ _ (rep64_IZR (K + 1) ltac:(lia)) Bs) as Br. rewrite Rlt_bool_true in C by (eapply Rle_lt_trans; [exact Br|apply big1024; lia]).
  destruct C as (C1 & C2 & _). apply to32_ok; auto; [apply rep_IZR; lia|apply IZR_le; lia|now rewrite C1|apply huge_big; lia].
Qed.
Lemma mov_ok dx center : (1 <= dx <= 2 ^ 13)%Z -> fin center = true -> Rabs (V center) <= 8000 -> fin (movF dx center) = true /\ Rabs (V (movF dx center)) <= 12288.
Proof.
  intros Hd Fc Bc. assert (Rd : 1 <= IZR dx <= 8192) by (split; [|change 8192 with (IZR (2 ^ 13))]; apply IZR_le; lia).
  destruct (of_int_ok dx) as (Fd & Ed); [lia|]. destruct (of_int_ok 1) as (F1 & E1); [lia|]. destruct half_ok as (Fh & Eh).
  assert (B1 : Rabs (V (of_int dx) - V (of_int 1)) <= IZR (2 ^ 13)) by (rewrite Ed, E1; change (IZR (2 ^ 13)) with 8192; apply Rabs_le; lra).
  destruct (fsub_ok _ _ _ Fd F1 (rep_IZR (2 ^ 13) ltac:(lia)) B1 (huge_big (2 ^ 13) ltac:(lia))) as (F2 & E2).
  assert (E2' : V (fsub (of_int dx) (of_int 1)) = IZR dx - 1) by (rewrite E2, Ed, E1, <- minus_IZR; apply rd_rep, rep_IZR; lia).
  assert (B3 : Rabs (V (fsub (of_int dx) (of_int 1)) * V half) <= IZR (2 ^ 12)) by (rewrite E2', Eh; change (IZR (2 ^ 12)) with 4096; apply Rabs_le; lra).
  destruct (fmul_ok _ _ _ F2 Fh (rep_IZR (2 ^ 12) ltac:(lia)) B3 (huge_big (2 ^ 12) ltac:(lia))) as (F3 & E3).
  set (u := fmul (fsub (of_int dx) (of_int 1)) half) in *.
  assert (Bu : Rabs (V u) <= 4096) by (rewrite E3; apply (rd_abs_le _ (IZR (2 ^ 12))); [apply rep_IZR; lia|exact B3]).
  apply abs_inv in Bu. apply abs_inv in Bc.
  assert (B4 : Rabs (V u - V center) <= IZR 12096) by (apply Rabs_le; lra).
  destruct (fsub_ok _ _ _ F3 Fc (rep_IZR 12096 ltac:(lia)) B4 (huge_big 12096 ltac:(lia))) as (F4 & E4).
  assert (Bm : Rabs (V (fsub u center)) <= IZR 12096) by (rewrite E4; apply rd_abs_le; [apply rep_IZR; lia|exact B4]).
  unfold movF. fold u. cbv zeta. set (m := fsub u center) in *. set (g := Bltb _ _).
  assert (G : fin (if g then fadd m c001 else m) = true /\ Rabs (V (if g then fadd m c001 else m)) <= IZR 12097).
  { destruct c001_ok as (Fc1 & Ec1). apply abs_inv in Bm. destruct g.
    - assert (B5 : Rabs (V m + V c001) <= IZR 12097) by (rewrite Ec1; apply Rabs_le; lra).
      destruct (fadd_ok _ _ _ F4 Fc1 (rep_IZR 12097 ltac:(lia)) B5 (huge_big 12097 ltac:(lia))) as (F5 & E5). split; auto. rewrite E5. apply rd_abs_le; [apply rep_IZR; lia|exact B5].
    - split; auto. apply Rabs_le; lra. }
  destruct G as (G1 & G2). destruct (plus_half _ 12097 ltac:(lia) G1 G2) as (H1 & H2). split; auto. change (IZR (12097 + 1)) with 12098 in H2. lra.
Qed.
Lemma mul_unit x c k : fin x = true -> fin c = true -> (0 <= k <= 2 ^ 24)%Z -> Rabs (V x) <= IZR k -> Rabs (V c) <= 1 -> fin (fmul x c) = true /\ Rabs (V (fmul x c)) <= IZR k.
Proof.
  intros Fx Fc Hk Bx Bc. assert (B : Rabs (V x * V c) <= IZR k).
  { rewrite Rabs_mult. pose proof (Rabs_pos (V x)). pose proof (Rabs_pos (V c)). apply Rle_trans with (Rabs (V x) * 1); [apply Rmult_le_compat_l; auto|lra]. }
  destruct (fmul_ok x c (IZR k) Fx Fc (rep_IZR k ltac:(lia)) B (huge_big k ltac:(lia))) as (F & E). split; auto. rewrite E. apply rd_abs_le; [apply rep_IZR; lia|exact B].
Qed.
Lemma line_ok ry rz dx center sin_p cos_p d : (1 <= ry <= 2 ^ 13)%Z -> (1 <= rz <= 2 ^ 13)%Z -> (0 <= d < dx)%Z -> (dx <= 2 ^ 13)%Z ->
  fin center = true -> Rabs (V center) <= 8000 -> fin sin_p = true -> fin cos_p = true -> Rabs (V sin_p) <= 1 -> Rabs (V cos_p) <= 1 ->
  let l := pixel_lineF ry rz dx center sin_p cos_p d in fin (fsrcx l) = true /\ fin (fsrcy l) = true /\ Rabs (V (fsrcx l)) <= 32768 /\ Rabs (V (fsrcy l)) <= 32768.
Proof.
  intros Hy Hz Hd Hx Fc Bc Fs Fo Bs Bo. cbv zeta. unfold pixel_lineF, ray_lineF. cbn [fsrcx fsrcy].
  set (xi := of_int (- ry - rz)). destruct (of_int_ok (- ry - rz)) as (Fi & Ei); [lia|]. fold xi in Fi, Ei.
  assert (Bi : Rabs (V xi) <= IZR (2 ^ 14)). { rewrite Ei, <- abs_IZR. apply IZR_le. lia. }
  destruct (mhalf_ok (1 - dx)) as (_ & _ & Fh & Eh); [lia|]. destruct (of_int_ok d) as (Fd & Ed); [lia|].
  assert (B1 : Rabs (V (fmul half (of_int (1 - dx))) + V (of_int d)) <= IZR (2 ^ 12)).
  { rewrite Eh, Ed, minus_IZR. assert (0 <= IZR d <= IZR (dx - 1)) by (split; apply IZR_le; lia). rewrite minus_IZR in H. assert (1 <= IZR dx <= IZR (2 ^ 13)) by (split; apply IZR_le; lia).
    change (IZR (2 ^ 13)) with 8192 in *. change (IZR (2 ^ 12)) with 4096. apply Rabs_le. lra. }
  destruct (fadd_ok _ _ _ Fh Fd (rep_IZR (2 ^ 12) ltac:(lia)) B1 (huge_big (2 ^ 12) ltac:(lia))) as (F1 & E1).
  set (p := fadd (fmul half (of_int (1 - dx))) (of_int d)) in *.
  assert (Bp : Rabs (V p) <= 4096) by (rewrite E1; apply (rd_abs_le _ (IZR (2 ^ 12))); [apply rep_IZR; lia|exact B1]).
  destruct (mov_ok dx center ltac:(lia) Fc Bc) as (Fm & Bm). apply abs_inv in Bp. apply abs_inv in Bm.
  assert (B2 : Rabs (V p + V (movF dx center)) <= IZR (2 ^ 14)) by (change (IZR (2 ^ 14)) with 16384; apply Rabs_le; lra).
  destruct (fadd_ok _ _ _ F1 Fm (rep_IZR (2 ^ 14) ltac:(lia)) B2 (huge_big (2 ^ 14) ltac:(lia))) as (Fy & Ey).
  set (yi := fadd p (movF dx center)) in *.
  assert (By : Rabs (V yi) <= IZR (2 ^ 14)) by (rewrite Ey; apply rd_abs_le; [apply rep_IZR; lia|exact B2]).
  destruct (mul_unit xi cos_p (2 ^ 14) Fi Fo ltac:(lia) Bi Bo) as (P1 & Q1). destruct (mul_unit yi sin_p (2 ^ 14) Fy Fs ltac:(lia) By Bs) as (P2 & Q2).
  destruct (mul_unit xi sin_p (2 ^ 14) Fi Fs ltac:(lia) Bi Bs) as (P3 & Q3). destruct (mul_unit yi cos_p (2 ^ 14) Fy Fo ltac:(lia) By Bo) as (P4 & Q4).
  change (IZR (2 ^ 14)) with 16384 in *. apply abs_inv in Q1, Q2, Q3, Q4.
  assert (B3 : Rabs (V (fmul xi cos_p) - V (fmul yi sin_p)) <= IZR (2 ^ 15)) by (change (IZR (2 ^ 15)) with 32768; apply Rabs_le; lra).
  assert (B4 : Rabs (V (fmul xi sin_p) + V (fmul yi cos_p)) <= IZR (2 ^ 15)) by (change (IZR (2 ^ 15)) with 32768; apply Rabs_le; lra).
  destruct (fsub_ok _ _ _ P1 P2 (rep_IZR (2 ^ 15) ltac:(lia)) B3 (huge_big (2 ^ 15) ltac:(lia))) as (G1 & H1).
  destruct (fadd_ok _ _ _ P3 P4 (rep_IZR (2 ^ 15) ltac:(lia)) B4 (huge_big (2 ^ 15) ltac:(lia))) as (G2 & H2).
  rewrite H1, H2. repeat split; auto; apply (rd_abs_le _ (IZR (2 ^ 15))); auto; apply rep_IZR; lia.
Qed.

(** ** Kept points are close to the line through the source *)
Lemma near_line rz ry l n : (1 <= ry <= 2 ^ 13)%Z -> (1 <= rz <= 2 ^ 13)%Z -> (0 <= n <= rz)%Z -> fin (fsrcx l) = true -> fin (fsrcy l) = true ->
  Rabs (V (fsrcx l)) <= 32768 -> Rabs (V (fsrcy l)) <= 32768 -> fin (fsub (fsrcy l) (fdety l)) = true -> insideF ry (coordxF rz l n) = true ->
  exists y, Rabs (y - V (gridF rz n)) <= / 512 /\
    Rabs (V (coordxF rz l n) - (V (fsrcx l) + V (fsub (fsrcx l) (fdetx l)) / V (fsub (fsrcy l) (fdety l)) * (y - V (fsrcy l)))) <= 612 / 100000.
Proof.
  intros Hk Hr Hn Fs Fo Bs Bo FP H. unfold coordxF, islopeF in *. destruct (inside_ok ry _ ltac:(lia) H) as (F & L). destruct (fadd_fin _ _ F) as (F1 & _ & E1). destruct (fmul_fin _ _ F1) as (F2 & F3 & E2).
  destruct (fdiv_fin _ _ F2) as (FQ & D). destruct (D FP) as (N & E3).
  destruct (fsub_fin _ _ F3) as (_ & _ & E4). destruct (grid_ok rz n) as (_ & Eg); [lia|lia|].
  set (a := V (fsub (gridF rz n) (fsrcy l))) in *. exists (a + V (fsrcy l)).
  assert (Rr : 1 <= IZR rz <= 8192) by (split; [|change 8192 with (IZR (2 ^ 13))]; apply IZR_le; lia).
  assert (Rk : 1 <= IZR ry <= 8192) by (split; [|change 8192 with (IZR (2 ^ 13))]; apply IZR_le; lia).
  assert (Rn : 0 <= IZR n <= IZR rz) by (split; apply IZR_le; lia). apply abs_inv in Bo as Bo'.
  assert (B : Rabs (V (gridF rz n) - V (fsrcy l)) <= 65536) by (rewrite Eg; apply Rabs_le; lra).
  assert (Ea : Rabs (a - (V (gridF rz n) - V (fsrcy l))) <= / 512).
  { rewrite E4. change (/ 512) with (bpow radix2 (16 - 25)). apply rd_err; [lia|]. exact B. }
  split; [apply abs_inv in Ea; apply Rabs_le; lra|]. replace (a + V (fsrcy l) - V (fsrcy l)) with a by ring.
  assert (Ba : Rabs a <= 131072). { apply abs_inv in Ea. apply abs_inv in B. apply Rabs_le. lra. }
  rewrite E1, E2, E3 in *.
  assert (BX : Rabs (rd (rd (rd (V (fsub (fsrcx l) (fdetx l)) / V (fsub (fsrcy l) (fdety l))) * a) + V (fsrcx l))) < 8192) by (apply Rabs_def1; lra).
  exact (coord_err _ _ _ Ba Bs BX).
Qed.

(** ** A very large grid *)
Definition big : Z := 2 ^ 20.
Definition big_line : lineF := pixel_lineF big 1 big (fmul half (of_int (big - 1))) (of_int (-1)) (of_int 0) (big - 1).
Lemma inf_not_inside r s x y : fin (fadd (gridF r 0) c001) = true -> fin (fsub (gridF r r) c001) = true -> fin y = true -> insideF r (fadd (fmul (B754_infinity s) x) y) = false.
Proof.
  intros F0 F1 F. destruct (insideF r _) eqn:E; auto. exfalso. unfold insideF in E. apply andb_true_iff in E. destruct E as (E1 & E2).
  destruct (fle_fin _ _ F0 E1 _ F1 E2) as (G & _). apply fadd_fin in G. destruct G as (G & _). apply fmul_fin in G. destruct G as (G & _). discriminate G.
Qed.
Lemma big_xs : insideF big (coordxF 1 big_line 0) = true /\ insideF big (coordxF 1 big_line 1) = true.
Proof. vm_compute. auto. Qed.
Lemma big_ys n : insideF 1 (coordyF big big_line n) = false.
Proof.
  unfold coordyF. assert (slopeF big_line = B754_infinity false) as -> by (vm_compute; reflexivity). apply inf_not_inside; vm_compute; reflexivity.
Qed.
Lemma filter_none {A} (p : A -> bool) l : (forall x, p x = false) -> filter p l = [].
Proof. intros H. induction l as [|x l IH]; cbn; auto. now rewrite H. Qed.
Lemma two_points ry l quadrant za zb zc : (1 <= ry)%Z -> insideF ry (coordxF 1 l 0) = true -> insideF ry (coordxF 1 l 1) = true -> (forall n, insideF 1 (coordyF ry l n) = false) ->
  let t := traceF ry 1 quadrant (coordxF 1 l) (coordyF ry l) za zb zc in
  let p := (coordxF 1 l 0, gridF 1 0) in let q := (coordxF 1 l 1, gridF 1 1) in
  fcsize t = 2%Z /\ (fcoor t 0%Z = p /\ fcoor t 1%Z = q \/ fcoor t 0%Z = q /\ fcoor t 1%Z = p).
Proof.
  intros Hy I0 I1 Hn. cbv zeta.
  destruct (trace_sizes ry 1 quadrant (coordxF 1 l) (coordyF ry l) za zb zc Hy ltac:(lia)) as (Ea & Eb & Ec).
  pose proof (trace_points ry 1 quadrant (coordxF 1 l) (coordyF ry l) za zb zc Hy ltac:(lia)) as P.
  assert (Na : na ry 1 (coordxF 1 l) = [0; 1]%Z).
  { unfold na, hitsF. change (zrange 0 (1 + 1)) with [0; 1]%Z. cbn [filter]. rewrite I0, I1. reflexivity. }
  assert (Nb : nb ry 1 (coordyF ry l) = []) by (apply filter_none, Hn).
  rewrite Na in Ea, P. rewrite Nb in Eb, P. cbn [length Z.of_nat] in Ea, Eb. rewrite Ea, Eb in Ec. change (2 + 0)%Z with 2%Z in Ec. change (Z.pos (Pos.of_succ_nat 1) + 0)%Z with 2%Z in Ec.
  split; [exact Ec|]. rewrite Ec in P. change (zrange 0 2) with [0; 1]%Z in P. cbn [map app] in P. apply Permutation_sym, Permutation_length_2_inv in P.
  destruct P as [P|P]; injection P as P1 P2; rewrite P1, P2; auto.
Qed.
Lemma seg_at ry rz (c : arr pointF) p q i j : c 0%Z = p -> c 1%Z = q -> pixelF rz (snd p) (snd q) = Some j -> pixelF ry (fst p) (fst q) = Some i -> seg_indiF ry rz c 0 = Some (j + i * rz)%Z.
Proof. intros <- <- E1 E2. unfold seg_indiF, seg_indxF, seg_indyF. change (0 + 1)%Z with 1%Z. now rewrite E1, E2. Qed.
Lemma big_pixels : pixelF big (coordxF 1 big_line 0) (coordxF 1 big_line 1) = Some big /\ pixelF big (coordxF 1 big_line 1) (coordxF 1 big_line 0) = Some big /\
  pixelF 1 (gridF 1 0) (gridF 1 1) = Some 0%Z /\ pixelF 1 (gridF 1 1) (gridF 1 0) = Some 0%Z.
Proof. vm_compute. auto. Qed.
Lemma big_trace quadrant za zb zc : fcsize (traceF big 1 quadrant (coordxF 1 big_line) (coordyF big big_line) za zb zc) = 2%Z /\
  seg_indiF big 1 (fcoor (traceF big 1 quadrant (coordxF 1 big_line) (coordyF big big_line) za zb zc)) 0 = Some (0 + big * 1)%Z.
Proof.
  destruct (two_points big big_line quadrant za zb zc ltac:(discriminate) (proj1 big_xs) (proj2 big_xs) big_ys) as (A & B). split; [exact A|].
  destruct big_pixels as (P1 & P2 & P3 & P4).
  destruct B as [(B1 & B2)|(B1 & B2)].
  - exact (seg_at big 1 _ _ _ _ _ B1 B2 P3 P1).
  - exact (seg_at big 1 _ _ _ _ _ B1 B2 P4 P2).
Qed.
