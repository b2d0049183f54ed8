From Verif Require Import Base CLoop Cplx Model_Prep Model_Solver Model_Gridrec Proofs_Ring Spec_Gridrec.
From Coq Require Import Reals Lra.
Local Open Scope R_scope.

(** ** pdim *)
Lemma pdim_loop_spec fuel dx p : (1 <= p)%Z -> (dx <= p + Z.of_nat fuel)%Z ->
  exists k : nat, pdim_loop fuel dx p = (p * 2 ^ Z.of_nat k)%Z /\ (dx <= pdim_loop fuel dx p)%Z /\ (k = 0%nat \/ (pdim_loop fuel dx p < 2 * dx)%Z).
Proof.
  revert p. induction fuel as [|fuel IH]; intros p Hp Hf; cbn [pdim_loop]; destruct (p <? dx)%Z eqn:E.
  - lia.
  - exists 0%nat. cbn. split; [lia|]. split; [lia|now left].
  - destruct (IH (p * 2)%Z ltac:(lia) ltac:(lia)) as (k & H1 & H2 & H3). exists (S k). split; [|split; [auto|]].
    + rewrite H1. rewrite Nat2Z.inj_succ, Z.pow_succ_r by lia. ring.
    + right. destruct H3 as [->|]; [|auto]. rewrite H1. change (2 ^ Z.of_nat 0)%Z with 1%Z. lia.
  - exists 0%nat. cbn. split; [lia|]. split; [lia|now left].
Qed.
Lemma pdim_spec dx : exists k, (4 <= k)%Z /\ pdim_of dx = (2 ^ k)%Z /\ (dx <= pdim_of dx)%Z /\ (pdim_of dx = 16%Z \/ (pdim_of dx < 2 * dx)%Z).
Proof.
  destruct (pdim_loop_spec (Z.to_nat dx) dx 16 ltac:(lia) ltac:(lia)) as (k & H1 & H2 & H3). exists (4 + Z.of_nat k)%Z.
  unfold pdim_of. split; [lia|]. split.
  - rewrite H1, Z.pow_add_r by lia. reflexivity.
  - split; [auto|]. destruct H3 as [->|]; [|auto]. left. rewrite H1. reflexivity.
Qed.
Lemma pdim_even dx : exists m, pdim_of dx = (2 * m)%Z /\ (8 <= m)%Z.
Proof.
  destruct (pdim_spec dx) as (k & H & -> & _). exists (2 ^ (k - 1))%Z. split.
  - replace k with (Z.succ (k - 1)) at 1 by lia. rewrite Z.pow_succ_r by lia. reflexivity.
  - change 8%Z with (2 ^ 3)%Z. apply Z.pow_le_mono_r; lia.
Qed.
Lemma pdim_ge dx : (16 <= pdim_of dx)%Z /\ (dx <= pdim_of dx)%Z.
Proof. destruct (pdim_spec dx) as (k & _ & _ & H2 & _). destruct (pdim_even dx) as (m & E & H). lia. Qed.

(** ** rounding *)
Lemma int_part_le x : IZR (Int_part x) <= x. Proof. destruct (base_Int_part x). lra. Qed.
Lemma int_part_gt x : x < IZR (Int_part x) + 1. Proof. destruct (base_Int_part x). lra. Qed.
Lemma int_part_glb x k : IZR k <= x -> (k <= Int_part x)%Z.
Proof. intros H. apply Z.lt_succ_r, lt_IZR. rewrite succ_IZR. pose proof (int_part_gt x). lra. Qed.
Lemma int_part_lub x k : (Int_part x < k)%Z -> x < IZR k.
Proof. intros H. pose proof (int_part_gt x). assert (Int_part x + 1 <= k)%Z by lia. apply IZR_le in H1. rewrite plus_IZR in H1. lra. Qed.
Lemma floor_le x k : (k <= floorf x)%Z <-> IZR k <= x.
Proof. unfold floorf. split; intros H; [|now apply int_part_glb]. apply Rle_trans with (IZR (Int_part x)); [now apply IZR_le|apply int_part_le]. Qed.
Lemma ceil_le x k : (ceilf x <= k)%Z <-> x <= IZR k.
Proof.
  unfold ceilf. split; intros H.
  - assert (- k <= Int_part (- x))%Z by lia. apply (proj1 (floor_le (- x) (- k))) in H0. rewrite opp_IZR in H0. lra.
  - assert (- k <= Int_part (- x))%Z; [|lia]. apply int_part_glb. rewrite opp_IZR. lra.
Qed.
Lemma roundf_nonneg x : 0 <= x -> roundf x = nearest x.
Proof. intros H. unfold roundf, rltb, nearest. destruct (Rlt_dec x 0); [lra|reflexivity]. Qed.

(** ** the walk over one axis *)
Lemma zrange_map a b : zrange a b = map (fun i => (i + a)%Z) (zrange 0 (b - a)).
Proof.
  destruct (Z_le_dec b a).
  - rewrite !zrange_nil by lia. reflexivity.
  - replace b with (a + Z.of_nat (Z.to_nat (b - a)))%Z at 1 by lia. replace (b - a)%Z with (Z.of_nat (Z.to_nat (b - a))) at 2 by lia.
    generalize (Z.to_nat (b - a)). clear n. intros m. induction m as [|m IH].
    + rewrite !zrange_nil by lia. reflexivity.
    + replace (a + Z.of_nat (S m))%Z with (a + Z.of_nat m + 1)%Z by lia. replace (Z.of_nat (S m)) with (Z.of_nat m + 1)%Z by lia.
      rewrite !zrange_snoc by lia. rewrite map_app, IH. cbn [map]. apply f_equal, f_equal2; [lia|reflexivity].
Qed.
Lemma zrange_split a b c : (a <= b <= c)%Z -> zrange a c = zrange a b ++ zrange b c.
Proof. intros H. now rewrite zrange_app. Qed.
Lemma offset_spec m n : (n <= 2 * m)%Z -> offset (2 * m) n = ((n + 1) / 2)%Z.
Proof. intros H. unfold offset, pad. rewrite Z.quot_div_nonneg by lia. lia. Qed.
Lemma walk_spec fuel m n : (1 <= n <= 2 * m)%Z -> (2 <= fuel)%nat ->
  walk fuel (2 * m) n = map (fun j => (j, (j - (n + 1) / 2) mod (2 * m))%Z) (zrange 0 n).
Proof.
  intros H Hf. unfold walk. rewrite offset_spec by lia. set (off := ((n + 1) / 2)%Z).
  assert (Ho : (1 <= off <= n /\ n <= 2 * off <= n + 1)%Z) by lia. clearbody off.
  destruct fuel as [|[|fuel]]; try lia. cbn [walk_rounds]. destruct (0 <? n)%Z eqn:E; [|lia].
  replace (0 + Z.max 0 (2 * m - (2 * m - off)))%Z with off by lia.
  assert (R1 : round 0 (2 * m - off) (2 * m) = map (fun j => (j, (j - off) mod (2 * m))%Z) (zrange 0 off)).
  { unfold round. rewrite (zrange_map (2 * m - off)). rewrite map_map. replace (2 * m - (2 * m - off))%Z with off by lia.
    apply map_ext_in. intros j Hj. apply in_zrange in Hj. f_equal; [lia|].
    apply Zmod_unique with (-1)%Z; lia. }
  rewrite R1. destruct (off <? n)%Z eqn:E2.
  - replace (off + Z.max 0 (n - off - 0))%Z with n by lia.
    assert (R3 : walk_rounds fuel n off n 0 (n - off) = []) by (destruct fuel; cbn; destruct (n <? n)%Z eqn:E3; auto; lia).
    rewrite R3, app_nil_r. rewrite (zrange_split 0 off n) by lia. rewrite map_app. f_equal. unfold round.
    rewrite (zrange_map off). rewrite map_map. apply map_ext_in. intros j Hj. apply in_zrange in Hj. f_equal; [lia|].
    apply Zmod_unique with 0%Z; lia.
  - replace off with n by lia. now rewrite app_nil_r.
Qed.

(** ** the window tables *)
Lemma for_range_succ {S} a b (body : Z -> S -> S) s : (a <= b)%Z -> for_range a (b + 1) body s = body b (for_range a b body s).
Proof. intros H. unfold for_range. rewrite zrange_snoc by lia. now rewrite fold_left_app. Qed.
Definition alternating (d : Z) : R := if Z.even d then winv_norm else - winv_norm.
Definition winv_at (linv d : Z) : R := alternating d / wtbl (roundf (IZR (Z.abs d) * winv_fac linv)).
Lemma roundf_0 x : roundf (0 * x) = 0%Z.
Proof. unfold roundf, rltb. destruct (Rlt_dec (0 * x) 0); [lra|]. replace (0 * x + 1 / 2) with (1 / 2) by lra.
  assert (0 <= Int_part (1 / 2))%Z by (apply int_part_glb; lra). pose proof (int_part_le (1 / 2)).
  assert (Int_part (1 / 2) < 1)%Z by (apply lt_IZR; lra). lia. Qed.
Lemma even_opp d : Z.even (- d) = Z.even d. Proof. destruct d; reflexivity. Qed.
Lemma set_winv_spec linv mem : (0 <= linv)%Z -> forall i,
  set_winv linv mem i = if (0 <=? i)%Z && (i <=? 2 * linv)%Z then winv_at linv (i - linv) else mem i.
Proof.
  intros Hl. unfold set_winv.
  pose (P := fun (q : Z) (st : R * arr R) => fst st = alternating (q - 1) /\
     forall i, snd st i = if (Z.abs (i - linv) <? q)%Z then winv_at linv (i - linv) else mem i).
  match goal with |- forall i, snd ?t i = _ => assert (HP : P (linv + 1)%Z t) end.
  { apply (for_range_ind P); [lia| |].
    - split; [reflexivity|]. cbn [snd]. intros i. destruct (Z.abs (i - linv) <? 1)%Z eqn:E.
      + assert (i = linv) as -> by lia. rewrite aset_eq. unfold winv_at. rewrite Z.sub_diag. cbn [Z.abs alternating Z.even].
        rewrite roundf_0. reflexivity.
      + rewrite aset_ne by lia. reflexivity.
    - intros q [norm w] Hq [H1 H2]. cbn [fst snd] in *.
      assert (Hn : - norm = alternating q).
      { rewrite H1. unfold alternating. replace q with (Z.succ (q - 1)) at 2 by lia. rewrite Z.even_succ, <- Z.negb_even. destruct (Z.even (q - 1)); cbn; lra. }
      split; [cbn [fst]; rewrite Hn; f_equal; lia|]. cbn [snd]. intros i.
      destruct (Z.eq_dec i (linv + q)) as [->|N1].
      + rewrite aset_eq. replace (linv + q - linv)%Z with q by lia. destruct (Z.abs q <? q + 1)%Z eqn:E; [|lia].
        unfold winv_at. rewrite Hn, Z.abs_eq by lia. reflexivity.
      + rewrite aset_ne by auto. destruct (Z.eq_dec i (linv - q)) as [->|N2].
        * rewrite aset_eq. replace (linv - q - linv)%Z with (- q)%Z by lia. destruct (Z.abs (- q) <? q + 1)%Z eqn:E; [|lia].
          unfold winv_at, alternating. rewrite even_opp. fold (alternating q). rewrite <- Hn, Z.abs_opp, Z.abs_eq by lia. reflexivity.
        * rewrite aset_ne by auto. rewrite H2.
          destruct (Z.abs (i - linv) <? q)%Z eqn:E1, (Z.abs (i - linv) <? q + 1)%Z eqn:E2; auto; lia. }
  intros i. destruct HP as [_ H2]. rewrite H2.
  destruct (Z.abs (i - linv) <? linv + 1)%Z eqn:E, ((0 <=? i)%Z && (i <=? 2 * linv)%Z) eqn:E2; auto; lia.
Qed.

(** ** gridding *)
Definition when (b : bool) (z : cplx) : cplx := if b then z else cr 0.
Section Gridding.
  Variables (dt dx : Z).
  Variable theta : arr R.
  Let pdim := pdim_of dx.
  Let pdim2 := (pdim / 2)%Z.

  Definition inbox (u : R) (i : Z) : bool := (box_lo u <=? i)%Z && (i <? box_hi dx u + 1)%Z.
  Lemma weight_box u i : weight pdim wtbl u i = if inbox u i then conv u i else 0.
  Proof.
    unfold weight, inbox, box_lo, box_hi, conv, tblspcg. fold pdim.
    pose proof (ceil_le (u - l2) i) as Hc. pose proof (floor_le (u + l2) i) as Hf. unfold l2 in *.
    rewrite roundf_nonneg by (pose proof (Rabs_pos (u - IZR i)); lra).
    destruct ((1 <=? i)%Z && (i <? pdim)%Z) eqn:E1.
    - destruct (Rle_dec (Rabs (u - IZR i)) 2) as [L|L].
      + apply Rabs_le_between in L || (unfold Rabs in L; destruct (Rcase_abs (u - IZR i))).
        all: assert (ceilf (u - 2) <= i)%Z by (apply Hc; lra); assert (i <= floorf (u + 2))%Z by (apply Hf; lra).
        all: match goal with |- _ = if ?b then _ else _ => destruct b eqn:E2 end; auto; lia.
      + match goal with |- _ = if ?b then _ else _ => destruct b eqn:E2 end; auto. exfalso. apply L.
        assert (H1 : u - 2 <= IZR i) by (apply Hc; lia). assert (H2 : IZR i <= u + 2) by (apply Hf; lia).
        unfold Rabs. destruct (Rcase_abs (u - IZR i)); lra.
    - match goal with |- _ = if ?b then _ else _ => destruct b eqn:E2 end; auto. lia.
  Qed.

  Lemma inner_spec iu (k : Z -> cplx) z1 z2 lo hi h a b :
    for_range lo hi (fun iv h => hadd (hadd h iu iv (k iv * z1)%C) (pdim - iu) (pdim - iv) (k iv * z2)%C) h a b =
    (h a b + when ((a =? iu)%Z && ((lo <=? b)%Z && (b <? hi)%Z)) (k b * z1) +
     when ((pdim - a =? iu)%Z && ((lo <=? pdim - b)%Z && (pdim - b <? hi)%Z)) (k (pdim - b)%Z * z2))%C.
  Proof.
    destruct (Z_le_dec hi lo) as [Hle|Hgt].
    - rewrite for_range_nil by lia. unfold when.
      destruct ((a =? iu)%Z && _) eqn:E1; [lia|]. destruct ((pdim - a =? iu)%Z && _) eqn:E2; [lia|]. ring.
    - revert a b. pose (P := fun (q : Z) (st : Z -> Z -> cplx) => forall a b,
        st a b = (h a b + when ((a =? iu)%Z && ((lo <=? b)%Z && (b <? q)%Z)) (k b * z1) +
          when ((pdim - a =? iu)%Z && ((lo <=? pdim - b)%Z && (pdim - b <? q)%Z)) (k (pdim - b)%Z * z2))%C).
      apply (for_range_ind P); [lia| |].
      + intros a b. unfold when. destruct ((a =? iu)%Z && _) eqn:E1; [lia|]. destruct ((pdim - a =? iu)%Z && _) eqn:E2; [lia|]. ring.
      + intros q st Hq HP a b. unfold P in HP. cbv beta delta [hadd]. rewrite !(HP a b). unfold when.
        destruct ((a =? iu)%Z && ((lo <=? b)%Z && (b <? q)%Z)) eqn:E1, ((a =? iu)%Z && ((lo <=? b)%Z && (b <? q + 1)%Z)) eqn:E2,
          ((pdim - a =? iu)%Z && ((lo <=? pdim - b)%Z && (pdim - b <? q)%Z)) eqn:E3,
          ((pdim - a =? iu)%Z && ((lo <=? pdim - b)%Z && (pdim - b <? q + 1)%Z)) eqn:E4,
          ((a =? iu)%Z && (b =? q)%Z) eqn:E5, ((a =? pdim - iu)%Z && (b =? pdim - q)%Z) eqn:E6; try lia;
          try (assert (q = b) by lia; subst q); try (assert (Eq : (pdim - b)%Z = q) by lia; rewrite ?Eq);
          try (assert (Eq' : (pdim - b)%Z = b) by lia; rewrite ?Eq'); try ring.
  Qed.
  Lemma outer_spec (step : Z -> (Z -> Z -> cplx) -> Z -> Z -> cplx) (f g : Z -> Z -> cplx) lo hi h a b :
    (forall iu h a b, step iu h a b = (h a b + when (a =? iu)%Z (f a b) + when (pdim - a =? iu)%Z (g a b))%C) ->
    for_range lo hi step h a b =
    (h a b + when ((lo <=? a)%Z && (a <? hi)%Z) (f a b) + when ((lo <=? pdim - a)%Z && (pdim - a <? hi)%Z) (g a b))%C.
  Proof.
    intros Hs. destruct (Z_le_dec hi lo) as [Hle|Hgt].
    - rewrite for_range_nil by lia. unfold when. destruct ((lo <=? a)%Z && _) eqn:E1; [lia|]. destruct ((lo <=? pdim - a)%Z && _) eqn:E2; [lia|]. ring.
    - revert a b. pose (P := fun (q : Z) (st : Z -> Z -> cplx) => forall a b,
        st a b = (h a b + when ((lo <=? a)%Z && (a <? q)%Z) (f a b) + when ((lo <=? pdim - a)%Z && (pdim - a <? q)%Z) (g a b))%C).
      apply (for_range_ind P); [lia| |].
      + intros a b. unfold when. destruct ((lo <=? a)%Z && _) eqn:E1; [lia|]. destruct ((lo <=? pdim - a)%Z && _) eqn:E2; [lia|]. ring.
      + intros q st Hq HP a b. rewrite Hs, HP. unfold when.
        destruct ((lo <=? a)%Z && (a <? q)%Z) eqn:E1, ((lo <=? a)%Z && (a <? q + 1)%Z) eqn:E2, ((lo <=? pdim - a)%Z && (pdim - a <? q)%Z) eqn:E3,
          ((lo <=? pdim - a)%Z && (pdim - a <? q + 1)%Z) eqn:E4, (a =? q)%Z eqn:E5, (pdim - a =? q)%Z eqn:E6; try lia; ring.
  Qed.
  Let w := weight pdim wtbl.
  Lemma spread_spec u v z1 z2 h a b :
    spread dx u v z1 z2 h a b = (h a b + cr (w u a * w v b) * z1 + cr (w u (pdim - a)%Z * w v (pdim - b)%Z) * z2)%C.
  Proof.
    unfold spread.
    rewrite (outer_spec _ (fun a b => when (inbox v b) (cr (conv u a * conv v b) * z1)%C)
      (fun a b => when (inbox v (pdim - b)) (cr (conv u (pdim - a) * conv v (pdim - b)) * z2)%C)).
    - fold (inbox u a) (inbox u (pdim - a)). unfold w. rewrite !weight_box. unfold when.
      destruct (inbox u a), (inbox u (pdim - a)), (inbox v b), (inbox v (pdim - b)); rewrite ?cr_mul; ring.
    - intros iu h' a' b'. cbn beta. fold pdim.
      rewrite (inner_spec iu (fun iv => cr (conv u iu * conv v iv)) z1 z2). fold (inbox v b') (inbox v (pdim - b')). unfold when.
      destruct (Z.eqb_spec a' iu) as [E1|E1], (Z.eqb_spec (pdim - a') iu) as [E2|E2]; cbn [andb]; rewrite ?E2, ?E1;
        destruct (inbox v b'), (inbox v (pdim - b')); ring.
  Qed.

  Section Grid.
    Variables fp x : Z -> Z -> cplx.
    Definition uu (p j : Z) : R := IZR j * cos (theta p) + IZR pdim2.
    Definition vv (p j : Z) : R := IZR j * sin (theta p) + IZR pdim2.
    Definition term (p j a b : Z) : cplx :=
      (cr (w (uu p j) a * w (vv p j) b) * (fp p j * x p j) +
       cr (w (uu p j) (pdim - a)%Z * w (vv p j) (pdim - b)%Z) * (conj (fp p j) * x p (pdim - j)%Z))%C.
    Lemma grid_spec a b : (0 <= dt)%Z ->
      grid dt dx theta fp x a b = csum dt (fun p => csum (pdim2 - 1) (fun j => term p (j + 1) a b)).
    Proof.
      intros Hdt. revert a b. unfold grid.
      pose (P := fun (q : Z) (st : Z -> Z -> cplx) => forall a b, st a b = csum q (fun p => csum (pdim2 - 1) (fun j => term p (j + 1) a b))).
      apply (for_inv P); [auto| |].
      - intros a b. now rewrite csum_0 by lia.
      - intros p st Hp HP a b. fold pdim. fold pdim2. rewrite csum_S by lia. rewrite <- HP.
        assert (H2 : (8 <= pdim2)%Z) by (unfold pdim2, pdim; destruct (pdim_even dx) as (m & -> & Hm); rewrite Z.mul_comm, Z.div_mul; lia).
        revert a b. pose (Q := fun (q : Z) (st' : Z -> Z -> cplx) => forall a b, st' a b = (st a b + csum (q - 1) (fun j => term p (j + 1) a b))%C).
        apply (for_range_ind Q); [lia| |].
        + intros a b. rewrite csum_0 by lia. ring.
        + intros j st' Hj HQ a b. rewrite spread_spec. rewrite HQ. fold pdim.
          replace (j + 1 - 1)%Z with (j - 1 + 1)%Z by lia. rewrite csum_S by lia. unfold term. replace (j - 1 + 1)%Z with j by lia.
          fold (uu p j) (vv p j). ring.
    Qed.
  End Grid.
End Gridding.

(** ** transforms *)
Lemma csum_tail n m f : (0 <= m <= n)%Z -> (forall i, (m <= i < n)%Z -> f i = cr 0) -> csum n f = csum m f.
Proof.
  intros H. replace n with (m + Z.of_nat (Z.to_nat (n - m)))%Z by lia. generalize (Z.to_nat (n - m)). intros t Hf.
  induction t as [|t IH]; [f_equal; lia|]. replace (m + Z.of_nat (S t))%Z with (m + Z.of_nat t + 1)%Z in * by lia.
  rewrite csum_S, Hf by lia. rewrite IH by (intros; apply Hf; lia). ring.
Qed.
Lemma csum_mul_r n k f : csum n (fun i => (f i * k)%C) = (csum n f * k)%C.
Proof. rewrite (csum_ext n _ (fun i => (k * f i)%C)) by (intros; ring). rewrite csum_mul. ring. Qed.
Lemma csum_re n f : csum n (fun i => cr (f i)) = cr (re (csum n (fun i => cr (f i)))).
Proof.
  unfold csum. induction (zrange 0 n) as [|a l IH]; cbn [map fold_right]; [reflexivity|]. rewrite IH. cring.
Qed.
Lemma cconj_re z : (z + conj z = cr (2 * re z))%C. Proof. cring. Qed.

Section Transform.
  Variables (n dt : Z) (window : Z -> R).
  Hypothesis Hn : (1 <= n)%Z.
  Let w := weight n window.
  Let wv := wave n window.
  Lemma weight_out u i : (i <= 0 \/ n <= i)%Z -> w u i = 0.
  Proof. intros H. unfold w, weight. destruct ((1 <=? i)%Z && (i <? n)%Z) eqn:E; auto. lia. Qed.
  Lemma wave_conj u a : csum n (fun i => (cr (w u (n - i)%Z) * turn n (- (a * i)))%C) = conj (wv u a).
  Proof.
    rewrite csum_flip by auto. unfold wv, wave. rewrite csum_conj. fold w. apply csum_ext. intros i Hi.
    rewrite conj_mul, conj_cr, conj_turn. destruct (Z.eqb_spec i 0) as [->|N].
    - rewrite !weight_out by lia. ring.
    - replace (n - (n - i))%Z with i by lia. f_equal. replace (- (a * (n - i)))%Z with (a * i + n * (- a))%Z by ring.
      rewrite turn_period by auto. f_equal. ring.
  Qed.
  Lemma wave_mod u a : wv u (a mod n) = wv u a.
  Proof.
    unfold wv, wave. apply csum_ext. intros i _. f_equal.
    replace (- (a mod n * i))%Z with (- (a * i) + n * (a / n * i))%Z; [now apply turn_period|].
    rewrite Z.mod_eq by lia. ring.
  Qed.
  Lemma dft2_product f g a b : dft2_forward n (fun u v => (f u * g v)%C) a b =
    (csum n (fun u => (f u * turn n (- (a * u)))%C) * csum n (fun v => (g v * turn n (- (b * v)))%C))%C.
  Proof.
    unfold dft2_forward. rewrite <- csum_mul_r. apply csum_ext. intros u _. rewrite <- csum_mul. apply csum_ext. intros v _.
    replace (- (a * u + b * v))%Z with (- (a * u) + - (b * v))%Z by ring. rewrite turn_add. ring.
  Qed.
  Lemma dft2_add h1 h2 a b : dft2_forward n (fun u v => (h1 u v + h2 u v)%C) a b = (dft2_forward n h1 a b + dft2_forward n h2 a b)%C.
  Proof.
    unfold dft2_forward. rewrite <- csum_add. apply csum_ext. intros u _. rewrite <- csum_add. apply csum_ext. intros v _. ring.
  Qed.
  Lemma dft2_mul k h a b : dft2_forward n (fun u v => (k * h u v)%C) a b = (k * dft2_forward n h a b)%C.
  Proof.
    unfold dft2_forward. rewrite <- csum_mul. apply csum_ext. intros u _. rewrite <- csum_mul. apply csum_ext. intros v _. ring.
  Qed.
  Lemma dft2_ext h1 h2 a b : (forall u v, h1 u v = h2 u v) -> dft2_forward n h1 a b = dft2_forward n h2 a b.
  Proof. intros H. unfold dft2_forward. apply csum_ext. intros u _. apply csum_ext. intros v _. now rewrite H. Qed.
  Lemma dft2_sum m (h : Z -> Z -> Z -> cplx) a b : dft2_forward n (fun u v => csum m (fun p => h p u v)) a b = csum m (fun p => dft2_forward n (h p) a b).
  Proof.
    unfold dft2_forward. symmetry. rewrite csum_swap. apply csum_ext. intros u _. rewrite csum_swap. apply csum_ext. intros v _. now rewrite csum_mul_r.
  Qed.
  Lemma dft2_two z1 z2 u v a b :
    dft2_forward n (fun i k => (cr (w u i * w v k) * z1 + cr (w u (n - i)%Z * w v (n - k)%Z) * z2)%C) a b =
    (z1 * (wv u a * wv v b) + z2 * conj (wv u a * wv v b))%C.
  Proof.
    rewrite dft2_add. f_equal.
    - rewrite (dft2_ext _ (fun i k => (z1 * (cr (w u i) * cr (w v k)))%C)) by (intros; rewrite cr_mul; ring).
      rewrite dft2_mul, (dft2_product (fun i => cr (w u i)) (fun k => cr (w v k))). reflexivity.
    - rewrite (dft2_ext _ (fun i k => (z2 * (cr (w u (n - i)%Z) * cr (w v (n - k)%Z)))%C)) by (intros; rewrite cr_mul; ring).
      rewrite dft2_mul, (dft2_product (fun i => cr (w u (n - i)%Z)) (fun k => cr (w v (n - k)%Z))). rewrite !wave_conj, conj_mul. reflexivity.
  Qed.
  Lemma backward_conj f j : (forall k, conj (f k) = f k) -> dft_backward n f (n - j) = conj (dft_backward n f j).
  Proof.
    intros H. unfold dft_backward. rewrite csum_conj. apply csum_ext. intros k _. rewrite conj_mul, conj_turn, H. f_equal.
    replace (k * (n - j))%Z with (- (k * j) + n * k)%Z by ring. now apply turn_period.
  Qed.
  Lemma backward_add f g j : dft_backward n (fun k => (f k + g k)%C) j = (dft_backward n f j + dft_backward n g j)%C.
  Proof. unfold dft_backward. rewrite <- csum_add. apply csum_ext. intros k _. ring. Qed.
  Lemma backward_mul c f j : dft_backward n (fun k => (c * f k)%C) j = (c * dft_backward n f j)%C.
  Proof. unfold dft_backward. rewrite <- csum_mul. apply csum_ext. intros k _. ring. Qed.
End Transform.

(** ** one pair of slices *)
Section Pair.
  Variables (dy dt dx : Z).
  Variable pf : R -> Z -> Z -> Z -> R.
  Variable filter2d : bool.
  Variables (data center theta : arr R).
  Hypothesis Hdt : (1 <= dt)%Z.
  Hypothesis Hdx : (1 <= dx)%Z.
  Let pdim := pdim_of dx.
  Let pdim2 := (pdim / 2)%Z.
  Definition pf_at (p j : Z) : R := pf (IZR j / IZR pdim) j (if filter2d then p else 0%Z) pdim2.
  (** the projections of one slice; slices beyond the last one count as zero *)
  Definition rows (s p k : Z) : R := if (s <? dy)%Z then data (k + dx * (p + s * dt))%Z else 0.
  Let spec c d := image pdim dt dx wtbl pf_at theta c d.
  Definition padded (d : Z -> Z -> R) (p k : Z) : cplx := if (k <? dx)%Z then cr (d p k) else cr 0.
  Lemma sino_rows s p k : (s < dy)%Z -> sino dy dt dx data s p k = (padded (rows s) p k + ci * padded (rows (s + 1)) p k)%C.
  Proof.
    intros Hs. unfold sino, padded, rows. destruct (s <? dy)%Z eqn:E0; [|lia]. destruct (k <? dx)%Z eqn:E; [|ring]. destruct (s + 1 <? dy)%Z eqn:E2; [|reflexivity].
    do 4 f_equal. ring.
  Qed.
  Lemma spectrum_eq c d p j : (1 <= j)%Z -> (filphase dt dx pf filter2d c p j * dft_backward pdim (padded d p) j)%C = spectrum pdim dt dx pf_at c d p j.
  Proof.
    intros Hj. pose proof (pdim_ge dx) as [H16 Hge]. fold pdim in H16, Hge.
    unfold dft_backward. rewrite (csum_tail pdim dx) by (lia || (intros k Hk; unfold padded; destruct (k <? dx)%Z eqn:E; [lia|ring])).
    unfold spectrum, filphase. fold pdim. fold pdim2. fold (pf_at p j).
    assert (IZR pdim <> 0) by (apply not_0_IZR; lia). assert (IZR dt <> 0) by (apply not_0_IZR; lia).
    rewrite cr_mul. replace (PI / (IZR pdim * IZR dt)) with (PI / IZR pdim / IZR dt) by (field; auto).
    set (N := PI / IZR pdim / IZR dt). set (x := IZR j * (2 * PI * c / IZR pdim)).
    assert (E : csum dx (fun k => (cr (d p k) * expi (2 * PI * IZR j * (IZR k - c) / IZR pdim))%C) =
                ((cr (cos x) - ci * cr (sin x)) * csum dx (fun k => (padded d p k * turn pdim (k * j))%C))%C).
    { rewrite <- csum_mul. apply csum_ext. intros k Hk. unfold padded. destruct (k <? dx)%Z eqn:Ek; [|lia].
      replace (cr (cos x) - ci * cr (sin x))%C with (expi (- x)) by (unfold expi; rewrite cos_neg, sin_neg; cring).
      unfold turn. replace (2 * PI * IZR j * (IZR k - c) / IZR pdim) with (2 * PI * IZR (k * j) / IZR pdim + - x) by (unfold x; rewrite mult_IZR; field; auto).
      rewrite expi_add. ring. }
    rewrite E. ring.
  Qed.
  Lemma padded_conj d p k : conj (padded d p k) = padded d p k.
  Proof. unfold padded. destruct (k <? dx)%Z; apply conj_cr. Qed.
  Lemma pair_spec s a b : (s < dy)%Z ->
    dft2_forward pdim (grid dt dx theta (filphase dt dx pf filter2d (center s)) (sino_t dy dt dx data s)) (a mod pdim) (b mod pdim) =
    (cr (spec (center s) (rows s) a b) + ci * cr (spec (center s) (rows (s + 1)) a b))%C.
  Proof.
    intros Hs. pose proof (pdim_ge dx) as [H16 Hge]. fold pdim in H16, Hge.
    set (fp := filphase dt dx pf filter2d (center s)). set (x := sino_t dy dt dx data s).
    rewrite (dft2_ext pdim _ (fun u v => csum dt (fun p => csum (pdim2 - 1) (fun j => term dx theta fp x p (j + 1) u v)))) by (intros; apply grid_spec; lia).
    rewrite dft2_sum. unfold spec, image. rewrite !(csum_re dt (fun p => re _)) || idtac.
    set (c := center s).
    assert (G : forall p j, (0 <= p < dt)%Z -> (1 <= j)%Z ->
      dft2_forward pdim (term dx theta fp x p j) (a mod pdim) (b mod pdim) =
      (cr (sample pdim dt dx wtbl pf_at theta c (rows s) p j a b) + ci * cr (sample pdim dt dx wtbl pf_at theta c (rows (s + 1)) p j a b))%C).
    { intros p j Hp Hj. unfold term. fold pdim. rewrite (dft2_two pdim wtbl ltac:(lia)). rewrite !wave_mod by lia.
      set (A := (wave pdim wtbl (uu dx theta p j) a * wave pdim wtbl (vv dx theta p j) b)%C).
      assert (Ex : forall q, x p q = (dft_backward pdim (padded (rows s) p) q + ci * dft_backward pdim (padded (rows (s + 1)) p) q)%C).
      { intros q. unfold x, sino_t. fold pdim. rewrite <- backward_mul, <- backward_add. unfold dft_backward. apply csum_ext. intros k _.
        now rewrite sino_rows. }
      rewrite !Ex. rewrite !backward_conj by (lia || apply padded_conj).
      assert (S1 := spectrum_eq c (rows s) p j Hj). assert (S2 := spectrum_eq c (rows (s + 1)) p j Hj). fold fp in S1, S2.
      unfold sample. fold pdim2. change (IZR j * cos (theta p) + IZR pdim2) with (uu dx theta p j). change (IZR j * sin (theta p) + IZR pdim2) with (vv dx theta p j).
      fold A. rewrite <- !cconj_re. rewrite !conj_mul. rewrite <- S1, <- S2, !conj_mul. change (filphase dt dx pf filter2d c) with fp. ring. }
    rewrite (csum_ext dt _ (fun p => (csum (pdim2 - 1) (fun j => cr (sample pdim dt dx wtbl pf_at theta c (rows s) p (j + 1) a b)) +
      ci * csum (pdim2 - 1) (fun j => cr (sample pdim dt dx wtbl pf_at theta c (rows (s + 1)) p (j + 1) a b)))%C)).
    - rewrite csum_add, csum_mul. fold pdim2. apply f_equal2; [|apply f_equal].
      all: erewrite csum_ext; [|intros p Hp; rewrite csum_re; reflexivity].
      all: rewrite csum_re; do 2 f_equal; apply csum_ext; intros p _; symmetry; rewrite csum_re; reflexivity.
    - intros p Hp. rewrite dft2_sum. rewrite <- csum_mul, <- csum_add. apply csum_ext. intros j Hj. apply G; lia.
  Qed.
End Pair.

(** ** the output *)
Section Output.
  Variables (dy dx ngridx ngridy : Z).
  Let pdim := pdim_of dx.
  Hypothesis Hx : (1 <= ngridx <= pdim)%Z.
  Hypothesis Hy : (1 <= ngridy <= pdim)%Z.
  Definition px (s i j : Z) : Z := (s * ngridx * ngridy + ngridy * i + j)%Z.
  Lemma px_inj s i j s' i' j' : (0 <= i < ngridx)%Z -> (0 <= i' < ngridx)%Z -> (0 <= j < ngridy)%Z -> (0 <= j' < ngridy)%Z ->
    px s i j = px s' i' j' -> s = s' /\ i = i' /\ j = j'.
  Proof.
    intros Hi Hi' Hj Hj' E. unfold px in E.
    assert (E1 : (ngridy * (s * ngridx + i) + j = ngridy * (s' * ngridx + i') + j')%Z) by lia.
    destruct (Z.div_mod_unique ngridy (s * ngridx + i) (s' * ngridx + i') j j' ltac:(lia) ltac:(lia) E1) as [E2 E3].
    destruct (Z.div_mod_unique ngridx s s' i i' ltac:(lia) ltac:(lia) ltac:(lia)) as [E4 E5]. auto.
  Qed.
  Lemma walk_for {S} n (body : S -> Z * Z -> S) s : (1 <= n <= pdim)%Z ->
    fold_left body (walk 2 pdim n) s = for_ n (fun j s => body s (j, (j - (n + 1) / 2) mod pdim)%Z) s.
  Proof.
    intros H. unfold pdim in *. destruct (pdim_even dx) as (m & E & Hm). rewrite E in *. rewrite walk_spec by lia. unfold for_.
    revert s. induction (zrange 0 n) as [|q l IH]; intros s; cbn [map fold_left]; auto.
  Qed.
  Variables (winv : arr R) (h : Z -> Z -> cplx).
  Definition pix (part : cplx -> R) (i j : Z) : R :=
    winv (j + pad pdim ngridy)%Z * winv (ngridx - 1 - i + pad pdim ngridx)%Z * part (h (column_at ngridy j mod pdim)%Z (row_at ngridx i mod pdim)%Z).
  Definition after (s : Z) (recon : arr R) (done : Z -> Z -> bool) (s' i j : Z) : R :=
    if done i j then
      if (s' =? s)%Z then pix re i j else if (s' =? s + 1)%Z && (s + 1 <? dy)%Z then pix im i j else recon (px s' i j)
    else recon (px s' i j).
  Definition shows (s : Z) (recon0 : arr R) (done : Z -> Z -> bool) (recon : arr R) : Prop :=
    forall s' i j, (0 <= i < ngridx)%Z -> (0 <= j < ngridy)%Z -> recon (px s' i j) = after s recon0 done s' i j.
  Lemma after_ext s recon d1 d2 s' i j : d1 i j = d2 i j -> after s recon d1 s' i j = after s recon d2 s' i j.
  Proof. unfold after. now intros ->. Qed.
  Lemma put_spec s recon : shows s recon (fun _ _ => true) (put dy dx ngridx ngridy winv h s recon).
  Proof.
    unfold put. fold pdim. rewrite walk_for by auto.
    pose (P := fun q st => shows s recon (fun _ j => (j <? q)%Z) st).
    assert (G : P ngridy (for_ ngridy (fun j st => (fun recon '(j, iu) =>
      fold_left (fun recon '(k, iv) =>
        let corrn := winv (j + pad pdim ngridy)%Z * winv (k + pad pdim ngridx)%Z in
        let recon := aset recon (s * ngridx * ngridy + ngridy * (ngridx - 1 - k) + j)%Z (corrn * re (h iu iv)) in
        if (s + 1 <? dy)%Z then aset recon ((s + 1) * ngridx * ngridy + ngridy * (ngridx - 1 - k) + j)%Z (corrn * im (h iu iv)) else recon)
      (walk 2 pdim ngridx) recon) st (j, (j - (ngridy + 1) / 2) mod pdim)%Z) recon)).
    { apply (for_inv P); [lia| |].
      - intros s' i j Hi Hj. unfold after. destruct (j <? 0)%Z eqn:E; [lia|reflexivity].
      - intros j st Hj HP. cbn beta iota. rewrite walk_for by auto.
        pose (Q := fun q st => shows s recon (fun i c => (c <? j)%Z || (c =? j)%Z && (ngridx - 1 - i <? q)%Z) st).
        match goal with |- P _ (for_ ngridx ?b ?s0) => assert (GQ : Q ngridx (for_ ngridx b s0)) end.
        { apply (for_inv Q); [lia| |].
          - intros s' i c Hi Hc. rewrite HP by auto. apply after_ext. destruct (c <? j)%Z eqn:E, (c =? j)%Z eqn:E2; cbn; auto; lia.
          - intros k st' Hk HQ s' i c Hi Hc. cbn beta iota zeta.
            assert (Ek : (0 <= ngridx - 1 - k < ngridx)%Z) by lia.
            assert (E1 : (s * ngridx * ngridy + ngridy * (ngridx - 1 - k) + j)%Z = px s (ngridx - 1 - k) j) by reflexivity.
            assert (E2 : ((s + 1) * ngridx * ngridy + ngridy * (ngridx - 1 - k) + j)%Z = px (s + 1) (ngridx - 1 - k) j) by reflexivity.
            rewrite E1, E2.
            assert (Hit : forall t, px s' i c = px t (ngridx - 1 - k) j -> s' = t /\ i = (ngridx - 1 - k)%Z /\ c = j) by (intros t Ht; apply px_inj; auto; lia).
            destruct (Z.eq_dec i (ngridx - 1 - k)) as [->|Ni].
            + destruct (Z.eq_dec c j) as [->|Nc].
              * unfold after. replace (ngridx - 1 - (ngridx - 1 - k))%Z with k by lia.
                replace ((j <? j)%Z || (j =? j)%Z && (k <? k + 1)%Z) with true by (symmetry; apply orb_true_iff; right; rewrite Z.eqb_refl; cbn; lia).
                assert (Hb : HQ = HQ) by reflexivity. clear Hb.
                assert (Old : st' (px s' (ngridx - 1 - k) j) = recon (px s' (ngridx - 1 - k) j)).
                { rewrite HQ by lia. unfold after. replace (ngridx - 1 - (ngridx - 1 - k))%Z with k by lia.
                  replace ((j <? j)%Z || (j =? j)%Z && (k <? k)%Z) with false; [reflexivity|]. symmetry. apply orb_false_iff. split; [lia|]. rewrite Z.eqb_refl. cbn. lia. }
                assert (Pr : forall part, winv (j + pad pdim ngridy)%Z * winv (k + pad pdim ngridx)%Z * part (h ((j - (ngridy + 1) / 2) mod pdim)%Z ((k - (ngridx + 1) / 2) mod pdim)%Z) = pix part (ngridx - 1 - k) j).
                { intros part. unfold pix, column_at, row_at. replace (ngridx - 1 - (ngridx - 1 - k))%Z with k by lia. reflexivity. }
                rewrite !Pr. unfold aset.
                destruct (s + 1 <? dy)%Z eqn:Ed.
                -- destruct (px s' (ngridx - 1 - k) j =? px (s + 1) (ngridx - 1 - k) j)%Z eqn:X1.
                   ++ destruct (Hit (s + 1)%Z ltac:(lia)) as [-> _]. destruct (s + 1 =? s)%Z eqn:X2; [lia|]. rewrite Z.eqb_refl. reflexivity.
                   ++ destruct (px s' (ngridx - 1 - k) j =? px s (ngridx - 1 - k) j)%Z eqn:X2.
                      ** destruct (Hit s ltac:(lia)) as [-> _]. rewrite Z.eqb_refl. reflexivity.
                      ** destruct (Z.eqb_spec s' s) as [->|N1]; [lia|]. destruct (Z.eqb_spec s' (s + 1)) as [->|N2]; [lia|]. exact Old.
                -- destruct (px s' (ngridx - 1 - k) j =? px s (ngridx - 1 - k) j)%Z eqn:X2.
                   ++ destruct (Hit s ltac:(lia)) as [-> _]. rewrite Z.eqb_refl. reflexivity.
                   ++ destruct (Z.eqb_spec s' s) as [->|N1]; [lia|]. rewrite andb_false_r. exact Old.
              * assert (N1 : px s' (ngridx - 1 - k) c <> px (s + 1) (ngridx - 1 - k) j) by (intros X; apply Nc; now destruct (Hit _ X) as (_ & _ & ->)).
                assert (N2 : px s' (ngridx - 1 - k) c <> px s (ngridx - 1 - k) j) by (intros X; apply Nc; now destruct (Hit _ X) as (_ & _ & ->)).
                assert (Old : st' (px s' (ngridx - 1 - k) c) = after s recon (fun i c => (c <? j)%Z || (c =? j)%Z && (ngridx - 1 - i <? k + 1)%Z) s' (ngridx - 1 - k) c).
                { rewrite HQ by lia. apply after_ext. destruct (c =? j)%Z eqn:X; [lia|]. reflexivity. }
                destruct (s + 1 <? dy)%Z; rewrite !aset_ne by auto; exact Old.
            + assert (N1 : px s' i c <> px (s + 1) (ngridx - 1 - k) j) by (intros X; apply Ni; now destruct (Hit _ X) as (_ & -> & _)).
              assert (N2 : px s' i c <> px s (ngridx - 1 - k) j) by (intros X; apply Ni; now destruct (Hit _ X) as (_ & -> & _)).
              assert (Old : st' (px s' i c) = after s recon (fun i c => (c <? j)%Z || (c =? j)%Z && (ngridx - 1 - i <? k + 1)%Z) s' i c).
              { rewrite HQ by lia. apply after_ext. f_equal. f_equal. lia. }
              destruct (s + 1 <? dy)%Z; rewrite !aset_ne by auto; exact Old. }
        intros s' i c Hi Hc. rewrite GQ by auto. apply after_ext.
        destruct (c <? j)%Z eqn:X1, (c =? j)%Z eqn:X2, (c <? j + 1)%Z eqn:X3; cbn; auto; lia. }
    intros s' i j Hi Hj. rewrite G by auto. apply after_ext. lia.
  Qed.
End Output.

(** ** the whole run *)
Section Run.
  Variables (dy dt dx ngridx ngridy : Z).
  Variable pf : R -> Z -> Z -> Z -> R.
  Variable filter2d : bool.
  Variable mem : arr R.
  Variables (data center theta : arr R).
  Let pdim := pdim_of dx.
  Hypothesis Hdy : (1 <= dy)%Z.
  Hypothesis Hdt : (1 <= dt)%Z.
  Hypothesis Hdx : (1 <= dx)%Z.
  Hypothesis Hx : (1 <= ngridx <= pdim)%Z.
  Hypothesis Hy : (1 <= ngridy <= pdim)%Z.
  Let corr := correction pdim wtbl winv_norm (mem (pdim - 1)%Z).
  Let spec c d := image pdim dt dx wtbl (pf_at dx pf filter2d) theta c d.
  Lemma corr_eq n a : (1 <= n <= pdim)%Z -> (0 <= a < n)%Z -> set_winv (pdim / 2 - 1) mem (a + pad pdim n)%Z = corr (column_at n a).
  Proof.
    intros Hn Ha. unfold corr, correction, column_at, pdim in *. destruct (pdim_even dx) as (m & E & Hm). rewrite E in *.
    replace (2 * m / 2)%Z with m by lia. rewrite set_winv_spec by lia.
    assert (Hp : (pad (2 * m) n = m - (n + 1) / 2)%Z) by (unfold pad; rewrite Z.quot_div_nonneg by lia; lia).
    rewrite Hp. destruct (a - (n + 1) / 2 + 1 =? m)%Z eqn:E1.
    - destruct ((0 <=? a + (m - (n + 1) / 2))%Z && (a + (m - (n + 1) / 2) <=? 2 * (m - 1))%Z) eqn:E2; [lia|]. f_equal. lia.
    - destruct ((0 <=? a + (m - (n + 1) / 2))%Z && (a + (m - (n + 1) / 2) <=? 2 * (m - 1))%Z) eqn:E2; [|lia].
      unfold winv_at, alternating. replace (a + (m - (n + 1) / 2) - (m - 1))%Z with (a - (n + 1) / 2 + 1)%Z by lia.
      rewrite roundf_nonneg.
      + unfold winv_fac, ltbl. rewrite !minus_IZR, mult_IZR. assert (8 <= IZR m) by (apply IZR_le; lia).
        do 3 f_equal. replace (512 / (IZR m - 1 + 1 / 2)) with (1024 / (2 * IZR m - 1)) by (field; lra). reflexivity.
      + unfold winv_fac, ltbl. apply Rmult_le_pos; [apply IZR_le; lia|]. apply Rlt_le, Rdiv_lt_0_compat; [lra|]. rewrite minus_IZR.
        assert (8 <= IZR m) by (apply IZR_le; lia). lra.
  Qed.
  Lemma run_spec recon s i j : (0 <= s < dy)%Z -> (0 <= i < ngridx)%Z -> (0 <= j < ngridy)%Z ->
    gridrec dy dt dx ngridx ngridy pf filter2d mem data center theta recon (s * ngridx * ngridy + ngridy * i + j)%Z =
    corr (column_at ngridy j) * corr (row_at ngridx i) *
    spec (center (2 * (s / 2))%Z) (fun p k => data (k + dx * (p + s * dt))%Z) (column_at ngridy j) (row_at ngridx i).
  Proof.
    intros Hs Hi Hj. unfold gridrec. destruct ((dy =? 0)%Z || (dt =? 0)%Z || (dx =? 0)%Z) eqn:E; [lia|].
    change (s * ngridx * ngridy + ngridy * i + j)%Z with (px ngridx ngridy s i j).
    pose (P := fun (q : Z) (st : arr R) => forall s i j, (0 <= s < dy)%Z -> (s < 2 * q)%Z -> (0 <= i < ngridx)%Z -> (0 <= j < ngridy)%Z ->
      st (px ngridx ngridy s i j) = corr (column_at ngridy j) * corr (row_at ngridx i) *
      spec (center (2 * (s / 2))%Z) (fun p k => data (k + dx * (p + s * dt))%Z) (column_at ngridy j) (row_at ngridx i)).
    match goal with |- ?t _ = _ => assert (G : P ((dy + 1) / 2)%Z t) end; [|apply G; lia].
    apply (for_inv P); [lia| |].
    - intros s' i' j' H1 H2. lia.
    - clear s i j Hs Hi Hj. intros q st Hq HP s i j Hs Hsq Hi Hj. unfold gridrec_pair.
      rewrite (put_spec dy dx ngridx ngridy Hx Hy _ _ (2 * q) st s i j Hi Hj). unfold after.
      assert (V : forall part, pix dx ngridx ngridy (set_winv (pdim_of dx / 2 - 1) mem)
         (dft2_forward (pdim_of dx) (grid dt dx theta (filphase dt dx pf filter2d (center (2 * q)%Z)) (sino_t dy dt dx data (2 * q)))) part i j =
         corr (column_at ngridy j) * corr (row_at ngridx i) *
         part (cr (spec (center (2 * q)%Z) (rows dy dt dx data (2 * q)) (column_at ngridy j) (row_at ngridx i)) +
               ci * cr (spec (center (2 * q)%Z) (rows dy dt dx data (2 * q + 1)) (column_at ngridy j) (row_at ngridx i)))%C).
      { intros part. unfold pix. fold pdim. rewrite !corr_eq by lia. replace (column_at ngridx (ngridx - 1 - i)) with (row_at ngridx i) by reflexivity.
        f_equal. f_equal. apply pair_spec; lia. }
      rewrite !V.
      assert (Im : forall d a b, (forall p k, d p k = data (k + dx * (p + s * dt))%Z) -> spec (center (2 * q)%Z) d a b =
                   spec (center (2 * q)%Z) (fun p k => data (k + dx * (p + s * dt))%Z) a b).
      { intros d a b Hd. unfold spec, image. f_equal. apply csum_ext. intros p _. apply csum_ext. intros f _. unfold sample, spectrum. do 5 f_equal.
        apply csum_ext. intros k _. now rewrite Hd. }
      destruct (Z.eqb_spec s (2 * q)) as [Es|Ns].
      + replace (2 * (s / 2))%Z with (2 * q)%Z by lia. f_equal. cbn [re fst cadd cr cmul ci im snd]. unfold re, im, cr, ci. cbn [fst snd].
        rewrite Im by (intros; unfold rows; rewrite <- Es; destruct (s <? dy)%Z eqn:X; [reflexivity|lia]). ring.
      + destruct (Z.eqb_spec s (2 * q + 1)) as [Es|Ns2].
        * destruct (2 * q + 1 <? dy)%Z eqn:X; [|lia]. cbn [andb]. replace (2 * (s / 2))%Z with (2 * q)%Z by lia. f_equal.
          rewrite (Im (rows dy dt dx data (2 * q + 1))) by (intros; unfold rows; rewrite <- Es; destruct (s <? dy)%Z eqn:X2; [reflexivity|lia]).
          unfold cadd, cmul, cr, ci, re, im. cbn [fst snd]. ring.
        * cbn [andb]. apply HP; auto; lia.
  Qed.
End Run.
