From Verif Require Import Base CLoop Model_Prep Model_Morph Proofs_Prep.
From Coq Require Import Reals Lra.
Local Open Scope Z_scope.

(** ** Loop flattening *)
Lemma for_app {S} n m (body : Z -> S -> S) s : 0 <= n -> 0 <= m ->
  for_ (n + m) body s = for_ m (fun i => body (n + i)) (for_ n body s).
Proof.
  intros Hn Hm. revert m Hm. apply natlike_ind.
  - rewrite Z.add_0_r. now rewrite (for_0 0) by lia.
  - intros m Hm IH. rewrite <- Z.add_1_r, Z.add_assoc, for_S, IH, for_S by lia. reflexivity.
Qed.
Lemma for_flatten {S} A B (body : Z -> S -> S) s : 0 <= A -> 0 <= B ->
  for_ (A * B) body s = for_ A (fun a => for_ B (fun b => body (a * B + b))) s.
Proof.
  intros HA HB. revert A HA. apply natlike_ind.
  - rewrite !for_0 by lia. auto.
  - intros A HA IH. rewrite <- Z.add_1_r, for_S, <- IH by lia.
    replace ((A + 1) * B) with (A * B + B) by lia. now rewrite for_app by nia.
Qed.
Lemma for_1 {S} (body : Z -> S -> S) s : for_ 1 body s = body 0 s.
Proof. change 1 with (0 + 1). rewrite for_S by lia. now rewrite for_0 by lia. Qed.
Lemma for_ext' {S} n (b1 b2 : Z -> S -> S) s : (forall i s, 0 <= i < n -> b1 i s = b2 i s) -> for_ n b1 s = for_ n b2 s.
Proof. intros H. apply for_ext. auto. Qed.

(** The common shape: A groups of b blocks of C consecutive entries. *)
Definition gen {S} (A b C : Z) (step : Z -> S -> S) (s : S) : S :=
  for_ A (fun a s => for_ b (fun p s => for_ C (fun c s => step (a * C + c) s) s) s) s.

Definition zsum (n : Z) (f : Z -> R) : R := rsum (map f (zrange 0 n)).
Lemma zsum_0 n f : n <= 0 -> zsum n f = 0%R.
Proof. intros. unfold zsum. now rewrite zrange_nil. Qed.
Lemma zsum_S n f : 0 <= n -> zsum (n + 1) f = (zsum n f + f n)%R.
Proof. intros. unfold zsum. rewrite zrange_snoc, map_app, rsum_app by auto. cbn. lra. Qed.
Lemma zsum_ext n f g : (forall i, 0 <= i < n -> f i = g i) -> zsum n f = zsum n g.
Proof. intros H. unfold zsum. f_equal. apply map_ext_in. intros i Hi. apply H. now apply in_zrange. Qed.

Section Gen.
  Variable data : arr R.
  Variables A b C : Z.
  Hypothesis HA : 0 <= A.
  Hypothesis Hb : 1 <= b.
  Hypothesis HC : 1 <= C.

  Lemma gen_down out x : 0 <= x < A * C ->
    fst (gen A b C (down_step data b) (out, 0)) x
    = (out x + zsum b (fun p => data ((x / C * b + p) * C + x mod C)%Z / IZR b))%R.
  Proof.
    set (val := fun x p => (data ((x / C * b + p) * C + x mod C)%Z / IZR b)%R).
    assert (M : forall a0, 0 <= a0 <= A ->
      snd (gen a0 b C (down_step data b) (out, 0)) = a0 * b * C /\
      forall x, fst (gen a0 b C (down_step data b) (out, 0)) x =
        if (0 <=? x) && (x <? a0 * C) then (out x + zsum b (val x))%R else out x).
    { intros a0 H0. unfold gen.
      apply (for_inv (fun a (s : arr R * Z) => snd s = a * b * C /\ forall x, fst s x =
        if (0 <=? x) && (x <? a * C) then (out x + zsum b (val x))%R else out x)); [lia| |].
      - split; auto. intros x'. now replace ((0 <=? x') && (x' <? 0 * C)) with false by lia.
      - intros a [o0 i0] Ha [Hi Ho]. cbn [fst snd] in Hi, Ho.
        assert (Mid : let s' := for_ b (fun p s => for_ C (fun c s => down_step data b (a * C + c) s) s) (o0, i0) in
           snd s' = a * b * C + b * C /\ forall x, fst s' x =
             if (a * C <=? x) && (x <? a * C + C) then (o0 x + zsum b (val x))%R else o0 x).
        { apply (for_inv (fun p (s : arr R * Z) => snd s = a * b * C + p * C /\ forall x, fst s x =
             if (a * C <=? x) && (x <? a * C + C) then (o0 x + zsum p (val x))%R else o0 x)); [lia| |].
          - split; [cbn; lia|]. intros x'. cbn [fst]. rewrite zsum_0 by lia.
            destruct (_ && _); lra.
          - intros p [o1 i1] Hp [Hi1 Ho1]. cbn [fst snd] in Hi1, Ho1.
            assert (In : let s' := for_ C (fun c s => down_step data b (a * C + c) s) (o1, i1) in
              snd s' = i1 + C /\ forall x, fst s' x =
               if (a * C <=? x) && (x <? a * C + C) then (o1 x + val x p)%R else o1 x).
            { apply (for_inv (fun c (s : arr R * Z) => snd s = i1 + c /\ forall x, fst s x =
               if (a * C <=? x) && (x <? a * C + c) then (o1 x + val x p)%R else o1 x)); [lia| |].
              - split; [cbn; lia|]. intros x'. cbn [fst]. now replace ((a * C <=? x') && (x' <? a * C + 0)) with false by lia.
              - intros c [o2 i2] Hc [Hi2 Ho2]. cbn [fst snd] in Hi2, Ho2. cbn [down_step fst snd]. split; [lia|].
                intros x'. destruct (Z.eq_dec x' (a * C + c)) as [->|N].
                + rewrite aset_eq, Ho2.
                  replace ((a * C <=? a * C + c) && (a * C + c <? a * C + c)) with false by lia.
                  replace ((a * C <=? a * C + c) && (a * C + c <? a * C + (c + 1))) with true by lia.
                  unfold val. f_equal. f_equal. f_equal. rewrite Hi2, Hi1.
                  replace ((a * C + c) / C) with a by (apply (Z.div_unique_pos _ _ a c); lia).
                  replace ((a * C + c) mod C) with c by (apply (Z.mod_unique_pos _ _ a c); lia). ring.
                + rewrite aset_ne by auto. rewrite Ho2.
                  destruct ((a * C <=? x') && (x' <? a * C + c)) eqn:E1, ((a * C <=? x') && (x' <? a * C + (c + 1))) eqn:E2; auto; lia. }
            destruct In as [In1 In2]. split; [rewrite In1; lia|].
            intros x'. rewrite In2, Ho1. destruct (_ && _); auto. rewrite zsum_S by lia. lra. }
        destruct Mid as [Mid1 Mid2]. split; [rewrite Mid1; lia|].
        intros x'. rewrite Mid2, Ho.
        destruct ((a * C <=? x') && (x' <? a * C + C)) eqn:E1, ((0 <=? x') && (x' <? a * C)) eqn:E2,
          ((0 <=? x') && (x' <? (a + 1) * C)) eqn:E3; auto; nia. }
    intros Hx. destruct (M A ltac:(lia)) as [_ M2]. rewrite M2.
    now replace ((0 <=? x) && (x <? A * C)) with true by lia.
  Qed.

  Lemma gen_up out x : 0 <= x < A * b * C ->
    fst (gen A b C (up_step data) (out, 0)) x = data (x / (b * C) * C + x mod C).
  Proof.
    set (val := fun x => data (x / (b * C) * C + x mod C)).
    assert (M : forall a0, 0 <= a0 <= A ->
      snd (gen a0 b C (up_step data) (out, 0)) = a0 * b * C /\
      forall x, fst (gen a0 b C (up_step data) (out, 0)) x =
        if (0 <=? x) && (x <? a0 * b * C) then val x else out x).
    { intros a0 H0. unfold gen.
      apply (for_inv (fun a (s : arr R * Z) => snd s = a * b * C /\ forall x, fst s x =
        if (0 <=? x) && (x <? a * b * C) then val x else out x)); [lia| |].
      - split; auto. intros x'. now replace ((0 <=? x') && (x' <? 0 * b * C)) with false by lia.
      - intros a s0 Ha Hs0.
        pose (P := fun p (s : arr R * Z) => snd s = (a * b + p) * C /\ forall x, fst s x =
          if (0 <=? x) && (x <? (a * b + p) * C) then val x else out x).
        assert (Mid : P b
          (for_ b (fun p s => for_ C (fun c s => up_step data (a * C + c) s) s) s0)).
        { apply (for_inv P); [lia| |].
          - unfold P. rewrite Z.add_0_r. exact Hs0.
          - intros p s1 Hp Hs1.
            pose (Q := fun c (s : arr R * Z) => snd s = (a * b + p) * C + c /\ forall x, fst s x =
               if (0 <=? x) && (x <? (a * b + p) * C + c) then val x else out x).
            assert (In : Q C
               (for_ C (fun c s => up_step data (a * C + c) s) s1)).
            { apply (for_inv Q); [lia| |].
              - unfold Q. rewrite Z.add_0_r. exact Hs1.
              - intros c [o2 i2] Hc [Hi2 Ho2]. cbn [fst snd] in Hi2, Ho2. unfold Q. cbn [up_step fst snd]. split; [lia|].
                intros x'. destruct (Z.eq_dec x' i2) as [->|N].
                + rewrite aset_eq. rewrite Hi2. set (t := (a * b + p) * C + c).
                  assert (0 <= t) by (unfold t; nia).
                  replace ((0 <=? t) && (t <? (a * b + p) * C + (c + 1))) with true by (unfold t; lia).
                  unfold val.
                  replace (t / (b * C)) with a by (apply (Z.div_unique_pos _ _ a (p * C + c)); unfold t; nia).
                  replace (t mod C) with c by (apply (Z.mod_unique_pos _ _ (a * b + p) c); unfold t; lia). auto.
                + rewrite aset_ne by auto. rewrite Ho2.
                  destruct ((0 <=? x') && (x' <? (a * b + p) * C + c)) eqn:E1, ((0 <=? x') && (x' <? (a * b + p) * C + (c + 1))) eqn:E2; auto; lia. }
            unfold Q in In. unfold P. replace ((a * b + (p + 1)) * C) with ((a * b + p) * C + C) by lia. exact In. }
        unfold P in Mid. replace ((a + 1) * b * C) with ((a * b + b) * C) by lia. exact Mid. }
    intros Hx. destruct (M A ltac:(lia)) as [_ M2]. rewrite M2.
    now replace ((0 <=? x) && (x <? A * b * C)) with true by lia.
  Qed.
End Gen.

(** Each axis is an instance. *)
Lemma axis0_gen {S} (step : Z -> S -> S) A b dy dz s : 0 <= A -> 0 <= dy -> 0 <= dz ->
  for_ A (fun m s => let i := m * (dy * dz) in
      for_ b (fun p s => for_ dy (fun n s => let j := n * dz in
        for_ dz (fun k s => step (i + j + k) s) s) s) s) s = gen A b (dy * dz) step s.
Proof.
  intros. unfold gen. apply for_ext'. intros m s' Hm. cbv zeta. apply for_ext'. intros p s2 Hp.
  rewrite for_flatten by auto. apply for_ext'. intros n s3 Hn. apply for_ext'. intros k s4 Hk.
  f_equal. lia.
Qed.
Lemma axis1_gen {S} (step : Z -> S -> S) dx dy b dz s : 0 <= dx -> 0 <= dy -> 0 <= dz ->
  for_ dx (fun m s => let i := m * (dy * dz) in
      for_ dy (fun n s => let j := n * dz in
        for_ b (fun p s => for_ dz (fun k s => step (i + j + k) s) s) s) s) s = gen (dx * dy) b dz step s.
Proof.
  intros. unfold gen. rewrite for_flatten by auto. apply for_ext'. intros m s' Hm. cbv zeta.
  apply for_ext'. intros n s2 Hn. apply for_ext'. intros p s3 Hp. apply for_ext'. intros k s4 Hk.
  f_equal. lia.
Qed.
Lemma axis2_gen {S} (step : Z -> S -> S) dx dy b dz s : 0 <= dx -> 0 <= dy -> 0 <= dz ->
  for_ dx (fun m s => let i := m * (dy * dz) in
      for_ dy (fun n s => let j := n * dz in
        for_ dz (fun k s => for_ b (fun p s => step (i + j + k) s) s) s) s) s = gen (dx * dy * dz) b 1 step s.
Proof.
  intros. unfold gen. rewrite for_flatten by nia. rewrite for_flatten by auto.
  apply for_ext'. intros m s' Hm. cbv zeta.
  apply for_ext'. intros n s2 Hn. apply for_ext'. intros k s3 Hk. apply for_ext'. intros p s4 Hp.
  rewrite for_1. f_equal. lia.
Qed.

(** Value at position (m, n, k) of an array with last dimensions dy, dz. *)
Definition at3 {V} (dy dz : Z) (a : arr V) (m n k : Z) : V := a ((m * dy + n) * dz + k).

Lemma div_mod_block q r C : 0 <= r < C -> (q * C + r) / C = q /\ (q * C + r) mod C = r.
Proof.
  intros. split; [symmetry; apply (Z.div_unique_pos _ _ q r)|symmetry; apply (Z.mod_unique_pos _ _ q r)]; lia.
Qed.

Section Axis.
  Variables level dx dy dz : Z.
  Hypothesis Hl : 0 <= level.
  Hypothesis Hx : 0 <= dx.
  Hypothesis Hy : 0 <= dy.
  Hypothesis Hz : 0 <= dz.
  Let b := 2 ^ level.
  Lemma b_pos : 1 <= b. Proof. unfold b. pose proof (Z.pow_pos_nonneg 2 level). lia. Qed.

  Definition mean_over (f : Z -> R) : R := (zsum b f / IZR b)%R.
  Lemma zsum_div n f c : zsum n (fun p => f p / c)%R = (zsum n f / c)%R.
  Proof. unfold zsum. rewrite <- rsum_scale, map_map. reflexivity. Qed.

  Lemma downsample_axis0 data m n k : 0 <= m < dx / b -> 0 <= n < dy -> 0 <= k < dz ->
    at3 dy dz (downsample level 0 dx dy dz data) m n k = mean_over (fun p => at3 dy dz data (m * b + p) n k).
  Proof.
    intros Hm Hn Hk. pose proof b_pos. unfold at3, downsample. cbv zeta. cbn [Z.eqb Pos.eqb]. fold b.
    assert (0 <= dx / b) by (apply Z.div_pos; lia). assert (1 <= dy * dz) by nia.
    assert ((m * dy + n + 1) * dz <= dx / b * dy * dz) by (apply Z.mul_le_mono_nonneg_r; nia).
    assert (0 <= (m * dy + n) * dz) by (apply Z.mul_nonneg_nonneg; nia).
    unfold downsample0. cbv zeta. rewrite axis0_gen; auto.
    rewrite gen_down by lia. unfold zeros. rewrite Rplus_0_l. unfold mean_over. rewrite <- zsum_div. apply zsum_ext. intros p Hp. do 2 f_equal.
      replace ((m * dy + n) * dz + k) with (m * (dy * dz) + (n * dz + k)) by ring.
      destruct (div_mod_block m (n * dz + k) (dy * dz)) as [-> ->]; [nia|]. ring.
  Qed.

  Lemma downsample_axis1 data m n k : (b | dy) -> 0 <= m < dx -> 0 <= n < dy / b -> 0 <= k < dz ->
    at3 (dy / b) dz (downsample level 1 dx dy dz data) m n k = mean_over (fun p => at3 dy dz data m (n * b + p) k).
  Proof.
    intros [q Hq] Hm Hn Hk. pose proof b_pos. unfold at3, downsample. cbv zeta. cbn [Z.eqb Pos.eqb]. fold b.
    assert (E : dy / b = q) by (rewrite Hq; apply Z.div_mul; lia). rewrite E in *.
    assert ((m * q + n + 1) * dz <= dx * q * dz) by (apply Z.mul_le_mono_nonneg_r; nia).
    assert (0 <= (m * q + n) * dz) by (apply Z.mul_nonneg_nonneg; nia). assert (0 <= dx * q) by nia.
    unfold downsample1. cbv zeta. rewrite E. rewrite axis1_gen; auto; [|lia].
    rewrite gen_down by lia. unfold zeros. rewrite Rplus_0_l. unfold mean_over. rewrite <- zsum_div. apply zsum_ext. intros p Hp. do 2 f_equal.
      destruct (div_mod_block (m * q + n) k dz) as [-> ->]; [lia|]. rewrite Hq. ring.
  Qed.

  Lemma downsample_axis2 data m n k : (b | dz) -> 0 <= m < dx -> 0 <= n < dy -> 0 <= k < dz / b ->
    at3 dy (dz / b) (downsample level 2 dx dy dz data) m n k = mean_over (fun p => at3 dy dz data m n (k * b + p)).
  Proof.
    intros [q Hq] Hm Hn Hk. pose proof b_pos. unfold at3, downsample. cbv zeta. cbn [Z.eqb Pos.eqb]. fold b.
    assert (E : dz / b = q) by (rewrite Hq; apply Z.div_mul; lia). rewrite E in *.
    assert ((m * dy + n + 1) * q <= dx * dy * q) by (apply Z.mul_le_mono_nonneg_r; nia).
    assert (0 <= (m * dy + n) * q) by (apply Z.mul_nonneg_nonneg; nia). assert (0 <= dx * dy * q) by lia.
    unfold downsample2. cbv zeta. rewrite E. rewrite axis2_gen; auto; [|lia].
    rewrite gen_down by lia. unfold zeros. rewrite Rplus_0_l. unfold mean_over. rewrite <- zsum_div. apply zsum_ext. intros p Hp. do 2 f_equal.
      rewrite Z.div_1_r, Z.mod_1_r. rewrite Hq. ring.
  Qed.

  Lemma upsample_axis0 data m n k : 0 <= m < dx * b -> 0 <= n < dy -> 0 <= k < dz ->
    at3 dy dz (upsample level 0 dx dy dz data) m n k = at3 dy dz data (m / b) n k.
  Proof.
    intros Hm Hn Hk. pose proof b_pos. unfold at3, upsample. cbv zeta. cbn [Z.eqb Pos.eqb]. fold b.
    assert ((m * dy + n + 1) * dz <= dx * b * dy * dz) by (apply Z.mul_le_mono_nonneg_r; nia).
    assert (0 <= (m * dy + n) * dz) by (apply Z.mul_nonneg_nonneg; nia). assert (1 <= dy * dz) by nia.
    unfold upsample0. rewrite axis0_gen; auto. rewrite gen_up by lia. f_equal.
      replace ((m * dy + n) * dz + k) with (m * (dy * dz) + (n * dz + k)) by ring.
      rewrite (Z.mul_comm b), <- Z.div_div by nia.
      destruct (div_mod_block m (n * dz + k) (dy * dz)) as [-> ->]; [nia|]. ring.
  Qed.
  Lemma upsample_axis1 data m n k : 0 <= m < dx -> 0 <= n < dy * b -> 0 <= k < dz ->
    at3 (dy * b) dz (upsample level 1 dx dy dz data) m n k = at3 dy dz data m (n / b) k.
  Proof.
    intros Hm Hn Hk. pose proof b_pos. unfold at3, upsample. cbv zeta. cbn [Z.eqb Pos.eqb]. fold b.
    assert ((m * (dy * b) + n + 1) * dz <= dx * (dy * b) * dz) by (apply Z.mul_le_mono_nonneg_r; nia).
    assert (0 <= (m * (dy * b) + n) * dz) by (apply Z.mul_nonneg_nonneg; nia). assert (0 <= dx * dy) by nia.
    unfold upsample1. rewrite axis1_gen; auto. rewrite gen_up by lia. f_equal. rewrite (Z.mul_comm b), <- Z.div_div by nia.
      destruct (div_mod_block (m * (dy * b) + n) k dz) as [-> ->]; [lia|].
      replace (m * (dy * b) + n) with (n + m * dy * b) by ring. rewrite Z.div_add by lia. ring.
  Qed.
  Lemma upsample_axis2 data m n k : 0 <= m < dx -> 0 <= n < dy -> 0 <= k < dz * b ->
    at3 dy (dz * b) (upsample level 2 dx dy dz data) m n k = at3 dy dz data m n (k / b).
  Proof.
    intros Hm Hn Hk. pose proof b_pos. unfold at3, upsample. cbv zeta. cbn [Z.eqb Pos.eqb]. fold b.
    assert ((m * dy + n + 1) * (dz * b) <= dx * dy * (dz * b)) by (apply Z.mul_le_mono_nonneg_r; nia).
    assert (0 <= (m * dy + n) * (dz * b)) by (apply Z.mul_nonneg_nonneg; nia). assert (0 <= dx * dy * dz) by nia.
    unfold upsample2. rewrite axis2_gen; auto. rewrite gen_up by lia. f_equal. rewrite !Z.mul_1_r, Z.mod_1_r.
      replace ((m * dy + n) * (dz * b) + k) with (k + (m * dy + n) * dz * b) by ring.
      rewrite Z.div_add by lia. ring.
  Qed.

  Lemma zsum_const c n : 0 <= n -> zsum n (fun _ => c) = (IZR n * c)%R.
  Proof.
    revert n. apply natlike_ind; [rewrite zsum_0 by lia; lra|].
    intros n Hn IH. rewrite <- Z.add_1_r, zsum_S, IH, plus_IZR by auto. lra.
  Qed.
  Lemma mean_over_const c f : (forall p, 0 <= p < b -> f p = c) -> mean_over f = c.
  Proof.
    intros H. pose proof b_pos. unfold mean_over. rewrite (zsum_ext b f (fun _ => c)) by auto.
    rewrite zsum_const by lia. field. apply not_0_IZR. lia.
  Qed.
  Lemma div_block q p : 0 <= p < b -> (q * b + p) / b = q.
  Proof. intros. destruct (div_mod_block q p b); auto. Qed.
End Axis.

Lemma down_up_0 level dx dy dz data m n k : 0 <= level -> 0 <= m < dx -> 0 <= n < dy -> 0 <= k < dz ->
  at3 dy dz (downsample level 0 (dx * 2 ^ level) dy dz (upsample level 0 dx dy dz data)) m n k = at3 dy dz data m n k.
Proof.
  intros Hl Hm Hn Hk. pose proof (b_pos level Hl) as B.
  assert (E : dx * 2 ^ level / 2 ^ level = dx) by (apply Z.div_mul; lia).
  rewrite downsample_axis0; try nia.
  - apply mean_over_const; auto. intros p Hp. rewrite upsample_axis0; try nia. now rewrite div_block.
Qed.
Lemma down_up_1 level dx dy dz data m n k : 0 <= level -> 0 <= m < dx -> 0 <= n < dy -> 0 <= k < dz ->
  at3 dy dz (downsample level 1 dx (dy * 2 ^ level) dz (upsample level 1 dx dy dz data)) m n k = at3 dy dz data m n k.
Proof.
  intros Hl Hm Hn Hk. pose proof (b_pos level Hl) as B.
  assert (E : dy * 2 ^ level / 2 ^ level = dy) by (apply Z.div_mul; lia).
  rewrite <- E at 1. rewrite downsample_axis1; try nia.
  - apply mean_over_const; auto. intros p Hp. rewrite upsample_axis1; try nia. now rewrite div_block.
  - exists dy. auto.
Qed.
Lemma down_up_2 level dx dy dz data m n k : 0 <= level -> 0 <= m < dx -> 0 <= n < dy -> 0 <= k < dz ->
  at3 dy dz (downsample level 2 dx dy (dz * 2 ^ level) (upsample level 2 dx dy dz data)) m n k = at3 dy dz data m n k.
Proof.
  intros Hl Hm Hn Hk. pose proof (b_pos level Hl) as B.
  assert (E : dz * 2 ^ level / 2 ^ level = dz) by (apply Z.div_mul; lia).
  rewrite <- E at 1. rewrite downsample_axis2; try nia.
  - apply mean_over_const; auto. intros p Hp. rewrite upsample_axis2; try nia. now rewrite div_block.
  - exists dz. auto.
Qed.

(** ** Slices *)
Lemma assign_ok {A} (pre mid post src : list A) a b :
  sbound (Z.of_nat (length (pre ++ mid ++ post))) 0 a = Z.of_nat (length pre) ->
  sbound (Z.of_nat (length (pre ++ mid ++ post))) (Z.of_nat (length (pre ++ mid ++ post))) b = Z.of_nat (length pre + length mid) ->
  length src = length mid ->
  assign (pre ++ mid ++ post) a b src = Ok (pre ++ src ++ post).
Proof.
  intros Ha Hb Hs. unfold assign. cbv zeta. rewrite Ha, Hb.
  replace (Z.max (Z.of_nat (length pre)) (Z.of_nat (length pre + length mid))) with (Z.of_nat (length pre + length mid)) by lia.
  replace (Z.of_nat (length src) =? Z.of_nat (length pre + length mid) - Z.of_nat (length pre)) with true by lia.
  rewrite !Nat2Z.id. rewrite firstn_app, Nat.sub_diag, firstn_all, firstn_O, app_nil_r.
  rewrite skipn_app. rewrite (skipn_all2 pre) by lia.
  replace (length pre + length mid - length pre)%nat with (length mid) by lia.
  rewrite skipn_app, skipn_all, Nat.sub_diag, skipn_O. reflexivity.
Qed.
Lemma assign_one {A} (pre mid post : list A) x a b :
  sbound (Z.of_nat (length (pre ++ mid ++ post))) 0 a = Z.of_nat (length pre) ->
  sbound (Z.of_nat (length (pre ++ mid ++ post))) (Z.of_nat (length (pre ++ mid ++ post))) b = Z.of_nat (length pre + length mid) ->
  assign (pre ++ mid ++ post) a b [x] = Ok (pre ++ repeat x (length mid) ++ post).
Proof.
  intros Ha Hb. destruct (Nat.eq_dec (length mid) 1) as [E|E].
  - rewrite (assign_ok pre mid post [x]); auto. rewrite E. reflexivity.
  - unfold assign. cbv zeta. rewrite Ha, Hb.
    replace (Z.max (Z.of_nat (length pre)) (Z.of_nat (length pre + length mid))) with (Z.of_nat (length pre + length mid)) by lia.
    cbn [length].
    replace (Z.of_nat 1 =? Z.of_nat (length pre + length mid) - Z.of_nat (length pre)) with false by lia.
    rewrite !Nat2Z.id. rewrite firstn_app, Nat.sub_diag, firstn_all, firstn_O, app_nil_r.
    rewrite skipn_app. rewrite (skipn_all2 pre) by lia.
    replace (length pre + length mid - length pre)%nat with (length mid) by lia.
    rewrite skipn_app, skipn_all, Nat.sub_diag, skipn_O.
    replace (Z.to_nat (Z.of_nat (length pre + length mid) - Z.of_nat (length pre))) with (length mid) by lia. reflexivity.
Qed.

Lemma split3 {A} (l : list A) (p q r : nat) : length l = (p + q + r)%nat ->
  exists l1 l2 l3, l = l1 ++ l2 ++ l3 /\ length l1 = p /\ length l2 = q /\ length l3 = r.
Proof.
  intros H. exists (firstn p l), (firstn q (skipn p l)), (skipn q (skipn p l)).
  rewrite !firstn_length, !skipn_length. repeat split; try lia.
  now rewrite !firstn_skipn.
Qed.

Lemma sbound_some n d i : 0 <= i <= n -> sbound n d (Some i) = i.
Proof. apply clip_id. Qed.
Lemma sbound_neg n d i : i < 0 -> 0 <= i + n -> sbound n d (Some i) = i + n.
Proof. intros. unfold sbound, clip. destruct (Z.ltb_spec i 0); lia. Qed.

Definition border {A} (mode : pad_mode A) (arr : list A) (d : A) : A * A :=
  match mode with PadConstant c => (c, c) | PadEdge => (hd d arr, last arr d) end.

Lemma pyslice_first {A} (l : list A) d : l <> [] -> pyslice l (Some 0) (Some 1) = [hd d l].
Proof.
  destruct l as [|x l]; [easy|]. intros _. unfold pyslice. cbv zeta.
  rewrite !sbound_some by (cbn; lia). reflexivity.
Qed.
Lemma pyslice_last {A} (l : list A) d : l <> [] ->
  pyslice l (Some (Z.of_nat (length l) - 1)) (Some (Z.of_nat (length l))) = [last l d].
Proof.
  intros Hl. destruct (exists_last Hl) as (l' & x & ->). rewrite last_last, app_length. cbn [length].
  unfold pyslice. cbv zeta. rewrite app_length. cbn [length]. rewrite !sbound_some by lia.
  replace (Z.to_nat (Z.of_nat (length l' + 1) - (Z.of_nat (length l' + 1) - 1))) with 1%nat by lia.
  replace (Z.to_nat (Z.of_nat (length l' + 1) - 1)) with (length l') by lia.
  rewrite skipn_app, skipn_all, Nat.sub_diag. reflexivity.
Qed.

Lemma pad_spec {A} (mode : pad_mode A) npad arr out0 d : 0 <= npad -> arr <> [] ->
  Z.of_nat (length out0) = Z.of_nat (length arr) + 2 * npad ->
  pad mode npad arr out0 =
  Ok (repeat (fst (border mode arr d)) (Z.to_nat npad) ++ arr ++ repeat (snd (border mode arr d)) (Z.to_nat npad)).
Proof.
  intros Hn Hne HL. set (k := Z.to_nat npad). assert (Ek : npad = Z.of_nat k) by lia.
  destruct (split3 out0 k (length arr) k ltac:(lia)) as (l1 & l2 & l3 & -> & E1 & E2 & E3).
  assert (S1 : assign (l1 ++ l2 ++ l3) (Some npad) (Some (npad + Z.of_nat (length arr))) arr = Ok (l1 ++ arr ++ l3)).
  { apply assign_ok; try lia; rewrite sbound_some; rewrite ?app_length; lia. }
  assert (S2 : forall x, assign (l1 ++ arr ++ l3) (Some 0) (Some npad) [x] = Ok (repeat x k ++ arr ++ l3)).
  { intros x. rewrite <- E1. apply (assign_one [] l1 (arr ++ l3) x); cbn [app length]; rewrite sbound_some; rewrite ?app_length; lia. }
  assert (S3 : forall x y, assign (repeat x k ++ arr ++ l3) (Some (npad + Z.of_nat (length arr))) None [y] = Ok (repeat x k ++ arr ++ repeat y k)).
  { intros x y. replace (repeat x k ++ arr ++ l3) with ((repeat x k ++ arr) ++ l3 ++ []) by now rewrite app_nil_r, <- app_assoc.
    replace (repeat x k ++ arr ++ repeat y k) with ((repeat x k ++ arr) ++ repeat y (length l3) ++ []) by now rewrite app_nil_r, <- app_assoc, E3.
    apply assign_one.
    - rewrite sbound_some; rewrite ?app_nil_r, ?app_length, ?repeat_length; lia.
    - unfold sbound. rewrite ?app_nil_r, ?app_length, ?repeat_length. cbn [length]. lia. }
  unfold pad. cbv zeta. rewrite S1. unfold bind, Ok at 1. cbv beta iota.
  destruct mode as [c|]; cbn [border fst snd].
  - rewrite S2. unfold Ok at 1. cbv beta iota. apply S3.
  - rewrite (pyslice_first arr d Hne), (pyslice_last arr d Hne), S2. unfold Ok at 1. cbv beta iota. apply S3.
Qed.

Lemma ceil_spec x : (x <= IZR (ceil x) < x + 1)%R.
Proof.
  unfold ceil. rewrite opp_IZR. destruct (base_Int_part (- x)) as [H1 H2]. lra.
Qed.
Lemma get_npad_spec dim : 0 <= dim ->
  0 <= get_npad dim /\ (IZR dim * sqrt 2 <= IZR (dim + 2 * get_npad dim))%R /\
  (IZR (dim + 2 * (get_npad dim - 1)) < IZR dim * sqrt 2)%R.
Proof.
  intros Hd. unfold get_npad. set (x := ((IZR dim * sqrt 2 - IZR dim) / 2)%R).
  pose proof (ceil_spec x) as [H1 H2].
  assert (Hs : (1 <= sqrt 2)%R) by (rewrite <- sqrt_1 at 1; apply sqrt_le_1; lra).
  assert (0 <= IZR dim)%R by (now apply IZR_le).
  assert (0 <= x)%R by (unfold x; nra).
  split; [apply le_IZR; lra|]. rewrite !plus_IZR, !mult_IZR, minus_IZR. unfold x in *. split; lra.
Qed.

(** ** sino_360_to_180 *)
Lemma combine_app' {A B} (a1 a2 : list A) (b1 b2 : list B) : length a1 = length b1 ->
  combine (a1 ++ a2) (b1 ++ b2) = combine a1 b1 ++ combine a2 b2.
Proof. revert b1. induction a1 as [|x a1 IH]; destruct b1; cbn; intros; try lia; auto. f_equal. apply IH. lia. Qed.

Lemma pyslice_from {A} (l1 l2 : list A) i : i = Z.of_nat (length l1) -> pyslice (l1 ++ l2) (Some i) None = l2.
Proof.
  intros ->. unfold pyslice. cbv zeta. rewrite sbound_some by (rewrite app_length; lia). cbn [sbound].
  rewrite Nat2Z.id, skipn_app, skipn_all, Nat.sub_diag. cbn. apply firstn_all2. rewrite app_length. lia.
Qed.
Lemma pyslice_to {A} (l1 l2 : list A) i : i = Z.of_nat (length l1) -> pyslice (l1 ++ l2) None (Some i) = l1.
Proof.
  intros ->. unfold pyslice. cbv zeta. rewrite sbound_some by (rewrite app_length; lia). cbn [sbound].
  rewrite Z.sub_0_r, Nat2Z.id. cbn. now rewrite firstn_app, firstn_all, Nat.sub_diag, firstn_O, app_nil_r.
Qed.
Lemma pyslice_to_neg {A} (l1 l2 : list A) i : 0 < i -> i = Z.of_nat (length l2) -> pyslice (l1 ++ l2) None (Some (- i)) = l1.
Proof.
  intros Hi ->. unfold pyslice. cbv zeta. rewrite app_length. rewrite sbound_neg by lia. cbn [sbound].
  replace (Z.to_nat (- Z.of_nat (length l2) + Z.of_nat (length l1 + length l2) - 0)) with (length l1) by lia.
  cbn. now rewrite firstn_app, firstn_all, Nat.sub_diag, firstn_O, app_nil_r.
Qed.
Lemma pyslice_from_neg {A} (l1 l2 : list A) i : 0 < i -> i = Z.of_nat (length l2) -> pyslice (l1 ++ l2) (Some (- i)) None = l2.
Proof.
  intros Hi ->. unfold pyslice. cbv zeta. rewrite app_length. rewrite sbound_neg by lia. cbn [sbound].
  replace (Z.to_nat (- Z.of_nat (length l2) + Z.of_nat (length l1 + length l2))) with (length l1) by lia.
  rewrite skipn_app, skipn_all, Nat.sub_diag. cbn. apply firstn_all2. lia.
Qed.

Definition blend_left (ov : Z) (a b : list R) : list R :=
  addl (mulw (linspace 0 1 ov) a) (rev (mulw (linspace 0 1 ov) b)).
Definition blend_right (ov : Z) (a b : list R) : list R :=
  addl (mulw (linspace 1 0 ov) a) (rev (mulw (linspace 1 0 ov) b)).

Lemma linspace_length x y n : length (linspace x y n) = Z.to_nat n.
Proof. unfold linspace. rewrite map_length, zrange_length. f_equal. lia. Qed.
Lemma mulw_length w l : length (mulw w l) = Nat.min (length w) (length l).
Proof. unfold mulw. now rewrite map_length, combine_length. Qed.
Lemma addl_length w l : length (addl w l) = Nat.min (length w) (length l).
Proof. unfold addl. now rewrite map_length, combine_length. Qed.

Lemma stitch_left_spec ov a1 a2 b1 b2 out0 :
  0 <= ov -> Z.of_nat (length a1) = ov -> Z.of_nat (length b1) = ov ->
  a2 <> [] -> length a2 = length b2 -> Z.of_nat (length out0) = 2 * Z.of_nat (length a2) + ov ->
  stitch_left ov (a1 ++ a2) (b1 ++ b2) out0 = Ok (rev b2 ++ blend_left ov a1 b1 ++ a2).
Proof.
  intros Hov Ha1 Hb1 Hne Hab Hout. set (k := length a2).
  assert (k <> 0%nat) by (unfold k; destruct a2; [easy|cbn; lia]).
  destruct (split3 out0 k (length a1) k ltac:(unfold k in *; lia)) as (o1 & o2 & o3 & -> & E1 & E2 & E3).
  unfold stitch_left, blend_left. cbv zeta. rewrite app_length. fold k.
  rewrite (pyslice_from a1 a2 ov), (pyslice_from b1 b2 ov), (pyslice_to a1 a2 ov), (pyslice_to b1 b2 ov) by lia.
  assert (S1 : assign (o1 ++ o2 ++ o3) (Some (- Z.of_nat (length a1 + k) + ov)) None a2 = Ok (o1 ++ o2 ++ a2)).
  { replace (o1 ++ o2 ++ o3) with ((o1 ++ o2) ++ o3 ++ []) by now rewrite app_nil_r, <- app_assoc.
    replace (o1 ++ o2 ++ a2) with ((o1 ++ o2) ++ a2 ++ []) by now rewrite app_nil_r, <- app_assoc.
    apply assign_ok.
    - rewrite sbound_neg; rewrite ?app_nil_r, ?app_length; lia.
    - cbn [sbound]. rewrite ?app_nil_r, ?app_length. cbn [length]. lia.
    - unfold k in *. lia. }
  rewrite S1. unfold bind, Ok at 1. cbv beta iota.
  assert (S2 : assign (o1 ++ o2 ++ a2) None (Some (Z.of_nat (length a1 + k) - ov)) (rev b2) = Ok (rev b2 ++ o2 ++ a2)).
  { apply (assign_ok [] o1 (o2 ++ a2) (rev b2)).
    - reflexivity.
    - cbn [app length]. rewrite sbound_some; rewrite ?app_length; lia.
    - rewrite rev_length. unfold k in *. lia. }
  rewrite S2. unfold Ok at 1. cbv beta iota.
  apply assign_ok.
  - rewrite sbound_some; rewrite ?app_length, ?rev_length; unfold k in *; lia.
  - rewrite sbound_some; rewrite ?app_length, ?rev_length; unfold k in *; lia.
  - rewrite ?addl_length, rev_length, !mulw_length, !linspace_length. lia.
Qed.

Lemma stitch_right_spec ov a1 a2 b1 b2 out0 :
  0 < ov -> Z.of_nat (length a2) = ov -> Z.of_nat (length b2) = ov ->
  a1 <> [] -> length a1 = length b1 -> Z.of_nat (length out0) = 2 * Z.of_nat (length a1) + ov ->
  stitch_right ov (a1 ++ a2) (b1 ++ b2) out0 = Ok (a1 ++ blend_right ov a2 b2 ++ rev b1).
Proof.
  intros Hov Ha1 Hb1 Hne Hab Hout. set (k := length a1).
  assert (k <> 0%nat) by (unfold k; destruct a1; [easy|cbn; lia]).
  destruct (split3 out0 k (length a2) k ltac:(unfold k in *; lia)) as (o1 & o2 & o3 & -> & E1 & E2 & E3).
  unfold stitch_right, blend_right. cbv zeta. rewrite app_length. fold k.
  rewrite (pyslice_to_neg a1 a2 ov), (pyslice_to_neg b1 b2 ov), (pyslice_from_neg a1 a2 ov), (pyslice_from_neg b1 b2 ov) by lia.
  assert (S1 : assign (o1 ++ o2 ++ o3) None (Some (Z.of_nat (k + length a2) - ov)) a1 = Ok (a1 ++ o2 ++ o3)).
  { apply (assign_ok [] o1 (o2 ++ o3) a1).
    - reflexivity.
    - cbn [app length]. rewrite sbound_some; rewrite ?app_length; lia.
    - unfold k in *. lia. }
  rewrite S1. unfold bind, Ok at 1. cbv beta iota.
  assert (S2 : assign (a1 ++ o2 ++ o3) (Some (- Z.of_nat (k + length a2) + ov)) None (rev b1) = Ok (a1 ++ o2 ++ rev b1)).
  { replace (a1 ++ o2 ++ o3) with ((a1 ++ o2) ++ o3 ++ []) by now rewrite app_nil_r, <- app_assoc.
    replace (a1 ++ o2 ++ rev b1) with ((a1 ++ o2) ++ rev b1 ++ []) by now rewrite app_nil_r, <- app_assoc.
    apply assign_ok.
    - rewrite sbound_neg; rewrite ?app_nil_r, ?app_length; unfold k in *; lia.
    - cbn [sbound]. rewrite ?app_nil_r, ?app_length. cbn [length]. lia.
    - rewrite rev_length. unfold k in *. lia. }
  rewrite S2. unfold Ok at 1. cbv beta iota.
  apply assign_ok.
  - rewrite sbound_some; rewrite ?app_length, ?rev_length; unfold k in *; lia.
  - rewrite sbound_some; rewrite ?app_length, ?rev_length; unfold k in *; lia.
  - rewrite ?addl_length, rev_length, !mulw_length, !linspace_length. lia.
Qed.

Lemma nth_linspace x y n i : 2 <= n -> 0 <= i < n ->
  nth (Z.to_nat i) (linspace x y n) 0%R = (x + IZR i * ((y - x) / IZR (n - 1)))%R.
Proof.
  intros Hn Hi. unfold linspace. replace (n =? 1) with false by lia.
  erewrite nth_error_nth; [reflexivity|]. erewrite map_nth_error; [reflexivity|].
  rewrite nth_error_zrange by lia. f_equal. lia.
Qed.
Lemma nth_mulw w l i : (i < length w)%nat -> (i < length l)%nat -> nth i (mulw w l) 0%R = (nth i w 0 * nth i l 0)%R.
Proof.
  revert l i. induction w as [|x w IH]; intros [|y l] [|i] H1 H2; cbn in *; try lia; auto.
  apply IH; lia.
Qed.
Lemma nth_addl w l i : (i < length w)%nat -> (i < length l)%nat -> nth i (addl w l) 0%R = (nth i w 0 + nth i l 0)%R.
Proof.
  revert l i. induction w as [|x w IH]; intros [|y l] [|i] H1 H2; cbn in *; try lia; auto.
  apply IH; lia.
Qed.

(** Weight of the first half at overlap column c; the second half has one minus it. *)
Lemma blend_nth (x y : R) ov a b c : (x + y = 1)%R -> 2 <= ov -> Z.of_nat (length a) = ov -> Z.of_nat (length b) = ov -> 0 <= c < ov ->
  nth (Z.to_nat c) (addl (mulw (linspace x y ov) a) (rev (mulw (linspace x y ov) b))) 0%R
  = let w := (x + IZR c * ((y - x) / IZR (ov - 1)))%R in
    (w * nth (Z.to_nat c) a 0 + (1 - w) * nth (Z.to_nat (ov - 1 - c)) b 0)%R.
Proof.
  intros Hxy Hov Ha Hb Hc. cbv zeta.
  rewrite nth_addl; [|rewrite mulw_length, linspace_length; lia|rewrite rev_length, mulw_length, linspace_length; lia].
  rewrite nth_mulw by (rewrite ?linspace_length; lia). rewrite rev_nth by (rewrite mulw_length, linspace_length; lia).
  rewrite mulw_length, linspace_length.
  replace (Nat.min (Z.to_nat ov) (length b) - S (Z.to_nat c))%nat with (Z.to_nat (ov - 1 - c)) by lia.
  rewrite nth_mulw by (rewrite ?linspace_length; lia).
  rewrite !nth_linspace by lia. f_equal. f_equal.
  replace (ov - 1 - c) with ((ov - 1) - c) by lia. rewrite (minus_IZR (ov - 1) c).
  assert (0 < IZR (ov - 1))%R by (apply IZR_lt; lia). field_simplify; [|lra|lra].
  replace y with (1 - x)%R by lra. field. lra.
Qed.

Lemma split_at {A} (l : list A) i : 0 <= i <= Z.of_nat (length l) ->
  exists l1 l2, l = l1 ++ l2 /\ Z.of_nat (length l1) = i /\ Z.of_nat (length l2) = Z.of_nat (length l) - i.
Proof.
  intros H. exists (firstn (Z.to_nat i) l), (skipn (Z.to_nat i) l).
  rewrite firstn_skipn, firstn_length, skipn_length. repeat split; lia.
Qed.
Definition znth (l : list R) (i : Z) : R := nth (Z.to_nat i) l 0%R.
Lemma znth_app1 l1 l2 i : 0 <= i < Z.of_nat (length l1) -> znth (l1 ++ l2) i = znth l1 i.
Proof. intros. unfold znth. apply app_nth1. lia. Qed.
Lemma znth_app2 l1 l2 i : Z.of_nat (length l1) <= i -> znth (l1 ++ l2) i = znth l2 (i - Z.of_nat (length l1)).
Proof. intros. unfold znth. rewrite app_nth2 by lia. f_equal. lia. Qed.
Lemma znth_rev l i : 0 <= i < Z.of_nat (length l) -> znth (rev l) i = znth l (Z.of_nat (length l) - 1 - i).
Proof. intros. unfold znth. rewrite rev_nth by lia. f_equal. lia. Qed.

Definition overlap_weight (x y : R) (ov c : Z) : R := (x + IZR c * ((y - x) / IZR (ov - 1)))%R.
Lemma overlap_weight_range x y ov c : ((x = 0 /\ y = 1) \/ (x = 1 /\ y = 0))%R -> 2 <= ov -> 0 <= c < ov ->
  (0 <= overlap_weight x y ov c <= 1)%R.
Proof.
  intros Hxy Hov Hc. unfold overlap_weight.
  assert (0 < IZR (ov - 1))%R by (apply IZR_lt; lia).
  assert (0 <= IZR c)%R by (apply IZR_le; lia).
  assert (IZR c <= IZR (ov - 1))%R by (apply IZR_le; lia).
  assert (0 <= IZR c / IZR (ov - 1) <= 1)%R.
  { split; [apply Rmult_le_pos; [lra|left; now apply Rinv_0_lt_compat]|].
    apply Rmult_le_reg_r with (IZR (ov - 1)); [lra|]. unfold Rdiv. rewrite Rmult_assoc, Rinv_l by lra. lra. }
  destruct Hxy as [[-> ->]|[-> ->]].
  - replace (0 + IZR c * ((1 - 0) / IZR (ov - 1)))%R with (IZR c / IZR (ov - 1))%R by (field; lra). lra.
  - replace (1 + IZR c * ((0 - 1) / IZR (ov - 1)))%R with (1 - IZR c / IZR (ov - 1))%R by (field; lra). lra.
Qed.

Lemma stitch_left_nth ov a b out0 :
  let dz := Z.of_nat (length a) in
  length b = length a -> 2 <= ov < dz -> Z.of_nat (length out0) = 2 * dz - ov ->
  exists out, stitch_left ov a b out0 = Ok out /\ Z.of_nat (length out) = 2 * dz - ov /\
    (forall j, 0 <= j < dz - ov -> znth out j = znth b (dz - 1 - j)) /\
    (forall c, 0 <= c < ov -> let w := overlap_weight 0 1 ov c in
       znth out (dz - ov + c) = (w * znth a c + (1 - w) * znth b (ov - 1 - c))%R) /\
    (forall j, dz <= j < 2 * dz - ov -> znth out j = znth a (j - (dz - ov))).
Proof.
  intros dz Hb Hov Hout.
  destruct (split_at a ov ltac:(lia)) as (a1 & a2 & Ea & La1 & La2).
  destruct (split_at b ov ltac:(lia)) as (b1 & b2 & Eb & Lb1 & Lb2). fold dz in La2.
  exists (rev b2 ++ blend_left ov a1 b1 ++ a2).
  assert (Lb : Z.of_nat (length (blend_left ov a1 b1)) = ov).
  { unfold blend_left. rewrite addl_length, rev_length, !mulw_length, !linspace_length. lia. }
  assert (Lr : Z.of_nat (length (rev b2)) = dz - ov) by (rewrite rev_length; lia).
  split; [|split; [|split; [|split]]].
  - rewrite Ea, Eb. apply stitch_left_spec; try lia. intros ->. cbn in La2. lia.
  - rewrite !app_length. lia.
  - intros j Hj. rewrite znth_app1 by lia. rewrite znth_rev by (rewrite rev_length in Lr; lia).
    rewrite Eb, znth_app2 by lia. f_equal. lia.
  - intros c Hc w. rewrite znth_app2 by lia. rewrite znth_app1 by lia. rewrite Lr.
    replace (dz - ov + c - (dz - ov)) with c by lia. unfold blend_left, znth.
    rewrite blend_nth by (try lra; lia). cbv zeta. fold (overlap_weight 0 1 ov c). fold w.
    fold (znth a1 c) (znth a c) (znth b1 (ov - 1 - c)) (znth b (ov - 1 - c)).
    rewrite Ea, Eb. rewrite !znth_app1 by lia. reflexivity.
  - intros j Hj. rewrite znth_app2 by lia. rewrite znth_app2 by lia. rewrite Ea, znth_app2 by lia.
    f_equal. lia.
Qed.

Lemma stitch_right_nth ov a b out0 :
  let dz := Z.of_nat (length a) in
  length b = length a -> 2 <= ov < dz -> Z.of_nat (length out0) = 2 * dz - ov ->
  exists out, stitch_right ov a b out0 = Ok out /\ Z.of_nat (length out) = 2 * dz - ov /\
    (forall j, 0 <= j < dz - ov -> znth out j = znth a j) /\
    (forall c, 0 <= c < ov -> let w := overlap_weight 1 0 ov c in
       znth out (dz - ov + c) = (w * znth a (dz - ov + c) + (1 - w) * znth b (dz - 1 - c))%R) /\
    (forall j, dz <= j < 2 * dz - ov -> znth out j = znth b (2 * dz - ov - 1 - j)).
Proof.
  intros dz Hb Hov Hout.
  destruct (split_at a (dz - ov) ltac:(lia)) as (a1 & a2 & Ea & La1 & La2).
  destruct (split_at b (dz - ov) ltac:(lia)) as (b1 & b2 & Eb & Lb1 & Lb2). fold dz in La2.
  exists (a1 ++ blend_right ov a2 b2 ++ rev b1).
  assert (Lb : Z.of_nat (length (blend_right ov a2 b2)) = ov).
  { unfold blend_right. rewrite addl_length, rev_length, !mulw_length, !linspace_length. lia. }
  assert (Lr : Z.of_nat (length (rev b1)) = dz - ov) by (rewrite rev_length; lia).
  split; [|split; [|split; [|split]]].
  - rewrite Ea, Eb. apply stitch_right_spec; try lia. intros ->. cbn in La1. lia.
  - rewrite !app_length. lia.
  - intros j Hj. rewrite znth_app1 by lia. rewrite Ea, znth_app1 by lia. auto.
  - intros c Hc w. rewrite znth_app2 by lia. rewrite znth_app1 by lia. rewrite La1.
    replace (dz - ov + c - (dz - ov)) with c by lia. unfold blend_right, znth.
    rewrite blend_nth by (try lra; lia). cbv zeta. fold (overlap_weight 1 0 ov c). fold w.
    fold (znth a2 c) (znth a (dz - ov + c)) (znth b2 (ov - 1 - c)) (znth b (dz - 1 - c)).
    rewrite Ea, Eb. rewrite !znth_app2 by lia. f_equal; do 2 f_equal; lia.
  - intros j Hj. rewrite znth_app2 by lia. rewrite znth_app2 by lia.
    rewrite znth_rev by (rewrite rev_length in Lr; lia). rewrite Eb, znth_app1 by lia.
    f_equal. rewrite rev_length in Lr. lia.
Qed.
