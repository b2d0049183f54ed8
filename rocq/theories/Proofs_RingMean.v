(** Proofs about Model_Ring: the rolling mean. *)
From Verif Require Import Base CLoop Order Model_Solver Model_Ring Spec_Ring Proofs_Ring.
From Coq Require Import Reals Lra.
Local Open Scope Z_scope.

Lemma rsum_app l1 l2 : rsum (l1 ++ l2) = (rsum l1 + rsum l2)%R.
Proof. unfold rsum. induction l1 as [|x l IH]; cbn; [lra|]. rewrite IH. lra. Qed.

Lemma around_length {V} (f : Z -> V) c rad : 0 <= rad -> INR (length (around f c rad)) = IZR (2 * rad + 1).
Proof. intros H. unfold around. rewrite map_length, zrange_length. rewrite INR_IZR_INZ. f_equal. lia. Qed.

Lemma around_shift (f : Z -> R) c rad : 0 <= rad ->
  rsum (around f c rad) = (rsum (around f (c - 1) rad) - f (c - 1 - rad)%Z + f (c + rad)%Z)%R.
Proof.
  intros H. unfold around.
  rewrite (@zrange_snoc (- rad) rad) by lia. rewrite map_app, rsum_app. cbn [map rsum fold_right].
  replace (zrange (- rad) rad ++ [rad]) with (zrange (- rad) (rad + 1)) by (rewrite zrange_snoc by lia; reflexivity).
  rewrite (@zrange_cons (- rad) (rad + 1)) by lia. cbn [map]. unfold rsum at 2. cbn [fold_right].
  change (fold_right Rplus 0%R) with rsum.
  replace (map (fun n => f (c - 1 + n)) (zrange (- rad + 1) (rad + 1))) with (map (fun n => f (c + n)) (zrange (- rad) rad)).
  2:{ unfold zrange. rewrite !map_map. replace (rad + 1 - (- rad + 1)) with (rad - - rad) by lia.
      apply map_ext. intros i. f_equal. lia. }
  replace (c - 1 + - rad) with (c - 1 - rad) by lia. lra.
Qed.

Section Mean.
  Variable image : arr R.
  Variables width height rad : Z.
  Hypothesis Hrad : 0 <= rad.
  Notation at_rc := (at_rc image width).

  Lemma first_sum_spec f col (g : Z -> R) c :
    (forall n, - rad <= n <= rad -> at_rc (f n) col = g (c + n)) ->
    first_sum image width rad f col = rsum (around g c rad).
  Proof.
    intros H. unfold first_sum, for_range, around.
    assert (G : forall l a, (forall n, In n l -> - rad <= n <= rad) ->
      fold_left (fun s j => (s + at_rc (f j) col)%R) l a = (a + rsum (map (fun n => g (c + n)%Z) l))%R).
    { induction l as [|x l IH]; intros a Hl; cbn; [lra|]. rewrite IH by (intros; apply Hl; cbn; auto).
      rewrite H by (apply Hl; cbn; auto). unfold rsum. lra. }
    rewrite G; [lra|]. intros n Hn. apply in_zrange in Hn. lia.
  Qed.

  (** One rolling pass over rows lo .. hi-1. *)
  Lemma roll_mean_spec lo hi last next col (g : Z -> R) out sum :
    lo <= hi -> 0 <= col < width ->
    (forall row, lo <= row < hi -> at_rc (last (row - 1 - rad)) col = g (row - 1 - rad) /\ at_rc (next (row + rad)) col = g (row + rad)) ->
    sum = rsum (around g (lo - 1) rad) ->
    let out' := fst (roll_mean image width rad lo hi last next col (out, sum)) in
    (forall row, lo <= row < hi -> out' (row * width + col) = if Req_EM_T (at_rc row col) 0 then 0%R else mean (around g row rad)) /\
    (forall row c, 0 <= c < width -> (row < lo \/ hi <= row \/ c <> col) -> out' (row * width + c) = out (row * width + c)).
  Proof.
    intros Hlh Hc Hg Hs. unfold roll_mean.
    match goal with |- context [for_range _ _ ?f ?s] => set (s0 := s); set (body := f) end.
    pose proof (for_range_ind (fun r (s : arr R * R) =>
      snd s = rsum (around g (r - 1) rad) /\
      (forall row, lo <= row < r -> fst s (row * width + col) = if Req_EM_T (at_rc row col) 0 then 0%R else mean (around g row rad)) /\
      (forall row c, 0 <= c < width -> (row < lo \/ r <= row \/ c <> col) -> fst s (row * width + c) = out (row * width + c))) lo hi body s0) as L.
    lapply L; [clear L; intros L; lapply L; [clear L; intros L; lapply L; [clear L; intros (_ & L1 & L2)|]|]|].
    - split; auto.
    - intros r [o s] Hr (Es & L1 & L2). cbn [fst snd] in *. unfold body. cbn [fst snd]. destruct (Hg r Hr) as [G1 G2].
      assert (E : (s - at_rc (last (r - 1 - rad)%Z) col + at_rc (next (r + rad)%Z) col)%R = rsum (around g (r + 1 - 1) rad)).
      { replace (r + 1 - 1) with r by lia. rewrite (around_shift g r) by lia. rewrite Es, G1, G2. reflexivity. }
      split; [exact E|]. split.
      + intros row Hrow. destruct (Z.eq_dec row r) as [->|Nr].
        * rewrite aset_eq. destruct (Req_EM_T (at_rc r col) 0); auto. rewrite E. unfold mean, num_elems.
          rewrite around_length by lia. replace (r + 1 - 1) with r by lia. reflexivity.
        * rewrite aset_ne by nia. apply L1. lia.
      + intros row c Hc' Hout. rewrite aset_ne; [apply L2; auto; lia|].
        intros E'. assert (row = r) by nia. subst. assert (c = col) by lia. lia.
    - subst s0. cbn [fst snd]. split; [exact Hs|]. split; [intros; lia|auto].
    - lia.
  Qed.

  Definition win (reflect : bool) (row col : Z) : list R :=
    around (fun r => at_rc (neighbour reflect height row r) col) row rad.

  Lemma first_mean g c : (rsum (around g c rad) / num_elems rad)%R = mean (around g c rad).
  Proof. unfold mean, num_elems. now rewrite around_length. Qed.

  Lemma wrapped_id r : 0 <= r < height -> wrapped height r = r.
  Proof. apply Z.mod_small. Qed.
  Lemma wrapped_up r : - height <= r < 0 -> wrapped height r = r + height.
  Proof.
    intros H. unfold wrapped. rewrite <- (Z.mod_unique r height (-1) (r + height)); lia.
  Qed.
  Lemma wrapped_down r : height <= r < 2 * height -> wrapped height r = r - height.
  Proof. intros H. unfold wrapped. rewrite <- (Z.mod_unique r height 1 (r - height)); lia. Qed.

  Lemma wrap_column_spec col out :
    0 < height -> rad <= height -> 0 <= col < width ->
    let out' := wrap_column image width height rad 0 (height - 1) col out in
    (forall row, 0 <= row < height -> out' (row * width + col) =
       if negb (first_row false height row) && (if Req_EM_T (at_rc row col) 0 then true else false) then 0%R else mean (win false row col)) /\
    (forall row c, 0 <= c < width -> (row < 0 \/ height <= row \/ c <> col) -> out' (row * width + c) = out (row * width + c)).
  Proof.
    intros Hh Hr Hc. unfold wrap_column.
    set (g := fun r => at_rc (wrapped height r) col).
    match goal with |- context [first_sum image width rad ?f col] => pose proof (first_sum_spec f col g 0) as F end.
    rewrite F; clear F.
    2:{ intros n Hn. unfold g. f_equal. rewrite !Z.add_0_r. change (0 + n) with n.
        destruct (n <? 0) eqn:E1; [now rewrite wrapped_up by lia|].
        destruct (n >=? height) eqn:E2; [now rewrite wrapped_down by lia|now rewrite wrapped_id by lia]. }
    rewrite first_mean.
    match goal with |- context [roll_mean _ _ _ _ _ ?l ?n _ (?o, ?s)] =>
      pose proof (roll_mean_spec (0 + 1) (height - 1 + 1) l n col g o s ltac:(lia) Hc) as R end.
    lapply R; [clear R; intros R|].
    2:{ intros row Hrow. unfold g. split; f_equal.
        - destruct (row - 1 - rad <? 0) eqn:E1; [now rewrite wrapped_up by lia|now rewrite wrapped_id by lia].
        - destruct (row + rad >=? height) eqn:E1; [now rewrite wrapped_down by lia|now rewrite wrapped_id by lia]. }
    specialize (R eq_refl). cbv zeta in R. destruct R as [R1 R2]. split.
    - intros row Hrow. unfold first_row. cbn [andb]. rewrite orb_false_r. destruct (row =? 0) eqn:E0; cbn [negb andb].
      + replace row with 0 by lia. rewrite R2 by lia. rewrite aset_eq. reflexivity.
      + rewrite R1 by lia. destruct (Req_EM_T (at_rc row col) 0); reflexivity.
    - intros row c Hc' Hout. rewrite R2 by lia. rewrite aset_ne; [reflexivity|].
      intros E. assert (row = 0) by nia. subst. lia.
  Qed.

  Lemma reflect_column_spec col out :
    1 <= height / 2 -> rad <= height / 2 -> 0 <= col < width ->
    let out' := reflect_column image width height rad col out in
    (forall row, 0 <= row < height -> out' (row * width + col) =
       if negb (first_row true height row) && (if Req_EM_T (at_rc row col) 0 then true else false) then 0%R else mean (win true row col)) /\
    (forall row c, 0 <= c < width -> (row < 0 \/ height <= row \/ c <> col) -> out' (row * width + c) = out (row * width + c)).
  Proof.
    intros Hh2 Hr Hc. unfold reflect_column. set (h2 := height / 2) in *.
    set (g := fun r => at_rc (mirrored 0 (h2 - 1) r) col).
    set (g2 := fun r => at_rc (mirrored h2 (height - 1) r) col).
    match goal with |- context [first_sum image width rad ?f col] => pose proof (first_sum_spec f col g 0) as F end.
    rewrite F; clear F.
    2:{ intros n Hn. unfold g, mirrored. f_equal. change (0 + n) with n.
        destruct (n <? 0) eqn:E1; [lia|]. destruct (n >=? h2) eqn:E2, (h2 - 1 <? n) eqn:E3; lia. }
    rewrite first_mean.
    match goal with |- context [roll_mean _ _ _ 1 h2 ?l ?n _ (?o, ?s)] =>
      pose proof (roll_mean_spec 1 h2 l n col g o s ltac:(lia) Hc) as R end.
    lapply R; [clear R; intros R|].
    2:{ intros row Hrow. unfold g, mirrored. split; f_equal.
        - destruct (row - 1 - rad <? 0) eqn:E1; [lia|]. destruct (h2 - 1 <? row - 1 - rad) eqn:E3; lia.
        - destruct (row + rad <? 0) eqn:E1; [lia|]. destruct (row + rad >=? h2) eqn:E2, (h2 - 1 <? row + rad) eqn:E3; lia. }
    specialize (R eq_refl). cbv zeta in R.
    match type of R with context [fst ?x] => set (o1 := fst x) in * end. destruct R as [R1 R2].
    match goal with |- context [first_sum image width rad ?f col] => pose proof (first_sum_spec f col g2 h2) as F end.
    rewrite F; clear F.
    2:{ intros n Hn. unfold g2, mirrored. f_equal. replace (h2 + n) with (n + h2) by lia.
        destruct (n + h2 <? h2) eqn:E1; [lia|]. destruct (n + h2 >=? height) eqn:E2, (height - 1 <? n + h2) eqn:E3; lia. }
    rewrite first_mean.
    match goal with |- context [roll_mean _ _ _ (h2 + 1) height ?l ?n _ (?o, ?s)] =>
      pose proof (roll_mean_spec (h2 + 1) height l n col g2 o s ltac:(lia) Hc) as Q end.
    lapply Q; [clear Q; intros Q|].
    2:{ intros row Hrow. unfold g2, mirrored. split; f_equal.
        - destruct (row - 1 - rad <? h2) eqn:E1; [lia|]. destruct (height - 1 <? row - 1 - rad) eqn:E3; lia.
        - destruct (row + rad <? h2) eqn:E1; [lia|]. destruct (row + rad >=? height) eqn:E2, (height - 1 <? row + rad) eqn:E3; lia. }
    replace (h2 + 1 - 1) with h2 in Q by lia.
    specialize (Q eq_refl). cbv zeta in Q. destruct Q as [Q1 Q2]. split.
    - intros row Hrow. unfold first_row. fold h2. cbn [andb]. unfold win, neighbour. fold h2.
      destruct (row <? h2) eqn:Eh.
      + rewrite Q2 by lia. rewrite aset_ne by nia. replace (row =? h2) with false by lia. rewrite orb_false_r.
        destruct (row =? 0) eqn:E0; cbn [negb andb].
        * replace row with 0 by lia. rewrite R2 by lia. rewrite Z.mul_0_l, Z.add_0_l. rewrite aset_eq. reflexivity.
        * rewrite R1 by lia. destruct (Req_EM_T (at_rc row col) 0); reflexivity.
      + replace (row =? 0) with false by lia. cbn [orb]. destruct (row =? h2) eqn:E0; cbn [negb andb].
        * replace row with h2 by lia. rewrite Q2 by lia. rewrite aset_eq. reflexivity.
        * rewrite Q1 by lia. destruct (Req_EM_T (at_rc row col) 0); reflexivity.
    - intros row c Hc' Hout. rewrite Q2 by lia. rewrite aset_ne.
      2:{ intros E. assert (row = h2) by nia. subst row. lia. }
      rewrite R2 by lia. rewrite aset_ne; [reflexivity|].
      intros E. assert (row = 0) by nia. subst. lia.
  Qed.

  Notation azimuthal reflect := (azimuth at_rc reflect height rad).
  Lemma mean_filter_spec (reflect : bool) out c0 c1 :
    0 < height -> (if reflect then 1 <= height / 2 /\ rad <= height / 2 else rad <= height) -> 0 <= c0 <= c1 + 1 -> c1 < width ->
    let out' := mean_filter image width height rad reflect out 0 c0 (height - 1) c1 in
    (forall row c, 0 <= row < height -> c0 <= c <= c1 -> out' (row * width + c) = azimuthal reflect row c) /\
    (forall row c, 0 <= c < width -> (row < 0 \/ height <= row \/ c < c0 \/ c1 < c) -> out' (row * width + c) = out (row * width + c)).
  Proof.
    intros Hh Hr H0 H1. unfold mean_filter.
    match goal with |- context [for_range _ _ ?f ?s] => set (body := f) end.
    pose proof (for_range_ind (fun q (o : arr R) =>
      (forall row c, 0 <= row < height -> c0 <= c < q -> o (row * width + c) = azimuthal reflect row c) /\
      (forall row c, 0 <= c < width -> (row < 0 \/ height <= row \/ c < c0 \/ q <= c) -> o (row * width + c) = out (row * width + c)))
      c0 (c1 + 1) body out) as L.
    lapply L; [clear L; intros L; lapply L; [clear L; intros L; lapply L; [clear L; intros (L1 & L2)|]|]|].
    - split; intros; [apply L1; lia|apply L2; lia].
    - intros q o Hq (L1 & L2). unfold body.
      assert (G : let out' := if reflect then reflect_column image width height rad q o else wrap_column image width height rad 0 (height - 1) q o in
        (forall row, 0 <= row < height -> out' (row * width + q) = azimuthal reflect row q) /\
        (forall row c, 0 <= c < width -> (row < 0 \/ height <= row \/ c <> q) -> out' (row * width + c) = o (row * width + c))).
      { destruct reflect; [apply reflect_column_spec|apply wrap_column_spec]; lia. }
      cbv zeta in G. destruct G as [G1 G2]. split.
      + intros row c Hrow Hc. destruct (Z.eq_dec c q) as [->|Nc]; [now apply G1|].
        rewrite G2 by lia. apply L1; lia.
      + intros row c Hc Hout. rewrite G2 by lia. apply L2; lia.
    - split; intros; [lia|auto].
    - lia.
  Qed.
End Mean.
