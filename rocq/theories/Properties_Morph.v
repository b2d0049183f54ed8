(** Shape-changing operations: pad, downsample/upsample, 360-to-180-degree conversion. *)
From Verif Require Import Base CLoop Model_Prep Model_Morph Proofs_Prep Proofs_Morph.
From Coq Require Import Reals Lra.
Local Open Scope Z_scope.

(** ** C18 pad *)
Theorem C18_pad_edge : forall (A : Type) (arr out0 : list A) npad d,
  0 <= npad -> arr <> [] -> Z.of_nat (length out0) = Z.of_nat (length arr) + 2 * npad ->
  exists out, pad PadEdge npad arr out0 = Ok out /\
    length out = length out0 /\
    firstn (Z.to_nat npad) out = repeat (hd d arr) (Z.to_nat npad) /\
    firstn (length arr) (skipn (Z.to_nat npad) out) = arr /\
    skipn (Z.to_nat npad + length arr) out = repeat (last arr d) (Z.to_nat npad).
Proof.
  intros A arr out0 npad d Hn Ha Hl. eexists. split; [apply (pad_spec PadEdge npad arr out0 d); auto|].
  cbn [border fst snd]. set (k := Z.to_nat npad). rewrite !app_length, !repeat_length.
  rewrite skipn_app, repeat_length, Nat.sub_diag, firstn_app, repeat_length, Nat.sub_diag, firstn_O, app_nil_r.
  rewrite (firstn_all2 (repeat _ k)) by (rewrite repeat_length; lia).
  rewrite (skipn_all2 (repeat _ k)) by (rewrite repeat_length; lia). cbn [app skipn].
  rewrite firstn_app, Nat.sub_diag, firstn_O, app_nil_r, firstn_all.
  rewrite skipn_app, repeat_length, (skipn_all2 (repeat _ k)) by (rewrite repeat_length; lia).
  rewrite skipn_app, (skipn_all2 arr) by lia. replace (k + length arr - k - length arr)%nat with 0%nat by lia.
  repeat split; auto. lia.
Qed.
Theorem C18_pad_constant : forall (A : Type) (c : A) (arr out0 : list A) npad,
  0 <= npad -> arr <> [] -> Z.of_nat (length out0) = Z.of_nat (length arr) + 2 * npad ->
  exists out, pad (PadConstant c) npad arr out0 = Ok out /\
    length out = length out0 /\
    firstn (Z.to_nat npad) out = repeat c (Z.to_nat npad) /\
    firstn (length arr) (skipn (Z.to_nat npad) out) = arr /\
    skipn (Z.to_nat npad + length arr) out = repeat c (Z.to_nat npad).
Proof.
  intros A c arr out0 npad Hn Ha Hl. eexists. split; [apply (pad_spec (PadConstant c) npad arr out0 c); auto|].
  cbn [border fst snd]. set (k := Z.to_nat npad). rewrite !app_length, !repeat_length.
  rewrite skipn_app, repeat_length, Nat.sub_diag, firstn_app, repeat_length, Nat.sub_diag, firstn_O, app_nil_r.
  rewrite (firstn_all2 (repeat _ k)) by (rewrite repeat_length; lia).
  rewrite (skipn_all2 (repeat _ k)) by (rewrite repeat_length; lia). cbn [app skipn].
  rewrite firstn_app, Nat.sub_diag, firstn_O, app_nil_r, firstn_all.
  rewrite skipn_app, repeat_length, (skipn_all2 (repeat _ k)) by (rewrite repeat_length; lia).
  rewrite skipn_app, (skipn_all2 arr) by lia. replace (k + length arr - k - length arr)%nat with 0%nat by lia.
  repeat split; auto. lia.
Qed.
(** Without npad the padded width holds the diagonal of the square, and no smaller width does. *)
Theorem C18_default_holds_diagonal : forall dim, 0 <= dim ->
  0 <= get_npad dim /\ (IZR dim * sqrt 2 <= IZR (dim + 2 * get_npad dim))%R /\
  (IZR (dim + 2 * (get_npad dim - 1)) < IZR dim * sqrt 2)%R.
Proof. exact get_npad_spec. Qed.
Theorem C18_arguments : forall mode kwargs, pad_args_ok mode kwargs = true <->
  (mode = Some 0%nat /\ (forall k, In k kwargs -> k = 2%nat)) \/ (mode = Some 1%nat /\ kwargs = []).
Proof.
  intros mode kwargs. unfold pad_args_ok. destruct mode as [[|[|m]]|].
  - rewrite forallb_forall. split.
    + intros H. left. split; auto. intros k Hk. apply Nat.eqb_eq. auto.
    + intros [[_ H]|[[=] _]]. intros k Hk. apply Nat.eqb_eq. auto.
  - destruct kwargs; split; auto; try easy; intros [[[=] _]|[_ [=]]].
  - split; [easy|]. intros [[[=] _]|[[=] _]].
  - split; [easy|]. intros [[[=] _]|[[=] _]].
Qed.
Example C18_ex : pad PadEdge 2 [5;6;7] (repeat 0 7) = Ok [5;5;5;6;7;7;7].
Proof. reflexivity. Qed.
Example C18_ex_const : pad (PadConstant 9) 1 [5] (repeat 0 3) = Ok [9;5;9].
Proof. reflexivity. Qed.

(** ** C19 downsample and upsample.  [at3 dy dz a m n k] reads a[m, n, k] of a row-major array. *)
Definition mean_of (n : Z) (f : Z -> R) : R := (fold_right Rplus 0 (map f (zrange 0 n)) / IZR n)%R.

Theorem C19_downsample_axis0 : forall level dx dy dz data m n k, 0 <= level ->
  0 <= m < dx / 2 ^ level -> 0 <= n < dy -> 0 <= k < dz ->
  at3 dy dz (downsample level 0 dx dy dz data) m n k
  = mean_of (2 ^ level) (fun p => at3 dy dz data (m * 2 ^ level + p) n k).
Proof.
  intros level dx dy dz data m n k Hl Hm Hn Hk.
  assert (0 <= dx). { destruct (Z_lt_le_dec dx 0); auto. pose proof (Z.pow_pos_nonneg 2 level ltac:(lia) Hl). assert (dx / 2 ^ level < 0) by (apply Z.div_lt_upper_bound; lia). lia. }
  apply downsample_axis0; auto; lia.
Qed.
Theorem C19_downsample_axis1 : forall level dx dy dz data m n k, 0 <= level -> 0 <= dy -> (2 ^ level | dy) ->
  0 <= m < dx -> 0 <= n < dy / 2 ^ level -> 0 <= k < dz ->
  at3 (dy / 2 ^ level) dz (downsample level 1 dx dy dz data) m n k
  = mean_of (2 ^ level) (fun p => at3 dy dz data m (n * 2 ^ level + p) k).
Proof. intros. apply downsample_axis1; auto; lia. Qed.
Theorem C19_downsample_axis2 : forall level dx dy dz data m n k, 0 <= level -> 0 <= dz -> (2 ^ level | dz) ->
  0 <= m < dx -> 0 <= n < dy -> 0 <= k < dz / 2 ^ level ->
  at3 dy (dz / 2 ^ level) (downsample level 2 dx dy dz data) m n k
  = mean_of (2 ^ level) (fun p => at3 dy dz data m n (k * 2 ^ level + p)).
Proof. intros. apply downsample_axis2; auto; lia. Qed.

Theorem C19_upsample : forall level dx dy dz data m n k, 0 <= level -> 0 <= m -> 0 <= n -> 0 <= k ->
  (m < dx * 2 ^ level -> n < dy -> k < dz ->
     at3 dy dz (upsample level 0 dx dy dz data) m n k = at3 dy dz data (m / 2 ^ level) n k) /\
  (m < dx -> n < dy * 2 ^ level -> k < dz ->
     at3 (dy * 2 ^ level) dz (upsample level 1 dx dy dz data) m n k = at3 dy dz data m (n / 2 ^ level) k) /\
  (m < dx -> n < dy -> k < dz * 2 ^ level ->
     at3 dy (dz * 2 ^ level) (upsample level 2 dx dy dz data) m n k = at3 dy dz data m n (k / 2 ^ level)).
Proof.
  intros level dx dy dz data m n k Hl Hm Hn Hk. pose proof (b_pos level Hl) as B.
  split; [|split]; intros.
  - apply upsample_axis0; auto; nia.
  - apply upsample_axis1; auto; nia.
  - apply upsample_axis2; auto; nia.
Qed.
Theorem C19_down_up : forall level dx dy dz data m n k, 0 <= level ->
  0 <= m < dx -> 0 <= n < dy -> 0 <= k < dz ->
  at3 dy dz (downsample level 0 (dx * 2 ^ level) dy dz (upsample level 0 dx dy dz data)) m n k = at3 dy dz data m n k /\
  at3 dy dz (downsample level 1 dx (dy * 2 ^ level) dz (upsample level 1 dx dy dz data)) m n k = at3 dy dz data m n k /\
  at3 dy dz (downsample level 2 dx dy (dz * 2 ^ level) (upsample level 2 dx dy dz data)) m n k = at3 dy dz data m n k.
Proof. intros. auto using down_up_0, down_up_1, down_up_2. Qed.
Ltac run_sample :=
  unfold downsample, downsample1, downsample2, for_, zeros, at3, mean_of; cbv zeta;
  change (2 ^ 1) with 2; change (2 / 2) with 1; change (3 / 2) with 1;
  cbn [Z.eqb Pos.eqb];
  change (zrange 0 1) with [0]; change (zrange 0 2) with [0; 1];
  cbn [fold_left fold_right map]; unfold down_step, aset; cbn [fst Z.add Z.mul Z.eqb Pos.add Pos.mul Pos.eqb Pos.succ].
Example C19_ex : downsample 1 2 1 2 2 IZR 1 = (5 / 2)%R.
Proof. run_sample. lra. Qed.

(** ** C54 incomplete groups: dropped along axis 0, but along the other axes they shift what follows. *)
Theorem C54_incomplete_groups_refuted :
  exists level dx dy dz data m n k, 0 <= level /\ 0 <= m < dx /\ 0 <= n < dy /\ 0 <= k < dz / 2 ^ level /\
  at3 dy (dz / 2 ^ level) (downsample level 2 dx dy dz data) m n k
  <> mean_of (2 ^ level) (fun p => at3 dy dz data m n (k * 2 ^ level + p)).
Proof.
  exists 1, 1, 2, 3, IZR, 0, 1, 0. repeat split; try lia; try (cbn; lia).
  run_sample. lra.
Qed.
Theorem C54_incomplete_groups_axis1_refuted :
  exists level dx dy dz data m n k, 0 <= level /\ 0 <= m < dx /\ 0 <= n < dy / 2 ^ level /\ 0 <= k < dz /\
  at3 (dy / 2 ^ level) dz (downsample level 1 dx dy dz data) m n k
  <> mean_of (2 ^ level) (fun p => at3 dy dz data m (n * 2 ^ level + p) k).
Proof.
  exists 1, 2, 3, 1, IZR, 1, 0, 0. repeat split; try lia; try (cbn; lia).
  run_sample. lra.
Qed.
Theorem C54_incomplete_groups_partial : forall level dx dy dz data m n k, 0 <= level ->
  0 <= m < dx / 2 ^ level -> 0 <= n < dy -> 0 <= k < dz ->
  at3 dy dz (downsample level 0 dx dy dz data) m n k
  = mean_of (2 ^ level) (fun p => at3 dy dz data (m * 2 ^ level + p) n k).
Proof. exact C19_downsample_axis0. Qed.

(** ** C20 sino_360_to_180.  [row] is the row a full-width 180-degree scan would have measured. *)
Definition sees_left (dz ov : Z) (row : Z -> R) (a b : list R) : Prop :=
  (forall c, 0 <= c < dz -> znth a c = row (dz - ov + c)) /\ (forall c, 0 <= c < dz -> znth b c = row (dz - 1 - c)).
Definition sees_right (dz ov : Z) (row : Z -> R) (a b : list R) : Prop :=
  (forall c, 0 <= c < dz -> znth a c = row c) /\ (forall c, 0 <= c < dz -> znth b c = row (2 * dz - ov - 1 - c)).

Theorem C20_columns_left : forall ov a b out0, let dz := Z.of_nat (length a) in
  length b = length a -> 2 <= ov < dz -> Z.of_nat (length out0) = 2 * dz - ov ->
  exists out, stitch_left ov a b out0 = Ok out /\ Z.of_nat (length out) = 2 * dz - ov /\
    (forall j, 0 <= j < dz - ov -> znth out j = znth b (dz - 1 - j)) /\
    (forall c, 0 <= c < ov -> exists w, (0 <= w <= 1)%R /\ (w * IZR (ov - 1) = IZR c)%R /\
       znth out (dz - ov + c) = (w * znth a c + (1 - w) * znth b (ov - 1 - c))%R) /\
    (forall j, dz <= j < 2 * dz - ov -> znth out j = znth a (j - (dz - ov))).
Proof.
  intros ov a b out0 dz Hb Hov Hout.
  destruct (stitch_left_nth ov a b out0 Hb Hov Hout) as (out & H1 & H2 & H3 & H4 & H5).
  exists out. repeat split; auto. intros c Hc. exists (overlap_weight 0 1 ov c). split; [|split].
  - apply overlap_weight_range; auto; lia.
  - unfold overlap_weight. assert (0 < IZR (ov - 1))%R by (apply IZR_lt; lia). field. lra.
  - apply H4. auto.
Qed.
Theorem C20_columns_right : forall ov a b out0, let dz := Z.of_nat (length a) in
  length b = length a -> 2 <= ov < dz -> Z.of_nat (length out0) = 2 * dz - ov ->
  exists out, stitch_right ov a b out0 = Ok out /\ Z.of_nat (length out) = 2 * dz - ov /\
    (forall j, 0 <= j < dz - ov -> znth out j = znth a j) /\
    (forall c, 0 <= c < ov -> exists w, (0 <= w <= 1)%R /\ ((1 - w) * IZR (ov - 1) = IZR c)%R /\
       znth out (dz - ov + c) = (w * znth a (dz - ov + c) + (1 - w) * znth b (dz - 1 - c))%R) /\
    (forall j, dz <= j < 2 * dz - ov -> znth out j = znth b (2 * dz - ov - 1 - j)).
Proof.
  intros ov a b out0 dz Hb Hov Hout.
  destruct (stitch_right_nth ov a b out0 Hb Hov Hout) as (out & H1 & H2 & H3 & H4 & H5).
  exists out. repeat split; auto. intros c Hc. exists (overlap_weight 1 0 ov c). split; [|split].
  - apply overlap_weight_range; auto; lia.
  - unfold overlap_weight. assert (0 < IZR (ov - 1))%R by (apply IZR_lt; lia). field. lra.
  - apply H4. auto.
Qed.
Theorem C20_recovers_row : forall left ov dx data out0 row t, let dz := Z.of_nat (length (data t)) in
  length (data (dx / 2 + t)) = length (data t) -> 2 <= ov < dz -> Z.of_nat (length (out0 t)) = 2 * dz - ov ->
  (if left : bool then sees_left else sees_right) dz ov row (data t) (data (dx / 2 + t)) ->
  exists out, sino_360_to_180 left ov dx data out0 t = Ok out /\ Z.of_nat (length out) = 2 * dz - ov /\
    forall j, 0 <= j < 2 * dz - ov -> znth out j = row j.
Proof.
  intros left ov dx data out0 row t dz Hb Hov Hout Hsee. unfold sino_360_to_180. cbv zeta. destruct left.
  - destruct Hsee as [SA SB].
    destruct (stitch_left_nth ov _ _ _ Hb Hov Hout) as (out & H1 & H2 & H3 & H4 & H5). fold dz in H2, H3, H4, H5.
    exists out. repeat split; auto. intros j Hj.
    destruct (Z_lt_le_dec j (dz - ov)); [rewrite H3, SB by lia; f_equal; lia|].
    destruct (Z_lt_le_dec j dz); [|rewrite H5, SA by lia; f_equal; lia].
    replace j with (dz - ov + (j - (dz - ov))) at 1 by lia. rewrite H4, SA, SB by lia.
    replace (dz - ov + (j - (dz - ov))) with j by lia. replace (dz - 1 - (ov - 1 - (j - (dz - ov)))) with j by lia. ring.
  - destruct Hsee as [SA SB].
    destruct (stitch_right_nth ov _ _ _ Hb Hov Hout) as (out & H1 & H2 & H3 & H4 & H5). fold dz in H2, H3, H4, H5.
    exists out. repeat split; auto. intros j Hj.
    destruct (Z_lt_le_dec j (dz - ov)); [rewrite H3, SA by lia; f_equal; lia|].
    destruct (Z_lt_le_dec j dz); [|rewrite H5, SB by lia; f_equal; lia].
    replace j with (dz - ov + (j - (dz - ov))) at 1 by lia. rewrite H4, SA, SB by lia.
    replace (dz - ov + (j - (dz - ov))) with j by lia.
    replace (2 * dz - ov - 1 - (dz - 1 - (j - (dz - ov)))) with j by lia. ring.
Qed.
Example C20_ex : exists out, stitch_left 2 [1;2;3]%R [2;1;5]%R [0;0;0;0]%R = Ok out /\ znth out 0 = 5%R /\ znth out 1 = 1%R /\ znth out 2 = 2%R /\ znth out 3 = 3%R.
Proof.
  eexists. split; [reflexivity|]. cbv -[Rplus Rmult Rdiv Rminus IZR Rinv]. repeat split; lra.
Qed.

(** ** C55 overlaps of 0 and 1 column *)
(** One column of overlap is lost on the left (weight 0 + 0) and doubled on the right (1 + 1). *)
Theorem C55_overlap_one_refuted :
  (exists out, stitch_left 1 [7;8]%R [7;6]%R [0;0;0]%R = Ok out /\ znth out 1 = 0%R) /\
  (exists out, stitch_right 1 [6;7]%R [8;7]%R [0;0;0]%R = Ok out /\ znth out 1 = 14%R).
Proof. split; eexists; (split; [reflexivity|]); cbv -[Rplus Rmult Rdiv Rminus IZR Rinv]; lra. Qed.
(** Zero overlap raises on the right side for every width. *)
Theorem C55_overlap_zero_right_refuted : forall a b out0, length b = length a -> a <> [] ->
  length out0 = (2 * length a)%nat -> stitch_right 0 a b out0 = Raise ValueError.
Proof.
  intros a b out0 Hb Ha Ho. unfold stitch_right. cbv zeta.
  assert (E : pyslice a None (Some (- 0)) = []).
  { unfold pyslice. cbv zeta. rewrite sbound_some by lia. reflexivity. }
  rewrite E. unfold assign at 1. cbv zeta. cbn [sbound length].
  assert (0 < Z.of_nat (length a)) by (destruct a; [easy|cbn; lia]).
  rewrite clip_id by lia. replace (Z.of_nat 0 =? Z.max 0 (Z.of_nat (length a) - 0) - 0) with false by lia.
  reflexivity.
Qed.
Theorem C55_overlap_zero_left_partial : forall a b out0, length b = length a -> a <> [] ->
  Z.of_nat (length out0) = 2 * Z.of_nat (length a) -> stitch_left 0 a b out0 = Ok (rev b ++ a).
Proof.
  intros a b out0 Hb Ha Ho. apply (stitch_left_spec 0 [] a [] b out0); auto; cbn [length]; lia.
Qed.
(** Full overlap raises on both sides. *)
Theorem C55_full_overlap_refuted : exists a b out0,
  length b = length a /\ stitch_left (Z.of_nat (length a)) a b out0 = Raise ValueError /\
  stitch_right (Z.of_nat (length a)) a b out0 = Raise ValueError /\ length out0 = length a.
Proof. exists [1;2]%R, [2;1]%R, [0;0]%R. repeat split. Qed.

Print Assumptions C18_pad_edge.
Print Assumptions C18_pad_constant.
Print Assumptions C18_default_holds_diagonal.
Print Assumptions C18_arguments.
Print Assumptions C19_downsample_axis0.
Print Assumptions C19_downsample_axis1.
Print Assumptions C19_downsample_axis2.
Print Assumptions C19_upsample.
Print Assumptions C19_down_up.
Print Assumptions C54_incomplete_groups_refuted.
Print Assumptions C54_incomplete_groups_axis1_refuted.
Print Assumptions C54_incomplete_groups_partial.
Print Assumptions C20_columns_left.
Print Assumptions C20_columns_right.
Print Assumptions C20_recovers_row.
Print Assumptions C55_overlap_one_refuted.
Print Assumptions C55_overlap_zero_right_refuted.
Print Assumptions C55_overlap_zero_left_partial.
Print Assumptions C55_full_overlap_refuted.
