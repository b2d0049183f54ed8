(** C134-C136: normalize_bg (prep.c) and remove_stripe_sf (stripe.c) in machine arithmetic. *)
From Verif Require Import Base Order CLoop Model_Ray Model_RayF Model_SolverF Model_PmlF Model_PrepF Spec_PrepF.
From Verif Require Import Proofs_FloatB Proofs_RayF3 Proofs_SolverF7 Proofs_PrepF Proofs_PrepF2 Proofs_PrepF3 Proofs_PrepF4.
From Coq Require Import Reals Lra.
From Flocq Require Import Core BinarySingleNaN.
Local Open Scope Z_scope.

(** ** C134: no undefined behaviour, whatever the numbers in the array *)
Theorem C134_bg_safe dx dy dz nair data : 0 <= dx -> 0 <= dy -> 0 <= dz -> nair <= dz -> dx * dy * dz < 2 ^ 31 -> exists r, normalize_bgF dx dy dz nair data = Some r.
Proof. intros. now apply bg_safe. Qed.
(** ... and always some with more air pixels than columns (the wrapper does not check) *)
Theorem C134_bg_air_refuted dx dy dz nair data : 1 <= dx -> 1 <= dy -> 0 <= dz -> dz < nair -> normalize_bgF dx dy dz nair data = None.
Proof. intros. apply bg_unsafe; lia. Qed.
Theorem C134_sf_safe dx dy dz size istart iend data : 0 <= dz -> 0 <= istart -> iend <= dy -> size + dz < 2 ^ 31 -> dx * dy * dz < 2 ^ 31 ->
  exists r, remove_stripe_sfF dx dy dz size istart iend data = Some r.
Proof. intros. now apply sf_safe. Qed.

(** ** C135: normalize_bg.  Each pixel is divided by the line through the two means, which come from its own row before
    the call; the operations and their order. *)
Theorem C135_bg dx dy dz nair data r m k j : 0 <= dx -> 0 <= dy -> 0 <= dz -> normalize_bgF dx dy dz nair data = Some r -> 0 <= m < dx -> 0 <= k < dy -> 0 <= j < dz ->
  let i := m * dy * dz + k * dz in
  let level (sum : b32) := let a := fdiv sum (of_int nair) in if Bleb a (B754_zero false) then of_int 1 else a in
  let left := level (sumF (map (fun q => data (i + q)) (zrange 0 nair))) in
  let right := level (sumF (map (fun q => data (i + dz - 1 - q)) (zrange 0 nair))) in
  r (i + j) = fdiv (data (i + j)) (fadd left (fmul (fdiv (fsub right left) (of_int (dz - 1))) (of_int j))).
Proof. intros Hx Hy Hz E Hm Hk Hj. cbv zeta. rewrite (bg_value dx dy dz nair Hz data r m k j E Hm Hk Hj). reflexivity. Qed.
(** The result is near the exact quotient by the exact line if the values in the row do not differ too much. *)
Theorem C135_bg_close dx dy dz nair data r m k j (lo hi : R) : 0 <= dx -> 0 <= dy -> 1 <= nair <= dz -> 2 <= dz <= 1000000 -> normalize_bgF dx dy dz nair data = Some r ->
  0 <= m < dx -> 0 <= k < dy -> 0 <= j < dz -> (/ 2 ^ 60 <= lo)%R -> (hi <= 2 ^ 60)%R -> ((12 * IZR nair + 40) * hi <= 2 ^ 24 * lo)%R ->
  let row q := data (m * dy * dz + k * dz + q) in (forall q, 0 <= q < dz -> is_finite (row q) = true /\ (lo <= B2R (row q) <= hi)%R) ->
  let left := meanR (map (fun q => B2R (row q)) (zrange 0 nair)) in
  let right := meanR (map (fun q => B2R (row (dz - 1 - q))) (zrange 0 nair)) in
  let exact := (B2R (row j) / lineR dz left right j)%R in
  let o := r (m * dy * dz + k * dz + j) in
  (lo <= lineR dz left right j <= hi)%R /\ is_finite o = true /\ (Rabs (B2R o - exact) <= (12 * IZR nair + 40) / 2 ^ 24 * (hi / lo) * exact)%R.
Proof.
  intros Hx Hy Ha Hz E Hm Hk Hj Lo Hi Cond row Row. cbv zeta. rewrite (bg_value dx dy dz nair ltac:(lia) data r m k j E Hm Hk Hj).
  assert (E60 : (2 ^ 60)%R = hi60) by (unfold hi60; simpl; lra). rewrite E60 in *. assert (E24 : (2 ^ 24)%R = 16777216%R) by (simpl; lra). rewrite E24 in *.
  pose proof (bg_close dz nair row lo hi Ha Hz Lo Hi Row ltac:(unfold unit_; lra) j Hj) as C. cbv zeta in C. unfold bg_pixel. cbv zeta.
  rewrite (map_ext (fun q => data (m * dy * dz + k * dz + dz - 1 - q)) (fun q => row (dz - 1 - q))) by (intros q; unfold row; f_equal; lia). exact C.
Qed.
(** Findings.  The line is computed by way of the difference of its ends: a right end far below the left one is lost, and
    pixels that should become one become infinite. *)
Theorem C135_bg_cancel_refuted : exists data r, (forall q, 0 <= q < 2 -> is_finite (data q) = true /\ (1 <= B2R (data q))%R) /\
  normalize_bgF 1 1 2 1 data = Some r /\ r 1 = B754_infinity false.
Proof.
  exists (fun q => if q =? 0 then fmul (of_int (2 ^ 24)) (of_int 2) else of_int 1). destruct (bg_safe 1 1 2 1 ltac:(lia) ltac:(lia) ltac:(lia) (fun q => if q =? 0 then fmul (of_int (2 ^ 24)) (of_int 2) else of_int 1) ltac:(lia) ltac:(lia)) as (r & E). exists r.
  split; [|split; [exact E|]; pose proof (bg_value 1 1 2 1 ltac:(lia) _ r 0 0 1 E ltac:(lia) ltac:(lia) ltac:(lia)) as W; change (0 * 1 * 2 + 0 * 2 + 1) with 1 in W; rewrite W; vm_compute; reflexivity]. clear r E.
  intros q Hq. destruct (q =? 0); [|destruct (of_int_ok 1 ltac:(lia)) as (F & ->); split; [exact F|lra]].
  destruct (of_int_ok (2 ^ 24) ltac:(lia)) as (F1 & E1). destruct (of_int_ok 2 ltac:(lia)) as (F2 & E2).
  destruct (fmul_ok _ _ (bpow radix2 25) F1 F2 (rep_bpow 25 ltac:(lia))) as (F & V); [rewrite E1, E2; rewrite Rabs_pos_eq; cbn; lra|apply bpow_lt; lia|]. split; [exact F|]. rewrite V, E1, E2.
  replace (IZR (2 ^ 24) * 2)%R with (bpow radix2 25) by (cbn; lra). rewrite rd_rep by (apply rep_bpow; lia). cbn. lra.
Qed.
(** One column: the slope is 0 / 0, and every pixel becomes NaN.  The same without air pixels. *)
Theorem C135_bg_nan dx dy dz nair data r m k j : 0 <= dx -> 0 <= dy -> dz = 1 /\ nair = 1 \/ 0 <= dz /\ nair = 0 -> normalize_bgF dx dy dz nair data = Some r ->
  0 <= m < dx -> 0 <= k < dy -> 0 <= j < dz -> is_nan (r (m * dy * dz + k * dz + j)) = true.
Proof. intros Hx Hy C E Hm Hk Hj. rewrite (bg_value dx dy dz nair ltac:(lia) data r m k j E Hm Hk Hj). destruct C as [(-> & ->)|(_ & ->)]; [apply bg_one|apply bg_none]. Qed.

(** ** C136: remove_stripe_sf.  In the slices from istart to iend the difference of the average of the column and of its
    neighbourhood is subtracted, both taken from the slice before the call; other slices stay. *)
Theorem C136_sf dx dy dz size istart iend data r s p j : 0 <= dz -> 0 <= istart -> iend <= dy -> remove_stripe_sfF dx dy dz size istart iend data = Some r ->
  0 <= s < dy -> 0 <= p < dx -> 0 <= j < dz ->
  let cell p j := j + s * dz + p * dy * dz in
  let average j := sumF (map (fun p => fdiv (data (cell p j)) (of_int dx)) (zrange 0 dx)) in
  let smooth j := fdiv (sumF (map (fun q => average (edge dz (j + q - size / 2))) (zrange 0 size))) (of_int size) in
  r (cell p j) = if (istart <=? s) && (s <? iend) then fsub (data (cell p j)) (fsub (average j) (smooth j)) else data (cell p j).
Proof. intros Hz Hi He E Hs Hp Hj. cbv zeta. apply (sf_value dx dy dz size istart iend data r s p j); auto. Qed.
Theorem C136_sf_close dx dy dz size istart iend data r s p j (hi : R) : 1 <= dx <= 1000000 -> 1 <= size <= 1000000 -> 0 <= istart -> iend <= dy ->
  remove_stripe_sfF dx dy dz size istart iend data = Some r -> istart <= s < iend -> 0 <= p < dx -> 0 <= j < dz -> (/ 2 ^ 60 <= hi <= 2 ^ 60)%R ->
  let cell p j := j + s * dz + p * dy * dz in (forall p j, 0 <= p < dx -> 0 <= j < dz -> is_finite (data (cell p j)) = true /\ (Rabs (B2R (data (cell p j))) <= hi)%R) ->
  let average j := meanR (map (fun p => B2R (data (cell p j))) (zrange 0 dx)) in
  let smooth j := meanR (map (fun q => average (edge dz (j + q - size / 2))) (zrange 0 size)) in
  is_finite (r (cell p j)) = true /\
  (Rabs (B2R (r (cell p j)) - (B2R (data (cell p j)) - (average j - smooth j))) <= (6 * IZR dx + 3 * IZR size + 30) / 2 ^ 24 * hi)%R.
Proof.
  intros Hx Hw Hi He E Hs Hp Hj Bh cell Data. cbv zeta. assert (E60 : (2 ^ 60)%R = hi60) by (unfold hi60; simpl; lra). rewrite E60 in *. assert (E24 : (2 ^ 24)%R = 16777216%R) by (simpl; lra). rewrite E24 in *.
  pose proof (sf_close dx dy dz size data s hi Hx ltac:(lia) Hw Bh Data p j Hp Hj) as C. cbv zeta in C. pose proof (sf_value dx dy dz size istart iend data r s p j Hi He E ltac:(lia) Hp Hj) as W. cbv zeta in W. replace ((istart <=? s) && (s <? iend))%bool with true in W by lia.
  unfold cell. rewrite W. destruct C as (F & C). split; [exact F|]. unfold avgR, smoothR in C. eapply Rle_trans; [exact C|]. unfold unit_. lra.
Qed.
(** A window of one pixel changes nothing; a window of no pixel turns every pixel of the slices into NaN. *)
Theorem C136_sf_one dx dy dz istart iend data r s p j : 1 <= dx <= 1000000 -> 0 <= istart -> iend <= dy -> remove_stripe_sfF dx dy dz 1 istart iend data = Some r ->
  0 <= s < dy -> 0 <= p < dx -> 0 <= j < dz ->
  let cell p j := j + s * dz + p * dy * dz in (forall p j, 0 <= p < dx -> 0 <= j < dz -> is_finite (data (cell p j)) = true /\ (Rabs (B2R (data (cell p j))) <= 2 ^ 60)%R) ->
  is_finite (r (cell p j)) = true /\ B2R (r (cell p j)) = B2R (data (cell p j)).
Proof.
  intros Hx Hi He E Hs Hp Hj cell Data. unfold cell. pose proof (sf_value dx dy dz 1 istart iend data r s p j Hi He E ltac:(lia) Hp Hj) as W. cbv zeta in W. rewrite W. destruct ((istart <=? s) && (s <? iend))%bool; [|split; [apply Data; auto|reflexivity]].
  assert (E60 : (2 ^ 60)%R = hi60) by (unfold hi60; simpl; lra). rewrite E60 in Data. apply (sf_one dx dy dz data s hi60 p j Hx ltac:(lia)); auto. unfold lo60, hi60. lra.
Qed.
Theorem C136_sf_nan dx dy dz istart iend data r s p j : 0 <= istart -> iend <= dy -> remove_stripe_sfF dx dy dz 0 istart iend data = Some r ->
  istart <= s < iend -> 0 <= p < dx -> 0 <= j < dz -> is_nan (r (j + s * dz + p * dy * dz)) = true.
Proof.
  intros Hi He E Hs Hp Hj. pose proof (sf_value dx dy dz 0 istart iend data r s p j Hi He E ltac:(lia) Hp Hj) as W. cbv zeta in W. replace ((istart <=? s) && (s <? iend))%bool with true in W by lia. rewrite W. apply sf_none.
Qed.

(** ** Examples *)
Section Examples.
  Definition px_ints (l : list Z) : arr b32 := fun i => match nth_error l (Z.to_nat i) with Some z => of_int z | None => B754_nan end.
  (** 100 times the values *)
  Definition px_read (n : Z) (r : option (arr b32)) : option (list (option Z)) := option_map (fun r => map (fun i => to_int (fmul (r i) (of_int 100))) (zrange 0 n)) r.
  (** Two projections of one row; the levels are 2 and 4, then 5 and 1 (a mean below zero counts as one) *)
  Example C135_example : px_read 8 (normalize_bgF 2 1 4 2 (px_ints [1; 3; 5; 3; 6; 4; -3; 1])) =
    Some [Some 50; Some 112; Some 149; Some 75; Some 120; Some 109; Some (-128); Some 100].
  Proof. vm_compute. reflexivity. Qed.
  Example C135_example_negative : px_read 2 (normalize_bgF 1 1 2 (-1) (px_ints [7; 9])) = Some [Some 700; Some 900].
  Proof. vm_compute. reflexivity. Qed.
  (** Two projections, two slices, four columns, a window of three: the second slice only *)
  Example C136_example : px_read 16 (remove_stripe_sfF 2 2 4 3 1 2 (px_ints [1; 2; 3; 4; 10; 10; 40; 10; 5; 6; 7; 8; 20; 20; 50; 20])) =
    Some [Some 100; Some 200; Some 300; Some 400; Some 1000; Some 2000; Some 2000; Some 2000; Some 500; Some 600; Some 700; Some 800; Some 2000; Some 3000; Some 3000; Some 3000].
  Proof. vm_compute. reflexivity. Qed.
  Example C134_example_air : normalize_bgF 1 1 2 3 (px_ints [7; 9]) = None.
  Proof. vm_compute. reflexivity. Qed.
  Example C136_example_edge : edge 4 (-1) = 0 /\ edge 4 2 = 2 /\ edge 4 9 = 3.
  Proof. repeat split; reflexivity. Qed.
End Examples.

Print Assumptions C134_bg_safe.
Print Assumptions C134_bg_air_refuted.
Print Assumptions C134_sf_safe.
Print Assumptions C135_bg.
Print Assumptions C135_bg_close.
Print Assumptions C135_bg_cancel_refuted.
Print Assumptions C135_bg_nan.
Print Assumptions C136_sf.
Print Assumptions C136_sf_close.
Print Assumptions C136_sf_one.
Print Assumptions C136_sf_nan.
