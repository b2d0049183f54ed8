(** C103: the Fourier-wavelet method. *)
From Coq Require Import Reals Lra.
From Verif Require Import Base Cplx Model_StripeFourier Spec_StripeFourier Proofs_StripeFourier Proofs_StripeFw Properties_StripeFourier.
Local Open Scope R_scope.

(** An image without vertical detail on any level is returned unchanged, whatever the wavelet, as long as the inverse transform undoes the transform. *)
Theorem C103_unchanged : forall dwt2 idwt2 dx dz level sigma (pad : bool) sino, perfect rows cols at_ dwt2 idwt2 -> (0 <= dx)%Z ->
  let h := (if pad then dx / 8 else 0)%Z in
  no_vertical rows cols at_ dwt2 level
    {| rows := dx + h; cols := dz; at_ := fun y x => if ((h / 2 <=? y) && (y <? dx + h / 2))%Z then sino (y - h / 2)%Z x else 0 |} ->
  forall y x, (0 <= y < dx)%Z -> (0 <= x < dz)%Z -> remove_stripe_fw dwt2 idwt2 dx dz level sigma pad sino y x = sino y x.
Proof.
  intros dwt2 idwt2 dx dz level sigma pad sino PR Hd h H y x Hy Hx. unfold remove_stripe_fw. cbv zeta.
  assert (E1 : (if pad then (dx + dx / 8)%Z else dx) = (dx + h)%Z) by (unfold h; destruct pad; lia). rewrite E1.
  replace ((dx + h - dx) / 2)%Z with (h / 2)%Z by (f_equal; lia). assert (Hh : (0 <= h)%Z) by (unfold h; destruct pad; [apply Z.div_pos; lia|lia]).
  assert (Hh2 : (0 <= h / 2 <= h)%Z) by lia.
  destruct (fw_levels_shows dwt2 idwt2 PR sigma level _ H) as (_ & _ & S). rewrite S by (split; cbn [rows cols]; lia). cbn [at_].
  destruct (Z.leb_spec (h / 2) (y + h / 2)); [|lia]. destruct (Z.ltb_spec (y + h / 2) (dx + h / 2)); [|lia]. cbn [andb]. f_equal. lia.
Qed.
(** Damping of the vertical details: a wave of [f] periods along a stripe keeps 1 - bell of it (odd number of rows), 1 - gain of it (even). *)
Theorem C103_odd : forall h mx sigma cV f phase y x, (0 <= x < mx)%Z -> (- h <= f <= h)%Z ->
  (forall y, (0 <= y < 2 * h + 1)%Z -> cV y x = wave (2 * h + 1) f phase y) ->
  damp_band (2 * h + 1) mx sigma cV y x = (1 - bell sigma (IZR f)) * wave (2 * h + 1) f phase y.
Proof.
  intros h mx sigma cV f phase y x Hx Hf E. rewrite (damp_band_wave (2 * h + 1) mx sigma ltac:(lia) cV f phase) by auto.
  rewrite !(weight_odd (2 * h + 1) sigma ltac:(lia) h) by lia. rewrite opp_IZR, bell_even. field.
Qed.
Theorem C103_even : forall h mx sigma cV f phase y x, (0 <= x < mx)%Z -> (- h < f < h)%Z ->
  (forall y, (0 <= y < 2 * h)%Z -> cV y x = wave (2 * h) f phase y) ->
  damp_band (2 * h) mx sigma cV y x = (1 - gain sigma (IZR f)) * wave (2 * h) f phase y.
Proof.
  intros h mx sigma cV f phase y x Hx Hf E. rewrite (damp_band_wave (2 * h) mx sigma ltac:(lia) cV f phase) by auto.
  rewrite !(weight_even (2 * h) sigma ltac:(lia) h) by lia. unfold gain. rewrite opp_IZR.
  replace (- IZR f + 1 / 2) with (- (IZR f - 1 / 2)) by ring. rewrite bell_even. field.
Qed.
(** Perfect stripes in a band. *)
Theorem C103_stripe_band : forall my mx sigma cV y x, (1 <= my)%Z -> (0 <= x < mx)%Z -> (forall y, (0 <= y < my)%Z -> cV y x = cV 0%Z x) ->
  damp_band my mx sigma cV y x = (if Z.even my then 1 - gain sigma 0 else 0) * cV 0%Z x.
Proof.
  intros my mx sigma cV y x Hm Hx E. rewrite (damp_band_const my mx sigma Hm (cV 0%Z x)) by auto.
  replace 0%Z with (0 mod my)%Z at 2 by (apply Z.mod_0_l; lia). destruct (Z.even my) eqn:Ev.
  - apply Z.even_spec in Ev. destruct Ev as (h & Eh). rewrite (weight_even my sigma Hm h) by lia. rewrite gain_0. replace (0 + 1 / 2) with (1 / 2) by ring. ring.
  - rewrite <- Z.negb_odd in Ev. apply negb_false_iff, Z.odd_spec in Ev. destruct Ev as (h & Eh). rewrite (weight_odd my sigma Hm h) by lia. rewrite bell_0. ring.
Qed.

(** ** The wavelet 'haar' of pywt, with symmetric extension *)
Definition haar_dwt2 (c : band) : band * (band * band * band) :=
  let p y x := at_ c (Z.min y (rows c - 1)) (Z.min x (cols c - 1)) in
  let part sy sx := {| rows := (rows c + 1) / 2; cols := (cols c + 1) / 2;
    at_ := fun y x => (p (2 * y)%Z (2 * x)%Z + sx * p (2 * y)%Z (2 * x + 1)%Z + sy * p (2 * y + 1)%Z (2 * x)%Z + sy * sx * p (2 * y + 1)%Z (2 * x + 1)%Z) / 2 |} in
  (part 1 1, (part (-1) 1, part 1 (-1), part (-1) (-1))).
Definition haar_idwt2 (parts : band * (band * band * band)) : band :=
  let '(a, (h, v, d)) := parts in
  {| rows := 2 * rows a; cols := 2 * cols a;
     at_ := fun y x => let sy := if Z.even y then 1 else -1 in let sx := if Z.even x then 1 else -1 in
       (at_ a (y / 2)%Z (x / 2)%Z + sy * at_ h (y / 2)%Z (x / 2)%Z + sx * at_ v (y / 2)%Z (x / 2)%Z + sy * sx * at_ d (y / 2)%Z (x / 2)%Z) / 2 |}.

Lemma parity x : (Z.even x = true /\ x = 2 * (x / 2) \/ Z.even x = false /\ x = 2 * (x / 2) + 1)%Z.
Proof. rewrite Zeven_mod. destruct (Zeq_bool (x mod 2) 0) eqn:E; [apply Zeq_bool_eq in E; left|apply Zeq_bool_neq in E; right]; split; auto; lia. Qed.
Theorem C103_haar : perfect rows cols at_ haar_dwt2 haar_idwt2.
Proof.
  split; [|split].
  - intros c a h v d E. unfold haar_dwt2 in E. cbv zeta in E. injection E as <- <- <- <-. cbn [rows cols]. auto.
  - intros c. unfold haar_dwt2, haar_idwt2. cbv zeta. split; [cbn [rows]; lia|]. split; [cbn [cols]; lia|]. intros y x [Hy Hx]. cbn [at_].
    assert (Y : Z.min (2 * (y / 2)) (rows c - 1) = (2 * (y / 2))%Z) by lia. assert (X : Z.min (2 * (x / 2)) (cols c - 1) = (2 * (x / 2))%Z) by lia. rewrite Y, X.
    destruct (parity y) as [[-> Ey]|[-> Ey]], (parity x) as [[-> Ex]|[-> Ex]].
    + rewrite <- Ey, <- Ex. field.
    + assert (X' : Z.min (2 * (x / 2) + 1) (cols c - 1) = x) by lia. rewrite X', <- Ey. field.
    + assert (Y' : Z.min (2 * (y / 2) + 1) (rows c - 1) = y) by lia. rewrite Y', <- Ex. field.
    + assert (X' : Z.min (2 * (x / 2) + 1) (cols c - 1) = x) by lia. assert (Y' : Z.min (2 * (y / 2) + 1) (rows c - 1) = y) by lia. rewrite X', Y'. field.
  - intros a h v d a' v' R C (A1 & A2 & A3) (V1 & V2 & V3). unfold haar_idwt2. split; [cbn [rows]; lia|]. split; [cbn [cols]; lia|].
    intros y x [Hy Hx]. cbn [rows cols at_] in *. rewrite A3, V3 by (split; lia). reflexivity.
Qed.
(** An image that does not vary across the columns has no stripes: nothing changes. *)
Lemma haar_uniform level : forall c, (forall y x, (0 <= y < rows c)%Z -> (0 <= x < cols c)%Z -> at_ c y x = at_ c y 0%Z) -> no_vertical rows cols at_ haar_dwt2 level c.
Proof.
  induction level as [|level IH]; intros c H; cbn [no_vertical]; auto. unfold haar_dwt2. cbv zeta. cbn [rows cols at_]. split.
  - intros y x [Hy Hx]. cbn [rows cols] in Hy, Hx. rewrite !(H (Z.min _ _) (Z.min _ _)) by lia. field.
  - apply IH. cbn [rows cols at_]. intros y x Hy Hx. rewrite !(H (Z.min _ _) (Z.min _ _)) by lia. reflexivity.
Qed.
Theorem C103_uniform : forall dx dz level sigma pad q y x, (0 <= y < dx)%Z -> (0 <= x < dz)%Z ->
  remove_stripe_fw haar_dwt2 haar_idwt2 dx dz level sigma pad (fun y _ => q y) y x = q y.
Proof.
  intros dx dz level sigma pad q y x Hy Hx. apply (C103_unchanged haar_dwt2 haar_idwt2 dx dz level sigma pad (fun y _ => q y) C103_haar ltac:(lia)); auto.
  apply haar_uniform. reflexivity.
Qed.
(** One level, no padding, perfect stripes: columns are averaged in pairs; if the band has an even number of rows, a part of the difference remains. *)
Theorem C103_stripes : forall dx dz sigma p y x, (0 <= y < dx)%Z -> (0 <= x < dz)%Z ->
  let mean := (p (2 * (x / 2))%Z + p (Z.min (2 * (x / 2) + 1) (dz - 1))) / 2 in
  remove_stripe_fw haar_dwt2 haar_idwt2 dx dz 1 sigma false (fun _ x => p x) y x =
    mean + (if Z.even ((dx + 1) / 2) then 1 - gain sigma 0 else 0) * (p x - mean).
Proof.
  intros dx dz sigma p y x Hy Hx mean. unfold remove_stripe_fw. cbv zeta. rewrite Z.sub_diag. change (0 / 2)%Z with 0%Z. rewrite !Z.add_0_r.
  set (c := {| rows := dx; cols := dz; at_ := fun y x => if ((0 <=? y) && (y <? dx))%Z then p x else 0 |}).
  assert (Hc : forall y x, at_ c (Z.min y (dx - 1)) x = if (0 <=? y)%Z then p x else 0).
  { intros y' x'. cbn [at_ c]. destruct (Z.leb_spec 0 y'), (Z.leb_spec 0 (Z.min y' (dx - 1))), (Z.ltb_spec (Z.min y' (dx - 1)) dx); try lia; reflexivity. }
  cbn [fw_levels]. unfold haar_dwt2. cbv zeta. change (rows c) with dx. change (cols c) with dz. unfold haar_idwt2. cbn [at_ crop damped rows cols].
  rewrite C103_stripe_band; try lia.
  2:{ intros y' Hy'. rewrite !Hc. destruct (Z.leb_spec 0 (2 * y')), (Z.leb_spec 0 (2 * y' + 1)); try lia. reflexivity. }
  rewrite !Hc. destruct (Z.leb_spec 0 (2 * (y / 2))), (Z.leb_spec 0 (2 * (y / 2) + 1)); try lia. change (2 * 0 + 1)%Z with 1%Z. change (2 * 0)%Z with 0%Z. cbn [Z.leb Z.compare].
  assert (X : Z.min (2 * (x / 2)) (dz - 1) = (2 * (x / 2))%Z) by lia. rewrite X. unfold mean.
  set (K := if Z.even ((dx + 1) / 2) then 1 - gain sigma 0 else 0). destruct (parity x) as [[-> Ex]|[-> Ex]].
  - rewrite <- Ex. destruct (Z.even y); field.
  - assert (X' : Z.min (2 * (x / 2) + 1) (dz - 1) = x) by lia. rewrite X'. destruct (Z.even y); field.
Qed.
(** Finding: so with 3 or 4 rows a perfect stripe leaves a part of itself, with 1 or 2 rows it does not. *)
Theorem C103_residue_refuted : exists sigma, 0 < sigma /\ forall dx, (dx = 3 \/ dx = 4)%Z -> forall y, (0 <= y < dx)%Z ->
  remove_stripe_fw haar_dwt2 haar_idwt2 dx 2 1 sigma false (fun _ x => IZR x) y 0 <> remove_stripe_fw haar_dwt2 haar_idwt2 dx 2 1 sigma false (fun _ x => IZR x) y 1.
Proof.
  exists 2. split; [lra|]. intros dx Hd y Hy. rewrite !C103_stripes by lia.
  assert (E : Z.even ((dx + 1) / 2) = true) by (destruct Hd as [-> | ->]; reflexivity). rewrite E.
  change (2 * (0 / 2))%Z with 0%Z. change (2 * (1 / 2))%Z with 0%Z. change (Z.min (0 + 1) (2 - 1)) with 1%Z. destruct (C101_lowpass 2 0 1) as [_ B]; [lra|lia|]. lra.
Qed.
(** The default number of levels: as many as needed to halve the largest dimension down to one. *)
Theorem C103_level : forall dx dy dz, (1 < Z.max dx (Z.max dy dz))%Z -> let n := default_level dx dy dz in
  (2 ^ (n - 1) < Z.max dx (Z.max dy dz) <= 2 ^ n)%Z.
Proof. intros dx dy dz H n. apply Z.log2_up_spec. exact H. Qed.
(** Finding: the number of sinograms counts as well, so a sinogram is treated differently in a larger stack. *)
Theorem C103_level_refuted : exists dx dz dy dy', default_level dx dy dz <> default_level dx dy' dz.
Proof. exists 4%Z, 4%Z, 1%Z, 100%Z. vm_compute. discriminate. Qed.
Example C103_example : remove_stripe_fw haar_dwt2 haar_idwt2 2 2 1 2 false (fun _ x => IZR x) 0 1 = 1 / 2.
Proof. rewrite C103_stripes by lia. change (Z.even ((2 + 1) / 2)) with false. change (2 * (1 / 2))%Z with 0%Z. change (Z.min (0 + 1) (2 - 1)) with 1%Z. cbn iota. lra. Qed.

Print Assumptions C100_removed.
Print Assumptions C100_single.
Print Assumptions C100_wide.
Print Assumptions C100_border_refuted.
Print Assumptions C101_kernel.
Print Assumptions C101_value.
Print Assumptions C101_default.
Print Assumptions C101_wave.
Print Assumptions C101_lowpass.
Print Assumptions C101_stripe.
Print Assumptions C101_residue_refuted.
Print Assumptions C101_odd_refuted.
Print Assumptions C102_scale.
Print Assumptions C102_mean.
Print Assumptions C102_constant.
Print Assumptions C102_ripple.
Print Assumptions C102_odd_refuted.
Print Assumptions C103_unchanged.
Print Assumptions C103_odd.
Print Assumptions C103_even.
Print Assumptions C103_stripe_band.
Print Assumptions C103_haar.
Print Assumptions C103_uniform.
Print Assumptions C103_stripes.
Print Assumptions C103_residue_refuted.
Print Assumptions C103_level.
Print Assumptions C103_level_refuted.
