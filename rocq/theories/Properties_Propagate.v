(** Raster scans and wave propagation (sim/propagate.py). *)
From Verif Require Import Base Model_Propagate.
From Coq Require Import Reals Lra Sorted.
Local Open Scope Z_scope.

(** ** Lemmas *)
Definition multiples (shift : Z) (n : nat) : list Z := map (fun k => 0 + Z.of_nat k * shift) (seq 0 n).
Lemma multiples_last shift n : removelast (multiples shift (S n)) = multiples shift n.
Proof. unfold multiples. rewrite seq_S, map_app. cbn [map]. apply removelast_last. Qed.
Lemma multiples_length shift n : length (multiples shift n) = n.
Proof. unfold multiples. now rewrite map_length, seq_length. Qed.
Lemma in_multiples shift n c : In c (multiples shift n) <-> exists k, 0 <= k < Z.of_nat n /\ c = k * shift.
Proof.
  unfold multiples. rewrite in_map_iff. split.
  - intros (k & <- & H). apply in_seq in H. exists (Z.of_nat k). split; lia.
  - intros (k & H & ->). exists (Z.to_nat k). split; [rewrite Z2Nat.id by lia; ring|]. apply in_seq. lia.
Qed.
Lemma multiples_sorted shift n : 0 < shift -> StronglySorted Z.lt (multiples shift n).
Proof.
  intros Hs. unfold multiples. generalize 0%nat. induction n as [|n IH]; intros a; cbn [seq map]; constructor; auto.
  apply Forall_forall. intros x Hx. apply in_map_iff in Hx. destruct Hx as (k & <- & Hk). apply in_seq in Hk. nia.
Qed.
Lemma trim_multiples probe proj shift : 0 <= proj - probe + shift -> forall n fuel, (n <= fuel)%nat ->
  exists m, (m <= n)%nat /\ trim fuel probe proj shift (multiples shift n) = Some (multiples shift m) /\
    Z.of_nat m * shift <= proj - probe + shift /\ (m = n \/ Z.of_nat (S m) * shift > proj - probe + shift).
Proof.
  intros H. induction n as [|n IH]; intros fuel F.
  - exists 0%nat. split; auto. split; [|split; [lia|auto]]. destruct fuel; cbn [trim]; rewrite multiples_length; destruct (Z.gtb_spec (Z.of_nat 0 * shift) (proj - probe + shift)); try lia; reflexivity.
  - destruct fuel as [|fuel]; [lia|]. cbn [trim]. rewrite multiples_length. destruct (Z.gtb_spec (Z.of_nat (S n) * shift) (proj - probe + shift)) as [G|G].
    + rewrite multiples_last. destruct (IH fuel ltac:(lia)) as (m & M1 & M2 & M3 & M4). exists m. repeat split; auto.
      right. destruct M4 as [->|]; lia.
    + exists (S n). repeat split; auto.
Qed.
Lemma trim_diverges probe proj shift : proj - probe + shift < 0 -> 0 < shift -> forall fuel x, trim fuel probe proj shift x = None.
Proof.
  intros H Hs. induction fuel as [|fuel IH]; intros x; cbn [trim].
  - destruct (Z.gtb_spec (Z.of_nat (length x) * shift) (proj - probe + shift)); [reflexivity|nia].
  - destruct (Z.gtb_spec (Z.of_nat (length x) * shift) (proj - probe + shift)); [apply IH|nia].
Qed.

(** ** C39 *)
(** The positions generated for one axis are exactly the multiples of the step at which the probe fits into the
    projection, in increasing order, and are found if the probe is not longer than projection and step together. *)
Definition positions (probe proj shift : Z) (x : list Z) : Prop :=
  StronglySorted Z.lt x /\ forall c, In c x <-> 0 <= c /\ c mod shift = 0 /\ c + probe <= proj.
Theorem C39_positions : forall probe proj shift, 0 < probe -> 0 <= proj -> 0 < shift -> probe <= proj + shift ->
  exists x, positions probe proj shift x /\ forall fuel, (Z.to_nat proj <= fuel)%nat -> scan_coords fuel probe proj shift = Ok (Some x).
Proof.
  intros probe proj shift Hp Hj Hs H. unfold scan_coords, arange. destruct (Z.eqb_spec shift 0) as [?|_]; [lia|].
  unfold pyrange. destruct (Z.ltb_spec 0 shift); [|lia]. set (n := Z.to_nat ((proj - 0 + shift - 1) / shift)).
  assert (N : (n <= Z.to_nat proj)%nat). { unfold n. apply Z2Nat.inj_le; try lia; try (apply Z.div_pos; lia). apply Z.lt_succ_r, Z.div_lt_upper_bound; nia. }
  assert (N' : proj <= Z.of_nat n * shift). { unfold n. rewrite Z2Nat.id by (apply Z.div_pos; lia). lia. }
  destruct (trim_multiples probe proj shift ltac:(lia) n n ltac:(lia)) as (m & M1 & _ & M3 & M4).
  exists (multiples shift m). split.
  - split; [now apply multiples_sorted|]. intros c. rewrite in_multiples. split.
    + intros (k & K & ->). repeat split; [nia|now apply Z.mod_mul; lia|nia].
    + intros (C0 & C1 & C2). exists (c / shift). apply Z.mod_divide in C1; [|lia]. destruct C1 as (k & ->). rewrite Z.div_mul by lia.
      split; [|lia]. split; [nia|]. destruct M4 as [->|]; nia.
  - intros fuel F. destruct (trim_multiples probe proj shift ltac:(lia) n fuel ltac:(lia)) as (m' & M1' & M2' & M3' & M4').
    unfold Ok. f_equal. cbv beta iota. fold (multiples shift n). rewrite M2'. do 2 f_equal. destruct M4, M4'; subst; try lia; nia.
Qed.
(** Finding: position generation does not end if the probe is longer than that: the loop keeps shortening an empty array. *)
Theorem C39_endless_refuted : forall probe proj shift, 0 < shift -> proj + shift < probe -> forall fuel, scan_coords fuel probe proj shift = Ok None.
Proof.
  intros probe proj shift Hs H fuel. unfold scan_coords, arange. destruct (Z.eqb_spec shift 0); [lia|]. unfold Ok. cbv beta iota.
  now rewrite trim_diverges by lia.
Qed.
(** Every exposure has the full size of the probe; there is one for each pair of positions. *)
Definition product {A B} (l : list A) (m : list B) : list (A * B) := flat_map (fun a => map (fun b => (a, b)) m) l.
Theorem C39_exposures : forall {V} mul sx sy px py shift_x shift_y (probe proj : picture (V := V)),
  0 < sx -> 0 < sy -> 0 <= px -> 0 <= py ->
  let hx := default_shift shift_x sx in let hy := default_shift shift_y sy in
  0 < hx -> 0 < hy -> sx <= px + hx -> sy <= py + hy ->
  exists x y imgs, positions sx px hx x /\ positions sy py hy y /\
    Forall2 (fun '(i, j) img => img = Some (fun a b => mul (probe a b) (proj (i + a) (j + b)))) (product x y) imgs /\
    forall fuel, (Z.to_nat px <= fuel)%nat -> (Z.to_nat py <= fuel)%nat ->
      scan_probe mul fuel sx sy px py shift_x shift_y probe proj = Ok (Some imgs).
Proof.
  intros V mul sx sy px py shx shy probe proj Hx Hy Px Py hx hy HX HY Lx Ly.
  destruct (C39_positions sx px hx Hx Px HX Lx) as (x & X1 & X2). destruct (C39_positions sy py hy Hy Py HY Ly) as (y & Y1 & Y2).
  exists x, y, (flat_map (fun i => map (fun j => expose mul sx sy px py probe proj i j) y) x). split; [exact X1|]. split; [exact Y1|]. split.
  - assert (E : forall i j, In i x -> In j y -> expose mul sx sy px py probe proj i j = Some (fun a b => mul (probe a b) (proj (i + a) (j + b)))).
    { intros i j Hi Hj. apply X1 in Hi. apply Y1 in Hj. unfold expose, extent. destruct Hi as (I0 & _ & I1). destruct Hj as (J0 & _ & J1).
      destruct (Z.eqb_spec (Z.max 0 (Z.min px (i + sx) - i)) sx); [|lia]. destruct (Z.eqb_spec (Z.max 0 (Z.min py (j + sy) - j)) sy); [|lia]. reflexivity. }
    clear X1 Y1 X2 Y2. unfold product. induction x as [|i x IH]; cbn [flat_map]; [constructor|]. apply Forall2_app.
    + assert (E' : forall j, In j y -> expose mul sx sy px py probe proj i j = Some (fun a b => mul (probe a b) (proj (i + a) (j + b)))) by (intros; apply E; cbn; auto).
      clear -E'. induction y as [|j y IH]; cbn [map]; constructor; [apply E'; cbn; auto|apply IH; intros; apply E'; cbn; auto].
    + apply IH. intros; apply E; cbn; auto.
  - intros fuel F1 F2. specialize (X2 fuel F1). specialize (Y2 fuel F2). unfold scan_probe. fold hx hy. rewrite X2. unfold Ok at 1. cbv beta iota.
    unfold scan_coords in Y2. destruct (arange py hy) as [e|y0]; [discriminate|]. unfold Ok in Y2. injection Y2 as ->. reflexivity.
Qed.
(** Finding: the default step of half the probe is zero for a probe of one pixel, and numpy refuses it. *)
Theorem C39_default_step_refuted : forall {V} mul fuel sy px py shift_y (probe proj : picture (V := V)),
  scan_probe mul fuel 1 sy px py None shift_y probe proj = Raise ZeroDivisionError.
Proof. reflexivity. Qed.
(** Intensities in the near field are the squares of the exposures. *)
Local Open Scope R_scope.
Theorem C39_near : forall power fuel sx sy px py shx shy probe proj imgs, scan_probe Rmult fuel sx sy px py shx shy probe proj = Ok (Some imgs) ->
  exists out, calc_intensity power Near fuel sx sy px py shx shy probe proj = Ok (Some out) /\
  Forall2 (fun img res => match img, res with Some f, Some g => forall a b, g a b = f a b * f a b /\ 0 <= g a b | None, None => True | _, _ => False end) imgs out.
Proof.
  intros power fuel sx sy px py shx shy probe proj imgs E. unfold calc_intensity. rewrite E. unfold Ok. cbv beta iota. eexists. split; [reflexivity|].
  clear E. induction imgs as [|[f|] imgs IH]; cbn [map option_map]; constructor; auto. intros a b. rewrite pow2_abs.
  split; [unfold pow; ring|]. replace (f a b ^ 2) with (Rsqr (f a b)) by (unfold Rsqr; ring). apply Rle_0_sqr.
Qed.
Example C39_ex : scan_coords 20 4 10 2 = Ok (Some [0; 2; 4; 6]%Z) /\ scan_coords 20 4 10 3 = Ok (Some [0; 3; 6]%Z) /\ scan_coords 20 12 10 2 = Ok (Some []) /\ scan_coords 1000 13 10 2 = Ok None.
Proof. repeat split; vm_compute; reflexivity. Qed.

(** ** C68 *)
(** The Gaussian probe decreases with the distance from its centre and drops to a half at half the width. *)
Definition dist2 (x0 y0 : R) (i j : Z) : R := Rsqr (IZR i + 1/2 - x0) + Rsqr (IZR j + 1/2 - y0).
Theorem C68_gauss : forall nx ny fwhm x0 y0 m i j k l, 0 < fwhm -> 0 < m ->
  let g := probe_gauss nx ny (Some fwhm) (Some (x0, y0)) m in
  0 < g i j <= m /\ (dist2 x0 y0 i j = 0 -> g i j = m) /\ (dist2 x0 y0 i j = Rsqr (fwhm / 2) -> g i j = m / 2) /\ (dist2 x0 y0 i j < dist2 x0 y0 k l -> g k l < g i j).
Proof.
  intros nx ny f x0 y0 m i j k l Hf Hm g. assert (F2 : 0 < Rsqr f) by (apply Rlt_0_sqr; lra). assert (L2 : 0 < ln 2) by (rewrite <- ln_1; apply ln_increasing; lra).
  assert (G : forall i j, g i j = m * exp (-4 * ln 2 * dist2 x0 y0 i j / Rsqr f)).
  { intros a b. unfold g, probe_gauss, dist2. replace (IZR a - x0 + 1/2) with (IZR a + 1/2 - x0) by ring. now replace (IZR b - y0 + 1/2) with (IZR b + 1/2 - y0) by ring. }
  assert (D : forall i j, 0 <= dist2 x0 y0 i j) by (intros; unfold dist2; apply Rplus_le_le_0_compat; apply Rle_0_sqr).
  assert (K : forall d e, d < e -> -4 * ln 2 * e / Rsqr f < -4 * ln 2 * d / Rsqr f).
  { intros d e H. unfold Rdiv. apply Rmult_lt_compat_r; [now apply Rinv_0_lt_compat|]. nra. }
  rewrite (G i j), (G k l). repeat split.
  - apply Rmult_lt_0_compat; auto. apply exp_pos.
  - rewrite <- (Rmult_1_r m) at 2. apply Rmult_le_compat_l; [lra|]. rewrite <- exp_0. destruct (Rle_lt_or_eq_dec _ _ (D i j)) as [P|P].
    + left. apply exp_increasing. specialize (K _ _ P). replace (-4 * ln 2 * 0 / Rsqr f) with 0 in K by (field; lra). lra.
    + right. rewrite <- P. f_equal. field; lra.
  - intros ->. replace (-4 * ln 2 * 0 / Rsqr f) with 0 by (field; lra). rewrite exp_0. ring.
  - intros ->. replace (-4 * ln 2 * Rsqr (f / 2) / Rsqr f) with (- ln 2) by (unfold Rsqr in *; field; lra). rewrite exp_Ropp, exp_ln by lra. field.
  - intros H. apply Rmult_lt_compat_l; auto. apply exp_increasing. auto.
Qed.
(** With the default centre it is symmetric for even sizes. *)
Theorem C68_symmetric : forall nx ny fwhm m i j, (nx mod 2 = 0)%Z -> (ny mod 2 = 0)%Z ->
  probe_gauss nx ny fwhm None m (nx - 1 - i) j = probe_gauss nx ny fwhm None m i j /\ probe_gauss nx ny fwhm None m i (ny - 1 - j) = probe_gauss nx ny fwhm None m i j.
Proof.
  assert (E : forall n i, (n mod 2 = 0)%Z -> Rsqr (IZR (n - 1 - i) - IZR (n / 2) + 1/2) = Rsqr (IZR i - IZR (n / 2) + 1/2)).
  { intros n i H. rewrite (Rsqr_neg (IZR (n - 1 - i) - IZR (n / 2) + 1/2)). f_equal. rewrite !minus_IZR. assert (Hn : n = (2 * (n / 2))%Z) by lia. rewrite Hn at 1. rewrite mult_IZR. lra. }
  intros. unfold probe_gauss. now rewrite !E by auto.
Qed.
(** Finding: for odd sizes it is not, the centre is half a pixel off. *)
Theorem C68_odd_refuted : probe_gauss 3 3 (Some 1) None 1 2 1 < probe_gauss 3 3 (Some 1) None 1 0 1.
Proof.
  assert (L2 : 0 < ln 2) by (rewrite <- ln_1; apply ln_increasing; lra). unfold probe_gauss. change (3 / 2)%Z with 1%Z.
  apply Rmult_lt_compat_l; [lra|]. apply exp_increasing. unfold Rsqr. lra.
Qed.
(** Without a phase, at distance zero, or where the phase is uniform, the intensity is just attenuated. *)
Theorem C68_attenuation : forall nx ny mu delta h d, (2 <= nx)%Z -> (2 <= ny)%Z -> (d = 0 \/ exists c, forall i j, delta i j = c) ->
  exists I, propagate_tie nx ny mu delta h d = Ok I /\ forall i j, I i j = exp (- mu i j).
Proof.
  intros nx ny mu delta h d Hx Hy H. unfold propagate_tie. destruct (Z.ltb_spec nx 2); [lia|]. destruct (Z.ltb_spec ny 2); [lia|]. cbn [orb].
  eexists. split; [reflexivity|]. intros i j. cbv beta. destruct H as [->|(c & H)]; [ring|].
  assert (G : forall n f i, (forall i, f i = 0) -> gradient n h f i = 0).
  { intros n f a E. unfold gradient. rewrite !E. destruct (a =? 0)%Z; [|destruct (a =? n - 1)%Z]; unfold Rdiv; ring. }
  assert (G' : forall n f i, (forall i, f i = c) -> gradient n h f i = 0).
  { intros n f a E. unfold gradient. rewrite !E. destruct (a =? 0)%Z; [|destruct (a =? n - 1)%Z]; unfold Rdiv; ring. }
  rewrite (G nx), (G ny); [ring| |]; intros; rewrite G'; auto; ring.
Qed.
(** Away from the border and for uniform attenuation, the change of the intensity is the attenuated intensity times
    the distance times the Laplacian (over two pixels) of the phase. *)
Theorem C68_laplacian : forall nx ny mu delta h d i j c, (forall i j, mu i j = c) -> h <> 0 -> (2 <= i < nx - 2)%Z -> (2 <= j < ny - 2)%Z ->
  exists I, propagate_tie nx ny mu delta h d = Ok I /\
  I i j = exp (- c) * (1 + d * ((delta (i + 2)%Z j - 2 * delta i j + delta (i - 2)%Z j) / Rsqr (2 * h) + (delta i (j + 2)%Z - 2 * delta i j + delta i (j - 2)%Z) / Rsqr (2 * h))).
Proof.
  intros nx ny mu delta h d i j c Hc Hh Hi Hj. unfold propagate_tie. destruct (Z.ltb_spec nx 2); [lia|]. destruct (Z.ltb_spec ny 2); [lia|]. cbn [orb].
  eexists. split; [reflexivity|]. cbv beta. rewrite !Hc. unfold gradient.
  repeat match goal with |- context [(?a =? ?b)%Z] => destruct (Z.eqb_spec a b); [lia|] end. rewrite ?Hc.
  replace (i + 1 + 1)%Z with (i + 2)%Z by lia. replace (i + 1 - 1)%Z with i by lia. replace (i - 1 + 1)%Z with i by lia. replace (i - 1 - 1)%Z with (i - 2)%Z by lia.
  replace (j + 1 + 1)%Z with (j + 2)%Z by lia. replace (j + 1 - 1)%Z with j by lia. replace (j - 1 + 1)%Z with j by lia. replace (j - 1 - 1)%Z with (j - 2)%Z by lia.
  unfold Rsqr. field. auto.
Qed.
(** A tilted phase only deflects the beam: for uniform attenuation the intensity is not changed, at the border neither. *)
Theorem C68_tilt : forall nx ny mu h d a b e c, h <> 0 -> (2 <= nx)%Z -> (2 <= ny)%Z -> (forall i j, mu i j = c) ->
  exists I, propagate_tie nx ny mu (fun i j => a * IZR i + b * IZR j + e) h d = Ok I /\
  forall i j, (0 <= i < nx)%Z -> (0 <= j < ny)%Z -> I i j = exp (- c).
Proof.
  intros nx ny mu h d a b e c Hh Hx Hy Hc. unfold propagate_tie. destruct (Z.ltb_spec nx 2); [lia|]. destruct (Z.ltb_spec ny 2); [lia|]. cbn [orb].
  eexists. split; [reflexivity|]. intros i j _ _. cbv beta.
  assert (G : forall n s t k f, (forall i, f i = s * IZR i + t) -> gradient n h f k = s / h).
  { intros n s t k f E. unfold gradient. rewrite !E. destruct (k =? 0)%Z; [|destruct (k =? n - 1)%Z]; rewrite ?plus_IZR, ?minus_IZR; field; auto. }
  rewrite (G nx 0 (exp (- c) * (a / h))), (G ny 0 (exp (- c) * (b / h))).
  - rewrite Hc. unfold Rdiv. ring.
  - intros k. rewrite Hc. rewrite (G ny b (a * IZR i + e)) by (intros; ring). ring.
  - intros k. rewrite Hc. rewrite (G nx a (b * IZR j + e)) by (intros; ring). ring.
Qed.
(** The change is linear in the phase and in the distance. *)
Lemma gradient_lin n h f g e a b i : (forall i, e i = a * f i + b * g i) -> gradient n h e i = a * gradient n h f i + b * gradient n h g i.
Proof. intros H. unfold gradient. rewrite !H. destruct (i =? 0)%Z; [|destruct (i =? n - 1)%Z]; unfold Rdiv; ring. Qed.
Theorem C68_linear : forall nx ny mu f g h d d' I J, propagate_tie nx ny mu f h d = Ok I -> propagate_tie nx ny mu g h d' = Ok J ->
  exists K, propagate_tie nx ny mu (fun i j => d * f i j + d' * g i j) h 1 = Ok K /\
  forall i j, K i j - exp (- mu i j) = (I i j - exp (- mu i j)) + (J i j - exp (- mu i j)).
Proof.
  intros nx ny mu f g h d d' I J. unfold propagate_tie. destruct (_ || _)%bool; [discriminate|]. unfold Ok. intros H1 H2. injection H1 as <-. injection H2 as <-.
  eexists. split; [reflexivity|]. intros i j. cbv beta.
  rewrite (gradient_lin nx h (fun i => exp (- mu i j) * gradient nx h (fun i => f i j) i) (fun i => exp (- mu i j) * gradient nx h (fun i => g i j) i) (fun i => exp (- mu i j) * gradient nx h (fun i => d * f i j + d' * g i j) i) d d').
  2: { intros a. rewrite (gradient_lin nx h (fun i => f i j) (fun i => g i j) _ d d') by auto. ring. }
  rewrite (gradient_lin ny h (fun j => exp (- mu i j) * gradient ny h (fun j => f i j) j) (fun j => exp (- mu i j) * gradient ny h (fun j => g i j) j) (fun j => exp (- mu i j) * gradient ny h (fun j => d * f i j + d' * g i j) j) d d').
  2: { intros a. rewrite (gradient_lin ny h (fun j => f i j) (fun j => g i j) _ d d') by auto. ring. }
  ring.
Qed.
Example C68_ex : exists I, propagate_tie 2 2 (fun _ _ => 0) (fun i _ => IZR i) 1 3 = Ok I /\ I 0%Z 0%Z = 1.
Proof. eexists. split; [reflexivity|]. cbv beta. unfold gradient. cbn. rewrite Ropp_0, exp_0. lra. Qed.

Print Assumptions C39_positions.
Print Assumptions C39_endless_refuted.
Print Assumptions C39_exposures.
Print Assumptions C39_default_step_refuted.
Print Assumptions C39_near.
Print Assumptions C68_gauss.
Print Assumptions C68_symmetric.
Print Assumptions C68_odd_refuted.
Print Assumptions C68_attenuation.
Print Assumptions C68_laplacian.
Print Assumptions C68_linear.
Print Assumptions C68_tilt.
