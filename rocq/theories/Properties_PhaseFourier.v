(** C104: phase retrieval with its Fourier transforms. *)
From Coq Require Import Reals Lra.
From Verif Require Import Base Cplx Model_Phase Model_StripeFourier Model_PhaseFourier Spec_StripeFourier Spec_PhaseFourier
  Proofs_Morph Proofs_Solver Proofs_Gridrec Proofs_StripeFourier Properties_Phase Proofs_PhaseFourier.
Local Open Scope R_scope.

Definition physical (pixel_size dist energy alpha : R) : Prop := 0 < pixel_size /\ 0 < dist /\ 0 < energy /\ 0 < alpha.

(** The wavelength in cm: 12.4 Angstrom at 1 keV, inversely proportional to the energy. *)
Theorem C104_wavelength : 1239 / 10 ^ 10 < wavelength 1 < 1240 / 10 ^ 10 /\ forall energy, 0 < energy -> wavelength energy = wavelength 1 / energy.
Proof.
  assert (E : wavelength 1 = 2 * (314159265359 / 100000000000) * (658211928 / 10 ^ 27) * (299792458 * 100)) by (unfold wavelength, pi_phase, planck_constant, speed_of_light; field; lra).
  split; [rewrite E; lra|]. intros energy He. unfold wavelength. field. lra.
Qed.
Lemma wavelength_pos energy : 0 < energy -> 0 < wavelength energy.
Proof. intros H. destruct C104_wavelength as (A & B). rewrite B by auto. apply Rdiv_lt_0_compat; lra. Qed.
(** The pad width covers pi lambda z / pixel^2, and at least one pixel is wanted at a positive distance. *)
Theorem C104_pad_pixels : forall pixel_size dist energy, 0 < pixel_size -> 0 <= dist -> 0 < energy ->
  let want := 314159265359 / 100000000000 * wavelength energy * dist / (pixel_size * pixel_size) in
  want <= IZR (pad_pixels pixel_size dist energy) < want + 1 /\ (0 < dist -> (1 <= pad_pixels pixel_size dist energy)%Z) /\ (dist = 0 -> pad_pixels pixel_size dist energy = 0%Z).
Proof.
  intros pix dist energy Hp Hd He. cbv zeta. unfold pad_pixels, pi_phase. set (x := _ / (pix * pix)). rewrite opp_IZR.
  assert (B : IZR (Int_part (- x)) <= - x < IZR (Int_part (- x)) + 1) by (destruct (base_Int_part (- x)); lra).
  split; [lra|]. pose proof (wavelength_pos energy He). split; intros H'.
  - assert (0 < x) by (unfold x; apply Rdiv_lt_0_compat; [|nra]; apply Rmult_lt_0_compat; nra).
    enough (Int_part (- x) < 0)%Z by lia. apply lt_IZR. lra.
  - assert (E : x = 0) by (unfold x; rewrite H'; unfold Rdiv; ring). rewrite E in *. enough (-1 < Int_part (- 0) < 1)%Z by lia. split; apply lt_IZR; lra.
Qed.

(** ** the filter *)
(** A wave keeps its shape and is multiplied with the mean of the responses to its two frequencies. *)
Theorem C104_wave : forall pixel_size dist energy alpha h w k l phase y x, physical pixel_size dist energy alpha -> (1 < h)%Z -> (1 < w)%Z ->
  (- (h / 2) < k < h / 2)%Z -> (- (w / 2) < l < w / 2)%Z ->
  let wd := wavelength energy * dist in
  fourier_filter h w (normalised_filter pixel_size dist energy alpha h w) (plane_wave h w k l phase) y x =
  (response wd alpha pixel_size h w k l + response wd alpha pixel_size h w (- k) (- l)) / 2 * plane_wave h w k l phase y x.
Proof.
  intros pix dist energy alpha h w k l phase y x (Hp & Hd & He & Ha) Hh Hw Hk Hl wd. pose proof (wavelength_pos energy He). assert (0 <= wavelength energy * dist) by nra.
  rewrite fourier_filter_wave by lia. rewrite !normalised_response by (auto; lia). reflexivity.
Qed.
(** No wave grows; larger distances damp more, a larger alpha less; higher frequencies are damped more. *)
Theorem C104_response : forall wd alpha pixel_size h w k l, 0 <= wd -> 0 < alpha -> 0 < pixel_size -> (1 < h)%Z -> (1 < w)%Z ->
  0 < response wd alpha pixel_size h w k l <= 1 /\
  (forall wd', wd <= wd' -> response wd' alpha pixel_size h w k l <= response wd alpha pixel_size h w k l) /\
  (forall alpha', alpha <= alpha' -> response wd alpha pixel_size h w k l <= response wd alpha' pixel_size h w k l) /\
  (forall k', (0 <= k < k')%Z -> 0 < wd -> response wd alpha pixel_size h w k' l < response wd alpha pixel_size h w k l) /\
  (forall k', (k' < k)%Z -> (k < 0)%Z -> 0 < wd -> response wd alpha pixel_size h w k' l < response wd alpha pixel_size h w k l).
Proof.
  intros wd alpha pix h w k l Hwd Ha Hp Hh Hw. split; [now apply response_bounds|].
  pose proof (lowest_le h pix k Hh Hp) as Lk. pose proof (lowest_le w pix l Hw Hp) as Ll.
  assert (Q : 0 < / (4 * (314159265359 / 100000000000))) by (apply Rinv_0_lt_compat; lra).
  assert (X : forall a b c d, 0 < b -> 0 < d -> a * d <= c * b -> a / b <= c / d).
  { intros a b c d Hb Hd H. apply Rmult_le_reg_r with (b * d); [nra|]. replace (a / b * (b * d)) with (a * d) by (field; lra). replace (c / d * (b * d)) with (c * b) by (field; lra). auto. }
  unfold response. set (lo := lowest h pix) in *. set (lo' := lowest w pix) in *. set (s := seen_frequency h pix k) in *. set (t := seen_frequency w pix l) in *.
  set (q := / (4 * (314159265359 / 100000000000))) in *.
  assert (D : forall W A a b, denominator W A a b = W * q * (a * a + b * b) + A) by (intros; unfold denominator, Rdiv at 1; fold q; ring).
  assert (M : lo * lo + lo' * lo' <= s * s + t * t) by lra. assert (M0 : 0 <= lo * lo + lo' * lo') by nra.
  split; [|split; [|split]].
  - intros wd' H. rewrite !D. set (u := lo * lo + lo' * lo') in *. set (v := s * s + t * t) in *. assert (0 <= wd * q) by nra. assert (0 <= wd' * q) by nra. apply X; [nra|nra|].
    assert (0 <= (wd' - wd) * (v - u) * (q * alpha)) by (apply Rmult_le_pos; [apply Rmult_le_pos; lra|nra]). nra.
  - intros alpha' H. rewrite !D. set (u := lo * lo + lo' * lo') in *. set (v := s * s + t * t) in *. assert (0 <= wd * q) by nra. apply X; [nra|nra|].
    assert (0 <= (alpha' - alpha) * (v - u) * (q * wd)) by (apply Rmult_le_pos; [apply Rmult_le_pos; lra|nra]). nra.
  - intros k' Hk' Hpos. rewrite !D. set (s' := seen_frequency h pix k'). assert (S : s * s < s' * s').
    { assert (0 <= s < s'); [|nra]. unfold s, s', seen_frequency. set (o := if Z.even h then 1 / 2 else 1). assert (0 < o) by (unfold o; destruct (Z.even h); lra).
      assert (N : 0 < / (IZR (h - 1) * pix)) by (apply Rinv_0_lt_compat; apply Rmult_lt_0_compat; [apply IZR_lt; lia|auto]).
      assert (0 <= IZR k < IZR k') by (split; [apply IZR_le|apply IZR_lt]; lia). unfold Rdiv. split; [apply Rmult_le_pos; lra|apply Rmult_lt_compat_r; lra]. }
    assert (Wq : 0 < wd * q) by nra. assert (S0 : 0 <= s * s + t * t) by nra. assert (S1 : s * s + t * t < s' * s' + t * t) by lra.
    set (u := lo * lo + lo' * lo') in *. set (v := s * s + t * t) in *. set (v' := s' * s' + t * t) in *.
    unfold Rdiv. apply Rmult_lt_compat_l; [nra|]. apply Rinv_lt_contravar; [|nra]. apply Rmult_lt_0_compat; nra.
  - intros k' Hk' Hk Hpos. rewrite !D. set (s' := seen_frequency h pix k'). assert (S : s * s < s' * s').
    { assert (s' < s <= 0); [|nra]. unfold s, s', seen_frequency. set (o := if Z.even h then 1 / 2 else 1). assert (o <= 1) by (unfold o; destruct (Z.even h); lra).
      assert (N : 0 < / (IZR (h - 1) * pix)) by (apply Rinv_0_lt_compat; apply Rmult_lt_0_compat; [apply IZR_lt; lia|auto]).
      assert (IZR k' < IZR k) by (apply IZR_lt; lia). assert (IZR k <= -1) by (apply IZR_le; lia). unfold Rdiv. split; [apply Rmult_lt_compat_r; lra|].
      replace 0 with (0 * / (IZR (h - 1) * pix)) by ring. apply Rmult_le_compat_r; lra. }
    assert (Wq : 0 < wd * q) by nra. assert (S0 : 0 <= s * s + t * t) by nra. assert (S1 : s * s + t * t < s' * s' + t * t) by lra.
    set (u := lo * lo + lo' * lo') in *. set (v := s * s + t * t) in *. set (v' := s' * s' + t * t) in *.
    unfold Rdiv. apply Rmult_lt_compat_l; [nra|]. apply Rinv_lt_contravar; [|nra]. apply Rmult_lt_0_compat; nra.
Qed.
(** Finding: the response belongs to shifted and stretched frequencies. *)
Theorem C104_frequency_refuted : forall n pixel_size k, (1 < n)%Z -> 0 < pixel_size -> (0 <= k)%Z -> frequency n pixel_size k < seen_frequency n pixel_size k.
Proof.
  intros n pix k Hn Hp Hk. unfold frequency, seen_frequency. apply IZR_le in Hk. assert (N : 1 <= IZR (n - 1)) by (apply IZR_le; lia).
  assert (E : IZR n = IZR (n - 1) + 1) by (rewrite minus_IZR; lra). rewrite E. set (m := IZR (n - 1)) in *. set (o := if Z.even n then 1 / 2 else 1).
  assert (0 < o) by (unfold o; destruct (Z.even n); lra).
  apply Rle_lt_trans with (IZR k / (m * pix)).
  - unfold Rdiv. apply Rmult_le_compat_l; auto. apply Rinv_le_contravar; nra.
  - unfold Rdiv. apply Rmult_lt_compat_r; [apply Rinv_0_lt_compat; nra|lra].
Qed.
(** The zero frequency is kept exactly if both padded sizes are even, and damped otherwise. *)
Theorem C104_zero_frequency : forall wd alpha pixel_size h w, 0 < wd -> 0 < alpha -> 0 < pixel_size -> (1 < h)%Z -> (1 < w)%Z ->
  (response wd alpha pixel_size h w 0 0 = 1 <-> Z.even h = true /\ Z.even w = true).
Proof.
  intros wd alpha pix h w Hwd Ha Hp Hh Hw. unfold response.
  assert (Q : 0 < / (4 * (314159265359 / 100000000000))) by (apply Rinv_0_lt_compat; lra). set (q := / (4 * (314159265359 / 100000000000))) in *.
  assert (D : forall a b, denominator wd alpha a b = wd * q * (a * a + b * b) + alpha) by (intros; unfold denominator, Rdiv at 1; fold q; ring). rewrite !D.
  assert (P : forall n, (1 < n)%Z -> if Z.even n then seen_frequency n pix 0 = lowest n pix else lowest n pix = 0 /\ 0 < seen_frequency n pix 0).
  { intros n Hn. unfold seen_frequency, lowest. assert (N : 0 < IZR (n - 1)) by (apply IZR_lt; lia). destruct (Z.even n); [f_equal; lra|]. split; auto.
    apply Rdiv_lt_0_compat; [lra|nra]. }
  pose proof (P h Hh) as Ph. pose proof (P w Hw) as Pw.
  pose proof (lowest_le h pix 0 Hh Hp) as Lk. pose proof (lowest_le w pix 0 Hw Hp) as Ll.
  set (a := lowest h pix) in *. set (b := lowest w pix) in *. set (c := seen_frequency h pix 0) in *. set (d := seen_frequency w pix 0) in *.
  assert (Wq : 0 < wd * q) by nra.
  assert (Y : a * a + b * b < c * c + d * d -> (wd * q * (a * a + b * b) + alpha) / (wd * q * (c * c + d * d) + alpha) <> 1).
  { intros H E. assert (0 < wd * q * (c * c + d * d) + alpha) by nra. apply (Rmult_eq_compat_r (wd * q * (c * c + d * d) + alpha)) in E.
    unfold Rdiv in E. rewrite Rmult_assoc, Rinv_l in E by lra. nra. }
  destruct (Z.even h), (Z.even w).
  - rewrite Ph, Pw. split; auto. intros _. apply Rdiv_diag_eq || (unfold Rdiv; apply Rinv_r; nra).
  - split; [|easy]. intros E. exfalso. revert E. apply Y. destruct Pw. rewrite Ph. nra.
  - split; [|easy]. intros E. exfalso. revert E. apply Y. destruct Ph. rewrite Pw. nra.
  - split; [|easy]. intros E. exfalso. revert E. apply Y. destruct Ph, Pw. nra.
Qed.

(** ** whole projections, padded by at least one pixel *)
Section Padded.
  Variables (pixel_size dist energy alpha : R) (dy dz : Z).
  Hypothesis Hphys : physical pixel_size dist energy alpha.
  Hypotheses (Hy : (0 < dy)%Z) (Hz : (0 < dz)%Z).
  Let py := pad_width dy (pad_pixels pixel_size dist energy).
  Let pz := pad_width dz (pad_pixels pixel_size dist energy).
  Hypotheses (Hpy : (0 < py)%Z) (Hpz : (0 < pz)%Z).
  Let h := (dy + 2 * py)%Z.
  Let w := (dz + 2 * pz)%Z.
  Let g := normalised_filter pixel_size dist energy alpha h w.
  Let filtered (frame : Z -> Z -> R) : Z -> Z -> R := fun r c => fourier_filter h w g (replicate dy dz py pz frame) (r + py) (c + pz).
  Lemma retrieve_filtered tomo prj : Forall2 (fun frame res => same_on dy dz res (filtered frame)) tomo (retrieve_phase_fft pixel_size dist energy alpha true dy dz tomo prj).
  Proof.
    unfold retrieve_phase_fft, retrieve_phase, pad_widths. fold py pz. apply C33_padded; auto. intros f f' E r c Hr Hc. apply fourier_filter_ext. exact E.
  Qed.
End Padded.
(** All projections of a stack are treated alike and independently, by a linear map. *)
Definition linear_on (dy dz : Z) (T : (Z -> Z -> R) -> Z -> Z -> R) : Prop :=
  (forall f f', same_on dy dz f f' -> same_on dy dz (T f) (T f')) /\
  forall a b f f', same_on dy dz (T (fun y x => a * f y x + b * f' y x)) (fun y x => a * T f y x + b * T f' y x).
Theorem C104_linear : forall pixel_size dist energy alpha dy dz, physical pixel_size dist energy alpha -> (0 < dy)%Z -> (0 < dz)%Z ->
  (0 < pad_width dy (pad_pixels pixel_size dist energy))%Z -> (0 < pad_width dz (pad_pixels pixel_size dist energy))%Z ->
  exists T, linear_on dy dz T /\ forall tomo prj, Forall2 (fun frame res => same_on dy dz res (T frame)) tomo (retrieve_phase_fft pixel_size dist energy alpha true dy dz tomo prj).
Proof.
  intros pix dist energy alpha dy dz Hph Hy Hz Hpy Hpz. eexists. split; [|intros tomo prj; now apply retrieve_filtered].
  set (py := pad_width dy _). set (pz := pad_width dz _). split.
  - intros f f' E r c Hr Hc. cbv beta. apply fourier_filter_ext. intros y x Hy' Hx'. unfold replicate, clamp. apply E; lia.
  - intros a b f f' r c Hr Hc. cbv beta. rewrite <- !fourier_filter_mul, <- fourier_filter_add. reflexivity.
Qed.
(** Constant projections: unchanged up to the response to the zero frequency. *)
Theorem C104_constant : forall pixel_size dist energy alpha dy dz c tomo prj, physical pixel_size dist energy alpha -> (0 < dy)%Z -> (0 < dz)%Z ->
  let py := pad_width dy (pad_pixels pixel_size dist energy) in let pz := pad_width dz (pad_pixels pixel_size dist energy) in (0 < py)%Z -> (0 < pz)%Z ->
  Forall (fun frame => same_on dy dz frame (fun _ _ => c)) tomo ->
  Forall (fun res => same_on dy dz res (fun _ _ => response (wavelength energy * dist) alpha pixel_size (dy + 2 * py) (dz + 2 * pz) 0 0 * c))
    (retrieve_phase_fft pixel_size dist energy alpha true dy dz tomo prj).
Proof.
  intros pix dist energy alpha dy dz c tomo prj Hph Hy Hz py pz Hpy Hpz HT.
  pose proof (retrieve_filtered pix dist energy alpha dy dz Hy Hz Hpy Hpz tomo prj) as R. destruct Hph as (Hp & Hd & He & Ha). pose proof (wavelength_pos energy He).
  induction R as [|frame res tomo results E R IH]; [constructor|]. inversion HT; subst. constructor; auto. intros r q Hr Hq. rewrite E by auto.
  fold py pz. rewrite (fourier_filter_ext _ _ _ _ (fun _ _ => c)).
  - rewrite fourier_filter_const by lia. f_equal. rewrite <- normalised_response by (auto; try lia; nra). now rewrite !Z.mod_0_l by lia.
  - intros y x Hy' Hx'. unfold replicate. match goal with H : same_on dy dz frame _ |- _ => apply H; unfold clamp; lia end.
Qed.
(** Even numbers of rows and columns: constant projections come back unchanged. *)
Theorem C104_even : forall pixel_size dist energy alpha dy dz c tomo prj, physical pixel_size dist energy alpha -> (0 < dy)%Z -> (0 < dz)%Z -> Z.even dy = true -> Z.even dz = true ->
  Forall (fun frame => same_on dy dz frame (fun _ _ => c)) tomo ->
  Forall (fun res => same_on dy dz res (fun _ _ => c)) (retrieve_phase_fft pixel_size dist energy alpha true dy dz tomo prj).
Proof.
  intros pix dist energy alpha dy dz c tomo prj Hph Hy Hz Ey Ez HT. destruct (Hph) as (Hp & Hd & He & Ha). pose proof (wavelength_pos energy He).
  destruct (C104_pad_pixels pix dist energy Hp (Rlt_le _ _ Hd) He) as (_ & P & _). specialize (P Hd). set (p := pad_pixels pix dist energy) in *.
  apply Z.even_spec in Ey, Ez. destruct Ey as (ey & Ey), Ez as (ez & Ez).
  assert (W : forall d e, (0 < d)%Z -> d = (2 * e)%Z -> (0 < pad_width d p)%Z).
  { intros d e Hdp E. destruct (C33_pad_width d p Hdp ltac:(lia)) as (A0 & A1 & k & K0 & K1 & K2 & K3).
    assert (k <> 0)%Z by (intros ->; cbn in K3; lia). specialize (K2 ltac:(lia) ltac:(auto)). lia. }
  pose proof (W dy ey Hy Ey) as Wy. pose proof (W dz ez Hz Ez) as Wz.
  pose proof (C104_constant pix dist energy alpha dy dz c tomo prj Hph Hy Hz Wy Wz HT) as R. fold p in R.
  destruct (C104_zero_frequency (wavelength energy * dist) alpha pix (dy + 2 * pad_width dy p) (dz + 2 * pad_width dz p)) as (_ & Z1); try nra; try lia; auto.
  cbv zeta in R. rewrite Z1 in R.
  - revert R. apply Forall_impl. intros res E r q Hr Hq. rewrite E by auto. ring.
  - rewrite !Z.even_add, !Z.even_mul. cbn. split; [rewrite Ey|rewrite Ez]; rewrite Z.even_mul; reflexivity.
Qed.
(** Finding: with an odd number of rows or columns a constant projection comes back smaller. *)
Theorem C104_odd_refuted : forall pixel_size dist energy alpha dy dz c prj, physical pixel_size dist energy alpha -> (0 < dy)%Z -> (0 < dz)%Z -> Z.even dy = false \/ Z.even dz = false ->
  (2 <= pad_pixels pixel_size dist energy)%Z -> 0 < c ->
  exists c', 0 < c' < c /\ Forall (fun res => same_on dy dz res (fun _ _ => c')) (retrieve_phase_fft pixel_size dist energy alpha true dy dz [fun _ _ => c] prj).
Proof.
  intros pix dist energy alpha dy dz c prj Hph Hy Hz Odd P Hc. destruct (Hph) as (Hp & Hd & He & Ha). pose proof (wavelength_pos energy He). assert (Hwd : 0 < wavelength energy * dist) by nra.
  set (p := pad_pixels pix dist energy) in *.
  assert (W : forall d, (0 < d)%Z -> (0 < pad_width d p)%Z).
  { intros d Hdp. destruct (C33_pad_width d p Hdp ltac:(lia)) as (A0 & A1 & k & K0 & K1 & K2 & K3).
    unfold pad_width in *. destruct (Z.eq_dec (d + p) 1) as [E|E]; [lia|].
    pose proof (Z.log2_up_spec (d + p) ltac:(lia)). lia. }
  pose proof (C104_constant pix dist energy alpha dy dz c [fun _ _ => c] prj Hph Hy Hz (W dy Hy) (W dz Hz)) as R. fold p in R. cbv zeta in R.
  specialize (R ltac:(constructor; [easy|constructor])). eexists. split; [|exact R]. pose proof (W dy Hy). pose proof (W dz Hz).
  pose proof (response_bounds (wavelength energy * dist) alpha pix (dy + 2 * pad_width dy p) (dz + 2 * pad_width dz p) 0 0 ltac:(lia) ltac:(lia) Hp ltac:(lra) Ha) as B.
  pose proof (C104_zero_frequency (wavelength energy * dist) alpha pix (dy + 2 * pad_width dy p) (dz + 2 * pad_width dz p) Hwd Ha Hp ltac:(lia) ltac:(lia)) as (Z1 & _).
  assert (response (wavelength energy * dist) alpha pix (dy + 2 * pad_width dy p) (dz + 2 * pad_width dz p) 0 0 <> 1); [|nra].
  intros E. apply Z1 in E. rewrite !Z.even_add, !Z.even_mul in E. cbn in E. destruct E as (E1 & E2), Odd as [O | O]; rewrite O in *; cbn in *; congruence.
Qed.
(** The energy of a projection does not grow. *)
Theorem C104_energy : forall pixel_size dist energy alpha dy dz tomo prj, physical pixel_size dist energy alpha -> (0 < dy)%Z -> (0 < dz)%Z ->
  let py := pad_width dy (pad_pixels pixel_size dist energy) in let pz := pad_width dz (pad_pixels pixel_size dist energy) in (0 < py)%Z -> (0 < pz)%Z ->
  Forall2 (fun frame res => total dy dz (fun y x => res y x * res y x) <=
      total (dy + 2 * py) (dz + 2 * pz) (fun y x => replicate dy dz py pz frame y x * replicate dy dz py pz frame y x))
    tomo (retrieve_phase_fft pixel_size dist energy alpha true dy dz tomo prj).
Proof.
  intros pix dist energy alpha dy dz tomo prj Hph Hy Hz py pz Hpy Hpz.
  pose proof (retrieve_filtered pix dist energy alpha dy dz Hy Hz Hpy Hpz tomo prj) as R. destruct Hph as (Hp & Hd & He & Ha). pose proof (wavelength_pos energy He).
  induction R as [|frame res tomo results E R IH]; constructor; auto. clear IH R. cbv beta in E. fold py pz in E. set (h := (dy + 2 * py)%Z) in *. set (w := (dz + 2 * pz)%Z) in *.
  set (m := replicate dy dz py pz frame) in *. set (g := normalised_filter pix dist energy alpha h w) in *.
  apply Rle_trans with (total h w (fun y x => fourier_filter h w g m y x * fourier_filter h w g m y x)).
  - unfold total. rewrite (sum_to_ext dy _ (fun y => sum_to dz (fun x => fourier_filter h w g m (y + py) (x + pz) * fourier_filter h w g m (y + py) (x + pz))))
      by (intros; apply sum_to_ext; intros; now rewrite E).
    assert (S : forall n p f, (0 <= n)%Z -> (0 <= p)%Z -> (forall i, 0 <= f i) -> sum_to n (fun i => f (i + p)%Z) <= sum_to (n + 2 * p) f).
    { intros n p f Hn Hp' Hf. unfold sum_to. rewrite <- (map_map (fun i => (i + p)%Z) f).
      replace n with (n + p - p)%Z at 1 by lia. rewrite <- zrange_map.
      rewrite (zrange_split 0 p (n + 2 * p)), (zrange_split p (n + p) (n + 2 * p)) by lia. rewrite !map_app.
      assert (A : forall l l', fold_right Rplus 0 (map f l ++ l') = fold_right Rplus 0 (map f l) + fold_right Rplus 0 l').
      { induction l as [|i l IH]; intros l'; cbn [map fold_right app]; [lra|]. rewrite IH. lra. }
      assert (B : forall l, 0 <= fold_right Rplus 0 (map f l)) by (induction l as [|i l IH]; cbn [map fold_right]; [lra|]; specialize (Hf i); lra).
      rewrite !A. pose proof (B (zrange 0 p)). pose proof (B (zrange (n + p) (n + 2 * p))). lra. }
    eapply Rle_trans; [|apply (S dy py (fun y => sum_to w (fun x => fourier_filter h w g m y x * fourier_filter h w g m y x))); try lia].
    + apply sum_to_le. intros y _. apply (S dz pz (fun x => fourier_filter h w g m (y + py) x * fourier_filter h w g m (y + py) x)); try lia. intros. nra.
    + intros y. unfold sum_to. induction (zrange 0 w) as [|x l IH]; cbn [map fold_right]; nra.
  - rewrite <- (Rmult_1_l (total h w (fun y x => m y x * m y x))). apply fourier_filter_energy; try lia. intros v u Hv Hu.
    destruct (index_of h v ltac:(lia) Hv) as (k & Hk & ->). destruct (index_of w u ltac:(lia) Hu) as (l & Hl & ->). unfold g.
    rewrite normalised_response by (auto; try lia; nra).
    pose proof (response_bounds (wavelength energy * dist) alpha pix h w k l ltac:(lia) ltac:(lia) Hp ltac:(nra) Ha). nra.
Qed.
(** The mean of the padded buffer changes by the response to the zero frequency only. *)
Theorem C104_mean : forall pixel_size dist energy alpha h w m, physical pixel_size dist energy alpha -> (1 < h)%Z -> (1 < w)%Z ->
  total h w (fourier_filter h w (normalised_filter pixel_size dist energy alpha h w) m) = response (wavelength energy * dist) alpha pixel_size h w 0 0 * total h w m.
Proof.
  intros pix dist energy alpha h w m (Hp & Hd & He & Ha) Hh Hw. pose proof (wavelength_pos energy He). rewrite fourier_filter_total by lia.
  rewrite <- normalised_response by (auto; try lia; nra). now rewrite !Z.mod_0_l by lia.
Qed.
(** At distance zero nothing is filtered. *)
Theorem C104_contact : forall pixel_size energy alpha h w m, 0 < pixel_size -> 0 < energy -> 0 < alpha -> (1 < h)%Z -> (1 < w)%Z ->
  same_on h w (fourier_filter h w (normalised_filter pixel_size 0 energy alpha h w) m) m.
Proof.
  intros pix energy alpha h w m Hp He Ha Hh Hw y x Hy Hx. apply fourier_filter_one; auto. intros v u Hv Hu.
  destruct (index_of h v Hh Hv) as (k & Hk & ->). destruct (index_of w u Hw Hu) as (l & Hl & ->). rewrite normalised_response by (auto; rewrite Rmult_0_r; lra).
  unfold response, denominator. rewrite Rmult_0_r. field. lra.
Qed.
Theorem C104_contact_padded : forall pixel_size energy alpha dy dz tomo prj, 0 < pixel_size -> 0 < energy -> 0 < alpha -> (0 < dy)%Z -> (0 < dz)%Z ->
  (0 < pad_width dy 0)%Z -> (0 < pad_width dz 0)%Z -> Forall2 (same_on dy dz) (retrieve_phase_fft pixel_size 0 energy alpha true dy dz tomo prj) tomo.
Proof.
  intros pix energy alpha dy dz tomo prj Hp He Ha Hy Hz Hpy Hpz. destruct (C104_pad_pixels pix 0 energy Hp ltac:(lra) He) as (_ & _ & P). specialize (P eq_refl).
  pose proof (retrieve_filtered pix 0 energy alpha dy dz Hy Hz) as R. rewrite P in R. specialize (R Hpy Hpz tomo prj).
  induction R as [|frame res tomo results E R IH]; constructor; auto. intros r c Hr Hc. rewrite E by auto. rewrite C104_contact by (auto; lia).
  unfold replicate, clamp. f_equal; lia.
Qed.
(** Finding: without padding (pad=False, or both pad widths zero) every projection comes back as a constant: its last pixel, if both sizes are even. *)
Lemma unpadded pix dist energy alpha pad dy dz tomo prj : (0 < dy)%Z -> (0 < dz)%Z -> pad_widths pad dy dz (pad_pixels pix dist energy) = (0, 0)%Z ->
  Forall2 (fun frame res => same_on dy dz res (fourier_filter dy dz (normalised_filter pix dist energy alpha dy dz) (fun _ _ => frame (dy - 1)%Z (dz - 1)%Z))) tomo
    (retrieve_phase_fft pix dist energy alpha pad dy dz tomo prj).
Proof.
  intros Hy Hz E. unfold retrieve_phase_fft, retrieve_phase. rewrite E. unfold retrieve. replace (dy + 2 * 0)%Z with dy by lia. replace (dz + 2 * 0)%Z with dz by lia.
  set (F := fourier_filter dy dz _).
  assert (G : forall tomo acc prj0 frames, Forall2 (fun frame res => same_on dy dz res (F (fun _ _ => frame (dy - 1)%Z (dz - 1)%Z))) frames acc ->
    Forall2 (fun frame res => same_on dy dz res (F (fun _ _ => frame (dy - 1)%Z (dz - 1)%Z))) (frames ++ tomo)
      (fst (fold_left (fun '(done, prj) frame => let prj := load dy dz 0 0 frame prj in (done ++ [Model_Phase.crop 0 0 pad (F prj)], prj)) tomo (acc, prj0)))).
  { clear tomo prj. induction tomo as [|f tomo IH]; intros acc prj0 frames H; cbn [fold_left].
    - now rewrite app_nil_r.
    - replace (frames ++ f :: tomo) with ((frames ++ [f]) ++ tomo) by (rewrite <- app_assoc; reflexivity).
      apply IH. apply Forall2_app; auto. constructor; [|constructor]. intros r c Hr Hc.
      assert (C : Model_Phase.crop 0 0 pad (F (load dy dz 0 0 f prj0)) r c = F (load dy dz 0 0 f prj0) r c) by (unfold Model_Phase.crop; destruct pad; auto; f_equal; lia).
      rewrite C. apply fourier_filter_ext. intros y x Hy' Hx'. now apply (proj2 (C33_no_padding_refuted dy dz f prj0 Hy Hz)). }
  apply (G tomo [] prj []). constructor.
Qed.
Theorem C104_unpadded_refuted : forall pixel_size dist energy alpha pad dy dz tomo prj, 0 < pixel_size -> 0 <= dist -> 0 < energy -> 0 < alpha -> (1 < dy)%Z -> (1 < dz)%Z ->
  pad_widths pad dy dz (pad_pixels pixel_size dist energy) = (0, 0)%Z ->
  Forall2 (fun frame res => same_on dy dz res (fun _ _ => response (wavelength energy * dist) alpha pixel_size dy dz 0 0 * frame (dy - 1)%Z (dz - 1)%Z)) tomo
    (retrieve_phase_fft pixel_size dist energy alpha pad dy dz tomo prj).
Proof.
  intros pix dist energy alpha pad dy dz tomo prj Hp Hd He Ha Hy Hz E. pose proof (unpadded pix dist energy alpha pad dy dz tomo prj ltac:(lia) ltac:(lia) E) as R.
  pose proof (wavelength_pos energy He). clear E. induction R as [|frame res tomo results E R IH]; constructor; auto. intros r c Hr Hc. rewrite E by auto.
  rewrite fourier_filter_const by lia. f_equal. rewrite <- normalised_response by (auto; try lia; nra). now rewrite !Z.mod_0_l by lia.
Qed.
(** In contact, sizes that are powers of two get no padding. *)
Theorem C104_contact_refuted : forall pixel_size energy alpha j k tomo prj, 0 < pixel_size -> 0 < energy -> 0 < alpha -> (1 <= j)%Z -> (1 <= k)%Z ->
  Forall2 (fun frame res => same_on (2 ^ j) (2 ^ k) res (fun _ _ => frame (2 ^ j - 1)%Z (2 ^ k - 1)%Z)) tomo (retrieve_phase_fft pixel_size 0 energy alpha true (2 ^ j) (2 ^ k) tomo prj).
Proof.
  intros pix energy alpha j k tomo prj Hp He Ha Hj Hk. destruct (C104_pad_pixels pix 0 energy Hp ltac:(lra) He) as (_ & _ & P). specialize (P eq_refl).
  assert (W : forall i, (1 <= i)%Z -> pad_width (2 ^ i) 0 = 0%Z) by (intros i Hi; unfold pad_width; rewrite Z.add_0_r, Z.log2_up_pow2 by lia; rewrite Z.sub_diag; reflexivity).
  assert (B : forall i, (1 <= i)%Z -> (1 < 2 ^ i)%Z) by (intros i Hi; apply Z.pow_gt_1; lia).
  pose proof (C104_unpadded_refuted pix 0 energy alpha true (2 ^ j) (2 ^ k) tomo prj Hp ltac:(lra) He Ha (B j Hj) (B k Hk)) as R.
  unfold pad_widths in R. rewrite P, !W in R by auto. specialize (R eq_refl).
  induction R as [|frame res tomo results E R IH]; constructor; auto. intros r c Hr Hc. rewrite E by auto.
  unfold response, denominator. rewrite Rmult_0_r. field. lra.
Qed.
(** Defaults: 1 micrometre pixels, 50 cm, 20 keV: 98 pixels are wanted. *)
Example C104_example : pad_pixels (1 / 10000) 50 20 = 98%Z /\ pad_width 1024 98 = 512%Z /\ plane_wave 4 4 1 2 0 0 1 = -1.
Proof.
  split; [|split; [reflexivity|]].
  - assert (P : 0 < 1 / 10000) by lra. destruct (C104_pad_pixels (1 / 10000) 50 20 P ltac:(lra) ltac:(lra)) as (B & _). cbv zeta in B.
    set (n := pad_pixels _ _ _) in *. enough (97 < n < 99)%Z by lia.
    assert (E : wavelength 20 = 2 * (314159265359 / 100000000000) * (658211928 / 10 ^ 27) * (299792458 * 100) / 20) by (unfold wavelength, pi_phase, planck_constant, speed_of_light; field; lra).
    rewrite E in B. split; apply lt_IZR; lra.
  - unfold plane_wave. replace (2 * PI * (IZR (1 * 0) / 4 + IZR (2 * 1) / 4) + 0) with PI; [apply cos_PI|]. change (1 * 0)%Z with 0%Z. change (2 * 1)%Z with 2%Z. field.
Qed.

Print Assumptions C104_wavelength.
Print Assumptions C104_pad_pixels.
Print Assumptions C104_wave.
Print Assumptions C104_response.
Print Assumptions C104_frequency_refuted.
Print Assumptions C104_zero_frequency.
Print Assumptions C104_linear.
Print Assumptions C104_constant.
Print Assumptions C104_even.
Print Assumptions C104_odd_refuted.
Print Assumptions C104_energy.
Print Assumptions C104_mean.
Print Assumptions C104_contact.
Print Assumptions C104_contact_padded.
Print Assumptions C104_unpadded_refuted.
Print Assumptions C104_contact_refuted.
