(** Two-dimensional Fourier filters, and the filter of the phase retrieval. *)
From Coq Require Import Reals Lra.
From Verif Require Import Base Cplx Model_Phase Model_StripeFourier Model_PhaseFourier Spec_StripeFourier Spec_PhaseFourier
  Proofs_Morph Proofs_Solver Proofs_StripeFourier Properties_Phase.
Local Open Scope R_scope.

Section Filter.
  Variables (h w : Z) (g : Z -> Z -> R).
  Hypotheses (Hh : (1 <= h)%Z) (Hw : (1 <= w)%Z).
  Let HRh : IZR h <> 0. Proof. apply not_0_IZR. lia. Qed.
  Let HRw : IZR w <> 0. Proof. apply not_0_IZR. lia. Qed.
  (** before the real part is taken *)
  Definition cfilter2 (m : Z -> Z -> cplx) (y x : Z) : cplx := idft2 h w (fun v u => (dft2 h w m v u * cr (g v u))%C) y x.
  Lemma fourier_filter_re m y x : fourier_filter h w g m y x = re (cfilter2 (fun y x => cr (m y x)) y x).
  Proof. reflexivity. Qed.
  Lemma dft2_ext m m' v u : (forall y x, (0 <= y < h)%Z -> (0 <= x < w)%Z -> m y x = m' y x) -> dft2 h w m v u = dft2 h w m' v u.
  Proof. intros H. unfold dft2. apply csum_ext. intros y Hy. apply csum_ext. intros x Hx. now rewrite H. Qed.
  Lemma cfilter2_ext m m' y x : (forall y x, (0 <= y < h)%Z -> (0 <= x < w)%Z -> m y x = m' y x) -> cfilter2 m y x = cfilter2 m' y x.
  Proof. intros H. unfold cfilter2, idft2. f_equal. apply csum_ext. intros v _. apply csum_ext. intros u _. now rewrite (dft2_ext m m') by auto. Qed.
  Lemma dft2_add m m' v u : dft2 h w (fun y x => (m y x + m' y x)%C) v u = (dft2 h w m v u + dft2 h w m' v u)%C.
  Proof. unfold dft2. rewrite <- csum_add. apply csum_ext. intros y _. rewrite <- csum_add. apply csum_ext. intros x _. ring. Qed.
  Lemma dft2_mul a m v u : dft2 h w (fun y x => (a * m y x)%C) v u = (a * dft2 h w m v u)%C.
  Proof. unfold dft2. rewrite <- csum_mul. apply csum_ext. intros y _. rewrite <- csum_mul. apply csum_ext. intros x _. ring. Qed.
  Lemma cfilter2_add m m' y x : cfilter2 (fun y x => (m y x + m' y x)%C) y x = (cfilter2 m y x + cfilter2 m' y x)%C.
  Proof.
    unfold cfilter2, idft2. set (c := cr (/ _)).
    replace (c * csum h _ + c * csum h _)%C with (c * (csum h (fun v => csum w (fun u => dft2 h w m v u * cr (g v u) * (turn h (y * v) * turn w (x * u)))) + csum h (fun v => csum w (fun u => dft2 h w m' v u * cr (g v u) * (turn h (y * v) * turn w (x * u))))))%C by ring.
    f_equal. rewrite <- csum_add. apply csum_ext. intros v _. rewrite <- csum_add. apply csum_ext. intros u _. rewrite dft2_add. ring.
  Qed.
  Lemma cfilter2_mul a m y x : cfilter2 (fun y x => (a * m y x)%C) y x = (a * cfilter2 m y x)%C.
  Proof.
    unfold cfilter2, idft2. set (c := cr (/ _)).
    replace (a * (c * csum h _))%C with (c * (a * csum h (fun v => csum w (fun u => dft2 h w m v u * cr (g v u) * (turn h (y * v) * turn w (x * u))))))%C by ring.
    f_equal. rewrite <- csum_mul. apply csum_ext. intros v _. rewrite <- csum_mul. apply csum_ext. intros u _. rewrite dft2_mul. ring.
  Qed.
  (** the transform of one wave *)
  Lemma dft_turns n k j : (1 <= n)%Z -> (0 <= j < n)%Z -> csum n (fun y => (turn n (k * y) * turn n (- (y * j)))%C) = if (j =? k mod n)%Z then cr (IZR n) else cr 0.
  Proof.
    intros Hn Hj. rewrite (csum_ext n _ (fun y => turn n (y * (k - j)))).
    2:{ intros y _. rewrite <- turn_add. f_equal. lia. }
    rewrite csum_turns by auto. replace ((k - j) mod n =? 0)%Z with (j =? k mod n)%Z; auto.
    apply Bool.eq_iff_eq_true. rewrite !Z.eqb_eq. split; intros H.
    - subst j. rewrite Zminus_mod_idemp_r. replace (k - k)%Z with 0%Z by lia. apply Z.mod_0_l. lia.
    - apply Z.mod_divide in H; [|lia]. destruct H as (q & Hq). apply (Z.mod_unique k n q j); lia.
  Qed.
  Lemma cfilter2_turn k l y x : cfilter2 (fun y x => (turn h (k * y) * turn w (l * x))%C) y x =
    (cr (g (k mod h) (l mod w)) * (turn h (k * y) * turn w (l * x)))%C.
  Proof.
    assert (D : forall v u, (0 <= v < h)%Z -> (0 <= u < w)%Z -> dft2 h w (fun y x => (turn h (k * y) * turn w (l * x))%C) v u =
      ((if (v =? k mod h)%Z then cr (IZR h) else cr 0) * (if (u =? l mod w)%Z then cr (IZR w) else cr 0))%C).
    { intros v u Hv Hu. unfold dft2. rewrite (csum_ext h _ (fun y => ((turn h (k * y) * turn h (- (y * v))) * csum w (fun x => turn w (l * x) * turn w (- (x * u))))%C)).
      2:{ intros y' _. rewrite <- csum_mul. apply csum_ext. intros x' _. ring. }
      rewrite csum_mul_r, !dft_turns by auto. reflexivity. }
    unfold cfilter2, idft2. pose proof (Z.mod_pos_bound k h ltac:(lia)) as Bk. pose proof (Z.mod_pos_bound l w ltac:(lia)) as Bl.
    rewrite (csum_ext h _ (fun v => if (v =? k mod h)%Z then
      (cr (IZR h * IZR w * g (k mod h)%Z (l mod w)%Z) * (turn h (k * y) * turn w (l * x)))%C else cr 0)).
    - rewrite csum_one by auto. set (t := (turn h _ * turn w _)%C). rewrite !cr_mul.
      replace (cr (/ (IZR h * IZR w)) * (cr (IZR h) * cr (IZR w) * cr (g (k mod h) (l mod w)) * t))%C with (cr (/ (IZR h * IZR w) * (IZR h * IZR w)) * (cr (g (k mod h) (l mod w)) * t))%C
        by (rewrite !cr_mul; ring).
      rewrite Rinv_l by (apply Rmult_integral_contrapositive_currified; auto). ring.
    - intros v Hv. destruct (v =? k mod h)%Z eqn:Ev.
      + apply Z.eqb_eq in Ev. rewrite (csum_ext w _ (fun u => if (u =? l mod w)%Z then (cr (IZR h * IZR w * g (k mod h)%Z (l mod w)%Z) * (turn h (k * y) * turn w (l * x)))%C else cr 0)).
        * now rewrite csum_one by auto.
        * intros u Hu. rewrite D by auto. rewrite Ev, Z.eqb_refl. destruct (u =? l mod w)%Z eqn:Eu; [|ring]. apply Z.eqb_eq in Eu. rewrite Eu.
          rewrite (turn_mod h (y * _)), (turn_mod w (x * _)), Z.mul_mod_idemp_r, Z.mul_mod_idemp_r by lia.
          rewrite <- (turn_mod h), <- (turn_mod w) by auto. rewrite (Z.mul_comm y), (Z.mul_comm x), !cr_mul. ring.
      + apply csum_zero. intros u Hu. rewrite D by auto. rewrite Ev. ring.
  Qed.
  Lemma plane_wave_turns k l phase y x : cr (plane_wave h w k l phase y x) =
    (cr (/ 2) * expi phase * (turn h (k * y) * turn w (l * x)) + cr (/ 2) * expi (- phase) * (turn h (- k * y) * turn w (- l * x)))%C.
  Proof.
    unfold plane_wave. replace (- k * y)%Z with (- (k * y))%Z by lia. replace (- l * x)%Z with (- (l * x))%Z by lia. rewrite <- !conj_turn.
    unfold turn. set (t := 2 * PI * IZR (k * y) / IZR h). set (t' := 2 * PI * IZR (l * x) / IZR w).
    replace (2 * PI * (IZR (k * y) / IZR h + IZR (l * x) / IZR w) + phase) with (phase + (t + t')) by (unfold t, t', Rdiv; ring).
    rewrite <- conj_expi, <- conj_mul, <- expi_add. rewrite <- (conj_cr (/ 2)) at 2.
    replace (cr (/ 2) * expi phase * expi (t + t'))%C with (cr (/ 2) * expi (phase + (t + t')))%C by (rewrite expi_add; ring).
    replace (conj (cr (/ 2)) * conj (expi phase) * conj (expi (t + t')))%C with (conj (cr (/ 2)) * conj (expi (phase + (t + t'))))%C by (rewrite expi_add, conj_mul; ring).
    set (a := phase + (t + t')). apply ceq; unfold conj, cr, expi, cadd, cmul, re, im; cbn [fst snd]; field.
  Qed.
  Lemma fourier_filter_ext m m' y x : (forall y x, (0 <= y < h)%Z -> (0 <= x < w)%Z -> m y x = m' y x) -> fourier_filter h w g m y x = fourier_filter h w g m' y x.
  Proof. intros H. rewrite !fourier_filter_re. f_equal. apply cfilter2_ext. intros. now rewrite H. Qed.
  Lemma fourier_filter_add m m' y x : fourier_filter h w g (fun y x => m y x + m' y x) y x = fourier_filter h w g m y x + fourier_filter h w g m' y x.
  Proof.
    rewrite !fourier_filter_re. rewrite (cfilter2_ext _ (fun y x => (cr (m y x) + cr (m' y x))%C)) by (intros; apply cr_add).
    rewrite cfilter2_add. reflexivity.
  Qed.
  Lemma fourier_filter_mul a m y x : fourier_filter h w g (fun y x => a * m y x) y x = a * fourier_filter h w g m y x.
  Proof.
    rewrite !fourier_filter_re. rewrite (cfilter2_ext _ (fun y x => (cr a * cr (m y x))%C)) by (intros; apply cr_mul).
    rewrite cfilter2_mul. unfold cmul, cr, re, im. cbn [fst snd]. ring.
  Qed.
  (** a wave keeps its shape *)
  Lemma fourier_filter_wave k l phase y x : fourier_filter h w g (plane_wave h w k l phase) y x =
    (g (k mod h)%Z (l mod w)%Z + g (- k mod h)%Z (- l mod w)%Z) / 2 * plane_wave h w k l phase y x.
  Proof.
    rewrite fourier_filter_re. rewrite (cfilter2_ext _ (fun y x => (cr (/ 2) * expi phase * (turn h (k * y) * turn w (l * x)) + cr (/ 2) * expi (- phase) * (turn h (- k * y) * turn w (- l * x)))%C))
      by (intros; apply plane_wave_turns).
    rewrite cfilter2_add, !cfilter2_mul, !cfilter2_turn. set (g1 := g _ _). set (g2 := g _ _).
    replace (plane_wave h w k l phase y x) with (re (cr (plane_wave h w k l phase y x))) by reflexivity.
    assert (E : (cr (/ 2) * expi (- phase) * (turn h (- k * y) * turn w (- l * x)) = conj (cr (/ 2) * expi phase * (turn h (k * y) * turn w (l * x))))%C).
    { rewrite !conj_mul, conj_cr, conj_expi, !conj_turn. f_equal. f_equal; f_equal; lia. }
    rewrite plane_wave_turns.
    replace (cr (/ 2) * expi (- phase) * (cr g2 * (turn h (- k * y) * turn w (- l * x))))%C with (cr g2 * (cr (/ 2) * expi (- phase) * (turn h (- k * y) * turn w (- l * x))))%C by ring.
    replace (cr (/ 2) * expi phase * (cr g1 * (turn h (k * y) * turn w (l * x))))%C with (cr g1 * (cr (/ 2) * expi phase * (turn h (k * y) * turn w (l * x))))%C by ring.
    rewrite E. set (z := (cr (/ 2) * expi phase * (turn h (k * y) * turn w (l * x)))%C). unfold conj, cr, cadd, cmul, re, im. cbn [fst snd]. field.
  Qed.
  Lemma fourier_filter_const c y x : fourier_filter h w g (fun _ _ => c) y x = g 0%Z 0%Z * c.
  Proof.
    rewrite (fourier_filter_ext _ (fun y x => c * plane_wave h w 0 0 0 y x)).
    - rewrite fourier_filter_mul, fourier_filter_wave. cbn [Z.opp]. rewrite !Z.mod_0_l by lia.
      unfold plane_wave. replace (2 * PI * (IZR (0 * y) / IZR h + IZR (0 * x) / IZR w) + 0) with 0 by (cbn [Z.mul]; unfold Rdiv; ring). rewrite cos_0. field.
    - intros y' x' _ _. unfold plane_wave. replace (2 * PI * (IZR (0 * y') / IZR h + IZR (0 * x') / IZR w) + 0) with 0 by (cbn [Z.mul]; unfold Rdiv; ring). rewrite cos_0. ring.
  Qed.
End Filter.

(** ** Parseval *)
Definition sq (z : cplx) : R := re z * re z + im z * im z.
Lemma sq_mul a b : sq (a * b)%C = sq a * sq b.
Proof. unfold sq, cmul, re, im. cbn [fst snd]. ring. Qed.
Lemma sq_cr a : sq (cr a) = a * a.
Proof. unfold sq, cr, re, im. cbn [fst snd]. ring. Qed.
Lemma sq_conj z : cr (sq z) = (z * conj z)%C.
Proof. unfold sq, cr, cmul, conj, re, im. cbn [fst snd]. f_equal; ring. Qed.
Lemma sq_pos z : 0 <= sq z.
Proof. unfold sq. nra. Qed.
Lemma cr_sum n f : cr (sum_to n f) = csum n (fun i => cr (f i)).
Proof. unfold csum, sum_to. induction (zrange 0 n) as [|x l IH]; cbn [map fold_right]; auto. rewrite <- IH. apply cr_add. Qed.
Lemma cr_inj a b : cr a = cr b -> a = b.
Proof. unfold cr. intros H. now injection H. Qed.
Lemma sum_to_mul n k f : sum_to n (fun i => k * f i) = k * sum_to n f.
Proof. apply cr_inj. rewrite cr_mul, !cr_sum, <- csum_mul. apply csum_ext. intros i _. apply cr_mul. Qed.
Lemma sum_to_swap n m f : sum_to n (fun i => sum_to m (fun j => f i j)) = sum_to m (fun j => sum_to n (fun i => f i j)).
Proof.
  apply cr_inj. rewrite !cr_sum. rewrite (csum_ext n _ (fun i => csum m (fun j => cr (f i j)))) by (intros; apply cr_sum).
  rewrite csum_swap. apply csum_ext. intros j _. now rewrite cr_sum.
Qed.
Lemma sum_to_le n f g : (forall i, (0 <= i < n)%Z -> f i <= g i) -> sum_to n f <= sum_to n g.
Proof.
  intros H. unfold sum_to. assert (G : forall i, In i (zrange 0 n) -> f i <= g i) by (intros i Hi; apply in_zrange in Hi; now apply H).
  induction (zrange 0 n) as [|x l IH]; cbn [map fold_right]; [lra|]. specialize (IH ltac:(intros; apply G; now right)). specialize (G x ltac:(now left)). lra.
Qed.
Lemma parseval n s a : (1 <= n)%Z -> (s = 1 \/ s = -1)%Z ->
  sum_to n (fun j => sq (csum n (fun k => (a k * turn n (s * (j * k)))%C))) = IZR n * sum_to n (fun k => sq (a k)).
Proof.
  intros Hn Hs. apply cr_inj. rewrite cr_mul, !cr_sum.
  rewrite (csum_ext n _ (fun j => csum n (fun k => csum n (fun l => (a k * conj (a l) * turn n (j * (s * (k - l))))%C)))).
  - rewrite csum_swap. rewrite (csum_ext n _ (fun k => (cr (IZR n) * cr (sq (a k)))%C)); [now rewrite csum_mul|].
    intros k Hk. rewrite csum_swap. rewrite (csum_ext n _ (fun l => if (l =? k)%Z then (cr (IZR n) * (a k * conj (a l)))%C else cr 0)).
    + rewrite csum_one by auto. now rewrite sq_conj.
    + intros l Hl. rewrite csum_mul, csum_turns by auto. destruct (l =? k)%Z eqn:E.
      * apply Z.eqb_eq in E. subst l. replace (s * (k - k))%Z with 0%Z by lia. rewrite Z.mod_0_l by lia. cbn [Z.eqb]. ring.
      * destruct (Z.eqb_spec ((s * (k - l)) mod n) 0) as [M|M]; [|ring]. exfalso. apply Z.eqb_neq in E. apply Z.mod_divide in M; [|lia].
        destruct M as (q & M). assert (q = 0 \/ 1 <= q \/ q <= -1)%Z as [-> | [|]] by lia; destruct Hs; subst s; nia.
  - intros j _. rewrite sq_conj, csum_conj, <- csum_mul_r. apply csum_ext. intros k _. rewrite <- csum_mul. apply csum_ext. intros l _.
    rewrite conj_mul, conj_turn. replace (j * (s * (k - l)))%Z with (s * (j * k) + - (s * (j * l)))%Z by lia. rewrite turn_add. ring.
Qed.
Lemma parseval2 h w s m : (1 <= h)%Z -> (1 <= w)%Z -> (s = 1 \/ s = -1)%Z ->
  total h w (fun y x => sq (csum h (fun v => csum w (fun u => (m v u * (turn h (s * (y * v)) * turn w (s * (x * u))))%C)))) =
  IZR h * IZR w * total h w (fun v u => sq (m v u)).
Proof.
  intros Hh Hw Hs. unfold total.
  rewrite (sum_to_ext h _ (fun y => sum_to w (fun u => IZR w * sq (csum h (fun v => (m v u * turn h (s * (y * v)))%C))))).
  - rewrite sum_to_swap. rewrite (sum_to_ext w _ (fun u => IZR h * IZR w * sum_to h (fun v => sq (m v u)))).
    + rewrite sum_to_mul. f_equal. apply sum_to_swap.
    + intros u _. rewrite sum_to_mul, (parseval h s (fun v => m v u)) by auto. ring.
  - intros y _. rewrite sum_to_mul, <- (parseval w s) by auto. apply sum_to_ext. intros x _. f_equal.
    rewrite csum_swap. apply csum_ext. intros u _. rewrite <- csum_mul_r. apply csum_ext. intros v _. ring.
Qed.
Lemma fourier_filter_energy h w g b m : (1 <= h)%Z -> (1 <= w)%Z -> (forall v u, (0 <= v < h)%Z -> (0 <= u < w)%Z -> g v u * g v u <= b) ->
  total h w (fun y x => fourier_filter h w g m y x * fourier_filter h w g m y x) <= b * total h w (fun y x => m y x * m y x).
Proof.
  intros Hh Hw Hb. assert (HRh : 0 < IZR h) by (apply IZR_lt; lia). assert (HRw : 0 < IZR w) by (apply IZR_lt; lia). set (N := IZR h * IZR w). assert (HN : 0 < N) by (unfold N; nra).
  set (X := dft2 h w (fun y x => cr (m y x))).
  assert (P1 : total h w (fun v u => sq (X v u)) = N * total h w (fun y x => m y x * m y x)).
  { unfold X, dft2. replace (total h w (fun y x => m y x * m y x)) with (total h w (fun y x => sq (cr (m y x)))).
    - rewrite <- (parseval2 h w (-1)) by auto. apply sum_to_ext. intros v _. apply sum_to_ext. intros u _. f_equal. apply csum_ext. intros y _. apply csum_ext. intros x _.
      f_equal. f_equal; f_equal; lia.
    - apply sum_to_ext. intros y _. apply sum_to_ext. intros x _. apply sq_cr. }
  set (Y := fun v u => (X v u * cr (g v u))%C).
  assert (P2 : total h w (fun y x => sq (idft2 h w Y y x)) = / N * total h w (fun v u => sq (Y v u))).
  { unfold idft2, total at 1. rewrite (sum_to_ext h _ (fun y => / N * / N * sum_to w (fun x => sq (csum h (fun v => csum w (fun u => (Y v u * (turn h (1 * (y * v)) * turn w (1 * (x * u))))%C)))))).
    - rewrite sum_to_mul. fold (total h w (fun y x => sq (csum h (fun v => csum w (fun u => (Y v u * (turn h (1 * (y * v)) * turn w (1 * (x * u))))%C))))).
      rewrite parseval2 by auto. fold N. field. lra.
    - intros y _. rewrite <- sum_to_mul. apply sum_to_ext. intros x _. rewrite sq_mul, sq_cr. fold N. f_equal. f_equal. apply csum_ext. intros v _. apply csum_ext. intros u _.
      f_equal. f_equal; f_equal; lia. }
  apply Rle_trans with (total h w (fun y x => sq (idft2 h w Y y x))).
  { apply sum_to_le. intros y _. apply sum_to_le. intros x _. change (fourier_filter h w g m y x) with (re (idft2 h w Y y x)). unfold sq. nra. }
  rewrite P2. replace (b * total h w (fun y x => m y x * m y x)) with (/ N * (b * (N * total h w (fun y x => m y x * m y x)))) by (field; lra).
  apply Rmult_le_compat_l; [left; now apply Rinv_0_lt_compat|]. rewrite <- P1. unfold total. rewrite <- sum_to_mul. apply sum_to_le. intros v Hv.
  rewrite <- sum_to_mul. apply sum_to_le. intros u Hu. unfold Y. rewrite sq_mul, sq_cr, Rmult_comm. apply Rmult_le_compat_r; [apply sq_pos|]. now apply Hb.
Qed.
(** the sum of all pixels *)
Lemma fourier_filter_total h w g m : (1 <= h)%Z -> (1 <= w)%Z -> total h w (fourier_filter h w g m) = g 0%Z 0%Z * total h w m.
Proof.
  intros Hh Hw. assert (HRh : 0 < IZR h) by (apply IZR_lt; lia). assert (HRw : 0 < IZR w) by (apply IZR_lt; lia).
  set (X := dft2 h w (fun y x => cr (m y x))). set (Y := fun v u => (X v u * cr (g v u))%C).
  assert (E : csum h (fun y => csum w (fun x => idft2 h w Y y x)) = Y 0%Z 0%Z).
  { unfold idft2. set (c := cr (/ (IZR h * IZR w))).
    rewrite (csum_ext h _ (fun y => csum h (fun v => csum w (fun u => csum w (fun x => (c * (Y v u * turn h (y * v)) * turn w (x * u))%C))))).
    - rewrite csum_swap. rewrite (csum_ext h _ (fun v => if (v =? 0)%Z then Y v 0%Z else cr 0)); [apply (csum_one h 0 (fun v => Y v 0%Z)); lia|]. intros v Hv.
      rewrite (csum_ext h _ (fun y => csum w (fun u => if (u =? 0)%Z then (c * cr (IZR w) * Y v u * turn h (y * v))%C else cr 0))).
      + rewrite (csum_ext h _ (fun y => (c * cr (IZR w) * Y v 0%Z * turn h (y * v))%C)) by (intros y _; apply (csum_one w 0 (fun u => (c * cr (IZR w) * Y v u * turn h (y * v))%C)); lia).
        rewrite csum_mul, csum_turns by auto. rewrite Z.mod_small by lia. destruct (v =? 0)%Z eqn:E; [|ring].
        unfold c. replace (cr (/ (IZR h * IZR w)) * cr (IZR w) * Y v 0%Z * cr (IZR h))%C with (cr (/ (IZR h * IZR w) * IZR w * IZR h) * Y v 0%Z)%C by (rewrite !cr_mul; ring).
        replace (/ (IZR h * IZR w) * IZR w * IZR h) with 1 by (field; lra). ring.
      + intros y _. apply csum_ext. intros u Hu. rewrite csum_mul, csum_turns by auto. rewrite Z.mod_small by lia. destruct (u =? 0)%Z; ring.
    - intros y _. rewrite (csum_ext w _ (fun x => csum h (fun v => csum w (fun u => (c * (Y v u * turn h (y * v)) * turn w (x * u))%C)))).
      + rewrite csum_swap. apply csum_ext. intros v _. apply csum_swap.
      + intros x _. rewrite <- csum_mul. apply csum_ext. intros v _. rewrite <- csum_mul. apply csum_ext. intros u _. ring. }
  assert (T : forall f, total h w (fun y x => re (f y x)) = re (csum h (fun y => csum w (fun x => f y x)))).
  { intros f. unfold total. rewrite re_csum. apply sum_to_ext. intros y _. now rewrite re_csum. }
  change (total h w (fourier_filter h w g m)) with (total h w (fun y x => re (idft2 h w Y y x))). rewrite T, E. unfold Y, X.
  replace (total h w m) with (re (dft2 h w (fun y x => cr (m y x)) 0 0)).
  - unfold cmul, cr, re, im. cbn [fst snd]. ring.
  - unfold dft2. rewrite <- (T (fun y x => (cr (m y x) * (turn h (- (y * 0)) * turn w (- (x * 0))))%C)). apply sum_to_ext. intros y _. apply sum_to_ext. intros x _.
    replace (- (y * 0))%Z with 0%Z by lia. replace (- (x * 0))%Z with 0%Z by lia. rewrite !turn_0. unfold cmul, cr, re, im. cbn [fst snd]. ring.
Qed.

(** ** the filter *)
Lemma image_max_largest h w f m : (1 <= h)%Z -> (1 <= w)%Z -> largest h w f m -> image_max h w f = m.
Proof.
  intros Hh Hw ((i & j & Hi & Hj & E) & L). unfold image_max.
  assert (A : forall l x, x <= m -> (forall v, In v l -> v <= m) -> fold_right Rmax x l <= m).
  { induction l as [|v l IH]; intros x Hx Hl; cbn; auto. apply Rmax_lub; [apply Hl; now left|]. apply IH; auto. intros; apply Hl. now right. }
  assert (B : forall l x v, In v l -> v <= fold_right Rmax x l).
  { induction l as [|v l IH]; intros x v' Hin; cbn; [easy|]. destruct Hin as [<- | Hin]; [apply Rmax_l|]. apply Rle_trans with (fold_right Rmax x l); [now apply IH|apply Rmax_r]. }
  apply Rle_antisym.
  - apply A; [apply L; lia|]. intros v Hv. apply in_flat_map in Hv. destruct Hv as (i' & Hi' & Hv). apply in_map_iff in Hv. destruct Hv as (j' & <- & Hj').
    apply in_zrange in Hi', Hj'. apply L; lia.
  - apply B. apply in_flat_map. exists i. split; [apply in_zrange; lia|]. apply in_map_iff. exists j. split; auto. apply in_zrange; lia.
Qed.
Lemma shift_index n k : (1 < n)%Z -> (- ((n + 1) / 2) <= k < n / 2)%Z -> fftshift_index n (k mod n) = (k + (n + 1) / 2)%Z.
Proof.
  intros Hn Hk. unfold fftshift_index. rewrite Zminus_mod_idemp_l. symmetry. apply (Z.mod_unique _ _ (-1)); lia.
Qed.
Lemma coord_seen pix n k : (1 < n)%Z -> 0 < pix -> (- ((n + 1) / 2) <= k < n / 2)%Z ->
  reciprocal_coord pix n (fftshift_index n (k mod n)) = seen_frequency n pix k.
Proof.
  intros Hn Hp Hk. rewrite shift_index by auto. unfold reciprocal_coord, seen_frequency. cbv zeta.
  assert (N : IZR (n - 1) <> 0) by (apply not_0_IZR; lia).
  replace (- (n - 1) + 2 * (k + (n + 1) / 2))%Z with (2 * k + (if Z.even n then 1 else 2))%Z.
  - destruct (Z.even n); rewrite plus_IZR, mult_IZR; field; split; lra.
  - rewrite Zeven_mod. destruct (Zeq_bool (n mod 2) 0) eqn:E; [apply Zeq_bool_eq in E|apply Zeq_bool_neq in E]; lia.
Qed.
Lemma factor_denominator wd alpha a b : filter_factor wd alpha (Rsqr a + Rsqr b) = / denominator wd alpha a b.
Proof. unfold filter_factor, denominator, pi_phase, Rsqr. unfold Rdiv at 1. now rewrite Rmult_1_l. Qed.
Lemma denominator_mono wd alpha a b c d : 0 <= wd -> 0 < alpha -> a * a <= c * c -> b * b <= d * d -> 0 < denominator wd alpha a b <= denominator wd alpha c d.
Proof.
  intros Hw Ha H1 H2. unfold denominator. assert (P : 0 < / (4 * (314159265359 / 100000000000))) by (apply Rinv_0_lt_compat; lra).
  assert (0 <= wd * (a * a + b * b)) by nra. assert (wd * (a * a + b * b) <= wd * (c * c + d * d)) by nra. unfold Rdiv at 1 2 4. split; nra.
Qed.
Lemma filter_seen pix wd alpha h w k l : (1 < h)%Z -> (1 < w)%Z -> 0 < pix -> (- ((h + 1) / 2) <= k < h / 2)%Z -> (- ((w + 1) / 2) <= l < w / 2)%Z ->
  phase_filter pix wd alpha h w (k mod h) (l mod w) = / denominator wd alpha (seen_frequency h pix k) (seen_frequency w pix l).
Proof. intros Hh Hw Hp Hk Hl. unfold phase_filter, reciprocal_grid. rewrite !coord_seen by auto. apply factor_denominator. Qed.
Lemma index_of n i : (1 < n)%Z -> (0 <= i < n)%Z -> exists k, (- ((n + 1) / 2) <= k < n / 2)%Z /\ i = (k mod n)%Z.
Proof.
  intros Hn Hi. destruct (Z_lt_le_dec i (n / 2)) as [L|L].
  - exists i. split; [lia|]. now rewrite Z.mod_small.
  - exists (i - n)%Z. split; [lia|]. apply (Z.mod_unique _ _ (-1)); lia.
Qed.
Definition lowest_index (n : Z) : Z := if Z.even n then 0 else (-1).
Lemma lowest_seen n pix : (1 < n)%Z -> 0 < pix -> (- ((n + 1) / 2) <= lowest_index n < n / 2)%Z /\ seen_frequency n pix (lowest_index n) = lowest n pix.
Proof.
  intros Hn Hp. assert (N : IZR (n - 1) <> 0) by (apply not_0_IZR; lia). unfold lowest_index, seen_frequency, lowest. destruct (Z.even n); split; try lia; field; split; lra.
Qed.
Lemma lowest_le n pix k : (1 < n)%Z -> 0 < pix -> lowest n pix * lowest n pix <= seen_frequency n pix k * seen_frequency n pix k.
Proof.
  intros Hn Hp. unfold lowest, seen_frequency.
  assert (N : 0 < / (IZR (n - 1) * pix)) by (apply Rinv_0_lt_compat; apply Rmult_lt_0_compat; [apply IZR_lt; lia|auto]).
  assert (S : forall u v q, u * u <= v * v -> u * q * (u * q) <= v * q * (v * q)).
  { intros u v q H. replace (u * q * (u * q)) with (u * u * (q * q)) by ring. replace (v * q * (v * q)) with (v * v * (q * q)) by ring.
    apply Rmult_le_compat_r; auto. nra. }
  destruct (Z.even n).
  - apply (S (1 / 2) (IZR k + 1 / 2)). destruct (Z_le_gt_dec 0 k) as [L|L]; [apply IZR_le in L|assert (L' : (k <= -1)%Z) by lia; apply IZR_le in L']; nra.
  - pose proof (Rle_0_sqr ((IZR k + 1) / (IZR (n - 1) * pix))) as H. unfold Rsqr in H. lra.
Qed.
Lemma filter_largest pix wd alpha h w : (1 < h)%Z -> (1 < w)%Z -> 0 < pix -> 0 <= wd -> 0 < alpha ->
  image_max h w (phase_filter pix wd alpha h w) = / denominator wd alpha (lowest h pix) (lowest w pix).
Proof.
  intros Hh Hw Hp Hwd Ha. apply image_max_largest; try lia. destruct (lowest_seen h pix Hh Hp) as (A & A'). destruct (lowest_seen w pix Hw Hp) as (B & B'). split.
  - exists (lowest_index h mod h)%Z, (lowest_index w mod w)%Z. split; [apply Z.mod_pos_bound; lia|]. split; [apply Z.mod_pos_bound; lia|].
    rewrite filter_seen by auto. now rewrite A', B'.
  - intros i j Hi Hj. destruct (index_of h i Hh Hi) as (k & Hk & ->). destruct (index_of w j Hw Hj) as (l & Hl & ->). rewrite filter_seen by auto.
    apply Rinv_le_contravar; apply (denominator_mono wd alpha (lowest h pix) (lowest w pix) (seen_frequency h pix k) (seen_frequency w pix l)); auto; now apply lowest_le.
Qed.
Lemma normalised_response pix dist energy alpha h w k l : (1 < h)%Z -> (1 < w)%Z -> 0 < pix -> 0 <= wavelength energy * dist -> 0 < alpha ->
  (- ((h + 1) / 2) <= k < h / 2)%Z -> (- ((w + 1) / 2) <= l < w / 2)%Z ->
  normalised_filter pix dist energy alpha h w (k mod h) (l mod w) = response (wavelength energy * dist) alpha pix h w k l.
Proof.
  intros Hh Hw Hp Hwd Ha Hk Hl. unfold normalised_filter, response. cbv zeta. rewrite filter_largest, filter_seen by auto.
  pose proof (denominator_mono (wavelength energy * dist) alpha (lowest h pix) (lowest w pix) (seen_frequency h pix k) (seen_frequency w pix l) Hwd Ha
    (lowest_le h pix k Hh Hp) (lowest_le w pix l Hw Hp)). field. lra.
Qed.
Lemma response_bounds wd alpha pix h w k l : (1 < h)%Z -> (1 < w)%Z -> 0 < pix -> 0 <= wd -> 0 < alpha -> 0 < response wd alpha pix h w k l <= 1.
Proof.
  intros Hh Hw Hp Hwd Ha. unfold response.
  pose proof (denominator_mono wd alpha (lowest h pix) (lowest w pix) (seen_frequency h pix k) (seen_frequency w pix l) Hwd Ha
    (lowest_le h pix k Hh Hp) (lowest_le w pix l Hw Hp)). split; [apply Rdiv_lt_0_compat; lra|]. apply Rmult_le_reg_r with (denominator wd alpha (seen_frequency h pix k) (seen_frequency w pix l)); [lra|].
  unfold Rdiv. rewrite Rmult_assoc, Rinv_l by lra. lra.
Qed.

(** ** inversion *)
Lemma inversion n a j : (0 <= j < n)%Z ->
  csum n (fun k => (csum n (fun l => a l * turn n (- (l * k))) * turn n (j * k))%C) = (cr (IZR n) * a j)%C.
Proof.
  intros Hj. rewrite (csum_ext n _ (fun k => csum n (fun l => (a l * turn n (k * (j - l)))%C))).
  - rewrite csum_swap. rewrite (csum_ext n _ (fun l => if (l =? j)%Z then (cr (IZR n) * a l)%C else cr 0)); [now apply (csum_one n j (fun l => (cr (IZR n) * a l)%C))|].
    intros l Hl. rewrite csum_mul, csum_turns by lia. destruct (Z.eqb_spec l j) as [->|N].
    + rewrite Z.sub_diag, Z.mod_0_l by lia. cbn [Z.eqb]. ring.
    + destruct (Z.eqb_spec ((j - l) mod n) 0) as [M|M]; [|ring]. exfalso. apply Z.mod_divide in M; [|lia]. destruct M as (q & M).
      assert (q = 0 \/ 1 <= q \/ q <= -1)%Z as [-> | [|]] by lia; nia.
  - intros k _. rewrite <- csum_mul_r. apply csum_ext. intros l _. replace (k * (j - l))%Z with (- (l * k) + j * k)%Z by lia. rewrite turn_add. ring.
Qed.
Lemma inversion2 h w m y x : (0 <= y < h)%Z -> (0 <= x < w)%Z -> idft2 h w (dft2 h w m) y x = m y x.
Proof.
  intros Hy Hx. unfold idft2. assert (HRh : IZR h <> 0) by (apply not_0_IZR; lia). assert (HRw : IZR w <> 0) by (apply not_0_IZR; lia).
  rewrite (csum_ext h _ (fun v => (cr (IZR w) * (csum h (fun y => m y x * turn h (- (y * v))) * turn h (y * v)))%C)).
  - rewrite csum_mul, (inversion h (fun y => m y x)) by auto.
    replace (cr (/ (IZR h * IZR w)) * (cr (IZR w) * (cr (IZR h) * m y x)))%C with (cr (/ (IZR h * IZR w) * (IZR w * IZR h)) * m y x)%C by (rewrite !cr_mul; ring).
    replace (/ (IZR h * IZR w) * (IZR w * IZR h)) with 1 by (field; auto). ring.
  - intros v _.
    rewrite (csum_ext w _ (fun u => (turn h (y * v) * (csum w (fun x => csum h (fun y => m y x * turn h (- (y * v))) * turn w (- (x * u))) * turn w (x * u)))%C)).
    + rewrite csum_mul, (inversion w (fun x => csum h (fun y => (m y x * turn h (- (y * v)))%C))) by auto. ring.
    + intros u _. unfold dft2. rewrite csum_swap. rewrite (csum_ext w _ (fun x => (csum h (fun y => m y x * turn h (- (y * v))) * turn w (- (x * u)))%C)); [ring|].
      intros x' _. rewrite <- csum_mul_r. apply csum_ext. intros y' _. ring.
Qed.
Lemma fourier_filter_one h w g m y x : (0 <= y < h)%Z -> (0 <= x < w)%Z -> (forall v u, (0 <= v < h)%Z -> (0 <= u < w)%Z -> g v u = 1) -> fourier_filter h w g m y x = m y x.
Proof.
  intros Hy Hx Hg. unfold fourier_filter. replace (m y x) with (re (idft2 h w (dft2 h w (fun y x => cr (m y x))) y x)) by (now rewrite inversion2).
  f_equal. unfold idft2. f_equal. apply csum_ext. intros v Hv. apply csum_ext. intros u Hu. rewrite Hg by auto. ring.
Qed.
