From Verif Require Import Base CLoop Cplx Model_Prep Model_Solver Model_Gridrec Proofs_Ring Spec_Gridrec Proofs_Gridrec.
From Coq Require Import Reals Lra Permutation QArith Qreals.
Local Open Scope R_scope.

(** ** the image as a function of the projections *)
Section Image.
  Variables (n dt dx : Z) (window : Z -> R).
  Hypothesis Hn : (1 <= n)%Z.
  Local Notation img := (image n dt dx window).
  Local Notation smp := (sample n dt dx window).
  Local Notation spc := (spectrum n dt dx).

  Lemma image_samples f1 f2 t1 t2 c1 c2 d1 d2 a b :
    (forall p j, (0 <= p < dt)%Z -> (1 <= j < n / 2)%Z -> smp f1 t1 c1 d1 p j a b = smp f2 t2 c2 d2 p j a b) -> img f1 t1 c1 d1 a b = img f2 t2 c2 d2 a b.
  Proof.
    intros H. unfold image. f_equal. apply csum_ext. intros p Hp. apply csum_ext. intros j Hj. f_equal. apply H; lia.
  Qed.
  Lemma sample_spectrum f t c1 c2 d1 d2 p j a b : spc f c1 d1 p j = spc f c2 d2 p j -> smp f t c1 d1 p j a b = smp f t c2 d2 p j a b.
  Proof. unfold sample. fold (spc f c1 d1 p j) (spc f c2 d2 p j). now intros ->. Qed.
  Lemma spectrum_ext f c d1 d2 p j : (forall k, (0 <= k < dx)%Z -> d1 p k = d2 p k) -> spc f c d1 p j = spc f c d2 p j.
  Proof. intros H. unfold spectrum. f_equal. apply csum_ext. intros k Hk. now rewrite H. Qed.
  Lemma image_ext f t c d1 d2 a b : (forall p k, (0 <= p < dt)%Z -> (0 <= k < dx)%Z -> d1 p k = d2 p k) -> img f t c d1 a b = img f t c d2 a b.
  Proof. intros H. apply image_samples. intros p j Hp Hj. apply sample_spectrum, spectrum_ext. intros k Hk. now apply H. Qed.

  Lemma spectrum_lin f c al be d1 d2 p j :
    spc f c (fun p k => al * d1 p k + be * d2 p k) p j = (cr al * spc f c d1 p j + cr be * spc f c d2 p j)%C.
  Proof.
    unfold spectrum.
    rewrite (csum_ext dx _ (fun k => (cr al * (cr (d1 p k) * expi (2 * PI * IZR j * (IZR k - c) / IZR n)) + cr be * (cr (d2 p k) * expi (2 * PI * IZR j * (IZR k - c) / IZR n)))%C)).
    - rewrite csum_add, !csum_mul. ring.
    - intros k _. rewrite cr_add, !cr_mul. ring.
  Qed.
  Lemma sample_lin f t c al be d1 d2 p j a b :
    smp f t c (fun p k => al * d1 p k + be * d2 p k) p j a b = al * smp f t c d1 p j a b + be * smp f t c d2 p j a b.
  Proof.
    unfold sample. fold (spc f c (fun p k => al * d1 p k + be * d2 p k) p j) (spc f c d1 p j) (spc f c d2 p j).
    rewrite spectrum_lin. unfold cadd, cmul, cr, re, im. cbn [fst snd]. ring.
  Qed.
  Lemma image_lin f t c al be d1 d2 a b :
    img f t c (fun p k => al * d1 p k + be * d2 p k) a b = al * img f t c d1 a b + be * img f t c d2 a b.
  Proof.
    unfold image.
    rewrite (csum_ext dt _ (fun p => (cr al * csum (n / 2 - 1) (fun j => cr (smp f t c d1 p (j + 1)%Z a b)) + cr be * csum (n / 2 - 1) (fun j => cr (smp f t c d2 p (j + 1)%Z a b)))%C)).
    - rewrite csum_add, !csum_mul. unfold cadd, cmul, cr, re, im. cbn [fst snd]. ring.
    - intros p _. rewrite <- !csum_mul, <- csum_add. apply csum_ext. intros j _. fold (smp f t c (fun p k => al * d1 p k + be * d2 p k) p (j + 1)%Z a b).
      rewrite sample_lin, cr_add, !cr_mul. reflexivity.
  Qed.
  Lemma image_null f t c d a b : (forall p j, (0 <= p < dt)%Z -> (1 <= j < n / 2)%Z -> spc f c d p j = cr 0) -> img f t c d a b = 0.
  Proof.
    intros H. unfold image. rewrite csum_zero; [reflexivity|]. intros p Hp. apply csum_zero. intros j Hj. unfold sample.
    fold (spc f c d p (j + 1)). rewrite H by lia. unfold cmul, cr, re, im. cbn [fst snd]. f_equal. ring.
  Qed.

  Lemma spectrum_const f c (z : Z -> R) p j : n = dx -> (1 <= j < n)%Z -> spc f c (fun p _ => z p) p j = cr 0.
  Proof.
    intros E Hj. unfold spectrum. rewrite <- E.
    rewrite (csum_ext n _ (fun k => (cr (z p) * expi (- (2 * PI * IZR j * c / IZR n)) * turn n (k * j))%C)).
    - rewrite csum_mul, csum_turn by lia. ring.
    - intros k _. unfold turn. rewrite <- (f_equal (fun x => (cr (z p) * x)%C) (expi_add (- (2 * PI * IZR j * c / IZR n)) (2 * PI * IZR (k * j) / IZR n))) || idtac.
      assert (X : expi (2 * PI * IZR j * (IZR k - c) / IZR n) = (expi (- (2 * PI * IZR j * c / IZR n)) * expi (2 * PI * IZR (k * j) / IZR n))%C).
      { rewrite <- expi_add. f_equal. rewrite mult_IZR. unfold Rdiv. ring. }
      rewrite X. ring.
  Qed.

  Lemma spectrum_mirror f c d p j : 2 * c = IZR (dx - 1) -> spc f c (fun p k => d p (dx - 1 - k)%Z) p j = conj (spc f c d p j).
  Proof.
    intros Hc. unfold spectrum. rewrite conj_mul, conj_cr. f_equal. rewrite csum_conj, csum_rev. apply csum_ext. intros k _.
    rewrite conj_mul, conj_cr, conj_expi. replace (dx - 1 - (dx - 1 - k))%Z with k by lia. do 2 f_equal.
    rewrite minus_IZR, <- Hc. unfold Rdiv. ring.
  Qed.
  Lemma wave_mirror u a : wave n window (IZR n - u) a = conj (wave n window u a).
  Proof.
    rewrite <- (wave_conj n window Hn). unfold wave. apply csum_ext. intros i Hi. do 2 f_equal. unfold weight.
    replace (IZR n - u - IZR i) with (- (u - IZR (n - i))) by (rewrite minus_IZR; ring). rewrite Rabs_Ropp.
    destruct ((1 <=? i)%Z && (i <? n)%Z) eqn:E1, ((1 <=? n - i)%Z && (n - i <? n)%Z) eqn:E2; auto; lia.
  Qed.
  Lemma sample_mirror f t t' c d p j a b : Z.even n = true -> 2 * c = IZR (dx - 1) -> cos (t' p) = - cos (t p) -> sin (t' p) = - sin (t p) ->
    smp f t' c (fun p k => d p (dx - 1 - k)%Z) p j a b = smp f t c d p j a b.
  Proof.
    intros He Hc H1 H2. unfold sample. fold (spc f c (fun p k => d p (dx - 1 - k)%Z) p j) (spc f c d p j).
    rewrite spectrum_mirror by auto. rewrite H1, H2.
    assert (E : IZR n = 2 * IZR (n / 2)) by (rewrite <- mult_IZR; f_equal; apply Z.even_spec in He; destruct He as [m ->]; lia).
    replace (IZR j * - cos (t p) + IZR (n / 2)) with (IZR n - (IZR j * cos (t p) + IZR (n / 2))) by lra.
    replace (IZR j * - sin (t p) + IZR (n / 2)) with (IZR n - (IZR j * sin (t p) + IZR (n / 2))) by lra.
    rewrite !wave_mirror. rewrite <- !conj_mul. reflexivity.
  Qed.

  Lemma csum_shift m f : (0 <= m <= dx)%Z -> (forall k, (0 <= k < m)%Z -> f k = cr 0) -> csum dx f = csum (dx - m) (fun k => f (k + m)%Z).
  Proof.
    intros H Hf. replace m with (Z.of_nat (Z.to_nat m)) in * by lia. revert H Hf. generalize (Z.to_nat m). intros q. induction q as [|q IH]; intros H Hf.
    - replace (dx - Z.of_nat 0)%Z with dx by lia. apply csum_ext. intros k _. f_equal. lia.
    - rewrite IH by (lia || (intros k Hk; apply Hf; lia)). replace (dx - Z.of_nat q)%Z with (dx - Z.of_nat (S q) + 1)%Z by lia.
      rewrite csum_first by lia. rewrite (Hf (0 + Z.of_nat q)%Z) by lia.
      rewrite (csum_ext _ (fun i => f (i + 1 + Z.of_nat q)%Z) (fun i => f (i + Z.of_nat (S q))%Z)) by (intros i _; f_equal; lia). ring.
  Qed.
  Lemma spectrum_shift f c d1 d2 m p j : (0 <= m <= dx)%Z -> (forall k, (0 <= k < dx - m)%Z -> d2 p (k + m)%Z = d1 p k) ->
    (forall k, (dx - m <= k < dx)%Z -> d1 p k = 0) -> (forall k, (0 <= k < m)%Z -> d2 p k = 0) -> spc f (c + IZR m) d2 p j = spc f c d1 p j.
  Proof.
    intros Hm H1 H2 H3. unfold spectrum. f_equal. symmetry. rewrite (csum_tail dx (dx - m)) by (lia || (intros k Hk; rewrite H2 by lia; ring)).
    symmetry. rewrite (csum_shift m) by (auto || (intros k Hk; rewrite H3 by lia; ring)). apply csum_ext. intros k Hk. rewrite H1 by auto. do 2 f_equal.
    rewrite plus_IZR. unfold Rdiv. ring.
  Qed.

  Lemma csum_perm (g : Z -> cplx) sg : Permutation (map sg (zrange 0 dt)) (zrange 0 dt) -> csum dt (fun p => g (sg p)) = csum dt g.
  Proof.
    intros H. unfold csum. rewrite <- (map_map sg g). apply (Permutation_map g) in H. induction H as [|x l l' H IH|x y l|l l' l'' _ IH1 _ IH2]; auto.
    - cbn. now rewrite IH.
    - cbn. ring.
    - congruence.
  Qed.
  Lemma image_perm f t c d sg a b : Permutation (map sg (zrange 0 dt)) (zrange 0 dt) ->
    img (fun p => f (sg p)) (fun p => t (sg p)) c (fun p => d (sg p)) a b = img f t c d a b.
  Proof. intros H. unfold image. f_equal. exact (csum_perm (fun p => csum (n / 2 - 1) (fun j => cr (smp f t c d p (j + 1)%Z a b))) sg H). Qed.
End Image.

(** ** the window: Legendre polynomials *)
Lemma pair_legendre n x : legendre_pair n x = (legendre_p n x, legendre_p (S n) x).
Proof. unfold legendre_p. cbn [legendre_pair]. destruct (legendre_pair n x) as [p q]. reflexivity. Qed.
Lemma legendre_next n x : legendre_p (S (S n)) x = ((2 * INR n + 3) * x * legendre_p (S n) x - (INR n + 1) * legendre_p n x) / (INR n + 2).
Proof. unfold legendre_p at 1. cbn [legendre_pair]. rewrite pair_legendre. reflexivity. Qed.
Definition psum (n : Z) (f : Z -> R) : R := fold_right Rplus 0 (map f (zrange 0 n)).
Lemma fold_plus l z : fold_right Rplus z l = fold_right Rplus 0 l + z.
Proof. induction l as [|a l IH]; cbn; [ring|]. rewrite IH. ring. Qed.
Lemma psum_S n f : (0 <= n)%Z -> psum (n + 1) f = psum n f + f n.
Proof. intros H. unfold psum. rewrite zrange_snoc by lia. rewrite map_app, fold_right_app. cbn. rewrite fold_plus. ring. Qed.
Lemma legendre_spec n coefs x : (1 <= n)%Z -> legendre n coefs x = psum (n / 2 + 1) (fun k => coefs k * legendre_p (Z.to_nat (2 * k)) x).
Proof.
  intros Hn. unfold legendre.
  pose (P := fun (q : Z) (st : R * R * R) => st = (psum ((q - 1) / 2 + 1) (fun k => coefs k * legendre_p (Z.to_nat (2 * k)) x),
     legendre_p (Z.to_nat (q - 2)) x, legendre_p (Z.to_nat (q - 1)) x)).
  match goal with |- fst (fst ?t) = _ => assert (HP : P (n + 1)%Z t) end.
  { apply (for_range_ind P); [lia| |].
    - unfold P. change ((2 - 1) / 2 + 1)%Z with 1%Z. unfold psum. change (zrange 0 1) with [0%Z]. cbn [map fold_right]. unfold legendre_p. f_equal. f_equal. change (Z.to_nat (2 * 0)) with 0%nat. cbn. ring.
    - intros j st Hj ->. unfold P, legendre_step.
      set (m := Z.to_nat (j - 2)). replace (Z.to_nat (j - 1)) with (S m) by lia. replace (Z.to_nat (j + 1 - 2)) with (S m) by lia.
      replace (Z.to_nat (j + 1 - 1)) with (S (S m)) by lia.
      assert (Hj2 : IZR j = INR m + 2) by (rewrite INR_IZR_INZ; unfold m; rewrite Z2Nat.id by lia; rewrite minus_IZR; ring).
      assert (Hm : 0 <= INR m) by apply pos_INR.
      assert (E : - (2 * - (x * legendre_p (S m) x) + legendre_p m x) + (legendre_p m x + - (x * legendre_p (S m) x)) / IZR j = legendre_p (S (S m)) x).
      { rewrite legendre_next, Hj2. field. lra. }
      rewrite E. replace (j + 1 - 1)%Z with j by lia. destruct (Z.even j) eqn:Ev.
      + apply Z.even_spec in Ev. destruct Ev as [h Eh]. replace (j / 2)%Z with h by lia. replace ((j - 1) / 2 + 1)%Z with h by lia.
        rewrite psum_S by lia. replace (Z.to_nat (2 * h)) with (S (S m)) by lia. f_equal. f_equal. ring.
      + rewrite <- Z.negb_odd in Ev. apply negb_false_iff, Z.odd_spec in Ev. destruct Ev as [h Eh]. replace ((j - 1) / 2)%Z with (j / 2)%Z by lia. reflexivity. }
  rewrite HP. cbn [fst]. now replace (n + 1 - 1)%Z with n by lia.
Qed.

(** *** the window in rational arithmetic *)
Definition qstep (x : Q) (j : Z) (st : Q * Q * Q) : Q * Q * Q :=
  let '(y, penult, last) := st in
  let mxlast := Qopp (Qmult x last) in
  let cur := Qred (Qplus (Qopp (Qplus (Qmult (2 # 1) mxlast) penult)) (Qmult (Qplus penult mxlast) (1 # Z.to_pos j))) in
  ((if Z.even j then Qred (Qplus y (Qmult cur (nth (Z.to_nat (j / 2)) coefs_q 0%Q))) else y), last, cur).
Definition qlegendre (x : Q) : Q := fst (fst (fold_left (fun s j => qstep x j s) (zrange 2 21) (nth 0 coefs_q 0%Q, 1%Q, x))).
Lemma Q2R_red q : Q2R (Qred q) = Q2R q. Proof. apply Qeq_eqR, Qred_correct. Qed.
Lemma Q2R_pos1 j : (1 <= j)%Z -> Q2R (1 # Z.to_pos j) = / IZR j.
Proof. intros H. unfold Q2R. cbn [Qnum Qden]. rewrite Z2Pos.id by lia. lra. Qed.
Lemma qlegendre_spec x : Q2R (qlegendre x) = legendre nt pswf_coefs (Q2R x).
Proof.
  unfold legendre, qlegendre, for_range. change (nt + 1)%Z with 21%Z.
  pose (r3 := fun st : Q * Q * Q => let '(a, b, c) := st in (Q2R a, Q2R b, Q2R c)).
  assert (G : forall l st, (forall j, In j l -> (2 <= j)%Z) -> r3 (fold_left (fun s j => qstep x j s) l st) = fold_left (fun s j => legendre_step pswf_coefs (Q2R x) j s) l (r3 st)).
  { induction l as [|j l IH]; intros st Hl; [reflexivity|]. cbn [fold_left]. rewrite IH by (intros; apply Hl; now right). f_equal.
    assert (Hj : (2 <= j)%Z) by (apply Hl; now left).
    destruct st as [[y p] q]. unfold qstep, legendre_step, r3.
    assert (E : Q2R (Qred (Qplus (Qopp (Qplus (Qmult (2 # 1) (Qopp (Qmult x q))) p)) (Qmult (Qplus p (Qopp (Qmult x q))) (1 # Z.to_pos j)))) =
       - (2 * - (Q2R x * Q2R q) + Q2R p) + (Q2R p + - (Q2R x * Q2R q)) / IZR j).
    { rewrite Q2R_red, !Q2R_plus, !Q2R_opp, !Q2R_plus, !Q2R_mult, !Q2R_plus, !Q2R_opp, !Q2R_mult, Q2R_pos1 by lia.
      replace (Q2R (2 # 1)) with 2 by (unfold Q2R; cbn; lra). unfold Rdiv. ring. }
    rewrite <- E. destruct (Z.even j); [|reflexivity]. rewrite Q2R_red, Q2R_plus, Q2R_mult. reflexivity. }
  specialize (G (zrange 2 21) (nth 0 coefs_q 0%Q, 1%Q, x) ltac:(intros j Hj; apply in_zrange in Hj; lia)).
  assert (E0 : r3 (nth 0 coefs_q 0%Q, 1%Q, x) = (pswf_coefs 0, 1, Q2R x)) by (unfold r3, pswf_coefs; cbn; repeat f_equal; unfold Q2R; cbn; lra).
  rewrite E0 in G. rewrite <- G. destruct (fold_left _ (zrange 2 21) _) as [[a b] c]. reflexivity.
Qed.
