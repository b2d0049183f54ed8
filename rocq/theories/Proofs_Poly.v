(** Polynomials with rational coefficients, and the window of gridrec as one. *)
From Verif Require Import Base Model_Gridrec Proofs_Gridrec Proofs_Gridimg Spec_Gridrec.
From Coq Require Import QArith Qreals Qabs Reals Lra.
Local Open Scope R_scope.

(** ** polynomials: lists of coefficients, the constant first *)
Definition poly := list Q.
Fixpoint pe (p : poly) (x : R) : R := match p with [] => 0 | a :: p => Q2R a + x * pe p x end.
Fixpoint padd (p q : poly) : poly :=
  match p, q with [], _ => q | _, [] => p | a :: p, b :: q => Qred (a + b) :: padd p q end.
Definition pscale (k : Q) (p : poly) : poly := map (fun a => Qred (k * a)) p.
Definition pshift (p : poly) : poly := 0%Q :: p.
Fixpoint pderiv (p : poly) : poly := match p with [] => [] | a :: p => padd p (pshift (pderiv p)) end.

Lemma q2r_red a : Q2R (Qred a) = Q2R a. Proof. apply Qeq_eqR, Qred_correct. Qed.
Lemma pe_add p q x : pe (padd p q) x = pe p x + pe q x.
Proof.
  revert q. induction p as [|a p IH]; intros q; [cbn; ring|]. destruct q as [|b q]; [cbn; ring|].
  cbn [padd pe]. rewrite IH, q2r_red, Q2R_plus. ring.
Qed.
Lemma pe_scale k p x : pe (pscale k p) x = Q2R k * pe p x.
Proof. induction p as [|a p IH]; cbn [pscale map pe]; [ring|]. unfold pscale in IH. rewrite IH, q2r_red, Q2R_mult. ring. Qed.
Lemma pe_shift p x : pe (pshift p) x = x * pe p x.
Proof. unfold pshift. cbn [pe]. rewrite RMicromega.Q2R_0. ring. Qed.
Lemma pe_deriv p x : derivable_pt_lim (pe p) x (pe (pderiv p) x).
Proof.
  induction p as [|a p IH]; cbn [pe pderiv].
  - apply derivable_pt_lim_const.
  - rewrite pe_add, pe_shift. replace (pe p x + x * pe (pderiv p) x) with (0 + (1 * pe p x + x * pe (pderiv p) x)) by ring.
    apply (derivable_pt_lim_plus (fct_cte (Q2R a)) (mult_fct id (pe p))); [apply derivable_pt_lim_const|].
    apply (derivable_pt_lim_mult id (pe p)); [apply derivable_pt_lim_id|exact IH].
Qed.

(** equality up to trailing zeros *)
Fixpoint pzero (p : poly) : bool := match p with [] => true | a :: p => Qeq_bool a 0 && pzero p end.
Definition peq (p q : poly) : bool := pzero (padd p (pscale (-1) q)).
Lemma pzero_sound p x : pzero p = true -> pe p x = 0.
Proof.
  induction p as [|a p IH]; cbn; auto. intros H. apply andb_true_iff in H as [H1 H2].
  apply Qeq_bool_eq, Qeq_eqR in H1. rewrite H1, (IH H2), RMicromega.Q2R_0. ring.
Qed.
Lemma peq_sound p q x : peq p q = true -> pe p x = pe q x.
Proof.
  intros H. apply (pzero_sound _ x) in H. rewrite pe_add, pe_scale in H.
  replace (Q2R (-1)) with (-1) in H by (unfold Q2R; cbn; lra). lra.
Qed.

(** ** a bound on [0, 1]: the coefficients as a form in x and 1 - x *)
Fixpoint he (h : poly) (y z : R) : R := match h with [] => 0 | a :: h => Q2R a * z ^ length h + y * he h y z end.
Definition pmul1 (p : poly) : poly := padd p (pscale (-1) (pshift p)).           (* times 1 - x *)
Fixpoint expand (h : poly) : poly :=
  match h with [] => [] | a :: h => padd (pscale a (Nat.iter (length h) pmul1 [1%Q])) (pshift (expand h)) end.
Lemma pe_iter n y : pe (Nat.iter n pmul1 [1%Q]) y = (1 - y) ^ n.
Proof.
  induction n; cbn [Nat.iter nat_rect pow].
  - cbn. rewrite RMicromega.Q2R_1. ring.
  - change (pe (pmul1 (Nat.iter n pmul1 [1%Q])) y = (1 - y) * (1 - y) ^ n). unfold pmul1 at 1.
    rewrite pe_add, pe_scale, pe_shift, IHn. replace (Q2R (-1)) with (-1) by (unfold Q2R; cbn; lra). ring.
Qed.
Lemma expand_spec h y : pe (expand h) y = he h y (1 - y).
Proof. induction h as [|a h IH]; cbn [expand he]; auto. now rewrite pe_add, pe_scale, pe_shift, pe_iter, IH. Qed.
Fixpoint below (m : Q) (h row : poly) : bool :=
  match h, row with
  | [], [] => true
  | a :: h, b :: row => Qle_bool (Qabs a) (m * b) && below m h row
  | _, _ => false
  end.
Lemma below_sound m h row y z : below m h row = true -> 0 <= y -> 0 <= z -> Rabs (he h y z) <= Q2R m * he row y z.
Proof.
  intros H Hy Hz. revert row H. induction h as [|a h IH]; intros [|b row]; cbn [below he]; try discriminate.
  - intros _. rewrite Rabs_R0. lra.
  - intros H. apply andb_true_iff in H as [H1 H2]. apply Qle_bool_iff in H1.
    assert (E : length h = length row).
    { clear - H2. revert row H2. induction h as [|a h IH]; intros [|b row]; cbn; try discriminate; auto.
      intros H. apply andb_true_iff in H as [_ H]. f_equal. auto. }
    specialize (IH _ H2). rewrite E. pose proof (pow_le z (length row) Hz) as P.
    assert (A : Rabs (Q2R a) <= Q2R m * Q2R b).
    { rewrite <- Q2R_mult. apply Rabs_le. split.
      - rewrite <- Q2R_opp. apply Qle_Rle. apply Qle_trans with (- Qabs a)%Q; [now apply Qopp_le_compat|].
        rewrite <- (Qopp_involutive a) at 2. apply Qopp_le_compat. rewrite <- Qabs_opp. apply Qle_Qabs.
      - apply Qle_Rle. apply Qle_trans with (Qabs a); auto. apply Qle_Qabs. }
    eapply Rle_trans; [apply Rabs_triang|]. rewrite !Rabs_mult, (Rabs_pos_eq y Hy), (Rabs_pos_eq (z ^ length row) P).
    apply (Rmult_le_compat_r _ _ _ P) in A. apply (Rmult_le_compat_l _ _ _ Hy) in IH. lra.
Qed.
Lemma bound_sound m p h row y : peq (expand h) p = true -> peq (expand row) [1%Q] = true -> below m h row = true ->
  0 <= y <= 1 -> Rabs (pe p y) <= Q2R m.
Proof.
  intros H1 H2 H3 Hy. rewrite <- (peq_sound _ _ y H1), expand_spec.
  eapply Rle_trans; [apply (below_sound m h row); auto; lra|].
  rewrite <- expand_spec, (peq_sound _ _ y H2). cbn [pe]. rewrite RMicromega.Q2R_1. lra.
Qed.
(** such a form (not trusted: its expansion is compared) *)
Fixpoint pascal (n : nat) : poly := match n with O => [1%Q] | S n => padd (pascal n) (pshift (pascal n)) end.
Fixpoint form (p : poly) : poly := match p with [] => [] | a :: q => padd (pscale a (pascal (length q))) (pshift (form q)) end.

(** ** even polynomials *)
Fixpoint halves (p : poly) : poly * poly := match p with [] => ([], []) | a :: p => let '(e, o) := halves p in (a :: o, e) end.
Lemma halves_spec p x : pe p x = pe (fst (halves p)) (x * x) + x * pe (snd (halves p)) (x * x).
Proof. induction p as [|a p IH]; cbn [halves pe]; [cbn; ring|]. destruct (halves p) as [e o]. cbn [fst snd pe] in *. rewrite IH. ring. Qed.

(** ** the window as a polynomial *)
Definition window_sum (x : R) : R := psum 11 (fun k => pswf_coefs k * legendre_p (Z.to_nat (2 * k)) x).
Lemma window_legendre x : legendre nt pswf_coefs x = window_sum x.
Proof. rewrite legendre_spec by (unfold nt; lia). reflexivity. Qed.

Fixpoint legendre_pairs (n : nat) : poly * poly :=
  match n with
  | O => ([1%Q], [0%Q; 1%Q])
  | S n => let '(p, q) := legendre_pairs n in
           let k := inject_Z (Z.of_nat n) in
           (q, padd (pscale ((2 * k + 3) / (k + 2)) (pshift q)) (pscale (- (k + 1) / (k + 2)) p))
  end.
Lemma q2r_nat n : Q2R (inject_Z (Z.of_nat n)) = INR n.
Proof. unfold Q2R, inject_Z. cbn [Qnum Qden]. rewrite INR_IZR_INZ. lra. Qed.
Lemma legendre_pairs_spec n x : pe (fst (legendre_pairs n)) x = legendre_p n x /\ pe (snd (legendre_pairs n)) x = legendre_p (S n) x.
Proof.
  induction n as [|n [IH1 IH2]].
  - unfold legendre_p. cbn. rewrite RMicromega.Q2R_0, RMicromega.Q2R_1. split; ring.
  - cbn [legendre_pairs]. destruct (legendre_pairs n) as [p q]. cbn [fst snd] in *. split; [exact IH2|].
    rewrite legendre_next, pe_add, !pe_scale, pe_shift, IH1, IH2. pose proof (pos_INR n) as P.
    assert (N : ~ (inject_Z (Z.of_nat n) + 2 == 0)%Q).
    { intros N. apply Qeq_eqR in N. rewrite Q2R_plus, q2r_nat in N. unfold Q2R in N. cbn in N. lra. }
    rewrite !Q2R_div by auto. rewrite Q2R_opp, !Q2R_plus, Q2R_mult, q2r_nat.
    replace (Q2R 1) with 1 by (unfold Q2R; cbn; lra). replace (Q2R 2) with 2 by (unfold Q2R; cbn; lra).
    replace (Q2R 3) with 3 by (unfold Q2R; cbn; lra). field. lra.
Qed.
Definition window_poly : poly :=
  fold_right padd [] (map (fun k => pscale (nth (Z.to_nat k) coefs_q 0%Q) (fst (legendre_pairs (Z.to_nat (2 * k))))) (zrange 0 11)).
Lemma window_poly_spec x : pe window_poly x = window_sum x.
Proof.
  unfold window_poly, window_sum, psum. induction (zrange 0 11) as [|k l IH]; [reflexivity|].
  cbn [map fold_right]. rewrite pe_add, pe_scale, IH. now rewrite (proj1 (legendre_pairs_spec _ x)).
Qed.


(** ** the window is positive and falls on [0, 1]: signs of the coefficients as a form in x^2 and 1 - x^2 *)
Lemma he_pos h y z : forallb (fun a => Qle_bool 0 a) h = true -> 0 <= y -> 0 <= z -> 0 <= he h y z.
Proof.
  intros H Hy Hz. induction h as [|a h IH]; cbn [he]; [lra|]. cbn [forallb] in H. apply andb_true_iff in H as [H1 H2].
  apply Qle_bool_iff, Qle_Rle in H1. rewrite RMicromega.Q2R_0 in H1.
  apply Rplus_le_le_0_compat; apply Rmult_le_pos; auto. now apply pow_le.
Qed.
Definition window_even : poly := firstn 11 (fst (halves window_poly)).
(** positive coefficients: window_even = 9/10 + a form, minus its derivative = 1 + a form *)
Definition low_form : poly := form (padd window_even [(-9 # 10)%Q]).
Definition slope_form : poly := form (padd (firstn 10 (pscale (-1) (pderiv window_even))) [(-1)%Q]).
Lemma window_checks : (peq (fst (halves window_poly)) window_even = true /\ pzero (snd (halves window_poly)) = true) /\
  (peq (expand low_form) (padd window_even [(-9 # 10)%Q]) = true /\ forallb (fun a => Qle_bool 0 a) low_form = true) /\
  (peq (expand slope_form) (padd (pscale (-1) (pderiv window_even)) [(-1)%Q]) = true /\ forallb (fun a => Qle_bool 0 a) slope_form = true).
Proof. split; [split|split; split]; vm_compute; reflexivity. Qed.
Lemma window_even_spec x : window_sum x = pe window_even (x * x).
Proof.
  destruct window_checks as ((C1 & C2) & _).
  rewrite <- window_poly_spec, halves_spec, (pzero_sound _ _ C2), (peq_sound _ _ _ C1). ring.
Qed.
Lemma window_even_pos y : 0 <= y <= 1 -> 9 / 10 <= pe window_even y.
Proof.
  intros Hy. destruct window_checks as (_ & (C3 & C5) & _).
  pose proof (he_pos low_form y (1 - y) C5 ltac:(lra) ltac:(lra)) as H. rewrite <- expand_spec, (peq_sound _ _ _ C3), pe_add in H. cbn [pe] in H.
  replace (Q2R (-9 # 10)) with (- (9 / 10)) in H by (unfold Q2R; cbn; lra). lra.
Qed.
Lemma window_even_slope y : 0 <= y <= 1 -> pe (pderiv window_even) y <= -1.
Proof.
  intros Hy. destruct window_checks as (_ & _ & (C4 & C6)).
  pose proof (he_pos slope_form y (1 - y) C6 ltac:(lra) ltac:(lra)) as H. rewrite <- expand_spec, (peq_sound _ _ _ C4), pe_add, pe_scale in H. cbn [pe] in H.
  replace (Q2R (-1)) with (-1) in H by (unfold Q2R; cbn; lra). lra.
Qed.
Lemma window_sum_pos x : -1 <= x <= 1 -> 9 / 10 <= window_sum x.
Proof. intros H. rewrite window_even_spec. apply window_even_pos. nra. Qed.
Lemma window_sum_falls x y : 0 <= x < y -> y <= 1 -> window_sum y < window_sum x.
Proof.
  intros H Hy. rewrite !window_even_spec. assert (L : x * x < y * y) by nra.
  destruct (MVT_cor2 (pe window_even) (pe (pderiv window_even)) (x * x) (y * y) L) as (c & E & B); [intros; apply pe_deriv|].
  assert (pe (pderiv window_even) c <= -1) by (apply window_even_slope; nra).
  assert (pe (pderiv window_even) c * (y * y - x * x) <= -1 * (y * y - x * x)) by (apply Rmult_le_compat_r; lra). lra.
Qed.
