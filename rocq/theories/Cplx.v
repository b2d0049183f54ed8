(** Complex numbers, their finite sums and the discrete Fourier transform. *)
From Verif Require Import Base.
From Coq Require Import Reals Lra Ring.
Local Open Scope R_scope.

Definition cplx : Type := (R * R)%type.
Definition re (z : cplx) : R := fst z.
Definition im (z : cplx) : R := snd z.
Definition cr (x : R) : cplx := (x, 0).
Definition ci : cplx := (0, 1).
Definition cadd (a b : cplx) : cplx := (re a + re b, im a + im b).
Definition copp (a : cplx) : cplx := (- re a, - im a).
Definition csub (a b : cplx) : cplx := cadd a (copp b).
Definition cmul (a b : cplx) : cplx := (re a * re b - im a * im b, re a * im b + im a * re b).
Definition conj (a : cplx) : cplx := (re a, - im a).
(** e^(i x) *)
Definition expi (x : R) : cplx := (cos x, sin x).
Declare Scope cplx_scope.
Delimit Scope cplx_scope with C.
Infix "+" := cadd : cplx_scope.
Infix "*" := cmul : cplx_scope.
Infix "-" := csub : cplx_scope.
Notation "- a" := (copp a) : cplx_scope.

Definition csum (n : Z) (f : Z -> cplx) : cplx := fold_right cadd (cr 0) (map f (zrange 0 n)).

(** the sums over the n-th roots of unity that FFTW computes: forward, backward (neither of them is divided by n) *)
Definition turn (n k : Z) : cplx := expi (2 * PI * IZR k / IZR n).
Definition dft_backward (n : Z) (x : Z -> cplx) (k : Z) : cplx := csum n (fun j => (x j * turn n (j * k))%C).
Definition dft2_forward (n : Z) (h : Z -> Z -> cplx) (a b : Z) : cplx :=
  csum n (fun u => csum n (fun v => (h u v * turn n (- (a * u + b * v)))%C)).

Lemma ceq (a b : cplx) : re a = re b -> im a = im b -> a = b.
Proof. destruct a, b. cbn. intros -> ->. reflexivity. Qed.
Ltac cring := apply ceq; unfold csub, cadd, cmul, copp, conj, cr, ci, re, im; cbn [fst snd]; try ring.
Lemma C_ring : ring_theory (cr 0) (cr 1) cadd cmul csub copp (@eq cplx).
Proof. constructor; intros; cring. Qed.
Add Ring C_ring : C_ring.

Lemma cr_add a b : cr (a + b) = (cr a + cr b)%C. Proof. cring. Qed.
Lemma cr_mul a b : cr (a * b) = (cr a * cr b)%C. Proof. cring. Qed.
Lemma conj_add a b : conj (a + b)%C = (conj a + conj b)%C. Proof. cring. Qed.
Lemma conj_mul a b : conj (a * b)%C = (conj a * conj b)%C. Proof. cring. Qed.
Lemma conj_cr x : conj (cr x) = cr x. Proof. cring. Qed.
Lemma conj_conj z : conj (conj z) = z. Proof. cring. Qed.
Lemma conj_expi x : conj (expi x) = expi (- x). Proof. unfold expi. rewrite cos_neg, sin_neg. cring. Qed.
Lemma expi_add x y : expi (x + y) = (expi x * expi y)%C.
Proof. unfold expi. rewrite cos_plus, sin_plus. cring. Qed.
Lemma expi_0 : expi 0 = cr 1. Proof. unfold expi. rewrite cos_0, sin_0. reflexivity. Qed.
Lemma expi_2pi (k : Z) x : expi (x + 2 * IZR k * PI) = expi x.
Proof.
  unfold expi. destruct k as [|p|p].
  - replace (x + 2 * 0 * PI) with x by ring. reflexivity.
  - replace (IZR (Z.pos p)) with (INR (Pos.to_nat p)) by (now rewrite INR_IZR_INZ, positive_nat_Z).
    now rewrite cos_period, sin_period.
  - replace x with ((x + 2 * IZR (Z.neg p) * PI) + 2 * INR (Pos.to_nat p) * PI) at 3 4.
    + now rewrite cos_period, sin_period.
    + rewrite INR_IZR_INZ, positive_nat_Z. change (Z.neg p) with (- Z.pos p)%Z. rewrite opp_IZR. ring.
Qed.
Lemma real_conj z : conj z = z -> im z = 0.
Proof. destruct z as [a b]. unfold conj. cbn. intros H. injection H. lra. Qed.

Lemma turn_0 n : turn n 0 = cr 1.
Proof. unfold turn. replace (2 * PI * 0 / IZR n) with 0 by (unfold Rdiv; ring). apply expi_0. Qed.
Lemma turn_add n a b : turn n (a + b) = (turn n a * turn n b)%C.
Proof. unfold turn. rewrite <- expi_add, plus_IZR. f_equal. unfold Rdiv. ring. Qed.
Lemma conj_turn n a : conj (turn n a) = turn n (- a).
Proof. unfold turn. rewrite conj_expi, opp_IZR. f_equal. unfold Rdiv. ring. Qed.
Lemma turn_mul n k : (1 <= n)%Z -> turn n (n * k) = cr 1.
Proof.
  intros Hn. unfold turn. rewrite mult_IZR. assert (IZR n <> 0) by (apply not_0_IZR; lia).
  replace (2 * PI * (IZR n * IZR k) / IZR n) with (0 + 2 * IZR k * PI) by (field; auto). rewrite expi_2pi. apply expi_0.
Qed.
Lemma turn_period n a k : (1 <= n)%Z -> turn n (a + n * k) = turn n a.
Proof. intros Hn. rewrite turn_add, turn_mul by auto. ring. Qed.

(** *** sums *)
Lemma csum_0 n f : (n <= 0)%Z -> csum n f = cr 0.
Proof. intros H. unfold csum. now rewrite zrange_nil. Qed.
Lemma fold_cadd l z : fold_right cadd z l = (fold_right cadd (cr 0) l + z)%C.
Proof. induction l as [|a l IH]; cbn; [ring|]. rewrite IH. ring. Qed.
Lemma csum_S n f : (0 <= n)%Z -> csum (n + 1) f = (csum n f + f n)%C.
Proof.
  intros H. unfold csum. rewrite zrange_snoc by lia. rewrite map_app, fold_right_app. cbn. rewrite fold_cadd. ring.
Qed.
Lemma csum_ext n f g : (forall i, (0 <= i < n)%Z -> f i = g i) -> csum n f = csum n g.
Proof.
  intros H. unfold csum. f_equal. apply map_ext_in. intros i Hi. apply in_zrange in Hi. now apply H.
Qed.
Lemma csum_add n f g : csum n (fun i => (f i + g i)%C) = (csum n f + csum n g)%C.
Proof. unfold csum. induction (zrange 0 n) as [|a l IH]; cbn; [ring|]. rewrite IH. ring. Qed.
Lemma csum_mul n k f : csum n (fun i => (k * f i)%C) = (k * csum n f)%C.
Proof. unfold csum. induction (zrange 0 n) as [|a l IH]; cbn; [ring|]. rewrite IH. ring. Qed.
Lemma csum_conj n f : conj (csum n f) = csum n (fun i => conj (f i)).
Proof. unfold csum. induction (zrange 0 n) as [|a l IH]; cbn; [apply conj_cr|]. now rewrite conj_add, IH. Qed.
Lemma csum_zero n f : (forall i, (0 <= i < n)%Z -> f i = cr 0) -> csum n f = cr 0.
Proof.
  intros H. rewrite (csum_ext n f (fun _ => cr 0)) by auto. unfold csum. induction (zrange 0 n) as [|a l IH]; cbn; auto. rewrite IH. ring.
Qed.
Lemma csum_ind (P : Z -> Prop) : (forall n, (n <= 0)%Z -> P n) -> (forall n, (0 <= n)%Z -> P n -> P (n + 1)%Z) -> forall n, P n.
Proof.
  intros H0 HS n. destruct (Z_le_dec n 0); [auto|]. rewrite <- (Z2Nat.id n) by lia. generalize (Z.to_nat n). clear n n0. intros m.
  induction m as [|m IH]; [apply H0; lia|]. replace (Z.of_nat (S m)) with (Z.of_nat m + 1)%Z by lia. apply HS; [lia|auto].
Qed.
(** the first term apart *)
Lemma csum_first n f : (0 <= n)%Z -> csum (n + 1) f = (f 0%Z + csum n (fun i => f (i + 1)%Z))%C.
Proof.
  revert n. apply (csum_ind (fun n => (0 <= n)%Z -> csum (n + 1) f = (f 0%Z + csum n (fun i => f (i + 1)%Z))%C)).
  - intros n H0 H. replace n with 0%Z by lia. rewrite csum_S by lia. rewrite !csum_0 by lia. ring.
  - intros n Hn IH _. rewrite csum_S by lia. rewrite IH by auto. rewrite (csum_S n (fun i => f (i + 1)%Z)) by auto. ring.
Qed.
(** the same sum backwards *)
Lemma csum_rev n f : csum n f = csum n (fun i => f (n - 1 - i)%Z).
Proof.
  revert n. apply (csum_ind (fun n => csum n f = csum n (fun i => f (n - 1 - i)%Z))).
  - intros n H. now rewrite !csum_0.
  - intros n Hn IH. rewrite csum_S, IH by auto. rewrite csum_first by auto.
    replace (n + 1 - 1 - 0)%Z with n by lia.
    rewrite (csum_ext n (fun i => f (n + 1 - 1 - (i + 1))%Z) (fun i => f (n - 1 - i)%Z)); [ring|].
    intros i _. f_equal. lia.
Qed.
(** i -> n - i, with 0 kept *)
Lemma csum_flip n f : (1 <= n)%Z -> csum n f = csum n (fun i => f (if (i =? 0)%Z then 0 else n - i)%Z).
Proof.
  intros Hn. replace n with (n - 1 + 1)%Z at 1 2 by lia. rewrite !csum_first by lia. cbn [Z.eqb].
  apply f_equal2; [reflexivity|]. rewrite csum_rev. apply csum_ext. intros i Hi.
  destruct (i + 1 =? 0)%Z eqn:E; [lia|]. f_equal. lia.
Qed.
Lemma csum_swap n m f : csum n (fun i => csum m (fun j => f i j)) = csum m (fun j => csum n (fun i => f i j)).
Proof.
  revert n. apply (csum_ind (fun n => csum n (fun i => csum m (fun j => f i j)) = csum m (fun j => csum n (fun i => f i j)))).
  - intros n H. rewrite csum_0 by auto. symmetry. apply csum_zero. intros. now apply csum_0.
  - intros n Hn IH. rewrite csum_S, IH by auto. rewrite <- csum_add. apply csum_ext. intros j _. now rewrite csum_S.
Qed.

(** *** geometric sum of a root of unity *)
Lemma csum_geom n q : (0 <= n)%Z -> forall pw, pw 0%Z = cr 1 -> (forall j, (0 <= j)%Z -> pw (j + 1)%Z = (pw j * q)%C) ->
  ((q - cr 1) * csum n pw = pw n - cr 1)%C.
Proof.
  intros Hn pw H0 HS. revert n Hn. apply (csum_ind (fun n => (0 <= n)%Z -> ((q - cr 1) * csum n pw = pw n - cr 1)%C)).
  - intros n Hn H. replace n with 0%Z by lia. rewrite csum_0 by lia. rewrite H0. ring.
  - intros n Hn IH _. rewrite csum_S by auto. rewrite HS by auto.
    replace ((q - cr 1) * (csum n pw + pw n))%C with ((q - cr 1) * csum n pw + (q - cr 1) * pw n)%C by ring. rewrite IH by auto. ring.
Qed.
Lemma cmul_inj a b : (a * b = cr 0)%C -> a <> cr 0 -> b = cr 0.
Proof.
  destruct a as [a1 a2], b as [b1 b2]. unfold cmul, cr. cbn. intros H Ha. injection H as H1 H2.
  assert (N : 0 < a1 * a1 + a2 * a2).
  { destruct (Req_dec a1 0) as [->|]; [destruct (Req_dec a2 0) as [->|]; [now destruct Ha|nra]|nra]. }
  assert (b1 * (a1 * a1 + a2 * a2) = 0) by (replace (b1 * (a1 * a1 + a2 * a2)) with (a1 * (a1 * b1 - a2 * b2) + a2 * (a1 * b2 + a2 * b1)) by ring; rewrite H1, H2; ring).
  assert (b2 * (a1 * a1 + a2 * a2) = 0) by (replace (b2 * (a1 * a1 + a2 * a2)) with (a1 * (a1 * b2 + a2 * b1) - a2 * (a1 * b1 - a2 * b2)) by ring; rewrite H1, H2; ring).
  f_equal; nra.
Qed.
Lemma turn_ne1 n k : (0 < k < n)%Z -> turn n k <> cr 1.
Proof.
  intros Hk H. unfold turn, expi, cr in H. injection H as Hc Hs.
  assert (Hn : 0 < IZR n) by (apply IZR_lt; lia). assert (H0 : 0 < IZR k) by (apply IZR_lt; lia). assert (H1 : IZR k < IZR n) by (apply IZR_lt; lia).
  set (x := 2 * PI * IZR k / IZR n) in *. pose proof PI_RGT_0 as HP.
  assert (Hx : 0 < x < 2 * PI).
  { unfold x. split; [apply Rdiv_lt_0_compat; nra|]. apply Rmult_lt_reg_r with (IZR n); [auto|]. unfold Rdiv. rewrite Rmult_assoc, Rinv_l by lra. nra. }
  replace x with (2 * (x / 2)) in Hc by field. rewrite cos_2a_sin in Hc.
  assert (0 < sin (x / 2)) by (apply sin_gt_0; lra). nra.
Qed.
(** a constant has no component at the other frequencies *)
Lemma csum_turn n k : (0 < k < n)%Z -> csum n (fun j => turn n (j * k)) = cr 0.
Proof.
  intros Hk. apply (cmul_inj (turn n k - cr 1)%C).
  - rewrite (csum_geom n (turn n k) ltac:(lia) (fun j => turn n (j * k))).
    + cbn beta. rewrite turn_mul by lia. ring.
    + cbn beta. replace (0 * k)%Z with 0%Z by lia. apply turn_0.
    + intros j _. cbn beta. rewrite <- turn_add. f_equal. lia.
  - intros H. apply (turn_ne1 n k Hk). replace (turn n k) with ((turn n k - cr 1) + cr 1)%C by ring. rewrite H. ring.
Qed.
