(** Proofs for C117-C119. *)
From Verif Require Import Base Order Model_Prep Model_Solver Model_Align Model_Npmath Spec_Npmath Proofs_Align.
From Coq Require Import Reals Lra Psatz Sorted.
Local Open Scope R_scope.

(** ** Least squares *)
Lemma sq_nonneg x : 0 <= sq x. Proof. unfold sq. nra. Qed.
Lemma sq_0 x : sq x = 0 -> x = 0. Proof. unfold sq. nra. Qed.
Definition err_row (f : point -> R) (src tgt : list point) (a : row3) : R :=
  fold_right Rplus 0 (map (fun '(p, q) => sq (apply3 a p - f q)) (combine src tgt)).
Lemma residual_rows src tgt m :
  residual src tgt m = err_row fst src tgt (m_x m) + err_row snd src tgt (m_y m) + err_row (fun _ => 1) src tgt (m_1 m).
Proof. unfold residual, err_row. induction (combine src tgt) as [|[p q] l IH]; cbn [map fold_right]; lra. Qed.
Lemma err_nonneg f src tgt a : 0 <= err_row f src tgt a.
Proof. unfold err_row. induction (combine src tgt) as [|[p q] l IH]; cbn [map fold_right]; [lra|]. pose proof (sq_nonneg (apply3 a p - f q)). lra. Qed.
Lemma err_0 f src tgt a : err_row f src tgt a = 0 <-> forall p q, In (p, q) (combine src tgt) -> apply3 a p = f q.
Proof.
  unfold err_row. induction (combine src tgt) as [|[p q] l IH]; cbn [map fold_right].
  - split; auto. intros _ p q [].
  - assert (0 <= fold_right Rplus 0 (map (fun '(p, q) => sq (apply3 a p - f q)) l)) as N.
    { clear IH. induction l as [|[p' q'] l IH]; cbn [map fold_right]; [lra|]. pose proof (sq_nonneg (apply3 a p' - f q')). lra. }
    pose proof (sq_nonneg (apply3 a p - f q)) as N2. split.
    + intros H p' q' [E|Hin].
      * injection E as <- <-. assert (sq (apply3 a p - f q) = 0) as Z by lra. apply sq_0 in Z. lra.
      * apply IH; auto. lra.
    + intros H. rewrite (proj2 IH) by (intros; apply H; now right). rewrite (H p q) by (now left). unfold sq. lra.
Qed.
(** A least solution is least in every row. *)
Lemma lstsq_rows src tgt m : lstsq src tgt m ->
  (forall a, err_row fst src tgt (m_x m) <= err_row fst src tgt a) /\ (forall a, err_row snd src tgt (m_y m) <= err_row snd src tgt a) /\
  (forall a, err_row (fun _ => 1) src tgt (m_1 m) <= err_row (fun _ => 1) src tgt a).
Proof.
  intros H. repeat split; intros a.
  - specialize (H (mkM a (m_y m) (m_1 m))). rewrite !residual_rows in H. cbn [m_x m_y m_1] in H. lra.
  - specialize (H (mkM (m_x m) a (m_1 m))). rewrite !residual_rows in H. cbn [m_x m_y m_1] in H. lra.
  - specialize (H (mkM (m_x m) (m_y m) a)). rewrite !residual_rows in H. cbn [m_x m_y m_1] in H. lra.
Qed.
Lemma rows_lstsq src tgt m :
  (forall a, err_row fst src tgt (m_x m) <= err_row fst src tgt a) -> (forall a, err_row snd src tgt (m_y m) <= err_row snd src tgt a) ->
  (forall a, err_row (fun _ => 1) src tgt (m_1 m) <= err_row (fun _ => 1) src tgt a) -> lstsq src tgt m.
Proof. intros A B C m'. rewrite !residual_rows. specialize (A (m_x m')). specialize (B (m_y m')). specialize (C (m_1 m')). lra. Qed.
(** Two rows that agree on three points that span are equal. *)
Lemma row_unique a b l : spanning l -> (forall p, In p l -> apply3 a p = apply3 b p) -> a = b.
Proof.
  intros (p & q & r & Hp & Hq & Hr & N) H. apply H in Hp, Hq, Hr. clear H.
  destruct a as [[a1 a2] a3], b as [[b1 b2] b3]. destruct p as [px py], q as [qx qy], r as [rx ry]. cbn [apply3 fst snd] in *.
  set (u := a1 - b1). set (v := a2 - b2).
  assert (E1 : u * (qx - px) + v * (qy - py) = 0) by (unfold u, v; lra).
  assert (E2 : u * (rx - px) + v * (ry - py) = 0) by (unfold u, v; lra).
  assert (D : (qx - px) * (ry - py) - (rx - px) * (qy - py) <> 0) by lra.
  assert (u = 0) as U.
  { apply (Rmult_eq_reg_r ((qx - px) * (ry - py) - (rx - px) * (qy - py))); [|exact D].
    transitivity ((u * (qx - px) + v * (qy - py)) * (ry - py) - (u * (rx - px) + v * (ry - py)) * (qy - py)); [ring|]. rewrite E1, E2. ring. }
  assert (v = 0) as V.
  { apply (Rmult_eq_reg_r ((qx - px) * (ry - py) - (rx - px) * (qy - py))); [|exact D].
    transitivity ((u * (rx - px) + v * (ry - py)) * (qx - px) - (u * (qx - px) + v * (qy - py)) * (rx - px)); [ring|]. rewrite E1, E2. ring. }
  unfold u, v in U, V. assert (a1 = b1) by lra. assert (a2 = b2) by lra. subst. assert (a3 = b3) by lra. now subst.
Qed.
Lemma in_combine_map {A B} (f : A -> B) l p : In p l -> In (p, f p) (combine l (map f l)).
Proof. induction l as [|x l IH]; intros H; [destruct H|]. destruct H as [->|H]; [now left|]. right. auto. Qed.
Lemma combine_map_in {A B} (f : A -> B) l p q : In (p, q) (combine l (map f l)) -> q = f p.
Proof. induction l as [|x l IH]; intros H; [destruct H|]. destruct H as [H|H]; [now injection H as <- <-|auto]. Qed.
Lemma in_combine_some {A B} (l : list A) (l' : list B) p : length l = length l' -> In p l -> exists q, In (p, q) (combine l l').
Proof.
  revert l'. induction l as [|x l IH]; intros [|y l'] E H; try discriminate E; [destruct H|]. cbn in *.
  destruct H as [->|H]; [eauto|]. destruct (IH l') as (q & Hq); eauto.
Qed.
Lemma exact_row f src tgt a b : spanning src -> length src = length tgt -> (forall c, err_row f src tgt a <= err_row f src tgt c) ->
  (forall p q, In (p, q) (combine src tgt) -> apply3 b p = f q) -> a = b.
Proof.
  intros S E L B. apply err_0 in B. specialize (L b). pose proof (err_nonneg f src tgt a). assert (err_row f src tgt a = 0) as Z by lra.
  rewrite B in L. apply (row_unique a b src S). intros p Hp. destruct (in_combine_some src tgt p E Hp) as (q & Hq).
  rewrite (proj1 (err_0 f src tgt a) Z p q Hq). symmetry. now apply (proj1 (err_0 f src tgt b) B).
Qed.
(** A quadratic with its minimum at 0 has no linear part. *)
Lemma no_slope b c : (forall t, 0 <= b * t + c * (t * t)) -> b = 0.
Proof.
  intros H. destruct (Req_dec b 0) as [E|N]; auto. exfalso.
  destruct (Rle_dec c 0) as [C|C].
  - pose proof (H 1). pose proof (H (-1)). nra.
  - assert (0 < c) as C' by lra. pose proof (H (- b / (2 * c))) as Q. 
    replace (b * (- b / (2 * c)) + c * (- b / (2 * c) * (- b / (2 * c)))) with (- (b * b) / (4 * c)) in Q by (field; lra).
    assert (0 < b * b) by nra. assert (0 < b * b / (4 * c)) by (apply Rdiv_lt_0_compat; lra).
    replace (- (b * b) / (4 * c)) with (- (b * b / (4 * c))) in Q by (field; lra). lra.
Qed.
Lemma err_shift f src tgt a1 a2 a3 u1 u2 u3 t :
  err_row f src tgt (a1 + t * u1, a2 + t * u2, a3 + t * u3) = err_row f src tgt (a1, a2, a3)
    + 2 * sum (map (fun '(p, q) => (apply3 (a1, a2, a3) p - f q) * apply3 (u1, u2, u3) p) (combine src tgt)) * t
    + sum (map (fun '(p, q) => sq (apply3 (u1, u2, u3) p)) (combine src tgt)) * (t * t).
Proof.
  unfold err_row, sum. induction (combine src tgt) as [|[p q] l IH]; cbn [map fold_right]; [lra|]. rewrite IH. unfold sq, apply3. ring.
Qed.
Lemma normal f src tgt a u : (forall c, err_row f src tgt a <= err_row f src tgt c) ->
  sum (map (fun '(p, q) => (apply3 a p - f q) * apply3 u p) (combine src tgt)) = 0.
Proof.
  intros L. destruct a as [[a1 a2] a3], u as [[u1 u2] u3].
  match goal with |- ?s = 0 => assert (2 * s = 0) as E; [|lra] end.
  apply (no_slope _ (sum (map (fun '(p, q) => sq (apply3 (u1, u2, u3) p)) (combine src tgt)))).
  intros t. specialize (L (a1 + t * u1, a2 + t * u2, a3 + t * u3)). rewrite err_shift in L. lra.
Qed.
Lemma normal_least f src tgt a : (forall u, sum (map (fun '(p, q) => (apply3 a p - f q) * apply3 u p) (combine src tgt)) = 0) ->
  forall c, err_row f src tgt a <= err_row f src tgt c.
Proof.
  intros N c. destruct a as [[a1 a2] a3], c as [[c1 c2] c3]. specialize (N (c1 - a1, c2 - a2, c3 - a3)).
  pose proof (err_shift f src tgt a1 a2 a3 (c1 - a1) (c2 - a2) (c3 - a3) 1) as E.
  replace (a1 + 1 * (c1 - a1)) with c1 in E by ring. replace (a2 + 1 * (c2 - a2)) with c2 in E by ring. replace (a3 + 1 * (c3 - a3)) with c3 in E by ring.
  rewrite E, N. assert (0 <= sum (map (fun '(p, q) => sq (apply3 (c1 - a1, c2 - a2, c3 - a3) p)) (combine src tgt))) as Q.
  { unfold sum. clear. induction (combine src tgt) as [|[p q] l IH]; cbn [map fold_right]; [lra|]. pose proof (sq_nonneg (apply3 (c1 - a1, c2 - a2, c3 - a3) p)). lra. }
  lra.
Qed.

(** ** searchsorted *)
Lemma rltb_dec x y : rltb x y = if Rlt_dec x y then true else false. Proof. reflexivity. Qed.
Lemma searchsorted_below a v : StronglySorted Rle a -> searchsorted a v = Z.of_nat (below a v).
Proof.
  unfold below. induction 1 as [|x a S IH F]; [reflexivity|]. cbn [searchsorted count]. rewrite rltb_dec. destruct (Rlt_dec x v) as [L|L].
  - rewrite IH. lia.
  - rewrite count_none; [reflexivity|]. intros y Hy. rewrite Forall_forall in F. specialize (F y Hy). destruct (Rlt_dec y v); auto. lra.
Qed.
Lemma below_perm l l' v : Permutation l l' -> below l v = below l' v. Proof. apply count_perm. Qed.
Lemma up_to_perm l l' v : Permutation l l' -> up_to l v = up_to l' v. Proof. apply count_perm. Qed.
Lemma below_le l v v' : v <= v' -> (below l v <= below l v')%nat.
Proof. intros H. apply count_mono. intros x _. destruct (Rlt_dec x v), (Rlt_dec x v'); auto; lra. Qed.
Lemma below_lt l v : In v l -> (below l v < length l)%nat.
Proof.
  unfold below. induction l as [|x l IH]; intros H; [destruct H|]. cbn [count length]. destruct H as [->|H].
  - destruct (Rlt_dec v v); [lra|]. pose proof (count_le (fun x => if Rlt_dec x v then true else false) l). lia.
  - specialize (IH H). destruct (Rlt_dec x v); lia.
Qed.
Lemma in_pixels h w f r c : inside h w r c -> In (f r c) (pixels h w f).
Proof. intros (Hr & Hc). unfold pixels. apply in_flat_map. exists r. split; [now apply in_zrange|]. apply in_map. now apply in_zrange. Qed.
Lemma pixels_in h w f x : In x (pixels h w f) -> exists r c, inside h w r c /\ x = f r c.
Proof.
  unfold pixels. intros H. apply in_flat_map in H. destruct H as (r & Hr & H). apply in_map_iff in H. destruct H as (c & <- & Hc).
  apply in_zrange in Hr, Hc. exists r, c. repeat split; lia.
Qed.
Lemma pixels_length h w f : (0 <= h)%Z -> (0 <= w)%Z -> Z.of_nat (length (pixels h w f)) = (h * w)%Z.
Proof.
  intros Hh Hw. unfold pixels.
  assert (E : forall l, length (flat_map (fun r => map (f r) (zrange 0 w)) l) = (length l * Z.to_nat w)%nat).
  { induction l as [|x l IH]; [reflexivity|]. cbn [flat_map]. rewrite app_length, IH, map_length, zrange_length, Z.sub_0_r. cbn [length]. lia. }
  rewrite E, zrange_length. rewrite Nat2Z.inj_mul, !Z2Nat.id; lia.
Qed.

(** ** discrete_cdf *)
Lemma twice_length {A} (l : list A) : length (twice l) = (2 * length l)%nat.
Proof. induction l as [|x l IH]; [reflexivity|]. cbn [twice flat_map app length]. unfold twice in IH. rewrite IH. lia. Qed.
Lemma twice_nth {A} (l : list A) i : nth_error (twice l) (2 * i) = nth_error l i /\ nth_error (twice l) (2 * i + 1) = nth_error l i.
Proof.
  revert i. induction l as [|x l IH]; intros i.
  - cbn. destruct (2 * i)%nat, (2 * i + 1)%nat, i; auto.
  - destruct i as [|i]; [split; reflexivity|]. cbn [twice flat_map app]. fold (twice l).
    replace (2 * S i)%nat with (S (S (2 * i))) by lia. replace (S (S (2 * i)) + 1)%nat with (S (S (2 * i + 1))) by lia. cbn [nth_error]. apply IH.
Qed.
Lemma pairs_nth {A B} (f g : A -> B) (l : list A) i : nth_error (flat_map (fun y => [f y; g y]) l) (2 * i) = option_map f (nth_error l i) /\
  nth_error (flat_map (fun y => [f y; g y]) l) (2 * i + 1) = option_map g (nth_error l i).
Proof.
  revert i. induction l as [|x l IH]; intros i.
  - cbn. destruct (2 * i)%nat, (2 * i + 1)%nat, i; auto.
  - destruct i as [|i]; [split; reflexivity|]. cbn [flat_map app].
    replace (2 * S i)%nat with (S (S (2 * i))) by lia. replace (S (S (2 * i)) + 1)%nat with (S (S (2 * i + 1))) by lia. cbn [nth_error]. apply IH.
Qed.
Lemma pairs_length {A B} (f g : A -> B) (l : list A) : length (flat_map (fun y => [f y; g y]) l) = (2 * length l)%nat.
Proof. induction l as [|x l IH]; [reflexivity|]. cbn [flat_map app length]. rewrite IH. lia. Qed.
(** The element at place i of a sorted list *)
Lemma sorted_rank l i v : StronglySorted Rle l -> nth_error l i = Some v -> (below l v <= i < up_to l v)%nat.
Proof.
  intros S. revert i. induction S as [|x l S IH F]; intros i H; [destruct i; discriminate H|]. rewrite Forall_forall in F. unfold below, up_to in *. cbn [count].
  destruct i as [|i]; cbn [nth_error] in H.
  - injection H as ->. destruct (Rlt_dec v v); [lra|]. destruct (Rle_dec v v); [|lra].
    rewrite count_none; [lia|]. intros y Hy. specialize (F y Hy). destruct (Rlt_dec y v); auto. lra.
  - specialize (IH i H). apply nth_error_In in H. specialize (F v H). destruct (Rlt_dec x v), (Rle_dec x v); try lra; lia.
Qed.

(** ** There are least solutions *)
Section Projection.
  Context {X : Type}.
  Variable L : list X.
  Definition ip (f g : X -> R) : R := sum (map (fun x => f x * g x) L).
  Lemma ip_add f g c h : ip (fun x => f x + c * g x) h = ip f h + c * ip g h.
  Proof. unfold ip, sum. induction L as [|x l IH]; cbn [map fold_right]; [lra|]. rewrite IH. ring. Qed.
  Lemma ip_sym f g : ip f g = ip g f.
  Proof. unfold ip, sum. induction L as [|x l IH]; cbn [map fold_right]; [lra|]. rewrite IH. ring. Qed.
  Lemma ip_ext f g h k : (forall x, In x L -> f x = g x) -> (forall x, In x L -> h x = k x) -> ip f h = ip g k.
  Proof.
    unfold ip, sum. intros A B. induction L as [|x l IH]; cbn [map fold_right]; [lra|].
    rewrite A, B by (now left). rewrite IH; auto; intros; [apply A|apply B]; now right.
  Qed.
  Lemma ip_nonneg f : 0 <= ip f f.
  Proof. unfold ip, sum. induction L as [|x l IH]; cbn [map fold_right]; [lra|]. pose proof (sq_nonneg (f x)). unfold sq in *. lra. Qed.
  Lemma ip_zero f : ip f f = 0 -> forall x, In x L -> f x = 0.
  Proof.
    pose proof ip_nonneg as N. unfold ip, sum in *. induction L as [|y l IH]; cbn [map fold_right]; intros H x Hx; [destruct Hx|].
    assert (0 <= fold_right Rplus 0 (map (fun x => f x * f x) l)) as M.
    { clear. induction l as [|x l IH]; cbn [map fold_right]; [lra|]. nra. }
    destruct Hx as [<-|Hx]; [nra|]. apply IH; auto; [|nra]. intros g. clear. induction l as [|x l IH]; cbn [map fold_right]; [lra|]. nra.
  Qed.
  Inductive lin : list (X -> R) -> (X -> R) -> Prop :=
  | lin_0 : lin [] (fun _ => 0)
  | lin_1 u us f c : lin us f -> lin (u :: us) (fun x => c * u x + f x).
  Lemma lin_orth us f r : lin us f -> (forall u, In u us -> ip r u = 0) -> ip r f = 0.
  Proof.
    induction 1 as [|u us f c H IH]; intros O.
    - unfold ip, sum. clear. induction L as [|x l IH]; cbn [map fold_right]; lra.
    - rewrite ip_sym. transitivity (ip (fun x => f x + c * u x) r); [apply ip_ext; auto; intros; ring|]. rewrite ip_add.
      rewrite (ip_sym f), (ip_sym u), (O u) by (now left). rewrite IH; [ring|]. intros v Hv. apply O. now right.
  Qed.
  Lemma lin_add us f g c : lin us f -> lin us g -> exists h, lin us h /\ forall x, h x = f x + c * g x.
  Proof.
    intros F. revert g. induction F as [|u us f a F IH]; intros g G; inversion G; subst.
    - exists (fun _ => 0). split; [constructor|]. intros x. ring.
    - destruct (IH _ H2) as (h & Hh & E). exists (fun x => (a + c * c0) * u x + h x). split; [now constructor|]. intros x. rewrite E. ring.
  Qed.
  Lemma project us : forall t, exists f, lin us f /\ forall u, In u us -> ip (fun x => t x + -1 * f x) u = 0.
  Proof.
    induction us as [|u us IH]; intros t; [exists (fun _ => 0); split; [constructor|intros u []]|].
    destruct (IH t) as (f & Lf & Of). destruct (IH u) as (g & Lg & Og).
    set (ru := fun x => u x + -1 * g x) in *. set (rt := fun x => t x + -1 * f x) in *.
    destruct (Req_dec (ip ru ru) 0) as [Z|N].
    - exists (fun x => 0 * u x + f x). split; [now constructor|]. intros v [<-|Hv].
      + transitivity (ip rt g); [|now apply (lin_orth us)]. apply ip_ext; [intros; unfold rt; ring|]. intros x Hx. pose proof (ip_zero ru Z x Hx) as E. unfold ru in E. lra.
      + transitivity (ip rt v); [|exact (Of v Hv)]. apply ip_ext; auto. intros; unfold rt; ring.
    - set (s := ip rt ru / ip ru ru).
      destruct (lin_add us f g (- s) Lf Lg) as (h & Lh & Eh). exists (fun x => s * u x + h x). split; [now constructor|].
      assert (R : forall v, ip (fun x => t x + -1 * (s * u x + h x)) v = ip rt v + - s * ip ru v).
      { intros v. rewrite <- ip_add. apply ip_ext; auto. intros x _. rewrite Eh. unfold rt, ru. ring. }
      intros v [<-|Hv]; rewrite R.
      + assert (ip rt g = 0) as G1 by now apply (lin_orth us). assert (ip ru g = 0) as G2 by now apply (lin_orth us).
        assert (forall k, ip k u = ip k ru + ip k g) as D.
        { intros k. rewrite (ip_sym k u), (ip_sym k ru), (ip_sym k g). replace (ip g k) with (1 * ip g k) by ring. rewrite <- ip_add. apply ip_ext; auto. intros x _. unfold ru. ring. }
        rewrite !D, G1, G2. unfold s. field. exact N.
      + rewrite (Of v Hv), (Og v Hv). ring.
  Qed.
End Projection.
Lemma row_exists f src tgt : exists a, forall c, err_row f src tgt a <= err_row f src tgt c.
Proof.
  destruct (project (combine src tgt) [(fun x : point * point => fst (fst x)); (fun x => snd (fst x)); (fun _ => 1)] (fun x => f (snd x))) as (g & Lg & Og).
  inversion Lg as [|? ? g1 a1 L1]; subst. inversion L1 as [|? ? g2 a2 L2]; subst. inversion L2 as [|? ? g3 a3 L3]; subst. inversion L3; subst.
  exists (a1, a2, a3). apply normal_least. intros [[u1 u2] u3].
  pose proof (Og _ (or_introl eq_refl)) as N1. pose proof (Og _ (or_intror (or_introl eq_refl))) as N2. pose proof (Og _ (or_intror (or_intror (or_introl eq_refl)))) as N3.
  clear Og Lg L1 L2 L3. unfold ip in *.
  match type of N1 with ?x = 0 => match type of N2 with ?y = 0 => match type of N3 with ?z = 0 =>
    match goal with |- ?s = 0 => assert (s = - (u1 * x + u2 * y + u3 * z)) as E; [|rewrite E, N1, N2, N3; ring] end end end end.
  clear. unfold sum. induction (combine src tgt) as [|[p q] l IH]; cbn [map fold_right fst snd]; [lra|]. rewrite IH. unfold apply3. ring.
Qed.
Lemma lstsq_exists src tgt : exists m, lstsq src tgt m.
Proof.
  destruct (row_exists fst src tgt) as (a & A). destruct (row_exists snd src tgt) as (b & B). destruct (row_exists (fun _ => 1) src tgt) as (c & C).
  exists (mkM a b c). now apply rows_lstsq.
Qed.
