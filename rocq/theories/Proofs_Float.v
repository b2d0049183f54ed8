From Verif Require Import Base Order Model_Float.
Local Open Scope Z_scope.

(** Lexicographic key describing the comparison of SpecFloat. *)
Definition fkey (x : f32) : Z * Z * Z :=
  match x with
  | S754_nan => (9, 0, 0)
  | S754_zero _ => (0, 0, 0)
  | S754_infinity s => ((if s then -2 else 2), 0, 0)
  | S754_finite true m e => (-1, - e, - Zpos m)
  | S754_finite false m e => (1, e, Zpos m)
  end.

Definition key_lt (a b : Z * Z * Z) : Prop :=
  let '(a1, a2, a3) := a in let '(b1, b2, b3) := b in
  a1 < b1 \/ (a1 = b1 /\ (a2 < b2 \/ (a2 = b2 /\ a3 < b3))).

Lemma cmp_key x y : is_nan x = false -> is_nan y = false ->
  match SFcompare x y with
  | Some Lt => key_lt (fkey x) (fkey y)
  | Some Gt => key_lt (fkey y) (fkey x)
  | Some Eq => fkey x = fkey y
  | None => False
  end.
Proof.
  destruct x as [sx|sx| |sx mx ex], y as [sy|sy| |sy my ey]; cbn; try discriminate; intros _ _;
    try destruct sx; try destruct sy; cbn; auto; try (left; lia).
  - destruct (ex ?= ey) eqn:E; cbn.
    + apply Z.compare_eq in E. subst.
      pose proof (Pos.compare_cont_spec mx my Eq) as H.
      rewrite Pos.compare_cont_spec. cbn.
      destruct (mx ?= my)%positive eqn:F; cbn.
      * apply Pos.compare_eq in F. now subst.
      * rewrite Pos.compare_lt_iff in F. lia.
      * rewrite Pos.compare_gt_iff in F. lia.
    + rewrite Z.compare_lt_iff in E. lia.
    + rewrite Z.compare_gt_iff in E. lia.
  - destruct (ex ?= ey) eqn:E; cbn.
    + apply Z.compare_eq in E. subst. rewrite Pos.compare_cont_spec. cbn.
      destruct (mx ?= my)%positive eqn:F; cbn.
      * apply Pos.compare_eq in F. now subst.
      * rewrite Pos.compare_lt_iff in F. lia.
      * rewrite Pos.compare_gt_iff in F. lia.
    + rewrite Z.compare_lt_iff in E. lia.
    + rewrite Z.compare_gt_iff in E. lia.
Qed.

Lemma key_lt_irrefl a : ~ key_lt a a.
Proof. destruct a as [[a1 a2] a3]. cbn. lia. Qed.
Lemma key_lt_trans a b c : key_lt a b -> key_lt b c -> key_lt a c.
Proof. destruct a as [[a1 a2] a3], b as [[b1 b2] b3], c as [[c1 c2] c3]. cbn. lia. Qed.
Lemma key_total a b : key_lt a b \/ a = b \/ key_lt b a.
Proof.
  destruct a as [[a1 a2] a3], b as [[b1 b2] b3]. cbn.
  destruct (Z.lt_total a1 b1) as [|[|]]; [left; lia| |right; right; lia].
  destruct (Z.lt_total a2 b2) as [|[|]]; [left; lia| |right; right; lia].
  destruct (Z.lt_total a3 b3) as [|[|]]; [left; lia| |right; right; lia].
  right; left. congruence.
Qed.

Lemma flt_key x y : is_nan x = false -> is_nan y = false ->
  (flt x y = true <-> key_lt (fkey x) (fkey y)).
Proof.
  intros Hx Hy. pose proof (cmp_key x y Hx Hy) as H. unfold flt, SFltb.
  destruct (SFcompare x y) as [[| |]|]; try contradiction; split; intros G; try discriminate; auto.
  - rewrite H in G. now apply key_lt_irrefl in G.
  - exfalso. apply (key_lt_irrefl (fkey x)). eapply key_lt_trans; eauto.
Qed.

Lemma flt_key_false x y : is_nan x = false -> is_nan y = false ->
  (flt x y = false <-> ~ key_lt (fkey x) (fkey y)).
Proof.
  intros Hx Hy. rewrite <- (flt_key x y Hx Hy). destruct (flt x y); split; congruence.
Qed.

Lemma fle_flt x y : is_nan x = false -> is_nan y = false -> fle x y = negb (flt y x).
Proof.
  intros Hx Hy. pose proof (cmp_key x y Hx Hy) as H1. pose proof (cmp_key y x Hy Hx) as H2.
  unfold fle, flt, SFleb, SFltb.
  destruct (SFcompare x y) as [[| |]|], (SFcompare y x) as [[| |]|]; try contradiction; auto; exfalso.
  - rewrite H1 in H2. now apply key_lt_irrefl in H2.
  - apply (key_lt_irrefl (fkey x)). eapply key_lt_trans; eauto.
  - rewrite H2 in H1. now apply key_lt_irrefl in H1.
  - apply (key_lt_irrefl (fkey x)). eapply key_lt_trans; eauto.
Qed.

Lemma float_weak_order : weak_order (fun x => is_nan x = false) flt.
Proof.
  split.
  - intros x Hx. apply flt_key_false; auto. apply key_lt_irrefl.
  - intros x y z Hx Hy Hz. rewrite !flt_key by auto. apply key_lt_trans.
  - intros x y z Hx Hy Hz. rewrite !flt_key_false by auto. intros H1 H2 H3.
    destruct (key_total (fkey x) (fkey y)) as [G|[G|G]]; auto.
    + rewrite G in H3. auto.
    + apply H2. eapply key_lt_trans; eauto.
Qed.

Lemma flt_nan_l x y : is_nan x = true -> flt x y = false.
Proof. destruct x; try discriminate. reflexivity. Qed.
Lemma flt_nan_r x y : is_nan y = true -> flt x y = false.
Proof. destruct y; try discriminate. destruct x as [s|s| |s m e]; try reflexivity; destruct s; reflexivity. Qed.
Lemma flt_not_nan x y : flt x y = true -> is_nan x = false /\ is_nan y = false.
Proof.
  intros H. split; [destruct (is_nan x) eqn:E; auto; rewrite flt_nan_l in H by auto; discriminate|].
  destruct (is_nan y) eqn:E; auto. rewrite flt_nan_r in H by auto. discriminate.
Qed.
Lemma flt_irrefl x : flt x x = false.
Proof. destruct (is_nan x) eqn:E; [now apply flt_nan_l|]. now apply (wo_irrefl float_weak_order). Qed.

Lemma feq_refl_iff x : feq x x = negb (is_nan x).
Proof.
  destruct x as [s|s| |s m e]; cbn; try reflexivity; unfold feq, SFeqb, SFcompare.
  - destruct s; reflexivity.
  - destruct s; rewrite Z.compare_refl, Pos.compare_cont_refl; reflexivity.
Qed.
