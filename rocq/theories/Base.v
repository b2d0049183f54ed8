(** Shared vocabulary of the model: errors, integer ranges, python ranges. *)
From Coq Require Export List Arith ZArith Lia Bool Permutation.
From Coq Require Export ZifyBool ZifyNat ZifyN.
Export ListNotations.
Set Implicit Arguments.

Ltac Zify.zify_post_hook ::= Z.div_mod_to_equations.

(** Python exceptions as values. *)
Inductive err : Type :=
| ValueError | TypeError | IndexError | ZeroDivisionError | NameError
| AttributeError | UnboundLocalError | RuntimeError | KeyError
| UserError.   (* any exception raised by a user supplied function *)

Definition result (A : Type) : Type := (err + A)%type.
Definition Ok {A} (a : A) : result A := inr a.
Definition Raise {A} (e : err) : result A := inl e.

Definition is_ok {A} (r : result A) : bool :=
  match r with inr _ => true | inl _ => false end.

(** The integers a, a+1, ..., b-1. *)
Definition zrange (a b : Z) : list Z :=
  map (fun k => (a + Z.of_nat k)%Z) (seq 0 (Z.to_nat (b - a))).

(** Python's range(start, stop, step); step = 0 is rejected by python. *)
Definition pyrange (start stop step : Z) : list Z :=
  if (0 <? step)%Z then
    map (fun k => (start + Z.of_nat k * step)%Z)
        (seq 0 (Z.to_nat ((stop - start + step - 1) / step)))
  else if (step <? 0)%Z then
    map (fun k => (start + Z.of_nat k * step)%Z)
        (seq 0 (Z.to_nat ((start - stop - step - 1) / (- step))))
  else [].

(** Ceiling of the quotient of two integers, positive divisor. *)
Definition cdiv (a b : Z) : Z := (- ((- a) / b))%Z.

(** Number of elements of [l] satisfying [p]. *)
Fixpoint count {A} (p : A -> bool) (l : list A) : nat :=
  match l with
  | [] => 0
  | x :: t => (if p x then 1 else 0) + count p t
  end.

(** [upd l i v]: the list [l] with position [i] replaced; out of range is ignored
    (callers state the range). *)
Fixpoint upd {A} (l : list A) (i : nat) (v : A) : list A :=
  match l, i with
  | [], _ => []
  | _ :: t, O => v :: t
  | x :: t, S j => x :: upd t j v
  end.

Lemma upd_length A (l : list A) i v : length (upd l i v) = length l.
Proof. revert i; induction l; destruct i; simpl; auto. Qed.

Lemma nth_error_upd_eq A (l : list A) i v :
  i < length l -> nth_error (upd l i v) i = Some v.
Proof. revert i; induction l; destruct i; simpl; intros; try lia; auto. apply IHl; lia. Qed.

Lemma nth_error_upd_ne A (l : list A) i j v :
  i <> j -> nth_error (upd l i v) j = nth_error l j.
Proof.
  revert i j; induction l; destruct i, j; simpl; intros; try congruence; auto.
Qed.

Lemma nth_upd_eq A (l : list A) i v d : i < length l -> nth i (upd l i v) d = v.
Proof. revert i; induction l; destruct i; simpl; intros; try lia; auto. apply IHl; lia. Qed.

Lemma nth_upd_ne A (l : list A) i j v d : i <> j -> nth j (upd l i v) d = nth j l d.
Proof. revert i j; induction l; destruct i, j; simpl; intros; try congruence; auto. Qed.

Lemma upd_oob A (l : list A) i v : length l <= i -> upd l i v = l.
Proof. revert i; induction l; destruct i; simpl; intros; try lia; auto. f_equal; apply IHl; lia. Qed.

Lemma zrange_length a b : length (zrange a b) = Z.to_nat (b - a).
Proof. unfold zrange. now rewrite map_length, seq_length. Qed.

Lemma in_zrange a b x : In x (zrange a b) <-> (a <= x < b)%Z.
Proof.
  unfold zrange. rewrite in_map_iff. split.
  - intros (k & <- & Hk). apply in_seq in Hk. lia.
  - intros H. exists (Z.to_nat (x - a)). rewrite in_seq. lia.
Qed.

Lemma zrange_nil a b : (b <= a)%Z -> zrange a b = [].
Proof. intros H. unfold zrange. replace (Z.to_nat (b - a)) with 0 by lia. reflexivity. Qed.

Lemma zrange_app a b c : (a <= b <= c)%Z -> zrange a b ++ zrange b c = zrange a c.
Proof.
  intros H. unfold zrange.
  replace (Z.to_nat (c - a)) with (Z.to_nat (b - a) + Z.to_nat (c - b)) by lia.
  rewrite seq_app, map_app. f_equal. simpl.
  replace (Z.to_nat (b - a)) with (Z.to_nat (b - a) + 0) by lia.
  generalize (Z.to_nat (c - b)); intros n.
  assert (E : forall s, seq (Z.to_nat (b - a) + s) n = map (fun k => Z.to_nat (b - a) + k) (seq s n)).
  { induction n as [|n IH]; intros s; simpl; auto. f_equal.
    rewrite <- IH. f_equal. lia. }
  rewrite E, map_map. apply map_ext. intros k. lia.
Qed.

Lemma zrange_cons a b : (a < b)%Z -> zrange a b = a :: zrange (a + 1) b.
Proof.
  intros H. rewrite <- (@zrange_app a (a + 1) b) by lia.
  f_equal. unfold zrange. replace (Z.to_nat (a + 1 - a)) with 1 by lia. simpl. f_equal. lia.
Qed.

Lemma zrange_one a : zrange a (a + 1) = [a].
Proof. rewrite zrange_cons by lia. now rewrite zrange_nil by lia. Qed.

Lemma zrange_snoc a b : (a <= b)%Z -> zrange a (b + 1) = zrange a b ++ [b].
Proof. intros H. rewrite <- (@zrange_app a b (b + 1)) by lia. now rewrite zrange_one. Qed.

Lemma NoDup_zrange a b : NoDup (zrange a b).
Proof.
  unfold zrange. apply FinFun.Injective_map_NoDup; [|apply seq_NoDup].
  intros x y H. lia.
Qed.

Lemma nth_error_zrange a b k :
  (Z.of_nat k < b - a)%Z -> nth_error (zrange a b) k = Some (a + Z.of_nat k)%Z.
Proof.
  intros H. unfold zrange. rewrite nth_error_map.
  rewrite (nth_error_nth' _ 0) by (rewrite seq_length; lia).
  rewrite seq_nth by lia. simpl. reflexivity.
Qed.

Lemma cdiv_spec a b : (0 < b)%Z -> (b * cdiv a b >= a /\ b * (cdiv a b - 1) < a)%Z.
Proof.
  intros H. unfold cdiv.
  pose proof (Z.div_mod (- a) b ltac:(lia)).
  pose proof (Z.mod_pos_bound (- a) b H). split; lia.
Qed.

Lemma skipn_skipn A (l : list A) a b : skipn a (skipn b l) = skipn (b + a) l.
Proof.
  revert l; induction b as [|b IH]; intros l; cbn; auto.
  destruct l; cbn; auto. now rewrite skipn_nil.
Qed.
