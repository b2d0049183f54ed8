(** C loops over flat arrays.  An array is a function from integer indices to values; bounds are
    shown separately by theorems saying that nothing outside the array is read or written. *)
From Verif Require Import Base.
Local Open Scope Z_scope.

Definition arr (A : Type) := Z -> A.

Definition aset {A} (m : arr A) (i : Z) (v : A) : arr A :=
  fun j => if j =? i then v else m j.

(** for(j = 0; j < n; j++) s = body j s; *)
Definition for_ {S} (n : Z) (body : Z -> S -> S) (s : S) : S :=
  fold_left (fun s j => body j s) (zrange 0 n) s.

Lemma for_0 {S} n (body : Z -> S -> S) s : n <= 0 -> for_ n body s = s.
Proof. intros H. unfold for_. now rewrite zrange_nil. Qed.

Lemma for_S {S} n (body : Z -> S -> S) s : 0 <= n -> for_ (n + 1) body s = body n (for_ n body s).
Proof.
  intros H. unfold for_. rewrite zrange_snoc by lia. rewrite fold_left_app. reflexivity.
Qed.

(** Loop invariant rule. *)
Lemma for_inv {S} (P : Z -> S -> Prop) n (body : Z -> S -> S) s :
  0 <= n -> P 0 s -> (forall j s', 0 <= j < n -> P j s' -> P (j + 1) (body j s')) ->
  P n (for_ n body s).
Proof.
  intros Hn H0 Hstep.
  assert (G : forall k, (Z.of_nat k <= n) -> P (Z.of_nat k) (for_ (Z.of_nat k) body s)).
  { induction k as [|k IH]; intros Hk.
    - change (Z.of_nat 0) with 0. now rewrite for_0 by lia.
    - replace (Z.of_nat (Datatypes.S k)) with (Z.of_nat k + 1) by lia. rewrite for_S by lia.
      apply Hstep; [lia|]. apply IH. lia. }
  specialize (G (Z.to_nat n)). rewrite Z2Nat.id in G by lia. apply G. lia.
Qed.

Lemma for_ext {S} n (b1 b2 : Z -> S -> S) s :
  (forall j s', 0 <= j < n -> b1 j s' = b2 j s') -> for_ n b1 s = for_ n b2 s.
Proof.
  intros H. unfold for_.
  assert (G : forall l, (forall j, In j l -> 0 <= j < n) -> forall s,
     fold_left (fun s j => b1 j s) l s = fold_left (fun s j => b2 j s) l s).
  { induction l as [|x l IH]; intros Hl s0; cbn; auto.
    rewrite H by (apply Hl; now left). apply IH. intros; apply Hl; now right. }
  apply G. intros j Hj. now apply in_zrange in Hj.
Qed.

Lemma aset_eq {A} (m : arr A) i v : aset m i v i = v.
Proof. unfold aset. now rewrite Z.eqb_refl. Qed.
Lemma aset_ne {A} (m : arr A) i j v : j <> i -> aset m i v j = m j.
Proof. intros H. unfold aset. destruct (j =? i) eqn:E; auto. lia. Qed.
