From Verif Require Import Base Order CLoop Proofs_Ospml Model_Ray Proofs_Ray Model_RayF Model_SolverF Spec_SolverF Model_PmlF Proofs_FloatB Proofs_RayF Proofs_RayF2 Proofs_RayF3 Proofs_RayF4 Proofs_SolverF Proofs_SolverF2 Proofs_SolverF6 Proofs_PmlF Spec_PmlF.
From Flocq Require Import Core BinarySingleNaN.
Local Open Scope Z_scope.

(** ** Loops as folds *)
Lemma ofold_acc {St X A C} (acc : C -> A -> C) (f : X -> St -> option St) (h : St -> C) (L : X -> list A) l s r : ofold f l s = Some r ->
  (forall x s s', In x l -> f x s = Some s' -> h s' = fold_left acc (L x) (h s)) -> h r = fold_left acc (flat_map L l) (h s).
Proof.
  revert s. induction l as [|x l IH]; cbn; intros s E H; [injection E as <-; reflexivity|]. ob E. rewrite fold_left_app, <- (H x s a (or_introl eq_refl) E0). apply IH; auto.
Qed.
Lemma ofor_ind {St} (I : Z -> St -> Prop) a b (f : Z -> St -> option St) s r : ofor a b f s = Some r -> a <= b -> I a s ->
  (forall n s s', a <= n < b -> I n s -> f n s = Some s' -> I (n + 1) s') -> I b r.
Proof.
  intros E Hab H0 H. assert (G : forall n, 0 <= n -> forall b r, b = a + n -> ofor a b f s = Some r -> (forall n s s', a <= n < b -> I n s -> f n s = Some s' -> I (n + 1) s') -> I b r).
  { apply (natlike_ind (fun n => forall b r, b = a + n -> ofor a b f s = Some r -> (forall n s s', a <= n < b -> I n s -> f n s = Some s' -> I (n + 1) s') -> I b r)).
    - intros b' r' -> F _. unfold ofor in F. rewrite zrange_nil in F by lia. cbn in F. injection F as <-. now rewrite Z.add_0_r.
    - intros n Hn IH b' r' -> F Hs. replace (a + Z.succ n) with (a + n + 1) in * by lia. unfold ofor in F. rewrite zrange_snoc, ofold_app in F by lia. ob F. cbn [ofold] in F. ob F. injection F as <-.
      apply (Hs (a + n) a0 a1); [lia| |exact E1]. apply (IH (a + n) a0); [reflexivity|exact E0|]. intros k u v Hk. apply Hs. lia. }
  apply (G (b - a) ltac:(lia) b r); auto. lia.
Qed.

(** ** Neighbours *)
Definition nb_classF (gx gy n m : Z) : list (Z * b32) :=
  let w_inner := total_w 4 4 in let w_edge := total_w 3 2 in let w_corner := total_w 2 1 in
  (if (n =? 0) then
     if (m =? 0) then weighF w_corner [1; gy] [gy + 1]
     else if (m =? gy - 1) then weighF w_corner [-1; gy] [gy - 1]
     else weighF w_edge [1; -1; gy] [gy + 1; gy - 1]
   else if (n =? gx - 1) then
     if (m =? 0) then weighF w_corner [1; -gy] [-gy + 1]
     else if (m =? gy - 1) then weighF w_corner [-1; -gy] [-gy - 1]
     else weighF w_edge [1; -1; -gy] [-gy + 1; -gy - 1]
   else if (m =? 0) then weighF w_edge [1; gy; -gy] [gy + 1; -gy + 1]
   else if (m =? gy - 1) then weighF w_edge [-1; gy; -gy] [gy - 1; -gy - 1]
   else weighF w_inner [1; -1; gy; -gy] [gy + 1; gy - 1; -gy + 1; -gy - 1]).
Lemma visitsF_at gx gy n m : 2 <= gx -> 2 <= gy -> 0 <= n < gx -> 0 <= m < gy ->
  filter (fun v => fst v =? m + n * gy) (visitsF gx gy) = [(m + n * gy, nb_classF gx gy n m)].
Proof.
  intros Hx Hy Hn Hm. unfold visitsF, nb_classF. cbv zeta. generalize (total_w 4 4) (total_w 3 2) (total_w 2 1). intros wi we wc. rewrite !filter_app'.
  rewrite (filter_two _ (fun n m => (m + n * gy, _)) n m) by (intros n' m' Hn' Hm'; cbn [fst]; apply at_pixel; lia).
  rewrite (filter_one _ (fun m => (m, weighF we [1; -1; gy] [gy + 1; gy - 1])) (if n =? 0 then m else -1)).
  2:{ intros k Hk. cbn [fst]. replace (k =? m + n * gy) with (k + 0 * gy =? m + n * gy) by (f_equal; lia).
      rewrite at_pixel by lia. destruct (n =? 0) eqn:E; lia. }
  rewrite (filter_one _ (fun m => (m + (gx - 1) * gy, weighF we [1; -1; -gy] [-gy + 1; -gy - 1])) (if n =? gx - 1 then m else -1)).
  2:{ intros k Hk. cbn [fst]. rewrite at_pixel by lia. destruct (n =? gx - 1) eqn:E; lia. }
  rewrite (filter_one _ (fun n => (n * gy, weighF we [1; gy; -gy] [gy + 1; -gy + 1])) (if m =? 0 then n else -1)).
  2:{ intros k Hk. cbn [fst]. replace (k * gy =? m + n * gy) with (0 + k * gy =? m + n * gy) by (f_equal; lia).
      rewrite at_pixel by lia. destruct (m =? 0) eqn:E; lia. }
  rewrite (filter_one _ (fun n => (gy - 1 + n * gy, weighF we [-1; gy; -gy] [gy - 1; -gy - 1])) (if m =? gy - 1 then n else -1)).
  2:{ intros k Hk. cbn [fst]. rewrite at_pixel by lia. destruct (m =? gy - 1) eqn:E; lia. }
  cbn [filter fst].
  replace (0 =? m + n * gy) with (0 + 0 * gy =? m + n * gy) by (f_equal; lia).
  replace (gy - 1 =? m + n * gy) with (gy - 1 + 0 * gy =? m + n * gy) by (f_equal; lia).
  replace ((gx - 1) * gy =? m + n * gy) with (0 + (gx - 1) * gy =? m + n * gy) by (f_equal; lia).
  rewrite !at_pixel by lia.
  destruct (n =? 0) eqn:E1; [|destruct (n =? gx - 1) eqn:E2]; (destruct (m =? 0) eqn:E3; [|destruct (m =? gy - 1) eqn:E4]);
  repeat match goal with
  | |- context [if ?b then _ else _] => first [replace b with true by lia | replace b with false by lia]; cbv iota
  end; cbn [app]; try reflexivity;
  repeat match goal with H : (_ =? _) = true |- _ => apply Z.eqb_eq in H; subst end; do 2 f_equal; lia.
Qed.
(** The list of the specification *)
Lemma nb_spec gx gy n m : 2 <= gx -> 2 <= gy -> 0 <= n < gx -> 0 <= m < gy ->
  nb_classF gx gy n m = map (fun '(a, b) => (b + a * gy, weight gx gy n m a b)) (offsets gx gy n m).
Proof.
  intros Hx Hy Hn Hm. unfold weight, total, offsets, nb_classF, weighF. cbv zeta. generalize (total_w 4 4) (total_w 3 2) (total_w 2 1). intros wi we wc. cbn [filter].
  destruct (n =? 0) eqn:E1; [|destruct (n =? gx - 1) eqn:E2]; (destruct (m =? 0) eqn:E3; [|destruct (m =? gy - 1) eqn:E4]);
  repeat match goal with
  | |- context [if ?b then _ else _] => first [replace b with true by lia | replace b with false by lia]; cbv iota
  end; cbn [map app length Z.eqb orb]; repeat (f_equal; try ring).
Qed.
