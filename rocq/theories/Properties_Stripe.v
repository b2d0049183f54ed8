(** Sorting based stripe removal (prep/stripe.py). *)
From Verif Require Import Base Order Model_Stripe Proofs_Stripe.
Local Open Scope Z_scope.

(** ** C34 *)
(** A sinogram of [w] columns and [n] projections as the list of its columns. *)
Definition sinogram {V} (w n : nat) (s : list (list V)) : Prop := length s = w /\ Forall (fun col => length col = n) s.
(** Value of column [c] at projection [p]. *)
Definition at_ {V} (s : list (list V)) (c p : nat) (v : V) : Prop := exists col, nth_error s c = Some col /\ nth_error col p = Some v.

(** Any filter: for each column there is a list of the projections in increasing order of value; the filter sees
    the values in this order, and what it returns at a place goes to the projection at this place. *)
Theorem C34_positions : forall {V} (lt : V -> V -> bool) sort_value sort_index (F : list (list V) -> list (list V)) w n s,
  weak_order (fun _ => True) lt -> sorts_by lt snd sort_value -> sorts_by Z.ltb fst sort_index -> sinogram w n s ->
  (forall m, sinogram w n m -> sinogram w n (F m)) ->
  exists order : nat -> list nat, exists sorted,
    (forall c, (c < w)%nat -> Permutation (order c) (seq 0 n)) /\
    sinogram w n sorted /\ (forall col, In col sorted -> ordered lt col) /\
    (forall c i p, (c < w)%nat -> nth_error (order c) i = Some p -> forall v, at_ sorted c i v <-> at_ s c p v) /\
    (forall c i p, (c < w)%nat -> nth_error (order c) i = Some p -> forall v, at_ (F sorted) c i v -> at_ (rs_sort sort_value sort_index F s) c p v).
Proof.
  intros V lt sv si F w n s wo HV HI S HF.
  exists (fun c => map (fun e => Z.to_nat (fst e)) (sv (numbered (nth c s [])))), (sorted_matrix sv s).
  assert (N : forall c col, nth_error s c = Some col -> nth c s [] = col) by (intros c col E; now apply nth_error_nth).
  split; [|split; [|split; [|split]]].
  - intros c Hc. destruct (shape_nth w n s c S Hc) as (col & E & L). rewrite (N _ _ E).
    rewrite <- (map_map fst Z.to_nat). rewrite (sorted_fst lt sv HV col), L. unfold zrange. rewrite map_map.
    erewrite map_ext with (g := fun k => k) by (intros; lia). rewrite map_id. replace (Z.to_nat (Z.of_nat n - 0)) with n by lia. reflexivity.
  - now apply (sorted_matrix_shape lt).
  - intros col Hin. unfold sorted_matrix in Hin. rewrite map_map in Hin. apply in_map_iff in Hin. destruct Hin as (c0 & <- & _). apply HV.
  - intros c i p Hc Hi v. destruct (shape_nth w n s c S Hc) as (col & E & L). rewrite (N _ _ E) in Hi.
    rewrite nth_error_map in Hi. destruct (nth_error (sv (numbered col)) i) as [[z u]|] eqn:Ei; [|discriminate]. cbn in Hi. injection Hi as <-.
    destruct (sorted_entry lt sv HV col i z u Ei) as [_ Eu]. pose proof (sorted_matrix_nth sv s c col E) as M.
    pose proof (map_nth_error snd i _ Ei) as Mi. cbn in Mi.
    split; intros (k & A & B); [exists col|exists (map snd (sv (numbered col)))]; split; auto; congruence.
  - intros c i p Hc Hi v (fcol & EF & Ev). destruct (shape_nth w n s c S Hc) as (col & E & L). rewrite (N _ _ E) in Hi.
    rewrite nth_error_map in Hi. destruct (nth_error (sv (numbered col)) i) as [[z u]|] eqn:Ei; [|discriminate]. cbn in Hi. injection Hi as <-.
    assert (LF : length fcol = n).
    { destruct (HF _ (sorted_matrix_shape lt sv HV w n s S)) as [_ FF]. rewrite Forall_forall in FF. apply FF. eapply nth_error_In; eauto. }
    destruct (rs_sort_column lt sv si HI HV F s c col E fcol EF ltac:(congruence)) as (ocol & EO & _ & O).
    exists ocol. split; auto. apply (O i z u); auto.
Qed.

(** A filter that changes nothing leaves the sinogram unchanged. *)
Theorem C34_identity : forall {V} (lt : V -> V -> bool) sort_value sort_index s,
  sorts_by lt snd sort_value -> sorts_by Z.ltb fst sort_index -> rs_sort sort_value sort_index (fun m => m) s = s.
Proof.
  intros V lt sv si s HV HI. apply list_nth_ext. intros c. destruct (nth_error s c) as [col|] eqn:E.
  2:{ apply nth_error_None. apply nth_error_None in E. rewrite rs_sort_length; auto. now rewrite !map_length. }
  pose proof (sorted_matrix_nth sv s c col E) as M.
  destruct (rs_sort_column lt sv si HI HV (fun m => m) s c col E _ M) as (ocol & EO & LO & O).
  { now rewrite map_length, (sorted_length lt). }
  rewrite EO. f_equal. apply list_nth_ext. intros p. destruct (nth_error col p) as [v|] eqn:Ep.
  - destruct (sorted_place lt sv HV col p v Ep) as (i & Hi). pose proof (map_nth_error snd i _ Hi) as Mi.
    rewrite <- (Nat2Z.id p). apply (O i _ _ _ Hi Mi).
  - apply nth_error_None. apply nth_error_None in Ep. lia.
Qed.

(** The values of a column keep their rank order: windows over neighbouring columns (dim = 1) always, square
    windows (dim = 2) if the window is not larger than twice the number of projections. *)
Theorem C34_rank_order : forall {V} (lt : V -> V -> bool) dflt sort_value sort_index w n s size dim c p q x y u v,
  weak_order (fun _ => True) lt -> sorts_by lt snd sort_value -> sorts_by Z.ltb fst sort_index -> sinogram w n s ->
  0 < size -> dim = 1 \/ size <= 2 * Z.of_nat n ->
  at_ s c p x -> at_ s c q y -> lt x y = true ->
  let out := remove_stripe_based_sorting sort_value sort_index lt dflt (Some size) dim s in
  at_ out c p u -> at_ out c q v -> lt v u = false.
Proof.
  intros V lt dflt sv si w n s size dim c p q x y u v wo HV HI S Hs Hd (colx & Ex & Hx) (coly & Ey & Hy) Hlt out (ou & Eu & Hu) (ov & Ev & Hv).
  assert (colx = coly) by congruence. subst coly. assert (ou = ov) by congruence. subst ov.
  assert (Hc : (c < w)%nat) by (destruct S as [<- _]; apply nth_error_Some; congruence).
  assert (Hw : (0 < w)%nat) by lia.
  rewrite <- (at2_nth dflt _ _ _ _ _ Eu Hu), <- (at2_nth dflt _ _ _ _ _ Ev Hv).
  unfold out, remove_stripe_based_sorting.
  apply (rs_sort_rank_order lt wo dflt sv si HV HI (sort_filter lt dflt size dim) w n s c p q x y); auto.
  - unfold sort_filter. pose proof (sorted_matrix_shape lt sv HV w n s S). destruct (dim =? 1); now apply median_filter_keeps_shape.
  - pose proof (sorted_matrix_shape lt sv HV w n s S) as SM. pose proof (shape_nth0 _ _ _ SM Hw) as N0.
    pose proof (sorted_matrix_sorted lt wo dflt sv HV w n s S) as R.
    assert (L : (0 < length (sorted_matrix sv s))%nat) by (destruct SM; lia).
    unfold sort_filter. destruct (Z.eqb_spec dim 1) as [|Hd'].
    + pose proof (median_filter_sorted lt wo dflt (sorted_matrix sv s) size 1 L) as M. cbv zeta in M. rewrite N0 in M. apply M; auto; lia.
    + pose proof (median_filter_sorted lt wo dflt (sorted_matrix sv s) size size L) as M. cbv zeta in M. rewrite N0 in M. apply M; auto; lia.
  - intros col Hcol. assert (col = colx) by congruence. subst. auto.
Qed.
(** Without a size the window has 5 to 21 columns, one percent of the width from 500 to 2000 columns; so the order is kept
    for both window shapes from 11 projections on. *)
Theorem C34_default : forall {V} (lt : V -> V -> bool) dflt sort_value sort_index w n (s : list (list V)) dim, sinogram w n s ->
  exists size, 5 <= size <= 21 /\ (500 <= Z.of_nat w <= 2000 -> 100 * size <= Z.of_nat w < 100 * size + 100) /\
    remove_stripe_based_sorting sort_value sort_index lt dflt None dim s = remove_stripe_based_sorting sort_value sort_index lt dflt (Some size) dim s.
Proof.
  intros V lt dflt sv si w n s dim [L _]. exists (default_size (Z.of_nat w)). unfold remove_stripe_based_sorting. rewrite L. unfold default_size.
  destruct (Z.of_nat w >? 2000) eqn:E; (split; [|split; [|reflexivity]]); lia.
Qed.
(** Finding: a square window larger than that is reflected more than once and can reverse the order. *)
Definition sort_snd : list (Z * Z) -> list (Z * Z) := isort (fun a b => snd a <? snd b).
Definition sort_fst : list (Z * Z) -> list (Z * Z) := isort (fun a b => fst a <? fst b).
Lemma ordered_map {A K} (lt : K -> K -> bool) (key : A -> K) l : ordered (fun a b => lt (key a) (key b)) l -> ordered lt (map key l).
Proof. induction 1 as [|a l O IH F]; cbn; constructor; auto. now rewrite Forall_map. Qed.
Lemma sort_snd_ok : sorts_by Z.ltb snd sort_snd.
Proof.
  intros l. destruct (isort_sorts (fun _ => True) (fun a b : Z * Z => snd a <? snd b)) with (l := l) as [P O].
  - split; intros; lia.
  - split; auto. apply ordered_map. apply O. apply Forall_forall. auto.
Qed.
Lemma sort_fst_ok : sorts_by Z.ltb fst sort_fst.
Proof.
  intros l. destruct (isort_sorts (fun _ => True) (fun a b : Z * Z => fst a <? fst b)) with (l := l) as [P O].
  - split; intros; lia.
  - split; auto. apply ordered_map. apply O. apply Forall_forall. auto.
Qed.
Theorem C34_large_window_refuted : exists s size, sinogram 1 2 s /\ 2 * 2 < size /\
  at_ s 0 0 1 /\ at_ s 0 1 2 /\
  let out := remove_stripe_based_sorting sort_snd sort_fst Z.ltb 0 (Some size) 2 s in
  at_ out 0 0 2 /\ at_ out 0 1 1.
Proof.
  exists [[1; 2]], 7. split; [split; repeat constructor|]. split; [lia|].
  split; [exists [1; 2]; auto|]. split; [exists [1; 2]; auto|]. cbv zeta.
  assert (E : remove_stripe_based_sorting sort_snd sort_fst Z.ltb 0 (Some 7) 2 [[1; 2]] = [[2; 1]]) by (vm_compute; reflexivity).
  rewrite E. split; exists [2; 1]; auto.
Qed.
Example C34_ex : remove_stripe_based_sorting sort_snd sort_fst Z.ltb 0 (Some 3) 1 [[3; 1; 2]; [30; 10; 20]; [2; 3; 1]] = [[3; 1; 2]; [3; 1; 2]; [2; 3; 1]].
Proof. vm_compute. reflexivity. Qed.

Print Assumptions C34_positions.
Print Assumptions C34_identity.
Print Assumptions C34_rank_order.
Print Assumptions C34_large_window_refuted.
Print Assumptions C34_default.
