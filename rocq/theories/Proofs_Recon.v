From Coq Require String.
Import String.StringSyntax.
From Verif Require Import Base Model_Mproc Proofs_Mproc Model_Sched Proofs_Sched Model_Recon.

(** ** Validation *)
Lemma mem_str_In x l : mem_str x l = true <-> In x l.
Proof.
  unfold mem_str. rewrite existsb_exists. split.
  - intros (y & Hy & E). apply String.eqb_eq in E. now subst.
  - intros H. exists x. split; auto. apply String.eqb_refl.
Qed.

(** Two tables that accept the same words. *)
Definition same_words (v w : list string) : Prop := forall x, In x v <-> In x w.

Definition acc_of (k : string) : list string :=
  match lookup allowed_accelerated_kwargs k with Some l => l | None => [] end.

(** Invariant: same keys in the same order, each list contains its initial words and at most the
    words of the accelerated table in addition. *)
Definition table_inv (t : table) : Prop :=
  Forall2 (fun e0 e => fst e0 = fst e /\ incl (snd e0) (snd e) /\
                       incl (snd e) (snd e0 ++ acc_of (fst e0)))
          allowed_recon_kwargs0 t.

Lemma table_inv_init : table_inv allowed_recon_kwargs0.
Proof.
  unfold table_inv. generalize allowed_recon_kwargs0. intros t.
  induction t as [|[k v] t IH]; constructor; auto.
  cbn. repeat split; [apply incl_refl|apply incl_appl, incl_refl].
Qed.

Lemma extend_inv t a :
  table_inv t -> table_inv (extend t a (acc_of a)).
Proof.
  unfold table_inv. generalize allowed_recon_kwargs0. intros t0 H.
  induction H as [|[k0 v0] [k v] t0 t (Hk & H1 & H2) H IH]; cbn; [constructor|].
  cbn in Hk, H1, H2. subst k.
  destruct (String.eqb a k0) eqn:E.
  - constructor; auto. cbn. apply String.eqb_eq in E. subst k0. repeat split.
    + now apply incl_appl.
    + apply incl_app; auto. apply incl_appr, incl_refl.
  - constructor; auto.
Qed.

Lemma extend_nil t a : extend t a [] = t.
Proof.
  induction t as [|[k v] t IH]; cbn; auto.
  destruct (String.eqb a k); [now rewrite app_nil_r | now rewrite IH].
Qed.

Lemma validate_table t c :
  snd (recon_validate t c) =
    match c_alg c with
    | AlgName a => if (c_dt c =? c_ntheta c)%Z then extend t a (acc_of a) else t
    | _ => t
    end.
Proof.
  unfold recon_validate. destruct (c_dt c =? c_ntheta c)%Z; cbn [negb]; [|destruct (c_alg c); reflexivity].
  destruct (c_alg c) as [a| |]; auto.
  - assert (E : match lookup allowed_accelerated_kwargs a with
                | Some ext => extend t a ext | None => t end = extend t a (acc_of a)).
    { unfold acc_of. destruct (lookup allowed_accelerated_kwargs a); auto. now rewrite extend_nil. }
    rewrite E. clear E. destruct (lookup (extend t a (acc_of a)) a); auto.
    repeat match goal with |- context[if negb ?b then _ else _] => destruct b; cbn [negb]; auto end.
  - destruct (negb _); auto.
Qed.

Lemma table_after_snoc h c :
  table_after (h ++ [c]) = snd (recon_validate (table_after h) c).
Proof. unfold table_after. now rewrite fold_left_app. Qed.

Lemma table_after_inv h : table_inv (table_after h).
Proof.
  induction h as [|c h IH] using rev_ind.
  - exact table_inv_init.
  - rewrite table_after_snoc, validate_table.
    destruct (c_alg c); auto. destruct (_ =? _)%Z; auto. now apply extend_inv.
Qed.

Lemma lookup_inv t a :
  table_inv t ->
  match lookup allowed_recon_kwargs0 a, lookup (extend t a (acc_of a)) a with
  | None, None => True
  | Some v0, Some v => same_words v (v0 ++ acc_of a)
  | _, _ => False
  end.
Proof.
  unfold table_inv. generalize allowed_recon_kwargs0. intros t0 H.
  induction H as [|[k0 v0] [k v] t0 t (Hk & H1 & H2) H IH]; cbn; [exact I|].
  cbn in Hk, H1, H2. subst k.
  destruct (String.eqb a k0) eqn:E; cbn; rewrite E; auto.
  apply String.eqb_eq in E. subst k0. intros x. rewrite !in_app_iff. split.
  - intros [Hx|Hx]; [|now right]. specialize (H2 x Hx). now apply in_app_iff in H2.
  - intros [Hx|Hx]; [left; now apply H1|now right].
Qed.

Lemma forallb_same (f : string -> bool) v w :
  same_words v w -> forallb f v = forallb f w.
Proof.
  intros H. apply eq_true_iff_eq. rewrite !forallb_forall. split; intros G x Hx; apply G, H, Hx.
Qed.

Lemma mem_str_same x v w : same_words v w -> mem_str x v = mem_str x w.
Proof. intros H. apply eq_true_iff_eq. rewrite !mem_str_In. apply H. Qed.

(** The words documented for an algorithm. *)
Definition documented (a : string) : option (list string) :=
  match lookup allowed_recon_kwargs0 a with
  | Some v => Some (v ++ acc_of a)
  | None => None
  end.

Lemma documented_defaults a v :
  documented a = Some v -> forallb (fun k => mem_str k default_keys) v = true.
Proof.
  unfold documented. intros H.
  destruct (lookup allowed_recon_kwargs0 a) as [v0|] eqn:E; [|discriminate].
  injection H as <-.
  cbn in E.
  repeat match type of E with
  | (if String.eqb a ?k then _ else _) = _ =>
      destruct (String.eqb a k) eqn:?; [
        match goal with Hk : String.eqb a k = true |- _ => apply String.eqb_eq in Hk; subst a end;
        injection E as <-; vm_compute; reflexivity | ]
  end.
  discriminate.
Qed.

Lemma validate_verdict h c :
  fst (recon_validate (table_after h) c) = fst (recon_validate allowed_recon_kwargs0 c).
Proof.
  unfold recon_validate.
  destruct (negb (c_dt c =? c_ntheta c)%Z); auto.
  destruct (c_alg c) as [a| |]; auto.
  - assert (E : forall t, match lookup allowed_accelerated_kwargs a with
                | Some ext => extend t a ext | None => t end = extend t a (acc_of a)).
    { intros t. unfold acc_of. destruct (lookup allowed_accelerated_kwargs a); auto. now rewrite extend_nil. }
    rewrite !E.
    pose proof (lookup_inv _ a (table_after_inv h)) as L1.
    pose proof (lookup_inv _ a table_inv_init) as L2.
    destruct (lookup allowed_recon_kwargs0 a) as [v0|].
    + destruct (lookup (extend (table_after h) a (acc_of a)) a) as [v|]; [|contradiction].
      destruct (lookup (extend allowed_recon_kwargs0 a (acc_of a)) a) as [w|]; [|contradiction].
      assert (S : same_words v w). { intros x. now rewrite (L1 x), (L2 x). }
      assert (E1 : forallb (fun k => mem_str k v) (c_kwargs c) = forallb (fun k => mem_str k w) (c_kwargs c)).
      { induction (c_kwargs c) as [|k ks IH]; cbn; auto. now rewrite IH, (mem_str_same k v w S). }
      rewrite E1, (forallb_same _ v w S).
      repeat match goal with |- context[if negb ?b then _ else _] => destruct b; cbn [negb]; auto end.
    + destruct (lookup (extend (table_after h) a (acc_of a)) a); [contradiction|].
      destruct (lookup (extend allowed_recon_kwargs0 a (acc_of a)) a); [contradiction|].
      reflexivity.
  - destruct (negb _); auto.
Qed.

(** Closed form of the verdict. *)
Definition acceptable (c : call) : Prop :=
  c_dt c = c_ntheta c /\ c_dy c = center_len c /\
  match c_alg c with
  | AlgName a => exists v, documented a = Some v /\ forall k, In k (c_kwargs c) -> In k v
  | AlgCallable => True
  | AlgOther => False
  end.

Lemma validate_exact h c :
  (acceptable c -> fst (recon_validate (table_after h) c) = Ok tt) /\
  (~ acceptable c -> fst (recon_validate (table_after h) c) = Raise ValueError).
Proof.
  rewrite validate_verdict. unfold acceptable, recon_validate.
  destruct (c_dt c =? c_ntheta c)%Z eqn:Et; cbn [negb].
  2:{ split; [intros [H _]; lia | reflexivity]. }
  destruct (c_alg c) as [a| |]; [| |split; [tauto|reflexivity]].
  - assert (E : forall t, match lookup allowed_accelerated_kwargs a with
                | Some ext => extend t a ext | None => t end = extend t a (acc_of a)).
    { intros t. unfold acc_of. destruct (lookup allowed_accelerated_kwargs a); auto. now rewrite extend_nil. }
    rewrite E.
    pose proof (lookup_inv _ a table_inv_init) as L2.
    pose proof (documented_defaults a) as D. unfold documented in *.
    destruct (lookup allowed_recon_kwargs0 a) as [v0|].
    + destruct (lookup (extend allowed_recon_kwargs0 a (acc_of a)) a) as [w|]; [|contradiction].
      rewrite (forallb_same _ w _ L2), (D _ eq_refl).
      destruct (forallb (fun k => mem_str k w) (c_kwargs c)) eqn:Ek; cbn [negb].
      * rewrite forallb_forall in Ek.
        assert (Hk : forall k, In k (c_kwargs c) -> In k (v0 ++ acc_of a)).
        { intros k Hk. apply L2, mem_str_In, Ek, Hk. }
        destruct (c_dy c =? center_len c)%Z eqn:Ec; cbn [negb fst].
        -- split; auto. intros H. exfalso. apply H. repeat split; try lia. eauto.
        -- split; auto. intros (_ & H & _). lia.
      * split; auto. intros (_ & _ & v & [= <-] & H). exfalso.
        assert (Hb : forallb (fun k => mem_str k w) (c_kwargs c) = true).
        { apply forallb_forall. intros k Hk. apply mem_str_In, L2, H, Hk. }
        congruence.
    + destruct (lookup (extend allowed_recon_kwargs0 a (acc_of a)) a); [contradiction|].
      split; auto. intros (_ & _ & v & H & _). discriminate.
  - destruct (c_dy c =? center_len c)%Z eqn:Ec; cbn [negb fst].
    + split; auto. intros H. exfalso. apply H. repeat split; lia.
    + split; auto. intros (_ & H & _). lia.
Qed.

(** The table itself grows. *)
Local Open Scope string_scope.
Definition mlem_call : call :=
  {| c_alg := AlgName "mlem"; c_kwargs := ["num_iter"]; c_dy := 4; c_dt := 9; c_ntheta := 9;
     c_center := CenterNone |}.

Lemma table_growth k :
  match lookup (table_after (repeat mlem_call k)) "mlem" with
  | Some v => length v = 3 + 6 * k
  | None => False
  end.
Proof.
  assert (H : forall k t, match lookup t "mlem" with Some v => length v = 3 + 6 * k | None => False end ->
    match lookup (snd (recon_validate t mlem_call)) "mlem" with
    | Some v => length v = 3 + 6 * (S k) | None => False end).
  { intros j t Ht. rewrite validate_table.
    change (c_alg mlem_call) with (AlgName "mlem").
    change (c_dt mlem_call =? c_ntheta mlem_call)%Z with true. cbv iota.
    induction t as [|[a v] t IH]; cbn [lookup] in Ht; [contradiction|].
    cbn [extend]. destruct (String.eqb "mlem" a) eqn:Ea; cbn [lookup]; rewrite Ea.
    - rewrite app_length, Ht. change (length (acc_of "mlem")) with 6. lia.
    - now apply IH. }
  induction k as [|k IH].
  - vm_compute. reflexivity.
  - replace (S k) with (k + 1) by lia. rewrite repeat_app.
    change (repeat mlem_call 1) with [mlem_call]. rewrite table_after_snoc.
    replace (k + 1) with (S k) by lia. apply H. exact IH.
Qed.

Local Close Scope string_scope.

(** ** numexpr threads *)
Lemma exec_prog_restores cpu maxt p :
  forall s, (1 <= s <= maxt)%Z -> snd (exec_prog cpu maxt p s) = s.
Proof.
  induction p as [| |p IHp q IHq|n p IHp]; intros s Hs; cbn; auto.
  - specialize (IHp s Hs). destruct (exec_prog cpu maxt p s) as [r s1]. cbn in IHp. subst s1.
    destruct r; auto.
  - destruct (ne_set maxt _) as [s1|]; auto.
    destruct (exec_prog cpu maxt p s1) as [r s2].
    unfold ne_set. replace ((1 <=? s)%Z && (s <=? maxt)%Z) with true by lia. reflexivity.
Qed.

(** ** Environment variable *)
Section Env.
  Variable str : Type.
  Variable parse : str -> option Z.
  Variable show : Z -> str.
  Variable nonempty : str -> bool.
  Hypothesis show_nonempty : forall z, nonempty (show z) = true.
  Hypothesis parse_show : forall z, parse (show z) = Some z.

  Notation dre := (dist_recon_env str parse show nonempty).
  Notation step := (env_step str parse show nonempty).

  (** An algorithm that does not touch the variable. *)
  Definition quiet (b : option str -> result unit * option str) : Prop :=
    forall e, snd (b e) = e.

  Lemma env_restored_ok cpu n rp ncore nchunk body env k env' :
    quiet body ->
    dre cpu n rp ncore nchunk body env = (Ok k, env') -> env' = env.
  Proof.
    intros Hq. unfold dist_recon_env.
    destruct (dist_plan cpu n rp ncore nchunk) as [e|[k0 use]]; [discriminate|].
    destruct (limit_ncore str parse env k0) as [e|k1]; [discriminate|].
    destruct (k1 <? 1)%Z; [discriminate|].
    specialize (Hq (Some (show k1))).
    destruct (body (Some (show k1))) as [[e|u] env2]; [discriminate|].
    intros [= <- <-]. cbn in Hq. subst env2. unfold restore_env.
    destruct env; auto. now rewrite show_nonempty.
  Qed.

  Lemma env_history_ok cpu h env :
    (forall c, In c h -> quiet (e_body str c)) ->
    (forall h1 c h2, h = (h1 ++ c :: h2) ->
       exists k, fst (step cpu c (env_after str parse show nonempty cpu h1 env)) = Ok k) ->
    env_after str parse show nonempty cpu h env = env.
  Proof.
    unfold env_after. induction h as [|c h IH] using rev_ind; intros Hq Hok; auto.
    rewrite fold_left_app. cbn [fold_left].
    assert (E : fold_left (fun e c => snd (step cpu c e)) h env = env).
    { apply IH.
      - intros d Hd. apply Hq. apply in_or_app. now left.
      - intros h1 d h2 ->. apply (Hok h1 d (h2 ++ [c])).
        now rewrite <- app_assoc. }
    destruct (Hok h c []) as [k Hk]; [reflexivity|].
    unfold env_after in Hk. rewrite E in *.
    destruct (step cpu c env) as [r env'] eqn:Es. cbn in Hk |- *. subst r.
    eapply env_restored_ok; [|exact Es]. apply Hq. apply in_or_app. right. now left.
  Qed.

  (** A raising algorithm leaves the thread count behind; from then on every call is limited. *)
  Definition raising_body : option str -> result unit * option str := fun e => (Raise UserError, e).

  Lemma env_leak_limits :
    let c1 := {| e_n := 1; e_rest := true; e_ncore := Some 1%Z; e_nchunk := None; e_body := raising_body |} in
    let c2 := {| e_n := 8; e_rest := true; e_ncore := Some 8%Z; e_nchunk := None;
                 e_body := fun e => (Ok tt, e) |} in
    env_after str parse show nonempty 8 [c1] None <> None /\
    fst (step 8 c2 None) = Ok 8%Z /\
    fst (step 8 c2 (env_after str parse show nonempty 8 [c1] None)) = Ok 1%Z.
  Proof.
    intros c1 c2.
    assert (E : env_after str parse show nonempty 8 [c1] None = Some (show 1%Z)) by reflexivity.
    rewrite E. split; [discriminate|]. split; [reflexivity|].
    unfold env_step, dist_recon_env. cbn [e_n e_rest e_ncore e_nchunk e_body c2].
    destruct (dist_plan 8 8 true (Some 8%Z) None) as [e|[k use]] eqn:Ep; [vm_compute in Ep; discriminate|].
    assert (k = 8%Z) as -> by (vm_compute in Ep; congruence).
    cbn [limit_ncore]. rewrite parse_show. reflexivity.
  Qed.

  (** One call on an empty stack (a dimension of size zero) poisons all later calls. *)
  Lemma env_poisoned c :
    (1 <= e_n str c)%Z -> e_ncore str c = None -> e_nchunk str c = None ->
    e_rest str c = true ->
    let bad := {| e_n := 1; e_rest := false; e_ncore := None; e_nchunk := None;
                  e_body := fun e => (Ok tt, e) |} in
    forall cpu, (1 <= cpu)%Z ->
    fst (step cpu c (env_after str parse show nonempty cpu [bad] None)) = Raise ValueError.
  Proof.
    intros Hn Hc Hk Hr bad cpu Hcpu. subst bad.
    assert (E : env_after str parse show nonempty cpu
       [{| e_n := 1; e_rest := false; e_ncore := None; e_nchunk := None;
           e_body := fun e => (Ok tt, e) |}] None = Some (show 0%Z)).
    { unfold env_after. cbn [fold_left]. unfold env_step, dist_recon_env, dist_plan. cbn [e_n e_rest e_ncore e_nchunk e_body].
      destruct (ncore_slices_ok cpu 1 None None) as (k & l & E); try lia; try discriminate.
      rewrite E. unfold Ok at 1. cbv beta iota zeta.
      assert (F : filter (usable 1 false) l = []).
      { clear. induction l as [|[a b|i] l IH]; cbn; auto. }
      rewrite F. cbn [length Z.of_nat].
      destruct (slices_balanced cpu 1 None k l ltac:(lia) Hcpu ltac:(discriminate) E) as (Hk' & Hlen & _).
      cbn in Hk'.
      replace (Z.of_nat (length l) <? k)%Z with false by lia.
      replace (0 <? k)%Z with true by lia.
      reflexivity. }
    rewrite E. unfold env_step, dist_recon_env, dist_plan.
    rewrite Hc, Hk, Hr.
    destruct (ncore_slices_ok cpu (e_n str c) None None) as (k & l & E2); try lia; try discriminate.
    rewrite E2.
    destruct (slices_balanced cpu (e_n str c) None k l Hn Hcpu ltac:(discriminate) E2) as (Hk' & Hlen & Hb).
    cbn in Hk'.
    unfold Ok at 1 2. cbv beta iota zeta.
    cbn [limit_ncore]. rewrite parse_show. unfold Ok at 1. cbv beta iota zeta.
    match goal with |- context[(0 <? ?x)%Z] => set (k2 := x) end.
    destruct (0 <? k2)%Z eqn:E3; [reflexivity|].
    replace (k2 <? 1)%Z with true by lia. reflexivity.
  Qed.
End Env.

(** ** Failures *)
Section Failures.
  Context {J : Type}.

  Lemma run_pool_perm (w : J -> outcome) order l q :
    run_pool w order = (l, q, None) ->
    Permutation (l ++ q) order /\ (forall j, In j order -> match w j with Fail _ => False | _ => True end).
  Proof.
    revert l q; induction order as [|j t IH]; intros l q H; cbn in H.
    - injection H as <- <-. split; [constructor|]. intros j [].
    - destruct (run_pool w t) as [[l0 q0] f0] eqn:E.
      destruct (w j) eqn:Ew; try discriminate.
      + injection H as <- <- ->. destruct (IH l0 q0 eq_refl) as [P F]. split.
        * cbn. now constructor.
        * intros i [<-|Hi]; [now rewrite Ew|exact (F i Hi)].
      + injection H as <- <- ->. destruct (IH l0 q0 eq_refl) as [P F]. split.
        * rewrite <- Permutation_middle. now constructor.
        * intros i [<-|Hi]; [now rewrite Ew|exact (F i Hi)].
  Qed.

  Lemma run_pool_fail (w : J -> outcome) order l q f :
    run_pool w order = (l, q, f) -> (exists j e, In j order /\ w j = Fail e) -> f <> None.
  Proof.
    intros H (j & e & Hj & He) ->. apply run_pool_perm in H. destruct H as [_ F].
    specialize (F j Hj). now rewrite He in F.
  Qed.

  Lemma clear_queue_perm (h : nat -> J -> outcome) fuel : forall k q l l',
    clear_queue h k fuel q l = Returned l' -> Permutation l' (l ++ q).
  Proof.
    induction fuel as [|fuel IH]; intros k q l l' H; destruct q as [|j t]; cbn in H; try discriminate.
    - injection H as <-. now rewrite app_nil_r.
    - injection H as <-. now rewrite app_nil_r.
    - destruct (h k j).
      + apply IH in H. rewrite H, <- app_assoc. reflexivity.
      + apply IH in H. rewrite H. apply Permutation_app_head. symmetry. apply Permutation_cons_append.
      + discriminate.
  Qed.

  Lemma clear_queue_total (h : nat -> J -> outcome) :
    (forall k j, h k j = Done) ->
    forall q fuel k l, (length q <= fuel)%nat -> clear_queue h k fuel q l = Returned (l ++ q).
  Proof.
    intros Hd. induction q as [|j t IH]; intros fuel k l Hf.
    - rewrite app_nil_r. destruct fuel; reflexivity.
    - destruct fuel as [|fuel]; cbn in Hf; [lia|]. cbn. rewrite Hd.
      rewrite IH by lia. now rewrite <- app_assoc.
  Qed.

  Lemma run_pool_queue_length (w : J -> outcome) order l q f :
    run_pool w order = (l, q, f) -> (length q <= length order)%nat.
  Proof.
    revert l q f; induction order as [|j t IH]; intros l q f H; cbn in H.
    - injection H as <- <- <-. cbn. lia.
    - destruct (run_pool w t) as [[l0 q0] f0] eqn:E. specialize (IH l0 q0 f0 eq_refl).
      destruct (w j); injection H as <- <- <-; cbn; lia.
  Qed.

  Lemma clear_queue_livelock (h : nat -> J -> outcome) j :
    (forall k i, h k i = OnHost) -> forall fuel k, clear_queue h k fuel [j] [] = OutOfFuel.
  Proof.
    intros Hh. induction fuel as [|fuel IH]; intros k; cbn; auto. rewrite Hh. cbn. apply IH.
  Qed.
End Failures.

(** ** Kernels *)
Section Kernels.
  Context {V : Type}.
  Variable d : V.

  Lemma nth_flat_map_block {A B} (f : A -> list B) (l : list A) (len : nat) (dd : B) :
    (forall a, In a l -> length (f a) = len) ->
    forall a k x, nth_error l a = Some x -> (k < len)%nat ->
    nth (a * len + k) (flat_map f l) dd = nth k (f x) dd.
  Proof.
    intros Hlen. induction l as [|y l IH]; intros a k x Ha Hk.
    - destruct a; discriminate.
    - cbn [flat_map]. destruct a as [|a]; cbn [nth_error] in Ha.
      + injection Ha as <-. cbn [Nat.mul Nat.add]. rewrite app_nth1; auto.
        rewrite Hlen by now left. exact Hk.
      + rewrite app_nth2; rewrite (Hlen y) by (now left); [|cbn; lia].
        replace (S a * len + k - len)%nat with (a * len + k)%nat by (cbn; lia).
        apply IH; auto. intros b Hb. apply Hlen. now right.
  Qed.

  Lemma columns_reads narr idx (m : @mem cell V) :
    (0 < narr)%nat ->
    columns d narr (map m (read_cells narr idx)) =
    map (fun i => map (fun a => m (a, i)) (seq 0 narr)) idx.
  Proof.
    intros Hn. unfold columns.
    assert (Hl : length (map m (read_cells narr idx)) = (narr * length idx)%nat).
    { rewrite map_length. unfold read_cells.
      assert (G : forall s, length (flat_map (fun a => map (fun i => (a, i)) idx) (seq s narr)) = (narr * length idx)%nat).
      { clear. induction narr as [|n IH]; intros s; cbn; auto. rewrite app_length, map_length, IH. lia. }
      apply G. }
    rewrite Hl.
    assert (Hq : (narr * length idx / narr = length idx)%nat).
    { rewrite Nat.mul_comm. apply Nat.div_mul. lia. }
    rewrite Hq.
    apply nth_ext with (d := []) (d' := []).
    - now rewrite !map_length, seq_length.
    - intros k Hk. rewrite map_length, seq_length in Hk.
      set (h := fun k0 => map (fun a => nth (a * length idx + k0) (map m (read_cells narr idx)) d) (seq 0 narr)).
      set (h2 := fun i => map (fun a => m (a, i)) (seq 0 narr)).
      rewrite (nth_indep (map h _) [] (h 0%nat)) by now rewrite map_length, seq_length.
      rewrite map_nth, seq_nth by exact Hk. cbn [Nat.add].
      rewrite (nth_indep (map h2 idx) [] (h2 0%Z)) by now rewrite map_length.
      rewrite map_nth. unfold h, h2.
      apply map_ext_in. intros a Ha. apply in_seq in Ha.
      unfold read_cells. 
      assert (E : map m (flat_map (fun a0 => map (fun i => (a0, i)) idx) (seq 0 narr)) =
                  flat_map (fun a0 => map (fun i => m (a0, i)) idx) (seq 0 narr)).
      { rewrite flat_map_concat_map, concat_map, map_map, flat_map_concat_map.
        f_equal. apply map_ext. intros b. now rewrite map_map. }
      rewrite E.
      rewrite nth_flat_map_block with (len := length idx) (x := a); auto.
      + rewrite (nth_indep _ d (m (a, 0%Z))) by now rewrite map_length.
        now rewrite (map_nth (fun i => m (a, i))).
      + intros; apply map_length.
      + rewrite (nth_error_nth' _ 0%nat) by (rewrite seq_length; lia).
        rewrite seq_nth by lia. reflexivity.
  Qed.

  (** Result of all jobs for a pure chunk function. *)
  Lemma pure_jobs_result (f : list V -> list V) narr out n slcs m0 m ts :
    concat (map (slc_indices n) slcs) = zrange 0 n ->
    steps cell_eq m0 (jobs f narr out n slcs) m ts -> finished ts ->
    (forall s k i v, In s slcs -> nth_error (slc_indices n s) k = Some i ->
        nth_error (f (map m0 (read_cells narr (slc_indices n s)))) k = Some v -> m (out, i) = v) /\
    (forall a i, a <> out -> m (a, i) = m0 (a, i)).
  Proof.
    intros Hcov Hst Hfin.
    assert (Hnd : NoDup (concat (map (slc_indices n) slcs))).
    { rewrite Hcov. apply NoDup_zrange. }
    destruct (complete_run cell_eq _ m0 _ m ts (jobs_separated f narr out n slcs Hnd) Hst Hfin) as [H1 H2].
    assert (Hndj : forall s, NoDup (slc_indices n s)).
    { intros s. destruct s; cbn; [apply NoDup_zrange|].
      destruct (_ && _); repeat constructor. auto. }
    assert (Hrun : forall s a i, In s slcs -> In i (slc_indices n s) ->
       m (a, i) = snd (run_actions cell_eq (job_prog f narr out (slc_indices n s)) [] m0) (a, i)).
    { intros s a i Hs Hi. apply In_nth_error in Hs. destruct Hs as (j & Hj).
      apply (H1 j (job f narr out (slc_indices n s)) (a, i)).
      - unfold jobs. erewrite map_nth_error by eauto. reflexivity.
      - unfold footprint. erewrite map_nth_error by eauto. exact Hi. }
    split.
    - intros s k i v Hs Hk Hv. rewrite (Hrun s out i Hs (nth_error_In _ _ Hk)).
      eapply (proj1 (job_result f narr out (slc_indices n s) m0 (Hndj s))); eauto.
    - intros a i Ha. destruct (in_dec Z.eq_dec i (zrange 0 n)) as [Hin|Hni].
      + rewrite <- Hcov in Hin. apply in_concat in Hin. destruct Hin as (idx & Hidx & Hin).
        apply in_map_iff in Hidx. destruct Hidx as (s & <- & Hs).
        rewrite (Hrun s a i Hs Hin).
        apply (proj2 (job_result f narr out (slc_indices n s) m0 (Hndj s))). now left.
      + apply H2. intros j Hj Hf. unfold footprint in Hf. rewrite nth_error_map in Hf.
        destruct (nth_error slcs j) as [s|] eqn:E; cbn in Hf; [|contradiction].
        apply Hni. rewrite <- Hcov. apply in_concat. exists (slc_indices n s).
        split; auto. apply in_map_iff. exists s. split; auto. eapply nth_error_In; eauto.
  Qed.

  Lemma in_cover n slcs i :
    concat (map (slc_indices n) slcs) = zrange 0 n -> (0 <= i < n)%Z ->
    exists s k, In s slcs /\ nth_error (slc_indices n s) k = Some i.
  Proof.
    intros Hcov Hi.
    assert (Hin : In i (concat (map (slc_indices n) slcs))) by (rewrite Hcov; now apply in_zrange).
    apply in_concat in Hin. destruct Hin as (idx & Hidx & Hin).
    apply in_map_iff in Hidx. destruct Hidx as (s & <- & Hs).
    apply In_nth_error in Hin. destruct Hin as (k & Hk). eauto.
  Qed.

  Lemma per_slice_result (g : list V -> V) n slcs m0 m ts :
    concat (map (slc_indices n) slcs) = zrange 0 n ->
    steps cell_eq m0 (recon_jobs d (kernel_per_slice g) n slcs) m ts -> finished ts ->
    (forall i, (0 <= i < n)%Z -> m (2%nat, i) = g [m0 (0%nat, i); m0 (1%nat, i); m0 (2%nat, i)]) /\
    (forall a i, a <> 2%nat -> m (a, i) = m0 (a, i)).
  Proof.
    intros Hcov Hst Hfin.
    destruct (pure_jobs_result _ 3 2 n slcs m0 m ts Hcov Hst Hfin) as [H1 H2].
    split; auto. intros i Hi.
    destruct (in_cover n slcs i Hcov Hi) as (s & k & Hs & Hk).
    eapply H1; eauto. rewrite columns_reads by lia. unfold kernel_per_slice.
    erewrite map_nth_error; [reflexivity|]. erewrite map_nth_error; [|eauto]. reflexivity.
  Qed.

  Lemma first_center_result (g : list V -> V) n slcs m0 m ts c :
    concat (map (slc_indices n) slcs) = zrange 0 n ->
    (forall i, (0 <= i < n)%Z -> m0 (1%nat, i) = c) ->
    steps cell_eq m0 (recon_jobs d (kernel_first_center d g) n slcs) m ts -> finished ts ->
    (forall i, (0 <= i < n)%Z -> m (2%nat, i) = g [m0 (0%nat, i); c; m0 (2%nat, i)]).
  Proof.
    intros Hcov Hc Hst Hfin i Hi.
    destruct (pure_jobs_result _ 3 2 n slcs m0 m ts Hcov Hst Hfin) as [H1 _].
    destruct (in_cover n slcs i Hcov Hi) as (s & k & Hs & Hk).
    eapply H1; eauto. rewrite columns_reads by lia. unfold kernel_first_center.
    erewrite map_nth_error. 2:{ erewrite map_nth_error; [|eauto]. reflexivity. }
    cbn [seq map nth]. do 2 f_equal. f_equal.
    destruct (slc_indices n s) as [|i0 t] eqn:E; [destruct k; discriminate|].
    cbn [map nth]. f_equal. apply Hc.
    assert (Hin : In i0 (concat (map (slc_indices n) slcs))).
    { apply in_concat. exists (slc_indices n s). split; [|rewrite E; now left].
      apply in_map_iff. eauto. }
    rewrite Hcov in Hin. now apply in_zrange in Hin.
  Qed.

  Lemma pair_center_result (g : list V -> V) n slcs m0 m ts c :
    concat (map (slc_indices n) slcs) = zrange 0 n ->
    (forall i, (0 <= i < n)%Z -> m0 (1%nat, i) = c) ->
    steps cell_eq m0 (recon_jobs d (kernel_pair_center d g) n slcs) m ts -> finished ts ->
    (forall i, (0 <= i < n)%Z -> m (2%nat, i) = g [m0 (0%nat, i); c; m0 (2%nat, i)]).
  Proof.
    intros Hcov Hc Hst Hfin i Hi.
    destruct (pure_jobs_result _ 3 2 n slcs m0 m ts Hcov Hst Hfin) as [H1 _].
    destruct (in_cover n slcs i Hcov Hi) as (s & k & Hs & Hk).
    eapply H1; eauto. rewrite columns_reads by lia. unfold kernel_pair_center.
    assert (Hlen : (k < length (slc_indices n s))%nat) by (apply nth_error_Some; congruence).
    rewrite map_length.
    erewrite map_nth_error.
    2:{ rewrite (nth_error_nth' _ 0%nat) by (rewrite seq_length; lia). rewrite seq_nth by lia. reflexivity. }
    cbn [Nat.add].
    assert (Hrow : forall q j, nth_error (slc_indices n s) q = Some j ->
      nth q (map (fun i => map (fun a => m0 (a, i)) (seq 0 3)) (slc_indices n s)) [] =
      [m0 (0%nat, j); m0 (1%nat, j); m0 (2%nat, j)]).
    { intros q j Hq. apply nth_error_nth. erewrite map_nth_error by eauto. reflexivity. }
    rewrite (Hrow k i Hk). cbn [nth].
    set (q := (2 * (k / 2))%nat).
    assert (Hq : (q < length (slc_indices n s))%nat).
    { unfold q. pose proof (Nat.mul_div_le k 2 ltac:(lia)). lia. }
    destruct (nth_error (slc_indices n s) q) as [j|] eqn:Ej; [|apply nth_error_None in Ej; lia].
    rewrite (Hrow q j Ej). cbn [nth]. do 4 f_equal.
    apply Hc.
    assert (Hin : In j (concat (map (slc_indices n) slcs))).
    { apply in_concat. exists (slc_indices n s). split; [|eapply nth_error_In; eauto].
      apply in_map_iff. eauto. }
    rewrite Hcov in Hin. now apply in_zrange in Hin.
  Qed.
End Kernels.

(** ** Corollaries used by the property files *)
Lemma filter_usable_cover n slcs :
  concat (map (slc_indices n) (filter (usable n true) slcs)) = concat (map (slc_indices n) slcs).
Proof.
  induction slcs as [|s slcs IH]; auto.
  cbn [filter]. destruct (usable n true s) eqn:E.
  - cbn [map concat]. now rewrite IH.
  - cbn [map concat]. rewrite IH. destruct s as [a b|i]; [|discriminate].
    unfold usable in E. destruct (slc_indices n (Range a b)) as [|x t]; auto.
    cbn [length andb] in E. lia.
Qed.

Lemma dist_plan_cover cpu n ncore nchunk :
  (1 <= n)%Z -> (1 <= cpu)%Z -> (forall k, ncore = Some k -> (0 <= k)%Z) ->
  (forall c, nchunk = Some c -> (0 <= c)%Z) ->
  exists k use, dist_plan cpu n true ncore nchunk = Ok (k, use) /\
    concat (map (slc_indices n) use) = zrange 0 n /\ (1 <= k)%Z.
Proof.
  intros Hn Hcpu Hk Hc. unfold dist_plan.
  destruct (ncore_slices_ok cpu n ncore nchunk Hn Hcpu Hk) as (k & l & E).
  rewrite E. unfold Ok at 1. cbv beta iota zeta. do 2 eexists. split; [reflexivity|].
  assert (Hcov : concat (map (slc_indices n) (filter (usable n true) l)) = zrange 0 n).
  { rewrite filter_usable_cover. eapply ncore_slices_cover; eauto. }
  split; auto.
  assert (1 <= k)%Z.
  { unfold get_ncore_slices in E. destruct (build_slices _ _ _); [discriminate|].
    injection E as <- <-. unfold default_ncore. destruct ncore as [k|]; [|lia].
    specialize (Hk k eq_refl). destruct (k =? 0)%Z eqn:?; lia. }
  assert (0 < length (filter (usable n true) l))%nat.
  { destruct (filter (usable n true) l); [|cbn; lia]. cbn in Hcov.
    rewrite zrange_cons in Hcov by lia. discriminate. }
  assert (length (filter (usable n true) l) <= length l)%nat by (clear; induction l as [|s l IH]; cbn; [lia|destruct (usable n true s); cbn; lia]).
  destruct (Z.of_nat (length l) <? k)%Z eqn:?;
    match goal with |- context[(?a <? ?b)%Z] => destruct (a <? b)%Z eqn:? end; lia.
Qed.

Lemma distribute_negative_ncore cpu n :
  (1 <= n)%Z -> (1 <= cpu)%Z -> distribute_slices cpu n (Some (-1)%Z) None = Ok ((-1)%Z, []).
Proof.
  intros Hn Hcpu. unfold distribute_slices, get_ncore_nchunk.
  replace (cpu <? -1)%Z with false by lia. cbn [Z.ltb Z.compare].
  assert (Hq : cdiv n 1 = n). { pose proof (cdiv_spec n (b := 1%Z) ltac:(lia)). lia. }
  rewrite Hq. replace (n <? -1)%Z with false by lia. cbn [Z.eqb Z.ltb Z.compare Z.opp].
  assert (Hq2 : cdiv (- n) 1 = (- n)%Z). { pose proof (cdiv_spec (- n) (b := 1%Z) ltac:(lia)). lia. }
  rewrite Hq2. unfold Ok. cbv beta iota. f_equal. f_equal. unfold map_slices.
  replace (- n =? 0)%Z with false by lia. unfold pyrange.
  replace (0 <? - n)%Z with false by lia. replace (- n <? 0)%Z with true by lia.
  replace (0 - n - - n - 1)%Z with (-1)%Z by lia.
  assert ((-1) / (- - n) < 0)%Z by (apply Z.div_lt_upper_bound; lia).
  replace (Z.to_nat _) with 0%nat by lia. reflexivity.
Qed.

Lemma distribute_negative_nchunk cpu n ncore c :
  (1 <= n)%Z -> (c < 0)%Z -> exists k, distribute_slices cpu n ncore (Some c) = Ok (k, []).
Proof.
  intros Hn Hc. unfold distribute_slices, get_ncore_nchunk.
  replace (negb (c =? 0)%Z && (n <? c)%Z) with false by lia.
  unfold Ok. cbv beta iota. eexists. f_equal. f_equal. unfold map_slices.
  replace (c =? 0)%Z with false by lia. unfold pyrange.
  replace (0 <? c)%Z with false by lia. replace (c <? 0)%Z with true by lia.
  assert ((0 - n - c - 1) / - c <= 0)%Z.
  { apply Z.lt_succ_r. apply Z.div_lt_upper_bound; lia. }
  replace (Z.to_nat _) with 0%nat by lia. reflexivity.
Qed.
