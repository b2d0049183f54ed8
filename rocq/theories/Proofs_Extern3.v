(** The arguments of the C calls: each parameter gets what its name means. *)
From Coq Require Import Reals String.
From Verif Require Import Base Model_Recon Model_Extern Spec_Extern.
Local Open Scope string_scope.
Local Open Scope Z_scope.
Local Open Scope list_scope.

Lemma wrap32_as_int z : as_int z (wrap32 z).
Proof.
  unfold as_int, wrap32. set (m := (z + 2 ^ 31) mod 2 ^ 32). pose proof (Z.mod_pos_bound (z + 2 ^ 31) (2 ^ 32) ltac:(lia)) as B. fold m in B.
  split; [lia|]. pose proof (Z.div_mod (z + 2 ^ 31) (2 ^ 32) ltac:(lia)) as D. fold m in D.
  replace (m - 2 ^ 31 - z) with (- ((z + 2 ^ 31) / 2 ^ 32) * 2 ^ 32) by lia. apply Z.mod_mul. lia.
Qed.
Lemma as_int_id z c : - 2 ^ 31 <= z < 2 ^ 31 -> as_int z c -> c = z.
Proof. intros H (B & E). apply Z.mod_divide in E; [|lia]. destruct E as (k & E). lia. Qed.

(** What an argument expression gives if it does not raise. *)
Definition gives (meant : string -> pyval -> Prop) (pt : string * ctype) (r : result carg) : Prop :=
  forall a, r = Ok a -> exists v cv, a = (snd pt, cv) /\ carried v (snd pt) cv /\ meant (fst pt) v.
Lemma arguments_spec l : forall args, arguments l = Ok args -> Forall2 (fun r a => r = Ok a) l args.
Proof.
  induction l as [|[e|a] l IH]; intros args H; cbn [arguments] in H; [injection H as <-; constructor|discriminate|].
  destruct (arguments l) as [e|l'] eqn:E; [discriminate|]. injection H as <-. constructor; auto.
Qed.
Lemma call_binds meant fn l c : Forall2 (gives meant) (prototype fn) l -> call_c fn l = Ok c -> c_fn c = fn /\ binds meant c.
Proof.
  intros HF H. unfold call_c in H. destruct (arguments l) as [e|args] eqn:E; [discriminate|]. injection H as <-. split; [reflexivity|].
  apply arguments_spec in E. unfold binds. cbn [c_fn c_args]. revert HF E. generalize (prototype fn). clear. intros pr HF. revert args.
  induction HF as [|[p t] r pr l Hg HF IH]; intros args E; [inversion E; split; [reflexivity|intros [|n] p t H; discriminate H]|].
  inversion E as [|r0 a0 l0 args0 H1 H3 E1 E2]. clear E. subst. destruct (IH _ H3) as (I1 & I2). split; [cbn; now f_equal|]. intros [|n] q u Hn.
  - cbn in Hn. injection Hn as <- <-. destruct (Hg _ eq_refl) as (v & cv & -> & C & M). exists v, cv. auto.
  - exact (I2 n q u Hn).
Qed.

Lemma float_p_carried v a : as_c_float_p v = Ok a -> exists cv, a = (Pfloat, cv) /\ carried v Pfloat cv.
Proof. destruct v; cbn; try discriminate. intros E. injection E as <-. now eexists. Qed.
Lemma bool_p_carried v a : as_c_bool_p v = Ok a -> exists cv, a = (Pbool, cv) /\ carried v Pbool cv.
Proof. destruct v; cbn; try discriminate. intros E. injection E as <-. now eexists. Qed.
Lemma uint16_p_carried v a : as_c_uint16_p v = Ok a -> exists cv, a = (Pushort, cv) /\ carried v Pushort cv.
Proof. destruct v; cbn; try discriminate. intros E. injection E as <-. now eexists. Qed.
Lemma int_p_carried v a : as_c_int_p v = Ok a -> exists cv, a = (Pint, cv) /\ carried v Pint cv.
Proof. destruct v; cbn; try discriminate. intros E. injection E as <-. now eexists. Qed.
Lemma int_carried v a : as_c_int v = Ok a -> exists cv, a = (Int, cv) /\ carried v Int cv.
Proof. destruct v; cbn [as_c_int]; try discriminate; intros E; injection E as <-; eexists; (split; [reflexivity|]); cbn [carried]; [apply wrap32_as_int|reflexivity]. Qed.
Lemma float_carried v a : as_c_float v = Ok a -> exists cv, a = (Float, cv) /\ carried v Float cv.
Proof. destruct v; cbn [as_c_float]; try discriminate; intros E; injection E as <-; now eexists. Qed.
Lemma char_p_carried v a : as_c_char_p v = Ok a -> exists cv, a = (Pchar, cv) /\ carried v Pchar cv.
Proof. destruct v; cbn; try discriminate. intros E. injection E as <-. now eexists. Qed.
Lemma gives_val (meant : string -> pyval -> Prop) p t f v : (forall a, f v = Ok a -> exists cv, a = (t, cv) /\ carried v t cv) -> meant p v -> gives meant (p, t) (f v).
Proof. intros H M a E. destruct (H a E) as (cv & -> & C). exists v, cv. auto. Qed.
Lemma gives_kw (meant : string -> pyval -> Prop) p t f kw k : (forall v a, f v = Ok a -> exists cv, a = (t, cv) /\ carried v t cv) ->
  (forall v, get kw k = Some v -> meant p v) -> gives meant (p, t) (on f kw k).
Proof. intros H M a E. unfold on in E. destruct (get kw k) as [v|] eqn:G; [|discriminate]. destruct (H v a E) as (cv & -> & C). exists v, cv. auto. Qed.
#[export] Hint Resolve float_p_carried bool_p_carried uint16_p_carried int_p_carried int_carried float_carried char_p_carried : carried.

Lemma dims_spec a n : dims a = Ok n -> stack_dims a n.
Proof.
  unfold dims, stack_dims. destruct (shape a) as [|x [|y [|z [|w l]]]]; intros E; try discriminate E; injection E as <-; auto.
Qed.
Lemma with_dims_ok {A} a (f : Z -> Z -> Z -> result A) r : with_dims a f = Ok r -> exists dy dt dx, stack_dims a (dy, dt, dx) /\ f dy dt dx = Ok r.
Proof.
  unfold with_dims. destruct (dims a) as [e|[[dy dt] dx]] eqn:E; [discriminate|]. intros H. exists dy, dt, dx. split; [now apply dims_spec|exact H].
Qed.

Section Recon.
  Variables (fresh : nat) (tomo center recon theta : ndarray).
  Lemma common_gives (meant : string -> pyval -> Prop) dy dt dx kw : stack_dims tomo (dy, dt, dx) ->
    (forall p v, In p ["data"; "center"; "theta"; "recon"; "dy"; "dt"; "dx"; "ngridx"; "ngridy"] -> meant_recon tomo center recon theta kw "" p v -> meant p v) ->
    Forall2 (gives meant) params_common (common tomo center recon theta dy dt dx kw).
  Proof.
    intros Hd M. unfold params_common, common.
    repeat (apply Forall2_cons); try apply Forall2_nil;
      (first [apply gives_val | apply gives_kw]; [eauto with carried|]; intros; apply M; [cbn [In]; tauto|]; cbn; eauto).
  Qed.
  Lemma call_with_binds (meant : string -> pyval -> Prop) fn kw rest c :
    (forall p v, In p ["data"; "center"; "theta"; "recon"; "dy"; "dt"; "dx"; "ngridx"; "ngridy"] -> meant_recon tomo center recon theta kw "" p v -> meant p v) ->
    (exists tail, prototype fn = params_common ++ tail /\ Forall2 (gives meant) tail rest) ->
    call_with tomo center recon theta fn kw rest = Ok c -> c_fn c = fn /\ binds meant c.
  Proof.
    intros M (tail & E & F) H. unfold call_with in H. apply with_dims_ok in H. destruct H as (dy & dt & dx & Hd & H).
    apply (call_binds meant) in H; auto. rewrite E. apply Forall2_app; auto. now apply common_gives.
  Qed.
  Definition truth (kw : kwargs) : bool := match get kw "accelerated" with Some (Flag b) => b | _ => false end.
End Recon.

Ltac giving := repeat (apply Forall2_cons); try apply Forall2_nil;
  (first [apply gives_val | apply gives_kw]; [eauto with carried|]; intros; cbn; eauto).
Ltac names := intros p v Hp; cbn [In] in Hp;
  repeat match type of Hp with _ \/ _ => destruct Hp as [<-|Hp] | False => destruct Hp end; cbn; auto.
Ltac bound H := eapply call_with_binds in H; [exact H|names|eexists; split; [reflexivity|giving]].
Lemma wrapper_binds fresh tomo center recon theta alg w kw c : wrapper fresh tomo center recon theta alg = Some w -> w kw = Ok c ->
  c_fn c = target alg (truth kw) /\ binds (meant_recon tomo center recon theta kw alg) c.
Proof.
  unfold wrapper. intros Hw H.
  repeat match type of Hw with (if String.eqb alg ?s then _ else _) = _ => destruct (String.eqb_spec alg s) as [->|?]; [injection Hw as <-|] end; [..|discriminate Hw].
  - unfold c_art in H. bound H.
  - unfold c_bart, blocks in H. bound H.
  - unfold c_fbp in H. bound H.
  - unfold c_gridrec in H. bound H.
  - unfold c_mlem, if_accelerated in H. unfold target, truth. cbn [String.eqb Ascii.eqb Bool.eqb].
    destruct (get kw "accelerated") as [u|] eqn:E; [|discriminate]. destruct u as [a|z|x|x|s|[|]].
    all: unfold c_osem, blocks in H; bound H.
  - unfold c_osem, blocks in H. bound H.
  - unfold c_ospml_hybrid, penalised, blocks in H. bound H.
  - unfold c_ospml_quad, penalised, blocks in H. bound H.
  - unfold c_pml_hybrid, penalised, blocks in H. bound H.
  - unfold c_pml_quad, penalised, blocks in H. bound H.
  - unfold c_sirt, if_accelerated in H. unfold target, truth. cbn [String.eqb Ascii.eqb Bool.eqb].
    destruct (get kw "accelerated") as [u|] eqn:E; [|discriminate]. destruct u as [a|z|x|x|s|[|]].
    all: unfold c_bart, blocks in H; bound H.
  - unfold c_tv in H. bound H.
  - unfold c_grad in H. bound H.
  - unfold c_tikh in H. bound H.
Qed.
