(** The arrays that recon gives to the C functions are long enough. *)
From Coq Require Import Reals String.
From Verif Require Import Base Model_Recon Model_Extern Spec_Extern Proofs_Extern3.
Local Open Scope string_scope.
Local Open Scope Z_scope.
Local Open Scope list_scope.

Lemma get_app a b k : get (a ++ b) k = match get a k with Some v => Some v | None => get b k end.
Proof. induction a as [|[k' v] a IH]; cbn [get app]; auto. destruct (String.eqb k' k); auto. Qed.
Section Kwargs.
  Variables (fresh : nat) (dy dt dx : Z).
  Lemma convert_all_get allowed user : forall kw, convert_all fresh allowed user = Ok kw -> forall k,
    match get kw k with Some v => exists u, get user k = Some u /\ convert fresh k u = Ok v | None => get user k = None end.
  Proof.
    induction user as [|[k v] user IH]; intros kw H q; cbn [convert_all] in H; [injection H as <-; reflexivity|].
    destruct (negb (mem_str k allowed)); [discriminate|]. destruct (convert fresh k v) as [e|v'] eqn:E; [discriminate|].
    destruct (convert_all fresh allowed user) as [e|l] eqn:E2; [discriminate|]. injection H as <-. cbn [get].
    destruct (String.eqb_spec k q) as [->|N]; [eauto|]. now apply IH.
  Qed.
  Lemma defaults_get kw allowed k v :
    get (flat_map (fun k => match get kw k, get (kwargs_defaults fresh dy dt dx) k with None, Some v => [(k, v)] | _, _ => [] end) allowed) k = Some v ->
    get (kwargs_defaults fresh dy dt dx) k = Some v.
  Proof.
    induction allowed as [|a l IH]; cbn [flat_map]; [discriminate|]. rewrite get_app.
    destruct (get kw a) as [u|]; [exact IH|]. destruct (get (kwargs_defaults fresh dy dt dx) a) as [w|] eqn:E; [|exact IH].
    change (get [(a, w)] k) with (if String.eqb a k then Some w else None).
    destruct (String.eqb_spec a k) as [->|N]; [|exact IH]. intros F. injection F as <-. exact E.
  Qed.
  Lemma recon_kwargs_get alg user kw k v : recon_kwargs fresh dy dt dx alg user = Ok kw -> get kw k = Some v ->
    (exists u, get user k = Some u /\ convert fresh k u = Ok v) \/ (get user k = None /\ get (kwargs_defaults fresh dy dt dx) k = Some v).
  Proof.
    unfold recon_kwargs. destruct (convert_all fresh (allowed_for alg) user) as [e|l] eqn:E; [discriminate|]. intros H. injection H as <-.
    unfold set_defaults. rewrite get_app. pose proof (convert_all_get _ _ _ E k) as G. destruct (get l k) as [w|].
    - intros F. injection F as <-. now left.
    - intros F. right. split; [exact G|]. eapply defaults_get; eauto.
  Qed.
  Lemma recon_kwargs_plain alg user kw k v : float_key k = false -> recon_kwargs fresh dy dt dx alg user = Ok kw -> get kw k = Some v ->
    match get user k with Some u => v = u | None => get (kwargs_defaults fresh dy dt dx) k = Some v end.
  Proof.
    intros N H G. destruct (recon_kwargs_get _ _ _ _ _ H G) as [(u & -> & C)|(-> & D)]; auto.
    unfold convert in C. rewrite N in C. now injection C as <-.
  Qed.
End Kwargs.

Definition type_of (p : string) : ctype :=
  if String.eqb p "ind_block" || String.eqb p "grid_size" || String.eqb p "block_size" then Pint
  else if String.eqb p "fname" || String.eqb p "interp" || String.eqb p "device" then Pchar
  else if String.eqb p "data" || String.eqb p "center" || String.eqb p "theta" || String.eqb p "recon" || String.eqb p "filter_par"
     || String.eqb p "reg_pars" || String.eqb p "reg_data" then Pfloat else Int.
(** The functions that the wrappers call. *)
Definition targets : list string :=
  ["art"; "bart"; "fbp"; "gridrec"; "osem"; "cxx_mlem"; "cxx_sirt"; "ospml_hybrid"; "ospml_quad"; "tv"; "grad"; "tikh"].
Lemma target_in fresh tomo center recon theta alg w b : wrapper fresh tomo center recon theta alg = Some w -> In (target alg b) targets.
Proof.
  unfold wrapper. intros Hw.
  repeat match type of Hw with (if String.eqb alg ?s then _ else _) = _ => destruct (String.eqb_spec alg s) as [->|?]; [destruct b; cbn; tauto|] end. discriminate Hw.
Qed.
Lemma targets_types : forall fn, In fn targets -> Forall (fun pt => snd pt = type_of (fst pt)) (prototype fn).
Proof. intros fn H. cbn [In targets] in H. repeat (destruct H as [<-|H]; [repeat constructor|]). destruct H. Qed.
Lemma targets_common fn : In fn targets -> exists tail, prototype fn = params_common ++ tail.
Proof. intros H. cbn [In targets] in H. repeat (destruct H as [<-|H]; [eexists; reflexivity|]). destruct H. Qed.
Lemma place_nth {A} (l : list (string * A)) p n : place l p = Some n -> exists t, nth_error l n = Some (p, t).
Proof.
  revert n. induction l as [|[q t] l IH]; intros n H; [discriminate|]. cbn [place] in H. destruct (String.eqb_spec q p) as [->|N].
  - injection H as <-. now exists t.
  - destruct (place l p) as [m|]; [|discriminate]. injection H as <-. now apply IH.
Qed.
Lemma place_in {A} (l : list (string * A)) p t : In (p, t) l -> exists n, place l p = Some n.
Proof.
  induction l as [|[q u] l IH]; intros H; [destruct H|]. cbn [place]. destruct (String.eqb_spec q p) as [->|N]; [now exists O|].
  destruct H as [H|H]; [injection H as <- _; congruence|]. destruct (IH H) as (n & ->). eexists. reflexivity.
Qed.
Section Calls.
  Variables (meant : string -> pyval -> Prop) (c : ccall).
  Hypothesis Hb : binds meant c.
  Hypothesis Hf : In (c_fn c) targets.
  Lemma param_value p t : In (p, t) (prototype (c_fn c)) -> exists v cv, value_of c p = Some cv /\ carried v (type_of p) cv /\ meant p v.
  Proof.
    intros H. destruct (place_in _ _ _ H) as (n & E). destruct (place_nth _ _ _ E) as (u & En).
    destruct Hb as (_ & B). destruct (B n p u En) as (v & cv & Ea & C & M). exists v, cv. unfold value_of. rewrite E, Ea. cbn [option_map snd].
    pose proof (proj1 (Forall_forall _ _) (targets_types _ Hf) (p, u) (nth_error_In _ _ En)) as T. cbn [fst snd] in T. subst u. auto.
  Qed.
  Lemma param_int p t z : In (p, t) (prototype (c_fn c)) -> type_of p = Int -> - 2 ^ 31 <= z < 2 ^ 31 -> (forall v, meant p v -> v = Num z) -> int_of c p = z.
  Proof.
    intros H T B M. destruct (param_value p t H) as (v & cv & E & C & Mv). apply M in Mv. subst v. rewrite T in C. unfold int_of. rewrite E.
    destruct cv; cbn [carried] in C; try contradiction. now apply as_int_id.
  Qed.
End Calls.

Lemma pars_target alg b fn : fn = target alg b ->
  (if String.eqb fn "ospml_hybrid" || String.eqb fn "tikh" then 2 else 1)
  <= (if String.eqb alg "ospml_hybrid" || String.eqb alg "pml_hybrid" || String.eqb alg "tikh" then 2 else 1).
Proof.
  intros ->. unfold target.
  repeat match goal with |- context [String.eqb ?m ?s] => is_var m; destruct (String.eqb_spec m s) as [->|?] end; destruct b; cbn; try lia;
  repeat match goal with |- context [String.eqb ?m ?s] => destruct (String.eqb_spec m s) as [->|?]; try congruence end; cbn; try lia.
Qed.
Lemma target_of alg b fn : fn = target alg b -> fn = "gridrec" \/ fn = "tikh" -> alg = fn.
Proof.
  intros -> H. unfold target in *.
  repeat match goal with |- context [String.eqb ?m ?s] => destruct (String.eqb_spec m s) as [->|?] end; destruct b; destruct H as [H|H]; try discriminate H; auto.
Qed.
Lemma size_nonneg a : 0 <= size a. Proof. unfold size. lia. Qed.
(** Which functions have certain parameters. *)
Lemma has_param fn p t : In fn targets -> In (p, t) (prototype fn) ->
  (p = "reg_data" -> fn = "tikh") /\ (p = "ind_block" -> In ("num_block", Int) (prototype fn)).
Proof.
  intros H Hp. split; intros ->; cbn [In targets] in H;
    repeat (destruct H as [<-|H]; [first [reflexivity | cbn; tauto | exfalso; cbn in Hp; repeat (destruct Hp as [Hp|Hp]; [discriminate Hp|]); destruct Hp]|]); destruct H.
Qed.
Section Bounds.
  Variables (fresh : nat) (alg : string) (dy dt dx : Z) (tomo theta center : ndarray) (init : option ndarray) (user : kwargs) (lo hi : Z) (c : ccall).
  Hypothesis Hfair : fair alg dy dt dx tomo theta center init user lo hi.
  Hypothesis Hc : recon_call fresh dy dt dx alg tomo theta center init user lo hi = Ok c.
  Let gx := opt user "num_gridx" dx.
  Let gy := opt user "num_gridy" dx.

  Lemma grid_kw kw k v : k = "num_gridx" \/ k = "num_gridy" -> recon_kwargs fresh dy dt dx alg user = Ok kw -> get kw k = Some v ->
    v = Num (opt user k dx) /\ 1 <= opt user k dx < 2 ^ 31.
  Proof.
    intros Hk H G. assert (float_key k = false) as Fk by (destruct Hk as [-> | ->]; reflexivity).
    pose proof (recon_kwargs_plain _ _ _ _ _ _ _ _ _ Fk H G) as P. unfold opt. destruct (get user k) as [u|] eqn:E.
    - subst v. destruct (f_grid _ _ _ _ _ _ _ _ _ _ _ Hfair k u Hk E) as (z & -> & B). auto.
    - pose proof (f_dims _ _ _ _ _ _ _ _ _ _ _ Hfair) as (_ & _ & B). destruct Hk as [-> | ->]; cbn in P; injection P as <-; auto.
  Qed.
  Lemma call_parts : exists kw recon w, recon_kwargs fresh dy dt dx alg user = Ok kw /\ init_recon fresh dy kw init = Ok recon /\
    wrapper (fresh + 8) (rows tomo lo hi) (rows center lo hi) (rows recon lo hi) theta alg = Some w /\ w kw = Ok c.
  Proof.
    unfold recon_call in Hc. destruct (recon_kwargs fresh dy dt dx alg user) as [e|kw]; [discriminate|].
    destruct (init_recon fresh dy kw init) as [e|recon] eqn:E; [discriminate|].
    destruct (wrapper _ _ _ _ _ _) as [w|] eqn:W; [|discriminate]. exists kw, recon, w. auto.
  Qed.
  Lemma rows_shape a n l : shape a = n :: l -> shape (rows a lo hi) = Z.max 0 (Z.min n hi - Z.min n lo) :: l.
  Proof. intros E. unfold rows. rewrite E. reflexivity. Qed.
  Lemma rows_elem a : elem_of (rows a lo hi) = elem_of a.
  Proof. unfold rows. destruct (shape a); reflexivity. Qed.
  Lemma chunk : Z.max 0 (Z.min dy hi - Z.min dy lo) = hi - lo.
  Proof. pose proof (f_slices _ _ _ _ _ _ _ _ _ _ _ Hfair). lia. Qed.
  Lemma recon_shape kw recon : recon_kwargs fresh dy dt dx alg user = Ok kw -> init_recon fresh dy kw init = Ok recon ->
    shape recon = [dy; gx; gy] /\ elem_of recon = F32.
  Proof.
    intros Hk. pose proof (f_init _ _ _ _ _ _ _ _ _ _ _ Hfair) as Fi. unfold init_recon. revert Fi. case init; [intros a Fi Hi|intros _ Hi].
    - injection Hi as <-. cbn [shape elem_of]. split; auto.
    - unfold new_recon in Hi. destruct (get kw "num_gridx") as [vx|] eqn:Ex; [|discriminate].
      destruct (grid_kw kw "num_gridx" vx) as (-> & _); auto. destruct (get kw "num_gridy") as [vy|] eqn:Ey; [|discriminate].
      destruct (grid_kw kw "num_gridy" vy) as (-> & _); auto. destruct (_ || _); [discriminate|]. injection Hi as <-. auto.
  Qed.

  Lemma float_kw kw k v a : recon_kwargs fresh dy dt dx alg user = Ok kw -> float_key k = true -> get kw k = Some v -> carried v Pfloat (Ptr a) ->
    (exists u, get user k = Some u /\ cells u = size a /\ elem_of a = F32) \/ (get user k = None /\ get (kwargs_defaults fresh dy dt dx) k = Some (Arr a)).
  Proof.
    intros H Fk G C. destruct v as [b| | | | |]; cbn in C; try contradiction. subst b.
    destruct (recon_kwargs_get _ _ _ _ _ _ _ _ _ H G) as [(u & Eu & Cu)|D]; [left|now right]. exists u. split; [exact Eu|].
    unfold convert in Cu. rewrite Fk in Cu. destruct u as [b|z|x|x|s|b]; try discriminate Cu; injection Cu as <-; auto.
  Qed.
  Theorem long_enough n p t a pdim : is_padded dx pdim ->
    nth_error (prototype (c_fn c)) n = Some (p, t) -> nth_error (c_args c) n = Some (t, Ptr a) ->
    needed (c_fn c) (string_of c "fname") pdim (int_of c) p <= size a /\ elem_of a = elem_for t.
  Proof.
    intros Hpad Hn Ha. destruct call_parts as (kw & recon & w & Hk & Hi & Hw & Hok).
    destruct (recon_shape kw recon Hk Hi) as (Rs & Re).
    destruct (wrapper_binds _ _ _ _ _ _ _ _ _ Hw Hok) as (Hfn & Hb).
    pose proof (target_in _ _ _ _ _ _ _ (truth kw) Hw) as Ht. rewrite <- Hfn in Ht.
    destruct (targets_common _ Ht) as (tail & Etail).
    pose proof (f_tomo _ _ _ _ _ _ _ _ _ _ _ Hfair) as (Ts & Te). pose proof (f_theta _ _ _ _ _ _ _ _ _ _ _ Hfair) as (As & Ae).
    pose proof (f_center _ _ _ _ _ _ _ _ _ _ _ Hfair) as (Cs & Ce). pose proof (f_dims _ _ _ _ _ _ _ _ _ _ _ Hfair) as (By & Bt & Bx).
    pose proof (f_slices _ _ _ _ _ _ _ _ _ _ _ Hfair) as (Bl & Bh).
    pose proof (rows_shape _ _ _ Ts) as Ts'. pose proof (rows_shape _ _ _ Cs) as Cs'. pose proof (rows_shape _ _ _ Rs) as Rs'. rewrite chunk in Ts', Cs', Rs'.
    assert (Idy : int_of c "dy" = hi - lo).
    { eapply param_int; eauto; [rewrite Etail; cbn; tauto|lia|]. intros v M. cbn in M. destruct M as ([[a1 a2] a3] & D & ->). unfold stack_dims in D. rewrite Ts' in D.
      destruct D as (-> & _ & _). reflexivity. }
    assert (Idt : int_of c "dt" = dt).
    { eapply param_int; eauto; [rewrite Etail; cbn; tauto|lia|]. intros v M. cbn in M. destruct M as ([[a1 a2] a3] & D & ->). unfold stack_dims in D. rewrite Ts' in D.
      destruct D as (_ & -> & _). reflexivity. }
    assert (Idx : int_of c "dx" = dx).
    { eapply param_int; eauto; [rewrite Etail; cbn; tauto|lia|]. intros v M. cbn in M. destruct M as ([[a1 a2] a3] & D & ->). unfold stack_dims in D. rewrite Ts' in D.
      destruct D as (_ & _ & ->). reflexivity. }
    assert (Bgx : 1 <= gx < 2 ^ 31).
    { destruct (param_value _ _ Hb Ht "ngridx" Int) as (v & cv & _ & _ & M); [rewrite Etail; cbn; tauto|]. cbn in M. rewrite andb_false_r in M. cbn in M.
      now apply (grid_kw kw "num_gridx" v) in M; auto. }
    assert (Bgy : 1 <= gy < 2 ^ 31).
    { destruct (param_value _ _ Hb Ht "ngridy" Int) as (v & cv & _ & _ & M); [rewrite Etail; cbn; tauto|]. cbn in M. rewrite andb_false_r in M. cbn in M.
      now apply (grid_kw kw "num_gridy" v) in M; auto. }
    assert (Igx : int_of c "ngridx" = gx).
    { eapply param_int; eauto; [rewrite Etail; cbn; tauto|lia|]. intros v M. cbn in M. rewrite andb_false_r in M. cbn in M. now apply (grid_kw kw "num_gridx" v) in M; auto. }
    assert (Igy : int_of c "ngridy" = gy).
    { eapply param_int; eauto; [rewrite Etail; cbn; tauto|lia|]. intros v M. cbn in M. rewrite andb_false_r in M. cbn in M. now apply (grid_kw kw "num_gridy" v) in M; auto. }
    pose proof (proj1 (Forall_forall _ _) (targets_types _ Ht) (p, t) (nth_error_In _ _ Hn)) as T. cbn [fst snd] in T. subst t.
    destruct (proj2 Hb n p _ Hn) as (v & cv & Ea & C & M). rewrite Ha in Ea. injection Ea as <-.
    unfold needed. rewrite Idy, Idt, Idx, Igx, Igy. pose proof (size_nonneg a) as Pos.
    destruct (String.eqb_spec p "data") as [->|N1].
    { cbn in M. subst v. cbn in C. subst a. rewrite rows_elem. split; [|exact Te]. unfold size. rewrite Ts'. cbn [fold_right]. lia. }
    destruct (String.eqb_spec p "recon") as [->|N2].
    { cbn in M. subst v. cbn in C. subst a. rewrite rows_elem. split; [|exact Re]. cbn [orb]. unfold size. rewrite Rs'. cbn [fold_right]. lia. }
    destruct (String.eqb_spec p "reg_data") as [->|N3].
    { cbn in M. rewrite andb_false_r in M. cbn [orb]. pose proof (nth_error_In _ _ Hn) as Hin. destruct (has_param _ _ _ Ht Hin) as (Ef & _). specialize (Ef eq_refl).
      pose proof (target_of _ _ _ Hfn (or_intror Ef)) as Ealg. rewrite Ef in Ealg. pose proof (f_data _ _ _ _ _ _ _ _ _ _ _ Hfair) as Fd. fold gx gy in Fd.
      destruct (float_kw kw "reg_data" v a Hk eq_refl M C) as [(u & Eu & Ec & El)|(Eu & D)]; rewrite Eu in Fd.
      - rewrite <- Ec. auto.
      - cbn in D. injection D as D. subst a. split; [|reflexivity]. unfold size. cbn [shape fold_right]. specialize (Fd Ealg).
        assert ((hi - lo) * (gx * gy) <= dy * (dx * dx)) by (apply Z.mul_le_mono_nonneg; nia). lia. }
    cbn [orb]. destruct (String.eqb_spec p "theta") as [->|N4].
    { cbn in M. subst v. cbn in C. subst a. split; [|exact Ae]. unfold size. rewrite As. cbn [fold_right]. lia. }
    destruct (String.eqb_spec p "center") as [->|N5].
    { cbn in M. subst v. cbn in C. subst a. rewrite rows_elem. split; [|exact Ce]. unfold size. rewrite Cs'. cbn [fold_right]. destruct (String.eqb (c_fn c) "art"); lia. }
    destruct (String.eqb_spec p "ind_block") as [->|N6].
    { pose proof (nth_error_In _ _ Hn) as Hin. destruct (has_param _ _ _ Ht Hin) as (_ & Hnb). specialize (Hnb eq_refl).
      cbn [type_of String.eqb Ascii.eqb Bool.eqb orb elem_for] in *. unfold meant_recon in M. cbn [String.eqb Ascii.eqb Bool.eqb orb] in M.
      destruct (single alg) eqn:Es; cbn [andb] in M.
      - assert (int_of c "num_block" = 1) as Inb.
        { eapply param_int; eauto; [lia|]. intros u Mu. unfold meant_recon in Mu. rewrite Es in Mu. exact Mu. }
        destruct M as (b & ->). cbn in C. destruct C as (_ & _ & Ce'). rewrite Inb. split; [exact Pos|exact Ce'].
      - assert (int_of c "num_block" = opt user "num_block" 1) as Inb.
        { assert (forall u, get kw "num_block" = Some u -> u = Num (opt user "num_block" 1) /\ 1 <= opt user "num_block" 1 < 2 ^ 31) as Q.
          { intros u Mu. pose proof (recon_kwargs_plain fresh dy dt dx alg user kw "num_block" u eq_refl Hk Mu) as P. unfold opt. destruct (get user "num_block") as [x|] eqn:Ex.
            - subst u. destruct (f_blocks _ _ _ _ _ _ _ _ _ _ _ Hfair x Ex) as (z & -> & B). auto.
            - cbn in P. injection P as <-. split; [reflexivity|lia]. }
          assert (forall u, meant_recon (rows tomo lo hi) (rows center lo hi) (rows recon lo hi) theta kw alg "num_block" u -> get kw "num_block" = Some u) as Q2.
          { intros u Mu. unfold meant_recon in Mu. rewrite Es in Mu. exact Mu. }
          destruct (param_value _ _ Hb Ht "num_block" Int Hnb) as (u & cu & _ & _ & Mu). apply Q2, Q in Mu.
          eapply param_int; eauto; [lia|]. intros x Mx. apply Q2, Q in Mx. tauto. }
        rewrite Inb. cbn [key_of String.eqb Ascii.eqb Bool.eqb] in M.
        assert (get kw "ind_block" = Some v) as M' by exact M.
        pose proof (recon_kwargs_plain fresh dy dt dx alg user kw "ind_block" v eq_refl Hk M') as P.
        destruct v as [b| | | | |]; cbn in C; try contradiction. destruct C as (_ & Sa & Ea'). split; [|exact Ea'].
        destruct (opt user "num_block" 1 =? 1) eqn:E1; [exact Pos|]. destruct (get user "ind_block") as [u|] eqn:Eu.
        + subst u. destruct (f_ind _ _ _ _ _ _ _ _ _ _ _ Hfair _ Eu) as [F|F]; [lia|]. cbn [cells] in F. unfold size in *. now rewrite Sa.
        + cbn in P. injection P as <-. unfold size. rewrite Sa. cbn [shape fold_right]. lia. }
    destruct (String.eqb_spec p "reg_pars") as [->|N7].
    { cbn in M. rewrite andb_false_r in M. cbn in M. pose proof (pars_target _ _ _ Hfn) as Pt.
      destruct (float_kw kw "reg_par" v a Hk eq_refl M C) as [(u & Eu & Ec & El)|(Eu & D)].
      - pose proof (f_reg _ _ _ _ _ _ _ _ _ _ _ Hfair u Eu) as F. split; [lia|exact El].
      - cbn in D. injection D as D. subst a. split; [|reflexivity]. unfold size. cbn [shape fold_right]. destruct (_ || _); lia. }
    destruct (String.eqb_spec p "filter_par") as [->|N8].
    { cbn in M. rewrite andb_false_r in M. cbn in M.
      destruct (String.eqb_spec (c_fn c) "gridrec") as [Eg|Ng].
      - pose proof (target_of _ _ _ Hfn (or_introl Eg)) as Ealg. rewrite Eg in Ealg.
        assert (string_of c "fname" = match get user "filter_name" with Some (Str s) => s | _ => "shepp" end) as En.
        { destruct (param_value _ _ Hb Ht "fname" Pchar) as (u & cu & E & Cu & Mu); [rewrite Eg; cbn; tauto|]. cbn in Mu. rewrite andb_false_r in Mu. cbn in Mu.
          unfold string_of. rewrite E. cbn in Cu. destruct u; try contradiction. destruct cu; try contradiction. subst s0.
          pose proof (recon_kwargs_plain fresh dy dt dx alg user kw "filter_name" (Str s) eq_refl Hk Mu) as P. destruct (get user "filter_name") as [x|]; [now subst x|].
          cbn in P. now injection P as <-. }
        rewrite En. pose proof (f_filter _ _ _ _ _ _ _ _ _ _ _ Hfair pdim Ealg Hpad) as F.
        destruct (float_kw kw "filter_par" v a Hk eq_refl M C) as [(u & Eu & Ec & El)|(Eu & D)]; rewrite Eu in F.
        + split; [lia|exact El].
        + cbn in D. injection D as D. subst a. split; [|reflexivity]. unfold size at 1. cbn [shape fold_right]. lia.
      - split; [exact Pos|]. destruct (float_kw kw "filter_par" v a Hk eq_refl M C) as [(u & Eu & Ec & El)|(Eu & D)]; [exact El|].
        cbn in D. injection D as D. now subst a. }
    destruct (String.eqb_spec p "grid_size") as [->|N9]; [|destruct (String.eqb_spec p "block_size") as [->|N10]].
    1, 2: cbn in M; rewrite andb_false_r in M; cbn in M; cbn [type_of String.eqb Ascii.eqb Bool.eqb orb elem_for] in *; destruct v as [b| | | | |]; cbn in C; try contradiction; destruct C as (_ & Sa & Ea'); cbn [orb]; split; [|exact Ea'].
    - pose proof (recon_kwargs_plain fresh dy dt dx alg user kw "grid_size" (Arr b) eq_refl Hk M) as P. destruct (get user "grid_size") as [u|] eqn:Eu.
      + pose proof (f_cuda _ _ _ _ _ _ _ _ _ _ _ Hfair "grid_size" u (or_introl eq_refl) Eu) as F. subst u. cbn [cells] in F. unfold size in *. now rewrite Sa.
      + cbn in P. injection P as <-. unfold size. rewrite Sa. cbn [shape fold_right]. lia.
    - pose proof (recon_kwargs_plain fresh dy dt dx alg user kw "block_size" (Arr b) eq_refl Hk M) as P. destruct (get user "block_size") as [u|] eqn:Eu.
      + pose proof (f_cuda _ _ _ _ _ _ _ _ _ _ _ Hfair "block_size" u (or_intror eq_refl) Eu) as F. subst u. cbn [cells] in F. unfold size in *. now rewrite Sa.
      + cbn in P. injection P as <-. unfold size. rewrite Sa. cbn [shape fold_right]. lia.
    - exfalso. revert C. unfold type_of.
      rewrite (proj2 (String.eqb_neq p "ind_block") N6), (proj2 (String.eqb_neq p "grid_size") N9), (proj2 (String.eqb_neq p "block_size") N10),
        (proj2 (String.eqb_neq p "data") N1), (proj2 (String.eqb_neq p "center") N5), (proj2 (String.eqb_neq p "theta") N4), (proj2 (String.eqb_neq p "recon") N2),
        (proj2 (String.eqb_neq p "filter_par") N8), (proj2 (String.eqb_neq p "reg_pars") N7), (proj2 (String.eqb_neq p "reg_data") N3).
      cbn [orb]. destruct (_ || _ || _); destruct v; cbn; auto.
  Qed.
End Bounds.

(** What arrives in C. *)
Section Values.
  Variables (fresh : nat) (alg : string) (dy dt dx : Z) (tomo theta center : ndarray) (init : option ndarray) (user : kwargs) (lo hi : Z) (c : ccall).
  Hypothesis Hfair : fair alg dy dt dx tomo theta center init user lo hi.
  Hypothesis Hc : recon_call fresh dy dt dx alg tomo theta center init user lo hi = Ok c.
  Lemma default_documented k v : get (kwargs_defaults fresh dy dt dx) k = Some v -> documented dy dt dx k v.
  Proof.
    unfold kwargs_defaults. cbn [get]. intros H.
    repeat match type of H with (if String.eqb ?s k then _ else _) = _ =>
      destruct (String.eqb_spec s k) as [<-|?]; [injection H as <-; cbn; first [reflexivity | eexists; reflexivity]|] end. discriminate H.
  Qed.
  Lemma option_same k u v : convert fresh k u = Ok v -> same_option k u v.
  Proof.
    unfold convert, same_option. change ((k =? "reg_par") || (k =? "filter_par") || (k =? "reg_data"))%string with (float_key k).
    destruct (float_key k); destruct u; intros H; try discriminate H; injection H as <-; eauto.
  Qed.
  Lemma recon_kwargs_none kw k : recon_kwargs fresh dy dt dx alg user = Ok kw -> get kw k = None -> get user k = None.
  Proof.
    unfold recon_kwargs. destruct (convert_all fresh (allowed_for alg) user) as [e|l] eqn:E; [discriminate|]. intros H. injection H as <-.
    unfold set_defaults. rewrite get_app. pose proof (convert_all_get _ _ _ _ E k) as G. destruct (get l k); [discriminate|auto].
  Qed.
  Theorem recon_call_binds :
    c_fn c = target alg (match get user "accelerated" with Some (Flag b) => b | _ => false end) /\
    binds (meant_call alg dy dt dx tomo theta center init user lo hi) c.
  Proof.
    destruct (call_parts _ _ _ _ _ _ _ _ _ _ _ _ _ Hc) as (kw & recon & w & Hk & Hi & Hw & Hok).
    destruct (recon_shape fresh _ _ _ _ _ _ _ _ _ _ _ Hfair kw recon Hk Hi) as (Rs & Re).
    destruct (wrapper_binds _ _ _ _ _ _ _ _ _ Hw Hok) as (Hfn & Hl & Hb).
    destruct (f_tomo _ _ _ _ _ _ _ _ _ _ _ Hfair) as (Ts & Te). destruct (f_center _ _ _ _ _ _ _ _ _ _ _ Hfair) as (Cs & Ce).
    pose proof (rows_shape lo hi tomo _ _ Ts) as Ts'. pose proof (rows_shape lo hi center _ _ Cs) as Cs'. pose proof (rows_shape lo hi recon _ _ Rs) as Rs'.
    rewrite (chunk _ _ _ _ _ _ _ _ _ _ _ Hfair) in Ts', Cs', Rs'.
    assert (ident_rows : forall a, ident (rows a lo hi) = ident a) by (intros a; unfold rows; destruct (shape a); reflexivity).
    split.
    - rewrite Hfn. f_equal. unfold truth. destruct (get kw "accelerated") as [v|] eqn:E.
      + pose proof (recon_kwargs_plain fresh dy dt dx alg user kw "accelerated" v eq_refl Hk E) as P. destruct (get user "accelerated") as [u|]; [now subst u|].
        cbn in P. injection P as <-. reflexivity.
      + now rewrite (recon_kwargs_none kw "accelerated" Hk E).
    - split; [exact Hl|]. intros n p t Hn. destruct (Hb n p t Hn) as (v & cv & Ha & C & M). exists v, cv. split; [exact Ha|]. split; [exact C|].
      unfold meant_recon, meant_call in *.
      assert (D : forall m, stack_dims (rows tomo lo hi) m -> m = (hi - lo, dt, dx)).
      { intros [[x y] z]. unfold stack_dims. rewrite Ts'. intros (-> & -> & ->). reflexivity. }
      destruct (String.eqb p "data"); [subst v; eexists; split; [reflexivity|]; split; [apply ident_rows|]; split; [now rewrite rows_elem|exact Ts']|].
      destruct (String.eqb p "center"); [subst v; eexists; split; [reflexivity|]; split; [apply ident_rows|]; split; [now rewrite rows_elem|exact Cs']|].
      destruct (String.eqb p "theta"); [exact M|].
      destruct (String.eqb p "recon").
      { subst v. eexists. split; [reflexivity|]. split; [rewrite rows_elem; exact Re|]. split; [exact Rs'|]. intros i Ei. rewrite ident_rows.
        rewrite Ei in Hi. cbn [init_recon] in Hi. injection Hi as <-. reflexivity. }
      destruct (String.eqb p "dy"); [destruct M as (m & S & ->); now rewrite (D m S)|].
      destruct (String.eqb p "dt"); [destruct M as (m & S & ->); now rewrite (D m S)|].
      destruct (String.eqb p "dx"); [destruct M as (m & S & ->); now rewrite (D m S)|].
      destruct (single alg && String.eqb p "num_block"); [exact M|]. destruct (single alg && String.eqb p "ind_block"); [exact M|].
      destruct (recon_kwargs_get fresh dy dt dx alg user kw (key_of p) v Hk M) as [(u & -> & Cu)|(-> & Dv)]; [now apply option_same|now apply default_documented].
  Qed.
End Values.
