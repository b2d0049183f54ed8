From Verif Require Import Base Order Model_Float Proofs_Float FloatR Model_Mproc Model_Corr.
From Coq Require Import Reals Lra SpecFloat.
From Flocq Require Import Core BinarySingleNaN Plus_error.
Local Open Scope Z_scope.

Notation nan := Model_Float.is_nan.

Lemma nan_eq x : nan x = true -> x = S754_nan.
Proof. now destruct x. Qed.

(** ** adjust_range *)
Lemma fold_max2_nan t : forall a, nan a = true \/ In S754_nan t -> fold_left max2 t a = S754_nan.
Proof.
  induction t as [|y t IH]; cbn; intros a H.
  - destruct H as [H|[]]. now apply nan_eq.
  - apply IH. destruct H as [H|[H|H]]; auto; left; unfold max2.
    + now rewrite H.
    + subst y. destruct (nan a) eqn:E; cbn; auto.
Qed.
Lemma fold_min2_nan t : forall a, nan a = true \/ In S754_nan t -> fold_left min2 t a = S754_nan.
Proof.
  induction t as [|y t IH]; cbn; intros a H.
  - destruct H as [H|[]]. now apply nan_eq.
  - apply IH. destruct H as [H|[H|H]]; auto; left; unfold min2.
    + now rewrite H.
    + subst y. destruct (nan a) eqn:E; cbn; auto.
Qed.

Lemma fold_max2_spec t : forall a, nan a = false -> Forall (fun x => nan x = false) t ->
  let m := fold_left max2 t a in
  nan m = false /\ In m (a :: t) /\ Forall (fun x => flt m x = false) (a :: t).
Proof.
  induction t as [|y t IH]; cbn -[flt]; intros a Ha Ht.
  - repeat split; auto. constructor; auto. apply flt_irrefl.
  - inversion Ht as [|? ? Hy Ht']; subst.
    assert (E : max2 a y = if flt a y then y else a) by (unfold max2; now rewrite Ha, Hy).
    assert (Hn : nan (max2 a y) = false) by (rewrite E; destruct (flt a y); auto).
    destruct (IH (max2 a y) Hn Ht') as (H1 & H2 & H3).
    set (m := fold_left max2 t (max2 a y)) in *. split; auto. split.
    + destruct H2 as [H2|H2]; auto. rewrite <- H2, E. destruct (flt a y); auto.
    + inversion H3 as [|? ? H4 H5]; subst. constructor; [|constructor]; auto.
      * rewrite E in H4. destruct (flt a y) eqn:Ey; auto.
        apply (wo_neg_trans float_weak_order m y a); auto. apply (wo_asym _ _ float_weak_order); auto.
      * rewrite E in H4. destruct (flt a y) eqn:Ey; auto.
        apply (wo_neg_trans float_weak_order m a y); auto.
Qed.
Lemma fold_min2_spec t : forall a, nan a = false -> Forall (fun x => nan x = false) t ->
  let m := fold_left min2 t a in
  nan m = false /\ In m (a :: t) /\ Forall (fun x => flt x m = false) (a :: t).
Proof.
  induction t as [|y t IH]; cbn -[flt]; intros a Ha Ht.
  - repeat split; auto. constructor; auto. apply flt_irrefl.
  - inversion Ht as [|? ? Hy Ht']; subst.
    assert (E : min2 a y = if flt y a then y else a) by (unfold min2; now rewrite Ha, Hy).
    assert (Hn : nan (min2 a y) = false) by (rewrite E; destruct (flt y a); auto).
    destruct (IH (min2 a y) Hn Ht') as (H1 & H2 & H3).
    set (m := fold_left min2 t (min2 a y)) in *. split; auto. split.
    + destruct H2 as [H2|H2]; auto. rewrite <- H2, E. destruct (flt y a); auto.
    + inversion H3 as [|? ? H4 H5]; subst. constructor; [|constructor]; auto.
      * rewrite E in H4. destruct (flt y a) eqn:Ey; auto.
        apply (wo_neg_trans float_weak_order a y m); auto. apply (wo_asym _ _ float_weak_order); auto.
      * rewrite E in H4. destruct (flt y a) eqn:Ey; auto.
        apply (wo_neg_trans float_weak_order y a m); auto.
Qed.

Definition no_nan (l : list f32) := Forall (fun x => nan x = false) l.

Lemma np_max_spec l : l <> [] -> no_nan l ->
  exists m, np_max l = Ok m /\ nan m = false /\ In m l /\ forall x, In x l -> flt m x = false.
Proof.
  destruct l as [|a t]; [easy|]. intros _ H. inversion H as [|? ? Ha Ht]; subst.
  destruct (fold_max2_spec t a) as (H1 & H2 & H3); auto.
  eexists. split; [reflexivity|]. rewrite Forall_forall in H3. auto.
Qed.
Lemma np_min_spec l : l <> [] -> no_nan l ->
  exists m, np_min l = Ok m /\ nan m = false /\ In m l /\ forall x, In x l -> flt x m = false.
Proof.
  destruct l as [|a t]; [easy|]. intros _ H. inversion H as [|? ? Ha Ht]; subst.
  destruct (fold_min2_spec t a) as (H1 & H2 & H3); auto.
  eexists. split; [reflexivity|]. rewrite Forall_forall in H3. auto.
Qed.

Lemma map_id_ext {A} (f : A -> A) l : (forall x, In x l -> f x = x) -> map f l = l.
Proof. intros H. rewrite <- (map_id l) at 2. now apply map_ext_in. Qed.

Lemma clamp_hi_eq l hi mx : nan hi = false -> nan mx = false -> no_nan l ->
  (forall x, In x l -> flt mx x = false) ->
  (if flt hi mx then map (fun x => if flt hi x then hi else x) l else l)
  = map (fun x => if flt hi x then hi else x) l.
Proof.
  intros Hh Hm Hl H. destruct (flt hi mx) eqn:E; auto. symmetry. apply map_id_ext. intros x Hx.
  unfold no_nan in Hl. rewrite Forall_forall in Hl.
  now rewrite (wo_neg_trans float_weak_order hi mx x) by auto.
Qed.
Lemma clamp_lo_eq l lo mn : nan lo = false -> nan mn = false -> no_nan l ->
  (forall x, In x l -> flt x mn = false) ->
  (if flt mn lo then map (fun x => if flt x lo then lo else x) l else l)
  = map (fun x => if flt x lo then lo else x) l.
Proof.
  intros Hh Hm Hl H. destruct (flt mn lo) eqn:E; auto. symmetry. apply map_id_ext. intros x Hx.
  unfold no_nan in Hl. rewrite Forall_forall in Hl.
  now rewrite (wo_neg_trans float_weak_order x mn lo) by auto.
Qed.

Definition clamp (lo hi x : f32) : f32 :=
  let z := if flt hi x then hi else x in if flt z lo then lo else z.

Definition opt_or (o : option f32) (d : f32) : f32 := match o with Some v => v | None => d end.
Definition opt_no_nan (o : option f32) : Prop := forall v, o = Some v -> nan v = false.

Lemma adjust_range_clamp l dmin dmax mn mx :
  l <> [] -> no_nan l -> opt_no_nan dmin -> opt_no_nan dmax ->
  np_min l = Ok mn -> np_max l = Ok mx ->
  adjust_range l dmin dmax = Ok (map (clamp (opt_or dmin mn) (opt_or dmax mx)) l).
Proof.
  intros Hne Hl Hlo Hhi Emn Emx.
  destruct (np_max_spec l Hne Hl) as (mx' & E1 & Nmx & _ & Bmx). rewrite Emx in E1. injection E1 as <-.
  destruct (np_min_spec l Hne Hl) as (mn' & E2 & Nmn & _ & _). rewrite Emn in E2. injection E2 as <-.
  unfold adjust_range. rewrite Emx, Emn. cbv beta iota zeta delta [Ok].
  fold (opt_or dmax mx). fold (opt_or dmin mn).
  assert (Nhi : nan (opt_or dmax mx) = false) by (destruct dmax; cbn; auto).
  assert (Nlo : nan (opt_or dmin mn) = false) by (destruct dmin; cbn; auto).
  set (hi := opt_or dmax mx) in *. set (lo := opt_or dmin mn) in *.
  rewrite (clamp_hi_eq l hi mx); auto.
  set (l1 := map (fun x => if flt hi x then hi else x) l).
  assert (Hl1 : no_nan l1).
  { unfold no_nan, l1 in *. rewrite Forall_forall in *. intros y Hy. apply in_map_iff in Hy.
    destruct Hy as (x & <- & Hx). destruct (flt hi x); auto. }
  destruct (np_min_spec l1) as (m1 & E3 & Nm1 & _ & Bm1); auto.
  { unfold l1. destruct l; easy. }
  rewrite E3. unfold Ok. cbv beta iota zeta. f_equal.
  rewrite (clamp_lo_eq l1 lo m1); auto. unfold l1. rewrite map_map. reflexivity.
Qed.

Lemma clamp_within lo hi x : nan lo = false -> nan hi = false -> nan x = false -> flt hi lo = false ->
  flt (clamp lo hi x) lo = false /\ flt hi (clamp lo hi x) = false /\
  (flt x lo = false -> flt hi x = false -> clamp lo hi x = x) /\
  (flt hi x = true -> clamp lo hi x = hi) /\
  (flt x lo = true -> clamp lo hi x = lo).
Proof.
  intros Nl Nh Nx Hlh. unfold clamp.
  destruct (flt hi x) eqn:Ex; cbv zeta.
  - rewrite Hlh. repeat split; auto using flt_irrefl; try discriminate.
    intros E. exfalso. pose proof (wo_trans float_weak_order hi x lo Nh Nx Nl Ex E). congruence.
  - destruct (flt x lo) eqn:El; repeat split; auto using flt_irrefl; try discriminate.
Qed.

Lemma clamp_no_nan lo hi x : nan lo = false -> nan hi = false -> nan x = false ->
  nan (clamp lo hi x) = false.
Proof. intros. unfold clamp. destruct (flt hi x); cbv zeta; destruct (flt _ lo); auto. Qed.

Lemma clamp_idem lo hi x : nan lo = false -> nan hi = false -> nan x = false ->
  clamp lo hi (clamp lo hi x) = clamp lo hi x.
Proof.
  intros Nl Nh Nx. destruct (flt hi lo) eqn:E.
  - assert (G : forall y, nan y = false -> clamp lo hi y = lo).
    { intros y Ny. unfold clamp. destruct (flt hi y) eqn:Ey; cbv zeta; [now rewrite E|].
      destruct (flt y lo) eqn:E2; auto.
      pose proof (wo_neg_trans float_weak_order hi y lo Nh Ny Nl Ey E2). congruence. }
    rewrite (G x), (G lo); auto.
  - destruct (clamp_within lo hi x) as (H1 & H2 & _); auto.
    destruct (clamp_within lo hi (clamp lo hi x)) as (_ & _ & H3 & _); auto using clamp_no_nan.
Qed.

(** Both limits given. *)
Lemma adjust_range_both l lo hi : l <> [] -> no_nan l -> nan lo = false -> nan hi = false -> flt hi lo = false ->
  exists l', adjust_range l (Some lo) (Some hi) = Ok l' /\ length l' = length l /\
    (forall i x, nth_error l i = Some x -> exists y, nth_error l' i = Some y /\
       flt y lo = false /\ flt hi y = false /\
       (flt x lo = false -> flt hi x = false -> y = x) /\
       (flt hi x = true -> y = hi) /\ (flt x lo = true -> y = lo)) /\
    adjust_range l' (Some lo) (Some hi) = Ok l'.
Proof.
  intros Hne Hl Nl Nh Hlh.
  destruct (np_max_spec l Hne Hl) as (mx & Emx & _).
  destruct (np_min_spec l Hne Hl) as (mn & Emn & _).
  assert (OL : opt_no_nan (Some lo)) by (intros v [= <-]; auto).
  assert (OH : opt_no_nan (Some hi)) by (intros v [= <-]; auto).
  exists (map (clamp lo hi) l). split; [now apply (adjust_range_clamp l (Some lo) (Some hi) mn mx)|].
  split; [apply map_length|]. split.
  - intros i x Hi. exists (clamp lo hi x). split; [now apply map_nth_error|].
    apply nth_error_In in Hi. unfold no_nan in Hl. rewrite Forall_forall in Hl.
    apply clamp_within; auto.
  - assert (Hne' : map (clamp lo hi) l <> []) by (destruct l; easy).
    assert (Hl' : no_nan (map (clamp lo hi) l)).
    { unfold no_nan in *. rewrite Forall_forall in *. intros y Hy. apply in_map_iff in Hy.
      destruct Hy as (x & <- & Hx). apply clamp_no_nan; auto. }
    destruct (np_max_spec _ Hne' Hl') as (mx2 & E1 & _).
    destruct (np_min_spec _ Hne' Hl') as (mn2 & E2 & _).
    rewrite (adjust_range_clamp _ _ _ mn2 mx2) by auto. cbn [opt_or]. f_equal. rewrite map_map.
    unfold no_nan in Hl. rewrite Forall_forall in Hl.
    apply map_ext_in. intros x Hx. apply clamp_idem; auto.
Qed.

(** One or no limit given, not beyond the data. *)
Lemma adjust_range_upper l hi : l <> [] -> no_nan l -> nan hi = false ->
  (exists x, In x l /\ flt hi x = false) ->
  adjust_range l None (Some hi) = Ok (map (fun x => if flt hi x then hi else x) l).
Proof.
  intros Hne Hl Nh (x0 & Hx0 & Hh0).
  destruct (np_max_spec l Hne Hl) as (mx & Emx & _).
  destruct (np_min_spec l Hne Hl) as (mn & Emn & Nmn & _ & Bmn).
  rewrite (adjust_range_clamp l _ _ mn mx); auto; [|intros ? [=]|intros ? [= <-]; auto].
  cbn [opt_or]. f_equal. apply map_ext_in. intros x Hx. unfold clamp. cbv zeta.
  unfold no_nan in Hl. rewrite Forall_forall in Hl.
  destruct (flt hi x) eqn:E.
  - now rewrite (wo_neg_trans float_weak_order hi x0 mn) by auto.
  - now rewrite Bmn.
Qed.
Lemma adjust_range_lower l lo : l <> [] -> no_nan l -> nan lo = false ->
  adjust_range l (Some lo) None = Ok (map (fun x => if flt x lo then lo else x) l).
Proof.
  intros Hne Hl Nh.
  destruct (np_max_spec l Hne Hl) as (mx & Emx & Nmx & _ & Bmx).
  destruct (np_min_spec l Hne Hl) as (mn & Emn & Nmn & _ & Bmn).
  rewrite (adjust_range_clamp l _ _ mn mx); auto; [|intros ? [= <-]; auto|intros ? [=]].
  cbn [opt_or]. f_equal. apply map_ext_in. intros x Hx. unfold clamp. cbv zeta. now rewrite Bmx.
Qed.
Lemma adjust_range_none l : l <> [] -> no_nan l -> adjust_range l None None = Ok l.
Proof.
  intros Hne Hl.
  destruct (np_max_spec l Hne Hl) as (mx & Emx & Nmx & _ & Bmx).
  destruct (np_min_spec l Hne Hl) as (mn & Emn & Nmn & _ & Bmn).
  rewrite (adjust_range_clamp l _ _ mn mx); auto; [|intros ? [=]|intros ? [=]].
  cbn [opt_or]. f_equal. apply map_id_ext. intros x Hx. unfold clamp. cbv zeta. now rewrite Bmx, Bmn.
Qed.
(** An upper limit below all data: everything becomes the old minimum. *)
Lemma adjust_range_upper_below l hi mn : l <> [] -> no_nan l -> nan hi = false ->
  np_min l = Ok mn -> flt hi mn = true ->
  adjust_range l None (Some hi) = Ok (map (fun _ => mn) l).
Proof.
  intros Hne Hl Nh Emn Hh.
  destruct (np_max_spec l Hne Hl) as (mx & Emx & _).
  destruct (np_min_spec l Hne Hl) as (mn' & Emn' & Nmn & _ & Bmn).
  rewrite Emn in Emn'. injection Emn' as <-.
  rewrite (adjust_range_clamp l _ _ mn mx); auto; [|intros ? [=]|intros ? [= <-]; auto].
  cbn [opt_or]. f_equal. apply map_ext_in. intros x Hx. unfold clamp. cbv zeta.
  unfold no_nan in Hl. rewrite Forall_forall in Hl.
  destruct (flt hi x) eqn:E; [now rewrite Hh|].
  pose proof (wo_neg_trans float_weak_order hi x mn Nh (Hl x Hx) Nmn E (Bmn x Hx)). congruence.
Qed.

Lemma flt_nan_r' x : flt x S754_nan = false.
Proof. now apply flt_nan_r. Qed.
Lemma flt_nan_l' x : flt S754_nan x = false.
Proof. now apply flt_nan_l. Qed.

Lemma adjust_range_nan l dmin dmax : In S754_nan l -> adjust_range l dmin dmax = Ok l.
Proof.
  intros H. destruct l as [|a t]; [destruct H|].
  assert (H' : nan a = true \/ In S754_nan t) by (destruct H as [->|]; auto).
  unfold adjust_range, np_max, np_min. rewrite (fold_max2_nan t a H'), (fold_min2_nan t a H').
  unfold Ok. cbv beta iota zeta.
  rewrite flt_nan_r'. rewrite (fold_min2_nan t a H'). now rewrite flt_nan_l'.
Qed.

(** ** remove_nan, remove_neg *)
Lemma remove_nan_spec val l i x : nth_error l i = Some x ->
  nth_error (remove_nan val l) i = Some (if nan x then val else x).
Proof.
  intros H. unfold remove_nan. erewrite map_nth_error; [|exact H].
  rewrite feq_refl_iff, negb_involutive. reflexivity.
Qed.
Lemma remove_neg_spec val l i x : nth_error l i = Some x ->
  nth_error (remove_neg val l) i = Some (if flt x fzero then val else x).
Proof. intros H. unfold remove_neg. erewrite map_nth_error; [|exact H]. reflexivity. Qed.

Lemma remove_nan_none val l : nan val = false -> no_nan (remove_nan val l).
Proof.
  intros H. unfold no_nan, remove_nan. rewrite Forall_forall. intros y Hy. apply in_map_iff in Hy.
  destruct Hy as (x & <- & _). rewrite feq_refl_iff, negb_involutive. destruct (nan x) eqn:E; auto.
Qed.
Lemma remove_neg_none val l : flt val fzero = false ->
  Forall (fun y => flt y fzero = false) (remove_neg val l).
Proof.
  intros H. unfold remove_neg. rewrite Forall_forall. intros y Hy. apply in_map_iff in Hy.
  destruct Hy as (x & <- & _). destruct (flt x fzero) eqn:E; auto.
Qed.
Lemma remove_nan_idem val l : remove_nan val (remove_nan val l) = remove_nan val l.
Proof.
  unfold remove_nan. rewrite map_map. apply map_ext. intros x.
  rewrite !feq_refl_iff, !negb_involutive. destruct (nan x) eqn:E.
  - destruct (nan val); auto.
  - now rewrite E.
Qed.
Lemma remove_neg_idem val l : remove_neg val (remove_neg val l) = remove_neg val l.
Proof.
  unfold remove_neg. rewrite map_map. apply map_ext. intros x.
  destruct (flt x fzero) eqn:E; [destruct (flt val fzero); auto|now rewrite E].
Qed.
Lemma remove_nan_neg_commute v1 v2 l : flt v1 fzero = false -> nan v2 = false ->
  remove_neg v2 (remove_nan v1 l) = remove_nan v1 (remove_neg v2 l).
Proof.
  intros H1 H2. unfold remove_neg, remove_nan. rewrite !map_map. apply map_ext. intros x.
  rewrite !feq_refl_iff, !negb_involutive. destruct (nan x) eqn:E.
  - apply nan_eq in E. subst x. rewrite H1, flt_nan_l'. reflexivity.
  - destruct (flt x fzero) eqn:E2; rewrite ?H2, ?E; auto.
Qed.

(** ** remove_outlier *)
Local Open Scope R_scope.
Local Instance prec32 : FLX.Prec_gt_0 24 := eq_refl.
Local Instance emax32 : Prec_lt_emax 24 128 := eq_refl.
Local Instance fexp32 : Valid_exp (SpecFloat.fexp 24 128) := fexp_correct 24 128 prec32.

Lemma fR_format x : fvalid x = true -> generic_format radix2 (SpecFloat.fexp 24 128) (fR x).
Proof. intros H. destruct (to_B x H) as [a ->]. rewrite fR_B2SF. apply generic_format_B2R. Qed.

Lemma rnd_sub_pos x y : fvalid x = true -> fvalid y = true -> fR x < fR y -> rnd (fR x - fR y) < 0.
Proof.
  intros Hx Hy H. assert (rnd (fR x - fR y) <= 0). { rewrite <- rnd_0. apply rnd_mono. lra. }
  assert (rnd (fR x - fR y) <> 0); [|lra].
  unfold rnd, Rminus. apply round_plus_neq_0; auto with typeclass_instances.
  - apply monotone_exp_not_FTZ; [exact fexp32|apply (fexp_monotone 24 128)].
  - now apply fR_format.
  - apply generic_format_opp. now apply fR_format.
  - lra.
Qed.

Lemma fR_fzero : fR fzero = 0. Proof. reflexivity. Qed.

Lemma fle_not_lt_cases x y : fle x y = true -> nan x = false /\ nan y = false /\ flt y x = false.
Proof.
  intros H. assert (nan x = false) by (destruct x; auto; discriminate).
  assert (nan y = false). { destruct y as [| | |]; auto. destruct x as [[]|[]| |[]]; discriminate. }
  rewrite (fle_flt x y) in H by auto. apply negb_true_iff in H. auto.
Qed.

(** If the (rounded) excess is non-negative, the value is not below the median. *)
Lemma excess_nonneg a t dif : fvalid a = true -> fvalid t = true ->
  fle fzero dif = true -> fle dif (fsub a t) = true -> flt a t = false.
Proof.
  intros Va Vt H0 H1.
  apply fle_not_lt_cases in H0. destruct H0 as (_ & Nd & D0).
  apply fle_not_lt_cases in H1. destruct H1 as (_ & Ns & D1).
  assert (S0 : flt (fsub a t) fzero = false).
  { apply (wo_neg_trans float_weak_order _ dif fzero); auto. }
  destruct (flt a t) eqn:E; auto. exfalso.
  destruct (flt_not_nan _ _ E) as [Na Nt].
  destruct (is_fin a) eqn:Fa, (is_fin t) eqn:Ft.
  - apply flt_R in E; auto.
    destruct (fsub_R a t Va Vt Fa Ft) as [(_ & F & Hv)|(Hb & s & Hs & Hc)].
    + assert (flt (fsub a t) fzero = true); [|congruence].
      apply flt_R; auto. { now apply fvalid_sub. }
      rewrite Hv, fR_fzero. now apply rnd_sub_pos.
    + destruct s; [|lra]. rewrite Hs in S0. discriminate.
  - destruct t as [|[]| |]; try discriminate; destruct a; try discriminate.
  - destruct a as [|[]| |]; try discriminate; destruct t; try discriminate.
  - destruct a as [|[]| |]; try discriminate; destruct t as [|[]| |]; try discriminate.
Qed.

Lemma outlier_px_spec dif a t :
  (fle dif (fsub a t) = true -> outlier_px dif a t = t) /\
  (fle dif (fsub a t) = false -> outlier_px dif a t = a).
Proof. unfold outlier_px. split; intros ->; auto. Qed.

Lemma outlier_px_lowers dif a t : fvalid a = true -> fvalid t = true ->
  fle fzero dif = true -> flt a (outlier_px dif a t) = false.
Proof.
  intros Va Vt H0. unfold outlier_px. destruct (fle dif (fsub a t)) eqn:E; [|apply flt_irrefl].
  now apply (excess_nonneg a t dif).
Qed.

Lemma combine_nth_error {A B} (l : list A) (l' : list B) i x y :
  nth_error l i = Some x -> nth_error l' i = Some y -> nth_error (combine l l') i = Some (x, y).
Proof.
  revert l l'. induction i as [|i IH]; destruct l, l'; cbn; try discriminate; intros.
  - congruence.
  - auto.
Qed.

Lemma remove_outlier_spec dif arr tmp i a t : nth_error arr i = Some a -> nth_error tmp i = Some t ->
  nth_error (remove_outlier dif arr tmp) i = Some (if fle dif (fsub a t) then t else a).
Proof.
  intros Ha Ht. unfold remove_outlier. rewrite (map_nth_error _ _ _ (combine_nth_error arr tmp i a t Ha Ht)).
  reflexivity.
Qed.
Lemma remove_outlier_lowers dif arr tmp i a t r :
  Forall (fun x => fvalid x = true) arr -> Forall (fun x => fvalid x = true) tmp ->
  fle fzero dif = true ->
  nth_error arr i = Some a -> nth_error tmp i = Some t ->
  nth_error (remove_outlier dif arr tmp) i = Some r -> flt a r = false.
Proof.
  rewrite !Forall_forall. intros Va Vt H0 Ha Ht.
  rewrite (remove_outlier_spec dif arr tmp i a t Ha Ht). intros [= <-].
  apply nth_error_In in Ha, Ht. now apply outlier_px_lowers; auto.
Qed.
