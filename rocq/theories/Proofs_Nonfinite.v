(** median_filter_nonfinite, circ_mask, unobserved tasks, normalisation of one pixel. *)
From Verif Require Import Base Order Model_Float Proofs_Float FloatR Model_Mproc Model_Corr Proofs_Corr.
From Coq Require Import Reals Lra SpecFloat Permutation.
From Flocq Require Import Core BinarySingleNaN.
Local Open Scope Z_scope.

(** [v] is numpy's median of [w] (no NaN): the middle element, or half the rounded sum of the two
    middle elements. *)
Definition is_np_median (w : list f32) (v : f32) : Prop :=
  exists h, (length w = 2 * h + 1 /\ kth flt w h v)%nat \/
            ((length w = 2 * h)%nat /\ (1 <= h)%nat /\ exists a b, kth flt w (h - 1) a /\ kth flt w h b /\
               v = fdiv (fadd a b) f_two).

Lemma isort_sorted_kth w k : no_nan w -> (k < length w)%nat ->
  kth flt w k (nth k (isort flt w) S754_nan).
Proof.
  intros Hw Hk. destruct (isort_sorts _ _ float_weak_order w) as [P S].
  apply (sorted_kth _ _ float_weak_order w (isort flt w)); auto.
  apply nth_error_nth'. now rewrite (Permutation_length P).
Qed.

Lemma np_median_spec w : w <> [] -> no_nan w -> is_np_median w (np_median w).
Proof.
  intros Hne Hw. unfold np_median, is_np_median.
  destruct (isort_sorts _ _ float_weak_order w) as [P _].
  rewrite (Permutation_length P). set (n := length w).
  assert (1 <= n)%nat by (unfold n; destruct w; cbn; [easy|lia]).
  destruct (Nat.odd n) eqn:E.
  - apply Nat.odd_spec in E. destruct E as [h Eh]. exists h. left. split; auto.
    replace (n / 2)%nat with h by (rewrite Eh; apply (Nat.div_unique _ _ _ 1); lia).
    apply isort_sorted_kth; auto. unfold n in *. lia.
  - rewrite <- Nat.negb_even in E. apply negb_false_iff, Nat.even_spec in E. destruct E as [h Eh].
    exists h. right. split; auto. split; [lia|].
    replace (n / 2)%nat with h by (rewrite Eh; apply (Nat.div_unique _ _ _ 0); lia).
    eexists _, _. split; [|split]; [..|reflexivity]; apply isort_sorted_kth; auto; unfold n in *; lia.
Qed.

Local Open Scope R_scope.
Local Instance prec32 : FLX.Prec_gt_0 24 := eq_refl.
Local Instance emax32 : Prec_lt_emax 24 128 := eq_refl.
Local Instance fexp32 : Valid_exp (SpecFloat.fexp 24 128) := fexp_correct 24 128 prec32.

Lemma fR_two : fR f_two = 2.
Proof. unfold fR, SF2R, F2R. cbn. lra. Qed.

Lemma fR_double_format x : fvalid x = true -> rnd (2 * fR x) = 2 * fR x.
Proof.
  intros H. apply round_generic; auto with typeclass_instances.
  pose proof (fR_format x H) as F.
  change (SpecFloat.fexp 24 128) with (FLT_exp (-149) 24) in *.
  apply FLT_format_generic in F; [|exact prec32]. destruct F as [[m e] Hx Hm He].
  apply generic_format_FLT. exists (Float radix2 m (e + 1)); cbn in *; [|auto|lia].
  rewrite Hx. unfold F2R. cbn. rewrite bpow_plus. cbn. lra.
Qed.

Lemma mean2_between a b : fvalid a = true -> fvalid b = true -> is_fin a = true -> is_fin b = true ->
  Rabs (fR a) < bpow radix2 127 -> Rabs (fR b) < bpow radix2 127 -> fR a <= fR b ->
  let m := fdiv (fadd a b) f_two in
  fvalid m = true /\ is_fin m = true /\ fR a <= fR m <= fR b.
Proof.
  intros Va Vb Fa Fb Ba Bb Hab m.
  assert (S : 2 * fR a <= rnd (fR a + fR b) <= 2 * fR b).
  { rewrite <- (fR_double_format a), <- (fR_double_format b) by auto.
    split; apply rnd_mono; lra. }
  assert (B2 : 2 * bpow radix2 127 = big) by (unfold big; change 128%Z with (127 + 1)%Z; rewrite bpow_plus; cbn; lra).
  apply Rabs_def2 in Ba, Bb.
  assert (Rabs (rnd (fR a + fR b)) < big) by (apply Rabs_def1; lra).
  destruct (fadd_R a b Va Vb Fa Fb) as [HA _]. destruct (HA H) as [Fs Rs].
  assert (Vs : fvalid (fadd a b) = true) by now apply fvalid_add.
  assert (V2 : fvalid f_two = true) by reflexivity.
  assert (N2 : fR f_two <> 0) by (rewrite fR_two; lra).
  assert (D : fR a <= rnd (fR (fadd a b) / fR f_two) <= fR b).
  { rewrite Rs, fR_two. split.
    - rewrite <- (rnd_fR a Va) at 1. apply rnd_mono. lra.
    - rewrite <- (rnd_fR b Vb) at 2. apply rnd_mono. lra. }
  assert (Rabs (rnd (fR (fadd a b) / fR f_two)) < big) by (apply Rabs_def1; lra).
  destruct (fdiv_R (fadd a b) f_two Vs V2 Fs N2) as [HD _]. destruct (HD H0) as [Fm Rm].
  split; [now apply fvalid_div|]. split; auto. unfold m. rewrite Rm. exact D.
Qed.

Definition moderate (x : f32) : Prop :=
  fvalid x = true /\ is_fin x = true /\ Rabs (fR x) < bpow radix2 127.

Lemma fin_no_nan x : is_fin x = true -> nan x = false.
Proof. now destruct x. Qed.

(** The median of moderate values is a finite float between the smallest and the largest. *)
Lemma np_median_between w v : w <> [] -> Forall moderate w -> is_np_median w v ->
  fvalid v = true /\ is_fin v = true /\
  exists a b, In a w /\ In b w /\ fR a <= fR v <= fR b.
Proof.
  intros Hne Hw (h & [[Hn K]|(Hn & Hh & a & b & Ka & Kb & ->)]); rewrite Forall_forall in Hw.
  - pose proof (kth_in _ _ _ _ K) as Hin. destruct (Hw _ Hin) as (V & F & _).
    split; auto. split; auto. exists v, v. split; auto. split; auto. lra.
  - pose proof (kth_in _ _ _ _ Ka) as Ia. pose proof (kth_in _ _ _ _ Kb) as Ib.
    destruct (Hw _ Ia) as (Va & Fa & Ba). destruct (Hw _ Ib) as (Vb & Fb & Bb).
    assert (L : fR a <= fR b).
    { destruct (Rle_or_lt (fR a) (fR b)) as [|L]; auto. exfalso.
      apply flt_R in L; auto. destruct Ka as (_ & Ka & _). destruct Kb as (_ & _ & Kb).
      assert (count (fun x => negb (flt b x)) w <= count (fun x => flt x a) w)%nat; [|lia].
      apply count_mono. intros x Hx Hb. destruct (Hw x Hx) as (_ & Fx & _).
      destruct (flt x a) eqn:E; auto.
      assert (E2 : flt b x = false) by now destruct (flt b x).
      pose proof (wo_neg_trans float_weak_order b x a (fin_no_nan _ Fb) (fin_no_nan _ Fx) (fin_no_nan _ Fa) E2 E). congruence. }
    destruct (mean2_between a b) as (H1 & H2 & H3); auto.
    split; auto. split; auto. exists a, b. auto.
Qed.

Local Open Scope Z_scope.

(** ** The loop *)
Lemma img_set_eq p x y v i j : img_set p x y v i j = if (i =? x) && (j =? y) then v else p i j.
Proof. reflexivity. Qed.

Definition repaired (copy : img) (d1 d2 size : Z) (i j : Z) : f32 :=
  match mfn_repair copy d1 d2 size i j with inr v => v | inl _ => copy i j end.

Lemma mfn_loop_ok copy d1 d2 size idx : forall p,
  Forall (fun ij => exists v, mfn_repair copy d1 d2 size (fst ij) (snd ij) = Ok v) idx ->
  exists p', mfn_loop copy d1 d2 size idx p = (Ok tt, p') /\
   forall i j, (In (i, j) idx -> p' i j = repaired copy d1 d2 size i j) /\ (~ In (i, j) idx -> p' i j = p i j).
Proof.
  induction idx as [|[x y] t IH]; intros p H; cbn [mfn_loop].
  - exists p. split; auto. intros; split; [intros []|auto].
  - inversion H as [|? ? [v Hv] Ht]; subst. cbn [fst snd] in Hv. rewrite Hv. cbv beta iota delta [Ok].
    destruct (IH (img_set p x y v) Ht) as (p' & E & Hp). exists p'. split; [exact E|].
    intros i j. destruct (Hp i j) as [H1 H2].
    assert (D : {In (i, j) t} + {~ In (i, j) t}) by (apply in_dec; intros [] []; decide equality; apply Z.eq_dec).
    split.
    + intros H0. destruct D as [D|D]; auto. rewrite (H2 D), img_set_eq.
      destruct ((i =? x) && (j =? y)) eqn:Exy.
      * assert (i = x /\ j = y) as [-> ->] by lia. unfold repaired. rewrite Hv. reflexivity.
      * assert ((x, y) = (i, j)) as [= -> ->] by (destruct H0 as [H0|H0]; [auto|contradiction]). lia.
    + intros Hn. rewrite H2 by (intros HH; apply Hn; right; auto). rewrite img_set_eq.
      destruct ((i =? x) && (j =? y)) eqn:Exy; auto.
      assert (i = x /\ j = y) as [-> ->] by lia. exfalso. apply Hn. now left.
Qed.

Lemma mfn_repair_err copy d1 d2 size x y e : mfn_repair copy d1 d2 size x y = inl e -> e = ValueError.
Proof. unfold mfn_repair, Ok, Raise. destruct (filter _ _); congruence. Qed.

Lemma mfn_loop_err copy d1 d2 size idx : forall p,
  Exists (fun ij => exists e, mfn_repair copy d1 d2 size (fst ij) (snd ij) = Raise e) idx ->
  fst (mfn_loop copy d1 d2 size idx p) = Raise ValueError.
Proof.
  induction idx as [|[x y] t IH]; intros p H; [inversion H|]. cbn [mfn_loop].
  destruct (mfn_repair copy d1 d2 size x y) as [e|v] eqn:E.
  - apply mfn_repair_err in E. now subst e.
  - apply IH. inversion H as [? ? [e He]|]; subst; auto. cbn [fst snd] in He. unfold Raise in He. congruence.
Qed.

Lemma in_all_pixels d1 d2 i j : In (i, j) (all_pixels d1 d2) <-> 0 <= i < d1 /\ 0 <= j < d2.
Proof.
  unfold all_pixels. rewrite in_flat_map. split.
  - intros (x & Hx & Hy). apply in_map_iff in Hy. destruct Hy as (y & [= -> ->] & Hy).
    apply in_zrange in Hx, Hy. auto.
  - intros [Hi Hj]. exists i. split; [now apply in_zrange|]. apply in_map_iff. exists j.
    split; auto. now apply in_zrange.
Qed.
Lemma in_nonfinite p d1 d2 i j :
  In (i, j) (nonfinite_idx p d1 d2) <-> (0 <= i < d1 /\ 0 <= j < d2) /\ is_fin (p i j) = false.
Proof.
  unfold nonfinite_idx. rewrite filter_In, in_all_pixels. cbn. rewrite negb_true_iff. reflexivity.
Qed.

(** The cells of a window that hold a finite value. *)
Definition finite_cells (p : img) (d1 d2 size i j : Z) (cells : list (Z * Z)) : Prop :=
  NoDup cells /\ forall x y, In (x, y) cells <->
    0 <= x < d1 /\ 0 <= y < d2 /\ Z.abs (x - i) <= size / 2 /\ Z.abs (y - j) <= size / 2 /\
    is_fin (p x y) = true.

Definition window_cells (p : img) (d1 d2 size x y : Z) : list (Z * Z) :=
  filter (fun c => is_fin (p (fst c) (snd c)))
  (flat_map (fun i => map (fun j => (i, j))
              (zrange (Z.max 0 (y - size / 2)) (Z.min d2 (y + size / 2 + 1))))
           (zrange (Z.max 0 (x - size / 2)) (Z.min d1 (x + size / 2 + 1)))).

Lemma filter_map {A B} (f : A -> B) (g : B -> bool) l :
  filter g (map f l) = map f (filter (fun x => g (f x)) l).
Proof. induction l as [|x l IH]; cbn; auto. destruct (g (f x)); cbn; now rewrite IH. Qed.

Lemma mfn_window_cells p d1 d2 size x y :
  filter is_fin (mfn_window p d1 d2 size x y)
  = map (fun c => p (fst c) (snd c)) (window_cells p d1 d2 size x y).
Proof.
  unfold mfn_window, window_cells.
  rewrite <- (filter_map (fun c => p (fst c) (snd c)) is_fin). f_equal.
  induction (zrange (Z.max 0 (x - size / 2)) _) as [|i l IH]; cbn; auto.
  rewrite map_app, IH, map_map. reflexivity.
Qed.

Lemma NoDup_pairs l1 l2 : NoDup l1 -> NoDup l2 ->
  NoDup (flat_map (fun i : Z => map (fun j : Z => (i, j)) l2) l1).
Proof.
  intros H1 H2. induction H1 as [|i l1 Hi _ IH]; cbn; [constructor|].
  assert (NA : forall a b : list (Z * Z), NoDup a -> NoDup b -> (forall c, In c a -> ~ In c b) -> NoDup (a ++ b)).
  { intros a b Ha Hb Hab. induction Ha as [|c a Hc Ha IHa]; cbn; auto. constructor.
    - rewrite in_app_iff. intros [|]; auto. apply (Hab c); cbn; auto.
    - apply IHa. intros c' ?. apply Hab. now right. }
  apply NA; auto.
  - apply FinFun.Injective_map_NoDup; auto. intros ? ? [=]; auto.
  - intros c Hc Hc'. apply in_map_iff in Hc. destruct Hc as (j & <- & _).
    apply in_flat_map in Hc'. destruct Hc' as (i' & Hi' & Hc'). apply in_map_iff in Hc'.
    destruct Hc' as (? & [= -> _] & _). contradiction.
Qed.

Lemma window_cells_spec p d1 d2 size i j : 0 <= i < d1 -> 0 <= j < d2 ->
  finite_cells p d1 d2 size i j (window_cells p d1 d2 size i j).
Proof.
  intros Hi Hj. split.
  - apply NoDup_filter, NoDup_pairs; apply NoDup_zrange.
  - intros x y. unfold window_cells. rewrite filter_In, in_flat_map. cbn [fst snd]. split.
    + intros ((x' & Hx & Hy) & F). apply in_map_iff in Hy. destruct Hy as (y' & [= -> ->] & Hy).
      apply in_zrange in Hx, Hy. repeat split; auto; lia.
    + intros (Hx & Hy & H1 & H2 & F). split; auto. exists x. rewrite in_zrange. split; [lia|].
      apply in_map_iff. exists y. rewrite in_zrange. split; auto; lia.
Qed.

Lemma finite_cells_perm p d1 d2 size i j c1 c2 :
  finite_cells p d1 d2 size i j c1 -> finite_cells p d1 d2 size i j c2 -> Permutation c1 c2.
Proof.
  intros [N1 H1] [N2 H2]. apply NoDup_Permutation; auto. intros [x y]. now rewrite H1, H2.
Qed.

Definition vals (p : img) (cells : list (Z * Z)) := map (fun c => p (fst c) (snd c)) cells.

Lemma mfn_repair_cases p d1 d2 size i j : 0 <= i < d1 -> 0 <= j < d2 ->
  let c := window_cells p d1 d2 size i j in
  (c = [] /\ mfn_repair p d1 d2 size i j = Raise ValueError) \/
  (c <> [] /\ exists v, mfn_repair p d1 d2 size i j = Ok v /\ is_np_median (vals p c) v).
Proof.
  intros Hi Hj c. unfold mfn_repair. rewrite mfn_window_cells. fold c. fold (vals p c).
  destruct c as [|c0 c'] eqn:E; [left; auto|right]. split; [easy|].
  change (vals p (c0 :: c')) with (p (fst c0) (snd c0) :: vals p c') at 1. cbv iota.
  eexists. split; [reflexivity|].
  change (p (fst c0) (snd c0) :: vals p c') with (vals p (c0 :: c')).
  apply np_median_spec; [easy|]. unfold no_nan. rewrite Forall_forall. intros v Hv.
  unfold vals in Hv. apply in_map_iff in Hv. destruct Hv as ([x y] & <- & Hv).
  rewrite <- E in Hv. apply (window_cells_spec p d1 d2 size i j Hi Hj) in Hv. 
  apply fin_no_nan. apply Hv.
Qed.

(** Result of one projection. *)
Lemma mfn_projection_ok d1 d2 size p p' : mfn_projection d1 d2 size p = (Ok tt, p') ->
  forall i j,
    ((0 <= i < d1 /\ 0 <= j < d2) /\ is_fin (p i j) = false ->
       exists cells, finite_cells p d1 d2 size i j cells /\ cells <> [] /\ is_np_median (vals p cells) (p' i j)) /\
    (~ (0 <= i < d1 /\ 0 <= j < d2) \/ is_fin (p i j) = true -> p' i j = p i j).
Proof.
  intros H. unfold mfn_projection in H.
  assert (A : Forall (fun ij => exists v, mfn_repair p d1 d2 size (fst ij) (snd ij) = Ok v) (nonfinite_idx p d1 d2)).
  { rewrite Forall_forall. intros [x y] Hin. cbn.
    destruct (mfn_repair p d1 d2 size x y) as [e|v] eqn:E; [|exists v; auto]. exfalso.
    assert (fst (mfn_loop p d1 d2 size (nonfinite_idx p d1 d2) p) = Raise ValueError) as G.
    { apply mfn_loop_err. rewrite Exists_exists. exists (x, y). cbn. split; auto. exists e. auto. }
    rewrite H in G. discriminate. }
  destruct (mfn_loop_ok p d1 d2 size _ p A) as (q & E & Hq). rewrite H in E. injection E as <-.
  intros i j. destruct (Hq i j) as [H1 H2]. split.
  - intros HH. pose proof HH as [[Hi Hj] Hf]. apply in_nonfinite in HH. rewrite (H1 HH).
    rewrite Forall_forall in A. destruct (A _ HH) as [v Hv]. cbn in Hv. unfold repaired. rewrite Hv.
    destruct (mfn_repair_cases p d1 d2 size i j Hi Hj) as [[_ C]|[Hne (v' & C & Hm)]]; rewrite Hv in C; [discriminate|].
    injection C as <-. exists (window_cells p d1 d2 size i j). auto using window_cells_spec.
  - intros HH. apply H2. rewrite in_nonfinite. intros [HR Hf]. destruct HH as [|HH]; auto. congruence.
Qed.

(** It raises exactly when some non-finite pixel has no finite pixel in its window. *)
Lemma mfn_projection_raises d1 d2 size p :
  (exists p', mfn_projection d1 d2 size p = (Raise ValueError, p')) <->
  (exists i j, (0 <= i < d1 /\ 0 <= j < d2) /\ is_fin (p i j) = false /\ finite_cells p d1 d2 size i j []).
Proof.
  unfold mfn_projection. split.
  - intros [p' H].
    destruct (Exists_dec (fun ij => exists e, mfn_repair p d1 d2 size (fst ij) (snd ij) = Raise e) (nonfinite_idx p d1 d2)) as [D|D].
    { intros ij. destruct (mfn_repair p d1 d2 size (fst ij) (snd ij)) as [e|v]; [left; exists e|right; intros [e [=]]]; auto. }
    + apply Exists_exists in D. destruct D as ([i j] & Hin & e & He). cbn in He.
      apply in_nonfinite in Hin. destruct Hin as [[Hi Hj] Hf]. exists i, j. split; auto. split; auto.
      destruct (mfn_repair_cases p d1 d2 size i j Hi Hj) as [[Hc _]|[_ (v & C & _)]]; [|unfold Ok, Raise in *; congruence].
      rewrite <- Hc. now apply window_cells_spec.
    + exfalso. destruct (mfn_loop_ok p d1 d2 size (nonfinite_idx p d1 d2) p) as (q & E & _).
      * rewrite Forall_forall. intros ij Hin.
        destruct (mfn_repair p d1 d2 size (fst ij) (snd ij)) as [e|v] eqn:E; [|exists v; auto].
        exfalso. apply D, Exists_exists. exists ij. split; auto. exists e. auto.
      * rewrite H in E. discriminate.
  - intros (i & j & [Hi Hj] & Hf & Hc).
    assert (E : fst (mfn_loop p d1 d2 size (nonfinite_idx p d1 d2) p) = Raise ValueError).
    { apply mfn_loop_err, Exists_exists. exists (i, j). split; [apply in_nonfinite; auto|]. cbn.
      exists ValueError. destruct (mfn_repair_cases p d1 d2 size i j Hi Hj) as [[_ ?]|[Hne _]]; auto.
      exfalso. apply Hne. apply Permutation_nil.
      eapply finite_cells_perm; [exact Hc|now apply window_cells_spec]. }
    destruct (mfn_loop _ _ _ _ _ _) as [r q]. cbn in E. subst r. exists q. reflexivity.
Qed.

Lemma mfn_loop_only_value copy d1 d2 size idx : forall p e p',
  mfn_loop copy d1 d2 size idx p = (inl e, p') -> e = ValueError.
Proof.
  induction idx as [|[x y] t IH]; intros p e p'; cbn [mfn_loop]; [intros [=]|].
  destruct (mfn_repair copy d1 d2 size x y) as [e'|v] eqn:E; [|apply IH].
  apply mfn_repair_err in E. subst e'. intros [= <- _]. reflexivity.
Qed.

Lemma mfn_result d1 d2 size p : exists p', mfn_projection d1 d2 size p = (Ok tt, p') \/
  mfn_projection d1 d2 size p = (Raise ValueError, p').
Proof.
  destruct (mfn_projection d1 d2 size p) as [[e|[]] p'] eqn:E; exists p'; auto. right.
  apply mfn_loop_only_value in E. now subst e.
Qed.

(** The whole array: each projection by itself. *)
Lemma mfn_stack_ok d1 d2 size : forall ps ps',
  mfn_stack d1 d2 size ps = (Ok tt, ps') <->
  Forall2 (fun p p' => mfn_projection d1 d2 size p = (Ok tt, p')) ps ps'.
Proof.
  induction ps as [|p t IH]; intros ps'; cbn [mfn_stack].
  - split; [intros [= <-]; constructor|intros H; inversion H; auto].
  - destruct (mfn_projection d1 d2 size p) as [[e|[]] q] eqn:E.
    + split; [intros [=]|intros H; inversion H; unfold Ok in *; congruence].
    + destruct (mfn_stack d1 d2 size t) as [r t'] eqn:Et. split.
      * intros [= -> <-]. constructor; auto. now apply IH.
      * intros H. inversion H as [|? p2 ? t2 H1 H2]; subst. rewrite E in H1. injection H1 as <-.
        apply IH in H2. rewrite Et in H2 || idtac. injection H2 as -> ->. reflexivity.
Qed.

(** ** circ_mask *)
Lemma circ_mask_axis0 {V} n0 n1 n2 p q (val : V) a i j k :
  circ_mask (n0, n1, n2) 0 p q val a i j k = if get_mask n1 n2 p q j k then a i j k else val.
Proof. reflexivity. Qed.
Lemma circ_mask_axis1 {V} n0 n1 n2 p q (val : V) a i j k :
  circ_mask (n0, n1, n2) 1 p q val a i j k = if get_mask n0 n2 p q i k then a i j k else val.
Proof. reflexivity. Qed.
Lemma circ_mask_axis2 {V} n0 n1 n2 p q (val : V) a i j k :
  circ_mask (n0, n1, n2) 2 p q val a i j k = if get_mask n1 n0 p q j i then a i j k else val.
Proof. reflexivity. Qed.

Lemma get_mask_swap dx dy p q i j : get_mask dx dy p q i j = get_mask dy dx p q j i.
Proof.
  unfold get_mask. cbv zeta. destruct (Z.ltb_spec dx dy), (Z.ltb_spec dy dx); try lia;
    [..|replace dy with dx by lia]; f_equal; ring.
Qed.

Local Open Scope R_scope.
(** Squared distance of the centre of pixel (i, j) from the image centre, pixel size one. *)
Definition centre_dist2 (dx dy i j : Z) : R :=
  (IZR i + / 2 - IZR dx / 2) * (IZR i + / 2 - IZR dx / 2) +
  (IZR j + / 2 - IZR dy / 2) * (IZR j + / 2 - IZR dy / 2).

Lemma get_mask_disc dx dy p q i j : (0 < q)%Z -> (0 < dx)%Z -> (0 < dy)%Z ->
  get_mask dx dy p q i j = true <->
  centre_dist2 dx dy i j < Rsqr (IZR p / IZR q * (IZR (Z.min dx dy) / 2)).
Proof.
  intros Hq Hx Hy. unfold get_mask. cbv zeta. rewrite Z.ltb_lt.
  replace (if (dx <? dy)%Z then dx else dy) with (Z.min dx dy) by (destruct (Z.ltb_spec dx dy); lia).
  set (m := Z.min dx dy).
  assert (Q : 0 < IZR q) by (now apply IZR_lt).
  unfold centre_dist2, Rsqr.
  assert (E1 : (IZR i + / 2 - IZR dx / 2) = IZR (2 * i + 1 - dx) / 2).
  { rewrite minus_IZR, plus_IZR, mult_IZR. lra. }
  assert (E2 : (IZR j + / 2 - IZR dy / 2) = IZR (2 * j + 1 - dy) / 2).
  { rewrite minus_IZR, plus_IZR, mult_IZR. lra. }
  rewrite E1, E2. set (y := (2 * i + 1 - dx)%Z). set (x := (2 * j + 1 - dy)%Z).
  assert (L : IZR y / 2 * (IZR y / 2) + IZR x / 2 * (IZR x / 2)
              = IZR (q * q * (x * x + y * y)) / (4 * (IZR q * IZR q))).
  { rewrite mult_IZR, (mult_IZR q q), plus_IZR, !mult_IZR. field. lra. }
  assert (Rr : IZR p / IZR q * (IZR m / 2) * (IZR p / IZR q * (IZR m / 2))
              = IZR (p * p * (m * m)) / (4 * (IZR q * IZR q))).
  { rewrite mult_IZR, (mult_IZR p p), (mult_IZR m m). field. lra. }
  rewrite L, Rr. assert (P : 0 < 4 * (IZR q * IZR q)) by (assert (0 < IZR q * IZR q) by (now apply Rmult_lt_0_compat); lra).
  split; intros H.
  - apply Rmult_lt_compat_r; [now apply Rinv_0_lt_compat|now apply IZR_lt].
  - apply lt_IZR. apply (Rmult_lt_reg_r (/ (4 * (IZR q * IZR q)))); [now apply Rinv_0_lt_compat|exact H].
Qed.

Local Open Scope Z_scope.
Lemma get_mask_reflect dx dy p q i j :
  get_mask dx dy p q (dx - 1 - i) j = get_mask dx dy p q i j /\
  get_mask dx dy p q i (dy - 1 - j) = get_mask dx dy p q i j.
Proof. unfold get_mask; cbv zeta; split; f_equal; ring. Qed.

Lemma get_mask_mono dx dy p1 q1 p2 q2 i j : 0 < q1 -> 0 < q2 -> 0 <= p1 -> p1 * q2 <= p2 * q1 ->
  get_mask dx dy p1 q1 i j = true -> get_mask dx dy p2 q2 i j = true.
Proof.
  intros Q1 Q2 P1 H. unfold get_mask. cbv zeta. rewrite !Z.ltb_lt.
  set (D := (2 * j + 1 - dy) * (2 * j + 1 - dy) + (2 * i + 1 - dx) * (2 * i + 1 - dx)).
  set (m := if dx <? dy then dx else dy). intros L.
  assert (p1 * q2 * (p1 * q2) <= p2 * q1 * (p2 * q1)) by (apply Z.mul_le_mono_nonneg; nia).
  assert (0 <= m * m) by nia.
  assert (q2 * q2 * (q1 * q1 * D) < q2 * q2 * (p1 * p1 * (m * m))) by (apply Zmult_lt_compat_l; nia).
  assert (q2 * q2 * (p1 * p1 * (m * m)) <= q1 * q1 * (p2 * p2 * (m * m))).
  { replace (q2 * q2 * (p1 * p1 * (m * m))) with (p1 * q2 * (p1 * q2) * (m * m)) by ring.
    replace (q1 * q1 * (p2 * p2 * (m * m))) with (p2 * q1 * (p2 * q1) * (m * m)) by ring.
    apply Zmult_le_compat_r; auto. }
  assert (q1 * q1 * (q2 * q2 * D) < q1 * q1 * (p2 * p2 * (m * m))) by lia.
  apply (Zmult_lt_reg_r _ _ (q1 * q1)); nia.
Qed.

Lemma circ_mask_idem {V} d axis p q (val : V) a i j k : axis = 0 \/ axis = 1 \/ axis = 2 ->
  circ_mask d axis p q val (circ_mask d axis p q val a) i j k = circ_mask d axis p q val a i j k.
Proof.
  destruct d as [[n0 n1] n2]. intros [->|[->| ->]];
    rewrite ?circ_mask_axis0, ?circ_mask_axis1, ?circ_mask_axis2; destruct (get_mask _ _ _ _ _ _); auto.
Qed.

(** ** normalize, one pixel *)
Lemma denom_px_ge f d : flt (denom_px f d) f_1em6 = false.
Proof. unfold denom_px. cbv zeta. destruct (flt (fsub f d) f_1em6) eqn:E; auto. Qed.

Lemma denom_px_nonzero f d : feq (denom_px f d) fzero = false.
Proof.
  pose proof (denom_px_ge f d) as H. destruct (denom_px f d) as [[]|[]| |[] m e]; auto; try discriminate.
Qed.

Local Open Scope R_scope.
Lemma fR_1em6 : 0 < fR f_1em6.
Proof. unfold fR, SF2R. apply F2R_gt_0. reflexivity. Qed.

Lemma normalize_cutoff c f d a : flt c (normalize_px (Some c) f d a) = false.
Proof.
  unfold normalize_px. cbv zeta. destruct (flt c (fdiv _ _)) eqn:E; auto. apply flt_irrefl.
Qed.

Lemma fR_1em6_lt : fR f_1em6 < bpow radix2 127.
Proof.
  unfold fR, SF2R. apply (Rlt_trans _ (bpow radix2 0)).
  - unfold F2R. cbn. lra.
  - apply bpow_lt. lia.
Qed.

Lemma moderate_sub x y : moderate x -> moderate y ->
  fvalid (fsub x y) = true /\ is_fin (fsub x y) = true /\ fR (fsub x y) = rnd (fR x - fR y).
Proof.
  intros (Vx & Fx & Bx) (Vy & Fy & By).
  split; [now apply fvalid_sub|].
  destruct (fsub_R x y Vx Vy Fx Fy) as [(_ & H)|(Hb & _)]; auto. exfalso.
  assert (B2 : 2 * bpow radix2 127 = big) by (unfold big; change 128%Z with (127 + 1)%Z; rewrite bpow_plus; cbn; lra).
  apply Rabs_def2 in Bx, By.
  set (M := if Rle_dec (Rabs (fR x)) (Rabs (fR y)) then y else x).
  assert (VM : fvalid M = true) by (unfold M; destruct (Rle_dec _ _); auto).
  assert (HM : Rabs (fR x) <= Rabs (fR M) /\ Rabs (fR y) <= Rabs (fR M)).
  { unfold M. destruct (Rle_dec _ _); split; lra. }
  assert (BM : Rabs (fR M) < bpow radix2 127).
  { unfold M. destruct (Rle_dec _ _); apply Rabs_def1; lra. }
  assert (E : rnd (2 * Rabs (fR M)) = 2 * Rabs (fR M) /\ rnd (- (2 * Rabs (fR M))) = - (2 * Rabs (fR M))).
  { pose proof (fR_double_format M VM) as E.
    assert (E' : rnd (- (2 * fR M)) = - (2 * fR M)).
    { unfold rnd in *. apply round_generic; auto with typeclass_instances. apply generic_format_opp.
      rewrite <- E. apply generic_format_round; auto with typeclass_instances. }
    unfold Rabs. destruct (Rcase_abs (fR M)).
    - replace (2 * - fR M) with (- (2 * fR M)) by ring. rewrite Ropp_involutive. auto.
    - auto. }
  destruct E as [E1 E2].
  assert (U : rnd (fR x - fR y) <= 2 * Rabs (fR M)).
  { rewrite <- E1. apply rnd_mono. pose proof (Rle_abs (fR x)). pose proof (Rle_abs (- fR y)).
    rewrite Rabs_Ropp in *. lra. }
  assert (L : - (2 * Rabs (fR M)) <= rnd (fR x - fR y)).
  { rewrite <- E2. apply rnd_mono. pose proof (Rle_abs (- fR x)). pose proof (Rle_abs (fR y)).
    rewrite Rabs_Ropp in *. lra. }
  assert (Rabs (rnd (fR x - fR y)) < big) by (apply Rabs_def1; lra). lra.
Qed.

Lemma normalize_value f d a : moderate f -> moderate d -> moderate a ->
  let n := rnd (fR a - fR d) in
  let m := Rmax (rnd (fR f - fR d)) (fR f_1em6) in
  fR (denom_px f d) = m /\ is_fin (denom_px f d) = true /\
  ((Rabs (rnd (n / m)) < big /\ is_fin (normalize_px None f d a) = true /\ fR (normalize_px None f d a) = rnd (n / m)) \/
   (big <= Rabs (rnd (n / m)) /\ exists s, normalize_px None f d a = S754_infinity s)).
Proof.
  intros Mf Md Ma n m.
  destruct (moderate_sub f d Mf Md) as (V1 & F1 & R1).
  destruct (moderate_sub a d Ma Md) as (V2 & F2 & R2).
  assert (VL : fvalid f_1em6 = true) by reflexivity.
  assert (D : fR (denom_px f d) = m /\ is_fin (denom_px f d) = true /\ fvalid (denom_px f d) = true).
  { unfold denom_px. cbv zeta. destruct (flt (fsub f d) f_1em6) eqn:E.
    - apply flt_R in E; auto. unfold m. rewrite Rmax_right by lra. auto.
    - split; auto. unfold m. rewrite Rmax_left; [auto|].
      destruct (Rle_or_lt (fR f_1em6) (rnd (fR f - fR d))) as [|L]; auto. rewrite <- R1 in L.
      apply flt_R in L; auto. congruence. }
  destruct D as (D1 & D2 & D3). split; auto. split; auto.
  assert (N0 : fR (denom_px f d) <> 0).
  { rewrite D1. pose proof fR_1em6. pose proof (Rmax_r (rnd (fR f - fR d)) (fR f_1em6)). unfold m. lra. }
  unfold normalize_px. cbv zeta.
  destruct (fdiv_R (fsub a d) (denom_px f d) V2 D3 F2 N0) as [H1 H2].
  rewrite R2, D1 in H1, H2. fold n in H1, H2.
  destruct (Rlt_or_le (Rabs (rnd (n / m))) big) as [L|L]; auto.
Qed.
