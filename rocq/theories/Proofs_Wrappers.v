(** Lemmas on recon/wrappers.py. *)
From Coq Require Import Reals Lra String.
From Verif Require Import Base Model_Prep Model_Mproc Model_Wrappers Proofs_Mproc.
From Verif Require Proofs_Rotation.
Local Open Scope Z_scope.

(** ** Rounding and shifting *)
Lemma np_round_near x : (Rabs (IZR (np_round x) - x) <= 1 / 2)%R.
Proof.
  unfold np_round. destruct (base_Int_part x) as [H1 H2]. set (f := Int_part x) in *.
  destruct (rltb (x - IZR f) (1 / 2)) eqn:A; [apply Proofs_Rotation.rltb_spec in A|apply Proofs_Rotation.rltb_false in A].
  - apply Rabs_le. lra.
  - destruct (rltb (1 / 2) (x - IZR f)) eqn:B; [apply Proofs_Rotation.rltb_spec in B|apply Proofs_Rotation.rltb_false in B].
    + apply Rabs_le. rewrite plus_IZR. lra.
    + destruct (Z.even f); apply Rabs_le; rewrite ?plus_IZR; lra.
Qed.
Lemma np_round_int k : np_round (IZR k) = k.
Proof.
  pose proof (np_round_near (IZR k)) as H. rewrite <- minus_IZR in H. rewrite <- abs_IZR in H.
  assert (Z.abs (np_round (IZR k) - k) < 1); [|lia]. apply lt_IZR. lra.
Qed.
Lemma astra_sino_moved nang ndet center sino i j : let s := np_round (IZR ndet / 2 - center) in
  - ndet <= s -> 0 <= i < nang -> 0 <= j < ndet ->
  astra_sino nang ndet center sino i j = if (0 <=? j - s) && (j - s <? ndet) then sino i (j - s) else 0%R.
Proof.
  cbv zeta. unfold astra_sino. set (s := np_round (IZR ndet / 2 - center)). intros Hs Hi Hj.
  destruct (Z.eqb_spec s 0) as [->|H0].
  { rewrite Z.sub_0_r. replace ((0 <=? j) && (j <? ndet)) with true by lia. reflexivity. }
  assert (E : 0 <= j - s < ndet -> roll_flat nang ndet s sino i j = sino i (j - s)).
  { intros H. unfold roll_flat. rewrite Z.mod_small by nia. replace (i * ndet + j - s) with (j - s + i * ndet) by lia.
    rewrite Z.div_add, Z.mod_add by lia. rewrite Z.div_small, Z.mod_small by lia. f_equal. }
  unfold in_slice, clip. cbn [fst snd]. replace (0 <? 0) with false by lia. replace (ndet <? 0) with false by lia.
  destruct (Z.ltb_spec s 0).
  - replace (0 <? 0) with false by lia. replace (ndet <? ndet + s) with false by lia. replace (ndet + s <? 0) with false by lia.
    destruct (Z.leb_spec 0 (j - s)), (Z.ltb_spec (j - s) ndet); cbn [andb]; try lia.
    + replace (Z.min 0 ndet <=? j) with true by lia. replace (j <? Z.min 0 ndet) with false by lia.
      replace (Z.min (ndet + s) ndet <=? j) with false by lia. cbn [andb orb]. apply E. lia.
    + replace (Z.min (ndet + s) ndet <=? j) with true by lia. replace (j <? Z.min ndet ndet) with true by lia. rewrite orb_true_r. reflexivity.
  - replace (s <? 0) with false by lia. replace (ndet <? ndet + s) with true by lia. replace (ndet <? 0) with false by lia.
    replace (Z.min ndet ndet <=? j) with false by lia. cbn [andb]. rewrite orb_false_r. replace (Z.min 0 ndet <=? j) with true by lia. cbn [andb].
    destruct (Z.leb_spec 0 (j - s)); cbn [andb].
    + replace (j - s <? ndet) with true by lia. replace (j <? Z.min s ndet) with false by lia. apply E. lia.
    + replace (j <? Z.min s ndet) with true by lia. reflexivity.
Qed.

(** ** Options *)
Lemma lookup_app {V} k (d e : dict V) : lookup k (d ++ e) = match lookup k d with Some v => Some v | None => lookup k e end.
Proof. induction d as [|[k' v] d IH]; [reflexivity|]. cbn. destruct (String.eqb k k'); auto. Qed.
Lemma fill_lookup {V} (defaults opts : dict V) k :
  lookup k (fill_defaults defaults opts) = match lookup k opts with Some v => Some v | None => lookup k defaults end.
Proof.
  unfold fill_defaults. revert opts. induction defaults as [|[k' v'] defaults IH]; intros opts; cbn [fold_left lookup].
  { now destruct (lookup k opts). }
  rewrite IH. cbn [fst]. unfold has. destruct (String.eqb_spec k k') as [->|N].
  - destruct (lookup k' opts) as [v|] eqn:E; [now rewrite E|]. rewrite lookup_app, E. cbn. now rewrite String.eqb_refl.
  - destruct (lookup k' opts) as [v|] eqn:E; [auto|]. rewrite lookup_app. cbn. destruct (String.eqb_spec k k'); [easy|]. now destruct (lookup k opts).
Qed.
Lemma fill_app {V} (defaults opts : dict V) : exists l, fill_defaults defaults opts = opts ++ l.
Proof.
  unfold fill_defaults. revert opts. induction defaults as [|kv defaults IH]; intros opts; cbn [fold_left]; [exists []; now rewrite app_nil_r|].
  destruct (has (fst kv) opts); [apply IH|]. destruct (IH (opts ++ [kv])) as (l & ->). exists (kv :: l). now rewrite <- app_assoc.
Qed.

(** ** Slices and GPUs *)
Lemma NoDup_split {A} (l l' : list A) : NoDup (l ++ l') -> NoDup l /\ NoDup l' /\ forall x, In x l -> In x l' -> False.
Proof.
  induction l as [|a l IH]; cbn; intros H; [repeat split; auto; constructor|]. inversion H as [|? ? H1 H2]; subst. destruct (IH H2) as (A1 & A2 & A3).
  split; [constructor; auto; intros G; apply H1, in_app_iff; now left|]. split; auto.
  intros x [<-|G1] G2; [apply H1, in_app_iff; now right|now apply (A3 x)].
Qed.
Section Astra.
  Variable gpu_t image : Type.
  Variable run : option gpu_t -> img -> R -> image -> option image.
  Variable cuda : bool.
  Variables nang ndet : Z.
  Variable tomo : Z -> img.
  Variable center : Z -> R.
  Notation rec := (astra_rec gpu_t image run cuda nang ndet).
  Notation input := (slice_input cuda nang ndet tomo center).

  Lemma rec_all g l : NoDup l -> forall recon, (forall i, In i l -> run g (input i) (center i) (recon i) <> None) ->
    fst (rec g tomo center l recon) = true /\
    (forall i, In i l -> run g (input i) (center i) (recon i) = Some (snd (rec g tomo center l recon) i)) /\
    (forall i, ~ In i l -> snd (rec g tomo center l recon) i = recon i).
  Proof.
    induction 1 as [|a l Ha Hl IH]; intros recon H; cbn [astra_rec].
    { cbn. repeat split; tauto. }
    destruct (run g (input a) (center a) (recon a)) as [x|] eqn:E; [|exfalso; apply (H a); [now left|auto]].
    destruct (IH (fun k => if k =? a then x else recon k)) as (I1 & I2 & I3).
    { intros i Hi. destruct (Z.eqb_spec i a); [congruence|]. apply H. now right. }
    split; [exact I1|]. split.
    - intros i [<-|Hi].
      + rewrite I3 by auto. rewrite Z.eqb_refl. exact E.
      + specialize (I2 i Hi). destruct (Z.eqb_spec i a); [congruence|]. exact I2.
    - intros i Hi. rewrite I3 by (intros G; apply Hi; now right). destruct (Z.eqb_spec i a); [exfalso; apply Hi; left; congruence|reflexivity].
  Qed.
  Lemma rec_none g l recon : (forall s c a, run g s c a = None) -> snd (rec g tomo center l recon) = recon.
  Proof. intros H. destruct l as [|a l]; [reflexivity|]. cbn. now rewrite H. Qed.

  Notation jobs := (fold_left (fun r gs => snd (rec (Some (fst gs)) tomo center (snd gs) r))).
  Lemma jobs_all (recon : Z -> image) (js : list (gpu_t * list Z)) : NoDup (concat (map snd js)) ->
    (forall g i, In g (map fst js) -> run (Some g) (input i) (center i) (recon i) <> None) ->
    forall r, (forall i, In i (concat (map snd js)) -> r i = recon i) ->
    (forall i, In i (concat (map snd js)) -> exists g, In g (map fst js) /\ run (Some g) (input i) (center i) (recon i) = Some (jobs js r i)) /\
    (forall i, ~ In i (concat (map snd js)) -> jobs js r i = r i).
  Proof.
    induction js as [|[g' l'] js IHj]; intros N2 H' r Hr; cbn [map concat fold_left fst snd] in *.
    { split; [intros i []|auto]. }
    apply NoDup_split in N2 as (M1 & M2 & M3).
    destruct (rec_all (Some g') l' M1 r) as (_ & A & B).
    { intros i Hi. rewrite Hr by (apply in_app_iff; now left). apply H'. now left. }
    set (r2 := snd (rec (Some g') tomo center l' r)) in *.
    destruct (IHj M2 (fun g i Hg => H' g i (or_intror Hg)) r2) as [C D].
    { intros i Hi. rewrite B by (intros G; apply (M3 i G Hi)). apply Hr. apply in_app_iff. now right. }
    split.
    - intros i Hi. apply in_app_iff in Hi as [Hi|Hi].
      + exists g'. split; [now left|]. rewrite D by (intros G; apply (M3 i Hi G)). rewrite <- A by auto. now rewrite Hr by (apply in_app_iff; now left).
      + destruct (C i Hi) as (g2 & G1 & G2). exists g2. split; [now right|exact G2].
    - intros i Hi. rewrite D by (intros G; apply Hi, in_app_iff; now right). apply B. intros G. apply Hi, in_app_iff. now left.
  Qed.
End Astra.
