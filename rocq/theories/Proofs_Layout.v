(** Proofs about memory layout (C105, C106). *)
From Coq Require Import Permutation.
From Verif Require Import Base CLoop Model_Layout Spec_Layout.
Local Open Scope Z_scope.

Definition shape_ok (shape : list Z) : Prop := Forall (fun n => 1 <= n) shape.

Lemma prod_pos shape : shape_ok shape -> 1 <= prod shape.
Proof. induction 1 as [|n t Hn _ IH]; cbn; [lia|]. fold (prod t). nia. Qed.

Lemma in_indices shape idx :
  In idx (indices shape) <-> Forall2 (fun n i => 0 <= i < n) shape idx.
Proof.
  revert idx. induction shape as [|n t IH]; intros idx; cbn.
  - split; [intros [<-|[]]; constructor|]. inversion 1; auto.
  - rewrite in_flat_map. split.
    + intros (i & Hi & H). apply in_map_iff in H as (l & <- & H).
      apply in_zrange in Hi. constructor; [exact Hi|]. now apply IH.
    + inversion 1; subst. exists y. rewrite in_zrange. split; [assumption|].
      apply in_map. now apply IH.
Qed.

Lemma Forall2_length {A B} (P : A -> B -> Prop) la lb : Forall2 P la lb -> length la = length lb.
Proof. induction 1; cbn; auto. Qed.

Lemma map_add_zrange a n : map (Z.add a) (zrange 0 n) = zrange a (a + n).
Proof.
  unfold zrange. rewrite map_map. replace (a + n - a) with (n - 0) by lia.
  apply map_ext. intros. lia.
Qed.

Lemma flat_map_zrange f n p :
  0 <= p -> (forall i, 0 <= i < n -> f i = zrange (i * p) (i * p + p)) ->
  flat_map f (zrange 0 n) = zrange 0 (n * p).
Proof.
  intros Hp. destruct (Z_le_gt_dec n 0) as [Hn|Hn].
  { intros _. rewrite zrange_nil by lia. cbn. rewrite zrange_nil; [reflexivity|nia]. }
  replace n with (Z.of_nat (Z.to_nat n)) by lia. generalize (Z.to_nat n) as k. clear n Hn.
  induction k as [|k IH]; intros H; [reflexivity|].
  replace (Z.of_nat (S k)) with (Z.of_nat k + 1) by lia.
  rewrite zrange_snoc by lia. rewrite flat_map_app. rewrite IH by (intros; apply H; lia).
  cbn. rewrite app_nil_r, H by lia. rewrite zrange_app by nia. f_equal. lia.
Qed.

Lemma c_positions shape :
  Forall (fun n => 0 <= n) shape ->
  map (fun idx => dot idx (c_strides shape)) (indices shape) = zrange 0 (prod shape).
Proof.
  assert (P : forall s, Forall (fun n => 0 <= n) s -> 0 <= prod s).
  { induction 1 as [|n t Hn _ IH]; cbn; [lia|]. fold (prod t). nia. }
  induction 1 as [|n t Hn Ht IH]; [reflexivity|]. cbn. fold (prod t).
  rewrite flat_map_concat_map, concat_map, map_map, <- flat_map_concat_map.
  apply flat_map_zrange; [now apply P|]. intros i Hi. rewrite map_map. cbn.
  rewrite <- map_add_zrange, <- IH, map_map. reflexivity.
Qed.

Lemma shape_ok_0 shape : shape_ok shape -> Forall (fun n => 0 <= n) shape.
Proof. intros H. eapply Forall_impl; [|exact H]. cbn. lia. Qed.

Lemma length_indices shape : shape_ok shape -> length (indices shape) = Z.to_nat (prod shape).
Proof.
  intros H. apply shape_ok_0 in H. apply c_positions in H.
  apply (f_equal (@length Z)) in H. rewrite map_length, zrange_length in H. rewrite H. lia.
Qed.

(** ** Writing *)

Definition puts {V} (ps : list Z) (l : list V) (m : arr V) : arr V :=
  fold_left (fun m '(p, x) => aset m p x) (combine ps l) m.

Lemma puts_other {V} ps (l : list V) m p : ~ In p ps -> puts ps l m p = m p.
Proof.
  revert l m. induction ps as [|q ps IH]; intros [|x l] m H; try reflexivity.
  unfold puts. cbn. fold (puts ps l (aset m q x)). rewrite IH by (intros K; apply H; now right).
  unfold aset. destruct (Z.eqb_spec p q) as [->|]; [|reflexivity]. destruct H. now left.
Qed.

Lemma puts_get {V} ps (l : list V) m :
  NoDup ps -> length l = length ps -> map (puts ps l m) ps = l.
Proof.
  revert l m. induction ps as [|q ps IH]; intros [|x l] m Hn Hl; try discriminate; [reflexivity|].
  inversion Hn; subst. cbn [map]. f_equal.
  - unfold puts. cbn. fold (puts ps l (aset m q x)). rewrite puts_other by assumption.
    unfold aset. now rewrite Z.eqb_refl.
  - unfold puts. cbn. fold (puts ps l (aset m q x)). apply IH; [assumption|]. now injection Hl.
Qed.

Lemma write_data_puts {V} v (l : list V) m :
  write_data v l m = puts (map (pos v) (indices (vshape v))) l m.
Proof.
  unfold write_data, puts. generalize (indices (vshape v)) as is. intros is. revert l m.
  induction is as [|i is IH]; intros [|x l] m; try reflexivity. cbn. apply IH.
Qed.

Section Heap.
Context {V : Type} (d : V).
Implicit Types (h e : heap V) (v w : view) (l : list V).

Lemma getbuf_app h e b : (b < length h)%nat -> getbuf d (h ++ e) b = getbuf d h b.
Proof. intros H. unfold getbuf. now apply app_nth1. Qed.

Lemma elements_app h e v : (vbuf v < length h)%nat -> elements d (h ++ e) v = elements d h v.
Proof.
  intros H. unfold elements. apply map_ext. intros i. unfold at_. now rewrite getbuf_app.
Qed.

Lemma write_length h v l : length (write d h v l) = length h.
Proof. unfold write. apply upd_length. Qed.

Lemma getbuf_write_ne h v l b : b <> vbuf v -> getbuf d (write d h v l) b = getbuf d h b.
Proof. intros H. unfold write, getbuf. apply nth_upd_ne. congruence. Qed.

Lemma getbuf_write_eq h v l :
  (vbuf v < length h)%nat ->
  getbuf d (write d h v l) (vbuf v) =
  Buf (bshared (getbuf d h (vbuf v))) (blen (getbuf d h (vbuf v)))
      (write_data v l (bdata (getbuf d h (vbuf v)))).
Proof. intros H. unfold write at 1, getbuf at 1. now apply nth_upd_eq. Qed.

Lemma write_blen h v l b : blen (getbuf d (write d h v l) b) = blen (getbuf d h b).
Proof.
  destruct (Nat.eq_dec b (vbuf v)) as [->|H]; [|now rewrite getbuf_write_ne].
  destruct (Nat.lt_ge_cases (vbuf v) (length h)) as [K|K]; [now rewrite getbuf_write_eq|].
  unfold write. now rewrite upd_oob.
Qed.

Lemma write_shared h v l b : bshared (getbuf d (write d h v l) b) = bshared (getbuf d h b).
Proof.
  destruct (Nat.eq_dec b (vbuf v)) as [->|H]; [|now rewrite getbuf_write_ne].
  destruct (Nat.lt_ge_cases (vbuf v) (length h)) as [K|K]; [now rewrite getbuf_write_eq|].
  unfold write. now rewrite upd_oob.
Qed.

Lemma elements_write_ne h v l w :
  vbuf w <> vbuf v -> elements d (write d h v l) w = elements d h w.
Proof.
  intros H. unfold elements. apply map_ext. intros i. unfold at_. now rewrite getbuf_write_ne.
Qed.

Lemma elements_write h v l :
  (vbuf v < length h)%nat -> writable v -> length l = length (indices (vshape v)) ->
  elements d (write d h v l) v = l.
Proof.
  intros Hb Hw Hl. unfold elements, at_. rewrite getbuf_write_eq by assumption. cbn.
  rewrite <- (map_map (pos v)). rewrite write_data_puts. apply puts_get; [exact Hw|].
  now rewrite map_length.
Qed.

Lemma elements_length h v : length (elements d h v) = length (indices (vshape v)).
Proof. unfold elements. apply map_length. Qed.

(** Elements of a write are those written when read in the same order through another view with
    the same positions. *)
Lemma elements_positions h v w :
  vbuf v = vbuf w -> map (pos v) (indices (vshape v)) = map (pos w) (indices (vshape w)) ->
  elements d h v = elements d h w.
Proof.
  intros Hb Hp. unfold elements, at_. rewrite <- (map_map (pos v)), <- (map_map (pos w)).
  now rewrite Hp, Hb.
Qed.

(** ** C order *)

Definition c_ordered v : Prop := vstrides v = c_strides (vshape v).

Lemma c_ordered_memory v :
  shape_ok (vshape v) -> c_ordered v -> in_memory_order v.
Proof.
  intros Hs Hc. unfold in_memory_order. rewrite <- (c_positions _ (shape_ok_0 _ Hs)), map_map.
  apply map_ext. intros i. unfold pos. now rewrite Hc.
Qed.

Lemma memory_writable v : in_memory_order v -> writable v.
Proof.
  intros H. unfold writable. rewrite H, map_add_zrange. apply NoDup_zrange.
Qed.

Lemma contig_strides_dot shape strides idx :
  contig_strides shape strides = true -> length strides = length shape ->
  Forall2 (fun n i => 0 <= i < n) shape idx ->
  dot idx strides = dot idx (c_strides shape).
Proof.
  intros Hc Hl HF. revert strides Hc Hl.
  induction HF as [|n i t idx Hi HF IH]; intros [|s strides] Hc Hl; try discriminate; [reflexivity|].
  cbn in Hc |- *. apply andb_prop in Hc as [H1 H2].
  rewrite (IH strides H2) by (now injection Hl).
  apply orb_prop in H1 as [H1|H1]; apply Z.eqb_eq in H1; [|now subst].
  replace i with 0 by lia. lia.
Qed.

Lemma contig_ok shape strides :
  shape_ok shape -> contig shape strides = contig_strides shape strides.
Proof.
  intros H. unfold contig. replace (existsb (Z.eqb 0) shape) with false; [reflexivity|].
  symmetry. induction H as [|n t Hn _ IH]; [reflexivity|]. cbn [existsb]. rewrite IH.
  rewrite orb_false_r. destruct n; try reflexivity. lia.
Qed.

Lemma contiguous_memory v :
  shape_ok (vshape v) -> length (vstrides v) = length (vshape v) ->
  is_contiguous v = true -> in_memory_order v.
Proof.
  intros Hs Hl Hc. unfold is_contiguous in Hc. rewrite contig_ok in Hc by assumption.
  unfold in_memory_order. rewrite <- (c_positions _ (shape_ok_0 _ Hs)), map_map.
  apply map_ext_in. intros i Hi. unfold pos. f_equal.
  apply contig_strides_dot; auto. now apply in_indices.
Qed.

Lemma c_ordered_contiguous v : c_ordered v -> is_contiguous v = true.
Proof.
  intros H. unfold is_contiguous, contig. rewrite H.
  replace (contig_strides (vshape v) (c_strides (vshape v))) with true by
    (induction (vshape v) as [|n t IH]; cbn; [reflexivity|]; now rewrite Z.eqb_refl, <- IH, orb_true_r).
  apply orb_true_r.
Qed.

(** The converse: an array that lies in memory order is contiguous. *)
Lemma memory_contiguous v :
  shape_ok (vshape v) -> length (vstrides v) = length (vshape v) ->
  in_memory_order v -> is_contiguous v = true.
Proof.
  intros Hs Hl Hm. unfold is_contiguous. rewrite contig_ok by assumption.
  unfold in_memory_order in Hm. rewrite <- (c_positions _ (shape_ok_0 _ Hs)), map_map in Hm.
  assert (E : forall idx, Forall2 (fun n i => 0 <= i < n) (vshape v) idx ->
              dot idx (vstrides v) = dot idx (c_strides (vshape v))).
  { intros idx Hi. apply in_indices in Hi. unfold pos in Hm.
    assert (G : forall (l : list (list Z)) f g, map f l = map g l -> In idx l -> f idx = g idx :> Z).
    { induction l as [|a l IH]; intros f g He [].
      - subst. now injection He.
      - injection He as _ He. now apply IH. }
    pose proof (G _ _ _ Hm Hi) as K. cbn in K. lia. }
  clear Hm. revert E Hl. generalize (vstrides v) as ss. induction Hs as [|n t Hn Ht IH];
    intros [|s ss] E Hl; try discriminate; [reflexivity|]. cbn.
  assert (Z0 : Forall2 (fun n i => 0 <= i < n) t (map (fun _ => 0) t)).
  { clear -Ht. induction Ht; cbn; constructor; auto. lia. }
  assert (D0 : forall st, dot (map (fun _ => 0) t) st = 0).
  { clear. induction t as [|a t IH]; intros [|x st]; cbn; try reflexivity. now rewrite IH. }
  rewrite IH.
  - rewrite andb_true_r. destruct (Z.eqb_spec n 1) as [|Hn1]; [reflexivity|]. cbn.
    apply Z.eqb_eq. specialize (E (1 :: map (fun _ => 0) t)). cbn [dot c_strides] in E. rewrite !D0 in E.
    assert (Forall2 (fun n i => 0 <= i < n) (n :: t) (1 :: map (fun _ => 0) t)) as W
      by (constructor; [lia|assumption]). specialize (E W). lia.
  - intros idx Hi. specialize (E (0 :: idx)). cbn [dot c_strides] in E. rewrite !Z.mul_0_l, !Z.add_0_l in E. apply E. constructor; [lia|assumption].
  - now injection Hl.
Qed.

(** ** Copies *)

Lemma alloc_spec h sh shape strides f :
  alloc d h sh shape strides f =
  (h ++ [Buf sh (prod shape) (fun _ => d)], View (length h) 0 shape strides f).
Proof. reflexivity. Qed.

Lemma write_new h b v l :
  vbuf v = length h ->
  write d (h ++ [b]) v l = h ++ [Buf (bshared b) (blen b) (write_data v l (bdata b))].
Proof.
  intros Hv. unfold write. rewrite Hv. unfold getbuf.
  rewrite app_nth2, Nat.sub_diag by lia. cbn.
  induction h as [|x h IH] in |- *; [reflexivity|]. cbn. f_equal. apply IH.
Qed.

Lemma copy_c_spec h sh f v :
  shape_ok (vshape v) ->
  exists b, copy_c d h sh f v =
    (h ++ [b], View (length h) 0 (vshape v) (c_strides (vshape v)) f) /\
    bshared b = sh /\ blen b = prod (vshape v) /\
    elements d (h ++ [b]) (View (length h) 0 (vshape v) (c_strides (vshape v)) f)
    = elements d h v.
Proof.
  intros Hs. unfold copy_c. rewrite alloc_spec.
  set (w := View (length h) 0 (vshape v) (c_strides (vshape v)) f).
  rewrite write_new by reflexivity. eexists. split; [reflexivity|].
  split; [reflexivity|]. split; [reflexivity|].
  rewrite <- (write_new h (Buf sh (prod (vshape v)) (fun _ => d)) w) by reflexivity.
  apply elements_write.
  - rewrite app_length. cbn. lia.
  - apply memory_writable, c_ordered_memory; [exact Hs|reflexivity].
  - exact (elements_length h v).
Qed.

(** Sharing one array. *)
Definition rebuilt h v : view :=
  View (if is_sharedmem d h v then vbuf v else length h) 0 (vshape v) (c_strides (vshape v)) (vf32 v).

Lemma share_spec h v :
  is_array d h v ->
  exists e w, as_sharedmem d h false v = (h ++ e, w) /\
    vbuf w = (if is_sharedmem d h v then vbuf v else length h) /\
    (vbuf w < length (h ++ e))%nat /\
    (is_sharedmem d h v = true -> e = [] /\ w = v) /\
    (is_sharedmem d h v = false ->
       exists b, e = [b] /\ bshared b = true /\ blen b = prod (vshape v) /\
       c_ordered w /\ voff w = 0 /\ vshape w = vshape v /\ vf32 w = vf32 v /\
       elements d (h ++ e) w = elements d h v).
Proof.
  intros (Hb & Hl & Hs & Hp). unfold as_sharedmem. cbn [negb andb].
  destruct (is_sharedmem d h v) eqn:Es.
  - exists [], v. rewrite app_nil_r. repeat (split; [easy|]). discriminate.
  - destruct (copy_c_spec h true (vf32 v) v Hs) as (b & E & Hsh & Hlen & Hel). rewrite E.
    eexists [b], _. split; [reflexivity|]. split; [reflexivity|].
    split; [cbn; rewrite app_length; cbn; lia|]. split; [discriminate|]. intros _. exists b.
    repeat (split; [easy|]). exact Hel.
Qed.

(** ** Sharing all arrays *)

Lemma is_array_app h e v : is_array d h v -> is_array d (h ++ e) v.
Proof.
  intros (Hb & Hl & Hs & Hp). unfold is_array. rewrite app_length, getbuf_app by assumption.
  repeat split; auto. lia.
Qed.

Lemma sharedmem_app h e v :
  (vbuf v < length h)%nat -> is_sharedmem d (h ++ e) v = is_sharedmem d h v.
Proof. intros H. unfold is_sharedmem. now rewrite getbuf_app. Qed.

Definition good h h1 v x : Prop :=
  (vbuf x < length h1)%nat /\ vshape x = vshape v /\ voff x = 0 /\ c_ordered x /\
  elements d h1 x = elements d h v /\
  bshared (getbuf d h1 (vbuf x)) = true /\ blen (getbuf d h1 (vbuf x)) = prod (vshape v) /\
  (if is_sharedmem d h v then vbuf x = vbuf v else (length h <= vbuf x)%nat).

Definition usable h v : Prop :=
  is_array d h v /\ (is_sharedmem d h v = true -> whole d h v).

Lemma usable_app h e v : usable h v -> usable (h ++ e) v.
Proof.
  intros [Ha Hw]. split; [now apply is_array_app|]. destruct Ha as (Hb & _).
  rewrite sharedmem_app by assumption. intros H. specialize (Hw H). unfold whole in *.
  now rewrite getbuf_app.
Qed.

Lemma good_weaken h e h1 arrs xs :
  Forall (usable h) arrs -> Forall2 (good (h ++ e) h1) arrs xs -> Forall2 (good h h1) arrs xs.
Proof.
  intros HF H2. induction H2 as [|v x arrs xs Hg _ IH]; constructor.
  - inversion HF as [|? ? [(Hb & _) _] _]; subst. destruct Hg as (H1 & Hg2 & H3 & H4 & H5 & Hsh & Hbl & H6).
    rewrite elements_app in H5 by assumption. rewrite sharedmem_app in H6 by assumption.
    rewrite app_length in H6. repeat split; auto. destruct (is_sharedmem d h v); [auto|lia].
  - apply IH. now inversion HF.
Qed.

Lemma share_all_spec arrs : forall h,
  Forall (usable h) arrs ->
  exists e ws xs, share_all d h arrs = (h ++ e, ws) /\
    forall e', rebuild_all d (h ++ e ++ e') arrs ws = Ok xs /\
               Forall2 (good h (h ++ e ++ e')) arrs xs.
Proof.
  induction arrs as [|v t IH]; intros h H.
  - exists [], [], []. cbn. rewrite app_nil_r. split; [reflexivity|]. intros e'. split; [reflexivity|].
    constructor.
  - inversion H as [|? ? Hv Ht]; subst.
    destruct (share_spec h v (proj1 Hv)) as (e0 & w & E & Hbw & Hbl & Hyes & Hno).
    destruct (IH (h ++ e0)) as (e1 & ws & xs & E1 & R).
    { eapply Forall_impl; [|exact Ht]. intros a. apply usable_app. }
    set (x := View (vbuf w) 0 (vshape v) (c_strides (vshape v)) (vf32 v)).
    exists (e0 ++ e1), (w :: ws), (x :: xs). cbn [share_all]. rewrite E, E1.
    split; [now rewrite app_assoc|]. intros e'.
    specialize (R e'). rewrite <- app_assoc. rewrite <- app_assoc in R. destruct R as [R1 R2].
    destruct Hv as [(Hb & Hl & Hs & Hp) Hw].
    assert (B : blen (getbuf d (h ++ e0 ++ e1 ++ e') (vbuf w)) = prod (vshape v)
                /\ elements d (h ++ e0 ++ e1 ++ e') x = elements d h v
                /\ bshared (getbuf d (h ++ e0 ++ e1 ++ e') (vbuf w)) = true).
    { destruct (is_sharedmem d h v) eqn:Es.
      - destruct (Hyes eq_refl) as [-> ->]. specialize (Hw eq_refl).
        destruct Hw as (Hm & H0 & Hlen). rewrite getbuf_app by assumption. split; [exact Hlen|].
        split; [|exact Es]. rewrite elements_app by exact Hb. apply elements_positions; [reflexivity|].
        unfold in_memory_order in Hm. rewrite Hm, H0. exact (c_ordered_memory x Hs eq_refl).
      - destruct (Hno eq_refl) as (b & He & Hbs & Hbl' & Hc & Ho & Hsh & Hf & Hel).
        subst e0. rewrite app_assoc. rewrite getbuf_app by exact Hbl.
        assert (G : getbuf d (h ++ [b]) (vbuf w) = b)
          by (rewrite Hbw; unfold getbuf; rewrite app_nth2, Nat.sub_diag by lia; reflexivity).
        rewrite G. split; [exact Hbl'|]. split; [|exact Hbs].
        rewrite elements_app by exact Hbl. rewrite <- Hel.
          apply elements_positions; [reflexivity|]. unfold c_ordered in Hc. cbn. rewrite Hsh.
          apply map_ext. intros i. unfold pos. rewrite Hc, Ho, Hsh. reflexivity. }
    destruct B as (B1 & B2 & B3). split.
    + cbn [rebuild_all]. unfold to_numpy_array, get_shared_mem. rewrite B1, Z.eqb_refl. cbn.
      now rewrite R1.
    + constructor.
      * repeat split; auto.
        -- cbn. rewrite !app_length in *. lia.
        -- cbn. rewrite Hbw. destruct (is_sharedmem d h v); [reflexivity|lia].
      * exact (good_weaken _ _ _ _ _ Ht R2).
Qed.
(** ** distribute_jobs *)

Lemma write_all_length xs : forall h ls, length (write_all d h xs ls) = length h.
Proof.
  induction xs as [|x xs IH]; intros h [|l ls]; try reflexivity. cbn [write_all].
  now rewrite IH, write_length.
Qed.

Lemma write_all_blen xs b : forall h ls,
  blen (getbuf d (write_all d h xs ls) b) = blen (getbuf d h b).
Proof.
  induction xs as [|x xs IH]; intros h [|l ls]; try reflexivity. cbn [write_all].
  now rewrite IH, write_blen.
Qed.

Lemma write_all_shared xs b : forall h ls,
  bshared (getbuf d (write_all d h xs ls) b) = bshared (getbuf d h b).
Proof.
  induction xs as [|x xs IH]; intros h [|l ls]; try reflexivity. cbn [write_all].
  now rewrite IH, write_shared.
Qed.

Lemma write_all_other xs v : forall h ls,
  Forall (fun x => vbuf x <> vbuf v) xs ->
  elements d (write_all d h xs ls) v = elements d h v.
Proof.
  induction xs as [|x xs IH]; intros h [|l ls] H; try reflexivity. cbn [write_all].
  inversion H; subst. rewrite IH by assumption. apply elements_write_ne. congruence.
Qed.

Lemma write_all_last xs : forall h ls,
  xs <> [] -> Forall (fun x => (vbuf x < length h)%nat /\ writable x) xs ->
  Forall2 (fun l x => length l = length (indices (vshape x))) ls xs ->
  elements d (write_all d h xs ls) (last xs dummy_view) = last ls [].
Proof.
  induction xs as [|x xs IH]; intros h ls Hne HF H2; [congruence|].
  inversion H2 as [|l ? ls' ? Hl H2']; subst. cbn [write_all].
  inversion HF as [|? ? [Hb Hw] HF']; subst.
  destruct xs as [|x' xs'].
  - inversion H2'; subst. cbn. now apply elements_write.
  - inversion H2' as [|l' ? ls'' ? ? ?]; subst.
    change (last (l :: l' :: ls'') []) with (last (l' :: ls'') []).
    apply (IH (write d h x l) (l' :: ls'')); [discriminate| |assumption].
    eapply Forall_impl; [|exact HF']. cbn. intros a Ha. now rewrite write_length.
Qed.

Lemma good_values h h1 arrs xs :
  Forall2 (good h h1) arrs xs -> map (value d h1) xs = map (value d h) arrs.
Proof.
  induction 1 as [|v x arrs xs (_ & Hs & _ & _ & He & _) _ IH]; [reflexivity|]. cbn.
  rewrite IH. unfold value. now rewrite Hs, He.
Qed.

Lemma Forall2_last {A B} (P : A -> B -> Prop) la lb da db :
  la <> [] -> Forall2 P la lb -> P (last la da) (last lb db).
Proof.
  intros Hne H. induction H as [|a b la lb Hp H IH]; [congruence|].
  destruct H as [|a' b' la lb Hp' H]; [exact Hp|]. cbn [last] in *. apply IH. discriminate.
Qed.

Lemma last_map {A B} (f : A -> B) (l : list A) (a : A) (b : B) : l <> [] -> last (map f l) b = f (last l a).
Proof.
  intros Hne. induction l as [|x l IH]; [congruence|]. destruct l as [|y l]; [reflexivity|].
  cbn [map last] in *. apply IH. discriminate.
Qed.

Lemma good_writable h h1 arrs xs :
  Forall (usable h) arrs -> Forall2 (good h h1) arrs xs ->
  Forall (fun x => (vbuf x < length h1)%nat /\ writable x) xs.
Proof.
  intros HF H2. induction H2 as [|v x arrs xs Hg _ IH]; constructor.
  - destruct Hg as (H1 & Hs & H0 & Hc & _). split; [exact H1|].
    inversion HF as [|? ? [(_ & _ & Hok & _) _] _]; subst.
    apply memory_writable, c_ordered_memory; [now rewrite Hs|exact Hc].
  - apply IH. now inversion HF.
Qed.

Lemma good_lengths h h1 arrs xs (ls : list (list V)) :
  Forall2 (good h h1) arrs xs ->
  Forall2 (fun l val => length l = length (snd val)) ls (map (value d h) arrs) ->
  Forall2 (fun l x => length l = length (indices (vshape x))) ls xs.
Proof.
  intros H2. revert ls. induction H2 as [|v x arrs xs Hg _ IH]; intros ls Hl; inversion Hl; subst;
    constructor.
  - destruct Hg as (_ & Hs & _). cbn in *. rewrite elements_length in *. now rewrite Hs.
  - now apply IH.
Qed.

Lemma good_other h h1 arrs xs v :
  (vbuf v < length h)%nat ->
  (forall a, In a arrs -> is_sharedmem d h a = true -> vbuf a <> vbuf v) ->
  Forall2 (good h h1) arrs xs -> Forall (fun x => vbuf x <> vbuf v) xs.
Proof.
  intros Hv Ha H2. induction H2 as [|a x arrs xs Hg _ IH]; constructor.
  - destruct Hg as (_ & _ & _ & _ & _ & _ & _ & Hb).
    destruct (is_sharedmem d h a) eqn:Es; [|lia]. rewrite Hb. apply Ha; [now left|exact Es].
  - apply IH. intros b Hb. apply Ha. now right.
Qed.

Theorem distribute_none F h arrs :
  arrs <> [] -> Forall (usable h) arrs -> keeps_sizes F (map (value d h) arrs) ->
  exists h' w, distribute_jobs d F h arrs None = Ok (h', w) /\
    vshape w = vshape (last arrs dummy_view) /\
    elements d h' w = outcome F (map (value d h) arrs) /\
    (length h <= length h')%nat /\
    is_array d h' w /\ is_sharedmem d h' w = true /\ whole d h' w /\
    (if is_sharedmem d h (last arrs dummy_view) then vbuf w = vbuf (last arrs dummy_view)
     else (length h <= vbuf w)%nat) /\
    forall v, (vbuf v < length h)%nat ->
      (forall a, In a arrs -> is_sharedmem d h a = true -> vbuf a <> vbuf v) ->
      elements d h' v = elements d h v.
Proof.
  intros Hne HF (Hk1 & Hk2). destruct (share_all_spec arrs h HF) as (e & ws & xs & E & R).
  specialize (R []). rewrite app_nil_r in R. destruct R as [R G].
  unfold distribute_jobs. rewrite E, R. cbv beta iota delta [Ok]. rewrite (good_values _ _ _ _ G).
  destruct (F (map (value d h) arrs)) as [ls res] eqn:EF. cbn [fst snd] in *.
  assert (Hne' : xs <> []) by (intros ->; inversion G; subst; congruence).
  set (w := last xs dummy_view).
  pose proof (Forall2_last (good h (h ++ e)) arrs xs dummy_view dummy_view Hne G) as GL. fold w in GL.
  destruct GL as (Hb & Hsh & H0 & Hc & He & Hs & Hbl & Hloc).
  pose proof (good_writable _ _ _ _ HF G) as GW.
  pose proof (good_lengths _ _ _ _ ls G Hk1) as GLen.
  assert (Hok : shape_ok (vshape w)).
  { rewrite Hsh. clear -Hne HF. induction HF as [|a l [(_ & _ & Hok & _) _] HF IH]; [congruence|].
    destruct l; [exact Hok|]. apply IH. discriminate. }
  assert (Hm : in_memory_order w) by (now apply c_ordered_memory).
  set (h2 := write_all d (h ++ e) xs ls).
  set (h3 := match res with Some l => write d h2 w l | None => h2 end).
  assert (L3 : length h3 = length (h ++ e)).
  { unfold h3. destruct res; [rewrite write_length|]; apply write_all_length. }
  assert (B3 : blen (getbuf d h3 (vbuf w)) = prod (vshape w)).
  { unfold h3. destruct res; [rewrite write_blen|]; unfold h2; rewrite write_all_blen, Hsh; exact Hbl. }
  exists h3, w. split; [reflexivity|]. split; [exact Hsh|]. split.
  { unfold outcome. rewrite EF. unfold h3. destruct res as [l|].
    - apply elements_write; [unfold h2; now rewrite write_all_length| |].
      + now apply memory_writable.
      + rewrite (Hk2 l eq_refl). rewrite (last_map _ _ dummy_view) by assumption. cbn.
        rewrite elements_length. now rewrite Hsh.
    - unfold h2, w. now apply write_all_last. }
  split; [rewrite L3, app_length; lia|]. split.
  { split; [now rewrite L3|]. split.
    - rewrite Hc. clear. induction (vshape w); cbn; auto.
    - split; [exact Hok|]. rewrite B3, Hm, H0, map_add_zrange. apply Forall_forall. intros p Hp.
      apply in_zrange in Hp. lia. }
  split.
  { unfold is_sharedmem, h3. destruct res; [rewrite write_shared|]; unfold h2;
      rewrite write_all_shared; exact Hs. }
  split; [split; [exact Hm|split; [exact H0|exact B3]]|]. split; [exact Hloc|].
  intros v Hv Ha. pose proof (good_other _ _ _ _ v Hv Ha G) as GO.
  transitivity (elements d h2 v).
  - unfold h3. destruct res; [|reflexivity]. apply elements_write_ne.
    assert (In w xs) as Hin by (unfold w; destruct xs using rev_ind; [congruence|];
                                rewrite last_last; apply in_or_app; right; now left).
    rewrite Forall_forall in GO. specialize (GO w Hin). congruence.
  - unfold h2. rewrite write_all_other by assumption. now apply elements_app.
Qed.

Theorem chain_spec Fs : forall h v,
  usable h v -> chain_sizes (vshape v) Fs (elements d h v) ->
  exists h' w, chain d Fs h v = Ok (h', w) /\ vshape w = vshape v /\
    elements d h' w = chain_outcome (vshape v) Fs (elements d h v) /\
    (length h <= length h')%nat /\
    (forall u, (vbuf u < length h)%nat ->
       (is_sharedmem d h v = true -> vbuf v <> vbuf u) ->
       elements d h' u = elements d h u).
Proof.
  induction Fs as [|F Fs IH]; intros h v Hu Hk.
  - exists h, v. repeat split; auto.
  - destruct Hk as [Hk1 Hk2]. cbn [chain].
    destruct (distribute_none F h [v]) as (h1 & w & E & Hsh & He & Hl & Ha & Hs & Hw & Hloc & Hfr).
    { discriminate. } { now constructor. } { exact Hk1. }
    rewrite E. cbv beta iota delta [Ok]. cbn [last] in *. cbn [map value] in He.
    destruct (IH h1 w) as (h' & w' & E' & Hsh' & He' & Hl' & Hfr').
    { split; [exact Ha|]. intros _. exact Hw. }
    { rewrite Hsh, He. exact Hk2. }
    exists h', w'. split; [exact E'|]. split; [congruence|]. split.
    { rewrite He', Hsh, He. reflexivity. }
    split; [lia|]. intros u Hu1 Hu2. rewrite Hfr'.
    + apply Hfr; [exact Hu1|]. intros a [<-|[]]. exact Hu2.
    + lia.
    + intros _. destruct (is_sharedmem d h v) eqn:Es; [rewrite Hloc; auto|lia].
Qed.

(** A shared array that is not its whole block. *)
Theorem distribute_slice F h v out :
  is_sharedmem d h v = true -> blen (getbuf d h (vbuf v)) <> prod (vshape v) ->
  (vbuf v < length h)%nat ->
  (forall o, out = Some o -> is_array d h o) ->
  distribute_jobs d F h [v] out = Raise ValueError.
Proof.
  intros Hs Hb Hv Ho. unfold distribute_jobs. cbn [share_all]. unfold as_sharedmem at 1.
  cbn [negb andb]. rewrite Hs. destruct out as [o|].
  - destruct (share_spec h o (Ho o eq_refl)) as (e & w & E & _). rewrite E.
    cbn [rebuild_all]. unfold to_numpy_array, get_shared_mem. rewrite getbuf_app by assumption.
    destruct (Z.eqb_spec (blen (getbuf d h (vbuf v))) (prod (vshape v))); [congruence|].
    reflexivity.
  - cbn [rebuild_all]. unfold to_numpy_array, get_shared_mem.
    destruct (Z.eqb_spec (blen (getbuf d h (vbuf v))) (prod (vshape v))); [congruence|].
    reflexivity.
Qed.

(** A shared array with as many elements as its block: the jobs see the block in memory
    order. *)
Theorem distribute_memory F h v :
  is_array d h v -> is_sharedmem d h v = true -> blen (getbuf d h (vbuf v)) = prod (vshape v) ->
  let seen := map (bdata (getbuf d h (vbuf v))) (zrange 0 (prod (vshape v))) in
  keeps_sizes F [(vshape v, seen)] ->
  exists h' w, distribute_jobs d F h [v] None = Ok (h', w) /\ vshape w = vshape v /\
    elements d h' w = outcome F [(vshape v, seen)].
Proof.
  intros (Hb & Hl & Hs & Hp) Hsh Hlen seen Hk.
  set (x := View (vbuf v) 0 (vshape v) (c_strides (vshape v)) (vf32 v)).
  assert (Hm : in_memory_order x) by (apply c_ordered_memory; [exact Hs|reflexivity]).
  assert (Hx : usable h x).
  { split.
    - split; [exact Hb|]. split; [cbn; clear; induction (vshape v); cbn; auto|].
      split; [exact Hs|]. rewrite Hm. cbn [vbuf voff vshape x].
      rewrite map_add_zrange, Hlen. apply Forall_forall.
      intros p Hp'. apply in_zrange in Hp'. lia.
    - intros _. split; [exact Hm|]. split; [reflexivity|exact Hlen]. }
  assert (Ex : elements d h x = seen).
  { unfold elements, at_. rewrite <- (map_map (pos x)), Hm. cbn. now rewrite map_add_zrange. }
  destruct (distribute_none F h [x]) as (h' & w & E & Hsh' & He & _).
  { discriminate. } { now constructor. } { cbn [map]. unfold value. rewrite Ex. exact Hk. }
  exists h', w. split; [|split; [exact Hsh'|]].
  - rewrite <- E. unfold distribute_jobs. cbn [share_all]. unfold as_sharedmem. cbn [negb andb].
    unfold is_sharedmem. cbn [vbuf x]. unfold is_sharedmem in Hsh. rewrite Hsh. reflexivity.
  - rewrite He. cbn [map]. unfold value. now rewrite Ex.
Qed.

(** With an output array. *)
Lemma frombuffer_view w :
  shape_ok (vshape w) -> length (vstrides w) = length (vshape w) -> is_contiguous w = true ->
  exists x, to_numpy_array_of w = Ok x /\ vbuf x = vbuf w /\ vshape x = vshape w /\
    in_memory_order x /\ map (pos x) (indices (vshape x)) = map (pos w) (indices (vshape w)).
Proof.
  intros Hs Hl Hc. unfold to_numpy_array_of. rewrite Hc. eexists. split; [reflexivity|].
  split; [reflexivity|]. split; [reflexivity|].
  match goal with |- in_memory_order ?x /\ _ => assert (Hm : in_memory_order x)
    by (apply c_ordered_memory; [exact Hs|reflexivity]) end.
  split; [exact Hm|]. rewrite Hm. symmetry. exact (contiguous_memory _ Hs Hl Hc).
Qed.

Theorem distribute_out F h arrs o :
  arrs <> [] -> Forall (usable h) arrs -> keeps_sizes F (map (value d h) arrs) ->
  is_array d h o -> writable o ->
  (is_sharedmem d h o = true -> is_contiguous o = true) ->
  (forall l, snd (F (map (value d h) arrs)) = Some l -> length l = length (elements d h o)) ->
  exists h', distribute_jobs d F h arrs (Some o) = Ok (h', o) /\
    (forall l, snd (F (map (value d h) arrs)) = Some l -> elements d h' o = l) /\
    (snd (F (map (value d h) arrs)) = None ->
     (forall a, In a arrs -> is_sharedmem d h a = true -> vbuf a <> vbuf o) ->
     elements d h' o = elements d h o) /\
    forall v, (vbuf v < length h)%nat -> vbuf v <> vbuf o ->
      (forall a, In a arrs -> is_sharedmem d h a = true -> vbuf a <> vbuf v) ->
      elements d h' v = elements d h v.
Proof.
  intros Hne HF _ Ho Hw Hco Hk. destruct (share_all_spec arrs h HF) as (e & ws & xs & E & R).
  unfold distribute_jobs. rewrite E.
  destruct (share_spec (h ++ e) o (is_array_app h e o Ho)) as (e0 & so & Eo & Hbo & Hlo & Hyes & Hno).
  rewrite Eo. rewrite <- app_assoc in *.
  pose proof (R []) as [_ G0]. rewrite app_nil_r in G0. destruct (R e0) as [R1 G]. clear R.
  rewrite R1. destruct Ho as (Hb & Hl & Hs & Hp).
  rewrite (sharedmem_app h e o Hb) in *.
  (* the shared output: positions and contents *)
  assert (S : shape_ok (vshape so) /\ length (vstrides so) = length (vshape so) /\
              is_contiguous so = true /\ vshape so = vshape o /\
              elements d (h ++ e ++ e0) so = elements d h o).
  { destruct (is_sharedmem d h o) eqn:Es.
    - destruct (Hyes eq_refl) as [-> ->]. repeat split; auto. now rewrite elements_app.
    - destruct (Hno eq_refl) as (b & -> & _ & _ & Hc & Hof & Hsh & _ & Hel).
      rewrite Hsh. repeat split; auto.
      + rewrite Hc, Hsh. clear. induction (vshape o); cbn; auto.
      + now apply c_ordered_contiguous.
      + rewrite Hel. now apply elements_app. }
  destruct S as (Sok & Sl & Sc & Ssh & Sel).
  destruct (frombuffer_view so Sok Sl Sc) as (w & Ew & Hbw & Hshw & Hmw & Hpw).
  rewrite Ew. cbv beta iota delta [Ok]. rewrite (good_values _ _ _ _ G).
  destruct (F (map (value d h) arrs)) as [ls res] eqn:EF. cbn [fst snd] in *.
  set (h2 := h ++ e ++ e0) in *. set (h3 := write_all d h2 xs ls).
  set (h4 := match res with Some l => write d h3 w l | None => h3 end).
  assert (Lo : (vbuf o < length h4)%nat).
  { unfold h4. destruct res; [rewrite write_length|]; unfold h3; rewrite write_all_length;
      unfold h2; rewrite !app_length; lia. }
  assert (Lw : length (elements d h4 w) = length (indices (vshape o))).
  { rewrite elements_length, Hshw. now rewrite Ssh. }
  assert (Ls : (vbuf so < length h2)%nat) by exact Hlo.
  eexists. split; [reflexivity|]. split; [|split].
  - intros l Hl'. rewrite elements_write by (auto). unfold h4. rewrite Hl'.
    apply elements_write; [|now apply memory_writable|].
    + unfold h3. rewrite write_all_length, Hbw. exact Ls.
    + rewrite (Hk l Hl'), elements_length, Hshw, Ssh. reflexivity.
  - intros Hres Ha. rewrite elements_write by auto. unfold h4. rewrite Hres.
    rewrite (elements_positions h3 w so Hbw Hpw). unfold h3. rewrite write_all_other; [exact Sel|].
    destruct (is_sharedmem d h o) eqn:Es.
    + rewrite Hbo. exact (good_other _ _ _ _ o Hb Ha G).
    + rewrite Hbo. clear -G0. induction G0 as [|a x arrs xs Hg _ IH]; constructor; [|exact IH].
      destruct Hg as (Hlt & _). lia.
  - intros v Hv Hvo Ha. rewrite elements_write_ne by assumption.
    pose proof (good_other _ _ _ _ v Hv Ha G) as GO.
    transitivity (elements d h3 v).
    + unfold h4. destruct res; [|reflexivity]. apply elements_write_ne. rewrite Hbw, Hbo.
      destruct (is_sharedmem d h o); [congruence|]. rewrite app_length. lia.
    + unfold h3. rewrite write_all_other by assumption. unfold h2. now apply elements_app.
Qed.

(** A shared output array that is not contiguous. *)
Theorem distribute_out_strided F h arrs o :
  arrs <> [] -> Forall (usable h) arrs -> is_array d h o ->
  is_sharedmem d h o = true -> is_contiguous o = false ->
  distribute_jobs d F h arrs (Some o) = Raise ValueError.
Proof.
  intros Hne HF Ho Hs Hc. destruct (share_all_spec arrs h HF) as (e & ws & xs & E & R).
  unfold distribute_jobs. rewrite E. unfold as_sharedmem. cbn [negb andb].
  rewrite (sharedmem_app h e o) by apply Ho. rewrite Hs.
  specialize (R []). rewrite app_nil_r in R. destruct R as [R _]. rewrite R.
  unfold to_numpy_array_of. rewrite Hc. reflexivity.
Qed.

(** ** Arrays made "like" another one *)

Definition zsuml (l : list Z) : Z := fold_right Z.add 0 l.

Lemma zsuml_perm (l l' : list Z) : Permutation l l' -> zsuml l = zsuml l'.
Proof. induction 1; cbn; try fold (zsuml l) (zsuml l'); unfold zsuml in *; lia. Qed.

Lemma dot_seq a b :
  length a = length b ->
  dot a b = zsuml (map (fun k => nth k a 0 * nth k b 0) (seq 0 (length a))).
Proof.
  revert b. induction a as [|x a IH]; intros [|y b] H; try discriminate; [reflexivity|].
  cbn [dot length seq map nth]. rewrite <- seq_shift, map_map. cbn [zsuml fold_right].
  f_equal. apply IH. now injection H.
Qed.

Lemma length_c_strides shape : length (c_strides shape) = length shape.
Proof. induction shape; cbn; auto. Qed.

Definition sel (axes : list nat) (l : list Z) : list Z := map (fun k => nth k l 0) axes.

Lemma position_sum axes s idx :
  NoDup axes -> length s = length axes ->
  zsuml (map (fun k => nth k idx 0 * nth (position k axes) s 0) axes) = dot (sel axes idx) s.
Proof.
  revert s. induction axes as [|k t IH]; intros [|x s] Hn Hl; try discriminate; [reflexivity|].
  inversion Hn; subst. cbn [map zsuml fold_right sel dot position]. rewrite Nat.eqb_refl. cbn [nth].
  f_equal. change (map (fun k0 => nth k0 idx 0) t) with (sel t idx). rewrite <- (IH s); [|assumption|now injection Hl]. unfold zsuml. f_equal.
  apply map_ext_in. intros j Hj. destruct (Nat.eqb_spec k j) as [->|]; [contradiction|]. reflexivity.
Qed.

Lemma order_dot shape axes idx :
  Permutation axes (seq 0 (length shape)) -> length idx = length shape ->
  dot idx (order_strides shape axes) = dot (sel axes idx) (c_strides (sel axes shape)).
Proof.
  intros Hp Hl. assert (Hn : NoDup axes).
  { eapply Permutation_NoDup; [apply Permutation_sym; exact Hp|apply seq_NoDup]. }
  rewrite <- position_sum; [|exact Hn|now rewrite length_c_strides; unfold sel; rewrite map_length].
  rewrite dot_seq by (unfold order_strides; rewrite map_length, seq_length; exact Hl).
  rewrite Hl. transitivity (zsuml (map (fun k => nth k idx 0 *
     nth (position k axes) (c_strides (sel axes shape)) 0) (seq 0 (length shape)))).
  - f_equal. apply map_ext_in. intros k Hk. apply in_seq in Hk. f_equal. unfold order_strides.
    set (g := fun k => nth (position k axes) _ 0).
    rewrite (nth_indep _ 0 (g 0%nat)) by (rewrite map_length, seq_length; lia).
    rewrite map_nth, seq_nth by lia. reflexivity.
  - apply zsuml_perm, Permutation_map, Permutation_sym, Hp.
Qed.

Lemma map_inj_in {A B} (f : A -> B) (l : list A) a b :
  NoDup (map f l) -> In a l -> In b l -> f a = f b -> a = b.
Proof.
  induction l as [|x l IH]; intros Hn [] []; subst; cbn in Hn; inversion Hn as [|? ? Hx Hn']; subst;
    intros E; auto.
  - destruct Hx. rewrite E. now apply in_map.
  - destruct Hx. rewrite <- E. now apply in_map.
Qed.

Lemma NoDup_map_in {A B} (f : A -> B) (l : list A) :
  NoDup l -> (forall a b, In a l -> In b l -> f a = f b -> a = b) -> NoDup (map f l).
Proof.
  induction 1 as [|x l Hx Hn IH]; intros Hf; constructor.
  - intros K. apply in_map_iff in K as (y & E & Hy). apply Hx.
    rewrite (Hf x y); [exact Hy|now left|now right|now symmetry].
  - apply IH. intros a b Ha Hb. apply Hf; now right.
Qed.

Lemma NoDup_indices shape : shape_ok shape -> NoDup (indices shape).
Proof.
  intros H. apply (NoDup_map_inv (fun idx => dot idx (c_strides shape))).
  rewrite (c_positions _ (shape_ok_0 _ H)). apply NoDup_zrange.
Qed.

Lemma sel_in axes shape idx :
  Forall (fun k => (k < length shape)%nat) axes ->
  Forall2 (fun n i => 0 <= i < n) shape idx ->
  Forall2 (fun n i => 0 <= i < n) (sel axes shape) (sel axes idx).
Proof.
  intros HF H2. induction HF as [|k t Hk _ IH]; [constructor|]. cbn. constructor; [|exact IH].
  clear -Hk H2. revert k Hk. induction H2 as [|n i shape idx Hi _ IH]; intros k Hk; [cbn in Hk; lia|].
  destruct k as [|k]; cbn; [exact Hi|]. apply IH. cbn in Hk. lia.
Qed.

Lemma order_writable b off shape axes f :
  shape_ok shape -> Permutation axes (seq 0 (length shape)) ->
  writable (View b off shape (order_strides shape axes) f).
Proof.
  intros Hs Hp. unfold writable. cbn [vshape]. apply NoDup_map_in; [now apply NoDup_indices|].
  intros x y Hx Hy E. unfold pos in E. cbn [voff vstrides] in E.
  apply in_indices in Hx, Hy.
  assert (Lx : length x = length shape) by (symmetry; now apply Forall2_length in Hx).
  assert (Ly : length y = length shape) by (symmetry; now apply Forall2_length in Hy).
  rewrite !order_dot in E by assumption.
  assert (HF : Forall (fun k => (k < length shape)%nat) axes).
  { apply Forall_forall. intros k Hk. apply (Permutation_in _ Hp) in Hk. apply in_seq in Hk. lia. }
  assert (Hs' : shape_ok (sel axes shape)).
  { apply Forall_forall. intros n Hn. apply in_map_iff in Hn as (k & <- & Hk).
    rewrite Forall_forall in HF. specialize (HF k Hk). unfold shape_ok in Hs.
    rewrite Forall_forall in Hs. apply Hs, nth_In, HF. }
  assert (Es : sel axes x = sel axes y).
  { apply (map_inj_in (fun idx => dot idx (c_strides (sel axes shape))) (indices (sel axes shape))).
    - rewrite (c_positions _ (shape_ok_0 _ Hs')). apply NoDup_zrange.
    - apply in_indices. now apply sel_in.
    - apply in_indices. now apply sel_in.
    - lia. }
  apply nth_ext with (d := 0) (d' := 0); [congruence|]. intros k Hk.
  assert (Hin : In k axes).
  { apply (Permutation_in k (Permutation_sym Hp)). apply in_seq. lia. }
  clear -Es Hin. unfold sel in Es. induction axes as [|j t IH]; [destruct Hin|].
  injection Es as E1 E2. destruct Hin as [->|Hin]; [exact E1|]. now apply IH.
Qed.

Lemma insert_axis_perm st k (l : list nat) : Permutation (insert_axis st k l) (k :: l).
Proof.
  induction l as [|j t IH]; cbn; [reflexivity|].
  destruct (Z.abs (nth j st 0) <? Z.abs (nth k st 0)); [reflexivity|].
  rewrite IH. apply perm_swap.
Qed.

Lemma sort_axes_perm st n : Permutation (sort_axes st n) (seq 0 n).
Proof.
  unfold sort_axes. change (seq 0 n) with ([] ++ seq 0 n) at 2.
  generalize (@nil nat) as acc. generalize (seq 0 n) as l. induction l as [|k l IH]; intros acc; cbn.
  - now rewrite app_nil_r.
  - rewrite IH, insert_axis_perm. cbn. apply Permutation_middle.
Qed.

Lemma keep_order_perm shape st : Permutation (keep_order shape st) (seq 0 (length shape)).
Proof.
  unfold keep_order. destruct (contig shape st); [reflexivity|].
  destruct (contig (rev shape) (rev st)); [apply Permutation_sym, Permutation_rev|].
  apply sort_axes_perm.
Qed.

Lemma map_nth_seq (l : list Z) : map (fun k => nth k l 0) (seq 0 (length l)) = l.
Proof.
  induction l as [|x l IH]; [reflexivity|]. cbn [length seq map nth]. f_equal.
  rewrite <- seq_shift, map_map. exact IH.
Qed.

Lemma position_seq a n k : (a <= k < a + n)%nat -> position k (seq a n) = (k - a)%nat.
Proof.
  revert a. induction n as [|n IH]; intros a H; [lia|]. cbn.
  destruct (Nat.eqb_spec a k) as [->|]; [lia|]. rewrite IH by lia. lia.
Qed.

Lemma order_strides_seq shape : order_strides shape (seq 0 (length shape)) = c_strides shape.
Proof.
  unfold order_strides. rewrite map_nth_seq.
  transitivity (map (fun k => nth k (c_strides shape) 0) (seq 0 (length (c_strides shape))));
    [|apply map_nth_seq]. rewrite length_c_strides. apply map_ext_in. intros k Hk. apply in_seq in Hk.
  rewrite position_seq by lia. now rewrite Nat.sub_0_r.
Qed.

Lemma keep_strides_contiguous v :
  is_contiguous v = true -> keep_strides v = c_strides (vshape v).
Proof.
  intros H. unfold keep_strides, keep_order. unfold is_contiguous in H. rewrite H.
  apply order_strides_seq.
Qed.

Lemma convert_spec conv h v :
  shape_ok (vshape v) ->
  exists b, convert d conv h v =
    (h ++ [b], View (length h) 0 (vshape v) (keep_strides v) true) /\
    blen b = prod (vshape v) /\
    elements d (h ++ [b]) (View (length h) 0 (vshape v) (keep_strides v) true)
    = map conv (elements d h v).
Proof.
  intros Hs. unfold convert. rewrite alloc_spec.
  set (w := View (length h) 0 (vshape v) (keep_strides v) true).
  rewrite write_new by reflexivity. eexists. split; [reflexivity|]. split; [reflexivity|].
  rewrite <- (write_new h (Buf false (prod (vshape v)) (fun _ => d)) w) by reflexivity.
  apply elements_write.
  - rewrite app_length. cbn. lia.
  - apply order_writable; [exact Hs|apply keep_order_perm].
  - rewrite map_length. exact (elements_length h v).
Qed.

(** dtype.as_float32: the values of the array, wherever they are kept. *)
Definition as_values (conv : V -> V) v l : list V := if vf32 v then l else map conv l.

Lemma as_float32_spec conv h v :
  (vbuf v < length h)%nat -> length (vstrides v) = length (vshape v) -> shape_ok (vshape v) ->
  exists e w, as_float32 d conv h v = (h ++ e, w) /\ vshape w = vshape v /\ vf32 w = true /\
    length (vstrides w) = length (vshape w) /\ (vbuf w < length (h ++ e))%nat /\
    elements d (h ++ e) w = as_values conv v (elements d h v) /\
    (vf32 v = true -> e = [] /\ w = v) /\
    (vf32 v = false -> vstrides w = keep_strides v /\ (length h <= vbuf w)%nat).
Proof.
  intros Hb Hl Hs. unfold as_float32, as_values. destruct (vf32 v) eqn:Ef.
  - exists [], v. rewrite app_nil_r. repeat split; auto; discriminate.
  - destruct (convert_spec conv h v Hs) as (b & E & Hbl & Hel). rewrite E.
    eexists [b], _. split; [reflexivity|]. cbn [vshape vstrides vf32 vbuf].
    repeat split; auto; try discriminate.
    + unfold keep_strides, order_strides. now rewrite map_length, seq_length.
    + rewrite app_length. cbn. lia.
Qed.

(** ** Pointers *)

Lemma c_read_memory h v :
  in_memory_order v -> c_read d h v (prod (vshape v)) = elements d h v.
Proof.
  intros H. unfold c_read, elements, at_. rewrite <- (map_map (pos v)), H, map_map. reflexivity.
Qed.

Lemma c_write_write h v l :
  in_memory_order v -> Z.of_nat (length l) = prod (vshape v) ->
  c_write d h v l = write d h v l.
Proof.
  intros H Hl. unfold c_write, write. do 2 f_equal. rewrite write_data_puts, H. unfold puts.
  rewrite Hl. generalize (zrange 0 (prod (vshape v))) as ks. generalize (bdata (getbuf d h (vbuf v))).
  clear. intros m ks. revert l m. induction ks as [|k ks IH]; intros [|x l] m; try reflexivity.
  cbn. apply IH.
Qed.

Lemma length_elements_prod h v :
  shape_ok (vshape v) -> Z.of_nat (length (elements d h v)) = prod (vshape v).
Proof.
  intros H. rewrite elements_length, length_indices by assumption. pose proof (prod_pos _ H). lia.
Qed.

Lemma require_c_spec h v :
  (vbuf v < length h)%nat -> shape_ok (vshape v) -> length (vstrides v) = length (vshape v) ->
  exists e w, require_c d h v = (h ++ e, w) /\ vshape w = vshape v /\ in_memory_order w /\
    (vbuf w < length (h ++ e))%nat /\ elements d (h ++ e) w = elements d h v /\
    (if is_contiguous v then e = [] /\ w = v else (length h <= vbuf w)%nat).
Proof.
  intros Hb Hs Hl. unfold require_c. destruct (is_contiguous v) eqn:Ec.
  - exists [], v. rewrite app_nil_r. repeat split; auto. now apply contiguous_memory.
  - destruct (copy_c_spec h false (vf32 v) v Hs) as (b & E & _ & _ & Hel). rewrite E.
    eexists [b], _. split; [reflexivity|]. split; [reflexivity|].
    split; [apply c_ordered_memory; [exact Hs|reflexivity]|].
    split; [cbn; rewrite app_length; cbn; lia|]. split; [exact Hel|]. cbn. lia.
Qed.

(** Swapping the first two axes. *)
Lemma swap01_length {A} (x : list A) : length (swap01 x) = length x.
Proof. destruct x as [|a [|b t]]; reflexivity. Qed.

Lemma swap01_swap01 {A} (x : list A) : swap01 (swap01 x) = x.
Proof. destruct x as [|a [|b t]]; reflexivity. Qed.

Lemma dot_swap01 idx st :
  length idx = length st -> dot idx (swap01 st) = dot (swap01 idx) st.
Proof.
  destruct idx as [|i [|j idx]], st as [|x [|y st]]; cbn; intros H; try discriminate; lia.
Qed.

Lemma Forall2_swap01 {A B} (P : A -> B -> Prop) la lb :
  Forall2 P la lb -> Forall2 P (swap01 la) (swap01 lb).
Proof.
  intros H. destruct H as [|a b la lb H1 H]; [constructor|].
  destruct H as [|a' b' la lb H2 H]; cbn; auto.
Qed.

Lemma Forall_swap01 {A} (P : A -> Prop) (l0 : list A) : Forall P l0 -> Forall P (swap01 l0).
Proof.
  intros H. destruct H as [|a la H1 H]; [constructor|].
  destruct H as [|a' la H2 H]; cbn; auto.
Qed.

Lemma at_swap h v idx :
  length (vstrides v) = length (vshape v) ->
  Forall2 (fun n i => 0 <= i < n) (vshape (swapaxes01 v)) idx ->
  at_ d h (swapaxes01 v) idx = at_ d h v (swap01 idx).
Proof.
  intros Hl Hi. unfold at_, pos. cbn [vbuf voff vstrides swapaxes01].
  rewrite dot_swap01; [reflexivity|]. apply Forall2_length in Hi. cbn in Hi.
  rewrite swap01_length in Hi. congruence.
Qed.

Lemma map_eq_in {A B} (f g : A -> B) (l0 : list A) x : map f l0 = map g l0 -> In x l0 -> f x = g x.
Proof.
  induction l0 as [|y l0 IH]; intros E []; injection E as E1 E2; subst; auto.
Qed.

Lemma swap_values h h1 v w (c : V -> V) :
  length (vstrides v) = length (vshape v) -> length (vstrides w) = length (vshape w) ->
  vshape w = vshape v -> elements d h1 w = map c (elements d h v) ->
  elements d h1 (swapaxes01 w) = map c (elements d h (swapaxes01 v)).
Proof.
  intros Lv Lw Hs He. unfold elements in *. rewrite map_map in *. cbn [vshape swapaxes01].
  rewrite Hs in He |- *. apply map_ext_in. intros idx Hi. apply in_indices in Hi.
  rewrite (at_swap h1 w idx Lw) by (cbn [vshape swapaxes01]; rewrite Hs; exact Hi).
  rewrite (at_swap h v idx Lv) by exact Hi.
  apply (map_eq_in _ _ _ _ He). apply in_indices.
  apply Forall2_swap01 in Hi. now rewrite swap01_swap01 in Hi.
Qed.

Theorem init_tomo_spec conv h tomo (so sm : bool) :
  is_array d h tomo ->
  let v := if so then tomo else swapaxes01 tomo in
  exists h' t, init_tomo d conv h tomo so sm = (h', t) /\ vshape t = vshape v /\
    is_contiguous t = true /\
    c_read d h' t (prod (vshape t)) = as_values conv tomo (elements d h v) /\
    (forall u, (vbuf u < length h)%nat -> elements d h' u = elements d h u) /\
    (sm = true -> is_sharedmem d h' t = true).
Proof.
  intros (Hb & Hl & Hs & _) v. unfold init_tomo.
  destruct (as_float32_spec conv h tomo Hb Hl Hs) as (e & w & E & Hsh & Hf & Hlw & Hbw & Hel & _ & _).
  rewrite E. set (t2 := if so then w else swapaxes01 w).
  assert (S2 : vshape t2 = vshape v /\ length (vstrides t2) = length (vshape t2) /\
               shape_ok (vshape t2) /\ vbuf t2 = vbuf w /\
               elements d (h ++ e) t2 = as_values conv tomo (elements d h v)).
  { unfold t2, v. destruct so.
    - repeat split; auto. unfold shape_ok. now rewrite Hsh.
    - cbn [vshape vstrides swapaxes01 vbuf]. rewrite !swap01_length, Hsh. repeat split; auto.
      + congruence.
      + now apply Forall_swap01.
      + unfold as_values in *. destruct (vf32 tomo).
        * rewrite (swap_values h (h ++ e) tomo w (fun x => x)); auto; [apply map_id|].
          rewrite Hel. now rewrite map_id.
        * now apply swap_values. }
  destruct S2 as (Sh & Sl & Sok & Sb & Sel).
  assert (U : forall e2 u, (vbuf u < length h)%nat ->
              elements d ((h ++ e) ++ e2) u = elements d h u).
  { intros e2 u Hu. rewrite <- app_assoc. now apply elements_app. }
  destruct sm.
  - unfold as_sharedmem. destruct (is_contiguous t2) eqn:Ec; cbn [negb andb].
    + destruct (is_sharedmem d (h ++ e) t2) eqn:Es.
      * exists (h ++ e), t2. repeat split; auto.
        -- rewrite c_read_memory by (now apply contiguous_memory). exact Sel.
        -- intros u Hu. now apply elements_app.
      * destruct (copy_c_spec (h ++ e) true (vf32 t2) t2 Sok) as (b & Ec' & Hbs & _ & Hel').
        rewrite Ec'. eexists _, _. split; [reflexivity|]. split; [exact Sh|].
        split; [now apply c_ordered_contiguous|]. split.
        -- rewrite c_read_memory by (apply c_ordered_memory; [exact Sok|reflexivity]).
           rewrite Hel'. exact Sel.
        -- split; [intros u Hu; now apply U|]. intros _. unfold is_sharedmem, getbuf. cbn [vbuf].
           now rewrite app_nth2, Nat.sub_diag by lia.
    + destruct (copy_c_spec (h ++ e) true (vf32 t2) t2 Sok) as (b & Ec' & Hbs & _ & Hel').
      rewrite Ec'. eexists _, _. split; [reflexivity|]. split; [exact Sh|].
      split; [now apply c_ordered_contiguous|]. split.
      * rewrite c_read_memory by (apply c_ordered_memory; [exact Sok|reflexivity]).
        rewrite Hel'. exact Sel.
      * split; [intros u Hu; now apply U|]. intros _. unfold is_sharedmem, getbuf. cbn [vbuf].
        now rewrite app_nth2, Nat.sub_diag by lia.
  - destruct (require_c_spec (h ++ e) t2) as (e2 & w2 & E2 & Sh2 & Hm2 & Hb2 & Hel2 & Hc2);
      [now rewrite Sb|exact Sok|exact Sl|].
    rewrite E2. exists ((h ++ e) ++ e2), w2. split; [reflexivity|]. split; [congruence|]. split.
    { destruct (is_contiguous t2) eqn:Ec; [now destruct Hc2 as [-> ->]|].
      revert E2. unfold require_c. rewrite Ec. unfold copy_c. rewrite alloc_spec. intros E2.
      injection E2 as _ <-. now apply c_ordered_contiguous. }
    split; [rewrite c_read_memory by assumption; congruence|].
    split; [intros u Hu; now apply U|discriminate].
Qed.

Theorem theta_spec conv h theta n :
  is_array d h theta -> vshape theta = [n] ->
  vf32 theta = false \/ is_contiguous theta = true ->
  theta_to_c d conv h theta n = as_values conv theta (elements d h theta).
Proof.
  intros (Hb & Hl & Hs & _) Hn Hor. unfold theta_to_c.
  destruct (as_float32_spec conv h theta Hb Hl Hs)
    as (e & w & E & Hsh & Hf & Hlw & Hbw & Hel & Hyes & Hno).
  rewrite E, <- Hel. replace n with (prod (vshape w)) by (rewrite Hsh, Hn; cbn; lia).
  apply c_read_memory. apply contiguous_memory; [unfold shape_ok; now rewrite Hsh|exact Hlw|].
  destruct (vf32 theta) eqn:Ef.
  - destruct (Hyes eq_refl) as [_ ->]. destruct Hor; [discriminate|assumption].
  - destruct (Hno eq_refl) as [Hst _]. apply c_ordered_contiguous. unfold c_ordered. rewrite Hst, Hsh.
    unfold keep_strides. rewrite <- order_strides_seq. f_equal.
    pose proof (keep_order_perm (vshape theta) (vstrides theta)) as P. rewrite Hn in *. cbn in *.
    apply Permutation_sym, Permutation_length_1_inv in P. exact P.
Qed.

Theorem object_spec conv h obj :
  is_array d h obj -> is_contiguous obj = true ->
  object_to_c d conv h obj = as_values conv obj (elements d h obj).
Proof.
  intros (Hb & Hl & Hs & _) Hc. unfold object_to_c.
  destruct (as_float32_spec conv h obj Hb Hl Hs)
    as (e & w & E & Hsh & Hf & Hlw & Hbw & Hel & Hyes & Hno).
  rewrite E, <- Hel. apply c_read_memory.
  apply contiguous_memory; [unfold shape_ok; now rewrite Hsh|exact Hlw|].
  destruct (vf32 obj) eqn:Ef; [destruct (Hyes eq_refl) as [_ ->]; exact Hc|].
  destruct (Hno eq_refl) as [Hst _]. apply c_ordered_contiguous. unfold c_ordered.
  rewrite Hst, Hsh. now apply keep_strides_contiguous.
Qed.

(** Filters with a contiguous input and an output in C order. *)
Lemma out_spec h sh shape f e l :
  shape_ok shape -> Z.of_nat (length l) = prod shape ->
  let out := View (length h) 0 shape (c_strides shape) f in
  let h1 := (h ++ [Buf sh (prod shape) (fun _ => d)]) ++ e in
  elements d (c_write d h1 out l) out = l /\
  forall u, (vbuf u < length h)%nat -> elements d (c_write d h1 out l) u = elements d h u.
Proof.
  intros Hs Hl out h1. assert (Hm : in_memory_order out) by (now apply c_ordered_memory).
  rewrite (c_write_write h1 out l Hm Hl). split.
  - apply elements_write.
    + unfold h1. rewrite !app_length. cbn. lia.
    + now apply memory_writable.
    + rewrite length_indices by exact Hs. cbn [vshape out]. lia.
  - intros u Hu. rewrite elements_write_ne by (cbn; lia). unfold h1. rewrite <- app_assoc.
    now apply elements_app.
Qed.

Theorem filter_c_order_spec conv (G : list V -> list V) h a :
  is_array d h a -> (forall x, length (G x) = length x) ->
  exists h' out, filter_c_order d conv G h a = (h', out) /\ vshape out = vshape a /\
    elements d h' out = G (as_values conv a (elements d h a)) /\
    forall u, (vbuf u < length h)%nat -> elements d h' u = elements d h u.
Proof.
  intros (Hb & Hl & Hs & _) HG. unfold filter_c_order.
  destruct (as_float32_spec conv h a Hb Hl Hs) as (e & w & E & Hsh & Hf & Hlw & Hbw & Hel & _ & _).
  rewrite E, alloc_spec.
  set (h2 := (h ++ e) ++ [Buf false (prod (vshape w)) (fun _ => d)]).
  assert (Sok : shape_ok (vshape w)) by (unfold shape_ok; now rewrite Hsh).
  destruct (require_c_spec h2 w) as (e3 & a3 & E3 & Sh3 & Hm3 & Hb3 & Hel3 & _);
    [unfold h2; rewrite app_length; lia|exact Sok|exact Hlw|].
  rewrite E3. eexists _, _. split; [reflexivity|]. split; [exact Hsh|].
  rewrite <- Sh3, c_read_memory by exact Hm3. rewrite Hel3.
  assert (Ew : elements d h2 w = elements d (h ++ e) w) by (now apply elements_app).
  rewrite Ew, Sh3. unfold h2.
  destruct (out_spec (h ++ e) false (vshape w) true e3 (G (elements d (h ++ e) w)) Sok) as [O1 O2].
  { rewrite HG. now apply length_elements_prod. }
  split; [rewrite O1; now rewrite Hel|]. intros u Hu. rewrite O2 by (rewrite app_length; lia).
  now apply elements_app.
Qed.

Theorem median_spec (G : list V -> list V) h a :
  is_array d h a -> is_contiguous a = true -> (forall x, length (G x) = length x) ->
  exists h' out, median_filter3d d G h a = (h', out) /\ vshape out = vshape a /\
    elements d h' out = G (elements d h a) /\
    forall u, (vbuf u < length h)%nat -> elements d h' u = elements d h u.
Proof.
  intros (Hb & Hl & Hs & _) Hc HG. unfold median_filter3d, empty_like.
  rewrite keep_strides_contiguous by assumption. rewrite alloc_spec.
  set (h2 := h ++ [Buf false (prod (vshape a)) (fun _ => d)]).
  unfold require_c. rewrite Hc. eexists _, _. split; [reflexivity|]. split; [reflexivity|].
  rewrite c_read_memory by (now apply contiguous_memory).
  assert (Ew : elements d h2 a = elements d h a) by (now apply elements_app). rewrite Ew.
  destruct (out_spec h false (vshape a) (vf32 a) [] (G (elements d h a)) Hs) as [O1 O2].
  { rewrite HG. now apply length_elements_prod. }
  rewrite app_nil_r in *. fold h2 in O1, O2. split; assumption.
Qed.

Theorem remove_stripe_sf_spec (G : list V -> list V) h tomo :
  is_array d h tomo -> writable tomo -> (forall x, length (G x) = length x) ->
  elements d (c_remove_stripe_sf d G h tomo) tomo = G (elements d h tomo) /\
  forall u, (vbuf u < length h)%nat -> vbuf u <> vbuf tomo ->
    elements d (c_remove_stripe_sf d G h tomo) u = elements d h u.
Proof.
  intros (Hb & Hl & Hs & _) Hw HG. unfold c_remove_stripe_sf.
  destruct (require_c_spec h tomo Hb Hs Hl) as (e & t & E & Sh & Hm & Hbt & Hel & Hc).
  rewrite E. rewrite <- Sh, c_read_memory, Hel by exact Hm.
  assert (L : Z.of_nat (length (G (elements d h tomo))) = prod (vshape t)).
  { rewrite HG, length_elements_prod by exact Hs. now rewrite Sh. }
  rewrite (c_write_write _ t _ Hm L).
  set (h2 := write d (h ++ e) t (G (elements d h tomo))).
  assert (E2 : elements d h2 t = G (elements d h tomo)).
  { apply elements_write; [exact Hbt|now apply memory_writable|].
    rewrite HG, elements_length. now rewrite Sh. }
  assert (Hb2 : (vbuf tomo < length h2)%nat).
  { unfold h2. rewrite write_length, app_length. lia. }
  rewrite E2. split.
  - apply elements_write; [exact Hb2|exact Hw|]. now rewrite HG, elements_length.
  - intros u Hu Hne. rewrite elements_write_ne by exact Hne. unfold h2.
    rewrite elements_write_ne; [now apply elements_app|].
    destruct (is_contiguous tomo); [destruct Hc as [_ ->]; exact Hne|lia].
Qed.

Theorem remove_ring_spec conv (G : list V -> list V) h rec :
  is_array d h rec -> (forall x, length (G x) = length x) ->
  exists h' out, remove_ring d conv G h rec None = (h', out) /\ vshape out = vshape rec /\
    elements d h' out = G (as_values conv rec (elements d h rec)) /\
    forall u, (vbuf u < length h)%nat -> elements d h' u = elements d h u.
Proof.
  intros (Hb & Hl & Hs & _) HG. unfold remove_ring.
  destruct (as_float32_spec conv h rec Hb Hl Hs) as (e & w & E & Hsh & Hf & Hlw & Hbw & Hel & _ & _).
  rewrite E. assert (Sok : shape_ok (vshape w)) by (unfold shape_ok; now rewrite Hsh).
  destruct (copy_c_spec (h ++ e) false true w Sok) as (b & Ec & _ & _ & Hel2). rewrite Ec.
  set (out := View (length (h ++ e)) 0 (vshape w) (c_strides (vshape w)) true) in *.
  assert (Hm : in_memory_order out) by (now apply c_ordered_memory).
  eexists _, _. split; [reflexivity|]. split; [exact Hsh|].
  change (vshape w) with (vshape out). rewrite c_read_memory, Hel2 by exact Hm.
  rewrite c_write_write; [|exact Hm|rewrite HG; exact (length_elements_prod _ w Sok)].
  split.
  - rewrite elements_write; [now rewrite Hel|cbn [vbuf out]; rewrite !app_length; cbn [length]; lia| |].
    + now apply memory_writable.
    + rewrite HG. exact (elements_length (h ++ e) w).
  - intros u Hu. rewrite elements_write_ne by (cbn; rewrite app_length; lia).
    rewrite <- app_assoc. now apply elements_app.
Qed.

Theorem remove_ring_out_spec conv (G : list V -> list V) h rec o :
  is_array d h rec -> vf32 rec = true -> is_array d h o -> vf32 o = true ->
  vshape o = vshape rec -> is_contiguous o = true -> (forall x, length (G x) = length x) ->
  exists h', remove_ring d conv G h rec (Some o) = (h', o) /\
    elements d h' o = G (elements d h o) /\
    forall u, vbuf u <> vbuf o -> elements d h' u = elements d h u.
Proof.
  intros (Hb & Hl & Hs & _) Hf (Hbo & Hlo & Hso & _) Hfo Hsh Hc HG.
  unfold remove_ring, as_float32. rewrite Hf, Hfo. eexists. split; [reflexivity|].
  assert (Hm : in_memory_order o) by (now apply contiguous_memory).
  rewrite <- Hsh, c_read_memory by exact Hm.
  rewrite c_write_write; [|exact Hm|rewrite HG; now apply length_elements_prod]. split.
  - apply elements_write; [exact Hbo|now apply memory_writable|]. now rewrite HG, elements_length.
  - intros u Hu. now apply elements_write_ne.
Qed.

End Heap.
