(** find_center_pc, write_center and mask_empty_slice. *)
From Verif Require Import Base CLoop Model_Prep Model_Sim Model_Corr Model_Rotation Proofs_Rotation.
From Verif Require Import Proofs_Vo.
From Verif Require Proofs_Ray Proofs_Sim.
From Coq Require Import Reals Lra.
Local Open Scope R_scope.

(** ** Registration *)
(** An image of ncol columns, zero outside. *)
Definition ext (ncol : Z) (a : img) : img := fun i j => if ((0 <=? j) && (j <? ncol))%Z then a i j else 0.
(** [b] moved by s columns is [a]. *)
Definition moves (ncol s : Z) (b a : img) : Prop := forall i j, ext ncol a i j = ext ncol b i (j - s)%Z.
(** ndimage.shift by whole columns *)
Definition shifts_columns (ncol : Z) (shifted : R -> img -> img) : Prop :=
  forall k a i j, (0 <= j < ncol)%Z -> shifted (IZR k) a i j = ext ncol a i (j - k)%Z.
Lemma ext_out ncol a i j : (j < 0 \/ ncol <= j)%Z -> ext ncol a i j = 0.
Proof. intros H. unfold ext. destruct (Z.leb_spec 0 j); destruct (Z.ltb_spec j ncol); auto; lia. Qed.
Lemma ext_in ncol a i j : (0 <= j < ncol)%Z -> ext ncol a i j = a i j.
Proof. intros H. unfold ext. destruct (Z.leb_spec 0 j); destruct (Z.ltb_spec j ncol); auto; lia. Qed.
(** All that is not zero stays inside when moved by k columns to the left. *)
Definition stays (ncol k : Z) (a : img) : Prop := forall i j, ext ncol a i j <> 0 -> (0 <= j - k < ncol)%Z.
Lemma ext_shifted ncol shifted k a i j : shifts_columns ncol shifted -> stays ncol k a ->
  ext ncol (shifted (IZR (- k)) a) i j = ext ncol a i (j + k)%Z.
Proof.
  intros Hs Ha. unfold ext at 1. destruct ((0 <=? j) && (j <? ncol))%Z eqn:E.
  - rewrite Hs by lia. f_equal. lia.
  - destruct (Req_dec (ext ncol a i (j + k)%Z) 0) as [Z0|N]; [auto|]. apply Ha in N. lia.
Qed.
Lemma moves_unique ncol b a s1 s2 i0 j0 : ext ncol a i0 j0 <> 0 -> moves ncol s1 b a -> moves ncol s2 b a -> s1 = s2.
Proof.
  intros N H1 H2. destruct (Z.eq_dec s1 s2) as [|D]; [auto|exfalso].
  assert (P : forall n : nat, ext ncol a i0 (j0 + Z.of_nat n * (s1 - s2))%Z = ext ncol a i0 j0).
  { induction n as [|n IH]; [f_equal; lia|]. rewrite <- IH. rewrite (H1 i0 _), (H2 i0 (j0 + Z.of_nat n * (s1 - s2))%Z). f_equal. lia. }
  pose proof (P (Z.to_nat (Z.abs j0 + Z.abs ncol + 1))) as Q. rewrite ext_out in Q; [congruence|]. 
  destruct (Z.lt_trichotomy s1 s2) as [L|[L|L]]; [left|easy|right]; nia.
Qed.
Lemma pc_exact shifted register ncol guess k proj1 proj2 c2 i0 j0 :
  shifts_columns ncol shifted -> (match guess with None => 0 | Some g => g - (IZR ncol - 1) / 2 end) = IZR k ->
  stays ncol k proj1 -> stays ncol k proj2 -> ext ncol proj1 i0 j0 <> 0 -> (forall i j, ext ncol proj2 i j = ext ncol proj1 i (c2 - j)%Z) ->
  (let p1 := shifted (- IZR k) proj1 in let p2 := fliplr ncol (shifted (- IZR k) proj2) in
   exists s, register p1 p2 = IZR s /\ moves ncol s p2 p1) ->
  find_center_pc shifted register ncol guess proj1 proj2 = IZR c2 / 2.
Proof.
  intros Hs Hg S1 S2 N M (s & Er & Mv). unfold find_center_pc. cbv zeta. rewrite Hg. cbv zeta in Er. rewrite Er.
  rewrite <- opp_IZR in Mv.
  assert (F : forall a i j, ext ncol (fliplr ncol a) i j = ext ncol a i (ncol - 1 - j)%Z).
  { intros a i j. unfold ext, fliplr. replace (0 <=? j)%Z with (ncol - 1 - j <? ncol)%Z by lia. replace (j <? ncol)%Z with (0 <=? ncol - 1 - j)%Z by lia.
    rewrite andb_comm. reflexivity. }
  assert (Mv2 : moves ncol (c2 - 2 * k - (ncol - 1)) (fliplr ncol (shifted (IZR (- k)) proj2)) (shifted (IZR (- k)) proj1)).
  { intros i j. rewrite F, !(ext_shifted ncol shifted) by auto. rewrite M. f_equal. lia. }
  assert (N2 : ext ncol (shifted (IZR (- k)) proj1) i0 (j0 - k)%Z <> 0).
  { rewrite ext_shifted by auto. replace (j0 - k + k)%Z with j0 by lia. exact N. }
  rewrite (moves_unique _ _ _ _ _ _ _ N2 Mv Mv2). rewrite !minus_IZR, mult_IZR. lra.
Qed.

(** ** Names of files *)
Lemma round_even_spec x : x - 1 / 2 <= IZR (round_even x) <= x + 1 / 2.
Proof.
  unfold round_even. pose proof (floor_spec x) as F.
  destruct (rltb (x - IZR (Int_part x)) (1 / 2)) eqn:A; [apply rltb_spec in A; lra|apply rltb_false in A].
  destruct (rltb (1 / 2) (x - IZR (Int_part x))) eqn:B; [apply rltb_spec in B; rewrite plus_IZR; lra|apply rltb_false in B].
  destruct (Z.even _); rewrite ?plus_IZR; lra.
Qed.
Lemma hundredths_apart a b : a + 1 / 100 < b -> hundredths a <> hundredths b.
Proof.
  intros H E. unfold hundredths in E. pose proof (round_even_spec (100 * a)). pose proof (round_even_spec (100 * b)). rewrite E in *. lra.
Qed.
Lemma write_files_other {I} (cs : list R) (ims : list I) : forall disk name, (forall c, In c cs -> hundredths c <> name) ->
  write_files cs ims disk name = disk name.
Proof.
  unfold write_files. revert ims. induction cs as [|c cs IH]; intros ims disk name H; [reflexivity|]. destruct ims as [|im ims]; [reflexivity|].
  cbn [combine fold_left]. rewrite IH by (intros; apply H; now right).
  destruct (Z.eqb_spec name (hundredths c)) as [->|]; [exfalso; eapply H; [now left|reflexivity]|reflexivity].
Qed.
Lemma write_files_at {I} (f : R -> I) (cs : list R) : forall disk c, NoDup (map hundredths cs) -> In c cs ->
  write_files cs (map f cs) disk (hundredths c) = Some (f c).
Proof.
  induction cs as [|d cs IH]; intros disk c ND Hc; [easy|]. cbn in ND. apply NoDup_cons_iff in ND as [N1 N2].
  unfold write_files in *. cbn [map combine fold_left]. destruct Hc as [->|Hc]; [|now apply IH].
  fold (write_files cs (map f cs) (fun name => if (name =? hundredths c)%Z then Some (f c) else disk name)).
  rewrite write_files_other; [now rewrite Z.eqb_refl|]. intros d Hd E. apply N1. rewrite <- E. now apply in_map.
Qed.
Lemma arange_names a b h : 1 / 100 < h -> NoDup (map hundredths (arange a b h)).
Proof.
  intros Hh. unfold arange. rewrite map_map. set (l := zrange 0 _). assert (ND : NoDup l) by apply NoDup_zrange.
  revert ND. generalize l. clear l. induction l as [|k l IH]; intros ND; [constructor|]. apply NoDup_cons_iff in ND as [N1 N2].
  cbn. constructor; [|now apply IH]. intros H. apply in_map_iff in H as (k' & E & Hk').
  destruct (Z.lt_trichotomy k k') as [L|[->|L]]; [|easy|].
  - revert E. apply not_eq_sym, hundredths_apart.
    assert (IZR k + 1 <= IZR k') by (rewrite <- succ_IZR; apply IZR_le; lia). nra.
  - revert E. apply hundredths_apart.
    assert (IZR k' + 1 <= IZR k) by (rewrite <- succ_IZR; apply IZR_le; lia). nra.
Qed.

(** ** Empty slices *)
Lemma mean_scale c l : mean (map (Rmult c) l) = c * mean l.
Proof. unfold mean. rewrite map_length. unfold Rdiv. rewrite <- Rmult_assoc. f_equal. etransitivity; [exact (rsum_scale c (fun x => x) l)|]. now rewrite map_id. Qed.
Lemma std_scale c l : 0 <= c -> std (map (Rmult c) l) = c * std l.
Proof.
  intros Hc. unfold std. rewrite mean_scale, map_map.
  rewrite (map_ext _ (fun x => c * c * ((x - mean l) * (x - mean l)))) by (intros; ring).
  rewrite <- (map_map (fun x => (x - mean l) * (x - mean l)) (Rmult (c * c))), mean_scale.
  rewrite sqrt_mult_alt by (apply Rmult_le_pos; lra). rewrite sqrt_square by lra. reflexivity.
Qed.
Lemma std_pos l : 0 <= std l. Proof. apply sqrt_pos. Qed.
Lemma mean_const v n : (0 < n)%nat -> mean (repeat v n) = v.
Proof.
  intros H. unfold mean. rewrite repeat_length.
  assert (E : rsum (repeat v n) = IZR (Z.of_nat n) * v).
  { clear H. induction n as [|n IH]; [cbn; ring|]. cbn [repeat]. change (rsum (v :: repeat v n)) with (v + rsum (repeat v n)). rewrite IH.
    rewrite Nat2Z.inj_succ, succ_IZR. ring. }
  rewrite E. field. apply not_0_IZR. lia.
Qed.
Lemma all_repeat (l : list R) v : (forall x, In x l -> x = v) -> l = repeat v (length l).
Proof. induction l as [|y l IH]; intros H; [reflexivity|]. cbn. rewrite <- IH by (intros; apply H; now right). rewrite (H y) by now left. reflexivity. Qed.
Lemma std_flat l v : (forall x, In x l -> x = v) -> std l = 0.
Proof.
  intros H. apply all_repeat in H. set (n := length l) in *. clearbody n. subst l. unfold std. destruct n as [|n].
  - cbn. unfold mean. cbn. replace (0 / 0) with 0 by (unfold Rdiv; ring). apply sqrt_0.
  - rewrite (mean_const v (S n)) by lia.
    replace (map (fun x => (x - v) * (x - v)) (repeat v (S n))) with (repeat 0 (S n)).
    + rewrite mean_const by lia. apply sqrt_0.
    + generalize (S n). induction n0 as [|m IH]; [reflexivity|]. cbn. rewrite <- IH. f_equal. ring.
Qed.
