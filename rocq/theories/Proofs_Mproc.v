From Verif Require Import Base Model_Mproc.
Local Open Scope Z_scope.

Lemma cumsum_const_app acc l : cumsum acc l = map (fun x => x) (cumsum acc l).
Proof. now rewrite map_id. Qed.

(** Indices selected by consecutive offsets whose sizes are non-negative. *)
Lemma consecutive_cover n l acc :
  0 <= acc -> Forall (fun x => 0 <= x) l ->
  acc + fold_right Z.add 0 l <= n ->
  concat (map (slc_indices n) (consecutive (acc :: cumsum acc l)))
  = zrange acc (acc + fold_right Z.add 0 l).
Proof.
  revert acc; induction l as [|x l IH]; intros acc Hacc Hall Hn.
  - cbn. now rewrite zrange_nil by lia.
  - inversion Hall as [|? ? Hx Hl]; subst. cbn [fold_right] in Hn |- *.
    assert (Hs : 0 <= fold_right Z.add 0 l).
    { clear -Hl. induction Hl; cbn; lia. }
    change (cumsum acc (x :: l)) with ((acc + x) :: cumsum (acc + x) l).
    change (consecutive (acc :: (acc + x) :: cumsum (acc + x) l))
      with (Range acc (acc + x) :: consecutive ((acc + x) :: cumsum (acc + x) l)).
    cbn [map concat]. rewrite IH by (try lia; assumption).
    cbn [slc_indices]. rewrite Z.min_l by lia.
    rewrite zrange_app by lia. f_equal. lia.
Qed.

Lemma consecutive_length l acc : length (consecutive (acc :: cumsum acc l)) = length l.
Proof.
  revert acc; induction l as [|x l IH]; intros acc; auto.
  change (consecutive (acc :: cumsum acc (x :: l)))
    with (Range acc (acc + x) :: consecutive ((acc + x) :: cumsum (acc + x) l)).
  cbn [length]. now rewrite IH.
Qed.

Lemma consecutive_sizes l acc i x :
  nth_error l i = Some x ->
  exists a, nth_error (consecutive (acc :: cumsum acc l)) i = Some (Range a (a + x)).
Proof.
  revert acc i; induction l as [|y l IH]; intros acc i H.
  - destruct i; discriminate.
  - change (consecutive (acc :: cumsum acc (y :: l)))
      with (Range acc (acc + y) :: consecutive ((acc + y) :: cumsum (acc + y) l)).
    destruct i as [|i]; cbn [nth_error] in *.
    + injection H as <-. now exists acc.
    + now apply IH.
Qed.

Lemma sum_sizes chunk left a b :
  a <= b ->
  fold_right Z.add 0
    (map (fun i => if i <? left then chunk + 1 else chunk) (zrange a b))
  = chunk * (b - a) + (Z.max 0 (Z.min b left - a)).
Proof.
  intros H.
  remember (Z.to_nat (b - a)) as k eqn:Ek.
  revert a H Ek; induction k as [|k IH]; intros a H Ek.
  - rewrite zrange_nil by lia. cbn. replace b with a by lia. lia.
  - rewrite zrange_cons by lia. cbn [map fold_right].
    rewrite IH by lia.
    destruct (a <? left) eqn:E; nia.
Qed.

Lemma chunk_sizes_sum n k :
  0 < k -> 0 <= n -> fold_right Z.add 0 (chunk_sizes n k) = n.
Proof.
  intros Hk Hn. unfold chunk_sizes. rewrite sum_sizes by lia.
  pose proof (Z.div_mod n k ltac:(lia)).
  pose proof (Z.mod_pos_bound n k Hk).
  rewrite Z.min_r by lia. nia.
Qed.

Lemma chunk_sizes_bounds n k :
  0 < k -> 0 <= n -> Forall (fun x => n / k <= x <= n / k + 1) (chunk_sizes n k).
Proof.
  intros Hk Hn. unfold chunk_sizes. apply Forall_forall. intros x Hx.
  apply in_map_iff in Hx. destruct Hx as (i & <- & _).
  destruct (i <? n mod k); lia.
Qed.

Lemma chunk_sizes_length n k : 0 <= k -> length (chunk_sizes n k) = Z.to_nat k.
Proof. intros. unfold chunk_sizes. rewrite map_length, zrange_length. f_equal. lia. Qed.

Lemma pyrange_cover n c :
  0 < c -> 0 <= n ->
  concat (map (slc_indices n) (map (fun o => Range o (o + c)) (pyrange 0 n c))) = zrange 0 n.
Proof.
  intros Hc Hn. unfold pyrange.
  destruct (0 <? c) eqn:E; [|lia].
  set (m := Z.to_nat ((n - 0 + c - 1) / c)).
  rewrite !map_map.
  assert (G : forall k, concat (map (fun x : nat =>
             slc_indices n (Range (0 + Z.of_nat x * c) (0 + Z.of_nat x * c + c))) (seq 0 k))
             = zrange 0 (Z.min (Z.of_nat k * c) n)).
  { induction k as [|k IH].
    - cbn. now rewrite zrange_nil by lia.
    - rewrite seq_S, map_app, concat_app, IH. cbn [map concat slc_indices].
      rewrite app_nil_r. rewrite Nat.add_0_l.
      destruct (Z.le_gt_cases (Z.of_nat k * c) n).
      + rewrite (Z.min_l (Z.of_nat k * c)) by lia.
        rewrite zrange_app by nia. f_equal. f_equal. nia.
      + rewrite (zrange_nil (a := 0 + Z.of_nat k * c)) by lia.
        rewrite app_nil_r. f_equal. nia. }
  rewrite G. f_equal.
  assert (Z.of_nat m * c >= n).
  { unfold m.
    pose proof (Z.div_mod (n - 0 + c - 1) c ltac:(lia)).
    pose proof (Z.mod_pos_bound (n - 0 + c - 1) c Hc).
    rewrite Z2Nat.id by (apply Z.div_pos; lia). nia. }
  lia.
Qed.

Lemma index_cover n l :
  Forall (fun i => 0 <= i < n) l -> concat (map (slc_indices n) (map Index l)) = l.
Proof.
  induction 1 as [|i l Hi Hl IH]; auto.
  cbn [map concat slc_indices]. rewrite IH.
  replace ((0 <=? i) && (i <? n)) with true by lia. reflexivity.
Qed.

Lemma pyrange_1 n : pyrange 0 n 1 = zrange 0 n.
Proof.
  unfold pyrange, zrange. cbn [Z.ltb Z.compare].
  replace ((n - 0 + 1 - 1) / 1) with (n - 0) by (rewrite Z.div_1_r; lia).
  apply map_ext. intros. lia.
Qed.

Lemma build_slices_cover n k nchunk l :
  0 <= n -> (forall c, nchunk = Some c -> 0 <= c) ->
  build_slices n k nchunk = Ok l ->
  concat (map (slc_indices n) l) = zrange 0 n.
Proof.
  intros Hn Hc. unfold build_slices. destruct nchunk as [c|].
  - specialize (Hc c eq_refl). destruct (c =? 0) eqn:E; intros [= <-].
    + apply index_cover. apply Forall_forall. intros i Hi. now apply in_zrange in Hi.
    + apply pyrange_cover; lia.
  - destruct (k =? 0) eqn:E0; [discriminate|].
    destruct (k <? 0) eqn:E1; [discriminate|]. intros Hl.
    assert (El : consecutive (0 :: cumsum 0 (chunk_sizes n k)) = l) by (unfold Ok in Hl; congruence).
    rewrite <- El.
    rewrite consecutive_cover.
    + rewrite chunk_sizes_sum by lia. reflexivity.
    + lia.
    + pose proof (chunk_sizes_bounds n k ltac:(lia) Hn) as H.
      eapply Forall_impl; [|exact H]. cbn. intros x Hx.
      pose proof (Z.div_pos n k ltac:(lia) ltac:(lia)). lia.
    + rewrite chunk_sizes_sum by lia. lia.
Qed.

Lemma ncore_slices_cover cpu n ncore nchunk k l :
  1 <= n -> (forall c, nchunk = Some c -> 0 <= c) ->
  get_ncore_slices cpu n ncore nchunk = Ok (k, l) ->
  concat (map (slc_indices n) l) = zrange 0 n.
Proof.
  unfold get_ncore_slices. intros Hn Hc H.
  destruct (build_slices _ _ _) as [e|l'] eqn:E; [discriminate|].
  injection H as <- <-. eapply build_slices_cover; eauto. lia.
Qed.

Lemma ncore_slices_ok cpu n ncore nchunk :
  1 <= n -> 1 <= cpu -> (forall k, ncore = Some k -> 0 <= k) ->
  exists k l, get_ncore_slices cpu n ncore nchunk = Ok (k, l).
Proof.
  intros Hn Hcpu Hk. unfold get_ncore_slices, build_slices.
  set (k := Z.min (default_ncore cpu ncore) n).
  assert (1 <= k).
  { unfold k, default_ncore. destruct ncore as [c|]; [|lia].
    specialize (Hk c eq_refl). destruct (c =? 0) eqn:E; lia. }
  destruct nchunk as [c|].
  - destruct (c =? 0); cbn; eauto.
  - destruct (k =? 0) eqn:E0; [lia|]. destruct (k <? 0) eqn:E1; [lia|]. cbn; eauto.
Qed.

Lemma ncore_nchunk_ok cpu n ncore nchunk :
  1 <= n -> 1 <= cpu -> (forall k, ncore = Some k -> 1 <= k) ->
  (forall c, nchunk = Some c -> 0 <= c) ->
  exists k c, get_ncore_nchunk cpu n ncore nchunk = Ok (k, c) /\ 1 <= k <= cpu /\ 0 <= c <= n /\
    (forall c0, nchunk = Some c0 -> c = Z.min c0 n) /\ (nchunk = None -> 1 <= c /\ n <= k * c).
Proof.
  intros Hn Hcpu Hk Hc. unfold get_ncore_nchunk.
  assert (Hk1 : 1 <= match ncore with Some k => if cpu <? k then cpu else k | None => cpu end <= cpu).
  { destruct ncore as [k|]; [|lia]. specialize (Hk k eq_refl). destruct (cpu <? k) eqn:E; lia. }
  set (k1 := match ncore with Some k => if cpu <? k then cpu else k | None => cpu end) in *.
  destruct nchunk as [c|].
  - specialize (Hc c eq_refl).
    destruct (negb (c =? 0) && (n <? c)) eqn:E.
    + replace (n =? 0) with false by lia.
      replace (0 <? n) with true by lia.
      assert (Hq : cdiv n n = 1).
      { pose proof (cdiv_spec n (b := n) ltac:(lia)). nia. }
      rewrite Hq. do 2 eexists. split; [reflexivity|].
      destruct (1 <? k1) eqn:E1; repeat split; try lia; try discriminate.
      all: intros c0 [= <-]; lia.
    + destruct (c =? 0) eqn:E0.
      * cbn [Z.ltb Z.compare].
        assert (Hq : cdiv n 1 = n).
        { pose proof (cdiv_spec n (b := 1) ltac:(lia)). lia. }
        rewrite Hq. do 2 eexists. split; [reflexivity|].
        destruct (n <? k1) eqn:E1; repeat split; try lia; try discriminate.
        all: intros c0 [= <-]; lia.
      * replace (0 <? c) with true by lia.
        pose proof (cdiv_spec n (b := c) ltac:(lia)) as Hq.
        do 2 eexists. split; [reflexivity|].
        destruct (cdiv n c <? k1) eqn:E1; repeat split; try nia; try discriminate.
        all: intros c0 [= <-]; lia.
  - cbn [Z.ltb Z.compare].
    assert (Hq : cdiv n 1 = n).
    { pose proof (cdiv_spec n (b := 1) ltac:(lia)). lia. }
    rewrite Hq.
    set (k2 := if n <? k1 then n else k1).
    assert (Hk2 : 1 <= k2 <= cpu /\ k2 <= n).
    { unfold k2. destruct (n <? k1) eqn:E; lia. }
    replace (k2 =? 0) with false by lia.
    replace (0 <? k2) with true by lia.
    pose proof (cdiv_spec n (b := k2) ltac:(lia)) as Hq2.
    do 2 eexists. split; [reflexivity|].
    repeat split; try discriminate; nia.
Qed.

Lemma map_slices_cover n c :
  0 <= n -> 0 <= c -> concat (map (slc_indices n) (map_slices n c)) = zrange 0 n.
Proof.
  intros Hn Hc. unfold map_slices. destruct (c =? 0) eqn:E.
  - rewrite pyrange_1. apply index_cover. apply Forall_forall.
    intros i Hi. now apply in_zrange in Hi.
  - apply pyrange_cover; lia.
Qed.

Lemma distribute_slices_cover cpu n ncore nchunk :
  1 <= n -> 1 <= cpu -> (forall k, ncore = Some k -> 1 <= k) ->
  (forall c, nchunk = Some c -> 0 <= c) ->
  exists k l, distribute_slices cpu n ncore nchunk = Ok (k, l) /\
    concat (map (slc_indices n) l) = zrange 0 n.
Proof.
  intros Hn Hcpu Hk Hc.
  destruct (ncore_nchunk_ok cpu n ncore nchunk Hn Hcpu Hk Hc)
    as (k & c & E & _ & Hcn & _).
  unfold distribute_slices. rewrite E. do 2 eexists. split; [reflexivity|].
  apply map_slices_cover; lia.
Qed.

Lemma slices_balanced cpu n ncore k l :
  1 <= n -> 1 <= cpu -> (forall j, ncore = Some j -> 0 <= j) ->
  get_ncore_slices cpu n ncore None = Ok (k, l) ->
  k = Z.min (default_ncore cpu ncore) n /\
  Z.of_nat (length l) = k /\
  (forall s, In s l -> exists a b, s = Range a b /\ 1 <= b - a /\ n / k <= b - a <= n / k + 1).
Proof.
  intros Hn Hcpu Hk. unfold get_ncore_slices, build_slices.
  set (k' := Z.min (default_ncore cpu ncore) n).
  assert (1 <= k' <= n).
  { unfold k', default_ncore. destruct ncore as [c|]; [|lia].
    specialize (Hk c eq_refl). destruct (c =? 0) eqn:E; lia. }
  destruct (k' =? 0) eqn:E0; [lia|]. destruct (k' <? 0) eqn:E1; [lia|].
  intros Hl.
  assert (El : consecutive (0 :: cumsum 0 (chunk_sizes n k')) = l) by (unfold Ok in Hl; congruence).
  assert (Ek : k' = k) by (unfold Ok in Hl; congruence).
  rewrite <- El, <- Ek. split; [reflexivity|]. split.
  - rewrite consecutive_length, chunk_sizes_length by lia. lia.
  - intros s Hs. apply In_nth_error in Hs. destruct Hs as (i & Hi).
    assert (Hlen : (i < length (chunk_sizes n k'))%nat).
    { rewrite <- (consecutive_length (chunk_sizes n k') 0). apply nth_error_Some. congruence. }
    destruct (nth_error (chunk_sizes n k') i) as [x|] eqn:Ex; [|apply nth_error_None in Ex; lia].
    destruct (consecutive_sizes _ 0 _ _ Ex) as (a & Ha).
    rewrite Ha in Hi. injection Hi as <-. exists a, (a + x). split; [reflexivity|].
    pose proof (chunk_sizes_bounds n k' ltac:(lia) ltac:(lia)) as Hb.
    rewrite Forall_forall in Hb. specialize (Hb x (nth_error_In _ _ Ex)).
    assert (1 <= n / k') by (apply Z.div_le_lower_bound; lia).
    lia.
Qed.

(** *** MPI *)
Lemma firstn_skipn_app {A} (l : list A) a b c :
  (a <= b)%nat -> (b <= c)%nat ->
  firstn (b - a) (skipn a l) ++ firstn (c - b) (skipn b l) = firstn (c - a) (skipn a l).
Proof.
  intros H1 H2. 
  replace (skipn b l) with (skipn (b - a) (skipn a l)).
  2:{ rewrite skipn_skipn. f_equal. lia. }
  generalize (skipn a l); intros m.
  replace (c - a)%nat with ((b - a) + (c - b))%nat by lia.
  generalize (b - a)%nat (c - b)%nat. clear. intros p q.
  revert p; induction m as [|x m IH]; intros p.
  - now rewrite !skipn_nil, !firstn_nil.
  - destruct p; cbn; [reflexivity|]. f_equal. apply IH.
Qed.

Definition worker_part {A} (l : list A) (nproc rank : Z) : list A :=
  let len := Z.of_nat (length l) in
  let nsplit := len / nproc in
  let nmodulo := len mod nproc in
  let offset := nsplit * rank in
  let '(nsplit', offset') :=
    if rank =? 0 then (nsplit + nmodulo, offset) else (nsplit, offset + nmodulo) in
  firstn (Z.to_nat nsplit') (skipn (Z.to_nat offset') l).

Lemma worker_parts_prefix {A} (l : list A) nproc (r : nat) :
  1 <= nproc -> (0 < r)%nat -> Z.of_nat r <= nproc ->
  concat (map (worker_part l nproc) (zrange 0 (Z.of_nat r)))
  = firstn (Z.to_nat (Z.of_nat (length l) / nproc * Z.of_nat r
                      + Z.of_nat (length l) mod nproc)) l.
Proof.
  intros Hp Hr. induction r as [|r IH]; [lia|]. intros Hle.
  replace (Z.of_nat (S r)) with (Z.of_nat r + 1) by lia.
  rewrite zrange_snoc, map_app, concat_app by lia.
  cbn [map concat]. rewrite app_nil_r.
  set (len := Z.of_nat (length l)) in *.
  pose proof (Z.div_mod len nproc ltac:(lia)) as Hdm.
  pose proof (Z.mod_pos_bound len nproc ltac:(lia)) as Hm.
  assert (Hq : 0 <= len / nproc) by (apply Z.div_pos; lia).
  destruct r as [|r].
  - cbn [Z.of_nat zrange Z.sub Z.to_nat seq map concat app].
    replace (Z.of_nat 0) with 0 by reflexivity.
    rewrite zrange_nil by lia. cbn [map concat app].
    unfold worker_part. cbn [Z.eqb]. fold len.
    rewrite Z.mul_0_r. cbn [Z.to_nat skipn]. f_equal. f_equal. lia.
  - rewrite IH by lia. unfold worker_part. fold len.
    replace (Z.of_nat (S r) =? 0) with false by lia.
    set (q := len / nproc) in *. set (m := len mod nproc) in *.
    set (a := Z.to_nat (q * Z.of_nat (S r) + m)).
    pose proof (@firstn_skipn_app A l 0 a (a + Z.to_nat q) ltac:(lia) ltac:(lia)) as G.
    rewrite !Nat.sub_0_r in G. cbn [skipn] in G.
    replace (a + Z.to_nat q - a)%nat with (Z.to_nat q) in G by lia.
    rewrite G. f_equal. unfold a. nia.
Qed.

Lemma worker_parts_all {A} (l : list A) nproc :
  1 <= nproc -> concat (map (worker_part l nproc) (zrange 0 nproc)) = l.
Proof.
  intros Hp.
  pose proof (@worker_parts_prefix A l nproc (Z.to_nat nproc) Hp ltac:(lia) ltac:(lia)) as G.
  rewrite Z2Nat.id in G by lia. rewrite G.
  pose proof (Z.div_mod (Z.of_nat (length l)) nproc ltac:(lia)) as Hdm.
  replace (Z.to_nat _) with (length l) by nia.
  apply firstn_all.
Qed.
