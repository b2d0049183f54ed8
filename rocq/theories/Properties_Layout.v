(** C105: parallel calls see the elements of the arrays they are given, whatever their memory
    layout; C106: so do the C routines. *)
From Verif Require Import Base CLoop Model_Layout Spec_Layout Proofs_Layout.
Local Open Scope Z_scope.

(** ** C105 *)

(** Arrays outside shared memory, with any strides, and arrays that fill their shared block:
    the jobs see exactly their elements, the last array's shape is kept, and no array is changed
    except through the shared blocks that were passed in. *)
Theorem C105_arrays {V} (d : V) F h arrs :
  arrs <> [] ->
  Forall (fun v => is_array d h v /\ (is_sharedmem d h v = true -> whole d h v)) arrs ->
  keeps_sizes F (map (value d h) arrs) ->
  exists h' w, distribute_jobs d F h arrs None = Ok (h', w) /\
    vshape w = vshape (last arrs dummy_view) /\
    elements d h' w = outcome F (map (value d h) arrs) /\
    forall v, (vbuf v < length h)%nat ->
      (forall a, In a arrs -> is_sharedmem d h a = true -> vbuf a <> vbuf v) ->
      unchanged d h h' v.
Proof.
  intros Hne HF Hk. destruct (distribute_none d F h arrs Hne HF Hk)
    as (h' & w & E & Hs & He & _ & _ & _ & _ & _ & Hu).
  exists h', w. repeat (split; [assumption|]). exact Hu.
Qed.
Print Assumptions C105_arrays.

(** One array outside shared memory: every array of the caller is left alone, also the input. *)
Theorem C105_private {V} (d : V) F h v :
  is_array d h v -> is_sharedmem d h v = false -> keeps_sizes F [value d h v] ->
  exists h' w, distribute_jobs d F h [v] None = Ok (h', w) /\ vshape w = vshape v /\
    elements d h' w = outcome F [value d h v] /\
    forall u, (vbuf u < length h)%nat -> unchanged d h h' u.
Proof.
  intros Ha Hs Hk. destruct (C105_arrays d F h [v]) as (h' & w & E & Hsh & He & Hu).
  { discriminate. } { constructor; [split; [exact Ha|congruence]|constructor]. } { exact Hk. }
  exists h', w. repeat (split; [assumption|]). intros u Hu'. apply Hu; [exact Hu'|].
  intros a [<-|[]]. congruence.
Qed.
Print Assumptions C105_private.

(** One array that fills its shared block: the result is right but the input is overwritten
    with it, as is every other array in that block. *)
Theorem C105_overwrites_refuted {V} (d : V) F h v :
  is_array d h v -> is_sharedmem d h v = true -> whole d h v -> keeps_sizes F [value d h v] ->
  exists h' w, distribute_jobs d F h [v] None = Ok (h', w) /\ vshape w = vshape v /\
    elements d h' w = outcome F [value d h v] /\ elements d h' v = outcome F [value d h v].
Proof.
  intros Ha Hs Hw Hk. destruct (distribute_none d F h [v])
    as (h' & w & E & Hsh & He & Hl & Ha' & Hs' & Hw' & Hloc & _).
  { discriminate. } { constructor; [split; auto|constructor]. } { exact Hk. }
  cbn [last] in *. exists h', w. repeat (split; [assumption|]). change [value d h v] with (map (value d h) [v]). rewrite <- He.
  rewrite Hs in Hloc. apply elements_positions; [now symmetry|].
  destruct Hw as (Hm & H0 & _), Hw' as (Hm' & H0' & _). rewrite Hm, Hm', H0, H0', Hsh. reflexivity.
Qed.
Print Assumptions C105_overwrites_refuted.

(** A chain of calls, each on the result of the one before. *)
Theorem C105_chain {V} (d : V) Fs h v :
  is_array d h v -> is_sharedmem d h v = false -> chain_sizes (vshape v) Fs (elements d h v) ->
  exists h' w, chain d Fs h v = Ok (h', w) /\ vshape w = vshape v /\
    elements d h' w = chain_outcome (vshape v) Fs (elements d h v) /\
    forall u, (vbuf u < length h)%nat -> unchanged d h h' u.
Proof.
  intros Ha Hs Hk. destruct (chain_spec d Fs h v) as (h' & w & E & Hsh & He & _ & Hu).
  { split; [exact Ha|congruence]. } { exact Hk. }
  exists h', w. repeat (split; [assumption|]). intros u Hu'. apply Hu; [exact Hu'|congruence].
Qed.
Print Assumptions C105_chain.

(** np.copy before the call makes any array safe. *)
Theorem C105_copy {V} (d : V) F h v :
  is_array d h v -> keeps_sizes F [value d h v] ->
  let '(h1, c) := copy_c d h false (vf32 v) v in
  exists h' w, distribute_jobs d F h1 [c] None = Ok (h', w) /\ vshape w = vshape v /\
    elements d h' w = outcome F [value d h v] /\
    forall u, (vbuf u < length h)%nat -> unchanged d h h' u.
Proof.
  intros (Hb & Hl & Hs & Hp) Hk.
  destruct (copy_c_spec d h false (vf32 v) v Hs) as (b & E & Hbs & Hbl & Hel). rewrite E.
  set (c := View (length h) 0 (vshape v) (c_strides (vshape v)) (vf32 v)) in *.
  assert (Hg : getbuf d (h ++ [b]) (vbuf c) = b)
    by (unfold getbuf; cbn [vbuf c]; now rewrite app_nth2, Nat.sub_diag by lia).
  assert (Hv : value d (h ++ [b]) c = value d h v) by (unfold value; now rewrite Hel).
  destruct (C105_private d F (h ++ [b]) c) as (h' & w & E' & Hsh & He & Hu).
  - split; [cbn [vbuf c]; rewrite app_length; cbn; lia|].
    split; [cbn [vstrides vshape c]; apply length_c_strides|]. split; [exact Hs|].
    assert (Hm : in_memory_order c) by (apply c_ordered_memory; [exact Hs|reflexivity]).
    rewrite Hm, Hg, Hbl. cbn [voff c vshape]. rewrite map_add_zrange. apply Forall_forall.
    intros p Hp'. apply in_zrange in Hp'. lia.
  - unfold is_sharedmem. now rewrite Hg.
  - now rewrite Hv.
  - rewrite Hv in He. exists h', w. repeat (split; [assumption|]). intros u Hu'. unfold unchanged.
    rewrite Hu by (rewrite app_length; lia). now apply elements_app.
Qed.
Print Assumptions C105_copy.

(** A slice of a shared array (fewer elements than its block) is always rejected, although it is a
    valid array. *)
Theorem C105_slice_refuted {V} (d : V) F h v :
  is_array d h v -> is_sharedmem d h v = true -> blen (getbuf d h (vbuf v)) <> prod (vshape v) ->
  distribute_jobs d F h [v] None = Raise ValueError.
Proof. intros Ha Hs Hb. apply distribute_slice; auto; [apply Ha|discriminate]. Qed.
Print Assumptions C105_slice_refuted.

(** A rearranged shared array of the size of its block: the jobs see the block in memory order
    under the shape of the array. *)
Theorem C105_memory {V} (d : V) F h v :
  is_array d h v -> is_sharedmem d h v = true -> blen (getbuf d h (vbuf v)) = prod (vshape v) ->
  let seen := map (bdata (getbuf d h (vbuf v))) (zrange 0 (prod (vshape v))) in
  keeps_sizes F [(vshape v, seen)] ->
  exists h' w, distribute_jobs d F h [v] None = Ok (h', w) /\ vshape w = vshape v /\
    elements d h' w = outcome F [(vshape v, seen)].
Proof. apply distribute_memory. Qed.
Print Assumptions C105_memory.

(** A shared 2 x 3 array holding 0..5; the filter that changes nothing. *)
Definition ex_block : heap Z := [Buf true 6 (fun p => p)].
Definition ex_array : view := View 0 0 [2; 3] [3; 1] true.
Definition ex_nothing : jobs Z := fun vals => (map snd vals, None).

(** Its transpose: a filter that changes nothing returns other values. *)
Theorem C105_transposed_refuted :
  exists (h : heap Z) v F h' w, is_array 0 h v /\ writable v /\ keeps_sizes F [value 0 h v] /\
    outcome F [value 0 h v] = elements 0 h v /\
    distribute_jobs 0 F h [v] None = Ok (h', w) /\ vshape w = vshape v /\
    elements 0 h v = [0; 3; 1; 4; 2; 5] /\ elements 0 h' w = [0; 1; 2; 3; 4; 5].
Proof.
  exists ex_block, (swapaxes01 ex_array), ex_nothing. eexists _, _.
  split; [|split; [|split; [|split; [|split; [|split; [|split]]]]]]; try reflexivity.
  - split; [cbn; lia|]. split; [reflexivity|]. split; [repeat constructor|]; cbn; try lia.
    repeat constructor; cbn; lia.
  - unfold writable. change (NoDup [0; 3; 1; 4; 2; 5]). repeat (apply NoDup_cons; [cbn; lia|]). apply NoDup_nil.
  - split; [|discriminate]. cbn. repeat constructor.
Qed.
Print Assumptions C105_transposed_refuted.

(** With an output array [o], when the jobs return their result: it is found in [o]. *)
Theorem C105_out {V} (d : V) F h arrs o l :
  arrs <> [] ->
  Forall (fun v => is_array d h v /\ (is_sharedmem d h v = true -> whole d h v)) arrs ->
  keeps_sizes F (map (value d h) arrs) ->
  is_array d h o -> writable o -> (is_sharedmem d h o = true -> in_memory_order o) ->
  snd (F (map (value d h) arrs)) = Some l -> length l = length (elements d h o) ->
  exists h', distribute_jobs d F h arrs (Some o) = Ok (h', o) /\ elements d h' o = l /\
    forall v, (vbuf v < length h)%nat -> vbuf v <> vbuf o ->
      (forall a, In a arrs -> is_sharedmem d h a = true -> vbuf a <> vbuf v) ->
      unchanged d h h' v.
Proof.
  intros Hne HF Hk Ho Hw Hm Hl Hlen.
  destruct (distribute_out d F h arrs o Hne HF Hk Ho Hw) as (h' & E & H1 & _ & H2).
  - intros Hs. destruct Ho as (_ & Hlo & Hso & _). apply memory_contiguous; auto.
  - intros l' Hl'. rewrite Hl in Hl'. now injection Hl' as <-.
  - exists h'. split; [exact E|]. split; [now apply H1|exact H2].
Qed.
Print Assumptions C105_out.

(** When the jobs work in place and return nothing, the output array is left as it was, also when
    it is the very array they were to change (outside shared memory). *)
Theorem C105_out_in_place_refuted {V} (d : V) F h v :
  is_array d h v -> writable v -> is_sharedmem d h v = false ->
  keeps_sizes F [value d h v] -> snd (F [value d h v]) = None ->
  exists h', distribute_jobs d F h [v] (Some v) = Ok (h', v) /\
    elements d h' v = elements d h v.
Proof.
  intros Ha Hw Hs Hk Hn.
  destruct (distribute_out d F h [v] v) as (h' & E & _ & H1 & _); auto.
  - discriminate.
  - constructor; [split; [exact Ha|congruence]|constructor].
  - congruence.
  - cbn. rewrite Hn. discriminate.
  - exists h'. split; [exact E|]. apply H1; [exact Hn|]. intros a [<-|[]]. congruence.
Qed.
Print Assumptions C105_out_in_place_refuted.

(** A shared output array that is not contiguous is rejected. *)
Theorem C105_out_strided_refuted {V} (d : V) F h arrs o :
  arrs <> [] ->
  Forall (fun v => is_array d h v /\ (is_sharedmem d h v = true -> whole d h v)) arrs ->
  is_array d h o -> is_sharedmem d h o = true -> ~ in_memory_order o ->
  distribute_jobs d F h arrs (Some o) = Raise ValueError.
Proof.
  intros Hne HF Ho Hs Hm. apply distribute_out_strided; auto.
  destruct (is_contiguous o) eqn:E; [|reflexivity]. destruct Hm.
  destruct Ho as (_ & Hlo & Hso & _). now apply contiguous_memory.
Qed.
Print Assumptions C105_out_strided_refuted.

(** The same transpose outside shared memory is filtered correctly. *)
Example C105_example :
  let h := [Buf false 6 (fun p => p)] in
  match distribute_jobs 0 (fun vals => (map snd vals, Some (map (Z.add 10) (snd (hd ([], []) vals)))))
          h [swapaxes01 ex_array] None with
  | inr (h', w) => elements 0 h' w = [10; 13; 11; 14; 12; 15] /\
                   elements 0 h' ex_array = [0; 1; 2; 3; 4; 5]
  | inl _ => False
  end.
Proof. cbn. split; reflexivity. Qed.

(** ** C106 *)

(** The projection data handed to every reconstruction routine: whatever the layout and dtype,
    with and without shared memory, C reads the values in sinogram order, and no existing array is
    changed. *)
Theorem C106_tomo {V} (d : V) conv h tomo (sinogram_order sharedmem : bool) :
  is_array d h tomo ->
  let v := if sinogram_order then tomo else swapaxes01 tomo in
  exists h' t, init_tomo d conv h tomo sinogram_order sharedmem = (h', t) /\
    vshape t = vshape v /\
    c_read d h' t (prod (vshape t)) =
      (if vf32 tomo then elements d h v else map conv (elements d h v)) /\
    (sharedmem = true -> is_sharedmem d h' t = true) /\
    forall u, (vbuf u < length h)%nat -> unchanged d h h' u.
Proof.
  intros Ha v. destruct (init_tomo_spec d conv h tomo sinogram_order sharedmem Ha)
    as (h' & t & E & Hs & _ & Hr & Hu & Hsh).
  exists h', t. repeat (split; [assumption|]). exact Hu.
Qed.
Print Assumptions C106_tomo.

(** Angles (and arrays of rotation centres): C reads them correctly when they have to be converted
    to float32 or lie one behind the other in memory. *)
Theorem C106_theta {V} (d : V) conv h theta n :
  is_array d h theta -> vshape theta = [n] -> vf32 theta = false \/ in_memory_order theta ->
  theta_to_c d conv h theta n =
    (if vf32 theta then elements d h theta else map conv (elements d h theta)).
Proof.
  intros Ha Hn Hor. apply theta_spec; auto. destruct Hor as [|Hm]; [now left|right].
  destruct Ha as (_ & Hl & Hs & _). now apply memory_contiguous.
Qed.
Print Assumptions C106_theta.

(** float32 angles that are every s-th element of an array: C takes the angles that follow the
    first one in memory. *)
Theorem C106_theta_seen {V} (d : V) conv h theta n s :
  vf32 theta = true -> vshape theta = [n] -> vstrides theta = [s] ->
  theta_to_c d conv h theta n =
    map (fun k => bdata (getbuf d h (vbuf theta)) (voff theta + k)) (zrange 0 n) /\
  elements d h theta =
    map (fun k => bdata (getbuf d h (vbuf theta)) (voff theta + k * s)) (zrange 0 n).
Proof.
  intros Hf Hs Ht. split.
  - unfold theta_to_c, as_float32. rewrite Hf. reflexivity.
  - unfold elements, at_, pos. rewrite Hs, Ht. cbn [indices].
    assert (E : forall l : list Z, flat_map (fun i => map (cons i) [[]]) l = map (fun i => [i]) l).
    { induction l as [|k l IH]; [reflexivity|]. cbn [flat_map map app]. now rewrite <- IH. }
    rewrite E, map_map. apply map_ext. intros k. cbn [dot]. f_equal. lia.
Qed.
Print Assumptions C106_theta_seen.

(** theta[::2] of float32 angles. *)
Theorem C106_theta_refuted :
  exists (h : heap Z) theta, is_array 0 h theta /\ vf32 theta = true /\ vshape theta = [3] /\
    elements 0 h theta = [0; 2; 4] /\ theta_to_c 0 (fun x => x) h theta 3 = [0; 1; 2].
Proof.
  exists [Buf false 6 (fun p => p)], (slice0 (View 0 0 [6] [1] true) 0 3 2).
  repeat split; try reflexivity; cbn; try lia; repeat constructor; cbn; lia.
Qed.
Print Assumptions C106_theta_refuted.

(** theta[::-1] of n > 1 float32 angles: C reads outside the array. *)
Theorem C106_theta_reversed_refuted {V} (d : V) h n base :
  (base < length h)%nat -> blen (getbuf d h base) = n -> 1 < n ->
  let theta := slice0 (View base 0 [n] [1] true) (n - 1) n (-1) in
  is_array d h theta /\
  (forall conv, theta_to_c d conv h theta n =
     map (fun k => bdata (getbuf d h base) (n - 1 + k)) (zrange 0 n)) /\
  exists k, 0 <= k < n /\ blen (getbuf d h base) <= voff theta + k.
Proof.
  intros Hb Hn H1 theta. split; [|split].
  - split; [exact Hb|]. split; [reflexivity|]. split; [repeat constructor; lia|].
    apply Forall_forall. intros p Hp. apply in_map_iff in Hp as (idx & <- & Hi).
    apply in_indices in Hi. cbn [vshape theta slice0] in Hi. inversion Hi as [|? i ? ? Hi1 Hi2]; subst.
    inversion Hi2; subst. unfold pos, theta, slice0. cbn [voff vstrides vbuf vshape dot]. lia.
  - intros conv. unfold theta_to_c, as_float32, theta. cbn [vf32 slice0 vshape vstrides].
    unfold c_read. cbn [vbuf voff]. apply map_ext. intros k. f_equal. lia.
  - exists 1. split; [lia|]. unfold theta. cbn [voff slice0 vshape vstrides]. lia.
Qed.
Print Assumptions C106_theta_reversed_refuted.

(** The objects of project2 and project3: right when contiguous ... *)
Theorem C106_object {V} (d : V) conv h obj :
  is_array d h obj -> in_memory_order obj ->
  object_to_c d conv h obj = (if vf32 obj then elements d h obj else map conv (elements d h obj)).
Proof.
  intros Ha Hm. apply object_spec; [exact Ha|]. destruct Ha as (_ & Hl & Hs & _).
  now apply memory_contiguous.
Qed.
Print Assumptions C106_object.

(** ... and wrong for a transposed object, also when it has to be converted: the converted copy
    keeps the order of the axes. *)
Theorem C106_object_refuted :
  exists (h : heap Z) obj, is_array 0 h obj /\
    elements 0 h obj = [0; 3; 1; 4; 2; 5] /\
    forall f32, object_to_c 0 (fun x => x) h
      (View (vbuf obj) (voff obj) (vshape obj) (vstrides obj) f32) = [0; 1; 2; 3; 4; 5].
Proof.
  exists [Buf false 6 (fun p => p)], (swapaxes01 ex_array).
  split; [|split; [reflexivity|intros [|]; reflexivity]].
  split; [cbn; lia|]. split; [reflexivity|]. split; [repeat constructor|]; cbn; try lia.
  repeat constructor; cbn; lia.
Qed.
Print Assumptions C106_object_refuted.

(** stripes_detect3d and inpainter_morph: the result is the routine's result on the elements of the
    input, whatever its layout. *)
Theorem C106_filter {V} (d : V) conv G h a :
  is_array d h a -> (forall x, length (G x) = length x) ->
  exists h' out, filter_c_order d conv G h a = (h', out) /\ vshape out = vshape a /\
    elements d h' out = G (if vf32 a then elements d h a else map conv (elements d h a)) /\
    forall u, (vbuf u < length h)%nat -> unchanged d h h' u.
Proof. apply filter_c_order_spec. Qed.
Print Assumptions C106_filter.

(** median_filter3d: so for a contiguous input ... *)
Theorem C106_median {V} (d : V) (G : list V -> list V) h a :
  is_array d h a -> in_memory_order a -> (forall x, length (G x) = length x) ->
  exists h' out, median_filter3d d G h a = (h', out) /\ vshape out = vshape a /\
    elements d h' out = G (elements d h a) /\
    forall u, (vbuf u < length h)%nat -> unchanged d h h' u.
Proof.
  intros Ha Hm. apply median_spec; [exact Ha|]. destruct Ha as (_ & Hl & Hs & _).
  now apply memory_contiguous.
Qed.
Print Assumptions C106_median.

(** ... but for a transposed one the result is scrambled: the routine writes in C order into an
    array that is laid out like the input.  Even a routine that returns its input unchanged. *)
Theorem C106_median_refuted :
  exists (h : heap Z) a, is_array 0 h a /\ vshape a = [3; 2; 1] /\
    elements 0 h a = [0; 3; 1; 4; 2; 5] /\
    (let '(h', out) := median_filter3d 0 (fun x => x) h a in elements 0 h' out)
      = [0; 4; 3; 2; 1; 5].
Proof.
  exists [Buf false 6 (fun p => p)], (swapaxes01 (View 0 0 [2; 3; 1] [3; 1; 1] true)).
  split; [|split; [reflexivity|split; reflexivity]].
  split; [cbn; lia|]. split; [reflexivity|]. split; [repeat constructor|]; cbn; try lia.
  repeat constructor; cbn; lia.
Qed.
Print Assumptions C106_median_refuted.

(** remove_stripe_sf (and the projections of project): the routine's result reaches the caller's
    elements whatever the layout, and only those. *)
Theorem C106_stripe_sf {V} (d : V) G h tomo :
  is_array d h tomo -> writable tomo -> (forall x, length (G x) = length x) ->
  elements d (c_remove_stripe_sf d G h tomo) tomo = G (elements d h tomo) /\
  forall u, (vbuf u < length h)%nat -> vbuf u <> vbuf tomo ->
    unchanged d h (c_remove_stripe_sf d G h tomo) u.
Proof. apply remove_stripe_sf_spec. Qed.
Print Assumptions C106_stripe_sf.

(** remove_ring without an output array. *)
Theorem C106_ring {V} (d : V) conv G h rec :
  is_array d h rec -> (forall x, length (G x) = length x) ->
  exists h' out, remove_ring d conv G h rec None = (h', out) /\ vshape out = vshape rec /\
    elements d h' out = G (if vf32 rec then elements d h rec else map conv (elements d h rec)) /\
    forall u, (vbuf u < length h)%nat -> unchanged d h h' u.
Proof. apply remove_ring_spec. Qed.
Print Assumptions C106_ring.

(** remove_ring with an output array filters what that array held; the input plays no part (unless
    it is that array). *)
Theorem C106_ring_out_refuted {V} (d : V) conv (G : list V -> list V) h rec o :
  is_array d h rec -> vf32 rec = true -> is_array d h o -> vf32 o = true ->
  vshape o = vshape rec -> in_memory_order o -> (forall x, length (G x) = length x) ->
  exists h', remove_ring d conv G h rec (Some o) = (h', o) /\
    elements d h' o = G (elements d h o) /\
    forall u, vbuf u <> vbuf o -> unchanged d h h' u.
Proof.
  intros Ha Hf Ho Hfo Hs Hm. apply remove_ring_out_spec; auto. destruct Ho as (_ & Hl & Hso & _).
  now apply memory_contiguous.
Qed.
Print Assumptions C106_ring_out_refuted.

Example C106_example :
  let h := [Buf false 6 (fun p => p)] in
  let '(h1, t) := init_tomo 0 (Z.mul 2) h (View 0 0 [2; 3; 1] [3; 1; 1] false) false false in
  c_read 0 h1 t 6 = [0; 6; 2; 8; 4; 10] /\ vshape t = [3; 2; 1].
Proof. cbn. split; reflexivity. Qed.
