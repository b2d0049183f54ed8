(** Morphological inpainting (libtomo/misc/inpainter.c, misc/corr.py inpainter_morph). *)
From Verif Require Import Base CLoop Order Model_Inpaint Spec_Inpaint Proofs_Inpaint Proofs_InpaintR.
From Coq Require Import Reals Lra.
Local Open Scope Z_scope.

(** ** C32 *)
(** Elements outside the mask are returned unchanged: for every type of values, arithmetic, method, window,
    schedule and number of iterations. *)
Theorem C32_outside_unchanged : forall {V} zero half add mul div of_nat eqz qs nx ny nz weights method size sched rnd
    (input : arr V) (mask : arr bool) iterations out,
  inpaint zero half add mul div of_nat eqz qs nx ny nz weights method size sched rnd input mask iterations = Some out ->
  forall x, mask x = false -> out x = input x.
Proof. intros. eapply inpaint_outside; eauto. Qed.

(** The order in which the threads visit the voxels does not influence the result. *)
Theorem C32_any_schedule : forall {V} zero half add mul div of_nat eqz qs nx ny nz weights method size sched sched' rnd
    (input : arr V) (mask : arr bool) iterations out,
  (forall n, each_once nx ny nz (sched n)) -> (forall n, each_once nx ny nz (sched' n)) ->
  inpaint zero half add mul div of_nat eqz qs nx ny nz weights method size sched rnd input mask iterations = Some out ->
  exists out', inpaint zero half add mul div of_nat eqz qs nx ny nz weights method size sched' rnd input mask iterations = Some out' /\
    forall x, out x = out' x.
Proof. intros. eapply inpaint_same with (rnd1 := rnd) (sched1 := sched); eauto. Qed.

(** With a window of half-width one or more every run ends, and whatever is filled in lies between the
    smallest and the largest known non-zero value; all types but the three-dimensional median. *)
Theorem C32_between : forall qs nx ny nz method size sched rnd input mask iterations lo hi,
  (forall l, Permutation (qs l) l) -> 1 <= size -> (method = 1 -> nz = 1) -> (forall n, each_once nx ny nz (sched n)) ->
  (forall v, grid nx ny nz v -> mask (place nx ny v) = false -> input (place nx ny v) <> 0%R -> (lo <= input (place nx ny v) <= hi)%R) ->
  exists out, inpaint_R qs nx ny nz method size sched rnd input mask iterations = Some out /\
    forall v, grid nx ny nz v -> mask (place nx ny v) = true -> out (place nx ny v) = 0%R \/ (lo <= out (place nx ny v) <= hi)%R.
Proof.
  intros qs nx ny nz method size sched rnd input mask iterations lo hi Hq Hw Hm Hs H.
  destruct (inpaint_bounded nx ny nz method size qs sched rnd Hq Hw Hm Hs input mask _ (convex_interval lo hi) H iterations) as (out & E & B).
  exists out. split; auto. intros v Gv M. specialize (B v Gv). now rewrite M in B.
Qed.

(** With non-negative data the masked voxels that end up filled are exactly those joined to a known value. *)
Theorem C32_completes : forall qs nx ny nz method size sched rnd input mask iterations,
  (forall l, Permutation (qs l) l) -> 1 <= size -> (method = 1 -> nz = 1) -> (forall n, each_once nx ny nz (sched n)) ->
  0 < nx -> 0 < ny -> 0 < nz ->
  (forall v, grid nx ny nz v -> mask (place nx ny v) = false -> (0 <= input (place nx ny v))%R) ->
  exists out, inpaint_R qs nx ny nz method size sched rnd input mask iterations = Some out /\
    forall v, grid nx ny nz v -> mask (place nx ny v) = true ->
      (joined nx ny nz input mask v /\ (0 < out (place nx ny v))%R) \/ (~ joined nx ny nz input mask v /\ out (place nx ny v) = 0%R).
Proof.
  intros qs nx ny nz method size sched rnd input mask iterations Hq Hw Hm Hs Dx Dy Dz H.
  destruct (inpaint_filled nx ny nz method size qs sched rnd Hq Hw Hm Hs input mask _ convex_pos) with (iterations := iterations)
    as (out & E & B & F); auto; [|eauto].
  intros v Gv M N. specialize (H v Gv M). lra.
Qed.

(** One masked voxel, type 'mean', no extra iterations: the Gaussian weighted mean of the known values. *)
Theorem C32_weighted_mean : forall qs nx ny nz size sched rnd input mask p,
  (forall l, Permutation (qs l) l) -> 1 <= size -> (forall n, each_once nx ny nz (sched n)) ->
  grid nx ny nz p -> (forall v, grid nx ny nz v -> (mask (place nx ny v) = true <-> v = p)) ->
  (exists u, grid nx ny nz u /\ near u p /\ u <> p /\ input (place nx ny u) <> 0%R) ->
  exists out, inpaint_R qs nx ny nz 0 size sched rnd input mask 0 = Some out /\
    out (place nx ny p) = weighted_mean nx ny nz size input p.
Proof.
  intros qs nx ny nz size sched rnd input mask p Hq Hw Hs Gp Hm Hf. apply single; auto.
  destruct p as ((i, j), k). cbn in Gp. lia.
Qed.

(** Finding: iterations after the first have no effect for non-negative data, because the marks are reset
    only once. *)
Theorem C32_more_iterations_refuted : forall qs nx ny nz method size sched rnd input mask k,
  (forall l, Permutation (qs l) l) -> 1 <= size -> (method = 1 -> nz = 1) -> (forall n, each_once nx ny nz (sched n)) ->
  0 < nx -> 0 < ny -> 0 < nz ->
  (forall v, grid nx ny nz v -> mask (place nx ny v) = false -> (0 <= input (place nx ny v))%R) ->
  exists o1 o2, inpaint_R qs nx ny nz method size sched rnd input mask (S k) = Some o1 /\
    inpaint_R qs nx ny nz method size sched rnd input mask 1 = Some o2 /\ forall x, o1 x = o2 x.
Proof.
  intros qs nx ny nz method size sched rnd input mask k Hq Hw Hm Hs Dx Dy Dz H.
  apply (inpaint_iterations nx ny nz method size qs sched rnd Hq Hw Hm Hs input mask _ convex_pos); auto.
  intros v Gv M N. specialize (H v Gv M). lra.
Qed.

(** Small integer images, where the arithmetic used by type 'median' is exact. *)
Definition of_list (l : list Z) : arr Z := fun x => nth (Z.to_nat x) l 0.
Definition voxels (nx ny nz : Z) : list (Z * Z * Z) :=
  flat_map (fun i => flat_map (fun j => map (fun k => (i, j, k)) (zrange 0 nz)) (zrange 0 ny)) (zrange 0 nx).
Definition median_inpaint (nx ny nz size : Z) (input : list Z) (masked : Z) (iterations : nat) : option (list Z) :=
  match inpaint 0 0 Z.add Z.mul Z.div Z.of_nat (Z.eqb 0) (isort Z.ltb) nx ny nz [] 1 size (fun _ => voxels nx ny nz) (fun _ _ => (0, 0))
          (of_list input) (fun x => x =? masked) iterations with
  | Some out => Some (map out (zrange 0 (nx * ny * nz)))
  | None => None
  end.
(** Finding: in 2-D the last window value is left out of the sort, so the result is not the median: the
    voxel between 3 and 1, 2 is given 3. *)
Theorem C32_median_2d_refuted :
  median_inpaint 4 1 1 2 [3; 0; 1; 2] 1 0 = Some [3; 3; 1; 2] /\ ~ median_of Z.ltb [3; 1; 2] 3 /\ median_of Z.ltb [3; 1; 2] 2.
Proof. split; [reflexivity|]. split; [intros (_ & H); cbn in H; lia|split; [cbn; tauto|cbn; lia]]. Qed.
(** Finding: in 3-D the unused part of the window buffer, filled with zeros, is sorted as well: a hole in
    constant data is "filled" with 0. *)
Theorem C32_median_3d_refuted : median_inpaint 2 1 2 1 [0; 5; 5; 5] 0 2 = Some [0; 5; 5; 5].
Proof. reflexivity. Qed.
(** Finding: a window of half-width zero makes the behaviour undefined (division of rand() by zero, sort of
    a negative number of elements). *)
Theorem C32_size_zero_refuted : median_inpaint 3 1 1 0 [5; 0; 5] 1 1 = None.
Proof. reflexivity. Qed.
(** Finding: where positive and negative neighbours cancel, the voxel is taken for not reachable and stays 0. *)
Theorem C32_signed_refuted : median_inpaint 5 1 1 2 [5; 1; 0; -1; 5] 2 1 = Some [5; 1; 0; -1; 5].
Proof. reflexivity. Qed.

(** ** C63: slice by slice inpainting of a volume *)
(** The element of slice [m] along [axis] in row [r] and column [c]. *)
Definition in_slice {A} (axis m r c : Z) (a : Z -> Z -> Z -> A) : A :=
  if axis =? 0 then a m r c else if axis =? 1 then a r m c else a r c m.
Definition extent (axis dz dy dx : Z) : Z * Z * Z :=
  if axis =? 0 then (dz, dy, dx) else if axis =? 1 then (dy, dz, dx) else (dx, dz, dy).
Lemma axis_cases axis : 0 <= axis <= 2 -> axis = 0 \/ axis = 1 \/ axis = 2.
Proof. lia. Qed.
(** Each slice of the result is the 2-D inpainting of that slice of the image and of the mask. *)
Theorem C63_slices : forall {V} f axis dz dy dx (a : Z -> Z -> Z -> V) (mask : Z -> Z -> Z -> bool) out0 (g : Z -> arr V),
  0 <= axis <= 2 -> let '(n, rows, cols) := extent axis dz dy dx in
  0 < n -> 1 < rows -> 1 < cols ->
  (forall m im mk, 0 <= m < n -> (forall r c, 0 <= r < rows -> 0 <= c < cols -> im (r * cols + c) = in_slice axis m r c a /\ mk (r * cols + c) = in_slice axis m r c mask) ->
     f cols rows 1 im mk = Some (g m)) ->
  exists out, inpainter_morph f (Some axis) dz dy dx a mask out0 = Ok (Some out) /\
    forall m r c, 0 <= m < n -> 0 <= r < rows -> 0 <= c < cols -> in_slice axis m r c out = g m (r * cols + c).
Proof.
  intros V f axis dz dy dx a mask out0 g Ha. destruct (extent axis dz dy dx) as ((n, rows), cols) eqn:Ex. intros Hn Hr Hc Hf.
  assert (Hf' : forall m, 0 <= m < n -> f cols rows 1 (slice2d axis m cols a) (slice2d axis m cols mask) = Some (g m)).
  { intros m Hm. apply Hf; auto. intros r c Hr' Hc'. unfold slice2d, in_slice. cbn zeta.
    rewrite Z.div_add_l by lia. rewrite Z.div_small by lia. rewrite Z.add_0_r.
    rewrite (Z.add_comm (r * cols) c), Z.mod_add, Z.mod_small by lia. auto. }
  unfold inpainter_morph.
  assert (Ed : (if axis =? 0 then dz else if axis =? 1 then dy else dx) = n /\ (if axis =? 0 then dy else dz) = rows /\ (if axis =? 2 then dy else dx) = cols /\
               dz <> 0 /\ dy <> 0 /\ dx <> 0).
  { unfold extent in Ex. destruct (axis_cases axis Ha) as [->|[->| ->]]; cbn in *; injection Ex as <- <- <-; lia. }
  destruct Ed as (-> & -> & -> & D1 & D2 & D3).
  destruct ((axis <? 0) || (axis >? 2)) eqn:E1; [lia|]. destruct ((dz =? 0) || (dy =? 0) || (dx =? 0)) eqn:E2; [lia|].
  destruct ((rows =? 1) || (cols =? 1)) eqn:E3; [lia|].
  pose proof (for_inv (fun k (o : option (volume V)) => exists out, o = Some out /\
    forall m r c, 0 <= m < k -> 0 <= r < rows -> 0 <= c < cols -> in_slice axis m r c out = g m (r * cols + c)) n
    (fun m out => match out, f cols rows 1 (slice2d axis m cols a) (slice2d axis m cols mask) with
                  | Some out, Some o => Some (store2d axis m cols o out) | _, _ => None end) (Some out0)) as L.
  destruct L as (out & E & H); [lia|exists out0; split; [reflexivity|intros; lia]| |].
  - intros k s Hk (out & -> & H). rewrite Hf' by auto. eexists. split; [reflexivity|]. intros m r c Hm Hr' Hc'.
    unfold in_slice, store2d in *. destruct (axis_cases axis Ha) as [->|[->| ->]]; cbn [Z.eqb Pos.eqb] in *;
      (destruct (m =? k) eqn:Em; [replace m with k by lia; reflexivity|apply H; lia]).
  - exists out. split; [|exact H]. unfold Ok. now rewrite E.
Qed.
(** Finding: a slice with one row or one column raises ValueError, because squeeze() removes that dimension. *)
Theorem C63_thin_slices_refuted : forall {V} f axis dz dy dx (a : Z -> Z -> Z -> V) mask out0,
  0 <= axis <= 2 -> 0 < dz -> 0 < dy -> 0 < dx -> let '(n, rows, cols) := extent axis dz dy dx in
  rows = 1 \/ cols = 1 -> inpainter_morph f (Some axis) dz dy dx a mask out0 = Raise ValueError.
Proof.
  intros V f axis dz dy dx a mask out0 Ha Hz Hy Hx. unfold extent, inpainter_morph.
  destruct ((axis <? 0) || (axis >? 2)) eqn:E1; [lia|]. destruct ((dz =? 0) || (dy =? 0) || (dx =? 0)) eqn:E2; [lia|].
  destruct (axis_cases axis Ha) as [->|[->| ->]]; cbn [Z.eqb Pos.eqb]; intros H;
    match goal with |- (if ?c then _ else _) = _ => destruct c eqn:E3; [reflexivity|lia] end.
Qed.
(** Without an axis the whole volume is one 3-D image in C order. *)
Theorem C63_volume : forall {V} f dz dy dx (a : Z -> Z -> Z -> V) (mask : Z -> Z -> Z -> bool) out0 g,
  0 < dz -> 0 < dy -> 0 < dx ->
  (forall im mk, (forall z y x, 0 <= z -> 0 <= y < dy -> 0 <= x < dx -> im ((z * dy + y) * dx + x) = a z y x /\ mk ((z * dy + y) * dx + x) = mask z y x) ->
     f dx dy dz im mk = Some g) ->
  exists out, inpainter_morph f None dz dy dx a mask out0 = Ok (Some out) /\
    forall z y x, out z y x = g ((z * dy + y) * dx + x).
Proof.
  intros V f dz dy dx a mask out0 g Hz Hy Hx Hf. unfold inpainter_morph.
  destruct ((dz =? 0) || (dy =? 0) || (dx =? 0)) eqn:E; [lia|].
  rewrite (Hf (flat dy dx a) (flat dy dx mask)).
  - eexists. split; [reflexivity|]. intros z y x. cbn beta. f_equal. ring.
  - intros z y x H1 H2 H3. unfold flat.
    replace (((z * dy + y) * dx + x) / dx) with (z * dy + y) by (rewrite Z.div_add_l by lia; rewrite (Z.div_small x) by lia; lia).
    replace (((z * dy + y) * dx + x) mod dx) with x by (rewrite Z.add_comm, Z.mod_add, Z.mod_small by lia; lia).
    replace (((z * dy + y) * dx + x) / (dy * dx)) with z.
    2: { replace ((z * dy + y) * dx + x) with (z * (dy * dx) + (y * dx + x)) by ring. rewrite Z.div_add_l by nia.
         rewrite (Z.div_small (y * dx + x)) by nia. lia. }
    rewrite (Z.add_comm (z * dy)), Z.mod_add, Z.mod_small by lia. auto.
Qed.

(** Examples: a hole in constant data is filled with the constant; an image without data is left at zero. *)
Example C32_ex : median_inpaint 3 3 1 1 [7; 7; 7; 7; 0; 7; 7; 7; 7] 4 2 = Some [7; 7; 7; 7; 7; 7; 7; 7; 7].
Proof. reflexivity. Qed.
Example C32_schedule_ex : each_once 2 2 1 (voxels 2 2 1).
Proof.
  split.
  - cbv. repeat constructor; cbn; intuition discriminate.
  - intros ((i, j), k). cbn. split.
    + intros H. repeat (destruct H as [H|H]; [injection H as <- <- <-; lia|]). destruct H.
    + intros (A & B & C). assert (K : k = 0) by lia. subst k.
      assert (i = 0 \/ i = 1) as [->| ->] by lia; assert (j = 0 \/ j = 1) as [->| ->] by lia; vm_compute; auto 10.
Qed.
Example C63_ex : exists out, inpainter_morph (fun _ _ _ im _ => Some im) (Some 1) 2 3 2 (fun z y x => 100 * z + 10 * y + x) (fun _ _ _ => false) (fun _ _ _ => 0) = Ok (Some out) /\
  out 1 2 1 = 121 /\ out 0 1 1 = 11.
Proof. eexists. split; [reflexivity|]. split; reflexivity. Qed.

Print Assumptions C32_outside_unchanged.
Print Assumptions C32_any_schedule.
Print Assumptions C32_between.
Print Assumptions C32_completes.
Print Assumptions C32_weighted_mean.
Print Assumptions C32_more_iterations_refuted.
Print Assumptions C63_slices.
Print Assumptions C63_volume.
Print Assumptions C32_median_2d_refuted.
Print Assumptions C32_median_3d_refuted.
Print Assumptions C32_size_zero_refuted.
Print Assumptions C32_signed_refuted.
Print Assumptions C63_thin_slices_refuted.
