(** C121-C125: project, fbp, art, bart (sirt) and osem (mlem) in machine arithmetic. *)
From Verif Require Import Base Order CLoop Model_Ray Proofs_Ray Model_RayF Model_SolverF Spec_SolverF Proofs_FloatB Proofs_RayF Proofs_RayF2 Proofs_RayF3 Proofs_RayF4.
From Verif Require Import Proofs_SolverF Proofs_SolverF2 Proofs_SolverF3 Proofs_SolverF4 Proofs_SolverF5 Proofs_SolverF6 Proofs_SolverF7.
From Coq Require Import Reals Lra Sorted.
From Flocq Require Import Core BinarySingleNaN.
Local Open Scope R_scope.

(** ** C121: no undefined behaviour.  [Some]: every access is inside its array, every conversion to int fits, no index
    overflows.  The numbers in the arrays are arbitrary (also infinities and NaN). *)
Theorem C121_project fmodf sinf cosf junk g obj data : libm fmodf sinf cosf -> sizes_ok g ->
  exists r, projectF fmodf sinf cosf junk g obj data = Some r.
Proof. intros L S. now apply project_safe. Qed.
Theorem C121_fbp fmodf sinf cosf junk g data recon : libm fmodf sinf cosf -> sizes_ok g -> small_ok g ->
  exists r, fbpF fmodf sinf cosf junk g data recon = Some r.
Proof. intros L S S'. now apply fbp_safe. Qed.
Theorem C121_art fmodf sinf cosf junk g data num_iter recon simdata : libm fmodf sinf cosf -> sizes_ok g -> small_ok g ->
  exists r, artF fmodf sinf cosf junk g data num_iter recon simdata = Some r.
Proof. intros L S S'. now apply art_safe. Qed.
(** bart and osem, and any other rule of update; more blocks than angles are allowed. *)
Theorem C121_subsets fmodf sinf cosf junk g rule data num_block ind_block num_iter recon simdata sum_dist update : libm fmodf sinf cosf -> sizes_ok g -> small_ok g ->
  (1 <= num_block < 2 ^ 31)%Z -> (dtF g < 2 ^ 31)%Z -> (num_block = 1%Z \/ forall q, (0 <= q < dtF g)%Z -> (0 <= ind_block q < dtF g)%Z) ->
  exists r, os_solveF fmodf sinf cosf junk g rule data num_block ind_block num_iter recon simdata sum_dist update = Some r.
Proof.
  intros L S S' Hb Ht Hi. edestruct (os_ok fmodf sinf cosf junk L g S S' rule data num_block ind_block T1) as (r & E & _); try exact E; eauto; try (intros; exact I); apply inT.
Qed.
(** Without an angle, slice or pixel nothing is read and nothing is written. *)
Theorem C121_empty fmodf sinf cosf junk g obj data num_iter simdata : (dyF g = 0 \/ dtF g = 0 \/ dxF g = 0)%Z ->
  projectF fmodf sinf cosf junk g obj data = Some data /\ fbpF fmodf sinf cosf junk g obj data = Some data /\ artF fmodf sinf cosf junk g obj num_iter data simdata = Some data.
Proof.
  intros H. assert (E : emptyF g = true) by (unfold emptyF; destruct H as [->|[->| ->]]; rewrite ?Z.eqb_refl, ?orb_true_r; reflexivity). unfold projectF, fbpF, artF. rewrite E. auto.
Qed.
(** No subsets: a division by zero. *)
Theorem C121_no_blocks_refuted fmodf sinf cosf junk g rule data ind_block num_iter recon simdata sum_dist update : (1 <= dyF g)%Z -> (1 <= dtF g)%Z -> (1 <= dxF g)%Z ->
  os_solveF fmodf sinf cosf junk g rule data 0 ind_block num_iter recon simdata sum_dist update = None.
Proof. intros H1 H2 H3. unfold os_solveF, emptyF. replace ((dyF g =? 0) || (dtF g =? 0) || (dxF g =? 0))%Z with false by lia. reflexivity. Qed.
(** An angle that is not a number is converted to int. *)
Theorem C121_nan_angle_refuted fmodf sinf cosf junk g obj data num_iter simdata : (1 <= dyF g)%Z -> (1 <= dtF g)%Z -> (1 <= dxF g)%Z -> (1 <= num_iter)%Z ->
  fmodf (thetaF g 0%Z) = B754_nan ->
  projectF fmodf sinf cosf junk g obj data = None /\ fbpF fmodf sinf cosf junk g obj data = None /\ artF fmodf sinf cosf junk g obj num_iter data simdata = None.
Proof.
  intros H1 H2 H3 H4 E. assert (X : forall c d, segsF fmodf sinf cosf junk g c 0%Z d = None). { intros c d. unfold segsF. rewrite load_ok by lia. cbn [obind]. rewrite E. reflexivity. }
  assert (Y : forall c d, project_segs fmodf sinf cosf junk g c 0%Z d = None). { intros c d. unfold project_segs. rewrite load_ok by lia. cbn [obind]. rewrite E. reflexivity. }
  assert (F : forall (St : Type) n (f : Z -> St -> option St) s, (1 <= n)%Z -> f 0%Z s = None -> ofor 0 n f s = None). { intros St n f s Hn Ef. unfold ofor. rewrite zrange_cons by lia. cbn. rewrite Ef. reflexivity. }
  unfold projectF, fbpF, artF, emptyF. replace ((dyF g =? 0) || (dtF g =? 0) || (dxF g =? 0))%Z with false by lia. rewrite load_ok by lia. cbn [obind]. repeat split.
  - apply F; [lia|]. apply F; [lia|]. now rewrite Y.
  - apply F; [lia|]. rewrite load_ok by lia. cbn [obind]. apply F; [lia|]. apply F; [lia|]. now rewrite X.
  - rewrite F; [reflexivity|lia|]. rewrite ?load_ok by lia. cbn [obind]. apply F; [lia|]. apply F; [lia|]. now rewrite X.
Qed.

(** ** C122: calc_quadrant and the order of the intersections.  13176795 / 2^21 is 2.0f * (float)M_PI, the modulus. *)
Theorem C122_quadrant x : is_finite x = true -> Rabs (B2R x) < 13176795 / 2097152 -> 0 <= B2R x \/ B2R x <= - (3 / 1000000000) ->
  exists b, calc_quadrantF x = Some b /\ (b = true <-> upward (B2R x)).
Proof. intros. now apply quadrant_right. Qed.
Theorem C122_tiny_refuted x : is_finite x = true -> - (29 / 10000000000) <= B2R x < 0 -> calc_quadrantF x = Some true /\ ~ upward (B2R x).
Proof.
  intros F B. split; [now apply quadrant_tiny|]. unfold upward. pose proof PI_bounds. intros U. assert (0 < cos (B2R x)) by (apply cos_gt_0; lra).
  assert (sin (B2R x) < 0). { rewrite <- (Ropp_involutive (B2R x)), sin_neg. assert (0 < sin (- B2R x)) by (apply sin_gt_0; lra). lra. } nra.
Qed.
(** The wrong answer does no harm: the ray then meets at most one line of the first family and the points of every ray
    come in order. *)
Theorem C122_ordered ry rz dx center sinf cosf x q d za zb zc n m : (1 <= ry <= 2 ^ 13)%Z -> (1 <= rz <= 2 ^ 13)%Z -> (0 <= d < dx)%Z -> (dx <= 2 ^ 13)%Z ->
  is_finite center = true -> Rabs (B2R center) <= 8000 -> is_finite x = true -> Rabs (B2R x) < 13176795 / 2097152 -> close sinf sin x -> close cosf cos x -> Rabs (B2R (cosf x)) <= 1 ->
  calc_quadrantF x = Some q -> let t := ray_traceF ry rz dx center (sinf x) (cosf x) q d za zb zc in
  (0 <= n <= m)%Z -> (m < fcsize t)%Z -> B2R (fst (fcoor t n)) <= B2R (fst (fcoor t m)).
Proof.
  intros Hy Hz Hd Hdx Fc Bc F B Cs Cc B1 Hq t Hn Hm. destruct (Z.eq_dec n m) as [->|N]; [right; reflexivity|].
  pose proof (solver_ordered ry rz dx center sinf cosf x q d za zb zc Hy Hz Hd Hdx Fc Bc F B Cs Cc B1 Hq) as S. cbv zeta in S. fold t in S.
  apply (StronglySorted_nth _ _ (Z.to_nat n) (Z.to_nat m) (fcoor t n) (fcoor t m) S); [lia| |]; apply map_nth_error; rewrite nth_error_zrange by lia; f_equal; lia.
Qed.
(** The same for project, whose offset is computed in double: any offset yi, centre and sizes up to 2^15. *)
Theorem C122_ordered_any ry rz xi yi sinf cosf x q cy za zb zc n m : (1 <= ry <= 2 ^ 15)%Z -> (1 <= rz <= 2 ^ 15)%Z -> B2R xi <= 0 ->
  is_finite x = true -> Rabs (B2R x) < 13176795 / 2097152 -> 0 <= B2R x \/ B2R x <= - (3 / 1000000000) -> close sinf sin x -> close cosf cos x -> calc_quadrantF x = Some q ->
  let t := traceF ry rz q (coordxF rz (ray_lineF xi yi (sinf x) (cosf x))) cy za zb zc in
  (0 <= n <= m)%Z -> (m < fcsize t)%Z -> B2R (fst (fcoor t n)) <= B2R (fst (fcoor t m)).
Proof.
  intros Hy Hz Hx F B L Cs Cc Hq t Hn Hm. destruct (Z.eq_dec n m) as [->|N]; [right; reflexivity|].
  pose proof (order_right ry rz xi yi sinf cosf x q cy za zb zc Hy Hz Hx F B L Cs Cc Hq) as S. cbv zeta in S. fold t in S.
  apply (StronglySorted_nth _ _ (Z.to_nat n) (Z.to_nat m) (fcoor t n) (fcoor t m) S); [lia| |]; apply map_nth_error; rewrite nth_error_zrange by lia; f_equal; lia.
Qed.

(** ** C123: slice k of one call equals slice k' of another, bit for bit, if these slices had the same inputs; other
    slices, their number, the scratch memory and everything behind the arrays do not matter. *)
Section Slices.
  Variables (fmodf sinf cosf : b32 -> b32) (junk junk' : arr pointF * arr pointF * arr pointF) (g g' : geomF) (k k' : Z).
  Notation data_eq := (win (dtF g * dxF g) (k * dtF g * dxF g) (k' * dtF g * dxF g)).
  Notation rec_eq := (win (npixF g) (k * gxF g * gyF g) (k' * gxF g * gyF g)).
  Notation ok := (same_rays g g' /\ (1 <= gxF g <= 2 ^ 15)%Z /\ (1 <= gyF g <= 2 ^ 15)%Z /\ (0 <= dxF g)%Z /\ (0 <= dtF g)%Z /\ (0 <= k < dyF g)%Z /\ (0 <= k' < dyF g')%Z).
  Theorem C123_project obj obj' data data' r r' : ok -> centerF g 0%Z = centerF g' 0%Z ->
    projectF fmodf sinf cosf junk g obj data = Some r -> projectF fmodf sinf cosf junk' g' obj' data' = Some r' -> rec_eq obj obj' -> data_eq data data' -> data_eq r r'.
  Proof. intros (S & H1 & H2 & H3 & H4 & H5 & H6). eapply project_slices; eauto; lia. Qed.
  Theorem C123_fbp data data' recon recon' r r' : ok -> centerF g k = centerF g' k' ->
    fbpF fmodf sinf cosf junk g data recon = Some r -> fbpF fmodf sinf cosf junk' g' data' recon' = Some r' -> data_eq data data' -> rec_eq recon recon' -> rec_eq r r'.
  Proof. intros (S & H1 & H2 & H3 & H4 & H5 & H6) E. eapply fbp_slices; eauto; lia. Qed.
  Theorem C123_art data data' num_iter recon recon' sd sd' r r' : ok -> centerF g 0%Z = centerF g' 0%Z ->
    artF fmodf sinf cosf junk g data num_iter recon sd = Some r -> artF fmodf sinf cosf junk' g' data' num_iter recon' sd' = Some r' -> data_eq data data' -> rec_eq recon recon' -> rec_eq r r'.
  Proof. intros (S & H1 & H2 & H3 & H4 & H5 & H6). eapply art_slices; eauto; lia. Qed.
  Theorem C123_subsets rule data data' num_block ind_block num_iter recon recon' sd sd' su su' up up' r r' : ok -> centerF g k = centerF g' k' -> data_eq data data' ->
    os_solveF fmodf sinf cosf junk g rule data num_block ind_block num_iter recon sd su up = Some r ->
    os_solveF fmodf sinf cosf junk' g' rule data' num_block ind_block num_iter recon' sd' su' up' = Some r' -> rec_eq recon recon' -> rec_eq r r'.
  Proof. intros (S & H1 & H2 & H3 & H4 & H5 & H6) E D. eapply os_slices; eauto; lia. Qed.
End Slices.

(** ** C124: signs.  Whatever the angles, sizes and ranges: rounding, overflow and division by zero included. *)
Section Signs.
  Variables (fmodf sinf cosf : b32 -> b32) (junk : arr pointF * arr pointF * arr pointF) (g : geomF).
  Theorem C124_project obj data r : projectF fmodf sinf cosf junk g obj data = Some r -> inP nn (nrec g) obj -> inP nn (ndata g) data -> inP nn (ndata g) r.
  Proof. apply project_nn. Qed.
  Theorem C124_fbp data recon r : fbpF fmodf sinf cosf junk g data recon = Some r -> inP nn (ndata g) data -> inP nn (nrec g) recon -> inP nn (nrec g) r.
  Proof. apply fbp_nn. Qed.
  Theorem C124_osem data num_block ind_block num_iter recon sd su up r : os_solveF fmodf sinf cosf junk g osem_ruleF data num_block ind_block num_iter recon sd su up = Some r ->
    inP nn (ndata g) data -> inP nn (nrec g) recon -> inP nn (nrec g) r.
  Proof. apply osem_nn. Qed.
  (** osem: a cell that is zero stays zero or becomes NaN, a NaN stays. *)
  Definition zero_or_nan (x : b32) : Prop := x = B754_zero false \/ x = B754_zero true \/ x = B754_nan.
  Lemma zero_mul x y : zero_or_nan x -> zero_or_nan (fmul x y).
  Proof. intros [->|[->| ->]]; unfold zero_or_nan; destruct y as [[]|[]| |[] m e H]; cbn; auto. Qed.
  Theorem C124_zero data num_block ind_block num_iter recon sd su up r i : os_solveF fmodf sinf cosf junk g osem_ruleF data num_block ind_block num_iter recon sd su up = Some r ->
    (zero_or_nan (recon i) -> zero_or_nan (r i)) /\ (recon i = B754_nan -> r i = B754_nan).
  Proof.
    intros E. split; intros H.
    - apply (os_cell fmodf sinf cosf junk g osem_ruleF data num_block ind_block num_iter recon sd su up r zero_or_nan i); auto. intros x u s. apply zero_mul.
    - apply (os_cell fmodf sinf cosf junk g osem_ruleF data num_block ind_block num_iter recon sd su up r (fun x => x = B754_nan) i); auto. intros x u s ->. reflexivity.
  Qed.
End Signs.

(** bart, osem: a pixel that no ray of its slice meets keeps its bits. *)
Theorem C124_untouched fmodf sinf cosf junk g rule data num_block ind_block num_iter recon sd su up r s i : (0 <= i < npixF g)%Z ->
  (forall p d segs w, (0 <= p < dtF g)%Z -> (0 <= d < dxF g)%Z -> segsF fmodf sinf cosf junk g (centerF g s) p d = Some segs -> ~ In (i, w) segs) ->
  os_solveF fmodf sinf cosf junk g rule data num_block ind_block num_iter recon sd su up = Some r -> r (i + s * gxF g * gyF g)%Z = recon (i + s * gxF g * gyF g)%Z.
Proof. intros Hi No E. exact (os_untouched fmodf sinf cosf junk g rule data num_block ind_block s i Hi No num_iter recon sd su up r E). Qed.

(** ** C125: values.  project adds to a measurement the products of the pixels and the lengths on its ray, in the order of
    the segments, nothing else, and the result is near the exact sum. *)
Theorem C125_project fmodf sinf cosf junk g obj data r s p d : (1 <= gxF g <= 2 ^ 15)%Z -> (1 <= gyF g <= 2 ^ 15)%Z -> projectF fmodf sinf cosf junk g obj data = Some r ->
  (0 <= s < dyF g)%Z -> (0 <= p < dtF g)%Z -> (0 <= d < dxF g)%Z ->
  exists segs, project_segs fmodf sinf cosf junk g (centerF g 0%Z) p d = Some segs /\ (Z.of_nat (length segs) <= gxF g + gyF g + 1)%Z /\ (forall i w, In (i, w) segs -> is_finite w = true /\ 0 <= B2R w) /\
    let j := (d + p * dxF g + s * dtF g * dxF g)%Z in let l := map (fun '(i, w) => (obj (i + s * gxF g * gyF g)%Z, w)) segs in
    r j = dotF (data j) l /\
    (inP (fun x => is_finite x = true) (nrec g) obj -> is_finite (data j) = true -> Rabs (B2R (data j)) + absR l <= 2 ^ 120 ->
     is_finite (r j) = true /\ Rabs (B2R (r j) - (B2R (data j) + dotR l)) <= (INR (length l) + 1) / 2 ^ 23 * (Rabs (B2R (data j)) + absR l) + INR (length l) / 2 ^ 148).
Proof.
  intros Hx Hy E Hs Hp Hd. assert (Em : emptyF g = false) by (unfold emptyF; lia). destruct (project_value fmodf sinf cosf junk g obj data r s p d Em E Hs Hp Hd) as (segs & Es & V0). cbv zeta in V0.
  assert (So : seg_ok g segs) by (apply (psegs_seg fmodf sinf cosf junk g ltac:(lia) ltac:(lia) ltac:(lia) ltac:(lia) (centerF g 0%Z) p d segs Es)).
  assert (Fw : forall i w, In (i, w) segs -> is_finite w = true /\ 0 <= B2R w) by (intros i w; now apply (psegs_fin fmodf sinf cosf junk g (centerF g 0%Z) p d segs i w Hx Hy)).
  pose proof (psegs_len fmodf sinf cosf junk g (centerF g 0%Z) p d segs Hx Hy Es) as Hl. exists segs. split; [exact Es|]. split; [exact Hl|]. split; [exact Fw|]. cbv zeta. set (j := (d + p * dxF g + s * dtF g * dxF g)%Z) in *. set (l := map _ segs) in *.
  split; [exact V0|]. intros Fo Fd Bd. rewrite V0.
  assert (Fl : forall x w, In (x, w) l -> is_finite x = true /\ is_finite w = true).
  { intros x w H. unfold l in H. apply in_map_iff in H. destruct H as ((i & w') & Q & H). injection Q as <- <-. split; [|exact (proj1 (Fw _ _ H))]. apply Fo. specialize (So _ _ H). unfold nrec, npixF in *. nia. }
  destruct (dot_error (data j) l Fd Fl) as (F & B).
  - unfold l. rewrite map_length. lia.
  - rewrite cap_pow. exact Bd.
  - split; [exact F|]. eapply Rle_trans; [exact B|]. right. apply bound_pow.
Qed.
(** fbp: a pixel gets the products of the measurements and the lengths of all rays through it. *)
Theorem C125_fbp fmodf sinf cosf junk g data recon r s i : (1 <= gxF g <= 2 ^ 15)%Z -> (1 <= gyF g <= 2 ^ 15)%Z -> (1 <= dyF g)%Z -> (1 <= dtF g)%Z -> (1 <= dxF g)%Z ->
  fbpF fmodf sinf cosf junk g data recon = Some r -> (0 <= s < dyF g)%Z -> (0 <= i < npixF g)%Z ->
  let j := (i + s * gxF g * gyF g)%Z in
  let l := flat_map (fun p => flat_map (fun d => map (fun '(_, w) => (data (d + p * dxF g + s * dtF g * dxF g)%Z, w))
    (filter (fun '(j, _) => (j =? i)%Z) (match segsF fmodf sinf cosf junk g (centerF g s) p d with Some l => l | None => [] end))) (zrange 0 (dxF g))) (zrange 0 (dtF g)) in
  r j = dotF (recon j) l /\
  (inP (fun x => is_finite x = true) (ndata g) data -> is_finite (recon j) = true -> (Z.of_nat (length l) <= 1000000)%Z -> Rabs (B2R (recon j)) + absR l <= 2 ^ 120 ->
   is_finite (r j) = true /\ Rabs (B2R (r j) - (B2R (recon j) + dotR l)) <= (INR (length l) + 1) / 2 ^ 23 * (Rabs (B2R (recon j)) + absR l) + INR (length l) / 2 ^ 148).
Proof.
  intros Hx Hy H1 H2 H3 E Hs Hi j l. assert (Em : emptyF g = false) by (unfold emptyF; lia). pose proof (fbp_value fmodf sinf cosf junk g Hx Hy data recon r s i Em E Hs Hi) as V0. cbv zeta in V0. fold j in V0.
  change (hits fmodf sinf cosf junk g data (centerF g s) s i) with l in V0. split; [exact V0|]. intros Fo Fd Ll Bd. rewrite V0.
  assert (Fl : forall x w, In (x, w) l -> is_finite x = true /\ is_finite w = true).
  { intros x w H. unfold l in H. apply in_flat_map in H. destruct H as (p & Hp & H). apply in_flat_map in H. destruct H as (d & Hd & H). apply in_map_iff in H. destruct H as ((i' & w') & Q & H). injection Q as <- <-.
    apply filter_In in H. destruct H as (H & _). apply in_zrange in Hp, Hd. destruct (segsF fmodf sinf cosf junk g (centerF g s) p d) as [segs|] eqn:Es; [|contradiction].
    split; [|exact (proj1 (segs_fin fmodf sinf cosf junk g (centerF g s) p d segs i' w' Hx Hy Es H))]. apply Fo. unfold ndata. assert (0 <= d + p * dxF g < dtF g * dxF g)%Z by nia. assert (0 <= s * (dtF g * dxF g) <= (dyF g - 1) * (dtF g * dxF g))%Z by nia. lia. }
  destruct (dot_error (recon j) l Fd Fl Ll) as (F & B); [rewrite cap_pow; exact Bd|].
  split; [exact F|]. eapply Rle_trans; [exact B|]. right. apply bound_pow.
Qed.

(** One slice, one angle of zero, two detector pixels, a grid of 2 x 2. *)
Section Example_.
  Local Open Scope Z_scope.
  Definition idF (x : b32) : b32 := x.
  Definition oneF (_ : b32) : b32 := of_int 1.
  Definition nilF (_ : b32) : b32 := zeroF.
  Definition ex_junk : arr pointF * arr pointF * arr pointF := (fun _ => (of_int 3, of_int 5), fun _ => (of_int 4, B754_nan), fun _ => (B754_nan, of_int 8)).
  Definition ex_g : geomF := mkGeomF 1 1 2 2 2 (fun _ => of_int 1) (fun _ => zeroF).
  Definition rdF (n : Z) (a : option (arr b32)) : option (list (option Z)) := match a with Some a => Some (map (fun i => to_int (fmul (of_int 100) (a i))) (zrange 0 n)) | None => None end.
  Definition ints_ (l : list Z) : arr Z := fun i => nth (Z.to_nat i) l 0.
  Definition ints (l : list Z) : arr b32 := fun i => of_int (nth (Z.to_nat i) l 0).
  Example C121_example_project : rdF 2 (projectF idF nilF oneF ex_junk ex_g (ints [1; 2; 3; 4]) (ints [0; 0])) = Some [Some 400; Some 600].
  Proof. vm_compute. reflexivity. Qed.
  Example C121_example_fbp : rdF 4 (fbpF idF nilF oneF ex_junk ex_g (ints [3; 5]) (ints [0; 0; 0; 0])) = Some [Some 300; Some 500; Some 300; Some 500].
  Proof. vm_compute. reflexivity. Qed.
  Example C121_example_art : rdF 4 (artF idF nilF oneF ex_junk ex_g (ints [3; 5]) 1 (ints [0; 0; 0; 0]) (ints [7; 9])) = Some [Some 150; Some 250; Some 150; Some 250].
  Proof. vm_compute. reflexivity. Qed.
  Definition ex_os ru recon := os_solveF idF nilF oneF ex_junk ex_g ru (ints [3; 5]) 1 (fun _ => 0) 2 (ints recon) (ints [7; 9]) (ints [1; 1; 1; 1]) (ints [2; 2; 2; 2]).
  Example C121_example_bart : rdF 4 (ex_os bart_ruleF [0; 0; 0; 0]) = Some [Some 150; Some 250; Some 150; Some 250].
  Proof. vm_compute. reflexivity. Qed.
  Example C121_example_osem : rdF 4 (ex_os osem_ruleF [1; 2; 3; 4]) = Some [Some 75; Some 166; Some 225; Some 333].
  Proof. vm_compute. reflexivity. Qed.
  Example C122_example_quadrant : map (fun k => calc_quadrantF (of_int k)) [0; 1; 2; 3; 4; 5; 6; -1; -2; -3; -4; -5; -6] =
    map Some [true; true; false; false; true; false; false; false; true; true; false; true; true].
  Proof. vm_compute. reflexivity. Qed.
  (** -2^-30 *)
  Example C122_example_tiny : calc_quadrantF (fdiv (of_int (-1)) (of_int (2 ^ 30))) = Some true.
  Proof. vm_compute. reflexivity. Qed.
  (** Two angles in two blocks: the order counts. *)
  Definition ex_g2 : geomF := mkGeomF 1 2 2 2 2 (fun _ => of_int 1) (fun p => of_int p).
  Definition ex_sin (x : b32) : b32 := if nez x then of_int 1 else zeroF.
  Definition ex_cos (x : b32) : b32 := if nez x then zeroF else of_int 1.
  Definition ex_os2 nb ib := rdF 4 (os_solveF idF ex_sin ex_cos ex_junk ex_g2 osem_ruleF (ints [3; 5; 1; 8]) nb (ints_ ib) 1 (ints [1; 2; 3; 4]) (ints []) (ints []) (ints [])).
  Example C121_example_blocks : ex_os2 2 [0; 1] = Some (map Some [248; 551; 40; 59]) /\ ex_os2 2 [1; 0] = Some (map Some [258; 451; 41; 48]) /\
    ex_os2 1 [1; 0] = Some (map Some [170; 350; 133; 195]) /\ ex_os2 3 [1; 0] = Some (map Some [258; 451; 41; 48]).
  Proof. vm_compute. auto. Qed.
  (** Three slices in one call; the second is the one above. *)
  Definition ex_g3 : geomF := mkGeomF 3 1 2 2 2 (fun s => of_int (if s =? 1 then 1 else 0)) (fun _ => zeroF).
  Example C123_example : rdF 4 (match os_solveF idF nilF oneF ex_junk ex_g3 osem_ruleF (ints [8; 8; 3; 5; 0; 1]) 1 (fun _ => 0) 2 (ints [9; 9; 9; 9; 1; 2; 3; 4; 6; 0; 6; 6]) (ints []) (ints []) (ints []) with
    | Some r => Some (fun i => r (i + 4)) | None => None end) = Some [Some 75; Some 166; Some 225; Some 333].
  Proof. vm_compute. reflexivity. Qed.
  (** osem from an image that is zero along a ray with a measured value: 3 / 0 is infinite and 0 * infinity is NaN. *)
  Theorem C124_zero_ray_refuted : exists g data recon, sizes_ok g /\ small_ok g /\ inP nn (ndata g) data /\ inP (fun x => is_finite x = true /\ nn x) (nrec g) recon /\
    exists r, os_solveF idF nilF oneF ex_junk g osem_ruleF data 1 (fun _ => 0) 1 recon recon recon recon = Some r /\ r 0 = B754_nan /\ r 2 = B754_nan /\ r 1 <> B754_nan.
  Proof.
    exists ex_g, (ints [3; 5]), (ints [0; 2; 0; 4]). split; [|split; [|split; [|split]]].
    - constructor; cbn; try lia.
    - constructor; try (cbn; lia). intros s _. destruct (of_int_ok 1 ltac:(lia)) as (F & E). split; [exact F|]. change (centerF ex_g s) with (of_int 1). rewrite E. apply Rabs_le. lra.
    - intros i Hi. cbn in Hi. assert (i = 0 \/ i = 1) as [->| ->] by lia; reflexivity.
    - intros i Hi. cbn in Hi. assert (i = 0 \/ i = 1 \/ i = 2 \/ i = 3) as [->|[->|[->| ->]]] by lia; split; reflexivity.
    - match goal with |- exists r, ?x = Some r /\ _ => assert (E : match x with Some r => (r 0, r 2, match r 1 with B754_finite _ _ _ _ => true | _ => false end) | None => (zeroF, zeroF, false) end = (B754_nan, B754_nan, true)) by (vm_compute; reflexivity); destruct x as [r|]; [|discriminate] end.
      injection E as E1 E2 E3. exists r. repeat split; auto. intros N. rewrite N in E3. discriminate.
  Qed.
End Example_.

Print Assumptions C121_project.
Print Assumptions C121_fbp.
Print Assumptions C121_art.
Print Assumptions C121_subsets.
Print Assumptions C121_empty.
Print Assumptions C121_no_blocks_refuted.
Print Assumptions C121_nan_angle_refuted.
Print Assumptions C122_quadrant.
Print Assumptions C122_tiny_refuted.
Print Assumptions C122_ordered.
Print Assumptions C122_ordered_any.
Print Assumptions C123_project.
Print Assumptions C123_fbp.
Print Assumptions C123_art.
Print Assumptions C123_subsets.
Print Assumptions C124_project.
Print Assumptions C124_fbp.
Print Assumptions C124_osem.
Print Assumptions C124_zero.
Print Assumptions C124_untouched.
Print Assumptions C125_project.
Print Assumptions C125_fbp.
Print Assumptions C124_zero_ray_refuted.
