(** C137-C139: vector, project2 and project3 in machine arithmetic. *)
From Verif Require Import Base Order CLoop Model_Ray Proofs_Ray Model_RayF Model_SolverF Spec_SolverF Proofs_FloatB Proofs_RayF Proofs_RayF2 Proofs_RayF3 Proofs_RayF4 Proofs_SolverF Proofs_SolverF2 Proofs_SolverF6.
From Verif Require Import Model_PmlF Model_VectorF Spec_PrepF Proofs_PrepF Proofs_GradF4 Spec_VectorF Proofs_VectorF Proofs_VectorF2 Proofs_VectorF3 Proofs_VectorF4 Proofs_VectorF5 Proofs_VectorF6 Proofs_VectorF7 Proofs_SolverF7 Proofs_VectorF8 Properties_SolverF.
From Coq Require Import Reals Lra.
From Flocq Require Import Core BinarySingleNaN.
Local Open Scope Z_scope.

(** ** C137: no undefined behaviour, whatever numbers the arrays hold *)
Theorem C137_vector fmodf sinf cosf junk g data num_iter recon1 recon2 : libm fmodf sinf cosf -> sizes_ok g -> small_ok g ->
  exists r, vectorF fmodf sinf cosf junk g data num_iter recon1 recon2 = Some r.
Proof. intros L S S'. now apply vector_safe. Qed.
(** [nobj] elements in each component of the object: at least those of the grid of the slices of the data. *)
Theorem C137_project2 fmodf sinf cosf junk g nobj objx objy data : libm fmodf sinf cosf -> sizes_ok g -> nrec g <= nobj ->
  exists r, project2F fmodf sinf cosf junk g nobj objx objy data = Some r.
Proof. intros L S Hn. now apply project2_safe. Qed.
Theorem C137_project3 fmodf sinf cosf junk g nobj objx objy objz axis data : libm fmodf sinf cosf -> sizes_ok g -> axis = 0 \/ dyF g = gxF g /\ dyF g = gyF g -> nrec g <= nobj ->
  exists r, project3F fmodf sinf cosf junk g nobj objx objy objz axis data = Some r.
Proof. intros L S Ha Hn. now apply project3_safe. Qed.

(** ** C138: one pass of vector.  To each component of each pixel is added the sum of the corrections of the rays in the order of
    the angles and detector pixels, times their direction, over the sum of the lengths; all from the field before the pass and
    from the data and the centre of the slice. *)
Theorem C138_vector fmodf sinf cosf junk g data recon1 recon2 r1 r2 s : 1 <= gxF g <= 2 ^ 15 -> 1 <= gyF g <= 2 ^ 15 -> 0 <= s < dyF g ->
  vectorF fmodf sinf cosf junk g data 1 recon1 recon2 = Some (r1, r2) ->
  exists rays : Z -> Z -> rayV,
    (forall p d, 0 <= p < dtF g -> 0 <= d < dxF g -> ray2F fmodf sinf cosf junk g (gxF g + gyF g) (centerF g s) p d = Some (rays p d)) /\
    forall x y, 0 <= x < gxF g -> 0 <= y < gyF g ->
      let at_ (a : arr b32) x y := a ((s * gxF g + x) * gyF g + y) in
      let all := list_prod (zrange 0 (dtF g)) (zrange 0 (dxF g)) in
      let total := sumF (flat_map (fun '(p, d) => lengthsV x y (rays p d)) all) in
      let corrections v := sumF (flat_map (fun '(p, d) => correctionsV (at_ recon1) (at_ recon2) x y (data ((s * dtF g + p) * dxF g + d)) (v (snd (rays p d))) (rays p d)) all) in
      at_ r1 x y = fadd (at_ recon1 x y) (fdiv (corrections fst) total) /\
      at_ r2 x y = fadd (at_ recon2 x y) (fdiv (corrections snd) total).
Proof.
  intros Hx Hy Hs E. destruct (pass_value fmodf sinf cosf junk g data Hx Hy s _ _ _ _ Hs E) as (R & W). exists (fun p d => ray0 fmodf sinf cosf junk g (centerF g s) (p, d)). split.
  - intros p d Hp Hd. destruct (R p d Hp Hd) as (r & Er). unfold ray0. cbn [fst snd]. now rewrite Er.
  - intros x y H1 H2. cbv zeta. destruct (W x y H1 H2) as (W1 & W2). assert (J : forall x y, (s * gxF g + x) * gyF g + y = y + x * gyF g + s * gxF g * gyF g) by (intros; ring).
    rewrite J, W1, W2. unfold newV.
    assert (Q : forall f h : Z * Z -> list b32, (forall p d, f (p, d) = h (p, d)) -> forall l, flat_map f l = flat_map h l) by (intros f h Hf l; apply flat_map_ext; intros (p & d); apply Hf).
    assert (Sh : forall u v w b ry, correctionsV (fun x y => recon1 ((s * gxF g + x) * gyF g + y)) (fun x y => recon2 ((s * gxF g + x) * gyF g + y)) u v w b ry = correctionsV (fun x y => recon1 (y + x * gyF g + s * gxF g * gyF g)) (fun x y => recon2 (y + x * gyF g + s * gxF g * gyF g)) u v w b ry).
    { intros u v w b ry. unfold correctionsV, shareV. replace (seenV (B754_zero false) (fun x y => recon1 ((s * gxF g + x) * gyF g + y)) (fun x y => recon2 ((s * gxF g + x) * gyF g + y)) ry) with (seenV (B754_zero false) (fun x y => recon1 (y + x * gyF g + s * gxF g * gyF g)) (fun x y => recon2 (y + x * gyF g + s * gxF g * gyF g)) ry); auto.
      unfold seenV. f_equal. apply map_ext. intros ((x0 & y0) & w0). now rewrite J. }
    split; (f_equal; f_equal; f_equal; apply Q; intros p d; cbn [fst snd]; rewrite ?Sh; auto; replace ((s * dtF g + p) * dxF g + d) with (d + p * dxF g + s * dtF g * dxF g) by ring; reflexivity).
Qed.
(** More passes: from the result of the ones before. *)
Theorem C138_passes fmodf sinf cosf junk g data n m recon1 recon2 : 0 <= n -> 0 <= m ->
  vectorF fmodf sinf cosf junk g data (n + m) recon1 recon2 = match vectorF fmodf sinf cosf junk g data n recon1 recon2 with Some (a, b) => vectorF fmodf sinf cosf junk g data m a b | None => None end.
Proof. intros Hn Hm. rewrite passes by auto. now destruct (vectorF _ _ _ _ _ _ n _ _) as [(a & b)|]. Qed.
(** The slices do not influence each other, whatever the number of passes. *)
Theorem C138_slices fmodf sinf cosf junk g data data' n recon1 recon2 recon1' recon2' r1 r2 r1' r2' s : 1 <= gxF g <= 2 ^ 15 -> 1 <= gyF g <= 2 ^ 15 -> 0 <= n -> 0 <= s < dyF g ->
  let agree (a b : arr b32) := forall x y, 0 <= x < gxF g -> 0 <= y < gyF g -> let j := (s * gxF g + x) * gyF g + y in a j = b j in
  (forall p d, 0 <= p < dtF g -> 0 <= d < dxF g -> let k := (s * dtF g + p) * dxF g + d in data k = data' k) -> agree recon1 recon1' -> agree recon2 recon2' ->
  vectorF fmodf sinf cosf junk g data n recon1 recon2 = Some (r1, r2) -> vectorF fmodf sinf cosf junk g data' n recon1' recon2' = Some (r1', r2') -> agree r1 r1' /\ agree r2 r2'.
Proof.
  intros Hx Hy Hn Hs agree Hd A1 A2 E1 E2. assert (J : forall x y, y + x * gyF g + s * gxF g * gyF g = (s * gxF g + x) * gyF g + y) by (intros; ring). replace n with (Z.of_nat (Z.to_nat n)) in E1, E2 by lia.
  destruct (slices_apart fmodf sinf cosf junk g Hx Hy data data' s Hs) with (n := Z.to_nat n) (q1 := recon1) (q2 := recon2) (r1 := recon1') (r2 := recon2') (q1' := r1) (q2' := r2) (r1' := r1') (r2' := r2') as (S1 & S2); auto.
  - intros p d Hp Hd'. replace (d + p * dxF g + s * dtF g * dxF g) with ((s * dtF g + p) * dxF g + d) by ring. now apply Hd.
  - intros x y H1 H2. rewrite J. now apply A1.
  - intros x y H1 H2. rewrite J. now apply A2.
  - split; intros x y H1 H2 j; unfold j; rewrite <- J; auto.
Qed.
(** A pixel that no ray meets becomes NaN in both components (0 / 0); sirt and mlem leave such a pixel (C124). *)
Theorem C138_unseen_refuted fmodf sinf cosf junk g data n recon1 recon2 r1 r2 s x y : 1 <= gxF g <= 2 ^ 15 -> 1 <= gyF g <= 2 ^ 15 -> 1 <= n -> 0 <= s < dyF g -> 0 <= x < gxF g -> 0 <= y < gyF g ->
  vectorF fmodf sinf cosf junk g data n recon1 recon2 = Some (r1, r2) ->
  (forall p d r, 0 <= p < dtF g -> 0 <= d < dxF g -> ray2F fmodf sinf cosf junk g (gxF g + gyF g) (centerF g s) p d = Some r -> lengthsV x y r = []) ->
  let j := (s * gxF g + x) * gyF g + y in r1 j = B754_nan /\ r2 j = B754_nan.
Proof.
  intros Hx Hy Hn Hs H1 H2 E U j. replace j with (y + x * gyF g + s * gxF g * gyF g) by (unfold j; ring). eapply vector_nan; eauto.
Qed.

(** ** C139: project2 and project3 add to every element of the data what the field of its slice (plane) gives on the ray, and nothing
    else; the rays are those of project. *)
Theorem C139_project2 fmodf sinf cosf junk g nobj objx objy data r s p d : 1 <= gxF g <= 2 ^ 15 -> 1 <= gyF g <= 2 ^ 15 ->
  project2F fmodf sinf cosf junk g nobj objx objy data = Some r -> 0 <= s < dyF g -> 0 <= p < dtF g -> 0 <= d < dxF g ->
  exists ry, ray2F fmodf sinf cosf junk g (gxF g + gyF g + 2) (centerF g 0) p d = Some ry /\ let k := (s * dtF g + p) * dxF g + d in
    r k = seenV (data k) (fun x y => objx ((s * gxF g + x) * gyF g + y)) (fun x y => objy ((s * gxF g + x) * gyF g + y)) ry.
Proof.
  intros Hx Hy E Hs Hp Hd. destruct (project2_value fmodf sinf cosf junk g Hx Hy _ _ _ _ _ s p d E Hs Hp Hd) as (ry & Er & V). exists ry. split; auto. intros k. replace k with (d + p * dxF g + s * dtF g * dxF g) by (unfold k; ring). rewrite V.
  unfold seenV. f_equal. apply map_ext. intros ((x & y) & w). now replace ((s * gxF g + x) * gyF g + y) with (y + x * gyF g + s * gxF g * gyF g) by ring.
Qed.
Theorem C139_project3 fmodf sinf cosf junk g nobj objx objy objz axis data r s p d : 1 <= gxF g <= 2 ^ 15 -> 1 <= gyF g <= 2 ^ 15 -> axis = 0 \/ axis = 1 \/ axis = 2 ->
  project3F fmodf sinf cosf junk g nobj objx objy objz axis data = Some r -> 0 <= s < dyF g -> 0 <= p < dtF g -> 0 <= d < dxF g ->
  exists ry, ray2F fmodf sinf cosf junk g (gxF g + gyF g + 2) (centerF g 0) p d = Some ry /\
    let k := (s * dtF g + p) * dxF g + d in let at_ (a : arr b32) x y := a (voxelV (gxF g) (gyF g) axis s x y) in
    r k = seenV (data k) (at_ (if axis =? 1 then objy else objx)) (at_ (if axis =? 0 then objy else objz)) ry.
Proof.
  intros Hx Hy Ax E Hs Hp Hd. destruct (project3_value fmodf sinf cosf junk g Hx Hy _ _ _ _ _ _ _ s p d Ax E Hs Hp Hd) as (ry & Er & V). exists ry. split; auto. intros k. replace k with (d + p * dxF g + s * dtF g * dxF g) by (unfold k; ring). exact V.
Qed.
(** Another axis: the data stay as they are, without an error. *)
Theorem C139_no_axis fmodf sinf cosf junk g nobj objx objy objz axis data r : axis < 0 \/ 2 < axis ->
  project3F fmodf sinf cosf junk g nobj objx objy objz axis data = Some r -> forall k, r k = data k.
Proof.
  intros Ax E k. unfold project3F in E. destruct (emptyF g); [apply some_eq in E; now subst|]. ob E. eapply (ofor_inv (fun t : arr b32 => t k = data k)); [exact E|auto|]. intros p t t' _ I F. eapply (ofor_inv (fun t : arr b32 => t k = data k)); [exact F|auto|]. intros d u u' _ I' F'. ob F'.
  eapply (ofor_inv (fun t : arr b32 => t k = data k)); [exact F'|auto|]. intros s w w' _ I2 F2. unfold simdata3F in F2. replace (axis =? 0) with false in F2 by lia. replace (axis =? 1) with false in F2 by lia. replace (axis =? 2) with false in F2 by lia. apply some_eq in F2. now subst.
Qed.
Theorem C139_rays fmodf sinf cosf junk g p d : 1 <= gxF g <= 2 ^ 15 -> 1 <= gyF g <= 2 ^ 15 ->
  match ray2F fmodf sinf cosf junk g (gxF g + gyF g + 2) (centerF g 0) p d with
  | Some (segs, _) => project_segs fmodf sinf cosf junk g (centerF g 0) p d = Some (map (fun '(x, y, w) => (y + x * gyF g, w)) segs) /\ (forall x y w, In (x, y, w) segs -> 0 <= x < gxF g /\ 0 <= y < gyF g)
  | None => project_segs fmodf sinf cosf junk g (centerF g 0) p d = None end.
Proof.
  intros Hx Hy. pose proof (rays_same fmodf sinf cosf junk g Hx Hy p d) as R. destruct (ray2F _ _ _ _ _ _ _ _ _) as [(segs & v)|]; auto.
Qed.

(** The direction of a ray is that from the detector to the source, with length one, up to rounding. *)
Theorem C139_direction xs ys xd yd : is_finite xs = true -> is_finite ys = true -> is_finite xd = true -> is_finite yd = true ->
  (Rabs (B2R xs) <= 1048576 -> Rabs (B2R ys) <= 1048576 -> Rabs (B2R xd) <= 1048576 -> Rabs (B2R yd) <= 1048576 ->
  let X := B2R xs - B2R xd in let Y := B2R ys - B2R yd in let D := sqrt (X * X + Y * Y) in 1 <= D ->
  let v := directionF (mkLineF xs ys xd yd) in
  is_finite (fst v) = true /\ is_finite (snd v) = true /\ Rabs (B2R (fst v) - X / D) <= 5 / 2 ^ 24 /\ Rabs (B2R (snd v) - Y / D) <= 5 / 2 ^ 24)%R.
Proof.
  intros F1 F2 F3 F4 B1 B2 B3 B4 X Y D HD v. replace (5 / 2 ^ 24)%R with (5 / 16777216)%R by (cbn; lra). now apply direction_near.
Qed.
Theorem C139_ray_direction fmodf sinf cosf junk g buf center p d segs v : ray2F fmodf sinf cosf junk g buf center p d = Some (segs, v) ->
  v = directionF (project_lineF g center (sinf (fmodf (thetaF g p))) (cosf (fmodf (thetaF g p))) d).
Proof.
  unfold ray2F. intros E. ob E. apply load_some in E0. destruct E0 as (_ & ->). ob E. destruct junk as ((za & zb) & zc). ob E. apply some_eq in E. apply pair_eq in E. destruct E as (_ & E). exact E.
Qed.

(** Rounding error of project2: n segments, at most gx + gy + 1. *)
Theorem C139_error fmodf sinf cosf junk g nobj objx objy data r s p d : 1 <= gxF g <= 2 ^ 15 -> 1 <= gyF g <= 2 ^ 15 ->
  project2F fmodf sinf cosf junk g nobj objx objy data = Some r -> 0 <= s < dyF g -> 0 <= p < dtF g -> 0 <= d < dxF g ->
  exists ry, ray2F fmodf sinf cosf junk g (gxF g + gyF g + 2) (centerF g 0) p d = Some ry /\ Z.of_nat (length (fst ry)) <= gxF g + gyF g + 1 /\
    let k := (s * dtF g + p) * dxF g + d in let f1 x y := objx ((s * gxF g + x) * gyF g + y) in let f2 x y := objy ((s * gxF g + x) * gyF g + y) in
    let vx := fst (snd ry) in let vy := snd (snd ry) in let n := INR (length (fst ry)) in
    (is_finite (data k) = true -> is_finite vx = true -> is_finite vy = true ->
    (forall x y, (0 <= x < gxF g)%Z -> (0 <= y < gyF g)%Z -> is_finite (f1 x y) = true /\ is_finite (f2 x y) = true /\ Rabs (B2R (f1 x y) * B2R vx) + Rabs (B2R (f2 x y) * B2R vy) <= 2 ^ 100) ->
    Rabs (B2R (data k)) + 2 * sizeV f1 f2 ry + lengthV ry <= 2 ^ 120 ->
    is_finite (r k) = true /\ Rabs (B2R (r k) - (B2R (data k) + exactV f1 f2 ry)) <= (n + 3) / 2 ^ 23 * (Rabs (B2R (data k)) + sizeV f1 f2 ry) + (lengthV ry + n) / 2 ^ 147)%R.
Proof.
  intros Hx Hy E Hs Hp Hd. destruct (C139_project2 fmodf sinf cosf junk g nobj objx objy data r s p d Hx Hy E Hs Hp Hd) as ((segs & (vx & vy)) & Er & W). pose proof (C139_rays fmodf sinf cosf junk g p d Hx Hy) as R. rewrite Er in R. destruct R as (R & So).
  pose proof (psegs_len fmodf sinf cosf junk g (centerF g 0) p d _ Hx Hy R) as Hl. rewrite map_length in Hl. eexists. split; [exact Er|]. cbn [fst snd] in *. split; [exact Hl|]. cbv zeta in *. intros Fd Fx Fy Hf Hc. rewrite W. apply seen_near; auto; [lia|].
  intros x y w Hw. destruct (So x y w Hw) as (H1 & H2). destruct (Hf x y H1 H2) as (A1 & A2 & A3). repeat split; auto; [|rewrite <- (bpow_pow 100) in A3; exact A3].
  apply (psegs_fin fmodf sinf cosf junk g (centerF g 0) p d _ (y + x * gyF g) w Hx Hy R). apply in_map_iff. exists (x, y, w). auto.
Qed.

(** One slice, one angle of zero, two detector pixels, a grid of 2 x 2: the rays go along the first index. *)
Section Example_.
  Definition fst_ {A B} (x : option (A * B)) : option A := match x with Some (a, _) => Some a | None => None end.
  Definition snd_ {A B} (x : option (A * B)) : option B := match x with Some (_, b) => Some b | None => None end.
  Example C139_example_direction : let v := directionF (mkLineF (of_int 3) (of_int (-3)) zeroF (of_int 1)) in (to_int (fmul (of_int 100) (fst v)), to_int (fmul (of_int 100) (snd v))) = (Some 60, Some (-80)).
  Proof. vm_compute. reflexivity. Qed.
  Example C137_example_project2 : rdF 2 (project2F idF nilF oneF ex_junk ex_g 4 (ints [1; 2; 3; 4]) (ints [10; 20; 30; 40]) (ints [0; 5])) = Some [Some (-400); Some (-100)].
  Proof. vm_compute. reflexivity. Qed.
  Example C138_example_vector : let r := vectorF idF nilF oneF ex_junk ex_g (ints [3; 5]) 1 (ints [1; 0; 0; 0]) (ints [7; 0; 0; 0]) in
    rdF 4 (fst_ r) = Some [Some (-100); Some (-250); Some (-200); Some (-250)] /\ rdF 4 (snd_ r) = Some [Some 700; Some 0; Some 0; Some 0].
  Proof. vm_compute. auto. Qed.
  (** One detector pixel with its centre at zero: one column of the grid is not met. *)
  Definition ex_g4 : geomF := mkGeomF 1 1 1 2 2 (fun _ => zeroF) (fun _ => zeroF).
  Example C138_example_nan : match vectorF idF nilF oneF ex_junk ex_g4 (ints [3]) 1 (ints [1; 2; 3; 4]) (ints [5; 6; 7; 8]) with
    | Some (r1, r2) => (map is_nan (map r1 [0; 1; 2; 3]), map is_nan (map r2 [0; 1; 2; 3])) | None => ([], []) end = ([true; false; true; false], [true; false; true; false]).
  Proof. vm_compute. reflexivity. Qed.
  (** The planes of a cube of 2 x 2 x 2 along each axis *)
  Definition ex_g5 : geomF := mkGeomF 2 1 2 2 2 (fun _ => of_int 1) (fun _ => zeroF).
  Definition ex_p3 axis := rdF 4 (project3F idF nilF oneF ex_junk ex_g5 8 (ints [1; 2; 3; 4; 5; 6; 7; 8]) (ints [10; 20; 30; 40; 50; 60; 70; 80]) (ints [0; 0; 0; 0; 0; 0; 0; 0]) axis (ints [0; 0; 0; 0])).
  Example C139_example_project3 : ex_p3 0 = Some (map Some [-400; -600; -1200; -1400]) /\ ex_p3 1 = Some (map Some [-4000; -12000; -6000; -14000]) /\ ex_p3 2 = Some (map Some [-300; -1100; -700; -1500]) /\ ex_p3 3 = Some (map Some [0; 0; 0; 0]).
  Proof. vm_compute. auto. Qed.
  (** The object is no cube: along axis 1 project3 reads beyond its end.  sim.project.project3 passes any object. *)
  Definition ex_g6 : geomF := mkGeomF 1 1 2 1 2 (fun _ => of_int 1) (fun _ => zeroF).
  Theorem C137_project3_refuted : exists g objx objy objz data, sizes_ok g /\ small_ok g /\ project3F idF nilF oneF ex_junk g (nrec g) objx objy objz 0 data <> None /\ project3F idF nilF oneF ex_junk g (nrec g) objx objy objz 1 data = None.
  Proof.
    exists ex_g6, (ints [1; 2]), (ints [1; 2]), (ints [1; 2]), (ints [0; 0]). split; [|split; [|split]].
    - constructor; cbn; try lia.
    - constructor; try (cbn; lia). intros s _. destruct (of_int_ok 1 ltac:(lia)) as (F & E). split; [exact F|]. change (centerF ex_g6 s) with (of_int 1). rewrite E. apply Rabs_le. lra.
    - match goal with |- ?x <> None => assert (E : match x with Some _ => true | None => false end = true) by (vm_compute; reflexivity); destruct x; [discriminate|discriminate E] end.
    - vm_compute. reflexivity.
  Qed.
End Example_.

Print Assumptions C137_vector.
Print Assumptions C137_project2.
Print Assumptions C137_project3.
Print Assumptions C137_project3_refuted.
Print Assumptions C138_vector.
Print Assumptions C138_passes.
Print Assumptions C138_unseen_refuted.
Print Assumptions C139_project2.
Print Assumptions C139_project3.
Print Assumptions C139_no_axis.
Print Assumptions C139_rays.
Print Assumptions C139_direction.
Print Assumptions C139_ray_direction.
Print Assumptions C138_slices.
Print Assumptions C139_error.
