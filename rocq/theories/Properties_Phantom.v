(** Phantoms (misc/phantom.py). *)
From Verif Require Import Base Model_Float Model_Prep Model_Solver Model_Phantom.
From Coq Require Import Reals Lra Psatz SpecFloat.
Local Open Scope R_scope.

(** ** Vocabulary: rotations about the axes, solid ellipsoids *)
Definition rot_z (t : R) (v : point) : point := let '(x, y, z) := v in (cos t * x + sin t * y, cos t * y - sin t * x, z).
Definition rot_x (t : R) (v : point) : point := let '(x, y, z) := v in (x, cos t * y + sin t * z, cos t * z - sin t * y).
Definition degrees (d : R) : R := PI * d / 180.
(** The ball of radius one stretched by a, b, c, moved by (x0, y0, z0) and turned by the Euler angles (z-x-z). *)
Definition place {V} (p : ellipsoid V) (u : point) : point :=
  let '(u, v, w) := u in
  rot_z (- degrees (phi_ p)) (rot_x (- degrees (theta_ p)) (rot_z (- degrees (psi_ p)) (x0_ p + a_ p * u, y0_ p + b_ p * v, z0_ p + c_ p * w))).
Definition norm2 (v : point) : R := let '(x, y, z) := v in x * x + y * y + z * z.
Definition solid {V} (p : ellipsoid V) (q : point) : Prop := exists u, norm2 u <= 1 /\ q = place p u.

(** ** Lemmas *)
Lemma rot_z_inv t v : rot_z (- t) (rot_z t v) = v.
Proof.
  destruct v as ((x, y), z). unfold rot_z. rewrite cos_neg, sin_neg. pose proof (sin2_cos2 t) as H. unfold Rsqr in H.
  f_equal. f_equal.
  - transitivity ((sin t * sin t + cos t * cos t) * x); [ring|rewrite H; ring].
  - transitivity ((sin t * sin t + cos t * cos t) * y); [ring|rewrite H; ring].
Qed.
Lemma rot_x_inv t v : rot_x (- t) (rot_x t v) = v.
Proof.
  destruct v as ((x, y), z). unfold rot_x. rewrite cos_neg, sin_neg. pose proof (sin2_cos2 t) as H. unfold Rsqr in H.
  f_equal. f_equal.
  - transitivity ((sin t * sin t + cos t * cos t) * y); [ring|rewrite H; ring].
  - transitivity ((sin t * sin t + cos t * cos t) * z); [ring|rewrite H; ring].
Qed.
Lemma rot_z_inv' t v : rot_z t (rot_z (- t) v) = v.
Proof. rewrite <- (Ropp_involutive t) at 1. apply rot_z_inv. Qed.
Lemma rot_x_inv' t v : rot_x t (rot_x (- t) v) = v.
Proof. rewrite <- (Ropp_involutive t) at 1. apply rot_x_inv. Qed.
Lemma rot_z_norm t v : norm2 (rot_z t v) = norm2 v.
Proof.
  destruct v as ((x, y), z). unfold rot_z, norm2. pose proof (sin2_cos2 t) as H. unfold Rsqr in H.
  transitivity ((sin t * sin t + cos t * cos t) * (x * x + y * y) + z * z); [ring|rewrite H; ring].
Qed.
Lemma rot_x_norm t v : norm2 (rot_x t v) = norm2 v.
Proof.
  destruct v as ((x, y), z). unfold rot_x, norm2. pose proof (sin2_cos2 t) as H. unfold Rsqr in H.
  transitivity (x * x + (sin t * sin t + cos t * cos t) * (y * y + z * z)); [ring|rewrite H; ring].
Qed.
Lemma rotate_euler {V} (p : ellipsoid V) v : rotate p v = rot_z (degrees (psi_ p)) (rot_x (degrees (theta_ p)) (rot_z (degrees (phi_ p)) v)).
Proof.
  destruct v as ((x, y), z). unfold rotate, rot_z, rot_x.
  assert (E : forall d, radians d = degrees d) by (intros d; unfold radians, degrees; field). rewrite !E.
  f_equal; [f_equal|]; ring.
Qed.
Lemma rotate_place {V} (p : ellipsoid V) q w : rotate p q = w <-> q = rot_z (- degrees (phi_ p)) (rot_x (- degrees (theta_ p)) (rot_z (- degrees (psi_ p)) w)).
Proof.
  rewrite rotate_euler. split.
  - intros <-. now rewrite rot_z_inv, rot_x_inv, rot_z_inv.
  - intros ->. now rewrite rot_z_inv', rot_x_inv', rot_z_inv'.
Qed.
Lemma rotate_norm {V} (p : ellipsoid V) q : norm2 (rotate p q) = norm2 q.
Proof. now rewrite rotate_euler, rot_z_norm, rot_x_norm, rot_z_norm. Qed.
Lemma inside_solid {V} (p : ellipsoid V) q : a_ p <> 0 -> b_ p <> 0 -> c_ p <> 0 -> inside p q = true <-> solid p q.
Proof.
  intros Ha Hb Hc. unfold inside, transform. destruct (rotate p q) as ((x, y), z) eqn:E. unfold ndiv.
  destruct (Req_EM_T (a_ p) 0) as [?|_]; [easy|]. destruct (Req_EM_T (b_ p) 0) as [?|_]; [easy|]. destruct (Req_EM_T (c_ p) 0) as [?|_]; [easy|].
  unfold nmul, nadd. destruct (Rle_dec _ _) as [L|L]; split; try easy; intros H.
  - exists ((x - x0_ p) / a_ p, (y - y0_ p) / b_ p, (z - z0_ p) / c_ p). split; [exact L|].
    apply (rotate_place p). rewrite E. f_equal; [f_equal|]; field; auto.
  - exfalso. apply L. destruct H as (((u, v), w) & N & P). apply (rotate_place p) in P. rewrite E in P. injection P as -> -> ->.
    unfold norm2 in N. replace ((x0_ p + a_ p * u - x0_ p) / a_ p) with u by (field; auto).
    replace ((y0_ p + b_ p * v - y0_ p) / b_ p) with v by (field; auto). replace ((z0_ p + c_ p * w - z0_ p) / c_ p) with w by (field; auto). exact N.
Qed.
Lemma fold_sum nx ny nz ps : forall out i j k, fold_left (add_ellipsoid Rplus nx ny nz) ps out i j k =
  out i j k + rsum (map A_ (filter (fun p => inside p (coord nx i, coord ny j, coord nz k)) ps)).
Proof.
  induction ps as [|p ps IH]; intros out i j k; cbn [fold_left filter map]; [cbn; ring|]. rewrite IH. unfold add_ellipsoid.
  destruct (inside p _); cbn [map]; [cbn [rsum fold_right]; fold (rsum (map A_ (filter (fun p => inside p (coord nx i, coord ny j, coord nz k)) ps))); ring|reflexivity].
Qed.

(** ** C37 *)
(** Every voxel is the sum of the intensities of the ellipsoids that contain it. *)
Theorem C37_sum : forall nx ny nz (ps : list (ellipsoid R)), (0 <= nx)%Z -> (0 <= ny)%Z -> (0 <= nz)%Z ->
  Forall (fun p => a_ p <> 0 /\ b_ p <> 0 /\ c_ p <> 0) ps ->
  exists v, phantom 0 Rplus [nx; ny; nz] ps = Ok v /\
  forall i j k (contains : list bool), Forall2 (fun p b => b = true <-> solid p (coord nx i, coord ny j, coord nz k)) ps contains ->
    v i j k = rsum (map (fun '(p, b) => if (b : bool) then A_ p else 0) (combine ps contains)).
Proof.
  intros nx ny nz ps Hx Hy Hz HF. exists (fold_left (add_ellipsoid Rplus nx ny nz) ps (fun _ _ _ => 0)). split.
  - unfold phantom. cbn [existsb]. destruct (Z.ltb_spec nx 0); [lia|]. destruct (Z.ltb_spec ny 0); [lia|]. destruct (Z.ltb_spec nz 0); [lia|]. reflexivity.
  - intros i j k fl H. rewrite fold_sum, Rplus_0_l. induction H as [|p b ps fl Hb H IH]; [reflexivity|].
    inversion HF as [|? ? (Ha & Hb' & Hc) HF']; subst. specialize (IH HF'). cbn [combine map filter].
    assert (E : b = inside p (coord nx i, coord ny j, coord nz k)).
    { apply eq_true_iff_eq. rewrite Hb. symmetry. now apply inside_solid. }
    rewrite <- E. change (rsum ((if b then A_ p else 0) :: map (fun '(p, b) => if (b : bool) then A_ p else 0) (combine ps fl)))
      with ((if b then A_ p else 0) + rsum (map (fun '(p, b) => if (b : bool) then A_ p else 0) (combine ps fl))).
    rewrite <- IH. destruct b; cbn [map]; [reflexivity|ring].
Qed.
(** An ellipsoid with a half axis of length zero is empty. *)
Theorem C37_flat : forall (p : ellipsoid R) q, a_ p = 0 \/ b_ p = 0 \/ c_ p = 0 -> inside p q = false.
Proof.
  intros p q H. unfold inside, transform. destruct (rotate p q) as ((x, y), z). unfold ndiv.
  destruct (Req_EM_T (a_ p) 0); [reflexivity|]. destruct (Req_EM_T (b_ p) 0); [reflexivity|]. destruct (Req_EM_T (c_ p) 0); [reflexivity|]. tauto.
Qed.
(** The order of the ellipsoids does not matter, and a list can be split. *)
Definition same_volume {V} (r s : result (volume (V := V))) : Prop :=
  match r, s with inr v, inr w => forall i j k, v i j k = w i j k | inl e, inl f => e = f | _, _ => False end.
Lemma rsum_perm l l' : Permutation l l' -> rsum l = rsum l'.
Proof. induction 1; cbn [rsum fold_right] in *; unfold rsum in *; try lra. Qed.
Lemma filter_perm {A} (f : A -> bool) l l' : Permutation l l' -> Permutation (filter f l) (filter f l').
Proof.
  induction 1; cbn; auto.
  - destruct (f x); auto.
  - destruct (f x), (f y); auto. apply perm_swap.
  - now transitivity (filter f l').
Qed.
Lemma phantom_cases {V} (zero : V) plus size ps :
  (exists nx ny nz, size = [nx; ny; nz] /\ (0 <= nx /\ 0 <= ny /\ 0 <= nz)%Z /\ phantom zero plus size ps = Ok (fold_left (add_ellipsoid plus nx ny nz) ps (fun _ _ _ => zero)))
  \/ (exists e, forall qs, (qs = [] <-> ps = []) -> phantom zero plus size qs = Raise e)
  \/ ps = [] /\ phantom zero plus size [] = Ok (fun _ _ _ => zero).
Proof.
  unfold phantom. destruct (existsb _ size) eqn:E; [right; left; eauto|].
  destruct size as [|nx [|ny [|nz [|n4 size]]]]; try (right; left; eexists; reflexivity).
  - left. exists nx, ny, nz. cbn in E. repeat split; try lia.
  - destruct ps as [|p ps]; [right; right; auto|]. right; left. exists ValueError. intros [|q qs] H; [|reflexivity]. destruct H as (H & _). now discriminate H.
Qed.
Theorem C37_order : forall size (ps qs : list (ellipsoid R)), Permutation ps qs -> same_volume (phantom 0 Rplus size ps) (phantom 0 Rplus size qs).
Proof.
  intros size ps qs P. destruct (phantom_cases 0 Rplus size ps) as [(nx & ny & nz & -> & H & E)|[(e & E)|(E1 & E2)]].
  - assert (E' : phantom 0 Rplus [nx; ny; nz] qs = Ok (fold_left (add_ellipsoid Rplus nx ny nz) qs (fun _ _ _ => 0))).
    { unfold phantom in *. cbn [existsb] in *. destruct (Z.ltb_spec nx 0); [lia|]. destruct (Z.ltb_spec ny 0); [lia|]. destruct (Z.ltb_spec nz 0); [lia|]. reflexivity. }
    rewrite E, E'. cbn. intros i j k. rewrite !fold_sum. f_equal. apply rsum_perm, Permutation_map, filter_perm, P.
  - rewrite (E ps), (E qs); [reflexivity| |reflexivity]. split; intros ->; [now apply Permutation_nil, Permutation_sym|now apply Permutation_nil].
  - subst ps. apply Permutation_nil in P. subst qs. rewrite E2. cbn. auto.
Qed.
Theorem C37_concat : forall nx ny nz (ps qs : list (ellipsoid R)) v w, phantom 0 Rplus [nx; ny; nz] ps = Ok v -> phantom 0 Rplus [nx; ny; nz] qs = Ok w ->
  exists u, phantom 0 Rplus [nx; ny; nz] (ps ++ qs) = Ok u /\ forall i j k, u i j k = v i j k + w i j k.
Proof.
  intros nx ny nz ps qs v w. unfold phantom. destruct (existsb _ _); [discriminate|]. unfold Ok. intros H1 H2. injection H1 as <-. injection H2 as <-.
  eexists. split; [reflexivity|]. intros i j k. rewrite fold_left_app, !fold_sum. ring.
Qed.
(** The empty list gives zeros; sizes have exactly three axes, none negative, as soon as there is an ellipsoid. *)
Theorem C37_sizes : forall {V} (zero : V) plus size ps,
  (forall v, phantom zero plus size ps = Ok v -> (forall n, In n size -> 0 <= n)%Z /\ (3 <= length size)%nat /\ (ps <> [] -> length size = 3%nat) /\
     (ps = [] -> forall i j k, v i j k = zero))
  /\ ((forall n, In n size -> 0 <= n)%Z -> length size = 3%nat -> exists v, phantom zero plus size ps = Ok v).
Proof.
  intros V zero plus size ps. unfold phantom. split.
  - intros v. destruct (existsb _ size) eqn:E; [discriminate|]. intros H. split.
    + intros n Hn. destruct (Z.ltb_spec n 0); [|lia]. assert (existsb (fun n => n <? 0)%Z size = true); [|congruence]. apply existsb_exists. exists n. split; auto. lia.
    + destruct size as [|nx [|ny [|nz [|n4 size]]]]; try discriminate H; cbn; (split; [lia|]).
      * unfold Ok in H. injection H as <-. split; auto. now intros ->.
      * destruct ps; [|discriminate]. unfold Ok in H. injection H as <-. split; [congruence|auto].
  - intros H L. destruct (existsb _ size) eqn:E.
    + apply existsb_exists in E. destruct E as (n & Hn & Hn'). apply H in Hn. lia.
    + destruct size as [|nx [|ny [|nz [|n4 size]]]]; try discriminate L. eauto.
Qed.
(** Finding: with the float32 volume of the code the order of the ellipsoids does matter. *)
Definition two24 : f32 := S754_finite false 8388608 1.
Theorem C37_float_order_refuted : exists (ps qs : list (ellipsoid f32)) v w, Permutation ps qs /\
  phantom fzero fadd [1%Z; 1%Z; 1%Z] ps = Ok v /\ phantom fzero fadd [1%Z; 1%Z; 1%Z] qs = Ok w /\ v 0%Z 0%Z 0%Z <> w 0%Z 0%Z 0%Z.
Proof.
  set (e := fun A => Ellipsoid f32 A 2 2 2 0 0 0 0 0 0).
  assert (I : forall A, inside (e A) (coord 1 0, coord 1 0, coord 1 0) = true).
  { intros A. apply inside_solid; cbn; try lra. exists (- (1 / 2), - (1 / 2), - (1 / 2)). split; [unfold norm2; lra|].
    unfold place, degrees, rot_z, rot_x; cbn [phi_ theta_ psi_ x0_ y0_ z0_ a_ b_ c_ e]. replace (- (PI * 0 / 180)) with 0 by field. rewrite cos_0, sin_0.
    unfold coord. cbn [Z.eqb Pos.eqb]. f_equal; [f_equal|]; lra. }
  set (one := S754_finite false 8388608 (-23)). set (m := S754_finite true 8388608 1).
  exists [e one; e two24; e m], [e two24; e m; e one]. eexists. eexists. split; [|split; [reflexivity|split; [reflexivity|]]].
  - apply perm_trans with [e two24; e one; e m]; [apply perm_swap|]. apply perm_skip, perm_swap.
  - cbn [fold_left]. unfold add_ellipsoid. rewrite !I. vm_compute. discriminate.
Qed.
(** The coordinates of an axis are equally spaced from -1 to 1. *)
Theorem C37_grid : forall n i, (1 < n)%Z -> coord n 0 = -1 /\ coord n (n - 1) = 1 /\ coord n (i + 1) - coord n i = 2 / IZR (n - 1) /\ coord n (n - 1 - i) = - coord n i.
Proof.
  intros n i Hn. unfold coord. destruct (Z.eqb_spec n 1); [lia|]. assert (IZR (n - 1) <> 0) by (apply not_0_IZR; lia).
  repeat split; rewrite ?plus_IZR, ?minus_IZR in *; field; auto.
Qed.
(** The point an ellipsoid is centred at. *)
Theorem C37_centre : forall (p : ellipsoid R), a_ p <> 0 -> b_ p <> 0 -> c_ p <> 0 ->
  (phi_ p = 0 -> theta_ p = 0 -> psi_ p = 0 -> place p (0, 0, 0) = (x0_ p, y0_ p, z0_ p)) /\
  (forall u, let '(u1, u2, u3) := u in let '(x, y, z) := place p u in let '(x', y', z') := place p (- u1, - u2, - u3) in
    let '(cx, cy, cz) := place p (0, 0, 0) in (x + x') / 2 = cx /\ (y + y') / 2 = cy /\ (z + z') / 2 = cz).
Proof.
  intros p Ha Hb Hc. split.
  - intros E1 E2 E3. unfold place, degrees. rewrite E1, E2, E3. replace (- (PI * 0 / 180)) with 0 by field. unfold rot_z, rot_x. rewrite cos_0, sin_0.
    f_equal; [f_equal|]; ring.
  - intros ((u1, u2), u3). cbn. repeat split; field.
Qed.
(** (x0, y0, z0) are coordinates along the rotated axes: turned by 90 degrees, a small ball at (1/2, 0, 0) is found at (0, 1/2, 0). *)
Theorem C37_centre_refuted : exists p : ellipsoid R, a_ p = 1 / 10 /\ b_ p = 1 / 10 /\ c_ p = 1 / 10 /\
  inside p (x0_ p, y0_ p, z0_ p) = false /\ inside p (0, 1 / 2, 0) = true /\ (x0_ p, y0_ p, z0_ p) = (1 / 2, 0, 0).
Proof.
  exists (Ellipsoid R 1 (1/10) (1/10) (1/10) (1/2) 0 0 90 0 0). cbn.
  assert (S90 : radians 90 = PI / 2) by (unfold radians; field). assert (S0 : radians 0 = 0) by (unfold radians; ring).
  unfold inside, transform, rotate. cbn [phi_ theta_ psi_ x0_ y0_ z0_ a_ b_ c_]. rewrite S90, S0, cos_PI2, sin_PI2, cos_0, sin_0.
  unfold ndiv. destruct (Req_EM_T (1 / 10) 0) as [?|_]; [lra|]. unfold nmul, nadd. repeat split.
  - destruct (Rle_dec _ _) as [L|]; [|reflexivity]. exfalso. lra.
  - destruct (Rle_dec _ _) as [|L]; [reflexivity|]. exfalso. apply L. lra.
Qed.

(** ** The Shepp-Logan phantom *)
Lemma not_inside {V} (p : ellipsoid V) q s r : 0 <= s -> 0 <= r -> s + r < 1 ->
  norm2 (x0_ p, y0_ p, z0_ p) <= s * s -> Rabs (a_ p) <= r -> Rabs (b_ p) <= r -> Rabs (c_ p) <= r -> 1 <= norm2 q -> inside p q = false.
Proof.
  intros Hs Hr Hsr H0 Ha Hb Hc Hq. rewrite <- (rotate_norm p) in Hq. unfold inside, transform. destruct (rotate p q) as ((x, y), z).
  unfold ndiv. destruct (Req_EM_T (a_ p) 0) as [?|Na]; [reflexivity|]. destruct (Req_EM_T (b_ p) 0) as [?|Nb]; [reflexivity|]. destruct (Req_EM_T (c_ p) 0) as [?|Nc]; [reflexivity|].
  unfold nmul, nadd. destruct (Rle_dec _ _) as [L|]; [|reflexivity]. exfalso.
  set (u := (x - x0_ p) / a_ p) in *. set (v := (y - y0_ p) / b_ p) in *. set (w := (z - z0_ p) / c_ p) in *.
  assert (Ex : x = x0_ p + a_ p * u) by (unfold u; field; auto). assert (Ey : y = y0_ p + b_ p * v) by (unfold v; field; auto). assert (Ez : z = z0_ p + c_ p * w) by (unfold w; field; auto).
  clearbody u v w. subst x y z. unfold norm2 in *. clear Na Nb Nc.
  assert (Q : forall a, Rabs a <= r -> a * a <= r * r) by (intros a H; apply Rsqr_le_abs_1; rewrite (Rabs_pos_eq r); auto).
  apply Q in Ha, Hb, Hc. clear Q. set (d1 := a_ p * u) in *. set (d2 := b_ p * v) in *. set (d3 := c_ p * w) in *.
  assert (D : d1 * d1 + d2 * d2 + d3 * d3 <= r * r).
  { assert (forall a t, a * a <= r * r -> (a * t) * (a * t) <= r * r * (t * t)) as M.
    { intros a t H. replace (a * t * (a * t)) with (a * a * (t * t)) by ring. apply Rmult_le_compat_r; auto. apply Rle_0_sqr. }
    pose proof (M _ u Ha). pose proof (M _ v Hb). pose proof (M _ w Hc). unfold d1, d2, d3.
    assert (r * r * (u * u + v * v + w * w) <= r * r * 1) by (apply Rmult_le_compat_l; [apply Rle_0_sqr|lra]). lra. }
  clearbody d1 d2 d3. set (e1 := x0_ p) in *. set (e2 := y0_ p) in *. set (e3 := z0_ p) in *. clearbody e1 e2 e3.
  assert (CS : e1 * d1 + e2 * d2 + e3 * d3 <= s * r).
  { assert (C : (e1 * d1 + e2 * d2 + e3 * d3) * (e1 * d1 + e2 * d2 + e3 * d3) <= (s * r) * (s * r)).
    { assert ((e1 * d1 + e2 * d2 + e3 * d3) * (e1 * d1 + e2 * d2 + e3 * d3) <= (e1 * e1 + e2 * e2 + e3 * e3) * (d1 * d1 + d2 * d2 + d3 * d3)).
      { pose proof (Rle_0_sqr (e1 * d2 - e2 * d1)). pose proof (Rle_0_sqr (e1 * d3 - e3 * d1)). pose proof (Rle_0_sqr (e2 * d3 - e3 * d2)). unfold Rsqr in *. lra. }
      assert ((e1 * e1 + e2 * e2 + e3 * e3) * (d1 * d1 + d2 * d2 + d3 * d3) <= (s * s) * (r * r)).
      { apply Rmult_le_compat; auto; pose proof (Rle_0_sqr e1); pose proof (Rle_0_sqr e2); pose proof (Rle_0_sqr e3); pose proof (Rle_0_sqr d1); pose proof (Rle_0_sqr d2); pose proof (Rle_0_sqr d3); unfold Rsqr in *; lra. }
      lra. }
    apply Rsqr_incr_0_var; [exact C|]. apply Rmult_le_pos; auto. }
  assert ((s + r) * (s + r) < 1). { assert ((s + r) * (s + r) <= (s + r) * 1) by (apply Rmult_le_compat_l; lra). lra. }
  lra.
Qed.
(** The phantom is nowhere negative and vanishes outside the inscribed ball, in particular on the border. *)
Theorem C37_shepp : forall nx ny nz, (0 <= nx)%Z -> (0 <= ny)%Z -> (0 <= nz)%Z ->
  exists v, shepp3d [nx; ny; nz] = Ok v /\ (forall i j k, 0 <= v i j k) /\
  forall i j k, 1 <= norm2 (coord nx i, coord ny j, coord nz k) -> v i j k = 0.
Proof.
  intros nx ny nz Hx Hy Hz. unfold shepp3d. cbn [all_params shepp_array to_params]. unfold Ok at 1 2 3 4 5 6 7 8 9 10 11 12. cbv beta iota.
  unfold phantom. cbn [existsb]. destruct (Z.ltb_spec nx 0); [lia|]. destruct (Z.ltb_spec ny 0); [lia|]. destruct (Z.ltb_spec nz 0); [lia|]. cbn [orb]. unfold Ok. cbv beta iota.
  eexists. split; [reflexivity|]. split; [intros; apply Rmax_l|]. intros i j k N. rewrite fold_sum.
  assert (R1 : forall x, 0 <= x -> Rabs x <= x) by (intros; rewrite Rabs_pos_eq; lra).
  assert (NI : forall A a b c x0 y0 z0 f t p s r, 0 <= s -> 0 <= r -> s + r < 1 -> x0 * x0 + y0 * y0 + z0 * z0 <= s * s -> 0 <= a <= r -> 0 <= b <= r -> 0 <= c <= r ->
    inside (Ellipsoid R A a b c x0 y0 z0 f t p) (coord nx i, coord ny j, coord nz k) = false).
  { intros. apply not_inside with s r; cbn; auto; rewrite Rabs_pos_eq; lra. }
  cbn [filter].
  rewrite (NI 1 _ _ _ _ _ _ _ _ _ 0 (92/100)) by lra.
  rewrite (NI (-(8/10)) _ _ _ _ _ _ _ _ _ (2/100) (875/1000)) by lra.
  rewrite (NI (-(2/10)) _ _ _ _ _ _ (-108) _ _ (22/100) (31/100)) by lra.
  rewrite (NI (-(2/10)) _ _ _ _ _ _ 108 _ _ (22/100) (41/100)) by lra.
  rewrite (NI (1/10) _ (250/1000) _ _ _ _ _ _ _ (4/10) (41/100)) by lra.
  do 5 (rewrite (NI (1/10) _ _ _ _ _ _ _ _ _ (7/10) (1/10)) by lra).
  cbn. rewrite Rplus_0_r. apply Rmax_left. lra.
Qed.
(** Finding: an axis of length one is sampled at -1 instead of in the middle, so single slices of the phantom are empty. *)
Theorem C37_single_slice_refuted : forall ny nz, (0 <= ny)%Z -> (0 <= nz)%Z -> exists v, shepp3d [1%Z; ny; nz] = Ok v /\ forall i j k, i = 0%Z -> v i j k = 0.
Proof.
  intros ny nz Hy Hz. destruct (C37_shepp 1 ny nz ltac:(lia) Hy Hz) as (v & E & _ & H). exists v. split; auto. intros i j k ->. apply H.
  assert (C : coord 1 0 = -1) by (unfold coord; cbn; ring). rewrite C. unfold norm2. pose proof (Rle_0_sqr (coord ny j)). pose proof (Rle_0_sqr (coord nz k)). unfold Rsqr in *. lra.
Qed.
(** Two nested ellipsoids: the middle lies in both, a face in the longer one, an edge in none. *)
Example C37_ex : exists v, phantom 0 Rplus [3%Z; 3%Z; 3%Z] [Ellipsoid R 2 (1/2) (1/2) (1/2) 0 0 0 0 0 0; Ellipsoid R 5 2 (1/2) (1/2) 0 0 0 0 0 0] = Ok v /\
  v 1%Z 1%Z 1%Z = 7 /\ v 0%Z 1%Z 1%Z = 5 /\ v 0%Z 0%Z 1%Z = 0.
Proof.
  destruct (C37_sum 3 3 3 [Ellipsoid R 2 (1/2) (1/2) (1/2) 0 0 0 0 0 0; Ellipsoid R 5 2 (1/2) (1/2) 0 0 0 0 0 0]) as (v & E & H); try lia.
  { repeat constructor; cbn; lra. }
  exists v. split; [exact E|].
  assert (P : forall A a b c u, place (Ellipsoid R A a b c 0 0 0 0 0 0) u = let '(x, y, z) := u in (a * x, b * y, c * z)).
  { intros A a b c ((x, y), z). unfold place, degrees, rot_z, rot_x; cbn. replace (- (PI * 0 / 180)) with 0 by field. rewrite cos_0, sin_0. f_equal; [f_equal|]; ring. }
  assert (C0 : coord 3 0 = -1) by (unfold coord; cbn; lra). assert (C1 : coord 3 1 = 0) by (unfold coord; cbn; lra).
  repeat split.
  - rewrite (H 1%Z 1%Z 1%Z [true; true]); [cbn; ring|]. rewrite C1.
    repeat constructor; intros _; exists (0, 0, 0); rewrite P; (split; [unfold norm2; lra|f_equal; [f_equal|]; ring]).
  - rewrite (H 0%Z 1%Z 1%Z [false; true]); [cbn; ring|]. rewrite C0, C1. constructor; [|constructor; [|constructor]].
    + split; [discriminate|]. intros (((x, y), z) & N & Q). rewrite P in Q. injection Q as Q1 Q2 Q3. unfold norm2 in N. exfalso. nra.
    + split; auto. intros _. exists (- (1/2), 0, 0). rewrite P. split; [unfold norm2; lra|f_equal; [f_equal|]; lra].
  - rewrite (H 0%Z 0%Z 1%Z [false; false]); [cbn; ring|]. rewrite C0, C1.
    repeat constructor; try discriminate; intros (((x, y), z) & N & Q); rewrite P in Q; injection Q as Q1 Q2 Q3; unfold norm2 in N; exfalso; nra.
Qed.

Print Assumptions C37_sum.
Print Assumptions C37_flat.
Print Assumptions C37_order.
Print Assumptions C37_concat.
Print Assumptions C37_sizes.
Print Assumptions C37_float_order_refuted.
Print Assumptions C37_grid.
Print Assumptions C37_centre.
Print Assumptions C37_centre_refuted.
Print Assumptions C37_shepp.
Print Assumptions C37_single_slice_refuted.
