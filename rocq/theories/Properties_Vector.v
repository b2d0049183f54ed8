(** Vector fields: project2, project3 (libtomo/recon/project.c) and vector, vector2, vector3 (libtomo/recon/vector.c),
    exact real arithmetic. *)
From Verif Require Import Base CLoop Model_Prep Model_Ray Model_Solver Model_Vector Proofs_Prep Proofs_Morph Proofs_Ray Properties_Ray
  Proofs_Solver Proofs_Art Proofs_Subsets Proofs_Bart Proofs_Unit Proofs_Axis Properties_Solver Proofs_Sim Properties_Sim Proofs_Vector.
From Coq Require Import Reals Lra Psatz.
Local Open Scope R_scope.

(** ** Vocabulary *)
(** Element [i, j, k] of an array of shape (dy, ngridx, ngridy), and the image of plane s across an axis: pixel
    number y + x * ngridy is (x, y). *)
Definition at3 {A} (g : geom) (v : arr A) (i j k : Z) : A := v (k + j * ngridy g + i * (ngridx g * ngridy g))%Z.
Definition cut {A} (g : geom) (axis s : Z) (v : arr A) : Z -> A := fun pixel =>
  let x := (pixel / ngridy g)%Z in let y := (pixel mod ngridy g)%Z in
  if (axis =? 0)%Z then at3 g v s x y else if (axis =? 1)%Z then at3 g v y x s else at3 g v y s x.
(** The two components in the planes across an axis, and the remaining one. *)
Definition first (axis : Z) (f : field) : arr R := if (axis =? 1)%Z then comp2 f else comp1 f.
Definition second (axis : Z) (f : field) : arr R := if (axis =? 0)%Z then comp2 f else comp3 f.
Definition rest (axis : Z) (f : field) : arr R := if (axis =? 0)%Z then comp3 f else if (axis =? 1)%Z then comp1 f else comp2 f.
(** Component along the direction (cos t, sin t). *)
Definition flow (t : R) (u v : Z -> R) : Z -> R := fun j => cos t * u j + sin t * v j.
Definition is_axis (a : Z) : Prop := (a = 0 \/ a = 1 \/ a = 2)%Z.
Definition cube (g : geom) : Prop := ngridx g = dy g /\ ngridy g = dy g.

Lemma is_axis_known a : is_axis a <-> known_axis a = true.
Proof. unfold is_axis, known_axis. lia. Qed.
Lemma plane_cut {A} g a s (v : arr A) j : plane g a s v j = cut g a s v j.
Proof. unfold plane, cut, at3, loc. destruct (a =? 0)%Z; [|destruct (a =? 1)%Z]; f_equal; ring. Qed.
Lemma cut_image {A} g s (v : arr A) j : (1 <= ngridy g)%Z -> cut g 0 s v j = image_of g v s j.
Proof.
  intros H. unfold cut, at3, image_of, npix. cbn [Z.eqb]. f_equal. pose proof (Z.div_mod j (ngridy g)). lia.
Qed.
Lemma fst_first a f : fst_of a f = first a f. Proof. reflexivity. Qed.
Lemma snd_second a f : snd_of a f = second a f. Proof. reflexivity. Qed.
Lemma seen_flow g a s f p j : is_axis a -> seen_field g a s f (dirs g p) j = - flow (theta g p) (cut g a s (first a f)) (cut g a s (second a f)) j.
Proof.
  intros Ha. apply is_axis_known in Ha. unfold seen_field. rewrite Ha. unfold along, flow, dirs. cbn [fst snd].
  rewrite !plane_cut. change (fst_of a f) with (first a f). change (snd_of a f) with (second a f). ring.
Qed.
Lemma ray_sum_opp segs f h : (forall j, f j = - h j) -> dot segs f = - ray_sum segs h.
Proof.
  intros H. unfold dot, ray_sum, rsum. induction segs as [|[i w] l IH]; cbn; [lra|]. rewrite H. cbn in IH. rewrite IH. lra.
Qed.
Lemma dot_seen g a s f p segs : is_axis a ->
  dot segs (seen_field g a s f (dirs g p)) = - ray_sum segs (flow (theta g p) (cut g a s (first a f)) (cut g a s (second a f))).
Proof. intros Ha. apply ray_sum_opp. intros j. now apply seen_flow. Qed.
Lemma lsum_cells (f : Z * Z -> R) a b : lsum f (cells a b) = total a (fun p => total b (fun d => f (p, d))).
Proof.
  unfold cells, total. generalize (zrange 0 a). intros l. induction l as [|q l IH]; [reflexivity|].
  cbn [flat_map]. rewrite lsum_app, IH. unfold rsum. cbn [map fold_right]. f_equal. unfold lsum. rewrite map_map. reflexivity.
Qed.
Lemma hits_total g s j : hits_sum g s (all_rays g) j = pixel_total g s j.
Proof.
  unfold hits_sum, all_rays. rewrite lsum_cells. apply zsum_ext. intros p _. apply zsum_ext. intros d _. symmetry. apply inside_length_wt.
Qed.

(** ** C82: projections of a vector field *)
(** Minus the sum, along the ray, of the component in the direction of the ray. *)
Theorem C82_project3 : forall g f a data s p d, valid g -> is_axis a -> (0 <= s < dy g)%Z -> is_ray g p d ->
  project3 g f a data (ind_data g s p d) = data (ind_data g s p d)
    - ray_sum (rays g 0 p d) (flow (theta g p) (cut g a s (first a f)) (cut g a s (second a f))).
Proof.
  intros g f a data s p d (H1 & H2 & _) Ha Hs [Hp Hd]. rewrite project3_spec, dot_seen by auto. lra.
Qed.
Theorem C82_project2 : forall g x y data s p d, valid g -> (0 <= s < dy g)%Z -> is_ray g p d ->
  project2 g x y data (ind_data g s p d) = data (ind_data g s p d)
    - ray_sum (rays g 0 p d) (flow (theta g p) (image_of g x s) (image_of g y s)).
Proof.
  intros g x y data s p d Hg Hs Hr. rewrite project2_spec, C82_project3 by (auto; now left). f_equal.
  unfold ray_sum. apply f_equal, map_ext. intros [i w]. unfold flow. cbn [first second Z.eqb comp1 comp2]. destruct Hg as (_ & H & _). now rewrite !cut_image.
Qed.
(** In terms of the ordinary projections of the two components. *)
Lemma flow_sum segs t u v : ray_sum segs (flow t u v) = cos t * ray_sum segs u + sin t * ray_sum segs v.
Proof. unfold ray_sum, flow, rsum. induction segs as [|[i w] l IH]; cbn in *; [lra|]. rewrite IH. lra. Qed.
Theorem C82_components : forall g x y s p d, valid g -> (0 <= s < dy g)%Z -> is_ray g p d ->
  project2 g x y (fun _ => 0) (ind_data g s p d) =
  - (cos (theta g p) * project g x (fun _ => 0) (ind_data g s p d) + sin (theta g p) * project g y (fun _ => 0) (ind_data g s p d)).
Proof. intros g x y s p d Hg Hs Hr. rewrite C82_project2, !C23_ray_sums, flow_sum by auto. lra. Qed.
(** From the opposite side the projection is mirrored and changes sign. *)
Theorem C82_opposite : forall g x y s p p' d, valid g -> (0 <= s < dy g)%Z -> is_ray g p d -> (0 <= p' < dt g)%Z ->
  center g 0%Z = IZR (dx g) / 2 -> angle_ok (theta g p) -> theta g p' = theta g p + PI ->
  project2 g x y (fun _ => 0) (ind_data g s p' (dx g - 1 - d)) = - project2 g x y (fun _ => 0) (ind_data g s p d).
Proof.
  intros g x y s p p' d Hg Hs Hr Hp' Hc Ha Ht.
  assert (is_ray g p' (dx g - 1 - d)) by (destruct Hr; split; lia).
  rewrite !C82_components, Ht, neg_cos, neg_sin by auto. rewrite !(C79_mirror g _ s p p' d) by auto. ring.
Qed.
(** In a cube nothing outside the volume is read; otherwise the same holds for axis 0 only. *)
Definition agree (g : geom) (v w : arr R) : Prop := forall i, (0 <= i < dy g * (ngridx g * ngridy g))%Z -> v i = w i.
Lemma at3_agree g v w i j k : agree g v w -> (0 <= i < dy g)%Z -> (0 <= j < ngridx g)%Z -> (0 <= k < ngridy g)%Z -> at3 g v i j k = at3 g w i j k.
Proof. intros H Hi Hj Hk. apply H. assert (0 <= k + j * ngridy g < ngridx g * ngridy g)%Z by nia. nia. Qed.
Lemma cut_agree g a s v w q : valid g -> cube g \/ a = 0%Z -> agree g v w -> (0 <= s < dy g)%Z -> is_pixel g q -> cut g a s v q = cut g a s w q.
Proof.
  intros (H1 & H2 & _) Hc H Hs Hq. destruct (pixel_in g H2 q Hq) as [Hx Hy]. unfold cut. unfold cube in Hc.
  destruct (a =? 0)%Z eqn:E; [now apply at3_agree|]. apply Z.eqb_neq in E. destruct Hc as [[C1 C2]|Hc]; [|contradiction].
  destruct (a =? 1)%Z; apply at3_agree; auto; lia.
Qed.
Theorem C82_reads : forall g f f' a data s p d, valid g -> is_axis a -> cube g \/ a = 0%Z ->
  agree g (comp1 f) (comp1 f') -> agree g (comp2 f) (comp2 f') -> agree g (comp3 f) (comp3 f') ->
  (0 <= s < dy g)%Z -> is_ray g p d -> project3 g f a data (ind_data g s p d) = project3 g f' a data (ind_data g s p d).
Proof.
  intros g f f' a data s p d Hg Ha Hc A1 A2 A3 Hs Hr. rewrite !C82_project3 by auto. f_equal.
  apply (dot_ext (npix g)). { destruct Hg as (H1 & H2 & _). now apply rays_grid. }
  assert (forall u w, agree g u w -> forall q, is_pixel g q -> cut g a s u q = cut g a s w q) as C by (intros; now apply cut_agree).
  intros j Hj. unfold flow. f_equal; f_equal; apply C; auto; unfold first, second; [destruct (a =? 1)%Z|destruct (a =? 0)%Z]; auto.
Qed.
(** Finding: two columns but one slice, axis 1: element 2 of an array of 2 is read. *)
Definition flat_geom : geom := mkGeom 1 2 1 1 1 (fun _ => 1 / 2) (fun _ => PI / 2).
Theorem C82_outside_refuted : (dy flat_geom * (ngridx flat_geom * ngridy flat_geom) = 2)%Z /\
  forall f data, project3 flat_geom f 1 data 0%Z = data 0%Z - (comp3 f 0%Z + comp3 f 2%Z).
Proof.
  split; [reflexivity|]. intros f data.
  pose proof (C82_project3 flat_geom f 1 data 0 0 0 ltac:(unfold valid; cbn; lia) ltac:(right; now left) ltac:(cbn; lia) ltac:(split; cbn; lia)) as H.
  change (ind_data flat_geom 0 0 0) with 0%Z in H. rewrite H. f_equal.
  change (rays flat_geom 0 0 0) with (ray 1 2 1 (1 / 2) (PI / 2) 0). change (1 / 2) with (IZR 1 / 2).
  rewrite ray_angle_90 by lia. cbn [Z.leb Z.compare Z.mul Z.sub Z.add Z.opp Z.pos_sub andb Pos.compare Pos.compare_cont Pos.mul Pos.add].
  change ((1 <=? 1 - 1 - 0 + 1) && (1 - 1 - 0 + 1 <=? 2 - 1))%Z%bool with true. cbv iota.
  unfold zsum, rsum. change (zrange 0 2) with [0%Z; 1%Z]. cbn [map fold_right].
  unfold flow. cbn [theta flat_geom]. rewrite cos_PI2, sin_PI2. unfold cut, at3. cbn. lra.
Qed.
(** An axis other than 0, 1 and 2 adds nothing. *)
Theorem C82_no_axis : forall g f a data s p d, valid g -> ~ is_axis a -> (0 <= s < dy g)%Z -> is_ray g p d ->
  project3 g f a data (ind_data g s p d) = data (ind_data g s p d).
Proof.
  intros g f a data s p d (H1 & H2 & _) Ha Hs [Hp Hd]. rewrite project3_spec by auto. unfold seen_field.
  destruct (known_axis a) eqn:E; [destruct Ha; now apply is_axis_known|].
  unfold dot, rsum. induction (rays g 0 p d) as [|[i w] l IH]; cbn in *; [lra|]. rewrite Rmult_0_l. lra.
Qed.

(** ** C83: vector *)
(** Misfit of a ray, in units of its squared lengths, and the corrected component of a pixel: the average of the
    corrections asked for by the rays through it, weighted by their lengths; k is cos for the first component, sin
    for the second. *)
Definition gap (g : geom) (data : arr R) (s : Z) (u v : Z -> R) (p d : Z) : R :=
  let segs := rays g s p d in
  if Req_EM_T (total_square segs) 0 then 0 else (data (ind_data g s p d) + ray_sum segs (flow (theta g p) u v)) / total_square segs.
Definition corrected (g : geom) (data : arr R) (s : Z) (u v : Z -> R) (k : R -> R) (w : Z -> R) : Z -> R := fun j =>
  if Req_EM_T (pixel_total g s j) 0 then w j else
  w j - total (dt g) (fun p => total (dx g) (fun d => k (theta g p) * gap g data s u v p d * inside_length (rays g s p d) j)) / pixel_total g s j.
(** f' is f with the planes across an axis corrected. *)
Definition swept (g : geom) (data : arr R) (a : Z) (f f' : field) : Prop :=
  rest a f' = rest a f /\
  forall s j, (0 <= s < dy g)%Z -> is_pixel g j ->
    let u := cut g a s (first a f) in let v := cut g a s (second a f) in
    cut g a s (first a f') j = corrected g data s u v cos u j /\
    cut g a s (second a f') j = corrected g data s u v sin v j.
(** The field has the measured sums in the planes across an axis. *)
Definition explains (g : geom) (data : arr R) (a : Z) (f : field) : Prop :=
  forall s p d, (0 <= s < dy g)%Z -> is_ray g p d ->
    - ray_sum (rays g s p d) (flow (theta g p) (cut g a s (first a f)) (cut g a s (second a f))) = data (ind_data g s p d).
Definition every_pixel_hit (g : geom) : Prop := forall s j, (0 <= s < dy g)%Z -> is_pixel g j -> pixel_total g s j <> 0.

Definition sees (g : geom) (look : R * R -> Z -> R) (u v : Z -> R) : Prop :=
  forall segs p, dot segs (look (dirs g p)) = - ray_sum segs (flow (theta g p) u v).
Lemma misfit_gap g data s look u v p d : sees g look u v -> misfit g data s look p d = gap g data s u v p d.
Proof.
  intros Hl. unfold misfit, gap. cbv zeta. rewrite sum_dist2_spec. change (rsum (map (fun '(_, w) => w * w) (rays g s p d))) with (total_square (rays g s p d)).
  destruct (Req_EM_T _ 0); auto. rewrite Hl. f_equal. lra.
Qed.
Lemma vstep_corrected g data s look u v (k : R * R -> R) (c : R -> R) m w j : sees g look u v -> (forall p, k (dirs g p) = - c (theta g p)) -> m j = w j ->
  vstep g data s look m k j = corrected g data s u v c w j.
Proof.
  intros Hl Hk Hm. unfold vstep, corrected. cbv zeta. rewrite hits_total, Hm. destruct (Req_EM_T _ 0); auto.
  set (q := total (dt g) _). enough (vupd g data s (all_rays g) look k j = - 1 * q) as -> by (unfold Rdiv; ring).
  unfold vupd, all_rays, q. rewrite lsum_cells. rewrite <- (zsum_scal (dt g) (- 1)). apply zsum_ext. intros p _.
  rewrite <- (zsum_scal (dx g) (- 1)). apply zsum_ext. intros d _. rewrite (misfit_gap _ _ _ _ u v), Hk, inside_length_wt by auto. ring.
Qed.
Lemma sees_field g a s f : is_axis a -> sees g (seen_field g a s f) (cut g a s (first a f)) (cut g a s (second a f)).
Proof. intros Ha segs p. now apply dot_seen. Qed.
Lemma sees_along g u v : sees g (fun w => along w u v) u v.
Proof. intros segs p. apply ray_sum_opp. intros j. unfold along, flow, dirs. cbn [fst snd]. ring. Qed.
Lemma planes_apart g a : valid g -> cube g \/ a = 0%Z -> forall s s' m n m' n', (0 <= s < dy g)%Z -> (0 <= s' < dy g)%Z ->
  (0 <= m < ngridx g)%Z -> (0 <= n < ngridy g)%Z -> (0 <= m' < ngridx g)%Z -> (0 <= n' < ngridy g)%Z -> loc g a s m n = loc g a s' m' n' -> s = s'.
Proof.
  intros Hg Hc s s' m n m' n' Hs Hs' Hm Hn Hm' Hn' E. unfold loc in E. destruct (a =? 0)%Z eqn:E0.
  - assert (0 <= n + m * ngridy g < ngridx g * ngridy g)%Z by nia. assert (0 <= n' + m' * ngridy g < ngridx g * ngridy g)%Z by nia.
    destruct (Z.div_mod_unique (ngridx g * ngridy g) s s' (n + m * ngridy g) (n' + m' * ngridy g)); lia.
  - apply Z.eqb_neq in E0. destruct Hc as [[C1 C2]|]; [|contradiction]. destruct (a =? 1)%Z.
    + destruct (Z.div_mod_unique (ngridy g) (m + n * ngridx g) (m' + n' * ngridx g) s s'); lia.
    + assert (0 <= m + s * ngridy g < ngridx g * ngridy g)%Z by nia. assert (0 <= m' + s' * ngridy g < ngridx g * ngridy g)%Z by nia.
      destruct (Z.div_mod_unique (ngridx g * ngridy g) n n' (m + s * ngridy g) (m' + s' * ngridy g)); [lia|lia|lia|].
      destruct (Z.div_mod_unique (ngridy g) s s' m m'); lia.
Qed.
Lemma pass_swept g data a f : valid g -> is_axis a -> cube g \/ a = 0%Z -> swept g data a f (pass g data a a f).
Proof.
  intros Hg Ha Hc. pose proof Hg as (H1 & H2 & H3 & _). pose proof (proj1 (is_axis_known a) Ha) as Hk.
  pose proof (pass_planes g H1 H2 ltac:(lia) data a Hk (planes_apart g a Hg Hc) f) as P.
  split.
  - destruct (P 0%Z 0%Z ltac:(lia)) as (_ & _ & E); [unfold npix; nia|exact E].
  - intros s j Hs Hj. cbv zeta. destruct (P s j Hs Hj) as (E1 & E2 & _).
    change (first a) with (fst_of a) at 1. change (second a (pass g data a a f)) with (snd_of a (pass g data a a f)).
    rewrite <- (plane_cut g a s (fst_of a (pass g data a a f))), <- (plane_cut g a s (snd_of a (pass g data a a f))).
    rewrite E1, E2. split; apply vstep_corrected; auto using sees_field; apply plane_cut.
Qed.
Lemma explains_dot g data a f : is_axis a -> explains g data a f ->
  forall s p d, (0 <= s < dy g)%Z -> (0 <= p < dt g)%Z -> (0 <= d < dx g)%Z ->
  dot (rays g s p d) (seen_field g a s f (dirs g p)) = data (ind_data g s p d).
Proof. intros Ha He s p d Hs Hp Hd. rewrite dot_seen by auto. apply He; auto. now split. Qed.

Lemma total_ext' n f h : (forall i, (0 <= i < n)%Z -> f i = h i) -> total n f = total n h.
Proof. exact (zsum_ext n f h). Qed.
Lemma corrected_ext g data s u v u' v' k w w' j : valid g -> (forall i, is_pixel g i -> u i = u' i /\ v i = v' i) -> w j = w' j ->
  corrected g data s u v k w j = corrected g data s u' v' k w' j.
Proof.
  intros (H1 & H2 & _) H Hw. unfold corrected. rewrite Hw. destruct (Req_EM_T _ 0); auto. do 2 f_equal. apply total_ext'. intros p _. apply total_ext'. intros d _.
  do 2 f_equal. unfold gap. cbv zeta. destruct (Req_EM_T _ 0); auto. do 2 f_equal.
  apply (dot_ext (npix g)); [now apply rays_grid|]. intros i Hi. unfold flow. now destruct (H i Hi) as [-> ->].
Qed.
Lemma corrected_same g data s u v k w j :
  (forall p d, is_ray g p d -> - ray_sum (rays g s p d) (flow (theta g p) u v) = data (ind_data g s p d)) -> corrected g data s u v k w j = w j.
Proof.
  intros H. unfold corrected. destruct (Req_EM_T _ 0); auto.
  assert (total (dt g) (fun p => total (dx g) (fun d => k (theta g p) * gap g data s u v p d * inside_length (rays g s p d) j)) = 0) as ->; [|unfold Rdiv; lra].
  apply (zsum_zero (dt g)). intros p Hp. apply (zsum_zero (dx g)). intros d Hd. unfold gap. cbv zeta. destruct (Req_EM_T _ 0); [lra|].
  rewrite <- H by now split. unfold Rdiv. ring.
Qed.
Definition volume_of (g : geom) (m1 m2 : Z -> Z -> R) : field :=
  mkField (fun i => m1 (i / npix g) (i mod npix g))%Z (fun i => m2 (i / npix g) (i mod npix g))%Z (fun _ => 0).
Lemma npix_pos g : valid g -> (0 < npix g)%Z.
Proof. intros (H1 & H2 & _). unfold npix. nia. Qed.
Lemma volume_at {A} g (m : Z -> Z -> A) s j : is_pixel g j -> m ((j + s * npix g) / npix g)%Z ((j + s * npix g) mod npix g)%Z = m s j.
Proof. unfold is_pixel. intros H. rewrite Z.div_add, Z.mod_add, Z.div_small, Z.mod_small by lia. reflexivity. Qed.
Lemma finite_like g r (m : Z -> Z -> R) B : valid g -> (forall s j, (0 <= s < dy g)%Z -> is_pixel g j -> B (j + s * npix g)%Z = m s j) ->
  finite g r m -> like (vol g) r B.
Proof.
  intros Hg HB H i Hi. pose proof (npix_pos g Hg). unfold vol in Hi.
  assert (E : i = (i mod npix g + (i / npix g) * npix g)%Z) by (pose proof (Z.div_mod i (npix g)); lia).
  assert (0 <= i / npix g < dy g)%Z by (split; [apply Z.div_pos; lia|apply Z.div_lt_upper_bound; lia]).
  pose proof (Z.mod_pos_bound i (npix g)). rewrite E. rewrite H, HB by (unfold is_pixel; lia). reflexivity.
Qed.
(** One more iteration replaces the images by the corrected ones. *)
Theorem C83_step : forall g data n r m1 m2, valid g -> every_pixel_hit g -> (0 <= n)%Z ->
  finite g (fst (vector g data n r)) m1 -> finite g (snd (vector g data n r)) m2 ->
  finite g (fst (vector g data (n + 1) r)) (fun s => corrected g data s (m1 s) (m2 s) cos (m1 s)) /\
  finite g (snd (vector g data (n + 1) r)) (fun s => corrected g data s (m1 s) (m2 s) sin (m2 s)).
Proof.
  intros g data n r m1 m2 Hg Hh Hn H1 H2. unfold vector in *. rewrite for_S by auto.
  destruct (for_ n (fun _ => vec_iter g data) r) as [r1 r2]. cbn [fst snd] in *. clear n r Hn.
  pose proof Hg as (G1 & G2 & G3 & _). pose (f := volume_of g m1 m2).
  destruct (like_iter g G1 G2 ltac:(lia) data r1 r2 f) as [L1 L2].
  - intros s j Hs Hj. rewrite hits_total. now apply Hh.
  - apply (finite_like g r1 m1); auto. intros s j _ Hj. now apply (volume_at g m1).
  - apply (finite_like g r2 m2); auto. intros s j _ Hj. now apply (volume_at g m2).
  - destruct (pass_swept g data 0 f Hg ltac:(now left) ltac:(now right)) as [_ Sw].
    assert (C : forall s j, (0 <= s < dy g)%Z -> is_pixel g j -> vol g (j + s * npix g)).
    { intros s j Hs Hj. unfold vol, is_pixel in *. nia. }
    assert (I : forall s i, is_pixel g i -> cut g 0 s (comp1 f) i = m1 s i /\ cut g 0 s (comp2 f) i = m2 s i).
    { intros s i Hi. rewrite !cut_image by auto. split; [now apply (volume_at g m1)|now apply (volume_at g m2)]. }
    split; intros s j Hs Hj; [rewrite L1 by now apply C|rewrite L2 by now apply C]; f_equal; destruct (Sw s j Hs Hj) as [E1 E2];
      [change (first 0) with comp1 in E1; change (second 0) with comp2 in E1|change (first 0) with comp1 in E2; change (second 0) with comp2 in E2];
      [rewrite cut_image in E1 by auto|rewrite cut_image in E2 by auto];
      [etransitivity; [exact E1|]|etransitivity; [exact E2|]]; apply corrected_ext; auto; now apply I.
Qed.
Theorem C83_finite : forall g data n r m1 m2, valid g -> every_pixel_hit g -> finite g (fst r) m1 -> finite g (snd r) m2 ->
  exists m1' m2', finite g (fst (vector g data n r)) m1' /\ finite g (snd (vector g data n r)) m2'.
Proof.
  intros g data n r m1 m2 Hg Hh H1 H2. destruct (Z.le_gt_cases n 0) as [Hn|Hn]; [unfold vector; rewrite for_0 by lia; eauto|].
  assert (0 <= n)%Z as Hn' by lia. clear Hn. revert n Hn'. apply natlike_ind; [unfold vector; rewrite for_0 by lia; eauto|].
  intros n Hn (a & b & A & B). rewrite <- Z.add_1_r. do 2 eexists. eapply C83_step; eauto.
Qed.
Theorem C83_fixed_point : forall g data n r m1 m2, valid g -> every_pixel_hit g -> finite g (fst r) m1 -> finite g (snd r) m2 ->
  (forall s p d, (0 <= s < dy g)%Z -> is_ray g p d ->
     - ray_sum (rays g s p d) (flow (theta g p) (m1 s) (m2 s)) = data (ind_data g s p d)) ->
  finite g (fst (vector g data n r)) m1 /\ finite g (snd (vector g data n r)) m2.
Proof.
  intros g data n r m1 m2 Hg Hh H1 H2 He. destruct (Z.le_gt_cases n 0) as [Hn|Hn]; [unfold vector; rewrite for_0 by lia; eauto|].
  assert (0 <= n)%Z as Hn' by lia. clear Hn. revert n Hn'. apply natlike_ind; [unfold vector; rewrite for_0 by lia; eauto|].
  intros n Hn (A & B). rewrite <- Z.add_1_r. destruct (C83_step g data n r m1 m2 Hg Hh Hn A B) as [S1 S2].
  split; intros s j Hs Hj; [rewrite (S1 s j Hs Hj)|rewrite (S2 s j Hs Hj)]; f_equal; apply corrected_same; intros p d Hr; now apply He.
Qed.
(** Finding: a pixel that no ray meets is not a number after the first iteration, and remains so. *)
Theorem C83_unhit_refuted : forall g data n r s j, valid g -> (1 <= n)%Z -> (0 <= s < dy g)%Z -> is_pixel g j -> pixel_total g s j = 0 ->
  fst (vector g data n r) (j + s * npix g)%Z = None /\ snd (vector g data n r) (j + s * npix g)%Z = None.
Proof.
  intros g data n r s j Hg Hn Hs Hj H. pose proof Hg as (G1 & G2 & G3 & _). apply vector_none; auto; [lia|now rewrite hits_total].
Qed.
(** In the norm weighted by the pixel totals, a correction never moves away from a solution if every ray has sum of
    lengths <= 2 * sum of squared lengths. *)
Lemma corrected_closer g data s u v zu zv : valid g ->
  (forall p d, is_ray g p d -> - ray_sum (rays g s p d) (flow (theta g p) zu zv) = data (ind_data g s p d)) ->
  (forall p d, is_ray g p d -> total_length (rays g s p d) <= 2 * total_square (rays g s p d)) ->
  weighted_distance2 g s (corrected g data s u v cos u) zu + weighted_distance2 g s (corrected g data s u v sin v) zv
  <= weighted_distance2 g s u zu + weighted_distance2 g s v zv.
Proof.
  intros Hg He Hw. pose proof Hg as (G1 & G2 & _).
  assert (E : forall a b, wssd2 g s a b zu zv = weighted_distance2 g s a zu + weighted_distance2 g s b zv).
  { intros a b. unfold wssd2, weighted_distance2. cbv zeta. etransitivity; [|apply (zsum_plus (npix g))]. apply zsum_ext. intros j _. rewrite hits_total. ring. }
  rewrite <- !E.
  pose proof (vstep_closer g G1 G2 data s u v zu zv) as P. cbv zeta in P.
  eapply Rle_trans; [|apply P].
  - apply Req_le. unfold wssd2. apply zsum_ext. intros j _.
    rewrite (vstep_corrected g data s _ u v fst cos u u j), (vstep_corrected g data s _ u v snd sin v v j); auto using sees_along.
  - intros p d Hp Hd. rewrite sees_along. apply He. now split.
  - intros p d Hp Hd. rewrite sum_dist2_spec. apply Hw. now split.
Qed.
Theorem C83_never_farther_partial : forall g data n r m1 m2 s z1 z2, valid g -> every_pixel_hit g -> finite g (fst r) m1 -> finite g (snd r) m2 ->
  (0 <= s < dy g)%Z ->
  (forall p d, is_ray g p d -> - ray_sum (rays g s p d) (flow (theta g p) z1 z2) = data (ind_data g s p d)) ->
  (forall p d, is_ray g p d -> total_length (rays g s p d) <= 2 * total_square (rays g s p d)) ->
  exists m1' m2', finite g (fst (vector g data n r)) m1' /\ finite g (snd (vector g data n r)) m2' /\
    weighted_distance2 g s (m1' s) z1 + weighted_distance2 g s (m2' s) z2 <= weighted_distance2 g s (m1 s) z1 + weighted_distance2 g s (m2 s) z2.
Proof.
  intros g data n r m1 m2 s z1 z2 Hg Hh H1 H2 Hs He Hw.
  destruct (Z.le_gt_cases n 0) as [Hn|Hn]; [unfold vector; rewrite for_0 by lia; do 2 eexists; repeat split; eauto; lra|].
  assert (0 <= n)%Z as Hn' by lia. clear Hn. revert n Hn'. apply natlike_ind; [unfold vector; rewrite for_0 by lia; do 2 eexists; repeat split; eauto; lra|].
  intros n Hn (a & b & A & B & D). rewrite <- Z.add_1_r. destruct (C83_step g data n r a b Hg Hh Hn A B) as [S1 S2].
  do 2 eexists. split; [exact S1|]. split; [exact S2|]. cbv beta. eapply Rle_trans; [|exact D]. now apply corrected_closer.
Qed.

(** ** C84: vector2 and vector3 *)
(** In a cube an iteration corrects the planes across one axis after the other, with the first geometry. *)
Theorem C84_vector2_step : forall g1 g2 data1 data2 n f, valid g1 -> cube g1 -> (0 <= n)%Z ->
  exists h, swept g1 data1 1 (vector2 g1 g2 data1 data2 n 1 2 f) h /\ swept g1 data2 2 h (vector2 g1 g2 data1 data2 (n + 1) 1 2 f).
Proof.
  intros g1 g2 data1 data2 n f Hg Hc Hn. eexists. split; [apply (pass_swept g1 data1 1); auto; right; now left|].
  unfold vector2. rewrite for_S by auto. apply pass_swept; auto. right. now right.
Qed.
Theorem C84_vector3_step : forall g1 g2 g3 data1 data2 data3 n f, valid g1 -> cube g1 -> (0 <= n)%Z ->
  exists h1 h2, swept g1 data1 0 (vector3 g1 g2 g3 data1 data2 data3 n 0 1 2 f) h1 /\ swept g1 data2 1 h1 h2 /\
    swept g1 data3 2 h2 (vector3 g1 g2 g3 data1 data2 data3 (n + 1) 0 1 2 f).
Proof.
  intros g1 g2 g3 data1 data2 data3 n f Hg Hc Hn. eexists. eexists. split; [apply (pass_swept g1 data1 0); auto; now left|].
  split; [apply (pass_swept g1 data2 1); auto; right; now left|].
  unfold vector3. rewrite for_S by auto. apply pass_swept; auto. right. now right.
Qed.
Theorem C84_start : forall g1 g2 g3 data1 data2 data3 a1 a2 a3 f,
  vector2 g1 g2 data1 data2 0 a1 a2 f = f /\ vector3 g1 g2 g3 data1 data2 data3 0 a1 a2 a3 f = f.
Proof. split; reflexivity. Qed.
(** A field that has all measured sums, with the first geometry, stays; any axes and grids. *)
Definition same_field (f f' : field) : Prop := forall i, comp1 f i = comp1 f' i /\ comp2 f i = comp2 f' i /\ comp3 f i = comp3 f' i.
Theorem C84_fixed_point : forall g1 g2 g3 data1 data2 data3 n a1 a2 a3 f, valid g1 -> is_axis a1 -> is_axis a2 -> is_axis a3 ->
  explains g1 data1 a1 f -> explains g1 data2 a2 f -> explains g1 data3 a3 f ->
  same_field (vector2 g1 g2 data1 data2 n a1 a2 f) f /\ same_field (vector3 g1 g2 g3 data1 data2 data3 n a1 a2 a3 f) f.
Proof.
  intros g1 g2 g3 data1 data2 data3 n a1 a2 a3 f Hg A1 A2 A3 E1 E2 E3. pose proof Hg as (G1 & G2 & G3 & _).
  assert (P : forall data a t h, is_axis a -> explains g1 data a f -> same_field h f -> same_field (pass g1 data a t h) f).
  { intros data a t h Ha He Hh. apply (pass_fixed g1 G1 G2 ltac:(lia)); auto. intros s p d Hs Hp Hd. now apply explains_dot. }
  assert (R : same_field f f) by (intros i; auto).
  split; unfold vector2, vector3; (destruct (Z.le_gt_cases n 0) as [Hn|Hn]; [rewrite for_0 by lia; auto|]); apply (for_inv (fun _ h => same_field h f)); auto; lia.
Qed.
(** A correction never moves away from a solution, weighted and under the condition on the rays of C83. *)
Theorem C84_never_farther_partial : forall g data a f f' z s, valid g -> is_axis a -> swept g data a f f' -> explains g data a z -> (0 <= s < dy g)%Z ->
  (forall p d, is_ray g p d -> total_length (rays g s p d) <= 2 * total_square (rays g s p d)) ->
  let far h := weighted_distance2 g s (cut g a s (first a h)) (cut g a s (first a z))
             + weighted_distance2 g s (cut g a s (second a h)) (cut g a s (second a z)) in
  far f' <= far f.
Proof.
  intros g data a f f' z s Hg Ha [_ Sw] He Hs Hw far. unfold far.
  eapply Rle_trans; [|apply (corrected_closer g data s _ _ _ _ Hg (fun p d => He s p d Hs) Hw)].
  apply Req_le. f_equal; unfold weighted_distance2; apply total_ext'; intros j Hj; destruct (Sw s j Hs Hj) as [E1 E2]; [now rewrite E1|now rewrite E2].
Qed.

(** *** What the arguments do not do: the unit cube *)
Definition view (t : R) : geom := mkGeom 1 1 1 1 1 (fun _ => 1 / 2) (fun _ => t).
Lemma view_valid t : valid (view t). Proof. unfold valid, view. cbn. lia. Qed.
Lemma view_0 : rays (view 0) 0 0 0 = [(0%Z, 1)]. Proof. exact unit_ray. Qed.
Lemma view_90 img : ray_sum (rays (view (PI / 2)) 0 0 0) img = img 0%Z.
Proof.
  change (rays (view (PI / 2)) 0 0 0) with (ray 1 1 1 (IZR 1 / 2) (PI / 2) 0). rewrite ray_angle_90 by lia.
  change ((1 <=? 1 - 1 - 2 * 0 + 1) && (1 - 1 - 2 * 0 + 1 <=? 2 * 1 - 1))%Z%bool with true. cbv iota. unfold zsum, rsum. change (zrange 0 1) with [0%Z].
  cbn [map fold_right]. rewrite Rplus_0_r. reflexivity.
Qed.
(** One pass over the unit cube at angle 0: the first component of the target takes the whole correction. *)
Lemma view_pass data a t f : is_axis t ->
  let f' := pass (view 0) data a t f in
  first t f' 0%Z = first t f 0%Z - (data 0%Z + (if known_axis a then first a f 0%Z else 0)) /\
  second t f' 0%Z = second t f 0%Z /\ rest t f' = rest t f.
Proof.
  intros Ht. cbv zeta. pose proof (proj1 (is_axis_known t) Ht) as Hk. unfold pass.
  destruct (slice_run (view 0) ltac:(cbn; lia) ltac:(cbn; lia) data a t 0 f (fun _ => 0) ltac:(intros p d _ _; reflexivity)) as (sd & u1 & u2 & sim & Ep & E0 & E1 & E2 & _).
  change (for_ (dy (view 0)) (pass_slice (view 0) data a t) (f, fun _ : Z => 0)) with (pass_slice (view 0) data a t 0 (f, fun _ : Z => 0)).
  assert (F : fst (pass_slice (view 0) data a t 0 (f, fun _ : Z => 0)) = pass_store (view 0) t 0 sd u1 u2 f) by exact (f_equal fst Ep). rewrite F. clear F Ep.
  cbn [fst]. destruct (store_of (view 0) t 0 sd u1 u2 f Hk) as (S1 & S2 & S3).
  destruct (bump_spec (view 0) ltac:(cbn; lia) ltac:(cbn; lia) t 0 sd u1 (fst_of t f)) as [B1 _].
  destruct (bump_spec (view 0) ltac:(cbn; lia) ltac:(cbn; lia) t 0 sd u2 (snd_of t f)) as [B2 _].
  specialize (B1 0%Z ltac:(unfold npix; cbn; lia)). specialize (B2 0%Z ltac:(unfold npix; cbn; lia)).
  assert (P : forall r : arr R, plane (view 0) t 0 r 0%Z = r 0%Z).
  { intros r. unfold plane, loc. cbn [ngridx ngridy view]. destruct (t =? 0)%Z; [|destruct (t =? 1)%Z]; reflexivity. }
  rewrite !P in B1, B2. rewrite E0, E1 in B1. rewrite E0, E2 in B2.
  assert (Ar : all_rays (view 0) = [(0%Z, 0%Z)]) by reflexivity.
  unfold hits_sum, vupd, misfit in B1, B2. rewrite Ar in B1, B2. unfold lsum, rsum in B1, B2. cbn [map fold_right] in B1, B2. rewrite view_0 in B1, B2.
  assert (W : wt [(0%Z, 1)] 0 = 1) by (cbn; lra). rewrite W in B1, B2.
  assert (Q : sum_dist2 [(0%Z, 1)] = 1) by (cbn; lra). rewrite Q in B1, B2.
  change (ind_data (view 0) 0 0 0) with 0%Z in B1, B2.
  assert (D : dot [(0%Z, 1)] (seen_field (view 0) a 0 f (dirs (view 0) 0)) = - (if known_axis a then first a f 0%Z else 0)).
  { unfold dot, rsum. cbn [map fold_right]. unfold seen_field. destruct (known_axis a); [|lra]. unfold along, dirs. cbn [theta view fst snd].
    rewrite cos_0, sin_0. assert (forall r : arr R, plane (view 0) a 0 r 0%Z = r 0%Z) as Pa.
    { intros r. unfold plane, loc. cbn [ngridx ngridy view]. destruct (a =? 0)%Z; [|destruct (a =? 1)%Z]; reflexivity. }
    rewrite !Pa. unfold first, fst_of. lra. }
  rewrite D in B1, B2. unfold dirs in B1, B2. cbn [theta view fst snd] in B1, B2. rewrite cos_0 in B1. rewrite sin_0 in B2.
  destruct (Req_EM_T 1 0) as [|_] in B1, B2; [lra|]. destruct (Req_EM_T (1 + 0) 0) as [|_] in B1, B2; [lra|].
  change (first t) with (fst_of t). change (second t) with (snd_of t). change (rest t) with (third_of t). rewrite S1, S2, S3, B1, B2.
  split; [field|split; [field|reflexivity]].
Qed.

(** Finding: the second geometry is not used.  Exact data of one field, seen at 0 degrees across axis 1 and at 90
    degrees across axis 2: the first component of the exact field is overwritten with the third. *)
Theorem C84_geometry_ignored : forall g1 g2 g3 g2' g3' data1 data2 data3 n a1 a2 a3 f,
  vector2 g1 g2 data1 data2 n a1 a2 f = vector2 g1 g2' data1 data2 n a1 a2 f /\
  vector3 g1 g2 g3 data1 data2 data3 n a1 a2 a3 f = vector3 g1 g2' g3' data1 data2 data3 n a1 a2 a3 f.
Proof. split; reflexivity. Qed.
Theorem C84_second_geometry_refuted : forall f data1 data2,
  data1 0%Z = project3 (view 0) f 1 (fun _ => 0) 0%Z -> data2 0%Z = project3 (view (PI / 2)) f 2 (fun _ => 0) 0%Z ->
  explains (view 0) data1 1 f /\ explains (view (PI / 2)) data2 2 f /\
  comp1 (vector2 (view 0) (view (PI / 2)) data1 data2 1 1 2 f) 0%Z = comp3 f 0%Z.
Proof.
  intros f data1 data2 H1 H2.
  assert (P : forall t a, is_axis a -> project3 (view t) f a (fun _ => 0) 0%Z
    = - ray_sum (rays (view t) 0 0 0) (flow t (cut (view t) a 0 (first a f)) (cut (view t) a 0 (second a f)))).
  { intros t a Ha. pose proof (C82_project3 (view t) f a (fun _ => 0) 0 0 0 (view_valid t) Ha ltac:(cbn; lia) ltac:(split; cbn; lia)) as P.
    change (ind_data (view t) 0 0 0) with 0%Z in P. rewrite P. cbn [theta view]. lra. }
  assert (X : forall t data a, data 0%Z = - ray_sum (rays (view t) 0 0 0) (flow t (cut (view t) a 0 (first a f)) (cut (view t) a 0 (second a f))) -> explains (view t) data a f).
  { intros t data a E s p d Hs [Hp Hd]. cbn in Hs, Hp, Hd. assert (s = 0%Z) as -> by lia. assert (p = 0%Z) as -> by lia. assert (d = 0%Z) as -> by lia.
    change (ind_data (view t) 0 0 0) with 0%Z. rewrite E. reflexivity. }
  rewrite P in H1, H2 by (unfold is_axis; lia). split; [now apply X|]. split; [now apply X|].
  rewrite view_0 in H1. unfold ray_sum, rsum in H1. cbn [map fold_right] in H1. rewrite view_90 in H2. unfold flow in H1, H2.
  rewrite cos_0, sin_0 in H1. rewrite cos_PI2, sin_PI2 in H2. unfold cut, at3 in H1, H2. cbn in H1, H2.
  unfold vector2. change 1%Z with (0 + 1)%Z at 1. rewrite for_S, for_0 by lia.
  pose proof (view_pass data1 1 1 f ltac:(unfold is_axis; lia)) as V1. cbv zeta in V1.
  set (h := pass (view 0) data1 1 1 f) in *.
  pose proof (view_pass data2 2 2 h ltac:(unfold is_axis; lia)) as V2. cbv zeta in V2.
  destruct V1 as (A1 & A2 & A3), V2 as (B1 & B2 & B3). unfold first, second, rest, known_axis in *. cbn [Z.eqb orb Pos.eqb] in *. cbv iota in *.
  rewrite B1, A3, H2. lra.
Qed.
(** Finding: the axes only select what is simulated; what is updated is fixed.  Exact data of the field (1, 0, 0)
    across axes 0 and 2, from the zero field: the second component becomes 1 and remains 1. *)
Theorem C84_axes_refuted : forall g2 n f, (1 <= n)%Z -> (forall i, comp1 f i = 0 /\ comp2 f i = 0 /\ comp3 f i = 0) ->
  let exact := mkField (fun _ => 1) (fun _ => 0) (fun _ => 0) in
  let data := fun _ : Z => - 1 in
  let r := vector2 (view 0) g2 data data n 0 2 f in
  explains (view 0) data 0 exact /\ explains (view 0) data 2 exact /\ comp1 r 0%Z = 1 /\ comp2 r 0%Z = 1 /\ comp3 r 0%Z = 0.
Proof.
  intros g2 n f Hn Hf exact data r.
  assert (X : forall a, a = 0%Z \/ a = 2%Z -> explains (view 0) data a exact).
  { intros a Ha s p d Hs [Hp Hd]. cbn in Hs, Hp, Hd. assert (s = 0%Z) as -> by lia. assert (p = 0%Z) as -> by lia. assert (d = 0%Z) as -> by lia.
    rewrite view_0. unfold ray_sum, rsum, flow. cbn [map fold_right theta view]. rewrite cos_0, sin_0. unfold cut, at3, data.
    destruct Ha as [-> | ->]; cbn; lra. }
  split; [apply X; auto|]. split; [apply X; auto|].
  assert (St : forall h, let h' := pass (view 0) data 2 2 (pass (view 0) data 0 1 h) in
    comp1 h' 0%Z = 1 /\ comp2 h' 0%Z = comp2 h 0%Z + 1 - comp1 h 0%Z /\ comp3 h' 0%Z = comp3 h 0%Z).
  { intros h. cbv zeta. pose proof (view_pass data 0 1 h ltac:(unfold is_axis; lia)) as V1. cbv zeta in V1. set (k := pass (view 0) data 0 1 h) in *.
    pose proof (view_pass data 2 2 k ltac:(unfold is_axis; lia)) as V2. cbv zeta in V2. destruct V1 as (A1 & A2 & A3), V2 as (B1 & B2 & B3).
    unfold first, second, rest, known_axis in *. cbn [Z.eqb orb Pos.eqb] in *. cbv iota in *. unfold data in *.
    rewrite B1, B3, B2, A1, A2. lra. }
  unfold r, vector2. replace n with (n - 1 + 1)%Z by lia. assert (0 <= n - 1)%Z as H by lia. clear Hn. revert H. generalize (n - 1)%Z. clear n r.
  intros n Hn. revert n Hn. apply natlike_ind.
  - rewrite for_S, for_0 by lia. specialize (St f). cbv zeta in St. destruct (Hf 0%Z) as (F1 & F2 & F3). rewrite F1, F2, F3 in St.
    destruct St as (S1 & S2 & S3). rewrite S1, S2, S3. lra.
  - intros n Hn IH. rewrite <- Z.add_1_r, for_S by lia. set (h := for_ _ _ f) in *. specialize (St h). cbv zeta in St.
    destruct St as (S1 & S2 & S3). destruct IH as (I1 & I2 & I3). rewrite S1, S2, S3, I1, I2, I3. lra.
Qed.
(** Finding: an axis that does not exist is accepted; nothing is simulated and the data are added again and again. *)
Theorem C84_no_axis_refuted : forall g2 data1 data2 n a1 f, ~ is_axis a1 -> (0 <= n)%Z ->
  comp2 (vector2 (view 0) g2 data1 data2 n a1 2 f) 0%Z = comp2 f 0%Z - IZR n * data1 0%Z.
Proof.
  intros g2 data1 data2 n a1 f Ha Hn.
  assert (Hk : known_axis a1 = false) by (destruct (known_axis a1) eqn:E; auto; destruct Ha; now apply is_axis_known).
  unfold vector2. revert n Hn. apply natlike_ind; [rewrite for_0 by lia; lra|].
  intros n Hn IH. rewrite <- Z.add_1_r, for_S, plus_IZR by lia. set (h := for_ n _ f) in *.
  pose proof (view_pass data1 a1 1 h ltac:(unfold is_axis; lia)) as V1. cbv zeta in V1. set (k := pass (view 0) data1 a1 1 h) in *.
  pose proof (view_pass data2 2 2 k ltac:(unfold is_axis; lia)) as V2. cbv zeta in V2. rewrite Hk in V1. destruct V1 as (A1 & _), V2 as (_ & _ & B3).
  unfold first, rest in *. cbn [Z.eqb Pos.eqb] in *. cbv iota in *. rewrite B3, A1, IH. lra.
Qed.

(** ** Examples *)
Example C82_ex : project2 (view 0) (fun _ => 3) (fun _ => 5) (fun _ => 10) 0%Z = 7.
Proof.
  change 0%Z with (ind_data (view 0) 0 0 0) at 2. rewrite C82_project2; [|apply view_valid|cbn; lia|split; cbn; lia].
  rewrite view_0. unfold ray_sum, flow, rsum, image_of. cbn [map fold_right theta view]. rewrite cos_0, sin_0. lra.
Qed.
Lemma view_hit : every_pixel_hit (view 0).
Proof.
  intros s j Hs Hj. unfold is_pixel, npix in Hj. cbn in Hs, Hj. assert (s = 0%Z) as -> by lia. assert (j = 0%Z) as -> by lia.
  unfold pixel_total, total. cbn [dt dx view]. change (zrange 0 1) with [0%Z]. unfold rsum. cbn [map fold_right]. rewrite view_0. cbn. lra.
Qed.
(** One ray: the misfit of 2 goes into the component along the ray. *)
Example C83_ex : let r := vector (view 0) (fun _ => - 2) 1 (fun _ => Some 0, fun _ => Some 4) in fst r 0%Z = Some 2 /\ snd r 0%Z = Some 4.
Proof.
  destruct (C83_step (view 0) (fun _ => - 2) 0 (fun _ => Some 0, fun _ => Some 4) (fun _ _ => 0) (fun _ _ => 4)) as [H1 H2];
    [apply view_valid|apply view_hit|lia|intros s j _ _; reflexivity|intros s j _ _; reflexivity|].
  specialize (H1 0%Z 0%Z ltac:(cbn; lia) ltac:(unfold is_pixel, npix; cbn; lia)). specialize (H2 0%Z 0%Z ltac:(cbn; lia) ltac:(unfold is_pixel, npix; cbn; lia)).
  change (0 + 0 * npix (view 0))%Z with 0%Z in H1, H2. change (0 + 1)%Z with 1%Z in H1, H2. cbv zeta.
  assert (T : forall k, total (dt (view 0)) (fun p => total (dx (view 0)) (fun d => k (theta (view 0) p) * gap (view 0) (fun _ => - 2) 0 (fun _ => 0) (fun _ => 4) p d * inside_length (rays (view 0) 0 p d) 0)) = k 0 * - 2).
  { intros k. unfold total, rsum. cbn [dt dx view]. change (zrange 0 1) with [0%Z]. cbn [map fold_right]. unfold gap. cbv zeta. rewrite view_0.
    unfold total_square, inside_length, ray_sum, rsum, flow. cbn [map fold_right theta view Z.eqb]. rewrite cos_0, sin_0. destruct (Req_EM_T _ 0); [lra|field]. }
  assert (C : pixel_total (view 0) 0 0 = 1).
  { unfold pixel_total, total, rsum. cbn [dt dx view]. change (zrange 0 1) with [0%Z]. cbn [map fold_right]. rewrite view_0. unfold inside_length, rsum. cbn. lra. }
  unfold corrected in H1, H2. rewrite T, C in H1, H2. rewrite cos_0 in H1. rewrite sin_0 in H2. destruct (Req_EM_T 1 0) as [|_] in H1, H2; [lra|].
  rewrite H1, H2. split; f_equal; lra.
Qed.
Example C84_ex : valid (view 0) /\ cube (view 0) /\
  let r := vector2 (view 0) (view 0) (fun _ => - 2) (fun _ => - 3) 1 1 2 (mkField (fun _ => 0) (fun _ => 0) (fun _ => 0)) in
  comp1 r 0%Z = 3 /\ comp2 r 0%Z = 2 /\ comp3 r 0%Z = 0.
Proof.
  split; [apply view_valid|]. split; [split; reflexivity|]. cbv zeta. 
  set (f := mkField _ _ _).
  assert (F : vector2 (view 0) (view 0) (fun _ => - 2) (fun _ => - 3) 1 1 2 f = pass (view 0) (fun _ => - 3) 2 2 (pass (view 0) (fun _ => - 2) 1 1 f)) by reflexivity.
  rewrite F. clear F. pose proof (view_pass (fun _ => - 2) 1 1 f ltac:(unfold is_axis; lia)) as V1. cbv zeta in V1. set (k := pass (view 0) _ 1 1 f) in *.
  pose proof (view_pass (fun _ => - 3) 2 2 k ltac:(unfold is_axis; lia)) as V2. cbv zeta in V2. destruct V1 as (A1 & A2 & A3), V2 as (B1 & B2 & B3).
  unfold first, second, rest, known_axis in *. cbn [Z.eqb orb Pos.eqb] in *. cbv iota in *. rewrite B1, B2, B3, A1, A2, A3. unfold f. cbn. lra.
Qed.
Print Assumptions C82_project3.
Print Assumptions C82_project2.
Print Assumptions C82_components.
Print Assumptions C82_opposite.
Print Assumptions C82_reads.
Print Assumptions C82_outside_refuted.
Print Assumptions C82_no_axis.
Print Assumptions C83_step.
Print Assumptions C83_finite.
Print Assumptions C83_fixed_point.
Print Assumptions C83_unhit_refuted.
Print Assumptions C83_never_farther_partial.
Print Assumptions C84_vector2_step.
Print Assumptions C84_vector3_step.
Print Assumptions C84_start.
Print Assumptions C84_fixed_point.
Print Assumptions C84_never_farther_partial.
Print Assumptions C84_geometry_ignored.
Print Assumptions C84_second_geometry_refuted.
Print Assumptions C84_axes_refuted.
Print Assumptions C84_no_axis_refuted.
