(** Proofs about Model_Vector: rays with pixel coordinates as sparse vectors, one pass as a step on planes. *)
From Verif Require Import Base CLoop Model_Prep Model_Ray Model_Solver Model_Vector Proofs_Prep Proofs_Morph Proofs_Ray Properties_Ray
  Proofs_Solver Proofs_Art Proofs_Subsets Proofs_Bart.
From Coq Require Import Reals Lra Psatz.
Local Open Scope R_scope.

(** ** loops that touch distinct places *)
Definition cells (a b : Z) : list (Z * Z) := flat_map (fun m => map (pair m) (zrange 0 b)) (zrange 0 a).
Lemma in_cells a b m n : In (m, n) (cells a b) <-> (0 <= m < a)%Z /\ (0 <= n < b)%Z.
Proof.
  unfold cells. rewrite in_flat_map. split.
  - intros (q & Hq & H). apply in_map_iff in H as (d & [= <- <-] & Hd). rewrite in_zrange in Hq, Hd. auto.
  - intros [Hm Hn]. exists m. rewrite in_zrange. split; auto. apply in_map_iff. exists n. rewrite in_zrange. auto.
Qed.
Lemma NoDup_cells a b : NoDup (cells a b).
Proof.
  unfold cells. assert (H : NoDup (zrange 0 a)) by apply NoDup_zrange. induction (zrange 0 a) as [|q l IH]; cbn [flat_map]; [constructor|].
  inversion H as [|? ? Hni Hl]; subst. apply NoDup_app_iff'; repeat split; auto.
  - apply FinFun.Injective_map_NoDup; [intros x y [= ->]; auto|apply NoDup_zrange].
  - intros [p d] H1 H2. apply in_map_iff in H1 as (d' & [= <- <-] & _). apply in_flat_map in H2 as (q' & Hq & H2).
    apply in_map_iff in H2 as (d'' & [= -> <-] & _). auto.
Qed.
Lemma for_cells {S} (F : Z -> Z -> S -> S) a b st :
  for_ a (fun m => for_ b (fun n => F m n)) st = fold_left (fun st '(m, n) => F m n st) (cells a b) st.
Proof. exact (fold_pairs F (fun q => q) 0 a b st). Qed.
Lemma fold_places {A V} (key : A -> Z) (skip : A -> bool) (val : A -> V -> V) l : NoDup l ->
  (forall x y, In x l -> In y l -> key x = key y -> x = y) -> forall r : arr V,
  let r' := fold_left (fun r a => if skip a then r else aset r (key a) (val a (r (key a)))) l r in
  (forall a, In a l -> r' (key a) = if skip a then r (key a) else val a (r (key a))) /\
  (forall i, (forall a, In a l -> i <> key a) -> r' i = r i).
Proof.
  induction l as [|a l IH]; intros Hn Hk r; cbn [fold_left]; [split; [intros a []|auto]|].
  inversion Hn as [|? ? Hni Hl]; subst.
  destruct (IH Hl ltac:(intros x y Hx Hy; apply Hk; now right) (if skip a then r else aset r (key a) (val a (r (key a))))) as [H1 H2].
  assert (Hne : forall b, In b l -> key b <> key a).
  { intros b Hb E. apply Hk in E; [subst; auto|now right|now left]. }
  split.
  - intros b [<-|Hb].
    + rewrite H2 by (intros c Hc E; apply (Hne c Hc); auto). destruct (skip a); auto. apply aset_eq.
    + rewrite H1 by auto. destruct (skip a); auto. rewrite !aset_ne by auto. reflexivity.
  - intros i Hi. rewrite H2 by (intros; apply Hi; now right). destruct (skip a); auto. apply aset_ne. apply Hi. now left.
Qed.

(** ** rays with coordinates *)
Definition flat (rz : Z) (segs : list (Z * Z * R)) : list (Z * R) := map (fun '(x, y, w) => (y + x * rz, w)%Z) segs.
Definition inside2 (ry rz : Z) (segs : list (Z * Z * R)) : Prop := forall x y w, In (x, y, w) segs -> (0 <= x < ry)%Z /\ (0 <= y < rz)%Z.
Lemma flat_rays2 g c p d : flat (ngridy g) (rays2 g c p d) = rays g c p d.
Proof. unfold flat, rays2, rays, ray, segments2, segments. rewrite map_map. reflexivity. Qed.
Lemma inside_rays2 g c p d : (1 <= ngridx g)%Z -> (1 <= ngridy g)%Z -> inside2 (ngridx g) (ngridy g) (rays2 g c p d).
Proof.
  intros Hx Hy x y w Hi. unfold rays2, segments2 in Hi.
  destruct (ray_trace_eq (ngridx g) (ngridy g) (dx g) (center g c) (theta g p) d) as (q & E & _). rewrite E in Hi.
  pose proof (xi_ne (ngridx g) (ngridy g) Hx Hy).
  apply in_map_iff in Hi as (n & [= <- <- <-] & Hn). apply in_zrange in Hn. now apply pixel_range.
Qed.
Lemma sum_dist2_flat rz segs : sum_dist2_of segs = sum_dist2 (flat rz segs).
Proof.
  unfold sum_dist2_of, sum_dist2, flat. generalize 0. induction segs as [|[[x y] w] l IH]; intros a; cbn [map fold_left]; auto.
Qed.
Lemma add_dist2_spec g segs sd j : add_dist2 g segs sd j = sd j + wt (flat (ngridy g) segs) j.
Proof.
  unfold add_dist2, flat. revert sd. induction segs as [|[[x y] w] l IH]; intros sd; cbn [map fold_left wt]; [lra|].
  rewrite IH. unfold aset. destruct (j =? y + x * ngridy g)%Z eqn:E; [apply Z.eqb_eq in E; subst|]; lra.
Qed.
Lemma add_update_spec g segs upd v u j : add_update g segs upd v u j = u j + upd * v * wt (flat (ngridy g) segs) j.
Proof.
  unfold add_update, flat. revert u. induction segs as [|[[x y] w] l IH]; intros u; cbn [map fold_left wt]; [lra|].
  rewrite IH. unfold aset. destruct (j =? y + x * ngridy g)%Z eqn:E; [apply Z.eqb_eq in E; subst|]; lra.
Qed.
(** Plane s of an array, along an axis. *)
Definition plane {V} (g : geom) (axis s : Z) (a : arr V) : Z -> V := fun j => a (loc g axis s (j / ngridy g) (j mod ngridy g))%Z.
Definition along (v : R * R) (m1 m2 : Z -> R) : Z -> R := fun j => m1 j * fst v + m2 j * snd v.
Lemma pixel_div g x y : (0 <= y < ngridy g)%Z -> ((y + x * ngridy g) / ngridy g = x /\ (y + x * ngridy g) mod ngridy g = y)%Z.
Proof. intros H. rewrite Z.div_add, Z.mod_add, Z.div_small, Z.mod_small by lia. lia. Qed.
Lemma simdata2_spec g segs v axis s idx mx my sd i : inside2 (ngridx g) (ngridy g) segs ->
  simdata2 g segs v axis s idx mx my sd i =
  sd i + (if (i =? idx)%Z then dot (flat (ngridy g) segs) (along v (plane g axis s mx) (plane g axis s my)) else 0).
Proof.
  unfold simdata2, dot, flat, along, plane, rsum. revert sd. induction segs as [|[[x y] w] l IH]; intros sd Hin; cbn [map fold_left].
  - destruct (i =? idx)%Z; cbn; lra.
  - rewrite IH by (intros a b c H; apply (Hin a b c); now right). destruct (Hin x y w ltac:(now left)) as [_ Hy].
    cbn [fold_right]. destruct (pixel_div g x y Hy) as [-> ->]. unfold aset.
    destruct (i =? idx)%Z eqn:E; [apply Z.eqb_eq in E; subst|]; lra.
Qed.
(** What the field looks like to a ray. *)
Definition seen_field (g : geom) (axis s : Z) (f : field) (v : R * R) : Z -> R :=
  if known_axis axis then along v (plane g axis s (fst_of axis f)) (plane g axis s (snd_of axis f)) else fun _ => 0.
Lemma simdata3_spec g segs v axis s idx f sd i : inside2 (ngridx g) (ngridy g) segs ->
  simdata3 g segs v axis s idx f sd i = sd i + (if (i =? idx)%Z then dot (flat (ngridy g) segs) (seen_field g axis s f v) else 0).
Proof.
  intros Hin. unfold simdata3, seen_field. destruct (known_axis axis); [now apply simdata2_spec|].
  destruct (i =? idx)%Z; [|lra]. unfold dot, rsum. induction (flat (ngridy g) segs) as [|[k w] l IH]; cbn in *; [lra|]. lra.
Qed.

(** ** direction of a ray *)
Lemma fmod_sincos t : sin (fmod t (2 * PI)) = sin t /\ cos (fmod t (2 * PI)) = cos t.
Proof.
  destruct (fmod_spec t (2 * PI)) as [_ [k E]]; [pose proof PI_RGT_0; lra|]. rewrite E.
  assert (P : forall n x, sin (x + 2 * INR n * PI) = sin x /\ cos (x + 2 * INR n * PI) = cos x) by (intros; split; [apply sin_period|apply cos_period]).
  destruct (Z.le_gt_cases 0 k) as [H|H].
  - destruct (P (Z.to_nat k) (t - 2 * PI * IZR k)) as [P1 P2]. rewrite INR_IZR_INZ, Z2Nat.id in P1, P2 by lia.
    replace (t - 2 * PI * IZR k + 2 * IZR k * PI) with t in P1, P2 by ring. auto.
  - destruct (P (Z.to_nat (- k)) t) as [P1 P2]. rewrite INR_IZR_INZ, Z2Nat.id, opp_IZR in P1, P2 by lia.
    replace (t + 2 * - IZR k * PI) with (t - 2 * PI * IZR k) in P1, P2 by ring. auto.
Qed.
Lemma ray_dir_spec g c p d : (1 <= ngridx g)%Z -> (1 <= ngridy g)%Z -> ray_dir g c p d = (- cos (theta g p), - sin (theta g p)).
Proof.
  intros Hx Hy. unfold ray_dir, direction, pixel_line, ray_line. cbn [srcx srcy detx dety].
  destruct (fmod_sincos (theta g p)) as [-> ->]. set (t := theta g p). set (u := _ + mov _ _).
  assert (Hxi : - IZR (ngridx g) - IZR (ngridy g) < 0) by (apply IZR_le in Hx, Hy; lra).
  set (xi := - IZR (ngridx g) - IZR (ngridy g)) in *.
  pose proof (sincos1 t) as E.
  assert (Hs : sqrt ((xi * cos t - u * sin t - (- xi * cos t - u * sin t)) * (xi * cos t - u * sin t - (- xi * cos t - u * sin t)) +
               (xi * sin t + u * cos t - (- xi * sin t + u * cos t)) * (xi * sin t + u * cos t - (- xi * sin t + u * cos t))) = - 2 * xi).
  { match goal with |- sqrt ?e = _ => replace e with ((- 2 * xi) * (- 2 * xi)) end.
    - apply sqrt_square. lra.
    - replace ((- 2 * xi) * (- 2 * xi)) with ((- 2 * xi) * (- 2 * xi) * (sin t * sin t + cos t * cos t)) by (rewrite E; ring). ring. }
  rewrite Hs. f_equal; field; lra.
Qed.

(** ** one plane *)
Section Pass.
  Variable g : geom.
  Hypothesis Hgx : (1 <= ngridx g)%Z.
  Hypothesis Hgy : (1 <= ngridy g)%Z.
  Variable data : arr R.
  Let N := npix g.
  Definition dirs (p : Z) : R * R := (- cos (theta g p), - sin (theta g p)).
  (** correction of component k of pixel j by the rays in L *)
  Definition misfit (s : Z) (look : R * R -> Z -> R) (p d : Z) : R :=
    if Req_EM_T (sum_dist2 (rays g s p d)) 0 then 0
    else (data (ind_data g s p d) - dot (rays g s p d) (look (dirs p))) / sum_dist2 (rays g s p d).
  Definition vupd (s : Z) (L : list (Z * Z)) (look : R * R -> Z -> R) (k : R * R -> R) (j : Z) : R :=
    lsum (fun '(p, d) => misfit s look p d * k (dirs p) * wt (rays g s p d) j) L.
  Definition all_rays : list (Z * Z) := cells (dt g) (dx g).

  Variables axis target : Z.
  Lemma pass_rays s f L : (forall p d, In (p, d) L -> (0 <= p < dt g)%Z /\ (0 <= d < dx g)%Z) -> NoDup L ->
    forall sim sd u1 u2, (forall p d, In (p, d) L -> sim (ind_data g s p d) = 0) ->
    let st := fold_left (fun st '(p, d) => pass_ray g data axis s f p d st) L (sim, sd, u1, u2) in
    (forall j, snd (fst (fst st)) j = sd j + hits_sum g s L j) /\
    (forall j, snd (fst st) j = u1 j + vupd s L (seen_field g axis s f) fst j) /\
    (forall j, snd st j = u2 j + vupd s L (seen_field g axis s f) snd j) /\
    (forall x, (forall p d, In (p, d) L -> x <> ind_data g s p d) -> fst (fst (fst st)) x = sim x).
  Proof.
    induction L as [|[p d] L IH]; intros Hr Hnd sim sd u1 u2 Hz; cbn [fold_left].
    - cbn [fst snd]. unfold hits_sum, vupd, lsum. cbn. repeat split; intros; auto; lra.
    - inversion Hnd as [|? ? Hni Hnd']; subst. destruct (Hr p d ltac:(now left)) as [Hp Hd].
      pose proof (inside_rays2 g s p d Hgx Hgy) as Hin.
      assert (Es : forall i, simdata3 g (rays2 g s p d) (ray_dir g s p d) axis s (ind_data g s p d) f sim i =
               sim i + (if (i =? ind_data g s p d)%Z then dot (rays g s p d) (seen_field g axis s f (dirs p)) else 0)).
      { intros i. rewrite simdata3_spec by auto. now rewrite flat_rays2, ray_dir_spec by auto. }
      set (b := misfit s (seen_field g axis s f) p d).
      assert (Ep : exists sim' sd' u1' u2', pass_ray g data axis s f p d (sim, sd, u1, u2) = (sim', sd', u1', u2') /\
         (forall j, sd' j = sd j + wt (rays g s p d) j) /\
         (forall j, u1' j = u1 j + b * fst (dirs p) * wt (rays g s p d) j) /\
         (forall j, u2' j = u2 j + b * snd (dirs p) * wt (rays g s p d) j) /\
         (forall i, i <> ind_data g s p d -> sim' i = sim i)).
      { unfold pass_ray. cbv zeta. rewrite (sum_dist2_flat (ngridy g)), flat_rays2. unfold b, misfit.
        destruct (Req_EM_T (sum_dist2 (rays g s p d)) 0) as [E|E]; repeat eexists; intros; cbn beta;
          repeat rewrite ?add_dist2_spec, ?add_update_spec, ?flat_rays2, ?Es, ?ray_dir_spec by auto; try (cbn [fst snd dirs]; lra).
        - replace (i =? ind_data g s p d)%Z with false by lia. lra.
        - rewrite Z.eqb_refl, (Hz p d) by now left. rewrite Rplus_0_l. reflexivity.
        - rewrite Z.eqb_refl, (Hz p d) by now left. rewrite Rplus_0_l. reflexivity.
        - replace (i =? ind_data g s p d)%Z with false by lia. lra. }
      destruct Ep as (sim' & sd' & u1' & u2' & -> & A1 & A2 & A3 & A4).
      destruct (IH ltac:(intros p' d' H; apply Hr; now right) Hnd' sim' sd' u1' u2') as (B1 & B2 & B3 & B4).
      { intros p' d' Hi. rewrite A4; [apply Hz; now right|]. destruct (Hr p' d' ltac:(now right)).
        intros E. apply ind_data_inj in E as (_ & -> & ->); auto. }
      cbv zeta. repeat split.
      + intros j. rewrite B1, A1. unfold hits_sum. rewrite lsum_cons. lra.
      + intros j. rewrite B2, A2. unfold vupd. rewrite lsum_cons. fold b. lra.
      + intros j. rewrite B3, A3. unfold vupd. rewrite lsum_cons. fold b. lra.
      + intros x Hx. rewrite B4 by (intros; apply Hx; now right). apply A4. apply Hx. now left.
  Qed.

  Lemma loc_inj s m n m' n' : (0 <= m < ngridx g)%Z -> (0 <= n < ngridy g)%Z -> (0 <= m' < ngridx g)%Z -> (0 <= n' < ngridy g)%Z ->
    loc g target s m n = loc g target s m' n' -> m = m' /\ n = n'.
  Proof.
    intros H1 H2 H3 H4 E. unfold loc in E. destruct (target =? 0)%Z; [|destruct (target =? 1)%Z].
    - destruct (Z.div_mod_unique (ngridy g) m m' n n'); lia.
    - assert (ngridy g * (m + n * ngridx g) = ngridy g * (m' + n' * ngridx g))%Z as E' by lia.
      apply Z.mul_reg_l in E'; [|lia]. destruct (Z.div_mod_unique (ngridx g) n n' m m'); lia.
    - assert (m + n * (ngridx g * ngridy g) = m' + n' * (ngridx g * ngridy g))%Z as E' by lia.
      destruct (Z.div_mod_unique (ngridx g * ngridy g) n n' m m'); nia.
  Qed.
  Lemma bump_spec s sd u r :
    (forall j, (0 <= j < N)%Z -> plane g target s (bump g target s sd u r) j =
       if Req_EM_T (sd j) 0 then plane g target s r j else plane g target s r j + u j / sd j) /\
    (forall i, (forall m n, (0 <= m < ngridx g)%Z -> (0 <= n < ngridy g)%Z -> i <> loc g target s m n) -> bump g target s sd u r i = r i).
  Proof.
    unfold bump. rewrite for_cells.
    pose (key := fun mn : Z * Z => loc g target s (fst mn) (snd mn)).
    pose (skip := fun mn : Z * Z => if Req_EM_T (sd (snd mn + fst mn * ngridy g)%Z) 0 then true else false).
    pose (val := fun (mn : Z * Z) (x : R) => x + u (snd mn + fst mn * ngridy g)%Z / sd (snd mn + fst mn * ngridy g)%Z).
    assert (Ef : forall l r, fold_left (fun st '(m, n) => if Req_EM_T (sd (n + m * ngridy g)%Z) 0 then st else aset st (loc g target s m n)
             (st (loc g target s m n) + u (n + m * ngridy g)%Z / sd (n + m * ngridy g)%Z)) l r =
             fold_left (fun r a => if skip a then r else aset r (key a) (val a (r (key a)))) l r).
    { induction l as [|[m n] l IH]; intros r0; cbn [fold_left]; auto. rewrite IH. unfold skip, key, val. cbn [fst snd].
      destruct (Req_EM_T _ 0); reflexivity. }
    rewrite Ef.
    destruct (fold_places key skip val (cells (ngridx g) (ngridy g)) (NoDup_cells _ _)) with (r := r) as [H1 H2].
    { intros [m n] [m' n'] Hi Hi' E. apply in_cells in Hi as [? ?], Hi' as [? ?]. unfold key in E. cbn [fst snd] in E.
      apply loc_inj in E as [-> ->]; auto. }
    split.
    - intros j Hj. assert (Hd : (0 <= j / ngridy g < ngridx g)%Z).
      { unfold N, npix in Hj. split; [apply Z.div_pos; lia|]. apply Z.div_lt_upper_bound; lia. }
      pose proof (Z.mod_pos_bound j (ngridy g) ltac:(lia)) as Hm. unfold plane.
      specialize (H1 (j / ngridy g, j mod ngridy g)%Z ltac:(now apply in_cells)).
      etransitivity; [exact H1|]. unfold skip, val, key. cbn [fst snd].
      replace (j mod ngridy g + j / ngridy g * ngridy g)%Z with j by (pose proof (Z.div_mod j (ngridy g)); lia).
      destruct (Req_EM_T (sd j) 0); reflexivity.
    - intros i Hi. apply H2. intros [m n] Hin. apply in_cells in Hin as [? ?]. now apply Hi.
  Qed.
End Pass.

(** ** one pass *)
Definition third_of (axis : Z) (f : field) : arr R := if (axis =? 0)%Z then comp3 f else if (axis =? 1)%Z then comp1 f else comp2 f.
Definition feq (f f' : field) : Prop := forall i, comp1 f i = comp1 f' i /\ comp2 f i = comp2 f' i /\ comp3 f i = comp3 f' i.
Section Passes.
  Variable g : geom.
  Hypothesis Hgx : (1 <= ngridx g)%Z.
  Hypothesis Hgy : (1 <= ngridy g)%Z.
  Hypothesis Hdy : (0 <= dy g)%Z.
  Variable data : arr R.
  Let N := npix g.
  Definition vstep (s : Z) (look : R * R -> Z -> R) (m : Z -> R) (k : R * R -> R) (j : Z) : R :=
    let h := hits_sum g s (all_rays g) j in
    if Req_EM_T h 0 then m j else m j + vupd g data s (all_rays g) look k j / h.
  Lemma all_rays_in p d : In (p, d) (all_rays g) <-> (0 <= p < dt g)%Z /\ (0 <= d < dx g)%Z.
  Proof. apply in_cells. Qed.
  Definition clear (s : Z) (sim : arr R) : Prop := forall p d, (0 <= p < dt g)%Z -> (0 <= d < dx g)%Z -> sim (ind_data g s p d) = 0.

  Lemma slice_run axis target s f sim : clear s sim -> exists sd u1 u2 sim',
    pass_slice g data axis target s (f, sim) = (pass_store g target s sd u1 u2 f, sim') /\
    (forall j, sd j = hits_sum g s (all_rays g) j) /\
    (forall j, u1 j = vupd g data s (all_rays g) (seen_field g axis s f) fst j) /\
    (forall j, u2 j = vupd g data s (all_rays g) (seen_field g axis s f) snd j) /\
    (forall s', s' <> s -> clear s' sim -> clear s' sim').
  Proof.
    intros Hz. unfold pass_slice. rewrite for_cells. fold (all_rays g).
    pose proof (pass_rays g Hgx Hgy data axis s f (all_rays g) (fun p d => proj1 (all_rays_in p d)) (NoDup_cells _ _) sim (fun _ => 0) (fun _ => 0) (fun _ => 0)) as H.
    cbv zeta in H. destruct H as (A1 & A2 & A3 & A4).
    { intros p d Hi. apply all_rays_in in Hi as [? ?]. now apply Hz. }
    destruct (fold_left _ _ _) as [[[sim' sd] u1] u2]. cbn [fst snd] in *.
    exists sd, u1, u2, sim'. split; auto. repeat split.
    - intros j. rewrite A1. lra.
    - intros j. rewrite A2. lra.
    - intros j. rewrite A3. lra.
    - intros s' Hs Hc p d Hp Hd. rewrite A4; auto. intros p' d' Hi E. apply all_rays_in in Hi as [? ?]. apply ind_data_inj in E; auto. lia.
  Qed.
  Lemma store_of a s sd u1 u2 f : known_axis a = true ->
    fst_of a (pass_store g a s sd u1 u2 f) = bump g a s sd u1 (fst_of a f) /\
    snd_of a (pass_store g a s sd u1 u2 f) = bump g a s sd u2 (snd_of a f) /\
    third_of a (pass_store g a s sd u1 u2 f) = third_of a f.
  Proof.
    intros Ha. assert (a = 0 \/ a = 1 \/ a = 2)%Z as [-> | [-> | ->]] by (unfold known_axis in Ha; lia); repeat split.
  Qed.

  (** a field that reproduces the data stays *)
  Lemma feq_refl f : feq f f. Proof. intros i. auto. Qed.
  Lemma seen_ext axis s f f' v j : feq f f' -> seen_field g axis s f v j = seen_field g axis s f' v j.
  Proof.
    intros H. unfold seen_field, along, plane, fst_of, snd_of. destruct (known_axis axis); auto.
    set (i := loc _ _ _ _ _). destruct (H i) as (E1 & E2 & E3).
    destruct (axis =? 1)%Z, (axis =? 0)%Z; rewrite ?E1, ?E2, ?E3; reflexivity.
  Qed.
  Lemma bump_zero target s sd u r r0 : (forall j, u j = 0) -> (forall i, r i = r0 i) -> forall i, bump g target s sd u r i = r0 i.
  Proof.
    intros Hu Hr. unfold bump. rewrite for_cells. revert r Hr. induction (cells (ngridx g) (ngridy g)) as [|[m n] l IH]; intros r Hr; auto.
    cbn [fold_left]. apply IH. intros i. destruct (Req_EM_T _ 0); auto. unfold aset. destruct (i =? _)%Z eqn:E; auto.
    apply Z.eqb_eq in E as ->. rewrite Hu, Hr. unfold Rdiv. lra.
  Qed.
  Lemma pass_fixed axis target f0 f : feq f0 f ->
    (forall s p d, (0 <= s < dy g)%Z -> (0 <= p < dt g)%Z -> (0 <= d < dx g)%Z ->
       dot (rays g s p d) (seen_field g axis s f (dirs g p)) = data (ind_data g s p d)) ->
    feq (pass g data axis target f0) f.
  Proof.
    intros Hf Hd. unfold pass.
    pose (I k (st : field * arr R) := feq (fst st) f /\ forall s, (k <= s)%Z -> clear s (snd st)).
    enough (I (dy g) (for_ (dy g) (pass_slice g data axis target) (f0, fun _ => 0))) as [H _] by exact H.
    apply (for_inv I); auto.
    - split; auto. intros s _ p d _ _. reflexivity.
    - intros k [f' sim] Hk [I1 I2]. cbn [fst snd] in *.
      destruct (slice_run axis target k f' sim (I2 k ltac:(lia))) as (sd & u1 & u2 & sim' & -> & _ & E1 & E2 & E3).
      assert (Z : forall c j, vupd g data k (all_rays g) (seen_field g axis k f') c j = 0).
      { intros c j. unfold vupd. rewrite (lsum_ext _ (fun _ => 0)); [clear; unfold lsum, rsum; induction (all_rays g); cbn in *; lra|].
        intros [p d] Hi. apply all_rays_in in Hi as [Hp Hdd]. unfold misfit. destruct (Req_EM_T _ 0); [lra|].
        rewrite (dot_ext N _ _ (seen_field g axis k f (dirs g p))), Hd by (auto using seen_ext; now apply rays_grid).
        unfold Rdiv. ring. }
      split.
      + cbn [fst]. assert (U1 : forall j, u1 j = 0) by (intros; rewrite E1; apply Z). assert (U2 : forall j, u2 j = 0) by (intros; rewrite E2; apply Z).
        intros i. unfold pass_store. destruct (target =? 0)%Z; [|destruct (target =? 1)%Z]; cbn [comp1 comp2 comp3];
          repeat split; try (apply bump_zero; auto; intros q; apply (I1 q)); apply I1.
      + cbn [snd]. intros s Hs. apply E3; [lia|]. apply I2. lia.
  Qed.

  Lemma pixel_in j : (0 <= j < N)%Z -> (0 <= j / ngridy g < ngridx g)%Z /\ (0 <= j mod ngridy g < ngridy g)%Z.
  Proof.
    clear - Hgx Hgy. intros Hj. unfold N, npix in Hj. split; [|apply Z.mod_pos_bound; lia]. split; [apply Z.div_pos; lia|]. apply Z.div_lt_upper_bound; lia.
  Qed.
  (** planes are corrected independently *)
  Variable a : Z.
  Hypothesis Ha : known_axis a = true.
  Hypothesis Hdis : forall s s' m n m' n', (0 <= s < dy g)%Z -> (0 <= s' < dy g)%Z -> (0 <= m < ngridx g)%Z -> (0 <= n < ngridy g)%Z ->
    (0 <= m' < ngridx g)%Z -> (0 <= n' < ngridy g)%Z -> loc g a s m n = loc g a s' m' n' -> s = s'.
  Lemma bump_other s s' sd u r j : (0 <= s < dy g)%Z -> (0 <= s' < dy g)%Z -> s' <> s -> (0 <= j < N)%Z ->
    plane g a s' (bump g a s sd u r) j = plane g a s' r j.
  Proof.
    intros Hs Hs' Hne Hj. destruct (pixel_in j Hj). unfold plane. apply (bump_spec g Hgx Hgy a). intros m n Hm Hn E. apply Hne. exact (Hdis s' s _ _ _ _ Hs' Hs H H0 Hm Hn E).
  Qed.
  Lemma vupd_ext s look look' c j : (forall v i, (0 <= i < N)%Z -> look v i = look' v i) ->
    vupd g data s (all_rays g) look c j = vupd g data s (all_rays g) look' c j.
  Proof.
    intros H. unfold vupd. apply lsum_ext. intros [p d] _. do 2 f_equal. unfold misfit. destruct (Req_EM_T _ 0); auto.
    rewrite (dot_ext N _ _ (look' (dirs g p))); auto. now apply rays_grid.
  Qed.
  Lemma pass_planes f s j : (0 <= s < dy g)%Z -> (0 <= j < N)%Z ->
    plane g a s (fst_of a (pass g data a a f)) j = vstep s (seen_field g a s f) (plane g a s (fst_of a f)) fst j /\
    plane g a s (snd_of a (pass g data a a f)) j = vstep s (seen_field g a s f) (plane g a s (snd_of a f)) snd j /\
    third_of a (pass g data a a f) = third_of a f.
  Proof.
    intros Hs Hj. unfold pass.
    pose (I k (st : field * arr R) :=
      (forall s, (k <= s)%Z -> clear s (snd st)) /\ third_of a (fst st) = third_of a f /\
      (forall s j, (0 <= s < k)%Z -> (0 <= j < N)%Z ->
         plane g a s (fst_of a (fst st)) j = vstep s (seen_field g a s f) (plane g a s (fst_of a f)) fst j /\
         plane g a s (snd_of a (fst st)) j = vstep s (seen_field g a s f) (plane g a s (snd_of a f)) snd j) /\
      (forall s j, (k <= s < dy g)%Z -> (0 <= j < N)%Z ->
         plane g a s (fst_of a (fst st)) j = plane g a s (fst_of a f) j /\ plane g a s (snd_of a (fst st)) j = plane g a s (snd_of a f) j)).
    assert (I (dy g) (for_ (dy g) (pass_slice g data a a) (f, fun _ => 0))) as (_ & H1 & H2 & _).
    2:{ destruct (H2 s j Hs Hj). auto. }
    clear s j Hs Hj. apply (for_inv I); auto.
    - split; [intros s _ p d _ _; reflexivity|]. split; auto. split; [intros; lia|auto].
    - intros k [f' sim] Hk (I1 & I2 & I3 & I4). cbn [fst snd] in *.
      destruct (slice_run a a k f' sim (I1 k ltac:(lia))) as (sd & u1 & u2 & sim' & -> & E0 & E1 & E2 & E3). cbn [fst snd].
      destruct (store_of a k sd u1 u2 f' Ha) as (S1 & S2 & S3). unfold I. cbn [fst snd]. rewrite S1, S2, S3.
      assert (X : forall v i, (0 <= i < N)%Z -> seen_field g a k f' v i = seen_field g a k f v i).
      { intros v i Hi. unfold seen_field. rewrite Ha. unfold along. destruct (I4 k i ltac:(lia) Hi) as [-> ->]. reflexivity. }
      split; [intros s Hs; apply E3; [lia|apply I1; lia]|]. split; auto. split.
      + intros s j Hs Hj. destruct (Z.eq_dec s k) as [->|Hne].
        * destruct (I4 k j ltac:(lia) Hj) as [J1 J2]. unfold vstep. cbv zeta.
          rewrite <- (vupd_ext k (seen_field g a k f') (seen_field g a k f)), <- (vupd_ext k (seen_field g a k f') (seen_field g a k f)) by auto.
          rewrite <- E1, <- E2, <- E0, <- J1, <- J2. split; now apply (bump_spec g Hgx Hgy a).
        * rewrite !bump_other by (auto; lia). apply I3; auto. lia.
      + intros s j Hs Hj. rewrite !bump_other by (auto; lia). apply I4; auto. lia.
  Qed.
End Passes.

(** ** a step never moves away from a solution *)
Section Closer.
  Variable g : geom.
  Hypothesis Hgx : (1 <= ngridx g)%Z.
  Hypothesis Hgy : (1 <= ngridy g)%Z.
  Variable data : arr R.
  Let N := npix g.
  Variable s : Z.
  Let L := all_rays g.
  Definition wssd2 (m1 m2 z1 z2 : Z -> R) : R :=
    zsum N (fun j => hits_sum g s L j * ((m1 j - z1 j) * (m1 j - z1 j) + (m2 j - z2 j) * (m2 j - z2 j))).
  Local Notation a pd j := (wt (rays g s (fst pd) (snd pd)) j).
  Local Notation c j := (hits_sum g s L j).
  Local Notation s2 pd := (sum_dist2 (rays g s (fst pd) (snd pd))).
  Local Notation v pd := (dirs g (fst pd)).
  Lemma dot_along segs w m1 m2 : dot segs (along w m1 m2) = fst w * dot segs m1 + snd w * dot segs m2.
  Proof. unfold dot, along, rsum. induction segs as [|[i x] l IH]; cbn in *; [lra|]. rewrite IH. lra. Qed.
  Lemma unit_dir (pd : Z * Z) : fst (v pd) * fst (v pd) + snd (v pd) * snd (v pd) = 1.
  Proof. unfold dirs. cbn [fst snd]. pose proof (sincos1 (theta g (fst pd))). lra. Qed.
  Lemma lsum_plus {A} (f h : A -> R) l : lsum (fun x => f x + h x) l = lsum f l + lsum h l.
  Proof. induction l as [|x l IH]; [unfold lsum; cbn; lra|]. rewrite !lsum_cons, IH. lra. Qed.

  Lemma vstep_closer m1 m2 z1 z2 :
    (forall p d, (0 <= p < dt g)%Z -> (0 <= d < dx g)%Z -> dot (rays g s p d) (along (dirs g p) z1 z2) = data (ind_data g s p d)) ->
    (forall p d, (0 <= p < dt g)%Z -> (0 <= d < dx g)%Z -> rsum (map snd (rays g s p d)) <= 2 * sum_dist2 (rays g s p d)) ->
    let look := fun w => along w m1 m2 in
    wssd2 (vstep g data s look m1 fst) (vstep g data s look m2 snd) z1 z2 <= wssd2 m1 m2 z1 z2.
  Proof.
    intros Hz Hw look.
    pose (e1 j := m1 j - z1 j). pose (e2 j := m2 j - z2 j).
    pose (ax (pd : Z * Z) := fst (v pd) * dot (rays g s (fst pd) (snd pd)) e1 + snd (v pd) * dot (rays g s (fst pd) (snd pd)) e2).
    pose (y (pd : Z * Z) := if Req_EM_T (s2 pd) 0 then 0 else - ax pd / s2 pd).
    pose (u1 j := lsum (fun pd => a pd j * (y pd * fst (v pd))) L).
    pose (u2 j := lsum (fun pd => a pd j * (y pd * snd (v pd))) L).
    assert (Hy : forall pd, In pd L -> misfit g data s look (fst pd) (snd pd) = y pd).
    { intros [p d] Hin. apply in_cells in Hin as [Hp Hd]. unfold misfit, y, ax. cbn [fst snd]. destruct (Req_EM_T _ 0); auto.
      rewrite <- (Hz p d Hp Hd). unfold look. rewrite !dot_along. unfold e1, e2. rewrite !dot_minus. f_equal. cbn [fst snd]. ring. }
    assert (Hu : forall j, vupd g data s L look fst j = u1 j /\ vupd g data s L look snd j = u2 j).
    { intros j. unfold vupd, u1, u2. split; apply lsum_ext; intros [p d] Hin; rewrite <- (Hy (p, d) Hin); cbn [fst snd]; ring. }
    assert (An : forall pd j, 0 <= a pd j) by (intros; apply wt_nonneg; intros i w; now apply rays_nonneg).
    assert (Ce : forall j, c j = lsum (fun pd => a pd j) L) by (intros; unfold hits_sum; apply lsum_ext; intros [p d] _; reflexivity).
    assert (Cn : forall j, 0 <= c j) by (intros; rewrite Ce; apply lsum_nonneg; auto).
    assert (Hj : forall j, c j * ((vstep g data s look m1 fst j - z1 j) * (vstep g data s look m1 fst j - z1 j) +
                                  (vstep g data s look m2 snd j - z2 j) * (vstep g data s look m2 snd j - z2 j))
               <= c j * (e1 j * e1 j + e2 j * e2 j) + 2 * (e1 j * u1 j + e2 j * u2 j) + lsum (fun pd => a pd j * (y pd * y pd)) L).
    { intros j. unfold vstep. cbv zeta. fold L. destruct (Hu j) as [-> ->].
      assert (Cs : u1 j * u1 j + u2 j * u2 j <= c j * lsum (fun pd => a pd j * (y pd * y pd)) L).
      { pose proof (cauchy (fun pd => a pd j) (fun pd => y pd * fst (v pd)) L (fun pd _ => An pd j)) as C1.
        pose proof (cauchy (fun pd => a pd j) (fun pd => y pd * snd (v pd)) L (fun pd _ => An pd j)) as C2.
        fold (u1 j) in C1. fold (u2 j) in C2. rewrite <- Ce in C1, C2. eapply Rle_trans; [apply Rplus_le_compat; [exact C1|exact C2]|].
        rewrite <- Rmult_plus_distr_l, <- lsum_plus. apply Req_le. f_equal. apply lsum_ext. intros pd _. cbv beta.
        replace (a pd j * (y pd * y pd)) with (a pd j * (y pd * y pd) * 1) by ring. rewrite <- (unit_dir pd). ring. }
      set (q := lsum (fun pd => a pd j * (y pd * y pd)) L) in *. pose proof (Cn j).
      destruct (Req_EM_T (c j) 0) as [E|E].
      - rewrite E in Cs |- *. assert (u1 j = 0) as -> by nra. assert (u2 j = 0) as -> by nra.
        assert (0 <= q) by (apply lsum_nonneg; intros; apply Rmult_le_pos; [auto|apply Rle_0_sqr]). lra.
      - assert (0 < c j) by lra.
        replace (c j * ((m1 j + u1 j / c j - z1 j) * (m1 j + u1 j / c j - z1 j) + (m2 j + u2 j / c j - z2 j) * (m2 j + u2 j / c j - z2 j)))
          with (c j * (e1 j * e1 j + e2 j * e2 j) + 2 * (e1 j * u1 j + e2 j * u2 j) + (u1 j * u1 j + u2 j * u2 j) / c j)
          by (unfold e1, e2; field; auto).
        apply Rplus_le_compat_l. apply (Rmult_le_reg_l (c j)); auto.
        replace (c j * ((u1 j * u1 j + u2 j * u2 j) / c j)) with (u1 j * u1 j + u2 j * u2 j) by (field; auto). exact Cs. }
    unfold wssd2.
    apply Rle_trans with (zsum N (fun j => c j * (e1 j * e1 j + e2 j * e2 j) + 2 * (e1 j * u1 j + e2 j * u2 j) + lsum (fun pd => a pd j * (y pd * y pd)) L)).
    { assert (forall f h, (forall j, f j <= h j) -> zsum N f <= zsum N h) as G.
      { intros f h Hfh. unfold zsum, rsum. induction (zrange 0 N) as [|i l IH]; cbn; [lra|]. specialize (Hfh i). cbn in IH. lra. }
      now apply G. }
    rewrite !zsum_plus, zsum_scal.
    assert (E1 : zsum N (fun j => e1 j * u1 j + e2 j * u2 j) = lsum (fun pd => y pd * ax pd) L).
    { rewrite (zsum_ext N _ (fun j => lsum (fun pd => y pd * (fst (v pd) * (e1 j * a pd j) + snd (v pd) * (e2 j * a pd j))) L)).
      - rewrite lsum_zsum. apply lsum_ext. intros pd Hin. rewrite zsum_scal, zsum_plus, !zsum_scal. f_equal.
        unfold ax. rewrite !(dot_wt N) by now apply rays_grid. reflexivity.
      - intros j _. unfold u1, u2. rewrite <- !lsum_scal, <- lsum_plus. apply lsum_ext. intros. ring. }
    assert (E2 : zsum N (fun j => lsum (fun pd => a pd j * (y pd * y pd)) L)
                 = lsum (fun pd => y pd * y pd * rsum (map snd (rays g s (fst pd) (snd pd)))) L).
    { rewrite lsum_zsum. apply lsum_ext. intros pd Hin.
      rewrite (zsum_ext N _ (fun j => y pd * y pd * (1 * wt (rays g s (fst pd) (snd pd)) j))) by (intros; ring).
      rewrite zsum_scal. f_equal. rewrite <- (dot_wt N _ (fun _ => 1)) by now apply rays_grid. unfold dot. f_equal.
      apply map_ext. intros [i w]. cbn. lra. }
    rewrite E1, E2.
    enough (2 * lsum (fun pd => y pd * ax pd) L + lsum (fun pd => y pd * y pd * rsum (map snd (rays g s (fst pd) (snd pd)))) L <= 0).
    { rewrite (zsum_ext N (fun j => c j * ((m1 j - z1 j) * (m1 j - z1 j) + (m2 j - z2 j) * (m2 j - z2 j))) (fun j => c j * (e1 j * e1 j + e2 j * e2 j))) by reflexivity. lra. }
    rewrite <- lsum_scal, <- lsum_plus.
    assert (forall l, incl l L -> lsum (fun pd => 2 * (y pd * ax pd) + y pd * y pd * rsum (map snd (rays g s (fst pd) (snd pd)))) l <= 0) as G; [|apply G, incl_refl].
    induction l as [|pd l IH]; intros Hl; [unfold lsum; cbn; lra|]. rewrite lsum_cons.
    specialize (IH ltac:(intros x Hx; apply Hl; now right)).
    enough (2 * (y pd * ax pd) + y pd * y pd * rsum (map snd (rays g s (fst pd) (snd pd))) <= 0) by lra.
    assert (Hin : In pd L) by (apply Hl; now left). destruct pd as [p d]. apply in_cells in Hin as [Hp Hd]. specialize (Hw p d Hp Hd).
    unfold y. cbn [fst snd] in *. destruct (Req_EM_T (sum_dist2 (rays g s p d)) 0) as [E|E]; [lra|].
    set (t := ax (p, d)) in *. set (w := rsum _) in *. set (q := sum_dist2 _) in *.
    assert (0 < q) by (unfold q; pose proof (sum_dist2_nonneg (rays g s p d)); unfold q in E; lra).
    replace (2 * (- t / q * t) + - t / q * (- t / q) * w) with ((t / q) * (t / q) * (w - 2 * q)) by (field; auto).
    assert (0 <= (t / q) * (t / q)) by apply Rle_0_sqr. nra.
  Qed.
End Closer.

(** ** project3 *)
Section Projection.
  Variable g : geom.
  Hypothesis Hgx : (1 <= ngridx g)%Z.
  Hypothesis Hgy : (1 <= ngridy g)%Z.
  Lemma project3_spec f axis data s p d : (0 <= s < dy g)%Z -> (0 <= p < dt g)%Z -> (0 <= d < dx g)%Z ->
    project3 g f axis data (ind_data g s p d) =
    data (ind_data g s p d) + dot (rays g 0 p d) (seen_field g axis s f (dirs g p)).
  Proof.
    intros Hs Hp Hd. unfold project3, empty. replace ((dy g =? 0) || (dt g =? 0) || (dx g =? 0))%Z%bool with false by lia.
    set (x := ind_data g s p d). set (V := dot _ _).
    rewrite (for_add (dt g) _ (fun p' => if (p' =? p)%Z then V else 0)); [rewrite zsum_single by auto; reflexivity|].
    intros p' m Hp'. rewrite (for_add (dx g) _ (fun d' => if (d' =? d)%Z then if (p' =? p)%Z then V else 0 else 0)); [rewrite zsum_single by auto; reflexivity|].
    intros d' m' Hd'. rewrite (for_add (dy g) _ (fun s' => if (s' =? s)%Z then if (d' =? d)%Z then if (p' =? p)%Z then V else 0 else 0 else 0)); [rewrite zsum_single by auto; reflexivity|].
    intros s' m'' Hs'. rewrite simdata3_spec by now apply inside_rays2. rewrite flat_rays2, ray_dir_spec by auto. f_equal.
    unfold x. destruct (ind_data g s p d =? ind_data g s' p' d')%Z eqn:E.
    - apply Z.eqb_eq, ind_data_inj in E as (<- & <- & <-); auto. rewrite !Z.eqb_refl. reflexivity.
    - destruct (s' =? s)%Z eqn:E1, (d' =? d)%Z eqn:E2, (p' =? p)%Z eqn:E3; auto.
      apply Z.eqb_eq in E1, E2, E3. subst. rewrite Z.eqb_refl in E. discriminate.
  Qed.
  Lemma project2_spec x y data : project2 g x y data = project3 g (mkField x y y) 0 data.
  Proof. reflexivity. Qed.
End Projection.

(** ** vector: the same as a pass along axis 0 if every pixel is hit *)
Section Lift.
  Variable g : geom.
  Hypothesis Hgx : (1 <= ngridx g)%Z.
  Hypothesis Hgy : (1 <= ngridy g)%Z.
  Hypothesis Hdy : (0 <= dy g)%Z.
  Variable data : arr R.
  Definition vol (i : Z) : Prop := (0 <= i < dy g * npix g)%Z.
  Definition like (P : Z -> Prop) (A : arr number) (B : arr R) : Prop := forall i, P i -> A i = Some (B i).
  Let all (i : Z) : Prop := True.
  Lemma loc_vol s m n : (0 <= s < dy g)%Z -> (0 <= m < ngridx g)%Z -> (0 <= n < ngridy g)%Z -> vol (loc g 0 s m n).
  Proof. intros. unfold vol, loc, npix. cbn [Z.eqb]. assert (0 <= n + m * ngridy g < ngridx g * ngridy g)%Z by nia. nia. Qed.
  Lemma like_aset P A B i a b : like P A B -> (P i -> a = Some b) -> like P (aset A i a) (aset B i b).
  Proof. intros H E j Hj. unfold aset. destruct (j =? i)%Z eqn:F; auto. apply Z.eqb_eq in F as ->. auto. Qed.
  Lemma like_sim segs v s idx r1 r2 m1 m2 A B : (0 <= s < dy g)%Z -> inside2 (ngridx g) (ngridy g) segs -> like vol r1 m1 -> like vol r2 m2 ->
    like all A B -> like all (n_simdata2 g segs v s idx r1 r2 A) (simdata2 g segs v 0 s idx m1 m2 B).
  Proof.
    intros Hs Hin H1 H2. unfold n_simdata2, simdata2. revert A B. induction segs as [|[[x y] w] l IH]; intros A B H; auto. cbn [fold_left].
    apply IH; [intros a b c Hi; apply (Hin a b c); now right|]. apply like_aset; auto. intros _.
    destruct (Hin x y w ltac:(now left)). rewrite H1, H2, H by (try exact I; now apply loc_vol). reflexivity.
  Qed.
  Lemma like_upd segs a b v A B : a = Some b -> like all A B -> like all (n_add_update g segs a v A) (add_update g segs b v B).
  Proof.
    intros -> . unfold n_add_update, add_update. revert A B. induction segs as [|[[x y] w] l IH]; intros A B H; auto. cbn [fold_left].
    apply IH. apply like_aset; auto. intros _. rewrite H by exact I. reflexivity.
  Qed.
  Lemma like_bump s sd A B r m : (0 <= s < dy g)%Z -> like all A B -> (forall m n, (0 <= m < ngridx g)%Z -> (0 <= n < ngridy g)%Z -> sd (n + m * ngridy g)%Z <> 0) ->
    like vol r m -> like vol (vec_bump g s sd A r) (bump g 0 s sd B m).
  Proof.
    intros Hs HAB Hsd. unfold vec_bump, bump. rewrite !for_cells.
    assert (forall l r m, (forall x y, In (x, y) l -> (0 <= x < ngridx g)%Z /\ (0 <= y < ngridy g)%Z) -> like vol r m ->
      like vol (fold_left (fun st '(m, n) => aset st (loc g 0 s m n) (nadd (st (loc g 0 s m n)) (ndiv (A (n + m * ngridy g)%Z) (Some (sd (n + m * ngridy g)%Z))))) l r)
        (fold_left (fun st '(m, n) => if Req_EM_T (sd (n + m * ngridy g)%Z) 0 then st else aset st (loc g 0 s m n) (st (loc g 0 s m n) + B (n + m * ngridy g)%Z / sd (n + m * ngridy g)%Z)) l m)) as G.
    2:{ apply G. intros x y Hi. now apply in_cells. }
    induction l as [|[x y] l IH]; intros r0 m0 Hl H; auto. cbn [fold_left]. destruct (Hl x y ltac:(now left)) as [Hx Hy].
    apply IH; [intros; apply Hl; now right|]. destruct (Req_EM_T _ 0) as [E|E]; [destruct (Hsd x y Hx Hy E)|].
    apply like_aset; auto. intros Hv. rewrite H, HAB by (auto; exact I). unfold nadd, ndiv. destruct (Req_EM_T _ 0); [contradiction|reflexivity].
  Qed.
  Lemma like_slice s r1 r2 A f B : (0 <= s < dy g)%Z -> (forall j, (0 <= j < npix g)%Z -> hits_sum g s (all_rays g) j <> 0) ->
    like vol r1 (comp1 f) -> like vol r2 (comp2 f) -> like all A B -> clear g s B ->
    let '(r1', r2', A') := vec_slice g data s (r1, r2, A) in
    let '(f', B') := pass_slice g data 0 0 s (f, B) in
    like vol r1' (comp1 f') /\ like vol r2' (comp2 f') /\ like all A' B'.
  Proof.
    intros Hs Hh H1 H2 HA HB. unfold vec_slice, pass_slice. rewrite !for_cells. fold (all_rays g).
    pose proof (pass_rays g Hgx Hgy data 0 s f (all_rays g) (fun p d => proj1 (all_rays_in g p d)) (NoDup_cells _ _) B (fun _ => 0) (fun _ => 0) (fun _ => 0)) as Hsd.
    cbv zeta in Hsd. destruct Hsd as (Hsd & _).
    { intros p d Hi. apply all_rays_in in Hi as [? ?]. now apply HB. }
    assert (G : forall l A B sd u1 u2 v1 v2, like all A B -> like all u1 v1 -> like all u2 v2 ->
      let '(A', sd', u1', u2') := fold_left (fun st '(p, d) => vec_ray g data s r1 r2 p d st) l (A, sd, u1, u2) in
      let '(B', se', v1', v2') := fold_left (fun st '(p, d) => pass_ray g data 0 s f p d st) l (B, sd, v1, v2) in
      like all A' B' /\ sd' = se' /\ like all u1' v1' /\ like all u2' v2').
    { clear - Hgx Hgy Hs H1 H2. induction l as [|[p d] l IH]; intros A B sd u1 u2 v1 v2 HA K1 K2; cbn [fold_left]; [auto|].
      unfold vec_ray at 2, pass_ray at 2. cbv zeta.
      assert (L : like all (n_simdata2 g (rays2 g s p d) (ray_dir g s p d) s (ind_data g s p d) r1 r2 A)
                           (simdata3 g (rays2 g s p d) (ray_dir g s p d) 0 s (ind_data g s p d) f B)).
      { apply like_sim; auto. now apply inside_rays2. }
      destruct (Req_EM_T (sum_dist2_of (rays2 g s p d)) 0) as [E|E]; [now apply IH|].
      apply IH; auto; apply like_upd; auto; rewrite L by exact I; unfold nsub, ndiv; destruct (Req_EM_T _ 0); [contradiction|reflexivity|contradiction|reflexivity]. }
    specialize (G (all_rays g) A B (fun _ => 0) (fun _ => Some 0) (fun _ => Some 0) (fun _ => 0) (fun _ => 0) HA ltac:(intros i _; reflexivity) ltac:(intros i _; reflexivity)).
    destruct (fold_left _ (all_rays g) (A, _, _, _)) as [[[A' sd'] u1'] u2'].
    destruct (fold_left _ (all_rays g) (B, _, _, _)) as [[[B' se'] v1'] v2'] eqn:EB.
    pose proof (fun j => eq_trans (f_equal (fun t => snd (fst (fst t)) j) (eq_sym EB)) (Hsd j)) as Hse. cbn [fst snd] in Hse.
    destruct G as (G1 & -> & G3 & G4).
    assert (Hne : forall m n, (0 <= m < ngridx g)%Z -> (0 <= n < ngridy g)%Z -> se' (n + m * ngridy g)%Z <> 0).
    { intros m n Hm Hn. rewrite Hse, Rplus_0_l. apply Hh. unfold npix. nia. }
    split; [|split]; auto; now apply like_bump.
  Qed.
  Lemma like_iter r1 r2 f : (forall s j, (0 <= s < dy g)%Z -> (0 <= j < npix g)%Z -> hits_sum g s (all_rays g) j <> 0) ->
    like vol r1 (comp1 f) -> like vol r2 (comp2 f) ->
    like vol (fst (vec_iter g data (r1, r2))) (comp1 (pass g data 0 0 f)) /\ like vol (snd (vec_iter g data (r1, r2))) (comp2 (pass g data 0 0 f)).
  Proof.
    intros Hh H1 H2. unfold vec_iter, pass.
    assert (G : forall k, (0 <= k <= dy g)%Z ->
      let '(r1', r2', A') := for_ k (vec_slice g data) (r1, r2, fun _ => Some 0) in
      let '(f', B') := for_ k (pass_slice g data 0 0) (f, fun _ => 0) in
      like vol r1' (comp1 f') /\ like vol r2' (comp2 f') /\ like all A' B' /\ forall s, (k <= s)%Z -> clear g s B').
    { intros k [Hk0 Hk]. revert Hk. pattern k. apply natlike_ind; auto.
      - intros _. rewrite !for_0 by lia. split; auto. split; auto. split; [intros i _; reflexivity|]. intros s _ p d _ _. reflexivity.
      - clear k Hk0. intros k Hk0 IH Hk. rewrite <- Z.add_1_r in *. rewrite !for_S by lia. specialize (IH ltac:(lia)).
        destruct (for_ k (vec_slice g data) _) as [[a1 a2] A']. destruct (for_ k (pass_slice g data 0 0) _) as [f' B'].
        destruct IH as (I1 & I2 & I3 & I4).
        pose proof (like_slice k a1 a2 A' f' B' ltac:(lia) (fun j => Hh k j ltac:(lia)) I1 I2 I3 (I4 k ltac:(lia))) as G.
        destruct (slice_run g Hgx Hgy data 0 0 k f' B' (I4 k ltac:(lia))) as (sd & u1 & u2 & B'' & Ep & _ & _ & _ & E3). rewrite Ep in *.
        destruct (vec_slice g data k (a1, a2, A')) as [[b1 b2] A'']. destruct G as (G1 & G2 & G3).
        split; auto. split; auto. split; auto. intros s Hs. apply E3; [lia|]. apply I4. lia. }
    specialize (G (dy g) ltac:(lia)).
    destruct (for_ (dy g) (vec_slice g data) _) as [[a1 a2] A']. destruct (for_ (dy g) (pass_slice g data 0 0) _) as [f' B'].
    cbn [fst snd]. tauto.
  Qed.
  Definition passes (n : Z) (f : field) : field := for_ n (fun _ => pass g data 0 0) f.
  Lemma like_vector n r1 r2 f : (forall s j, (0 <= s < dy g)%Z -> (0 <= j < npix g)%Z -> hits_sum g s (all_rays g) j <> 0) ->
    like vol r1 (comp1 f) -> like vol r2 (comp2 f) ->
    like vol (fst (vector g data n (r1, r2))) (comp1 (passes n f)) /\ like vol (snd (vector g data n (r1, r2))) (comp2 (passes n f)).
  Proof.
    intros Hh H1 H2. unfold vector, passes. destruct (Z.le_gt_cases n 0) as [Hn|Hn]; [rewrite !for_0 by lia; auto|].
    assert (0 <= n)%Z as Hn' by lia. clear Hn. revert n Hn'. apply natlike_ind; [rewrite !for_0 by lia; auto|].
    intros n Hn IH. rewrite <- Z.add_1_r, !for_S by lia. destruct (for_ n (fun _ => vec_iter g data) (r1, r2)) as [a1 a2].
    cbn [fst snd] in IH. apply like_iter; tauto.
  Qed.

  (** a pixel without rays *)
  Lemma bump_none s sd A r i : (r i = None \/ exists m n, (0 <= m < ngridx g)%Z /\ (0 <= n < ngridy g)%Z /\ i = loc g 0 s m n /\ sd (n + m * ngridy g)%Z = 0) ->
    vec_bump g s sd A r i = None.
  Proof.
    intros H. unfold vec_bump. rewrite for_cells.
    assert (G : forall l r, (r i = None \/ exists m n, In (m, n) l /\ i = loc g 0 s m n /\ sd (n + m * ngridy g)%Z = 0) ->
      fold_left (fun st '(m, n) => aset st (loc g 0 s m n) (nadd (st (loc g 0 s m n)) (ndiv (A (n + m * ngridy g)%Z) (Some (sd (n + m * ngridy g)%Z))))) l r i = None).
    { induction l as [|[m n] l IH]; intros r0 [Hr|(m' & n' & Hi & Hr)]; auto; try (now destruct Hi); cbn [fold_left]; apply IH.
      - left. unfold aset. destruct (i =? _)%Z eqn:E; auto. apply Z.eqb_eq in E as <-. now rewrite Hr.
      - destruct Hi as [[= -> ->]|Hi]; [left|right; eauto]. destruct Hr as [-> Hr]. rewrite aset_eq, Hr. unfold ndiv.
        destruct (A _); destruct (Req_EM_T 0 0); try contradiction; now destruct (r0 _). }
    apply G. destruct H as [H|(m & n & Hm & Hn & H)]; auto. right. exists m, n. split; auto. now apply in_cells.
  Qed.
  Lemma slice_none s r1 r2 A i : (r1 i = None /\ r2 i = None) \/
      (exists m n, (0 <= m < ngridx g)%Z /\ (0 <= n < ngridy g)%Z /\ i = loc g 0 s m n /\ hits_sum g s (all_rays g) (n + m * ngridy g)%Z = 0) ->
    let st := vec_slice g data s (r1, r2, A) in fst (fst st) i = None /\ snd (fst st) i = None.
  Proof.
    intros H. unfold vec_slice. rewrite for_cells. fold (all_rays g).
    assert (G : forall l A sd u1 u2 j, snd (fst (fst (fold_left (fun st '(p, d) => vec_ray g data s r1 r2 p d st) l (A, sd, u1, u2)))) j = sd j + hits_sum g s l j).
    { clear. induction l as [|[p d] l IH]; intros A sd u1 u2 j; cbn [fold_left].
      - cbn. unfold hits_sum, lsum, rsum. cbn. lra.
      - unfold vec_ray at 2. cbv zeta. destruct (Req_EM_T _ 0); rewrite IH, add_dist2_spec, flat_rays2; unfold hits_sum; rewrite lsum_cons; lra. }
    specialize (G (all_rays g) A (fun _ => 0) (fun _ => Some 0) (fun _ => Some 0)).
    destruct (fold_left _ _ _) as [[[A' sd'] u1'] u2']. cbn [fst snd] in *.
    split; apply bump_none; (destruct H as [[? ?]|(m & n & Hm & Hn & Hi & Hz)]; [auto|right; exists m, n; rewrite G, Rplus_0_l; auto]).
  Qed.
  Lemma vector_none n r s j : (1 <= n)%Z -> (0 <= s < dy g)%Z -> (0 <= j < npix g)%Z -> hits_sum g s (all_rays g) j = 0 ->
    fst (vector g data n r) (j + s * npix g)%Z = None /\ snd (vector g data n r) (j + s * npix g)%Z = None.
  Proof.
    intros Hn Hs Hj Hh. set (i := (j + s * npix g)%Z).
    assert (Ht : exists m n, (0 <= m < ngridx g)%Z /\ (0 <= n < ngridy g)%Z /\ i = loc g 0 s m n /\ hits_sum g s (all_rays g) (n + m * ngridy g)%Z = 0).
    { destruct (pixel_in g Hgy j Hj) as [H1 H2]. exists (j / ngridy g)%Z, (j mod ngridy g)%Z. repeat split; try lia.
      - unfold i, loc, npix. cbn [Z.eqb]. pose proof (Z.div_mod j (ngridy g)). nia.
      - replace (_ + _)%Z with j; auto. pose proof (Z.div_mod j (ngridy g)). lia. }
    assert (K : forall r, fst (vec_iter g data r) i = None /\ snd (vec_iter g data r) i = None).
    { intros [r1 r2]. unfold vec_iter.
      pose (I k (st : arr number * arr number * arr number) := (s < k)%Z -> fst (fst st) i = None /\ snd (fst st) i = None).
      enough (I (dy g) (for_ (dy g) (vec_slice g data) (r1, r2, fun _ => Some 0))) as G by (apply G; lia).
      apply (for_inv I); unfold I; auto; [lia|].
      intros k [[a1 a2] A'] Hk IH Hsk. apply slice_none. destruct (Z.eq_dec s k) as [<-|Hne]; [auto|left; apply IH; lia]. }
    unfold vector. replace n with (n - 1 + 1)%Z by lia. rewrite for_S by lia. apply K.
  Qed.
End Lift.
