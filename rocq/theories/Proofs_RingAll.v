(** Proofs about Model_Ring: the whole ring filter and remove_ring. *)
From Verif Require Import Base CLoop Order Model_Prep Proofs_Prep Model_Ray Proofs_Ray Model_Solver Model_Ring Spec_Ring Proofs_Ring Proofs_RingMean.
From Coq Require Import Reals Lra.
Local Open Scope Z_scope.

(** Pixelwise loops. *)
Lemma pixels {A} (H W : Z) (G : Z -> Z -> A -> A) (p0 : arr A) : 0 <= H -> 0 <= W ->
  let p := for_ H (fun row => for_ W (fun col p => aset p (row * W + col) (G row col (p (row * W + col))))) p0 in
  (forall r c, 0 <= r < H -> 0 <= c < W -> p (r * W + c) = G r c (p0 (r * W + c))) /\
  (forall x, x < 0 \/ H * W <= x -> p x = p0 x).
Proof.
  intros HH HW. cbv zeta.
  match goal with |- context [for_ H ?f p0] => set (body := f) end.
  pose proof (for_inv (fun k (p : arr A) =>
    (forall r c, 0 <= r < k -> 0 <= c < W -> p (r * W + c) = G r c (p0 (r * W + c))) /\
    (forall x, x < 0 \/ k * W <= x -> p x = p0 x)) H body p0 HH) as L. cbv beta in L.
  apply L; clear L.
  - split; intros; [lia|auto].
  - intros j p Hj (I1 & I2). unfold body. clear body.
    match goal with |- context [for_ W ?f p] => set (body := f) end.
    pose proof (for_inv (fun k (q : arr A) =>
      (forall r c, 0 <= r < j -> 0 <= c < W -> q (r * W + c) = G r c (p0 (r * W + c))) /\
      (forall c, 0 <= c < k -> q (j * W + c) = G j c (p0 (j * W + c))) /\
      (forall x, x < 0 \/ j * W + k <= x -> q x = p0 x)) W body p HW) as L. cbv beta in L.
    destruct L as (L1 & L2 & L3).
    + split; [auto|]. split; [intros; lia|]. intros x Hx. apply I2. lia.
    + intros k q Hk (L1 & L2 & L3). unfold body. split; [|split].
      * intros r c Hr Hc. rewrite aset_ne by nia. auto.
      * intros c Hc. destruct (Z.eq_dec c k) as [->|Nc].
        -- rewrite aset_eq. now rewrite L3 by lia.
        -- rewrite aset_ne by lia. apply L2. lia.
      * intros x Hx. rewrite aset_ne by nia. apply L3. lia.
    + split.
      * intros r c Hr Hc. destruct (Z.eq_dec r j) as [->|Nr]; [now apply L2|]. apply L1; lia.
      * intros x Hx. apply L3. nia.
Qed.

Lemma rleb_rltb x y : rleb x y = negb (rltb y x).
Proof. unfold rleb, rltb. destruct (Rle_dec x y), (Rlt_dec y x); cbn; auto; lra. Qed.

Section Filter.
  Variable polar : arr R.
  Variables h w m_rad m_azi : Z.
  Variable threshold : R.
  Variable reflect : bool.
  Hypothesis Hh : 0 < h.
  Hypothesis Hw : 3 <= w.
  Hypothesis Hm : 3 <= m_rad.
  Hypothesis Hmw : 2 * w / 3 + m_rad < w.
  Hypothesis Ha : 0 <= m_azi.
  Hypothesis Ham : if reflect then m_azi <= h / 2 - 1 else m_azi <= h.
  Let P (row col : Z) : R := polar (row * w + col).

  Lemma ring_filter_spec :
    exists med : Z -> Z -> R,
      (forall row col, 0 <= row < h -> 0 <= col < w ->
         kth rltb (around (along P 0%R w h row) col (third w m_rad col)) (Z.to_nat (third w m_rad col)) (med row col)) /\
      (forall row col, 0 <= row < h -> 0 <= col < w ->
         ring_filter polar h w threshold m_rad m_azi reflect (row * w + col) =
         azimuth (fun r c => small_only threshold (P r c - med r c)) reflect h (third w m_azi col) row col).
  Proof.
    assert (Cf : forall c, 0 <= c < w -> 1 <= third w m_rad c).
    { intros c Hc. unfold third. destruct (c <? w / 3), (c <? 2 * w / 3); lia. }
    unfold ring_filter.
    set (f1 := median_filter rltb rleb 0%R (fun _ => 0%R) polar 0 0 (h - 1) (w / 3 - 1) (m_rad / 3) w h).
    set (f2 := median_filter rltb rleb 0%R f1 polar 0 (w / 3) (h - 1) (2 * w / 3 - 1) (2 * m_rad / 3) w h).
    set (f3 := median_filter rltb rleb 0%R f2 polar 0 (2 * w / 3) (h - 1) (w - 1) m_rad w h).
    pose proof (fun o c0 c1 rad => median_filter_spec (fun _ : R => True) rltb rleb 0%R R_weak_order (fun x y _ _ => rleb_rltb x y)
      polar w h (fun _ => I) I o 0 c0 (h - 1) c1 rad) as M. cbv zeta in M.
    destruct (M (fun _ => 0%R) 0 (w / 3 - 1) (m_rad / 3)) as [A1 A2]; [lia..|]. fold f1 in A1, A2.
    destruct (M f1 (w / 3) (2 * w / 3 - 1) (2 * m_rad / 3)) as [B1 B2]; [lia..|]. fold f2 in B1, B2.
    destruct (M f2 (2 * w / 3) (w - 1) m_rad) as [C1 C2]; [lia..|]. fold f3 in C1, C2. clear M.
    exists (fun row col => f3 (row * w + col)). split.
    { intros row col Hr Hc. unfold third.
      destruct (col <? w / 3) eqn:E1.
      - rewrite C2 by lia. rewrite B2 by lia. apply A1; lia.
      - destruct (col <? 2 * w / 3) eqn:E2.
        + rewrite C2 by lia. apply B1; lia.
        + apply C1; lia. }
    intros row col Hr Hc.
    match goal with |- context [for_ h ?f polar] => set (diff := for_ h f polar) end.
    pose proof (pixels h w (fun r c v => let u := (v - f3 (r * w + c)%Z)%R in if rltb threshold u || rltb u (- threshold) then 0%R else u) polar
       ltac:(lia) ltac:(lia)) as [Df _]. cbv zeta in Df.
    change (for_ h _ polar) with diff in Df.
    assert (Dd : forall r c, 0 <= r < h -> 0 <= c < w -> diff (r * w + c) = small_only threshold (P r c - f3 (r * w + c)%Z)).
    { intros r c Hr' Hc'. rewrite Df by auto. unfold small_only, P, rltb.
      repeat match goal with |- context [Rlt_dec ?a ?b] => destruct (Rlt_dec a b) end;
      repeat match goal with |- context [Rle_dec ?a ?b] => destruct (Rle_dec a b) end; cbn [orb]; auto; lra. }
    clear Df.
    set (g1 := mean_filter diff w h (m_azi / 3) reflect f3 0 0 (h - 1) (w / 3 - 1)).
    set (g2 := mean_filter diff w h (2 * m_azi / 3) reflect g1 0 (w / 3) (h - 1) (2 * w / 3 - 1)).
    set (g3 := mean_filter diff w h m_azi reflect g2 0 (2 * w / 3) (h - 1) (w - 1)).
    pose proof (pixels h w (fun r c (_ : R) => g3 (r * w + c)) diff ltac:(lia) ltac:(lia)) as [Fin _]. cbv zeta in Fin.
    etransitivity; [apply (Fin row col Hr Hc)|]. clear Fin.
    destruct (mean_filter_spec diff w h (m_azi / 3) ltac:(lia) reflect f3 0 (w / 3 - 1)) as [A3 A4]; [lia|destruct reflect; lia|lia|lia|].
    fold g1 in A3, A4.
    destruct (mean_filter_spec diff w h (2 * m_azi / 3) ltac:(lia) reflect g1 (w / 3) (2 * w / 3 - 1)) as [B3 B4]; [lia|destruct reflect; lia|lia|lia|].
    fold g2 in B3, B4.
    destruct (mean_filter_spec diff w h m_azi ltac:(lia) reflect g2 (2 * w / 3) (w - 1)) as [C3 C4]; [lia|destruct reflect; lia|lia|lia|].
    fold g3 in C3, C4.
    assert (G : g3 (row * w + col) = azimuth (at_rc diff w) reflect h (third w m_azi col) row col).
    { unfold third. destruct (col <? w / 3) eqn:E1.
      - rewrite C4 by lia. rewrite B4 by lia. apply A3; lia.
      - destruct (col <? 2 * w / 3) eqn:E2; [rewrite C4 by lia; apply B3; lia|apply C3; lia]. }
    rewrite G. unfold azimuth, at_rc. rewrite Dd by auto.
    match goal with |- (if ?c then _ else _) = _ => destruct c; auto end.
    f_equal. unfold around. apply map_ext_in. intros n Hn. apply in_zrange in Hn. apply Dd; auto.
    assert (Ht : third w m_azi col <= m_azi) by (unfold third; destruct (col <? w / 3), (col <? 2 * w / 3); lia).
    unfold neighbour, mirrored, wrapped. destruct reflect.
    - destruct (row <? h / 2) eqn:E1.
      + destruct (row + n <? 0) eqn:E2; [lia|]. destruct (h / 2 - 1 <? row + n) eqn:E3; lia.
      + destruct (row + n <? h / 2) eqn:E2; [lia|]. destruct (h - 1 <? row + n) eqn:E3; lia.
    - lia.
  Qed.
End Filter.

(** ** Consequences *)
Lemma rsum_bound l t : (forall x, In x l -> (Rabs x <= t)%R) -> (Rabs (rsum l) <= INR (length l) * t)%R.
Proof.
  induction l as [|x l IH]; intros H; cbn [rsum fold_right length].
  - rewrite Rabs_R0. cbn. lra.
  - rewrite S_INR. pose proof (Rabs_triang x (rsum l)). pose proof (H x (or_introl eq_refl)).
    specialize (IH (fun y Hy => H y (or_intror Hy))). unfold rsum in *. lra.
Qed.
Lemma mean_bound l t : l <> [] -> (forall x, In x l -> (Rabs x <= t)%R) -> (Rabs (mean l) <= t)%R.
Proof.
  intros Hn H. pose proof (rsum_bound l t H) as B. unfold mean.
  assert (0 < INR (length l))%R by (destruct l; [congruence|cbn [length]; rewrite S_INR; pose proof (pos_INR (length l)); lra]).
  unfold Rdiv. rewrite Rabs_mult, Rabs_inv. rewrite (Rabs_right (INR (length l))) by lra.
  apply (Rmult_le_reg_r (INR (length l))); auto. rewrite Rmult_assoc, Rinv_l by lra. lra.
Qed.
Lemma small_only_bound t v : (Rabs (small_only t v) <= Rabs t)%R.
Proof.
  unfold small_only. destruct (Rle_dec v t); [destruct (Rle_dec (- t) v)|]; try (rewrite Rabs_R0; apply Rabs_pos).
  unfold Rabs. destruct (Rcase_abs v), (Rcase_abs t); lra.
Qed.
Lemma around_nonempty {V} (f : Z -> V) c rad : 0 <= rad -> around f c rad <> [].
Proof. intros H. unfold around. rewrite zrange_cons by lia. discriminate. Qed.
Lemma around_ext {V} (f g : Z -> V) c rad : (forall n, - rad <= n <= rad -> f (c + n) = g (c + n)) -> around f c rad = around g c rad.
Proof. intros H. unfold around. apply map_ext_in. intros n Hn. apply in_zrange in Hn. apply H. lia. Qed.

Lemma azimuth_bound d reflect h rad row col t : 0 <= rad ->
  (forall r c, (Rabs (d r c) <= t)%R) -> (Rabs (azimuth d reflect h rad row col) <= t)%R.
Proof.
  intros Hr H. unfold azimuth.
  destruct (negb (first_row reflect h row) && _).
  - rewrite Rabs_R0. pose proof (Rabs_pos (d row col)). specialize (H row col). lra.
  - apply mean_bound; [now apply around_nonempty|]. intros x Hx. unfold around in Hx. apply in_map_iff in Hx. destruct Hx as (n & <- & _). apply H.
Qed.

Lemma kth_R_unique l k x y : kth rltb l k x -> kth rltb l k y -> x = y.
Proof.
  intros H1 H2. destruct (kth_unique (fun _ : R => True) rltb R_weak_order l k x y) as [A B]; auto.
  { apply Forall_forall. auto. }
  apply rltb_false in A, B. lra.
Qed.

(** A window with more than half of its values equal to [c], the others 0, has median c. *)
Lemma kth_half l1 l2 c v : (forall x, In x l1 -> x = c) -> (forall x, In x l2 -> x = c \/ x = 0%R) -> (length l2 < length l1)%nat ->
  kth rltb (l1 ++ l2) (length l2) v -> v = c.
Proof.
  intros H1 H2 Hl (Hin & Hlo & Hhi).
  destruct (Req_dec v c) as [E|N]; auto. exfalso.
  assert (v = 0%R). { apply in_app_or in Hin. destruct Hin as [I|I]; [apply H1 in I; congruence|apply H2 in I; destruct I; congruence]. }
  subst v. rewrite count_app in Hlo, Hhi.
  destruct (Rlt_dec 0 c) as [P|P].
  - rewrite (count_none (fun x => negb (rltb 0 x)) l1) in Hhi.
    2:{ intros x Hx. rewrite (H1 x Hx). assert (E : rltb 0 c = true) by now apply rltb_spec. now rewrite E. }
    pose proof (count_le (fun x => negb (rltb 0 x)) l2). lia.
  - rewrite (count_all (fun x => rltb x 0) l1) in Hlo; [lia|].
    intros x Hx. rewrite (H1 x Hx). apply rltb_spec. lra.
Qed.

Section Consequences.
  Variables h w m_rad m_azi : Z.
  Variable threshold : R.
  Variable reflect : bool.
  Hypothesis Hh : 2 <= h.
  Hypothesis Hw : 3 <= w.
  Hypothesis Hm : 3 <= m_rad.
  Hypothesis Hmw : 2 * w / 3 + m_rad < w.
  Hypothesis Ha : 0 <= m_azi.
  Hypothesis Ham : if reflect then m_azi <= h / 2 - 1 else m_azi <= h.

  Lemma third_nonneg m col : 0 <= m -> 0 <= third w m col <= m.
  Proof. intros H. unfold third. destruct (col <? w / 3), (col <? 2 * w / 3); lia. Qed.

  Lemma ring_filter_bound polar row col : 0 <= row < h -> 0 <= col < w ->
    (Rabs (ring_filter polar h w threshold m_rad m_azi reflect (row * w + col)%Z) <= Rabs threshold)%R.
  Proof.
    intros Hr Hc. destruct (ring_filter_spec polar h w m_rad m_azi threshold reflect) as (med & _ & E); auto; [lia|].
    rewrite E by auto. apply azimuth_bound; [pose proof (third_nonneg m_azi col); lia|]. intros. apply small_only_bound.
  Qed.

  (** Rows and columns met along a ray stay inside the image. *)
  Lemma along_local {V} (P Q : Z -> Z -> V) z row col rad : 0 <= row < h -> 0 <= col < w -> rad < w ->
    (forall r c, 0 <= r < h -> 0 <= c < w -> P r c = Q r c) ->
    around (along P z w h row) col rad = around (along Q z w h row) col rad.
  Proof.
    intros Hr Hc Hrad H. apply around_ext. intros n Hn. unfold along.
    destruct (col + n <? 0) eqn:E1.
    - apply H; [|lia]. unfold across. destruct (row <? h / 2) eqn:E2; lia.
    - destruct (col + n <? w) eqn:E2; auto. apply H; lia.
  Qed.

  Lemma neighbour_range row n rad : 0 <= row < h -> 0 <= rad <= m_azi -> - rad <= n <= rad -> 0 <= neighbour reflect h row (row + n) < h.
  Proof.
    intros Hr Hd Hn. unfold neighbour, mirrored, wrapped. destruct reflect.
    - destruct (row <? h / 2) eqn:E1.
      + destruct (row + n <? 0) eqn:E2; [lia|]. destruct (h / 2 - 1 <? row + n) eqn:E3; lia.
      + destruct (row + n <? h / 2) eqn:E2; [lia|]. destruct (h - 1 <? row + n) eqn:E3; lia.
    - lia.
  Qed.

  Lemma ring_filter_local p q : (forall r c, 0 <= r < h -> 0 <= c < w -> p (r * w + c) = q (r * w + c)) ->
    forall row col, 0 <= row < h -> 0 <= col < w ->
    ring_filter p h w threshold m_rad m_azi reflect (row * w + col) = ring_filter q h w threshold m_rad m_azi reflect (row * w + col).
  Proof.
    intros H row col Hr Hc.
    destruct (ring_filter_spec p h w m_rad m_azi threshold reflect) as (med & K & E); auto; [lia|].
    destruct (ring_filter_spec q h w m_rad m_azi threshold reflect) as (med' & K' & E'); auto; [lia|].
    rewrite E, E' by auto.
    assert (M : forall r c, 0 <= r < h -> 0 <= c < w -> med r c = med' r c).
    { intros r c Hr' Hc'. eapply kth_R_unique; [apply K; auto|]. 
      rewrite (along_local (fun row col => p (row * w + col)) (fun row col => q (row * w + col))); auto.
      pose proof (third_nonneg m_rad c). lia. }
    pose proof (third_nonneg m_azi col Ha) as Ht.
    unfold azimuth. rewrite H, M by auto.
    match goal with |- (if ?c then _ else _) = _ => destruct c; auto end.
    f_equal. apply around_ext. intros n Hn. pose proof (neighbour_range row n (third w m_azi col) Hr ltac:(lia) Hn).
    now rewrite H, M.
  Qed.

  Lemma ring_filter_constant polar c : (forall row col, 0 <= row < h -> 0 <= col < w -> polar (row * w + col) = c) ->
    forall row col, 0 <= row < h -> 0 <= col < w -> ring_filter polar h w threshold m_rad m_azi reflect (row * w + col) = 0%R.
  Proof.
    intros H row col Hr Hc.
    destruct (ring_filter_spec polar h w m_rad m_azi threshold reflect) as (med & K & E); auto; [lia|].
    assert (M : forall r k, 0 <= r < h -> 0 <= k < w -> med r k = c).
    { intros r k Hr' Hk. specialize (K r k Hr' Hk).
      pose proof (third_nonneg m_rad k ltac:(lia)) as Ht. set (rad := third w m_rad k) in *.
      unfold around in K. rewrite <- (@zrange_app (- rad) 1 (rad + 1)) in K by lia. rewrite map_app in K.
      eapply kth_half; [| | |].
      4:{ match type of K with kth _ (?a ++ ?b) _ _ => replace (Z.to_nat rad) with (length b) in K end; [exact K|].
          rewrite map_length, zrange_length. lia. }
      - intros x Hx. apply in_map_iff in Hx. destruct Hx as (n & <- & Hn). apply in_zrange in Hn. unfold along.
        destruct (k + n <? 0) eqn:E1.
        + apply H; [|lia]. unfold across. destruct (r <? h / 2) eqn:E2; lia.
        + destruct (k + n <? w) eqn:E2; [|lia]. apply H; lia.
      - intros x Hx. apply in_map_iff in Hx. destruct Hx as (n & <- & Hn). apply in_zrange in Hn. unfold along.
        destruct (k + n <? 0) eqn:E1; [lia|]. destruct (k + n <? w) eqn:E2; [left; apply H; lia|now right].
      - rewrite !map_length, !zrange_length. lia. }
    assert (Z0 : forall r k, 0 <= r < h -> 0 <= k < w -> small_only threshold (polar (r * w + k)%Z - med r k) = 0%R).
    { intros r k Hr' Hk. rewrite H, M by auto. unfold small_only. destruct (Rle_dec _ _); [destruct (Rle_dec _ _)|]; lra. }
    rewrite E by auto. unfold azimuth.
    match goal with |- (if ?c then _ else _) = _ => destruct c; auto end.
    pose proof (third_nonneg m_azi col Ha) as Ht.
    rewrite (around_ext _ (fun _ => 0%R)).
    2:{ intros n Hn. pose proof (neighbour_range row n (third w m_azi col) Hr ltac:(lia) Hn). now apply Z0. }
    unfold mean. replace (rsum (around (fun _ : Z => 0%R) row (third w m_azi col))) with 0%R; [unfold Rdiv; ring|].
    unfold around. induction (zrange (- third w m_azi col) (third w m_azi col + 1)) as [|x l IH]; cbn; auto.
    change (0 = 0 + rsum (map (fun _ => 0) l))%R. rewrite <- IH. lra.
  Qed.
End Consequences.

(** ** Slices *)
Lemma trunc_le x : 1 <= trunc x -> (IZR (trunc x) <= x)%R.
Proof.
  intros H. unfold trunc in *. destruct (rltb x 0) eqn:E.
  - apply rltb_spec in E. destruct (base_Int_part (- x)) as [B1 B2].
    assert (-1 < Int_part (- x)) by (apply lt_IZR; lra). lia.
  - apply base_Int_part.
Qed.
Lemma iround_lt x n : (x < IZR n + 1 / 2)%R -> iround x <= n.
Proof.
  intros H. unfold iround. destruct (base_Int_part (x + 1 / 2)) as [B1 B2].
  assert (Int_part (x + 1 / 2) < n + 1); [|lia]. apply lt_IZR. rewrite plus_IZR. lra.
Qed.
Lemma iround_ge x n : (IZR n - 1 / 2 <= x)%R -> n <= iround x.
Proof.
  intros H. unfold iround. destruct (base_Int_part (x + 1 / 2)) as [B1 B2].
  assert (n - 1 < Int_part (x + 1 / 2)); [|lia]. apply lt_IZR. rewrite minus_IZR. lra.
Qed.

Lemma pol_height_pos w : 1 <= w -> 2 <= pol_height_of w.
Proof.
  intros H. unfold pol_height_of. apply iround_ge. unfold pi_c.
  assert (1 <= IZR w)%R by now apply IZR_le. lra.
Qed.

Section Slice.
  Variables center_x center_y : R.
  Variable atan2 : R -> R -> R.
  Variables dx dy : Z.
  Variables thresh_max thresh_min threshold : R.
  Variables angular_min ring_width : Z.
  Variable reflect : bool.
  Let w := min_distance_to_edge center_x center_y dx dy.
  Let h := pol_height_of w.
  Notation slice := (fun data => ring_slice center_x center_y atan2 data dx dy thresh_max thresh_min threshold angular_min ring_width reflect).

  Lemma slice_spec data : 0 <= dx -> 0 <= dy ->
    (forall row col, 0 <= row < dy -> 0 <= col < dx ->
       slice data (row * dx + col) =
       (data (row * dx + col)%Z - inverse_at center_x center_y atan2
          (ring_filter (polar_transform center_x center_y data dx w h thresh_max thresh_min) h w threshold (2 * ring_width + 1) (m_azi_of h angular_min) reflect)
          w h row col)%R) /\
    (forall x, x < 0 \/ dy * dx <= x -> slice data x = data x).
  Proof.
    intros Hx Hy. unfold ring_slice. fold w. fold h.
    match goal with |- context [inverse_at _ _ _ ?r w h] => set (ring := r) end.
    exact (pixels dy dx (fun row col v => (v - inverse_at center_x center_y atan2 ring w h row col)%R) data Hy Hx).
  Qed.

  (** Pixels at a distance of at least the radius of the largest circle (less half a pixel). *)
  Lemma slice_outside data row col : 0 <= dx -> 0 <= dy -> 0 <= row < dy -> 0 <= col < dx ->
    (IZR w - 1 / 2 <= sqrt ((IZR row - center_y) * (IZR row - center_y) + (IZR col - center_x) * (IZR col - center_x)))%R ->
    slice data (row * dx + col) = data (row * dx + col).
  Proof.
    intros Hx Hy Hr Hc Hd. destruct (slice_spec data Hx Hy) as [E _]. rewrite E by auto.
    unfold inverse_at. pose proof (iround_ge _ _ Hd) as G. unfold inverse_col.
    destruct (inverse_row center_x center_y atan2 h row col <? h), (iround _ <? w) eqn:E2; cbn [andb]; try lra. lia.
  Qed.

  Hypothesis Hw1 : 1 <= w.

  Lemma edge : (IZR w <= center_x + 1 /\ IZR w <= center_y + 1 /\ IZR w <= IZR dx - center_x /\ IZR w <= IZR dy - center_y)%R.
  Proof.
    unfold w, min_distance_to_edge in Hw1 |- *.
    set (a := trunc (center_x + 1)) in *. set (b := trunc (center_y + 1)) in *.
    set (c := trunc (IZR dx - center_x)) in *. set (d := trunc (IZR dy - center_y)) in *.
    assert (T : forall k x, k = trunc x -> Z.min (Z.min a b) (Z.min c d) <= k -> (IZR (Z.min (Z.min a b) (Z.min c d)) <= x)%R).
    { intros k x -> L. apply Rle_trans with (IZR (trunc x)); [now apply IZR_le|]. apply trunc_le. lia. }
    split; [eapply T; [reflexivity|lia]|]. split; [eapply T; [reflexivity|lia]|]. split; (eapply T; [reflexivity|lia]).
  Qed.

  Lemma round_inside r u c n : 0 <= r < w -> (-1 <= u <= 1)%R -> (IZR w <= c + 1)%R -> (IZR w <= IZR n - c)%R ->
    0 <= iround (IZR r * u + c) < n.
  Proof.
    intros Hr Hu H1 H2.
    assert (R0 : (0 <= IZR r)%R) by (apply IZR_le; lia).
    assert (R1 : (IZR r <= IZR w - 1)%R) by (rewrite <- minus_IZR; apply IZR_le; lia).
    assert (A : (- IZR r <= IZR r * u <= IZR r)%R) by (split; nra).
    split.
    - apply iround_ge. lra.
    - assert (iround (IZR r * u + c) <= n - 1); [|lia]. apply iround_lt. rewrite minus_IZR. lra.
  Qed.

  Lemma polar_inside row r : 0 <= r < w ->
    0 <= polar_x center_x h row r < dx /\ 0 <= polar_y center_y h row r < dy.
  Proof.
    intros Hr. pose proof edge as (E1 & E2 & E3 & E4). unfold polar_x, polar_y.
    split; apply round_inside; auto; [apply COS_bound|apply SIN_bound].
  Qed.

  Lemma polar_spec data row r : 0 <= row < h -> 0 <= r < w ->
    polar_transform center_x center_y data dx w h thresh_max thresh_min (row * w + r) =
    clip thresh_max thresh_min (data (polar_y center_y h row r * dx + polar_x center_x h row r)).
  Proof.
    intros Hr Hc. unfold polar_transform.
    destruct (pixels h w (fun row r (_ : R) => clip thresh_max thresh_min (data (polar_y center_y h row r * dx + polar_x center_x h row r)))
      (fun _ => 0%R) ltac:(lia) ltac:(lia)) as [P _]. exact (P row r Hr Hc).
  Qed.

  Hypothesis Hatan : forall y x, (- PI <= atan2 y x <= PI)%R.

  Lemma inverse_nonneg row col : 0 <= inverse_row center_x center_y atan2 h row col /\ 0 <= inverse_col center_x center_y row col.
  Proof.
    pose proof (pol_height_pos w Hw1) as Hh. fold h in Hh.
    assert (Hp : (PI < pi_c + pi_c)%R). { unfold pi_c. pose proof PI_4. lra. }
    split.
    - unfold inverse_row. match goal with |- context [atan2 ?y ?x] => set (t := atan2 y x); pose proof (Hatan y x) as T; fold t in T end.
      apply iround_ge.
      assert (0 <= (if rltb t 0 then t + 2 * pi_c else t))%R.
      { destruct (rltb t 0) eqn:E; [lra|apply rltb_false in E; lra]. }
      assert (0 < pi_c)%R by (unfold pi_c; lra).
      assert (0 <= IZR h)%R by (apply IZR_le; lia).
      assert (0 <= (if rltb t 0 then t + 2 * pi_c else t) * IZR h / (2 * pi_c))%R; [|lra].
      apply Rmult_le_pos; [now apply Rmult_le_pos|]. left. apply Rinv_0_lt_compat. lra.
    - unfold inverse_col. apply iround_ge. pose proof (sqrt_pos ((IZR row - center_y) * (IZR row - center_y) + (IZR col - center_x) * (IZR col - center_x))). lra.
  Qed.

  (** The parameters for which the windows stay inside the polar image. *)
  Hypothesis Hring : 1 <= ring_width.
  Hypothesis Hfit : 2 * w / 3 + (2 * ring_width + 1) < w.
  Hypothesis Hang : 0 <= angular_min < 180.
  Hypothesis Hrefl : reflect = true -> h * angular_min / 360 <= h / 2 - 1.
  Hypothesis Hdx : 0 <= dx.
  Hypothesis Hdy : 0 <= dy.

  Lemma azi_ok : 0 <= m_azi_of h angular_min /\ (if reflect then m_azi_of h angular_min <= h / 2 - 1 else m_azi_of h angular_min <= h).
  Proof.
    pose proof (pol_height_pos w Hw1) as Hh. fold h in Hh. unfold m_azi_of. split.
    - apply Z.div_pos; nia.
    - destruct reflect; [auto|]. apply Z.div_le_upper_bound; nia.
  Qed.

  Lemma slice_bound data row col : 0 <= row < dy -> 0 <= col < dx ->
    (Rabs (slice data (row * dx + col)%Z - data (row * dx + col)%Z) <= Rabs threshold)%R.
  Proof.
    intros Hr Hc. destruct (slice_spec data Hdx Hdy) as [E _]. rewrite E by auto.
    match goal with |- (Rabs (?a - ?b - ?a) <= _)%R => replace (a - b - a)%R with (- b)%R by lra end. rewrite Rabs_Ropp.
    pose proof (inverse_nonneg row col) as [N1 N2]. pose proof (pol_height_pos w Hw1) as Hh. fold h in Hh. pose proof azi_ok as [A1 A2].
    unfold inverse_at. destruct ((inverse_row center_x center_y atan2 h row col <? h) && (inverse_col center_x center_y row col <? w)) eqn:G.
    - apply ring_filter_bound; auto; lia.
    - rewrite Rabs_R0. apply Rabs_pos.
  Qed.

  Lemma slice_constant data c : (forall row col, 0 <= row < dy -> 0 <= col < dx -> data (row * dx + col) = c) ->
    forall row col, 0 <= row < dy -> 0 <= col < dx -> slice data (row * dx + col) = c.
  Proof.
    intros H row col Hr Hc. destruct (slice_spec data Hdx Hdy) as [E _]. rewrite E by auto. rewrite H by auto.
    pose proof (inverse_nonneg row col) as [N1 N2]. pose proof (pol_height_pos w Hw1) as Hh. fold h in Hh. pose proof azi_ok as [A1 A2].
    unfold inverse_at. destruct ((inverse_row center_x center_y atan2 h row col <? h) && (inverse_col center_x center_y row col <? w)) eqn:G; [|lra].
    rewrite (ring_filter_constant h w (2 * ring_width + 1) (m_azi_of h angular_min) threshold reflect Hh ltac:(lia) ltac:(lia) Hfit A1 A2 _ (clip thresh_max thresh_min c)); try lia; [lra|].
    intros r k Hr' Hk. rewrite polar_spec by auto. f_equal. pose proof (polar_inside r k Hk). apply H; lia.
  Qed.

  Lemma slice_local d1 d2 : (forall i, 0 <= i < dy * dx -> d1 i = d2 i) -> forall i, 0 <= i < dy * dx -> slice d1 i = slice d2 i.
  Proof.
    intros H i Hi.
    assert (Hdx' : 0 < dx) by nia.
    pose proof (Z.div_mod i dx ltac:(lia)) as Ei. pose proof (Z.mod_pos_bound i dx ltac:(lia)) as Hm.
    assert (Hr : 0 <= i / dx < dy). { split; [apply Z.div_pos; lia|apply Z.div_lt_upper_bound; lia]. }
    replace i with (i / dx * dx + i mod dx) by lia.
    set (row := i / dx) in *. set (col := i mod dx) in *.
    assert (Hf : forall r c, 0 <= r < dy -> 0 <= c < dx -> d1 (r * dx + c) = d2 (r * dx + c)) by (intros r c Hr' Hc'; apply H; nia).
    destruct (slice_spec d1 Hdx Hdy) as [E1 _]. destruct (slice_spec d2 Hdx Hdy) as [E2 _]. rewrite E1, E2 by auto. rewrite Hf by auto.
    pose proof (inverse_nonneg row col) as [N1 N2]. pose proof (pol_height_pos w Hw1) as Hh. fold h in Hh. pose proof azi_ok as [A1 A2].
    unfold inverse_at. destruct ((inverse_row center_x center_y atan2 h row col <? h) && (inverse_col center_x center_y row col <? w)) eqn:G; [|lra].
    f_equal. apply ring_filter_local; auto; try lia.
    intros r k Hr' Hk. rewrite !polar_spec by auto. f_equal. pose proof (polar_inside r k Hk). apply Hf; lia.
  Qed.

  (** All slices. *)
  Lemma remove_ring_spec data istart iend : istart <= iend ->
    let out := remove_ring center_x center_y atan2 data dx dy thresh_max thresh_min threshold angular_min ring_width reflect istart iend in
    (forall s i, istart <= s < iend -> 0 <= i < dy * dx -> out (s * dy * dx + i) = slice (fun j => data (s * dy * dx + j)) i) /\
    (forall s i, s < istart \/ iend <= s -> 0 <= i < dy * dx -> out (s * dy * dx + i) = data (s * dy * dx + i)).
  Proof.
    intros Hie. unfold remove_ring.
    match goal with |- context [for_range _ _ ?f _] => set (body := f) end.
    pose proof (for_range_ind (fun q (d : arr R) =>
      (forall s i, istart <= s < q -> 0 <= i < dy * dx -> d (s * dy * dx + i) = slice (fun j => data (s * dy * dx + j)) i) /\
      (forall s i, s < istart \/ q <= s -> 0 <= i < dy * dx -> d (s * dy * dx + i) = data (s * dy * dx + i))) istart iend body data Hie) as L.
    cbv beta in L. apply L; clear L.
    - split; intros; [lia|auto].
    - intros q d Hq (L1 & L2). unfold body. cbv zeta.
      set (dq := fun i => d (q * dy * dx + i)).
      assert (Far : forall s i, s <> q -> 0 <= i < dy * dx ->
        slice dq (s * dy * dx + i - q * dy * dx) = d (s * dy * dx + i)).
      { intros s i Ns Hi. destruct (slice_spec dq Hdx Hdy) as [_ F]. rewrite F.
        2:{ replace (s * dy * dx + i - q * dy * dx) with ((s - q) * (dy * dx) + i) by lia.
            assert (s < q \/ q < s) as [G|G] by lia; [left|right]; nia. }
        unfold dq. f_equal. lia. }
      split.
      + intros s i Hs Hi. destruct (Z.eq_dec s q) as [->|Ns].
        * replace (q * dy * dx + i - q * dy * dx) with i by lia. apply slice_local; auto.
          intros j Hj. unfold dq. apply L2; auto. lia.
        * rewrite Far by auto. apply L1; auto. lia.
      + intros s i Hs Hi. rewrite Far by (auto; lia). apply L2; auto. lia.
  Qed.
End Slice.
