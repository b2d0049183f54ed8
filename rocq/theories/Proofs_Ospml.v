From Verif Require Import Base CLoop Model_Prep Model_Ray Model_Solver Model_Ospml Proofs_Prep Proofs_Morph Proofs_Ray Properties_Ray Proofs_Solver Proofs_Art Proofs_Subsets Proofs_Bart Proofs_Em.
From Coq Require Import Reals Lra Psatz.
Local Open Scope R_scope.

(** * The penalty pass *)
Lemma sqrt2_pos : 0 < sqrt 2. Proof. apply sqrt_lt_R0. lra. Qed.
Lemma filter_app' {A} (f : A -> bool) l l' : filter f (l ++ l') = filter f l ++ filter f l'.
Proof. induction l as [|x l IH]; cbn; auto. destruct (f x); cbn; now rewrite IH. Qed.
Lemma filter_none {A} (f : A -> bool) l : (forall x, In x l -> f x = false) -> filter f l = [].
Proof. induction l as [|x l IH]; intros H; cbn; auto. rewrite H by now left. apply IH. intros; apply H; now right. Qed.
Lemma filter_one {A} (f : A -> bool) (h : Z -> A) k0 a b :
  (forall k, (a <= k < b)%Z -> f (h k) = (k =? k0)%Z) ->
  filter f (map h (zrange a b)) = if ((a <=? k0) && (k0 <? b))%Z then [h k0] else [].
Proof.
  intros H. destruct ((a <=? k0) && (k0 <? b))%Z eqn:E.
  - assert (L1 : (a <= k0 <= b)%Z) by lia. rewrite <- (zrange_app L1).
    assert (L2 : (k0 < b)%Z) by lia. rewrite (zrange_cons L2), map_app, filter_app'. cbn [map filter].
    rewrite H, Z.eqb_refl by lia. rewrite !filter_none; auto.
    + intros x Hx. apply in_map_iff in Hx as (k & <- & Hk). apply in_zrange in Hk. rewrite H by lia. lia.
    + intros x Hx. apply in_map_iff in Hx as (k & <- & Hk). apply in_zrange in Hk. rewrite H by lia. lia.
  - apply filter_none. intros x Hx. apply in_map_iff in Hx as (k & <- & Hk). apply in_zrange in Hk. rewrite H by lia. lia.
Qed.
Lemma filter_two {A} (f : A -> bool) (h : Z -> Z -> A) n0 m0 a b c d :
  (forall n m, (a <= n < b)%Z -> (c <= m < d)%Z -> f (h n m) = ((n =? n0) && (m =? m0))%Z) ->
  filter f (flat_map (fun n => map (h n) (zrange c d)) (zrange a b))
  = if ((a <=? n0) && (n0 <? b) && (c <=? m0) && (m0 <? d))%Z then [h n0 m0] else [].
Proof.
  intros H.
  assert (G : forall l, (forall n, In n l -> n <> n0 /\ (a <= n < b)%Z) -> filter f (flat_map (fun n => map (h n) (zrange c d)) l) = []).
  { induction l as [|n l IH]; intros Hl; cbn; auto. rewrite filter_app', IH by (intros; apply Hl; now right). rewrite app_nil_r.
    apply filter_none. intros x Hx. apply in_map_iff in Hx as (k & <- & Hk). apply in_zrange in Hk.
    destruct (Hl n ltac:(now left)). rewrite H by lia. lia. }
  destruct ((a <=? n0) && (n0 <? b))%Z eqn:E; cbn [andb].
  - assert (L1 : (a <= n0 <= b)%Z) by lia. rewrite <- (zrange_app L1).
    assert (L2 : (n0 < b)%Z) by lia. rewrite (zrange_cons L2), flat_map_app. cbn [flat_map]. rewrite !filter_app', !G, app_nil_r.
    + cbn [app]. rewrite (filter_one f (h n0) m0); auto. intros k Hk. rewrite H by lia. lia.
    + intros n Hn. apply in_zrange in Hn. lia.
    + intros n Hn. apply in_zrange in Hn. lia.
  - apply G. intros n Hn. apply in_zrange in Hn. lia.
Qed.

(** The offsets of the neighbours of pixel (n, m), by kind. *)
Definition nb_class (gx gy n m : Z) : list (Z * R) :=
  (if (n =? 0) then
     if (m =? 0) then weigh w_corner [1; gy] [gy + 1]
     else if (m =? gy - 1) then weigh w_corner [-1; gy] [gy - 1]
     else weigh w_edge [1; -1; gy] [gy + 1; gy - 1]
   else if (n =? gx - 1) then
     if (m =? 0) then weigh w_corner [1; -gy] [-gy + 1]
     else if (m =? gy - 1) then weigh w_corner [-1; -gy] [-gy - 1]
     else weigh w_edge [1; -1; -gy] [-gy + 1; -gy - 1]
   else if (m =? 0) then weigh w_edge [1; gy; -gy] [gy + 1; -gy + 1]
   else if (m =? gy - 1) then weigh w_edge [-1; gy; -gy] [gy - 1; -gy - 1]
   else weigh w_inner [1; -1; gy; -gy] [gy + 1; gy - 1; -gy + 1; -gy - 1])%Z.
Lemma at_pixel gy n m n' m' : (0 <= m < gy)%Z -> (0 <= m' < gy)%Z -> ((m' + n' * gy =? m + n * gy) = ((n' =? n) && (m' =? m)))%Z.
Proof.
  intros H H'. destruct ((n' =? n) && (m' =? m))%Z eqn:E.
  - assert (n' = n /\ m' = m) as [-> ->] by lia. apply Z.eqb_refl.
  - apply Z.eqb_neq. intros E'. assert (n' = n /\ m' = m) by (apply (Z.div_mod_unique gy); lia). lia.
Qed.
Lemma visits_at gx gy n m : (2 <= gx)%Z -> (2 <= gy)%Z -> (0 <= n < gx)%Z -> (0 <= m < gy)%Z ->
  filter (fun v => (fst v =? m + n * gy)%Z) (visits gx gy) = [((m + n * gy)%Z, nb_class gx gy n m)].
Proof.
  intros Hx Hy Hn Hm. unfold visits. rewrite !filter_app'.
  rewrite (filter_two _ (fun n m => ((m + n * gy)%Z, _)) n m) by (intros n' m' Hn' Hm'; cbn [fst]; apply at_pixel; lia).
  rewrite (filter_one _ (fun m => (m, weigh w_edge [1; -1; gy] [gy + 1; gy - 1])%Z) (if n =? 0 then m else -1)%Z).
  2:{ intros k Hk. cbn [fst]. replace (k =? m + n * gy)%Z with (k + 0 * gy =? m + n * gy)%Z by (f_equal; lia).
      rewrite at_pixel by lia. destruct (n =? 0)%Z eqn:E; lia. }
  rewrite (filter_one _ (fun m => (m + (gx - 1) * gy, weigh w_edge [1; -1; -gy] [-gy + 1; -gy - 1])%Z) (if n =? gx - 1 then m else -1)%Z).
  2:{ intros k Hk. cbn [fst]. rewrite at_pixel by lia. destruct (n =? gx - 1)%Z eqn:E; lia. }
  rewrite (filter_one _ (fun n => (n * gy, weigh w_edge [1; gy; -gy] [gy + 1; -gy + 1])%Z) (if m =? 0 then n else -1)%Z).
  2:{ intros k Hk. cbn [fst]. replace (k * gy =? m + n * gy)%Z with (0 + k * gy =? m + n * gy)%Z by (f_equal; lia).
      rewrite at_pixel by lia. destruct (m =? 0)%Z eqn:E; lia. }
  rewrite (filter_one _ (fun n => (gy - 1 + n * gy, weigh w_edge [-1; gy; -gy] [gy - 1; -gy - 1])%Z) (if m =? gy - 1 then n else -1)%Z).
  2:{ intros k Hk. cbn [fst]. rewrite at_pixel by lia. destruct (m =? gy - 1)%Z eqn:E; lia. }
  cbn [filter fst].
  replace (0 =? m + n * gy)%Z with (0 + 0 * gy =? m + n * gy)%Z by (f_equal; lia).
  replace (gy - 1 =? m + n * gy)%Z with (gy - 1 + 0 * gy =? m + n * gy)%Z by (f_equal; lia).
  replace ((gx - 1) * gy =? m + n * gy)%Z with (0 + (gx - 1) * gy =? m + n * gy)%Z by (f_equal; lia).
  rewrite !at_pixel by lia.
  unfold nb_class.
  destruct (n =? 0)%Z eqn:E1; [|destruct (n =? gx - 1)%Z eqn:E2]; (destruct (m =? 0)%Z eqn:E3; [|destruct (m =? gy - 1)%Z eqn:E4]);
  repeat match goal with
  | |- context [if ?b then _ else _] => first [replace b with true by lia | replace b with false by lia]; cbv iota
  end; cbn [app]; try reflexivity;
  repeat match goal with H : (_ =? _)%Z = true |- _ => apply Z.eqb_eq in H; subst end; do 2 f_equal; lia.
Qed.

Section Penalty.
  Variable gam : number -> number -> number.
  Variable beta : R.
  Variable g : geom.
  Let N := npix g.
  Lemma pen_px_other s recon i nb F G q : q <> i ->
    fst (pen_px gam beta g s recon i nb (F, G)) q = F q /\ snd (pen_px gam beta g s recon i nb (F, G)) q = G q.
  Proof.
    intros H. unfold pen_px. revert F G. induction nb as [|[o w] nb IH]; intros F G; cbn [fold_left]; auto.
    cbv zeta. destruct (IH (aset F i (nadd (F i) (nmul (Some (2 * beta * w)) (gam (recon (i + s * npix g)%Z) (recon (i + s * npix g + o)%Z)))))
      (aset G i (nsub (G i) (nmul (nmul (Some (2 * beta * w)) (gam (recon (i + s * npix g)%Z) (recon (i + s * npix g + o)%Z)))
         (nadd (recon (i + s * npix g)%Z) (recon (i + s * npix g + o)%Z)))))) as [E1 E2].
    rewrite E1, E2, !aset_ne by auto. auto.
  Qed.
  Lemma pen_px_local s recon i nb st st' : fst st i = fst st' i -> snd st i = snd st' i ->
    fst (pen_px gam beta g s recon i nb st) i = fst (pen_px gam beta g s recon i nb st') i /\
    snd (pen_px gam beta g s recon i nb st) i = snd (pen_px gam beta g s recon i nb st') i.
  Proof.
    unfold pen_px. revert st st'. induction nb as [|[o w] nb IH]; intros [F G] [F' G'] E1 E2; cbn [fold_left fst snd] in *; auto.
    apply IH; cbn [fst snd]; rewrite !aset_eq; congruence.
  Qed.
  Lemma penalty_filter s recon q vs : forall st st', fst st q = fst st' q -> snd st q = snd st' q ->
    let r := fold_left (fun st '(i, nb) => pen_px gam beta g s recon i nb st) vs st in
    let r' := fold_left (fun st '(i, nb) => pen_px gam beta g s recon i nb st) (filter (fun v => (fst v =? q)%Z) vs) st' in
    fst r q = fst r' q /\ snd r q = snd r' q.
  Proof.
    induction vs as [|[i nb] vs IH]; intros [F G] [F' G'] E1 E2; cbn [fold_left filter fst snd] in *; auto.
    destruct (i =? q)%Z eqn:E.
    - apply Z.eqb_eq in E as ->. cbn [fold_left]. destruct (pen_px_local s recon q nb (F, G) (F', G') E1 E2) as [L1 L2]. exact (IH _ _ L1 L2).
    - apply Z.eqb_neq in E. destruct (pen_px_other s recon i nb F G q) as [A1 A2]; [congruence|].
      apply IH; [etransitivity; [exact A1|exact E1]|etransitivity; [exact A2|exact E2]].
  Qed.
  (** Real-valued result at one pixel. *)
  Variable gR : R -> R -> R.
  Lemma pen_px_real s recon i nb x (y : Z -> R) : recon (i + s * N)%Z = Some x ->
    (forall o w, In (o, w) nb -> recon (i + s * N + o)%Z = Some (y o) /\ gam (Some x) (Some (y o)) = Some (gR x (y o))) ->
    forall F G f0 g0, F i = Some f0 -> G i = Some g0 ->
    fst (pen_px gam beta g s recon i nb (F, G)) i = Some (f0 + lsum (fun '(o, w) => 2 * beta * w * gR x (y o)) nb) /\
    snd (pen_px gam beta g s recon i nb (F, G)) i = Some (g0 - lsum (fun '(o, w) => 2 * beta * w * gR x (y o) * (x + y o)) nb).
  Proof.
    intros Hx. unfold pen_px. fold N. rewrite Hx. induction nb as [|[o w] nb IH]; intros Hy F G f0 g0 EF EG; cbn [fold_left].
    - unfold lsum. cbn. rewrite EF, EG. split; f_equal; lra.
    - destruct (Hy o w ltac:(now left)) as [Ey Eg]. rewrite Ey, Eg, EF, EG. cbn [nmul nadd nsub].
      destruct (IH ltac:(intros; apply (Hy o0 w0); now right)
        (aset F i (Some (f0 + 2 * beta * w * gR x (y o)))) (aset G i (Some (g0 - 2 * beta * w * gR x (y o) * (x + y o))))
        _ _ ltac:(apply aset_eq) ltac:(apply aset_eq)) as [A1 A2].
      rewrite !lsum_cons. split; [etransitivity; [exact A1|]|etransitivity; [exact A2|]]; f_equal; lra.
  Qed.
End Penalty.

(** * Mean over the neighbours inside the image, weighted by 1 / distance *)
Definition around : list (Z * Z) := [(0, 1); (0, -1); (1, 0); (-1, 0); (1, 1); (1, -1); (-1, 1); (-1, -1)]%Z.
Definition neighbours (gx gy n m : Z) : list (Z * Z) :=
  filter (fun '(a, b) => (0 <=? a) && (a <? gx) && (0 <=? b) && (b <? gy))%Z (map (fun '(a, b) => (n + a, m + b)%Z) around).
Definition closeness (n m : Z) (q : Z * Z) : R :=
  / sqrt (IZR ((fst q - n) * (fst q - n) + (snd q - m) * (snd q - m))).
Definition nb_mean (gx gy n m : Z) (h : Z -> Z -> R) : R :=
  lsum (fun q => closeness n m q * h (fst q) (snd q)) (neighbours gx gy n m) / lsum (closeness n m) (neighbours gx gy n m).

Lemma nb_class_mean gx gy n m (h : Z -> Z -> R) (f : Z -> R) : (2 <= gx)%Z -> (2 <= gy)%Z -> (0 <= n < gx)%Z -> (0 <= m < gy)%Z ->
  (forall a b, (0 <= a < gx)%Z -> (0 <= b < gy)%Z -> f (b + a * gy - (m + n * gy))%Z = h a b) ->
  lsum (fun '(o, w) => w * f o) (nb_class gx gy n m) = nb_mean gx gy n m h.
Proof.
  intros Hx Hy Hn Hm Hf.
  assert (C1 : forall a b, ((a - n) * (a - n) + (b - m) * (b - m) = 1)%Z -> closeness n m (a, b) = 1).
  { intros a b E. unfold closeness. cbn [fst snd]. rewrite E, sqrt_1. lra. }
  assert (C2 : forall a b, ((a - n) * (a - n) + (b - m) * (b - m) = 2)%Z -> closeness n m (a, b) = / sqrt 2).
  { intros a b E. unfold closeness. cbn [fst snd]. now rewrite E. }
  assert (Hf' : forall o a b, (0 <= a < gx)%Z -> (0 <= b < gy)%Z -> o = (b + a * gy - (m + n * gy))%Z -> f o = h a b) by (intros o a b Ha Hb ->; auto).
  pose proof sqrt2_pos as H2.
  unfold nb_mean, neighbours, around. cbn [map].
  unfold nb_class, weigh.
  destruct (n =? 0)%Z eqn:E1; [|destruct (n =? gx - 1)%Z eqn:E2]; (destruct (m =? 0)%Z eqn:E3; [|destruct (m =? gy - 1)%Z eqn:E4]);
  cbn [filter];
  repeat match goal with
  | |- context [if ?b then _ else _] => first [replace b with true by lia | replace b with false by lia]; cbv iota
  end; cbn [map app]; unfold lsum, rsum; cbn [map fold_right fst snd];
  rewrite ?C1 by lia; rewrite ?C2 by lia;
  repeat match goal with |- context [f ?o] => first
    [ rewrite (Hf' o (n + 0) (m + 1))%Z by lia | rewrite (Hf' o (n + 0) (m + -1))%Z by lia
    | rewrite (Hf' o (n + 1) (m + 0))%Z by lia | rewrite (Hf' o (n + -1) (m + 0))%Z by lia
    | rewrite (Hf' o (n + 1) (m + 1))%Z by lia | rewrite (Hf' o (n + 1) (m + -1))%Z by lia
    | rewrite (Hf' o (n + -1) (m + 1))%Z by lia | rewrite (Hf' o (n + -1) (m + -1))%Z by lia ] end;
  unfold w_inner, w_edge, w_corner; field; repeat split; try lra; nra.
Qed.

(** * One subset *)
Section Block.
  Variable gam : number -> number -> number.
  Variable gR : R -> R -> R.
  Hypothesis Hgam : forall x y, gam (Some x) (Some y) = Some (gR x y).
  Variable beta : R.
  Variable g : geom.
  Hypothesis Hgx : (2 <= ngridx g)%Z.
  Hypothesis Hgy : (2 <= ngridy g)%Z.
  Variable data : arr R.
  Variable num_block : Z.
  Variable ind_block : arr Z.
  Let N := npix g.
  Let pk := pick num_block ind_block.

  Definition row (j : Z) : Z := (j / ngridy g)%Z.
  Definition col (j : Z) : Z := (j mod ngridy g)%Z.
  Definition flat (a b : Z) : Z := (b + a * ngridy g)%Z.
  Definition at_nb (h : Z -> R) (a b : Z) : R := h (flat a b).
  Definition near (j : Z) (h : Z -> R) : R := nb_mean (ngridx g) (ngridy g) (row j) (col j) (at_nb h).
  Definition fval (m : Z -> R) (j : Z) : R := 2 * beta * near j (fun k => gR (m j) (m k)).
  Definition gpen (m : Z -> R) (j : Z) : R := - (2 * beta * near j (fun k => gR (m j) (m k) * (m j + m k))).
  Definition eval (s : Z) (L : list (Z * Z)) (m : Z -> R) (j : Z) : R := m j * upd_sum g data osem_v s L m j.
  Definition gval (s : Z) (L : list (Z * Z)) (m : Z -> R) (j : Z) : R := gpen m j + hits_sum g s L j.
  Definition disc (s : Z) (L : list (Z * Z)) (m : Z -> R) (j : Z) : R :=
    gval s L m j * gval s L m j + 8 * eval s L m j * fval m j.
  Definition pml_step (s : Z) (L : list (Z * Z)) (m : Z -> R) : Z -> R := fun j =>
    if Req_EM_T (fval m j) 0 then m j else (- gval s L m j + sqrt (disc s L m j)) / (4 * fval m j).
  Definition disc_ok (s : Z) (L : list (Z * Z)) (m : Z -> R) : Prop :=
    forall j, (0 <= j < N)%Z -> fval m j <> 0 -> 0 <= disc s L m j.

  Lemma row_col j : (0 <= j < N)%Z -> (0 <= row j < ngridx g)%Z /\ (0 <= col j < ngridy g)%Z /\ j = flat (row j) (col j).
  Proof.
    intros H. unfold row, col, flat, N, npix in *. repeat split; try (apply Z.mod_pos_bound; lia).
    - apply Z.div_pos; lia.
    - apply Z.div_lt_upper_bound; lia.
    - pose proof (Z.div_mod j (ngridy g)). lia.
  Qed.
  Lemma nb_in_grid n m o w : (0 <= n < ngridx g)%Z -> (0 <= m < ngridy g)%Z -> In (o, w) (nb_class (ngridx g) (ngridy g) n m) ->
    (0 <= m + n * ngridy g + o < N)%Z.
  Proof.
    intros Hn Hm H. unfold N, npix.
    assert (G : exists a b, (0 <= a < ngridx g)%Z /\ (0 <= b < ngridy g)%Z /\ (m + n * ngridy g + o = b + a * ngridy g)%Z).
    { unfold nb_class in H.
      assert (forall dn dm, (0 <= n + dn < ngridx g)%Z -> (0 <= m + dm < ngridy g)%Z -> o = (dm + dn * ngridy g)%Z ->
        exists a b, (0 <= a < ngridx g)%Z /\ (0 <= b < ngridy g)%Z /\ (m + n * ngridy g + o = b + a * ngridy g)%Z) as K.
      { intros dn dm H1 H2 ->. exists (n + dn)%Z, (m + dm)%Z. split; auto. split; auto. ring. }
      destruct (n =? 0)%Z eqn:E1; [|destruct (n =? ngridx g - 1)%Z eqn:E2]; (destruct (m =? 0)%Z eqn:E3; [|destruct (m =? ngridy g - 1)%Z eqn:E4]);
      unfold weigh in H; cbn [map app In] in H;
      repeat match goal with H : _ \/ _ |- _ => destruct H as [H|H] end; try contradiction; injection H as <- _;
      first [ apply (K 0 1)%Z; lia | apply (K 0 (-1))%Z; lia | apply (K 1 0)%Z; lia | apply (K (-1) 0)%Z; lia
            | apply (K 1 1)%Z; lia | apply (K 1 (-1))%Z; lia | apply (K (-1) 1)%Z; lia | apply (K (-1) (-1))%Z; lia ]. }
    destruct G as (a & b & Ha & Hb & ->). nia.
  Qed.
  Lemma penalty_spec s recon m : is_slice g s recon m -> forall j, (0 <= j < N)%Z ->
    fst (penalty gam beta g s recon (nzero, nzero)) j = Some (fval m j) /\
    snd (penalty gam beta g s recon (nzero, nzero)) j = Some (gpen m j).
  Proof.
    intros Hm j Hj. destruct (row_col j Hj) as (Hr & Hc & Ej). unfold flat in Ej. unfold penalty.
    destruct (penalty_filter gam beta g s recon j (visits (ngridx g) (ngridy g)) (nzero, nzero) (nzero, nzero) eq_refl eq_refl) as [A1 A2].
    pose proof (visits_at _ _ _ _ Hgx Hgy Hr Hc) as V. rewrite <- Ej in V. rewrite V in A1, A2. rewrite A1, A2. cbn [fold_left].
    set (nb := nb_class (ngridx g) (ngridy g) (row j) (col j)).
    assert (HY : forall o w, In (o, w) nb -> recon (j + s * npix g + o)%Z = Some (m (j + o)%Z) /\ gam (Some (m j)) (Some (m (j + o)%Z)) = Some (gR (m j) (m (j + o)%Z))).
    { intros o w Ho. split; [|apply Hgam]. replace (j + s * npix g + o)%Z with (j + o + s * npix g)%Z by lia. apply Hm.
      rewrite Ej. apply (nb_in_grid _ _ _ w); auto. }
    destruct (pen_px_real gam beta g gR s recon j nb (m j) (fun o => m (j + o)%Z) (Hm j Hj) HY nzero nzero 0 0 eq_refl eq_refl) as [B1 B2].
    unfold fval, gpen, near. split; [etransitivity; [exact B1|]|etransitivity; [exact B2|]]; f_equal.
    - rewrite Rplus_0_l. rewrite <- (nb_class_mean _ _ _ _ _ (fun o => gR (m j) (m (j + o)%Z))); auto.
      + fold nb. rewrite <- lsum_scal. apply lsum_ext. intros [o w] _. ring.
      + intros a b Ha Hb. unfold at_nb, flat. do 2 f_equal. lia.
    - rewrite <- (nb_class_mean _ _ _ _ _ (fun o => gR (m j) (m (j + o)%Z) * (m j + m (j + o)%Z))); auto.
      + fold nb. rewrite <- lsum_scal. unfold Rminus. rewrite Rplus_0_l. f_equal. apply lsum_ext. intros [o w] _. ring.
      + intros a b Ha Hb. unfold at_nb, flat. replace (j + (b + a * ngridy g - (col j + row j * ngridy g)))%Z with (b + a * ngridy g)%Z by lia. reflexivity.
  Qed.

  Lemma sub_scaled_spec s recon m segs k E eR : is_slice g s recon m -> in_grid N segs ->
    (forall j, (0 <= j < N)%Z -> E j = Some (eR j)) -> forall j, (0 <= j < N)%Z ->
    fold_left (fun E '(i, w) => aset E i (nsub (E i) (nmul (nmul (recon (i + s * N)%Z) (Some k)) (Some w)))) segs E j
    = Some (eR j - m j * (k * wt segs j)).
  Proof.
    intros Hm. revert E eR. induction segs as [|[i w] l IH]; intros E eR Hg HE j Hj; cbn [fold_left wt].
    - rewrite HE by auto. f_equal. lra.
    - assert (Hi : (0 <= i < N)%Z) by (apply (Hg i w); now left).
      rewrite (HE i Hi), (Hm i Hi : recon (i + s * N)%Z = _). cbn [nmul nsub].
      rewrite (IH _ (fun y => if (y =? i)%Z then eR i - m i * k * w else eR y)); auto.
      + f_equal. destruct (j =? i)%Z eqn:Ei; [apply Z.eqb_eq in Ei; subst; lra|lra].
      + intros y v Hy. apply (Hg y v). now right.
      + intros y Hy. unfold aset. destruct (y =? i)%Z; auto.
  Qed.
  Lemma pml_rays s recon m L : is_slice g s recon m -> all_ok g data osem_ok s m -> in_range g L -> NoDup L ->
    forall sim sd E eR, (forall p d, In (p, d) L -> sim (ind_data g s p d) = Some 0) ->
    (forall j, (0 <= j < N)%Z -> E j = Some (eR j)) ->
    let st := fold_left (fun st '(p, d) => pml_ray g data s recon p d st) L (sim, sd, E) in
    (forall j, snd (fst st) j = sd j + hits_sum g s L j) /\
    (forall j, (0 <= j < N)%Z -> snd st j = Some (eR j - eval s L m j)) /\
    (forall x, (forall p d, In (p, d) L -> x <> ind_data g s p d) -> fst (fst st) x = sim x).
  Proof.
    intros Hm Hok. induction L as [|[p d] L IH]; intros Hr Hnd sim sd E eR Hz Hu; cbn [fold_left].
    - cbn [fst snd]. unfold hits_sum, eval, upd_sum, lsum. cbn. repeat split; intros; auto; [lra|]. rewrite Hu by auto. f_equal. lra.
    - inversion Hnd as [|? ? Hni Hnd']; subst.
      destruct (Hr p d ltac:(now left)) as [Hp Hd].
      assert (Hg : in_grid N (rays g s p d)) by (apply rays_grid; lia).
      set (segs := rays g s p d) in *.
      edestruct (n_simdata_spec segs (s * N) (ind_data g s p d) recon sim 0 m) as [E1 E2].
      { intros i w Hi. apply Hm. now apply (Hg i w). }
      { apply Hz. now left. }
      rewrite Rplus_0_l in E1.
      set (sim' := n_simdata segs (s * N) (ind_data g s p d) recon sim) in *.
      set (v := osem_v (data (ind_data g s p d)) (dot segs m) (sum_dist2 segs)).
      assert (Eos : pml_ray g data s recon p d (sim, sd, E) = (sim', add_dist segs sd,
        if Req_EM_T (sum_dist2 segs) 0 then E
        else fold_left (fun E '(i, w) => aset E i (nsub (E i) (nmul (nmul (recon (i + s * N)%Z) (Some v)) (Some w)))) segs E)).
      { unfold pml_ray. cbv zeta. fold segs. fold N. fold sim'. f_equal. destruct (Req_EM_T _ 0) as [|Hne]; auto.
        assert (Ev : ndiv (Some (data (ind_data g s p d))) (sim' (ind_data g s p d)) = Some v).
        { rewrite E1. cbn [ndiv]. pose proof (Hok p d Hp Hd Hne) as K. unfold osem_ok in K. fold segs in K.
          destruct (Req_EM_T (dot segs m) 0); [contradiction|reflexivity]. }
        now rewrite Ev. }
      cbv zeta. rewrite !Eos.
      match goal with |- context [fold_left _ L (sim', ?sd', ?up')] => set (sd1 := sd'); set (up1 := up') end.
      assert (Hu1 : forall j, (0 <= j < N)%Z -> up1 j = Some (eR j - m j * (if Req_EM_T (sum_dist2 segs) 0 then 0 else v * wt segs j))).
      { intros j Hj. unfold up1. destruct (Req_EM_T (sum_dist2 segs) 0) as [E0|E0].
        - rewrite Hu by auto. f_equal. lra.
        - now apply sub_scaled_spec. }
      destruct (IH ltac:(intros p' d' H; apply Hr; now right) Hnd' sim' sd1 up1
        (fun j => eR j - m j * (if Req_EM_T (sum_dist2 segs) 0 then 0 else v * wt segs j))) as (A1 & A2 & A3); [|exact Hu1|].
      { intros p' d' Hin. destruct (Hr p' d' ltac:(now right)). rewrite E2; [apply Hz; now right|].
        intros E'. apply ind_data_inj in E'; auto. destruct E' as (_ & -> & ->). now apply Hni. }
      repeat split.
      + intros j. rewrite A1. unfold sd1. rewrite add_dist_spec. unfold hits_sum. rewrite lsum_cons. fold segs. lra.
      + intros j Hj. rewrite A2 by auto. f_equal. unfold eval, upd_sum. rewrite lsum_cons. cbv zeta. fold segs. fold v. lra.
      + intros x Hx. rewrite A3 by (intros; apply Hx; now right). apply E2. apply Hx. now left.
  Qed.

  Definition px (F E G : arr number) (s q : Z) (r : arr number) : arr number :=
    match F q with
    | Some f => if Req_EM_T f 0 then r else aset r (q + s * N)%Z (nroot (E q) (F q) (G q))
    | None => aset r (q + s * N)%Z None
    end.
  Lemma px_spec s recon (F E G : arr number) (v : Z -> number) :
    (forall q r, (0 <= q < N)%Z -> r (q + s * N)%Z = recon (q + s * N)%Z -> px F E G s q r (q + s * N)%Z = v q) ->
    let r := for_ (ngridx g) (fun n => for_ (ngridy g) (fun m => px F E G s (m + n * ngridy g)%Z)) recon in
    (forall j, (0 <= j < N)%Z -> r (j + s * N)%Z = v j) /\
    (forall x, (forall j, (0 <= j < N)%Z -> x <> j + s * N)%Z -> r x = recon x).
  Proof.
    intros Hv. cbv zeta.
    assert (Hpx : forall q r x, (x <> q + s * N)%Z -> px F E G s q r x = r x).
    { intros q r x Hx. unfold px. destruct (F q); [destruct (Req_EM_T _ 0)|]; auto; now rewrite aset_ne. }
    pose (P k (r : arr number) := (forall j, (0 <= j < k)%Z -> r (j + s * N)%Z = v j) /\
      (forall x, (forall j, (0 <= j < k)%Z -> x <> j + s * N)%Z -> r x = recon x)).
    enough (P (ngridx g * ngridy g)%Z (for_ (ngridx g) (fun n => for_ (ngridy g) (fun m => px F E G s (m + n * ngridy g)%Z)) recon)) by auto.
    apply (for_inv (fun n r => P (n * ngridy g)%Z r)); [lia|split; intros; auto; lia|].
    intros n r Hn HP. replace ((n + 1) * ngridy g)%Z with (n * ngridy g + ngridy g)%Z by ring.
    apply (for_inv (fun m r => P (n * ngridy g + m)%Z r)); [lia|now rewrite Z.add_0_r|].
    intros m r' Hm [P1 P2]. split.
    - intros j Hj. destruct (Z.eq_dec j (m + n * ngridy g)) as [->|Hne].
      + apply Hv; [unfold N, npix; nia|]. apply P2. intros; lia.
      + rewrite Hpx by lia. apply P1. lia.
    - intros x Hx. rewrite Hpx by (apply Hx; lia). apply P2. intros; apply Hx; lia.
  Qed.
  Lemma add_sd (sd : arr R) (G : arr number) j : (0 <= j < N)%Z ->
    for_ N (fun n G => aset G n (nadd (G n) (Some (sd n)))) G j = nadd (G j) (Some (sd j)).
  Proof.
    intros Hj.
    pose (P k (r : arr number) := forall j, (0 <= j < N)%Z -> r j = if (j <? k)%Z then nadd (G j) (Some (sd j)) else G j).
    assert (HP : P N (for_ N (fun n G => aset G n (nadd (G n) (Some (sd n)))) G)).
    { apply (for_inv P); [lia| |].
      - intros i Hi. now replace (i <? 0)%Z with false by lia.
      - intros k r Hk IH i Hi. unfold aset. destruct (Z.eqb_spec i k) as [->|Hne].
        + replace (k <? k + 1)%Z with true by lia. rewrite IH by lia. now replace (k <? k)%Z with false by lia.
        + rewrite IH by auto. replace (i <? k + 1)%Z with (i <? k)%Z by lia. reflexivity. }
    rewrite HP by auto. now replace (j <? N)%Z with true by lia.
  Qed.
  Lemma pml_block_spec s a b recon sim m : is_slice g s recon m -> all_ok g data osem_ok s m ->
    disc_ok s (pairs g num_block ind_block a b) m ->
    in_range g (pairs g num_block ind_block a b) -> NoDup (pairs g num_block ind_block a b) ->
    (forall p d, In (p, d) (pairs g num_block ind_block a b) -> sim (ind_data g s p d) = Some 0) ->
    let st := pml_block gam beta g data num_block ind_block s a b (recon, sim) in
    is_slice g s (fst st) (pml_step s (pairs g num_block ind_block a b) m) /\
    (forall x, (forall j, (0 <= j < N)%Z -> x <> j + s * N)%Z -> fst st x = recon x) /\
    (forall x, (forall p d, In (p, d) (pairs g num_block ind_block a b) -> x <> ind_data g s p d) -> snd st x = sim x).
  Proof.
    intros Hm Hok Hdisc Hr Hnd Hz. cbv zeta. unfold pml_block. rewrite fold_pairs.
    change (flat_map (fun q => map (pair (pick num_block ind_block q)) (zrange 0 (dx g))) (zrange a b)) with (pairs g num_block ind_block a b).
    set (L := pairs g num_block ind_block a b) in *.
    pose proof (pml_rays s recon m L Hm Hok Hr Hnd sim (fun _ => 0) nzero (fun _ => 0) Hz ltac:(reflexivity)) as H.
    cbv zeta in H. destruct H as (A1 & A2 & A3).
    pose proof (penalty_spec s recon m Hm) as HP.
    destruct (fold_left _ L _) as [[sim' sd'] E']. cbn [fst snd] in *.
    destruct (penalty gam beta g s recon (nzero, nzero)) as [F G]. cbn [fst snd] in *.
    set (G' := for_ N (fun n G => aset G n (nadd (G n) (Some (sd' n)))) G).
    destruct (px_spec s recon F E' G' (fun j => Some (pml_step s L m j))) as [B1 B2].
    { intros q r Hq Er. unfold px. destruct (HP q Hq) as [EF EG].
      assert (EG' : G' q = Some (gval s L m q)).
      { unfold G'. rewrite add_sd by auto. rewrite EG, A1. cbn. unfold gval. f_equal. lra. }
      rewrite EF, EG', A2 by auto. unfold pml_step. destruct (Req_EM_T (fval m q) 0) as [|Hne]; [rewrite Er; now apply Hm|].
      rewrite aset_eq. unfold nroot.
      replace (gval s L m q * gval s L m q - 8 * (0 - eval s L m q) * fval m q) with (disc s L m q) by (unfold disc; ring).
      pose proof (Hdisc q Hq Hne). unfold rltb. destruct (Rlt_dec (disc s L m q) 0); [lra|reflexivity]. }
    repeat split.
    - intros j Hj. now apply B1.
    - exact B2.
    - exact A3.
  Qed.
End Block.

(** * The whole solver under an invariant *)
Section Run.
  Variable gam : number -> number -> number.
  Variable gR : R -> R -> R.
  Hypothesis Hgam : forall x y, gam (Some x) (Some y) = Some (gR x y).
  Variable beta : R.
  Variable g : geom.
  Hypothesis Hgx : (2 <= ngridx g)%Z.
  Hypothesis Hgy : (2 <= ngridy g)%Z.
  Variable data : arr R.
  Variable num_block : Z.
  Variable ind_block : arr Z.
  Hypothesis Hnb : (1 <= num_block)%Z.
  Hypothesis Hdt : (0 < dt g)%Z.
  Hypothesis Hdx : (0 < dx g)%Z.
  Let N := npix g.
  Let pk := pick num_block ind_block.
  Hypothesis Hpk : forall q, (0 <= q < dt g)%Z -> (0 <= pk q < dt g)%Z.
  Hypothesis Hinj : forall q q', (0 <= q < dt g)%Z -> (0 <= q' < dt g)%Z -> pk q = pk q' -> q = q'.
  Let prs := pairs g num_block ind_block.
  Let bn := bnd g num_block.
  Let stp := pml_step gR beta g data.
  Variable P : Z -> (Z -> R) -> Prop.
  Hypothesis HPok : forall s m, (0 <= s < dy g)%Z -> P s m -> all_ok g data osem_ok s m.
  Hypothesis HPdisc : forall s m L, (0 <= s < dy g)%Z -> in_range g L -> P s m -> disc_ok gR beta g data s L m.
  Hypothesis HPstep : forall s m L, (0 <= s < dy g)%Z -> in_range g L -> P s m -> P s (stp s L m).

  Lemma pml_slice_run s st m : (0 <= s < dy g)%Z -> is_slice g s (fst st) m -> P s m -> sim_clear g num_block ind_block s 0 (snd st) ->
    let st' := pml_slice gam beta g data num_block ind_block s st in
    exists m', is_slice g s (fst st') m' /\ P s m' /\
    m' = fold_left (fun m L => stp s L m) (blocks g num_block ind_block) m /\
    (forall x, (forall j, (0 <= j < N)%Z -> x <> j + s * N)%Z -> fst st' x = fst st x) /\
    (forall x, (forall p d, (0 <= p < dt g)%Z -> (0 <= d < dx g)%Z -> x <> ind_data g s p d) -> snd st' x = snd st x).
  Proof.
    intros Hs Hm HP Hz. cbv zeta. unfold pml_slice.
    pose (I k (es : Z * (arr number * arr number)) := fst es = bn k /\ exists m', is_slice g s (fst (snd es)) m' /\ P s m' /\
      m' = fold_left (fun m L => stp s L m) (map (fun os => prs (bn os) (bn (os + 1)%Z)) (zrange 0 k)) m /\
      sim_clear g num_block ind_block s (bn k) (snd (snd es)) /\
      (forall x, (forall j, (0 <= j < N)%Z -> x <> j + s * N)%Z -> fst (snd es) x = fst st x) /\
      (forall x, (forall p d, (0 <= p < dt g)%Z -> (0 <= d < dx g)%Z -> x <> ind_data g s p d) -> snd (snd es) x = snd st x)).
    match goal with |- context [for_ num_block ?f ?x] => set (body := f); set (res := for_ num_block body x) end.
    assert (I num_block res) as (_ & m' & R1 & R2 & Rm & _ & R3 & R4).
    { apply (for_inv I); [lia| |].
      - split; auto. exists m. cbn [snd]. repeat split; auto.
      - intros k [e [recon sim]] Hk (E & m' & J1 & J2 & Em & J3 & J4 & J5). cbn [fst snd] in *. subst e.
        unfold body. cbv beta iota. unfold bn. rewrite <- (bnd_S g num_block ind_block) by lia. fold bn.
        assert (Hb : (0 <= bn k)%Z) by (unfold bn; rewrite <- (bnd_0 g num_block); apply (bnd_mono g num_block ind_block); lia).
        assert (Hb2 : (bn (k + 1) <= dt g)%Z) by (unfold bn; rewrite <- (bnd_all g num_block ind_block) by lia; apply (bnd_mono g num_block ind_block); lia).
        assert (Hbk : (bn k <= bn (k + 1))%Z) by (apply (bnd_mono g num_block ind_block); lia).
        assert (Hr : in_range g (prs (bn k) (bn (k + 1)%Z))) by (apply pairs_range; auto; lia).
        assert (Hn : NoDup (prs (bn k) (bn (k + 1)%Z))) by (apply NoDup_pairs; auto; lia).
        destruct (pml_block_spec gam gR Hgam beta g Hgx Hgy data num_block ind_block s (bn k) (bn (k + 1)%Z) recon sim m' J1) as (B1 & B2 & B3); auto.
        { intros p d Hin. apply in_pairs in Hin as (Hd & q & Hq & <-). apply J3; auto. lia. }
        split; auto. exists (stp s (prs (bn k) (bn (k + 1)%Z)) m').
        repeat split.
        + exact B1.
        + apply HPstep; auto.
        + rewrite zrange_snoc, map_app, fold_left_app by lia. cbn [map fold_left]. now rewrite <- Em.
        + intros q d Hq Hd. cbn [snd]. rewrite B3; [apply J3; auto; lia|].
          intros p' d' Hin E. apply in_pairs in Hin as (Hd' & q' & Hq' & <-).
          apply ind_data_inj in E; auto; try (apply Hpk; lia). destruct E as (_ & E & _). apply Hinj in E; lia.
        + intros x Hx. cbn [snd]. rewrite B2 by auto. now apply J4.
        + intros x Hx. cbn [snd]. rewrite B3; [now apply J5|].
          intros p d Hin. apply Hx; now apply (Hr p d). }
    exists m'. repeat split; auto.
  Qed.

  Definition pml_sweep s m := fold_left (fun m L => stp s L m) (blocks g num_block ind_block) m.
  Lemma pml_iter_run recon (m : Z -> Z -> R) : (forall s, (0 <= s < dy g)%Z -> is_slice g s recon (m s) /\ P s (m s)) ->
    let r := pml_iter gam beta g data num_block ind_block recon in
    (forall s, (0 <= s < dy g)%Z -> is_slice g s r (pml_sweep s (m s)) /\ P s (pml_sweep s (m s))) /\
    (forall x, (x < 0 \/ dy g * N <= x)%Z -> r x = recon x).
  Proof.
    intros Hm. cbv zeta. unfold pml_iter.
    destruct (Z.le_gt_cases (dy g) 0) as [H0|H0]; [rewrite for_0 by lia; split; auto; intros; lia|].
    pose (I k (st : arr number * arr number) :=
      (forall s, (0 <= s < k)%Z -> is_slice g s (fst st) (pml_sweep s (m s)) /\ P s (pml_sweep s (m s))) /\
      (forall s, (k <= s < dy g)%Z -> is_slice g s (fst st) (m s) /\ sim_clear g num_block ind_block s 0 (snd st)) /\
      (forall x, (x < 0 \/ dy g * N <= x)%Z -> fst st x = recon x)).
    enough (I (dy g) (for_ (dy g) (pml_slice gam beta g data num_block ind_block) (recon, nzero))) as (E1 & _ & E2) by exact (conj E1 E2).
    apply (for_inv I); [lia| |].
    - repeat split; auto; try lia. apply Hm. lia.
    - intros k st Hk (I1 & I2 & I3).
      destruct (I2 k ltac:(lia)) as [J1 J2]. destruct (Hm k ltac:(lia)) as [_ HP].
      destruct (pml_slice_run k st (m k) ltac:(lia) J1 HP J2) as (m' & S1 & S2 & Em & S3 & S4).
      assert (forall s j, (0 <= j < N)%Z -> s <> k -> forall j', (0 <= j' < N)%Z -> (j + s * N <> j' + k * N)%Z) as Hne.
      { intros s j Hj Hs j' Hj' E. apply (slice_inj g) in E; auto. lia. }
      split; [|split].
      + intros s Hs. destruct (Z.eq_dec s k) as [->|Hsk]; [unfold pml_sweep; rewrite <- Em; auto|].
        destruct (I1 s ltac:(lia)) as [K1 K2]. split; auto. intros j Hj. rewrite S3; [now apply K1|]. now apply Hne.
      + intros s Hs. destruct (I2 s ltac:(lia)) as [K1 K2]. split.
        * intros j Hj. rewrite S3; [now apply K1|]. apply Hne; auto. lia.
        * intros q d Hq Hd. rewrite S4; [now apply K2|]. intros p' d' Hp' Hd' E.
          apply ind_data_inj in E; auto. lia.
      + intros x Hx. rewrite S3; [now apply I3|]. intros j Hj ->.
        pose proof (slice_range g k j ltac:(lia) Hj). unfold N in *. lia.
  Qed.
  Theorem ospml_run num_iter recon (m : Z -> Z -> R) :
    (forall s, (0 <= s < dy g)%Z -> is_slice g s recon (m s) /\ P s (m s)) ->
    let r := ospml gam beta g data num_block ind_block num_iter recon in
    (forall s, (0 <= s < dy g)%Z ->
       is_slice g s r (Nat.iter (Z.to_nat num_iter) (pml_sweep s) (m s)) /\ P s (Nat.iter (Z.to_nat num_iter) (pml_sweep s) (m s))) /\
    (forall x, (x < 0 \/ dy g * N <= x)%Z -> r x = recon x).
  Proof.
    intros Hm. cbv zeta. unfold ospml. destruct (empty g) eqn:E.
    { split; auto. intros. unfold empty in E. lia. }
    destruct (Z.le_gt_cases num_iter 0) as [H0|H0].
    { rewrite for_0 by lia. replace (Z.to_nat num_iter) with 0%nat by lia. auto. }
    pose (I k (r : arr number) := (forall s, (0 <= s < dy g)%Z ->
        is_slice g s r (Nat.iter (Z.to_nat k) (pml_sweep s) (m s)) /\ P s (Nat.iter (Z.to_nat k) (pml_sweep s) (m s))) /\
      (forall x, (x < 0 \/ dy g * N <= x)%Z -> r x = recon x)).
    refine (for_inv I num_iter _ _ _ _ _); [lia|split; auto|].
    intros k r Hk [I1 I2]. destruct (pml_iter_run r (fun s => Nat.iter (Z.to_nat k) (pml_sweep s) (m s)) I1) as [A1 A2].
    split.
    - replace (Z.to_nat (k + 1)) with (S (Z.to_nat k)) by lia. exact A1.
    - intros x Hx. rewrite A2 by auto. now apply I2.
  Qed.
End Run.

(** * The update is the positive minimiser of the surrogate *)
Lemma ln_tangent x y : 0 < x -> 0 < y -> ln y - ln x <= (y - x) / x.
Proof.
  intros Hx Hy. assert (ln (y / x) <= y / x - 1).
  { pose proof (exp_ineq1_le (ln (y / x))) as H. rewrite exp_ln in H by now apply Rdiv_lt_0_compat. lra. }
  replace ((y - x) / x) with (y / x - 1) by (field; lra). pose proof (Rinv_0_lt_compat x Hx).
  replace (ln (y / x)) with (ln y - ln x) in H; [exact H|]. unfold Rdiv. rewrite ln_mult, ln_Rinv by auto. lra.
Qed.
Lemma root_pos e f gg : 0 < e -> 0 < f -> 0 < (- gg + sqrt (gg * gg + 8 * e * f)) / (4 * f).
Proof.
  intros He Hf. apply Rdiv_lt_0_compat; [|lra]. assert (0 < e * f) by now apply Rmult_lt_0_compat.
  assert (Rabs gg < sqrt (gg * gg + 8 * e * f)).
  { rewrite <- sqrt_Rsqr_abs. apply sqrt_lt_1; unfold Rsqr; nra. }
  pose proof (Rle_abs gg). lra.
Qed.
Lemma root_eq e f gg : 0 <= e -> 0 < f -> let x := (- gg + sqrt (gg * gg + 8 * e * f)) / (4 * f) in 2 * f * (x * x) + gg * x = e.
Proof.
  intros He Hf x. assert (0 <= e * f) by (apply Rmult_le_pos; lra).
  assert (E : sqrt (gg * gg + 8 * e * f) * sqrt (gg * gg + 8 * e * f) = gg * gg + 8 * e * f) by (apply sqrt_sqrt; nra).
  set (r := sqrt (gg * gg + 8 * e * f)) in *.
  assert (Ex : 4 * f * x = - gg + r) by (unfold x; field; lra).
  assert (16 * f * f * (2 * (x * x)) + gg * (4 * f * x) * 4 = 16 * e * f).
  { replace (16 * f * f * (2 * (x * x))) with (2 * ((4 * f * x) * (4 * f * x))) by ring. rewrite Ex. nra. }
  nra.
Qed.
Lemma minimiser e f gg x : 0 <= e -> 0 < f -> 0 < x -> 2 * f * (x * x) + gg * x = e ->
  forall y, 0 < y -> f * (x * x) + gg * x - e * ln x <= f * (y * y) + gg * y - e * ln y.
Proof.
  intros He Hf Hx Ex y Hy. pose proof (ln_tangent x y Hx Hy) as T.
  assert (e * (ln y - ln x) <= e * ((y - x) / x)) by (apply Rmult_le_compat_l; auto).
  assert (e * ((y - x) / x) = (2 * f * x + gg) * (y - x)) by (rewrite <- Ex; field; lra).
  assert (0 <= f * ((y - x) * (y - x))) by (apply Rmult_le_pos; [lra|apply Rle_0_sqr]). lra.
Qed.
