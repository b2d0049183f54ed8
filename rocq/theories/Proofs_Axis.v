(** Rays parallel to the grid, and the same line seen from the other side. *)
From Verif Require Import Base CLoop Model_Prep Model_Ray Model_Solver Proofs_Prep Proofs_Ray Properties_Ray Proofs_Solver.
From Coq Require Import Reals Lra Psatz.
Local Open Scope R_scope.

(** ** Rays parallel to an axis *)
Lemma filter_all {A} (f : A -> bool) l : (forall x, In x l -> f x = true) -> filter f l = l.
Proof.
  induction l as [|x l IH]; intros H; cbn; auto. rewrite H by now left. f_equal. apply IH. intros. apply H. now right.
Qed.
Lemma filter_none {A} (f : A -> bool) l : (forall x, In x l -> f x = false) -> filter f l = [].
Proof.
  induction l as [|x l IH]; intros H; cbn; auto. rewrite H by now left. apply IH. intros. apply H. now right.
Qed.
Lemma map_zrange_eq {A} (f g : Z -> A) n : map f (zrange 0 n) = map g (zrange 0 n) -> forall i, (0 <= i < n)%Z -> f i = g i.
Proof. intros H i Hi. exact (proj1 map_ext_in_iff H i (proj2 (in_zrange 0 n i) Hi)). Qed.
Lemma hits_const r (coord : Z -> option R) N y : (forall n, coord n = Some y) ->
  hits r coord N = if inside r y then zrange 0 N else [].
Proof.
  intros H. unfold hits. destruct (inside r y) eqn:E.
  - apply filter_all. intros n _. now rewrite H.
  - apply filter_none. intros n _. now rewrite H.
Qed.
Lemma hits_none r (coord : Z -> option R) N : (forall n, coord n = None) -> hits r coord N = [].
Proof. intros H. unfold hits. apply filter_none. intros n _. now rewrite H. Qed.

Lemma seg_one_x (c : arr (R * R)) ry y n : (forall k, (k = n \/ k = n + 1)%Z -> c k = (grid ry k, y)) ->
  seg_dist c n = 1 /\ seg_indx ry c n = n.
Proof.
  intros H. unfold seg_dist, seg_indx. rewrite !H by auto. cbn [fst snd]. split.
  - replace (_ + _) with (1 * 1); [apply sqrt_square; lra|]. unfold grid. rewrite plus_IZR. ring.
  - apply pixel_spec. unfold grid. rewrite plus_IZR. lra.
Qed.
Lemma seg_dist_y (c : arr (R * R)) rz x n k : c n = (x, grid rz k) -> c (n + 1)%Z = (x, grid rz (k + 1)) \/ c (n + 1)%Z = (x, grid rz (k - 1)) ->
  seg_dist c n = 1.
Proof.
  intros H H'. unfold seg_dist. destruct H' as [H'|H']; rewrite H, H'; cbn [fst snd];
    (replace (_ + _) with (1 * 1); [apply sqrt_square; lra|]); unfold grid; rewrite ?plus_IZR, ?minus_IZR; ring.
Qed.

(** floor *)
Lemma pixel_same r y : pixel r y y = Int_part (y + IZR r / 2).
Proof. apply pixel_spec. destruct (base_Int_part (y + IZR r / 2)). lra. Qed.

Section Row.
  Variables ry rz : Z.
  Hypothesis Hy : (1 <= ry)%Z.
  Hypothesis Hz : (1 <= rz)%Z.
  Variables xi yi s c : R.
  Hypothesis Hxi : xi <> 0.
  Variable q : bool.

  (** Along the first axis (s = 0): one unit segment per pixel of a row. *)
  Lemma row_segments z : s = 0 -> c <> 0 ->
    segments ry rz (trace ry rz q (ray_line xi yi s c) z) =
      if inside rz (yi * c) then map (fun n => ((Int_part (yi * c + IZR rz / 2) + n * rz)%Z, 1)) (zrange 0 ry) else [].
  Proof.
    intros Es Hc. destruct (trace_tags ry rz Hy Hz xi yi s c Hxi q z) as [E1 E2].
    set (t := trace ry rz q (ray_line xi yi s c) z) in *.
    assert (Ea : a_tags ry rz xi yi s c = []).
    { unfold a_tags. rewrite hits_none; auto. intros n. rewrite coordx_X by auto. destruct (Req_EM_T s 0); [auto|contradiction]. }
    assert (Ey : forall n, Y ry xi yi s c n = yi * c).
    { intros n. unfold Y, ray_line. cbn [srcx srcy]. rewrite Es. field. auto. }
    assert (Eb : b_tags ry rz xi yi s c = if inside rz (yi * c) then map (pair false) (zrange 0 (ry + 1)) else []).
    { unfold b_tags. rewrite (hits_const _ _ _ (yi * c)).
      - now destruct (inside rz (yi * c)).
      - intros n. rewrite coordy_Y by auto. destruct (Req_EM_T c 0); [contradiction|]. now rewrite Ey. }
    assert (Et : tags ry rz xi yi s c q = b_tags ry rz xi yi s c).
    { unfold tags, walk. rewrite Ea. destruct q; reflexivity. }
    rewrite Et, Eb in E1, E2. unfold segments. destruct (inside rz (yi * c)).
    - rewrite map_length, zrange_length in E1. assert (Hcs : csize t = (ry + 1)%Z) by lia. rewrite Hcs in *.
      rewrite map_map in E2. pose proof (map_zrange_eq _ _ _ E2) as P. clear E2.
      replace (ry + 1 - 1)%Z with ry by lia. apply map_ext_in. intros n Hn. apply in_zrange in Hn.
      assert (Q : forall k, (k = n \/ k = n + 1)%Z -> coor t k = (grid ry k, yi * c)).
      { intros k Hk. rewrite P by lia. unfold pt. cbn [fst snd]. now rewrite Ey. }
      destruct (seg_one_x _ _ _ _ Q) as [D1 D2]. unfold seg_indi. rewrite D1, D2. do 2 f_equal.
      unfold seg_indy. rewrite !Q by auto. cbn [snd]. apply pixel_same.
    - cbn [length] in E1. rewrite zrange_nil by lia. reflexivity.
  Qed.

  (** Along the second axis (c = 0): one unit segment per pixel of a column, upwards or downwards. *)
  Lemma column_segments z : c = 0 -> s <> 0 ->
    segments ry rz (trace ry rz q (ray_line xi yi s c) z) =
      if inside ry (- yi * s) then
        map (fun n => (((if q then n else rz - 1 - n) + Int_part (- yi * s + IZR ry / 2) * rz)%Z, 1)) (zrange 0 rz) else [].
  Proof.
    intros Ec Hs. destruct (trace_tags ry rz Hy Hz xi yi s c Hxi q z) as [E1 E2].
    set (t := trace ry rz q (ray_line xi yi s c) z) in *.
    assert (Eb : b_tags ry rz xi yi s c = []).
    { unfold b_tags. rewrite hits_none; auto. intros n. rewrite coordy_Y by auto. destruct (Req_EM_T c 0); [auto|contradiction]. }
    assert (Ex : forall n, X rz xi yi s c n = - yi * s).
    { intros n. unfold X, ray_line. cbn [srcx srcy]. rewrite Ec. field. auto. }
    assert (Ea : a_tags ry rz xi yi s c = if inside ry (- yi * s) then map (pair true) (zrange 0 (rz + 1)) else []).
    { unfold a_tags. rewrite (hits_const _ _ _ (- yi * s)).
      - now destruct (inside ry (- yi * s)).
      - intros n. rewrite coordx_X by auto. destruct (Req_EM_T s 0); [contradiction|]. now rewrite Ex. }
    assert (Et : tags ry rz xi yi s c q = walk ry rz xi yi s c q).
    { unfold tags. rewrite Eb. apply merge_nil_r. }
    rewrite Et in E1, E2. unfold walk in E1, E2. rewrite Ea in E1, E2. clear Ea Eb Et.
    unfold segments. destruct (inside ry (- yi * s)).
    - assert (Hcs : csize t = (rz + 1)%Z) by (destruct q; rewrite ?rev_length, ?map_length, zrange_length in E1; lia).
      rewrite Hcs in *.
      assert (P : forall n, (0 <= n < rz + 1)%Z -> coor t n = (- yi * s, grid rz (if q then n else rz - n))).
      { assert (E3 : map (coor t) (zrange 0 (rz + 1)) = map (fun n => (- yi * s, grid rz (if q then n else rz - n))) (zrange 0 (rz + 1))).
        { rewrite E2. destruct q.
          - rewrite map_map. apply map_ext. intros n. unfold pt. cbn [fst snd]. now rewrite Ex.
          - rewrite map_rev, map_map, <- sel_rev.
            apply map_ext. intros n. unfold pt. cbn [fst snd]. rewrite Ex. do 2 f_equal. lia. }
        intros n Hn. now apply (map_zrange_eq _ _ _ E3). }
      replace (rz + 1 - 1)%Z with rz by lia. apply map_ext_in. intros n Hn. apply in_zrange in Hn.
      f_equal.
      + unfold seg_indi, seg_indx, seg_indy. rewrite !P by lia. cbn [fst snd]. f_equal.
        * apply pixel_spec. unfold grid. destruct q; rewrite ?plus_IZR, ?minus_IZR, ?plus_IZR; lra.
        * f_equal. apply pixel_same.
      + apply (seg_dist_y _ rz (- yi * s) n (if q then n else rz - n)%Z).
        * apply P. lia.
        * rewrite P by lia. destruct q; [left|right]; do 2 f_equal; lia.
    - assert (csize t = 0)%Z by (destruct q; cbn in E1; lia). rewrite zrange_nil by lia. reflexivity.
  Qed.
End Row.

(** ** The same line seen from the other side *)
Lemma coordx_swap rz xi yi s c n : xi <> 0 -> s * s + c * c = 1 ->
  coordx rz (ray_line xi (- yi) (- s) (- c)) n = coordx rz (ray_line xi yi s c) n.
Proof.
  intros Hx E. rewrite !coordx_X by auto. destruct (Req_EM_T s 0) as [Z|N], (Req_EM_T (- s) 0) as [Z'|N']; auto; try lra.
  f_equal. unfold X, ray_line. cbn [srcx srcy]. field. lra.
Qed.
Lemma coordy_swap ry xi yi s c n : xi <> 0 -> s * s + c * c = 1 ->
  coordy ry (ray_line xi (- yi) (- s) (- c)) n = coordy ry (ray_line xi yi s c) n.
Proof.
  intros Hx E. rewrite !coordy_Y by auto. destruct (Req_EM_T c 0) as [Z|N], (Req_EM_T (- c) 0) as [Z'|N']; auto; try lra.
  f_equal. unfold Y, ray_line. cbn [srcx srcy]. field. lra.
Qed.
Lemma trace_swap ry rz q xi yi s c z : xi <> 0 -> s * s + c * c = 1 ->
  trace ry rz q (ray_line xi (- yi) (- s) (- c)) z = trace ry rz q (ray_line xi yi s c) z.
Proof.
  intros Hx E. unfold trace, trim_a, trim_b.
  rewrite (for_ext (rz + 1) (trim_step ry (coordx rz (ray_line xi (- yi) (- s) (- c))) (fun n x => (x, grid rz n)))
                            (trim_step ry (coordx rz (ray_line xi yi s c)) (fun n x => (x, grid rz n)))).
  2:{ intros n [sz a] _. unfold trim_step. now rewrite coordx_swap. }
  rewrite (for_ext (ry + 1) (trim_step rz (coordy ry (ray_line xi (- yi) (- s) (- c))) (fun n y => (grid ry n, y)))
                            (trim_step rz (coordy ry (ray_line xi yi s c)) (fun n y => (grid ry n, y)))).
  2:{ intros n [sz a] _. unfold trim_step. now rewrite coordy_swap. }
  reflexivity.
Qed.
