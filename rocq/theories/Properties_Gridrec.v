(** gridrec: libtomo/gridrec/gridrec.c and include/libtomo/filters.h, exact real arithmetic. *)
From Verif Require Import Base CLoop Cplx Model_Prep Model_Solver Model_Gridrec Proofs_Ring Spec_Gridrec Proofs_Gridrec Proofs_Gridimg Proofs_Poly Proofs_Filters Proofs_Prolate.
From Coq Require Import Reals Lra Permutation String QArith Qreals.
Local Open Scope R_scope.

(** ** Vocabulary *)
(** detector pixel k of projection p of slice s in the data; row i, column j of slice s in the volume *)
Definition datum (dt dx s p k : Z) : Z := (k + dx * (p + s * dt))%Z.
Definition voxel (ngridx ngridy s i j : Z) : Z := (s * ngridx * ngridy + ngridy * i + j)%Z.
(** sizes for which the image fits into the padded grid *)
Definition fits (dy dt dx ngridx ngridy : Z) : Prop :=
  (1 <= dy /\ 1 <= dt /\ 1 <= dx /\ 1 <= ngridx <= pdim_of dx /\ 1 <= ngridy <= pdim_of dx)%Z.
(** the filter at frequency j of projection p *)
Definition response (dx : Z) (pf : R -> Z -> Z -> Z -> R) (filter2d : bool) (p j : Z) : R :=
  pf (IZR j / IZR (pdim_of dx)) j (if filter2d then p else 0%Z) (pdim_of dx / 2)%Z.

Section Runs.
  Variables (dy dt dx ngridx ngridy : Z).
  Variable pf : R -> Z -> Z -> Z -> R.
  Variable filter2d : bool.
  Variable mem : arr R.
  Hypothesis Hfit : fits dy dt dx ngridx ngridy.
  Let n := pdim_of dx.
  Let run mem data center theta recon := gridrec dy dt dx ngridx ngridy pf filter2d mem data center theta recon.
  Let vox := voxel ngridx ngridy.
  Let dat := datum dt dx.

  (** ** C74 *)
  Theorem C74_value data center theta recon s i j : (0 <= s < dy)%Z -> (0 <= i < ngridx)%Z -> (0 <= j < ngridy)%Z ->
    run mem data center theta recon (vox s i j) =
    correction n wtbl winv_norm (mem (n - 1)%Z) (column_at ngridy j) * correction n wtbl winv_norm (mem (n - 1)%Z) (row_at ngridx i) *
    image n dt dx wtbl (response dx pf filter2d) theta (center (2 * (s / 2))%Z) (fun p k => data (dat s p k)) (column_at ngridy j) (row_at ngridx i).
  Proof. destruct Hfit as (H1 & H2 & H3 & H4 & H5). intros. unfold run, vox, voxel. rewrite run_spec by auto. reflexivity. Qed.

  Lemma run_image data1 center1 theta1 data2 center2 theta2 recon1 recon2 s i j k1 : (0 <= s < dy)%Z -> (0 <= i < ngridx)%Z -> (0 <= j < ngridy)%Z ->
    image n dt dx wtbl (response dx pf filter2d) theta1 (center1 (2 * (s / 2))%Z) (fun p k => data1 (dat s p k)) (column_at ngridy j) (row_at ngridx i) =
    k1 * image n dt dx wtbl (response dx pf filter2d) theta2 (center2 (2 * (s / 2))%Z) (fun p k => data2 (dat s p k)) (column_at ngridy j) (row_at ngridx i) ->
    run mem data1 center1 theta1 recon1 (vox s i j) = k1 * run mem data2 center2 theta2 recon2 (vox s i j).
  Proof. intros Hs Hi Hj H. rewrite !C74_value by auto. rewrite H. ring. Qed.
  Lemma run_same data1 center1 theta1 data2 center2 theta2 recon1 recon2 s i j : (0 <= s < dy)%Z -> (0 <= i < ngridx)%Z -> (0 <= j < ngridy)%Z ->
    image n dt dx wtbl (response dx pf filter2d) theta1 (center1 (2 * (s / 2))%Z) (fun p k => data1 (dat s p k)) (column_at ngridy j) (row_at ngridx i) =
    image n dt dx wtbl (response dx pf filter2d) theta2 (center2 (2 * (s / 2))%Z) (fun p k => data2 (dat s p k)) (column_at ngridy j) (row_at ngridx i) ->
    run mem data1 center1 theta1 recon1 (vox s i j) = run mem data2 center2 theta2 recon2 (vox s i j).
  Proof. intros Hs Hi Hj H. rewrite !C74_value by auto. now rewrite H. Qed.

  (** the slice reconstructed alone *)
  Theorem C74_alone data center theta recon recon1 s i j : (0 <= s < dy)%Z -> (0 <= i < ngridx)%Z -> (0 <= j < ngridy)%Z ->
    run mem data center theta recon (vox s i j) =
    gridrec 1 dt dx ngridx ngridy pf filter2d mem (fun q => data (q + dx * dt * s)%Z) (fun _ => center (2 * (s / 2))%Z) theta recon1 (vox 0 i j).
  Proof.
    intros Hs Hi Hj. rewrite C74_value by auto. destruct Hfit as (H1 & H2 & H3 & H4 & H5). unfold vox, voxel.
    rewrite (run_spec 1 dt dx ngridx ngridy) by (auto; lia). f_equal. apply image_ext.
    intros p k Hp Hk. unfold dat, datum. f_equal. ring.
  Qed.
  Theorem C74_others data1 data2 center theta recon1 recon2 s i j : (0 <= s < dy)%Z -> (0 <= i < ngridx)%Z -> (0 <= j < ngridy)%Z ->
    (forall p k, (0 <= p < dt)%Z -> (0 <= k < dx)%Z -> data1 (dat s p k) = data2 (dat s p k)) ->
    run mem data1 center theta recon1 (vox s i j) = run mem data2 center theta recon2 (vox s i j).
  Proof. intros Hs Hi Hj H. apply run_same; auto. apply image_ext. exact H. Qed.

  (** ** C75 *)
  Theorem C75_linear al be data1 data2 data center theta recon s i j : (0 <= s < dy)%Z -> (0 <= i < ngridx)%Z -> (0 <= j < ngridy)%Z ->
    (forall p k, (0 <= p < dt)%Z -> (0 <= k < dx)%Z -> data (dat s p k) = al * data1 (dat s p k) + be * data2 (dat s p k)) ->
    run mem data center theta recon (vox s i j) =
    al * run mem data1 center theta recon (vox s i j) + be * run mem data2 center theta recon (vox s i j).
  Proof.
    intros Hs Hi Hj H. rewrite !C74_value by auto.
    rewrite (image_ext n dt dx wtbl _ _ _ (fun p k => data (dat s p k)) (fun p k => al * data1 (dat s p k) + be * data2 (dat s p k))) by auto.
    rewrite (image_lin n dt dx wtbl _ _ _ al be (fun p k => data1 (dat s p k)) (fun p k => data2 (dat s p k))). ring.
  Qed.
  (** the mean of a projection is not used: with a detector that fills the padded grid, offsets of the projections have no effect *)
  Theorem C75_offset data1 data2 (z : Z -> R) center theta recon s i j : pdim_of dx = dx -> (0 <= s < dy)%Z -> (0 <= i < ngridx)%Z -> (0 <= j < ngridy)%Z ->
    (forall p k, (0 <= p < dt)%Z -> (0 <= k < dx)%Z -> data2 (dat s p k) = data1 (dat s p k) + z p) ->
    run mem data2 center theta recon (vox s i j) = run mem data1 center theta recon (vox s i j).
  Proof.
    intros E Hs Hi Hj H. apply run_same; auto.
    rewrite (image_ext n dt dx wtbl _ _ _ (fun p k => data2 (dat s p k)) (fun p k => 1 * data1 (dat s p k) + 1 * z p)) by (intros; rewrite H by auto; ring).
    rewrite (image_lin n dt dx wtbl _ _ _ 1 1 (fun p k => data1 (dat s p k)) (fun p _ => z p)).
    rewrite (image_null n dt dx wtbl _ _ _ (fun p _ => z p)); [ring|]. intros p f Hp Hf. apply (spectrum_const n dt dx wtbl); [exact E|lia].
  Qed.
  (** a projection taken from the opposite side is the mirrored projection *)
  Theorem C75_opposite (back : Z -> bool) data1 data2 center theta1 theta2 recon s i j : (0 <= s < dy)%Z -> (0 <= i < ngridx)%Z -> (0 <= j < ngridy)%Z ->
    center (2 * (s / 2))%Z = IZR (dx - 1) / 2 ->
    (forall p, (0 <= p < dt)%Z -> theta2 p = if back p then theta1 p + PI else theta1 p) ->
    (forall p k, (0 <= p < dt)%Z -> (0 <= k < dx)%Z -> data2 (dat s p k) = data1 (dat s p (if back p then dx - 1 - k else k)%Z)) ->
    run mem data2 center theta2 recon (vox s i j) = run mem data1 center theta1 recon (vox s i j).
  Proof.
    intros Hs Hi Hj Hc Ht Hd. apply run_same; auto. apply image_samples. intros p f Hp Hf.
    destruct (back p) eqn:Eb.
    - rewrite <- (sample_mirror n dt dx wtbl ltac:(pose proof (pdim_ge dx); unfold n; lia) _ theta1 theta2).
      + apply sample_spectrum, spectrum_ext. intros k Hk. rewrite Hd by auto. now rewrite Eb.
      + unfold n. destruct (pdim_even dx) as (m & -> & _). now rewrite Z.even_mul.
      + lra.
      + rewrite Ht, Eb by auto. apply neg_cos.
      + rewrite Ht, Eb by auto. apply neg_sin.
    - unfold sample. rewrite Ht, Eb by auto.
      rewrite (spectrum_ext n dt dx _ _ (fun p k => data2 (dat s p k)) (fun p k => data1 (dat s p k)) p f); [reflexivity|].
      intros k Hk. rewrite Hd by auto. now rewrite Eb.
  Qed.
  Theorem C75_full_turn data center theta1 theta2 recon s i j (turns : Z -> Z) : (0 <= s < dy)%Z -> (0 <= i < ngridx)%Z -> (0 <= j < ngridy)%Z ->
    (forall p, (0 <= p < dt)%Z -> theta2 p = theta1 p + 2 * IZR (turns p) * PI) ->
    run mem data center theta2 recon (vox s i j) = run mem data center theta1 recon (vox s i j).
  Proof.
    intros Hs Hi Hj Ht. apply run_same; auto. apply image_samples. intros p f Hp Hf. unfold sample. rewrite Ht by auto.
    pose proof (expi_2pi (turns p) (theta1 p)) as E. unfold expi in E. injection E as E1 E2. now rewrite E1, E2.
  Qed.
  (** moving detector and centre together; nothing may leave the detector *)
  Theorem C75_shift m data1 data2 center1 center2 theta recon s i j : (0 <= s < dy)%Z -> (0 <= i < ngridx)%Z -> (0 <= j < ngridy)%Z -> (0 <= m <= dx)%Z ->
    center2 (2 * (s / 2))%Z = center1 (2 * (s / 2))%Z + IZR m ->
    (forall p k, (0 <= p < dt)%Z -> (0 <= k < dx)%Z -> data2 (dat s p k) = if (k <? m)%Z then 0 else data1 (dat s p (k - m)%Z)) ->
    (forall p k, (0 <= p < dt)%Z -> (dx - m <= k < dx)%Z -> data1 (dat s p k) = 0) ->
    run mem data2 center2 theta recon (vox s i j) = run mem data1 center1 theta recon (vox s i j).
  Proof.
    intros Hs Hi Hj Hm Hc Hd Hz. apply run_same; auto. apply image_samples. intros p f Hp Hf. apply sample_spectrum. rewrite Hc.
    apply (spectrum_shift n dt dx wtbl) with (d1 := fun p k => data1 (dat s p k)); auto.
    - intros k Hk. rewrite Hd by lia. destruct (k + m <? m)%Z eqn:E; [lia|]. do 2 f_equal. lia.
    - intros k Hk. rewrite Hd by lia. destruct (k <? m)%Z eqn:E; [reflexivity|lia].
  Qed.
  (** the order of the projections (with the usual filters, which are the same for all of them) *)
  Theorem C75_order sg data1 data2 center theta1 theta2 recon s i j : (0 <= s < dy)%Z -> (0 <= i < ngridx)%Z -> (0 <= j < ngridy)%Z ->
    filter2d = false -> Permutation (map sg (zrange 0 dt)) (zrange 0 dt) ->
    (forall p, (0 <= p < dt)%Z -> theta2 p = theta1 (sg p)) ->
    (forall p k, (0 <= p < dt)%Z -> (0 <= k < dx)%Z -> data2 (dat s p k) = data1 (dat s (sg p) k)) ->
    run mem data2 center theta2 recon (vox s i j) = run mem data1 center theta1 recon (vox s i j).
  Proof.
    intros Hs Hi Hj Hf Hsg Ht Hd. apply run_same; auto.
    rewrite <- (image_perm n dt dx wtbl (response dx pf filter2d) theta1 _ (fun p k => data1 (dat s p k)) sg) by auto.
    apply image_samples. intros p f Hp Hj2. unfold sample. rewrite Ht by auto. do 2 f_equal. f_equal.
    rewrite (spectrum_ext n dt dx _ _ (fun p k => data2 (dat s p k)) (fun p k => data1 (dat s (sg p) k)) p f) by (intros; auto).
    unfold spectrum, response. rewrite Hf. reflexivity.
  Qed.
End Runs.

(** ** C76: the indices *)
Theorem C76_pdim dx : exists k, (4 <= k)%Z /\ pdim_of dx = (2 ^ k)%Z /\ (dx <= pdim_of dx)%Z /\ (pdim_of dx = 16%Z \/ (pdim_of dx < 2 * dx)%Z).
Proof. exact (pdim_spec dx). Qed.
(** The loop over one axis ends after at most two rounds, visits every pixel once and in order, and stays inside H. *)
Theorem C76_walk fuel dx n : (1 <= n <= pdim_of dx)%Z -> (2 <= fuel)%nat ->
  map fst (walk fuel (pdim_of dx) n) = zrange 0 n /\
  Forall (fun '(_, iu) => (0 <= iu < pdim_of dx)%Z) (walk fuel (pdim_of dx) n) /\ NoDup (map snd (walk fuel (pdim_of dx) n)).
Proof.
  intros Hn Hf. destruct (pdim_even dx) as (m & E & Hm). rewrite E in *. rewrite walk_spec by auto. rewrite !map_map. cbn [fst snd].
  split; [apply map_id|]. split.
  - apply Forall_forall. intros [j iu] Hin. apply in_map_iff in Hin. destruct Hin as (q & Eq & _). injection Eq as _ <-. apply Z.mod_pos_bound. lia.
  - assert (G : forall l, NoDup l -> (forall x, In x l -> (0 <= x < n)%Z) -> NoDup (map (fun j => ((j - (n + 1) / 2) mod (2 * m))%Z) l)).
    { induction l as [|x l IH]; intros Hl Hr; cbn [map]; constructor.
      - intros Hin. apply in_map_iff in Hin. destruct Hin as (y & Ey & Hy). inversion Hl as [|? ? Hx Hl']; subst. apply Hx.
        assert (Rx := Hr x ltac:(now left)). assert (Ry := Hr y ltac:(now right)).
        replace x with y; [exact Hy|]. pose proof (Z.div_mod (y - (n + 1) / 2) (2 * m) ltac:(lia)) as Dy.
        pose proof (Z.div_mod (x - (n + 1) / 2) (2 * m) ltac:(lia)) as Dx. rewrite Ey in Dy.
        generalize dependent ((y - (n + 1) / 2) / (2 * m))%Z. intros qy Dy. generalize dependent ((x - (n + 1) / 2) / (2 * m))%Z. intros qx Dx.
        assert (Q : (y - x = 2 * m * (qy - qx))%Z) by lia. clear Dx Dy. assert (qy - qx = 0)%Z by nia. rewrite H in Q. lia.
      - inversion Hl; subst. apply IH; auto. intros; apply Hr; now right. }
    apply G; [|intros x Hx; now apply in_zrange in Hx]. unfold zrange. apply FinFun.Injective_map_NoDup; [intros a b; lia|apply seq_NoDup].
Qed.
(** The box around a sample: at most five grid points on each axis (the size of work and work2), inside H as their
    mirror images are, with distances covered by the table of the window. *)
Theorem C76_box dx u i : (box_lo u <= i <= box_hi dx u)%Z ->
  (1 <= i <= pdim_of dx - 1 /\ 1 <= pdim_of dx - i <= pdim_of dx - 1 /\ 0 <= i - box_lo u <= 4)%Z /\
  (0 <= roundf (Rabs (u - IZR i) * tblspcg) <= ltbl)%Z.
Proof.
  intros [Hlo Hhi]. unfold box_lo, box_hi in *. set (n := pdim_of dx) in *.
  assert (L : u - l2 <= IZR i) by (apply ceil_le; lia). assert (H : IZR i <= u + l2) by (apply floor_le; lia).
  assert (L' : u - l2 <= IZR (ceilf (u - l2))) by (apply ceil_le; lia).
  unfold l2, tblspcg, ltbl in *. split.
  - assert (i - ceilf (u - 2) <= 4)%Z by (apply le_IZR; rewrite minus_IZR; lra). lia.
  - assert (A : Rabs (u - IZR i) <= 2) by (unfold Rabs; destruct (Rcase_abs (u - IZR i)); lra). pose proof (Rabs_pos (u - IZR i)).
    rewrite roundf_nonneg by lra. unfold nearest. split; [apply int_part_glb; lra|]. apply Z.lt_succ_r, lt_IZR. pose proof (int_part_le (Rabs (u - IZR i) * 256 + 1 / 2)).
    rewrite succ_IZR. lra.
Qed.
(** Building winv writes the entries 0 .. pdim - 2, all of them and nothing else, from entries 0 .. 512 of the window. *)
Theorem C76_winv dx mem i : (i < 0 \/ pdim_of dx - 1 <= i)%Z -> set_winv (pdim_of dx / 2 - 1) mem i = mem i.
Proof.
  intros H. destruct (pdim_even dx) as (m & E & Hm). rewrite E in *. replace (2 * m / 2)%Z with m by lia. rewrite set_winv_spec by lia.
  destruct ((0 <=? i)%Z && (i <=? 2 * (m - 1))%Z) eqn:X; [lia|reflexivity].
Qed.
Theorem C76_winv_set dx mem1 mem2 i : (0 <= i < pdim_of dx - 1)%Z -> set_winv (pdim_of dx / 2 - 1) mem1 i = set_winv (pdim_of dx / 2 - 1) mem2 i.
Proof.
  intros H. destruct (pdim_even dx) as (m & E & Hm). rewrite E in *. replace (2 * m / 2)%Z with m by lia. rewrite !set_winv_spec by lia.
  destruct ((0 <=? i)%Z && (i <=? 2 * (m - 1))%Z) eqn:X; [reflexivity|lia].
Qed.
Theorem C76_winv_reads linv i : (1 <= i <= linv)%Z -> (0 <= roundf (IZR i * winv_fac linv) <= ltbl)%Z.
Proof.
  intros H. unfold winv_fac, ltbl. assert (1 <= IZR i) by (apply IZR_le; lia). assert (IZR i <= IZR linv) by (apply IZR_le; lia).
  assert (P : 0 < 512 / (IZR linv + 1 / 2)) by (apply Rdiv_lt_0_compat; lra). assert (Q : IZR i * (512 / (IZR linv + 1 / 2)) <= 512).
  { replace 512 with ((IZR linv + 1 / 2) * (512 / (IZR linv + 1 / 2))) at 2 by (field; lra). apply Rmult_le_compat_r; lra. }
  rewrite roundf_nonneg by (apply Rmult_le_pos; lra). unfold nearest. assert (0 <= IZR i * (512 / (IZR linv + 1 / 2))) by (apply Rmult_le_pos; lra).
  split; [apply int_part_glb; lra|]. apply Z.lt_succ_r, lt_IZR. pose proof (int_part_le (IZR i * (512 / (IZR linv + 1 / 2)) + 1 / 2)). rewrite succ_IZR. lra.
Qed.
(** A grid smaller than the padded one is corrected with entries of the table only. *)
Theorem C76_inside dx n j : (1 <= n < pdim_of dx)%Z -> (0 <= j < n)%Z -> (0 <= j + pad (pdim_of dx) n < pdim_of dx - 1)%Z.
Proof. intros Hn Hj. unfold pad. rewrite Z.quot_div_nonneg by lia. lia. Qed.
Theorem C76_memory dy dt dx ngridx ngridy pf filter2d mem1 mem2 data center theta recon s i j :
  fits dy dt dx ngridx ngridy -> (ngridx < pdim_of dx)%Z -> (ngridy < pdim_of dx)%Z -> (0 <= s < dy)%Z -> (0 <= i < ngridx)%Z -> (0 <= j < ngridy)%Z ->
  gridrec dy dt dx ngridx ngridy pf filter2d mem1 data center theta recon (voxel ngridx ngridy s i j) =
  gridrec dy dt dx ngridx ngridy pf filter2d mem2 data center theta recon (voxel ngridx ngridy s i j).
Proof.
  intros Hf Hx Hy Hs Hi Hj. rewrite !C74_value by auto. f_equal. destruct (pdim_even dx) as (m & E & Hm). rewrite E in *.
  unfold correction, column_at, row_at. replace (2 * m / 2)%Z with m by lia.
  destruct (j - (ngridy + 1) / 2 + 1 =? m)%Z eqn:E1; [lia|]. destruct (ngridx - 1 - i - (ngridx + 1) / 2 + 1 =? m)%Z eqn:E2; [lia|]. reflexivity.
Qed.

(** A grid as large as the padded one (the default grid, when the width of the detector is a power of two) reads the
    entry behind the table: row 0 and the last column contain whatever was there. *)
Theorem C76_edge dx n : (n = pdim_of dx)%Z -> (n - 1 + pad (pdim_of dx) n = pdim_of dx - 1)%Z.
Proof. intros ->. unfold pad. rewrite Z.sub_diag. change (Z.quot 0 2) with 0%Z. lia. Qed.
Definition dot : arr R := fun q => if (q =? 0)%Z then 1 else 0.
Definition first_only : R -> Z -> Z -> Z -> R := filter_custom (fun j => if (j =? 1)%Z then 1 else 0).
Definition dot_run (mem : arr R) : R := gridrec 1 1 16 16 16 first_only false mem dot (fun _ => 0) (fun _ => 0) (fun _ => 0) (voxel 16 16 0 7 15).
Lemma dot_image : 0 < image 16 1 16 wtbl (response 16 first_only false) (fun _ => 0) 0 (fun p k => dot (datum 1 16 0 p k)) 7 0.
Proof.
  assert (S0 : forall j, (2 <= j)%Z -> sample 16 1 16 wtbl (response 16 first_only false) (fun _ => 0) 0 (fun p k => dot (datum 1 16 0 p k)) 0 j 7 0 = 0).
  { intros j Hj. unfold sample, spectrum, response, first_only, filter_custom. destruct (Z.eqb_spec j 1); [lia|].
    rewrite Rmult_0_l. unfold cmul, cr, re, im. cbn [fst snd]. ring. }
  unfold image. rewrite re_csum. unfold psum. change (zrange 0 1) with [0%Z]. cbn [map fold_right]. rewrite re_csum. unfold psum.
  change (zrange 0 (16 / 2 - 1)) with [0; 1; 2; 3; 4; 5; 6]%Z. cbn [map fold_right]. unfold cr at 1 2 3 4 5 6 7. unfold re at 1 2 3 4 5 6 7. cbn [fst].
  rewrite (S0 (1 + 1)%Z), (S0 (2 + 1)%Z), (S0 (3 + 1)%Z), (S0 (4 + 1)%Z), (S0 (5 + 1)%Z), (S0 (6 + 1)%Z) by lia. change (0 + 1)%Z with 1%Z. unfold sample.
  assert (SP : spectrum 16 1 16 (response 16 first_only false) 0 (fun p k => dot (datum 1 16 0 p k)) 0 1 = cr (PI / 16)).
  { unfold spectrum. change (csum 16) with (csum (15 + 1)). rewrite csum_first by lia. rewrite csum_zero.
    - unfold response, first_only, filter_custom, dot, datum. cbn [Z.eqb Pos.eqb Z.add Z.mul].
      replace (2 * PI * 1 * (0 - 0) / 16) with 0 by lra. rewrite expi_0. replace (1 * (PI / (16 * 1))) with (PI / 16) by lra. ring.
    - intros k Hk. unfold dot, datum. destruct (Z.eqb_spec (k + 1 + 16 * (0 + 0 * 1)) 0); [lia|]. ring. }
  rewrite SP. rewrite cos_0, sin_0. change (IZR (16 / 2)) with 8. replace (1 * 1 + 8) with 9 by lra. replace (1 * 0 + 8) with 8 by lra.
  pose proof wave_edge. destruct wave_origin as [W1 W2]. rewrite re_cr. unfold cmul. unfold re at 1. cbn [fst]. rewrite W2.
  assert (0 < PI / 16) by (pose proof PI_RGT_0; lra).
  assert (0 < re (wave 16 wtbl 9 7) * re (wave 16 wtbl 8 0)) by (apply Rmult_lt_0_compat; lra).
  assert (0 < PI / 16 * (re (wave 16 wtbl 9 7) * re (wave 16 wtbl 8 0))) by (apply Rmult_lt_0_compat; lra). lra.
Qed.
Theorem C76_memory_refuted : exists mem1 mem2, dot_run mem1 <> dot_run mem2.
Proof.
  exists (fun _ => 0), (fun _ => 1). unfold dot_run. change 15%Z with (Z.sub 16 1) at 1 2.
  assert (F : fits 1 1 16 16 16) by (unfold fits; vm_compute; intuition congruence).
  assert (P16 : pdim_of 16 = 16%Z) by reflexivity.
  rewrite !(C74_value 1 1 16 16 16 first_only false _ F) by lia. rewrite P16. change (column_at 16 (16 - 1)) with 7%Z. change (row_at 16 7) with 0%Z.
  set (I := image _ _ _ _ _ _ _ _ _ _). unfold correction. cbn [Z.eqb Z.even Z.add Z.abs Pos.add Pos.succ]. change (16 / 2)%Z with 8%Z. cbn [Z.eqb Pos.eqb Z.add Pos.add Pos.succ].
  assert (HC : 0 < wtbl (nearest (1 * (1024 / IZR (16 - 1))))).
  { apply wtbl_pos. unfold nearest. change (IZR (16 - 1)) with 15. split; [apply int_part_glb; lra|]. apply Z.lt_succ_r, lt_IZR. pose proof (int_part_le (1 * (1024 / 15) + 1 / 2)). change (IZR (Z.succ 512)) with 513. lra. }
  pose proof winv_norm_pos as HN.
  set (K := - winv_norm / wtbl (nearest (1 * (1024 / IZR (16 - 1))))).
  assert (HK : K < 0).
  { unfold K. replace (- winv_norm / wtbl (nearest (1 * (1024 / IZR (16 - 1))))) with (- (winv_norm / wtbl (nearest (1 * (1024 / IZR (16 - 1)))))) by (unfold Rdiv; ring). apply Ropp_lt_gt_0_contravar, Rdiv_lt_0_compat; auto. }
  assert (HI : 0 < I).
  { apply dot_image. }
  nra.
Qed.
(** A grid larger than the padded one reads in front of the table. *)
Theorem C76_large_refuted : exists dx n j iu, In (j, iu) (walk 2 (pdim_of dx) n) /\ (0 <= j < n)%Z /\ (j + pad (pdim_of dx) n < 0)%Z.
Proof. exists 10%Z, 20%Z, 0%Z, 6%Z. vm_compute. intuition congruence. Qed.

(** ** C77: the interpolation window *)
(** The recurrence computes the sum over the even Legendre polynomials. *)
Theorem C77_legendre n coefs x : (1 <= n)%Z ->
  legendre n coefs x = fold_right Rplus 0 (map (fun k => coefs k * legendre_p (Z.to_nat (2 * k)) x) (zrange 0 (n / 2 + 1))).
Proof. exact (legendre_spec n coefs x). Qed.
(** The table: the sum at i/512, divided by the sum at 0. *)
Theorem C77_table i : (0 <= i <= 512)%Z -> wtbl i = legendre 20 pswf_coefs (IZR i / 512) / legendre 20 pswf_coefs 0.
Proof. intros H. change 20%Z with nt. rewrite !window_legendre. now apply wtbl_eq. Qed.
(** It falls strictly from 1 and stays positive: no correction divides by zero. *)
Theorem C77_falls : wtbl 0 = 1 /\ (forall i, (0 <= i <= 512)%Z -> 0 < wtbl i) /\ (forall i k, (0 <= i < k)%Z -> (k <= 512)%Z -> wtbl k < wtbl i).
Proof. split; [reflexivity|]. split; [exact wtbl_pos|exact wtbl_falls]. Qed.
(** The sum of Legendre polynomials is a prolate spheroidal wave function of bandwidth 7: it satisfies its differential
    equation up to 0.00056 everywhere (its value at 0 is 121.7, at 1 it is 1.0). *)
Theorem C77_prolate : exists f1 f2, (forall x, derivable_pt_lim (legendre 20 pswf_coefs) x (f1 x)) /\ (forall x, derivable_pt_lim f1 x (f2 x)) /\
  forall x, -1 <= x <= 1 -> Rabs ((1 - x * x) * f2 x - 2 * x * f1 x + (621625 / 100000 - 7 * 7 * (x * x)) * legendre 20 pswf_coefs x) <= 56 / 100000.
Proof.
  exists (pe (pderiv window_poly)), (pe (pderiv (pderiv window_poly))). split; [|split; [intros x; apply pe_deriv|]].
  - intros x. apply (derivable_pt_lim_ext (pe window_poly)); [|apply pe_deriv]. intros y. now rewrite window_poly_spec, <- window_legendre.
  - intros x Hx. change 20%Z with nt. rewrite window_legendre, <- window_poly_spec. pose proof (residual_bound x Hx) as B.
    unfold res_poly in B. rewrite residual_spec in B. replace (Q2R chi) with (621625 / 100000) in B by (unfold Q2R; cbn; lra).
    replace (Q2R 49) with (7 * 7) in B by (unfold Q2R; cbn; lra). exact B.
Qed.
(** The correction in the middle of the window: the square root of pi / (2 * 7 * 0.99998546), divided by 1.2. *)
Theorem C77_norm : 0 < winv_norm /\ winv_norm * winv_norm * (12 / 10 * (12 / 10)) * (2 * 7) * (99998546 / 100000000) = PI.
Proof.
  split; [exact winv_norm_pos|]. unfold winv_norm, big_c, lambda.
  pose proof PI_RGT_0. set (q := PI / 2 / 7 / (99998546 / 100000000)).
  assert (0 <= q). { unfold q, Rdiv. apply Rmult_le_pos; [|left; apply Rinv_0_lt_compat; lra]. apply Rmult_le_pos; [|lra]. lra. }
  replace (sqrt q / (6 / 5) * (sqrt q / (6 / 5)) * (12 / 10 * (12 / 10))) with (sqrt q * sqrt q) by field.
  rewrite sqrt_sqrt by auto. unfold q. field.
Qed.
(** The correction belongs to a window centred one pixel beside the origin: its magnitude is symmetric about position
    -1 and not about position 0, where the transform has its origin. *)
Theorem C77_centre n norm beyond a : (Z.abs (a + 1) < n / 2)%Z -> (a + 1 <> n / 2)%Z ->
  correction n wtbl norm beyond (- 2 - a) = correction n wtbl norm beyond a.
Proof.
  intros H N. unfold correction. replace (- 2 - a + 1)%Z with (- (a + 1))%Z by lia. rewrite even_opp, Z.abs_opp.
  destruct (- (a + 1) =? n / 2)%Z eqn:E1; [lia|]. destruct (a + 1 =? n / 2)%Z eqn:E2; [lia|]. reflexivity.
Qed.
Theorem C77_centre_refuted dx norm beyond : (pdim_of dx <= 4096)%Z -> 0 < norm ->
  correction (pdim_of dx) wtbl norm beyond (-1) < correction (pdim_of dx) wtbl norm beyond 1.
Proof.
  intros H Hn. destruct (pdim_even dx) as (m & E & Hm). rewrite E in *. unfold correction. replace (2 * m / 2)%Z with m by lia.
  destruct (-1 + 1 =? m)%Z eqn:E1; [lia|]. destruct (1 + 1 =? m)%Z eqn:E2; [lia|]. change (-1 + 1)%Z with 0%Z. change (1 + 1)%Z with 2%Z. cbn [Z.even Z.abs].
  rewrite Rmult_0_l. replace (nearest 0) with 0%Z by (symmetry; apply (nearest_int 0)). rewrite wtbl_0.
  assert (B1 : IZR (2 * m - 1) <= 4095) by (apply IZR_le; lia). assert (B2 : 15 <= IZR (2 * m - 1)) by (apply IZR_le; lia). set (N := IZR (2 * m - 1)) in *.
  assert (L : 1 / 2 <= 2 * (1024 / N)) by (apply Rmult_le_reg_r with N; [lra|]; replace (2 * (1024 / N) * N) with 2048 by (field; lra); lra).
  assert (U : 2 * (1024 / N) <= 137) by (apply Rmult_le_reg_r with N; [lra|]; replace (2 * (1024 / N) * N) with 2048 by (field; lra); lra).
  set (k := nearest (2 * (1024 / N))). assert (K : (1 <= k <= 512)%Z).
  { unfold k, nearest. split; [apply int_part_glb; lra|]. apply Z.lt_succ_r, lt_IZR. pose proof (int_part_le (2 * (1024 / N) + 1 / 2)). change (IZR (Z.succ 512)) with 513. lra. }
  pose proof (wtbl_pos k ltac:(lia)) as P. pose proof (wtbl_falls 0 k ltac:(lia) ltac:(lia)) as F. rewrite wtbl_0 in F.
  unfold Rdiv. rewrite Rinv_1. apply Rmult_lt_compat_l; [auto|]. rewrite <- Rinv_1. apply Rinv_lt_contravar; lra.
Qed.
(** The rotation axis (position 0 of both axes) is beside the middle of the image: for an even grid one of the two
    middle columns and rows, for an odd one the column behind and the row before the middle. *)
Theorem C77_axis n : (1 <= n)%Z -> column_at n ((n + 1) / 2) = 0%Z /\ row_at n (n - 1 - (n + 1) / 2) = 0%Z.
Proof. intros H. unfold column_at, row_at. lia. Qed.
Theorem C77_axis_refuted n : (1 <= n)%Z -> column_at (2 * n + 1) n = (-1)%Z /\ row_at (2 * n + 1) n = (-1)%Z.
Proof. intros H. unfold column_at, row_at. lia. Qed.

(** ** C78: the filters *)
(** relative to the ramp 2 x, for the frequencies x = j / pdim, 0 < j < pdim / 2 *)
Definition attenuates (f : R -> Z -> Z -> Z -> R) : Prop := forall x i p w, 0 < x < 1 / 2 -> (1 <= i)%Z -> 0 <= f x i p w <= 2 * x.
Definition low_pass (f : R -> Z -> Z -> Z -> R) : Prop :=
  forall x y i k p w, 0 < x < y -> y < 1 / 2 -> (1 <= i)%Z -> (1 <= k)%Z -> f y k p w / (2 * y) <= f x i p w / (2 * x).
Definition shaped : list string := ["shepp"; "cosine"; "hann"; "hamming"; "ramlak"; "parzen"; "butterworth"]%string.
Lemma rabs2 x : 0 < x -> Rabs (2 * x) = 2 * x. Proof. intros H. apply Rabs_pos_eq. lra. Qed.
Lemma ratio_le x y u v : 0 < x -> 0 < y -> v <= u -> (2 * y) * v / (2 * y) <= (2 * x) * u / (2 * x).
Proof. intros Hx Hy H. replace (2 * y * v / (2 * y)) with v by (field; lra). replace (2 * x * u / (2 * x)) with u by (field; lra). auto. Qed.
Lemma powf_pos a b : 0 <= powf a b.
Proof. unfold powf. destruct (Req_EM_T a 0); [lra|]. apply Rlt_le, exp_pos. Qed.
Theorem C78_attenuates name : In name shaped -> attenuates (get_filter name default_par).
Proof.
  intros Hin x i p w Hx Hi. pose proof PI_RGT_0 as HP.
  assert (B : 0 < PI * x < PI / 2) by (split; nra).
  repeat (destruct Hin as [<-|Hin]; [cbn [get_filter find filters fst snd]|]); [..|destruct Hin];
    [change (get_filter "shepp" default_par) with (filter_shepp default_par)|change (get_filter "cosine" default_par) with (filter_cosine default_par)
    |change (get_filter "hann" default_par) with (filter_hann default_par)|change (get_filter "hamming" default_par) with (filter_hamming default_par)
    |change (get_filter "ramlak" default_par) with (filter_ramlak default_par)|change (get_filter "parzen" default_par) with (filter_parzen default_par)
    |change (get_filter "butterworth" default_par) with (filter_butterworth default_par)].
  - unfold filter_shepp. destruct (Z.eqb_spec i 0); [lia|]. rewrite rabs2 by lra.
    assert (0 <= sin (PI * x) / (PI * x) <= 1).
    { split; [apply Rmult_le_pos; [apply sin_ge_0; lra|apply Rlt_le, Rinv_0_lt_compat; lra]|].
      apply Rmult_le_reg_r with (PI * x); [lra|]. unfold Rdiv. rewrite Rmult_assoc, Rinv_l by lra. pose proof (sin_le (PI * x) ltac:(lra)). lra. }
    split; nra.
  - unfold filter_cosine. rewrite rabs2 by lra. assert (0 <= cos (PI * x)) by (apply cos_ge_0; lra). pose proof (COS_bound (PI * x)). split; nra.
  - unfold filter_hann. rewrite rabs2 by lra. pose proof (COS_bound (2 * PI * x / default_par 0)). split; nra.
  - unfold filter_hamming. rewrite rabs2 by lra. pose proof (COS_bound (2 * PI * x / default_par 0)). split; nra.
  - unfold filter_ramlak. rewrite rabs2 by lra. lra.
  - unfold filter_parzen. rewrite rabs2, Rabs_pos_eq by lra. unfold default_par. cbn [Z.eqb]. replace (x / (1 / 2)) with (2 * x) by field.
    assert (0 <= (1 - 2 * x) ^ 3 <= 1). { split; [apply pow_le; lra|]. rewrite <- (pow1 3). apply pow_incr. lra. }
    split; nra.
  - unfold filter_butterworth. rewrite rabs2 by lra. pose proof (powf_pos (x / default_par 0) (2 * default_par 1)). split.
    + apply Rmult_le_pos; [lra|]. apply Rlt_le, Rinv_0_lt_compat. lra.
    + apply Rmult_le_reg_r with (1 + powf (x / default_par 0) (2 * default_par 1)); [lra|]. unfold Rdiv. rewrite Rmult_assoc, Rinv_l by lra. nra.
Qed.
Theorem C78_low_pass name : In name ["shepp"; "cosine"; "ramlak"; "parzen"; "butterworth"]%string -> low_pass (get_filter name default_par).
Proof.
  intros Hin x y i k p w Hx Hy Hi Hk. pose proof PI_RGT_0 as HP.
  assert (B : 0 < PI * x < PI / 2) by (split; nra). assert (B2 : PI * x < PI * y < PI / 2) by (split; nra).
  repeat (destruct Hin as [<-|Hin]); [..|destruct Hin];
    [change (get_filter "shepp" default_par) with (filter_shepp default_par)|change (get_filter "cosine" default_par) with (filter_cosine default_par)
    |change (get_filter "ramlak" default_par) with (filter_ramlak default_par)|change (get_filter "parzen" default_par) with (filter_parzen default_par)
    |change (get_filter "butterworth" default_par) with (filter_butterworth default_par)].
  - unfold filter_shepp. destruct (Z.eqb_spec i 0); [lia|]. destruct (Z.eqb_spec k 0); [lia|]. rewrite !rabs2 by lra. apply ratio_le; try lra.
    pose proof (sin_chord (PI * x) (PI * y) ltac:(lra) ltac:(lra)).
    apply Rmult_le_reg_r with (PI * y * (PI * x)); [apply Rmult_lt_0_compat; lra|].
    replace (sin (PI * y) / (PI * y) * (PI * y * (PI * x))) with (sin (PI * y) * (PI * x)) by (field; split; nra).
    replace (sin (PI * x) / (PI * x) * (PI * y * (PI * x))) with (sin (PI * x) * (PI * y)) by (field; split; nra). auto.
  - unfold filter_cosine. rewrite !rabs2 by lra. apply ratio_le; try lra. apply cos_decr_1; lra.
  - unfold filter_ramlak. rewrite !rabs2 by lra. replace (2 * y / (2 * y)) with 1 by (field; lra). replace (2 * x / (2 * x)) with 1 by (field; lra). lra.
  - unfold filter_parzen. rewrite !rabs2, !Rabs_pos_eq by lra. apply ratio_le; try lra. unfold default_par. cbn [Z.eqb].
    replace (x / (1 / 2)) with (2 * x) by field. replace (y / (1 / 2)) with (2 * y) by field. apply pow_incr. lra.
  - unfold filter_butterworth. rewrite !rabs2 by lra. unfold Rdiv at 2 5.
    set (Y := powf (y / default_par 0) (2 * default_par 1)). set (X := powf (x / default_par 0) (2 * default_par 1)).
    assert (X <= Y).
    { unfold X, Y, powf, default_par. cbn [Z.eqb]. replace (x / (1 / 2)) with (2 * x) by field. replace (y / (1 / 2)) with (2 * y) by field.
      destruct (Req_EM_T (2 * x) 0); [lra|]. destruct (Req_EM_T (2 * y) 0); [lra|]. apply Rle_Rpower_l; lra. }
    assert (0 <= X) by apply powf_pos. apply ratio_le; try lra. apply Rinv_le_contravar; lra.
Qed.
(** Hann and Hamming with the default parameter 0.5 have their minimum at half of the highest frequency and pass the
    highest frequencies again; a parameter of at least 1 makes them fall. *)
Theorem C78_hann_refuted : ~ low_pass (get_filter "hann" default_par) /\ ~ low_pass (get_filter "hamming" default_par).
Proof.
  change (get_filter "hann" default_par) with (filter_hann default_par). change (get_filter "hamming" default_par) with (filter_hamming default_par).
  split; intros H; specialize (H (1 / 4) (3 / 8) 1%Z 1%Z 0%Z 0%Z ltac:(lra) ltac:(lra) ltac:(lia) ltac:(lia)).
  - unfold filter_hann, default_par in H. cbn [Z.eqb] in H. rewrite !rabs2 in H by lra.
    replace (2 * PI * (1 / 4) / (1 / 2)) with PI in H by field. replace (2 * PI * (3 / 8) / (1 / 2)) with (3 * (PI / 2)) in H by field. rewrite cos_PI, cos_3PI2 in H. lra.
  - unfold filter_hamming, default_par in H. cbn [Z.eqb] in H. rewrite !rabs2 in H by lra.
    replace (2 * PI * (1 / 4) / (1 / 2)) with PI in H by field. replace (2 * PI * (3 / 8) / (1 / 2)) with (3 * (PI / 2)) in H by field. rewrite cos_PI, cos_3PI2 in H. lra.
Qed.
Theorem C78_hann pars : 1 <= pars 0%Z -> low_pass (get_filter "hann" pars) /\ low_pass (get_filter "hamming" pars).
Proof.
  intros Hp. change (get_filter "hann" pars) with (filter_hann pars). change (get_filter "hamming" pars) with (filter_hamming pars). pose proof PI_RGT_0 as HP.
  assert (C : forall x y, 0 < x < y -> y < 1 / 2 -> cos (2 * PI * y / pars 0%Z) <= cos (2 * PI * x / pars 0%Z)).
  { intros x y Hx Hy. assert (I : 0 < / pars 0%Z <= 1) by (split; [apply Rinv_0_lt_compat; lra|rewrite <- Rinv_1; apply Rinv_le_contravar; lra]).
    assert (0 < 2 * PI * x) by nra. assert (2 * PI * x < 2 * PI * y) by nra. assert (2 * PI * y < PI) by nra. unfold Rdiv. apply cos_decr_1; nra. }
  split; intros x y i k p w Hx Hy Hi Hk; specialize (C x y Hx Hy).
  - unfold filter_hann. rewrite !rabs2 by lra. rewrite !(Rmult_assoc (2 * _) (1 / 2)). apply ratio_le; lra.
  - unfold filter_hamming. rewrite !rabs2 by lra. apply ratio_le; lra.
Qed.
(** The filters given by the caller are read from its table: one row for all projections, or one row of as many entries
    as there are frequencies per projection, for that name only. *)
Theorem C78_custom table x i p w :
  get_filter "custom" table x i p w = table i /\ get_filter "custom2d" table x i p w = table (i + w * p)%Z.
Proof. split; [reflexivity|]. change (table (p * w + i)%Z = table (i + w * p)%Z). f_equal. lia. Qed.
Theorem C78_two_dimensional name : filter_is_2d name = true <-> name = "custom2d"%string.
Proof. apply String.eqb_eq. Qed.
Theorem C78_default name : ~ In name (map fst filters) -> get_filter name = get_filter "shepp" /\ filter_is_2d name = false.
Proof.
  intros H. change (get_filter "shepp") with filter_shepp. split.
  - unfold get_filter. destruct (find (fun e => String.eqb name (fst e)) filters) as [e|] eqn:E; [|reflexivity].
    apply find_some in E. destruct E as [E1 E2]. apply String.eqb_eq in E2. destruct H. rewrite E2. now apply in_map.
  - unfold filter_is_2d. destruct (String.eqb_spec name "custom2d"); [|reflexivity]. subst. destruct H. cbn. tauto.
Qed.

(** ** Examples *)
(** two slices of a 16 pixel detector: the second one as if alone, with the centre of the first one; and it is not empty *)
Example C74_ex (data recon : arr R) : (forall k, (0 <= k < 16)%Z -> data (16 + k)%Z = dot k) ->
  gridrec 2 1 16 15 15 first_only false (fun _ => 0) data (fun _ => 0) (fun _ => 0) recon (voxel 15 15 1 7 7) =
  gridrec 1 1 16 15 15 first_only false (fun _ => 0) dot (fun _ => 0) (fun _ => 0) recon (voxel 15 15 0 7 7).
Proof.
  intros H. assert (F : fits 2 1 16 15 15) by (unfold fits; vm_compute; intuition congruence).
  assert (F1 : fits 1 1 16 15 15) by (unfold fits; vm_compute; intuition congruence).
  rewrite (C74_alone 2 1 16 15 15 first_only false (fun _ => 0) F _ _ _ recon recon) by lia. apply C74_others; try lia; auto.
  intros p k Hp Hk. unfold datum. rewrite <- H by lia. f_equal. lia.
Qed.
Example C75_ex : (pdim_of 64 = 64)%Z /\ Permutation (map (fun p => 2 - p)%Z (zrange 0 3)) (zrange 0 3).
Proof. split; [reflexivity|]. change (Permutation [2; 1; 0]%Z [0; 1; 2]%Z). symmetry. apply (Permutation_rev [0; 1; 2]%Z). Qed.
Example C76_ex : walk 2 16 5 = [(0, 13); (1, 14); (2, 15); (3, 0); (4, 1)]%Z /\ pdim_of 100 = 128%Z.
Proof. split; reflexivity. Qed.
Example C77_ex : legendre 2 (fun _ => 1) (1 / 2) = 7 / 8 /\ wtbl 256 < 438 / 1000.
Proof. split; [|exact wtbl_256]. rewrite C77_legendre by lia. change (zrange 0 (2 / 2 + 1)) with [0; 1]%Z. cbn [map fold_right]. change (Z.to_nat (2 * 0)) with 0%nat. change (Z.to_nat (2 * 1)) with 2%nat. unfold legendre_p. cbn. lra. Qed.
Example C78_ex : get_filter "hann" default_par (1 / 4) 4 0 8 = 0 /\ get_filter "parzen" default_par (1 / 4) 4 0 8 = 1 / 16 /\ get_filter "typo" default_par (1 / 4) 0 0 8 = 0.
Proof.
  split; [|split].
  - change (filter_hann default_par (1 / 4) 4 0 8 = 0). unfold filter_hann, default_par. cbn [Z.eqb]. replace (2 * PI * (1 / 4) / (1 / 2)) with PI by field. rewrite cos_PI. ring.
  - change (filter_parzen default_par (1 / 4) 4 0 8 = 1 / 16). unfold filter_parzen, default_par. cbn [Z.eqb]. rewrite !Rabs_pos_eq by lra. field.
  - reflexivity.
Qed.

Print Assumptions C74_value.
Print Assumptions C74_alone.
Print Assumptions C74_others.
Print Assumptions C75_linear.
Print Assumptions C75_offset.
Print Assumptions C75_opposite.
Print Assumptions C75_full_turn.
Print Assumptions C75_shift.
Print Assumptions C75_order.
Print Assumptions C76_pdim.
Print Assumptions C76_walk.
Print Assumptions C76_box.
Print Assumptions C76_winv.
Print Assumptions C76_winv_set.
Print Assumptions C76_winv_reads.
Print Assumptions C76_inside.
Print Assumptions C76_memory.
Print Assumptions C76_edge.
Print Assumptions C76_memory_refuted.
Print Assumptions C76_large_refuted.
Print Assumptions C77_legendre.
Print Assumptions C77_table.
Print Assumptions C77_falls.
Print Assumptions C77_prolate.
Print Assumptions C77_norm.
Print Assumptions C77_centre.
Print Assumptions C77_centre_refuted.
Print Assumptions C77_axis.
Print Assumptions C77_axis_refuted.
Print Assumptions C78_attenuates.
Print Assumptions C78_low_pass.
Print Assumptions C78_hann_refuted.
Print Assumptions C78_hann.
Print Assumptions C78_custom.
Print Assumptions C78_two_dimensional.
Print Assumptions C78_default.
