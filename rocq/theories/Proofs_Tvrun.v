From Verif Require Import Base CLoop Model_Prep Model_Ray Model_Solver Model_Grad Proofs_Prep Proofs_Morph Proofs_Ray Properties_Ray Proofs_Solver Proofs_Art Proofs_Subsets Proofs_Bart Proofs_Em Proofs_Unit Properties_Solver Proofs_Lsq Proofs_Grad Properties_Grad Proofs_Pdhg Proofs_Tv Spec_Tv.
From Coq Require Import Reals Lra Psatz.
Local Open Scope R_scope.

Lemma lsum_null {A} (l : list A) : lsum (fun _ => 0) l = 0.
Proof. induction l as [|a l IH]; [reflexivity|]. rewrite lsum_cons, IH. ring. Qed.
Section Work.
  Variable g : geom.
  Hypothesis Hg : valid g.
  Let nx := ngridx g.
  Let N := npix g.
  Let r := scale_r g.
  Notation C := (icells g).
  Lemma unit_r : unit_of g = r. Proof. symmetry. now apply scale_r_sqrt. Qed.
  Lemma r0 : 0 < r. Proof. destruct Hg as (H1 & H2 & H3 & H4 & H5). now apply r_pos. Qed.
  Lemma cell_total_sum f : cell_total g f = lsum f C.
  Proof.
    unfold cell_total, icells, cells, total. change (rsum (map ?h ?l)) with (lsum h l). induction (zrange 0 (ngridy g - 1)) as [|y l IH]; [reflexivity|].
    cbn [flat_map]. rewrite lsum_cons, IH, lsum_app. f_equal. unfold lsum. now rewrite map_map.
  Qed.
  Lemma is_cell_in k : is_cell g k <-> In k C.
  Proof. unfold icells. rewrite in_cells. unfold is_cell. split; intros (iy & ix & H); exists iy, ix; tauto. Qed.
  Lemma cell_range k : In k C -> (0 <= k < N /\ 0 <= k + 1 < N /\ 0 <= k + nx < N)%Z.
  Proof.
    destruct Hg as (H1 & H2 & H3 & H4 & H5). intros Hk. apply in_icells in Hk as [Hk Hi]; auto. split; auto. now apply inn_range.
  Qed.
  Lemma lsum_delta (f : Z -> R) l j : NoDup l -> lsum (fun k => f k * delta j k) l = if in_dec Z.eq_dec j l then f j else 0.
  Proof.
    induction l as [|k l IH]; intros ND; [reflexivity|]. inversion ND as [|? ? Hn Hl]; subst. rewrite lsum_cons, IH by auto. unfold delta.
    destruct (Z.eqb_spec j k) as [->|Hne].
    - destruct (in_dec Z.eq_dec k l); [contradiction|]. destruct (in_dec Z.eq_dec k (k :: l)) as [_|Hx]; [ring|exfalso; apply Hx; now left].
    - destruct (in_dec Z.eq_dec j l) as [Hi|Hi], (in_dec Z.eq_dec j (k :: l)) as [Hj|Hj]; try ring.
      + exfalso; apply Hj; now right.
      + destruct Hj; [congruence|contradiction].
  Qed.
  Lemma zsum_delta f a : (0 <= a < N)%Z -> zsum N (fun j => f j * delta j a) = f a.
  Proof. intros Ha. rewrite (zsum_ext N _ (fun j => if (j =? a)%Z then f a else 0)) by (intros j _; unfold delta; destruct (Z.eqb_spec j a) as [->|]; ring). now apply zsum_single. Qed.
  Variable data : arr R.
  Variable lambda : R.
  Variable s : Z.
  (** The stacked operator *)
  Definition row : Type := ((bool * Z) + (Z * Z))%type.
  Definition rows : list row := map (fun k => inl (true, k)) C ++ map (fun k => inl (false, k)) C ++ map inr (pairs g).
  Definition wk (a : row) (j : Z) : R :=
    match a with inl (true, k) => delta j (k + 1) - delta j k | inl (false, k) => delta j (k + nx) - delta j k | inr pd => r * Rw g s pd j end.
  Lemma rows_sum f : lsum f rows = lsum (fun k => f (inl (true, k)) + f (inl (false, k))) C + lsum (fun pd => f (inr pd)) (pairs g).
  Proof. unfold rows. rewrite !lsum_app. unfold lsum at 1 2 3. rewrite !map_map. rewrite lsum_plus. unfold lsum. ring. Qed.
  Lemma fwd_true x k : In k C -> fwd N wk x (inl (true, k)) = right_diff x k.
  Proof.
    intros Hk. apply cell_range in Hk. unfold fwd, wk. rewrite (zsum_ext N _ (fun j => x j * delta j (k + 1) + (-1) * (x j * delta j k))) by (intros; ring). rewrite zsum_plus, zsum_scal, !zsum_delta by tauto. unfold right_diff. ring.
  Qed.
  Lemma fwd_false x k : In k C -> fwd N wk x (inl (false, k)) = down_diff g x k.
  Proof.
    intros Hk. apply cell_range in Hk. unfold fwd, wk. rewrite (zsum_ext N _ (fun j => x j * delta j (k + nx) + (-1) * (x j * delta j k))) by (intros; ring). rewrite zsum_plus, zsum_scal, !zsum_delta by tauto. unfold down_diff. fold nx. ring.
  Qed.
  Lemma fwd_ray x pd : fwd N wk x (inr pd) = r * fwd N (Rw g s) x pd.
  Proof. unfold fwd, wk. rewrite <- zsum_scal. apply zsum_ext. intros. ring. Qed.
  Definition dual (px py : Z -> R) (q : Z * Z -> R) (a : row) : R := match a with inl (true, k) => px k | inl (false, k) => py k | inr pd => q pd end.
  Lemma bwd_dual px py q j : bwd rows wk (dual px py q) j = transposed g px py j + r * lsum (fun pd => q pd * Rw g s pd j) (pairs g).
  Proof.
    unfold bwd. rewrite rows_sum. unfold transposed. rewrite cell_total_sum. apply f_equal2; [apply lsum_ext; intros; unfold dual, wk; fold nx; ring|].
    rewrite <- lsum_scal. apply lsum_ext. intros. unfold dual, wk. ring.
  Qed.
  Lemma transposed_local px py j : (0 <= j < N)%Z -> (forall k, (0 <= k < N)%Z -> inn g k = false -> px k = 0 /\ py k = 0) ->
    transposed g px py j = - (px j - (if (j mod nx =? 0)%Z then 0 else px (j - 1)%Z)) - (py j - (if (j / nx =? 0)%Z then 0 else py (j - nx)%Z)).
  Proof.
    intros Hj Hz. destruct Hg as (H1 & H2 & H3 & H4 & H5). unfold transposed. rewrite cell_total_sum. fold nx.
    assert (S1 : forall f a, lsum (fun k => f k * delta j (k + a)) C = lsum (fun k => f k * delta (j - a) k) C).
    { intros f a. apply lsum_ext. intros k _. unfold delta. destruct (Z.eqb_spec j (k + a)), (Z.eqb_spec (j - a) k); auto; lia. }
    rewrite (lsum_ext _ (fun k => (px k * delta j (k + 1) + (-1) * (px k * delta j k)) + (py k * delta j (k + nx) + (-1) * (py k * delta j k)))) by (intros; ring).
    rewrite !lsum_plus, !lsum_scal, !S1, !lsum_delta by (apply NoDup_icells; auto).
    assert (Nin : forall k, (0 <= k < N)%Z -> ~ In k C -> px k = 0 /\ py k = 0).
    { intros k Hk Hn. apply Hz; auto. destruct (inn g k) eqn:E; auto. exfalso. apply Hn. now apply in_icells. }
    assert (Inr : forall k, In k C -> (k mod nx < nx - 1)%Z /\ (0 <= k < N)%Z).
    { intros k Hk. apply in_icells in Hk as [Hk Hi]; auto. split; auto. unfold inn in Hi. fold nx in Hi. lia. }
    assert (EN : N = (nx * ngridy g)%Z) by reflexivity. assert (nx1 : (1 <= nx)%Z) by exact H1.
    pose proof (Z.mod_pos_bound j nx ltac:(lia)) as M. pose proof (Z.div_mod j nx ltac:(lia)) as D. assert (D0 : (0 <= j / nx)%Z) by (apply Z.div_pos; lia).
    assert (X1 : (if in_dec Z.eq_dec (j - 1)%Z C then px (j - 1)%Z else 0) = if (j mod nx =? 0)%Z then 0 else px (j - 1)%Z).
    { destruct (in_dec Z.eq_dec (j - 1)%Z C) as [Hi|Hi], (Z.eqb_spec (j mod nx) 0) as [E|E]; auto.
      - exfalso. destruct (Inr _ Hi) as [A B]. replace (j - 1)%Z with (nx - 1 + (j / nx - 1) * nx)%Z in A by lia. rewrite Z.mod_add in A by lia. rewrite Z.mod_small in A; lia.
      - symmetry. apply (Nin (j - 1)%Z); auto. nia. }
    assert (X2 : (if in_dec Z.eq_dec (j - nx)%Z C then py (j - nx)%Z else 0) = if (j / nx =? 0)%Z then 0 else py (j - nx)%Z).
    { destruct (in_dec Z.eq_dec (j - nx)%Z C) as [Hi|Hi], (Z.eqb_spec (j / nx) 0) as [E|E]; auto.
      - exfalso. destruct (Inr _ Hi) as [A B]. nia.
      - symmetry. apply (Nin (j - nx)%Z); auto. nia. }
    assert (X3 : (if in_dec Z.eq_dec j C then px j else 0) = px j) by (destruct (in_dec Z.eq_dec j C) as [Hi|Hi]; auto; symmetry; now apply Nin).
    assert (X4 : (if in_dec Z.eq_dec j C then py j else 0) = py j) by (destruct (in_dec Z.eq_dec j C) as [Hi|Hi]; auto; symmetry; now apply Nin).
    rewrite X1, X2, X3, X4. ring.
  Qed.
  (** ** The run as a primal-dual iteration *)
  Variable X0 : Z -> R.
  Definition run (n : nat) : rstate := rrun g data lambda s (fun j => X0 j / r) n.
  Definition u_ (st : rstate) : Z -> R := let '(_, u, _, _, _) := st in u.
  Definition px_ (st : rstate) : Z -> R := let '(_, _, p, _, _) := st in p.
  Definition py_ (st : rstate) : Z -> R := let '(_, _, _, p, _) := st in p.
  Definition q_ (st : rstate) : Z * Z -> R := let '(_, _, _, _, q) := st in q.
  Definition y_ (n : nat) : row -> R := dual (px_ (run n)) (py_ (run n)) (q_ (run n)).
  Lemma run_zero n k : inn g k = false -> px_ (run n) k = 0 /\ py_ (run n) k = 0.
  Proof. intros Hi. induction n as [|n IH]; [cbn; auto|]. unfold run. cbn [rrun]. fold (run n). destruct (run n) as ((((a, b), c), d), e). cbn [rstep px_ py_] in *. rewrite Hi. auto. Qed.
  Lemma run_bar n j : st_xb (run n) j = 2 * u_ (run n) j - before (fun n => u_ (run n)) n j.
  Proof. destruct n as [|n]; [cbn; ring|]. unfold run. cbn [rrun before]. fold (run n). destruct (run n) as ((((a, b), c), d), e). cbn. ring. Qed.
  Lemma run_u n j : (0 <= j < N)%Z -> u_ (run (S n)) j = u_ (run n) j - tv_c * bwd rows wk (y_ (S n)) j.
  Proof.
    intros Hj. unfold y_. rewrite bwd_dual. rewrite transposed_local by (auto; intros; now apply run_zero).
    unfold run. cbn [rrun]. fold (run n). destruct (run n) as ((((a, b), c), d), e). cbn [rstep u_ px_ py_ q_]. unfold Proofs_Tv.up. fold nx r.
    rewrite (lsum_ext (fun pd => r * nq g data s a e pd * Rw g s pd j) (fun pd => r * (nq g data s a e pd * Rw g s pd j))) by (intros; ring). rewrite lsum_scal. ring.
  Qed.
  Lemma run_p n k : inn g k = true -> let st := run n in let a := px_ st k + tv_c * right_diff (st_xb st) k in let b := py_ st k + tv_c * down_diff g (st_xb st) k in
    px_ (run (S n)) k = a / clip_m lambda a b /\ py_ (run (S n)) k = b / clip_m lambda a b.
  Proof. intros Hi. unfold run. cbn [rrun]. fold (run n). destruct (run n) as ((((a, b), c), d), e). cbn [rstep px_ py_ st_xb]. rewrite Hi. auto. Qed.
  Lemma run_q n pd : q_ (run (S n)) pd = nq g data s (st_xb (run n)) (q_ (run n)) pd.
  Proof. unfold run. cbn [rrun]. fold (run n). destruct (run n) as ((((a, b), c), d), e). reflexivity. Qed.

  (** An image without differences that explains the data *)
  Lemma run_still n : (forall k, In k C -> right_diff X0 k = 0 /\ down_diff g X0 k = 0) -> (forall pd, In pd (pairs g) -> fwd N (Rw g s) X0 pd = bb g data s pd) ->
    (forall j, (0 <= j < N)%Z -> st_xb (run n) j = X0 j / r /\ u_ (run n) j = X0 j / r) /\ (forall k, (0 <= k < N)%Z -> px_ (run n) k = 0 /\ py_ (run n) k = 0) /\ (forall pd, In pd (pairs g) -> q_ (run n) pd = 0).
  Proof.
    intros Hd Hb. pose proof r0 as Hr. destruct Hg as (H1 & H2 & H3 & H4 & H5). induction n as [|n (I1 & I2 & I3)]; [cbn; auto|].
    assert (Q : forall pd, In pd (pairs g) -> q_ (run (S n)) pd = 0).
    { intros pd Hi. rewrite run_q. unfold nq. rewrite I3 by auto. rewrite (fwd_ext (npix g) (Rw g s) (st_xb (run n)) (fun j => / r * X0 j + 0 * X0 j)) by (intros j Hj; destruct (I1 j Hj) as [-> _]; field; lra).
      rewrite fwd_lin. fold N. rewrite (Hb pd Hi). fold r. unfold tv_c. field. lra. }
    assert (P : forall k, (0 <= k < N)%Z -> px_ (run (S n)) k = 0 /\ py_ (run (S n)) k = 0).
    { intros k Hk. destruct (inn g k) eqn:E; [|now apply run_zero]. assert (Hi : In k C) by now apply in_icells. destruct (run_p n k E) as [-> ->]. destruct (cell_range k Hi) as (R1 & R2 & R3).
      destruct (I2 k Hk) as [-> ->]. destruct (Hd k Hi) as [D1 D2]. unfold right_diff, down_diff in *. fold nx in D2 |- *. destruct (I1 _ R1) as [-> _], (I1 _ R2) as [-> _], (I1 _ R3) as [-> _].
      replace (X0 (k + 1)%Z) with (X0 k) by lra. replace (X0 (k + nx)%Z) with (X0 k) by lra. replace (0 + tv_c * (X0 k / r - X0 k / r)) with 0 by ring. unfold Rdiv. now rewrite !Rmult_0_l. }
    assert (U : forall j, (0 <= j < N)%Z -> u_ (run (S n)) j = X0 j / r).
    { intros j Hj. rewrite run_u by auto. destruct (I1 j Hj) as [_ ->]. unfold y_. rewrite bwd_dual, transposed_local by (auto; intros; now apply run_zero).
      destruct (P j Hj) as [-> ->]. rewrite (lsum_ext _ (fun _ => 0)) by (intros pd Hi; rewrite (Q pd Hi); ring). rewrite lsum_null.
      pose proof (Z.mod_pos_bound j nx ltac:(unfold nx; lia)) as M. pose proof (Z.div_mod j nx ltac:(unfold nx; lia)) as D. assert (D0 : (0 <= j / nx)%Z) by (apply Z.div_pos; unfold nx; lia).
      assert (nx1 : (1 <= nx)%Z) by exact H1.
      destruct (Z.eqb_spec (j mod nx) 0), (Z.eqb_spec (j / nx) 0); [| |destruct (P (j - 1)%Z ltac:(nia)) as [-> _]|]; [| destruct (P (j - nx)%Z ltac:(nia)) as [_ ->]| |destruct (P (j - 1)%Z ltac:(nia)) as [-> _]; destruct (P (j - nx)%Z ltac:(nia)) as [_ ->]]; ring. }
    split; [|split; [exact P|exact Q]]. intros j Hj. split; [|now apply U]. rewrite run_bar. cbn [before]. rewrite U by auto. destruct (I1 j Hj) as [_ ->]. ring.
  Qed.
  (** One iteration from an image that explains the data moves only pixels that differ from a neighbour. *)
  Lemma run_local j : (forall pd, In pd (pairs g) -> fwd N (Rw g s) X0 pd = bb g data s pd) -> (0 <= j < N)%Z ->
    ((j mod nx < nx - 1)%Z -> X0 (j + 1)%Z = X0 j) -> ((j / nx < ngridy g - 1)%Z -> X0 (j + nx)%Z = X0 j) ->
    ((0 < j mod nx)%Z -> X0 (j - 1)%Z = X0 j) -> ((0 < j / nx)%Z -> X0 (j - nx)%Z = X0 j) -> st_xb (run 1) j = X0 j / r.
  Proof.
    intros Hb Hj E1 E2 E3 E4. pose proof r0 as Hr. pose proof Hg as (H1 & H2 & H3 & H4 & H5). rewrite run_bar. cbn [before]. rewrite run_u by auto. unfold y_. rewrite bwd_dual, transposed_local by (auto; intros; now apply run_zero).
    rewrite (lsum_ext _ (fun _ => 0)).
    2:{ intros pd Hi. rewrite run_q. unfold nq. cbn [run rrun rinit st_xb q_]. rewrite (fwd_ext (npix g) (Rw g s) (fun j => X0 j / r) (fun j => / r * X0 j + 0 * X0 j)) by (intros; field; lra).
        rewrite fwd_lin. fold N. rewrite (Hb pd Hi). fold r. unfold tv_c. field. lra. }
    rewrite lsum_null.
    assert (P : forall k, (inn g k = true -> X0 (k + 1)%Z = X0 k) -> px_ (run 1) k = 0).
    { intros k Hk. destruct (inn g k) eqn:E; [|now apply run_zero]. destruct (run_p 0 k E) as [-> _]. cbn [run rrun rinit st_xb px_ py_]. unfold right_diff. rewrite Hk by auto. unfold Rminus. rewrite Rplus_opp_r, Rmult_0_r, Rplus_0_l. unfold Rdiv. now rewrite Rmult_0_l. }
    assert (Q : forall k, (inn g k = true -> X0 (k + nx)%Z = X0 k) -> py_ (run 1) k = 0).
    { intros k Hk. destruct (inn g k) eqn:E; [|now apply run_zero]. destruct (run_p 0 k E) as [_ ->]. cbn [run rrun rinit st_xb px_ py_]. unfold down_diff. fold nx. rewrite Hk by auto. unfold Rminus. rewrite Rplus_opp_r, Rmult_0_r, Rplus_0_l. unfold Rdiv. now rewrite Rmult_0_l. }
    assert (nx1 : (1 <= nx)%Z) by exact H1. assert (D0 : (0 <= j / nx)%Z) by (apply Z.div_pos; lia). pose proof (Z.mod_pos_bound j nx ltac:(lia)) as M.
    assert (I : inn g j = true -> (j mod nx < nx - 1)%Z /\ (j / nx < ngridy g - 1)%Z) by (unfold inn; fold nx; lia).
    rewrite (P j) by (intros; apply E1; tauto). rewrite (Q j) by (intros; apply E2; tauto).
    assert (A : (if (j mod nx =? 0)%Z then 0 else px_ (run 1) (j - 1)%Z) = 0).
    { destruct (Z.eqb_spec (j mod nx) 0); auto. apply P. intros _. replace (j - 1 + 1)%Z with j by lia. symmetry. apply E3. lia. }
    assert (B : (if (j / nx =? 0)%Z then 0 else py_ (run 1) (j - nx)%Z) = 0).
    { destruct (Z.eqb_spec (j / nx) 0); auto. apply Q. intros _. replace (j - nx + nx)%Z with j by lia. symmetry. apply E4. lia. }
    rewrite A, B. cbn [run rrun rinit u_]. fold r. ring.
  Qed.
  Hypothesis Hl : 0 < lambda.
  Variables (xs ps qs : Z -> R).
  Hypothesis Hcert : certificate g data lambda s xs ps qs.
  Let us := fun j => xs j / r.
  Let rs := fun pd : Z * Z => ray_sum (rays g s (fst pd) (snd pd)) xs - data (ind_data g s (fst pd) (snd pd)).
  Let ys := dual ps qs rs.
  Lemma rs_fwd pd : rs pd = r * fwd N (Rw g s) us pd - bb g data s pd.
  Proof.
    pose proof r0. destruct pd as (p, d). unfold rs, bb. cbn [fst snd]. rewrite ray_sum_fwd by auto. unfold us.
    rewrite (fwd_ext N (Rw g s) (fun j => xs j / r) (fun j => / r * xs j + 0 * xs j)) by (intros; field; lra). rewrite fwd_lin. fold N. field. lra.
  Qed.
  Lemma ys_zero j : (0 <= j < N)%Z -> bwd rows wk ys j = 0.
  Proof.
    intros Hj. unfold ys. rewrite bwd_dual. destruct Hcert as [_ H]. rewrite <- (H j Hj). rewrite unit_r. f_equal. f_equal. unfold back_residual.
    rewrite (total_pairs g (fun p d => (ray_sum (rays g s p d) xs - data (ind_data g s p d)) * inside_length (rays g s p d) j)). apply lsum_ext. intros (p, d) _. unfold rs, Rw. cbn [fst snd]. now rewrite inside_length_wt.
  Qed.
  (** The dual step is monotone towards the certificate. *)
  Lemma run_dual n : lprod rows (fun i => y_ (S n) i - y_ n i - tv_c * (fwd N wk (extra (fun n => u_ (run n)) n) i - fwd N wk us i)) (fun i => y_ (S n) i - ys i) <= 0.
  Proof.
    pose proof r0 as Hr. destruct Hg as (H1 & H2 & H3 & H4 & H5).
    assert (EX : forall i, fwd N wk (extra (fun n => u_ (run n)) n) i = fwd N wk (st_xb (run n)) i) by (intros; apply fwd_ext; intros; unfold extra; now rewrite run_bar).
    unfold lprod. rewrite rows_sum. set (T1 := lsum _ C). set (T2 := lsum _ (pairs g)). assert (T1 <= 0 /\ T2 <= 0); [|lra]. split.
    - unfold T1. apply Rle_trans with (lsum (fun _ => 0) C); [|rewrite lsum_null; lra]. apply lsum_le. intros k Hk. rewrite !EX, !fwd_true, !fwd_false by auto. unfold y_, ys. cbn [dual].
      pose proof Hk as Hk'. apply in_icells in Hk' as [Hr1 Hi]; auto. destruct (run_p n k Hi) as [E1 E2].
      set (a := px_ (run n) k + tv_c * right_diff (st_xb (run n)) k) in *. set (b := py_ (run n) k + tv_c * down_diff g (st_xb (run n)) k) in *.
      destruct Hcert as [Hc _]. destruct (Hc k ltac:(now apply is_cell_in)) as [B1 B2].
      destruct (disc_projection lambda a b (px_ (run (S n)) k) (py_ (run (S n)) k) (ps k) (qs k) Hl ltac:(nra) E1 E2) as [D1 D2].
      (* the certificate is the best field for xs *)
      assert (Dx : right_diff us k = right_diff xs k / r) by (unfold right_diff, us; field; lra).
      assert (Dy : down_diff g us k = down_diff g xs k / r) by (unfold down_diff, us; field; lra).
      assert (M : (px_ (run (S n)) k - ps k) * right_diff us k + (py_ (run (S n)) k - qs k) * down_diff g us k <= 0).
      { rewrite Dx, Dy. set (X := right_diff xs k) in *. set (Y := down_diff g xs k) in *. set (P := px_ (run (S n)) k) in *. set (Q := py_ (run (S n)) k) in *.
        replace ((P - ps k) * (X / r) + (Q - qs k) * (Y / r)) with ((P * X + Q * Y - (ps k * X + qs k * Y)) / r) by (field; lra). rewrite B2.
        assert (P * X + Q * Y <= lambda * sqrt (X ^ 2 + Y ^ 2)).
        { destruct (Rle_dec 0 (P * X + Q * Y)); [|pose proof (sqrt_pos (X ^ 2 + Y ^ 2)); nra]. apply Rsqr_incr_0_var; [|pose proof (sqrt_pos (X ^ 2 + Y ^ 2)); nra].
          unfold Rsqr. replace (lambda * sqrt (X ^ 2 + Y ^ 2) * (lambda * sqrt (X ^ 2 + Y ^ 2))) with (lambda * lambda * (sqrt (X ^ 2 + Y ^ 2) * sqrt (X ^ 2 + Y ^ 2))) by ring.
          rewrite sqrt_sqrt by nra. assert (0 <= (P * Y - Q * X) * (P * Y - Q * X)) by apply Rle_0_sqr. assert ((P * P + Q * Q) * (X ^ 2 + Y ^ 2) <= lambda * lambda * (X ^ 2 + Y ^ 2)) by (apply Rmult_le_compat_r; nra). nra. }
        assert (0 < / r) by now apply Rinv_0_lt_compat. unfold Rdiv. nra. }
      assert (tv_c = 35 / 100) by reflexivity.
      replace ((px_ (run (S n)) k - px_ (run n) k - tv_c * (right_diff (st_xb (run n)) k - right_diff us k)) * (px_ (run (S n)) k - ps k) +
               (py_ (run (S n)) k - py_ (run n) k - tv_c * (down_diff g (st_xb (run n)) k - down_diff g us k)) * (py_ (run (S n)) k - qs k))
        with (((px_ (run (S n)) k - a) * (px_ (run (S n)) k - ps k) + (py_ (run (S n)) k - b) * (py_ (run (S n)) k - qs k)) + tv_c * ((px_ (run (S n)) k - ps k) * right_diff us k + (py_ (run (S n)) k - qs k) * down_diff g us k)) by (unfold a, b; ring).
      assert (0 < tv_c) by (unfold tv_c; lra). nra.
    - unfold T2. apply Rle_trans with (lsum (fun _ => 0) (pairs g)); [|rewrite lsum_null; lra]. apply lsum_le. intros pd _. rewrite !EX, !fwd_ray. unfold y_, ys. cbn [dual].
      pose proof (rs_fwd pd) as E. rewrite run_q. unfold nq. fold N r. set (F := r * fwd N (Rw g s) (st_xb (run n)) pd). set (q := q_ (run n) pd). set (B := bb g data s pd) in *. set (G := r * fwd N (Rw g s) us pd) in *.
      assert (Ec : tv_c = 35 / 100) by reflexivity. set (q' := (q + tv_c * F - tv_c * B) / (1 + tv_c)).
      assert (Eq : q' - q - tv_c * (F - G) = - tv_c * (q' - (G - B))) by (unfold q'; rewrite Ec; field). rewrite Eq, E.
      assert (0 <= (q' - (G - B)) * (q' - (G - B))) by apply Rle_0_sqr. assert (0 < tv_c) by (rewrite Ec; lra). nra.
  Qed.
  Variable th : R.
  Hypothesis Hth : 0 < th < 1.
  Hypothesis Hshort : short_step g s th.
  Lemma run_short v : tv_c * tv_c * lprod rows (fwd N wk v) (fwd N wk v) <= th * th * prod N v v.
  Proof.
    specialize (Hshort v). rewrite cell_total_sum in Hshort. rewrite (total_pairs g (fun p d => ray_sum (rays g s p d) v ^ 2)) in Hshort. rewrite unit_r in Hshort.
    unfold lprod. rewrite rows_sum. replace (th * th) with (th ^ 2) by ring. replace (tv_c * tv_c) with ((35 / 100) ^ 2) by (unfold tv_c; ring).
    rewrite (lsum_ext (fun k => fwd N wk v (inl (true, k)) * fwd N wk v (inl (true, k)) + fwd N wk v (inl (false, k)) * fwd N wk v (inl (false, k))) (fun k => right_diff v k ^ 2 + down_diff g v k ^ 2)) by (intros k Hk; rewrite fwd_true, fwd_false by auto; ring).
    rewrite (lsum_ext (fun pd => fwd N wk v (inr pd) * fwd N wk v (inr pd)) (fun pd => r ^ 2 * ray_sum (rays g s (fst pd) (snd pd)) v ^ 2)) by (intros (p, d) _; rewrite fwd_ray, ray_sum_fwd by auto; fold N; cbn [fst snd]; ring).
    rewrite lsum_scal. unfold prod. rewrite (zsum_ext N (fun j => v j * v j) (fun j => v j ^ 2)) by (intros; ring). exact Hshort.
  Qed.
  Definition energy : R := distance2 g X0 xs + unit_of g ^ 2 * (cell_total g (fun k => ps k ^ 2 + qs k ^ 2) + misfit g data s xs).
  Lemma energy_eq : r ^ 2 * start_energy N rows us ys (fun n => u_ (run n)) = energy.
  Proof.
    pose proof r0 as Hr. unfold start_energy, energy. rewrite unit_r. rewrite Rmult_plus_distr_l. f_equal.
    - rewrite distance2_prod. rewrite (prod_ext N (fun j => u_ (run 0) j - us j) (fun j => u_ (run 0) j - us j) (fun j => / r * (X0 j - xs j)) (fun j => / r * (X0 j - xs j))) by (intros; cbn; unfold us; field; lra).
      rewrite prod_scal_l, prod_scal_r. fold N. field. lra.
    - f_equal. unfold lprod. rewrite rows_sum. rewrite cell_total_sum, misfit_objective by auto. f_equal; [apply lsum_ext; intros; unfold ys; cbn [dual]; ring|].
      unfold objective, lprod. apply lsum_ext. intros (p, d) _. unfold ys. cbn [dual]. unfold residual, rs, bb. cbn [fst snd]. rewrite ray_sum_fwd by auto. reflexivity.
  Qed.
  Lemma tv_bounded n : (1 - th) * distance2 g (fun j => r * st_xb (run n) j) xs <= 10 * energy.
  Proof.
    pose proof r0 as Hr.
    assert (B := extra_bound N rows wk tv_c us ys ys_zero th Hth run_short (fun n => u_ (run n)) y_).
    specialize (B ltac:(intros [(b, k)|pd] _; [destruct b; reflexivity|reflexivity]) run_u run_dual n).
    rewrite distance2_prod. rewrite (prod_ext (npix g) (fun j => r * st_xb (run n) j - xs j) (fun j => r * st_xb (run n) j - xs j) (fun j => r * (extra (fun n => u_ (run n)) n j - us j)) (fun j => r * (extra (fun n => u_ (run n)) n j - us j))) by (intros; unfold extra; rewrite <- run_bar; unfold us; field; lra).
    rewrite prod_scal_l, prod_scal_r. rewrite <- energy_eq. fold N.
    replace ((1 - th) * (r * (r * prod N (fun j => extra (fun n => u_ (run n)) n j - us j) (fun j => extra (fun n => u_ (run n)) n j - us j)))) with (r ^ 2 * ((1 - th) * prod N (fun j => extra (fun n => u_ (run n)) n j - us j) (fun j => extra (fun n => u_ (run n)) n j - us j))) by ring.
    replace (10 * (r ^ 2 * start_energy N rows us ys (fun n => u_ (run n)))) with (r ^ 2 * (10 * start_energy N rows us ys (fun n => u_ (run n)))) by ring.
    apply Rmult_le_compat_l; [nra|exact B].
  Qed.
  Lemma tv_settles n : (1 - th) * rsum (map (fun k => distance2 g (fun j => r * st_xb (run (S k)) j) (fun j => r * st_xb (run k) j)) (seq 0 n)) <= 10 * energy.
  Proof.
    pose proof r0 as Hr.
    assert (B := extra_moves N rows wk tv_c us ys ys_zero th Hth run_short (fun n => u_ (run n)) y_).
    specialize (B ltac:(intros [(b, k)|pd] _; [destruct b; reflexivity|reflexivity]) run_u run_dual n).
    assert (E : forall l, rsum (map (fun k => distance2 g (fun j => r * st_xb (run (S k)) j) (fun j => r * st_xb (run k) j)) l)
      = r ^ 2 * fold_right Rplus 0 (map (fun k => prod N (fun j => extra (fun n => u_ (run n)) (S k) j - extra (fun n => u_ (run n)) k j) (fun j => extra (fun n => u_ (run n)) (S k) j - extra (fun n => u_ (run n)) k j)) l)).
    { induction l as [|k l IH]; cbn [map rsum fold_right]; [ring|]. unfold rsum in IH. rewrite IH. rewrite distance2_prod.
      rewrite (prod_ext (npix g) (fun j => r * st_xb (run (S k)) j - r * st_xb (run k) j) (fun j => r * st_xb (run (S k)) j - r * st_xb (run k) j)
        (fun j => r * (extra (fun n => u_ (run n)) (S k) j - extra (fun n => u_ (run n)) k j)) (fun j => r * (extra (fun n => u_ (run n)) (S k) j - extra (fun n => u_ (run n)) k j))) by (intros; unfold extra at 1 2; rewrite <- !run_bar; ring).
      rewrite prod_scal_l, prod_scal_r. fold N. ring. }
    rewrite E, <- energy_eq.
    match goal with |- (1 - th) * (r ^ 2 * ?x) <= 10 * (r ^ 2 * ?y) => replace ((1 - th) * (r ^ 2 * x)) with (r ^ 2 * ((1 - th) * x)) by ring; replace (10 * (r ^ 2 * y)) with (r ^ 2 * (10 * y)) by ring end.
    apply Rmult_le_compat_l; [nra|exact B].
  Qed.
End Work.
