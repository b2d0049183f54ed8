(** The conjugate gradient loop of remove_stripe_ti ends within as many iterations as there are pixels. *)
From Verif Require Import Base Model_Prep Model_Solver Model_Ospml Proofs_Prep Proofs_Morph Proofs_Solver Model_StripeTi Proofs_StripeTi.
From Coq Require Import Reals Lra.
Local Open Scope R_scope.

Definition dot (n : Z) (a b : Z -> R) : R := zsum n (fun k => a k * b k).
Definition lin (s : R) (a : Z -> R) (t : R) (b : Z -> R) : Z -> R := fun k => s * a k + t * b k.
Lemma dot_comm n a b : dot n a b = dot n b a.
Proof. apply zsum_ext. intros. lra. Qed.
Lemma dot_lin n v s a t b : dot n v (lin s a t b) = s * dot n v a + t * dot n v b.
Proof. unfold dot, lin. rewrite <- !zsum_scal, <- zsum_plus. apply zsum_ext. intros. lra. Qed.
Lemma lin_dot n v s a t b : dot n (lin s a t b) v = s * dot n a v + t * dot n b v.
Proof. rewrite dot_comm, dot_lin, !(dot_comm n v). reflexivity. Qed.
Lemma dot_ext n a a' b b' : (forall k, (0 <= k < n)%Z -> a k = a' k) -> (forall k, (0 <= k < n)%Z -> b k = b' k) -> dot n a b = dot n a' b'.
Proof. intros H G. apply zsum_ext. intros k Hk. now rewrite H, G. Qed.
Lemma dot_pos n a : 0 <= dot n a a.
Proof. apply zsum_nonneg. intros. apply Rle_0_sqr. Qed.
Lemma dot_fin n a a' b b' : fin n a a' -> fin n b b' -> ndot n a b = Some (dot n a' b').
Proof. intros H G. apply nsum_fin. intros k Hk. now rewrite (H k Hk), (G k Hk). Qed.

(** Bessel's inequality, and the number of pairwise orthogonal vectors. *)
Definition unit_ (k : Z) : Z -> R := fun i => if (i =? k)%Z then 1 else 0.
Inductive orthogonal (n : Z) : list (Z -> R) -> Prop :=
| orth_nil : orthogonal n []
| orth_cons : forall r l, dot n r r <> 0 -> (forall q, In q l -> dot n r q = 0) -> orthogonal n l -> orthogonal n (r :: l).
Lemma bessel n l : orthogonal n l -> forall v, rsum (map (fun r => dot n v r * dot n v r / dot n r r) l) <= dot n v v.
Proof.
  induction 1 as [|r l Hr Ho O IH]; intros v; cbn; [apply dot_pos|].
  set (c := dot n v r / dot n r r). specialize (IH (lin 1 v (- c) r)).
  assert (E : map (fun q => dot n (lin 1 v (- c) r) q * dot n (lin 1 v (- c) r) q / dot n q q) l = map (fun q => dot n v q * dot n v q / dot n q q) l).
  { apply map_ext_in. intros q Hq. rewrite lin_dot, (Ho q Hq). f_equal. lra. }
  rewrite E in IH. rewrite lin_dot, !dot_lin in IH. rewrite (dot_comm n r v) in IH. unfold rsum in *.
  assert (K : 1 * (1 * dot n v v + - c * dot n v r) + - c * (1 * dot n v r + - c * dot n r r) = dot n v v - dot n v r * dot n v r / dot n r r) by (unfold c; field; auto).
  rewrite K in IH. lra.
Qed.
Lemma dot_unit n k v : (0 <= k < n)%Z -> dot n (unit_ k) v = v k.
Proof.
  intros Hk. unfold dot. rewrite <- (zsum_single n k (v k) Hk). apply zsum_ext. intros i Hi. unfold unit_.
  destruct (Z.eqb_spec i k) as [->|]; lra.
Qed.
Lemma zsum_rsum n (l : list (Z -> R)) (g : (Z -> R) -> Z -> R) : zsum n (fun k => rsum (map (fun r => g r k) l)) = rsum (map (fun r => zsum n (g r)) l).
Proof.
  induction l as [|r l IH]; cbn; [now apply zsum_zero|]. unfold rsum in *. cbn. rewrite zsum_plus. now rewrite IH.
Qed.
Lemma zsum_ones n : (0 <= n)%Z -> zsum n (fun _ => 1) = IZR n.
Proof.
  intros H. rewrite <- (Z2Nat.id n) by lia. clear. induction (Z.to_nat n) as [|m IH]; [apply zsum_0; lia|].
  replace (Z.of_nat (S m)) with (Z.of_nat m + 1)%Z by lia. rewrite zsum_S, IH, plus_IZR by lia. reflexivity.
Qed.
Lemma orthogonal_length n l : (0 <= n)%Z -> orthogonal n l -> (Z.of_nat (length l) <= n)%Z.
Proof.
  intros Hn O. apply le_IZR. rewrite <- (zsum_ones n Hn).
  assert (E : IZR (Z.of_nat (length l)) = zsum n (fun k => rsum (map (fun r => r k * r k / dot n r r) l))).
  { rewrite (zsum_rsum n l (fun r k => r k * r k / dot n r r)). clear Hn. induction O as [|r l Hr Ho O IH]; [reflexivity|].
    cbn [length map]. rewrite Nat2Z.inj_succ, succ_IZR, IH. unfold rsum. cbn [fold_right]. rewrite Rplus_comm. f_equal.
    rewrite (zsum_ext n _ (fun k => / dot n r r * (r k * r k))) by (intros; unfold Rdiv; lra). rewrite zsum_scal.
    change (zsum n (fun k => r k * r k)) with (dot n r r). field. auto. }
  rewrite E. apply zsum_le. intros k Hk. pose proof (bessel n l O (unit_ k)) as B. rewrite dot_unit in B by auto.
  unfold unit_ in B at 3. rewrite Z.eqb_refl in B. erewrite map_ext; [exact B|]. intros r. cbv beta. now rewrite dot_unit.
Qed.

Section Cg.
  Variable h : list R.
  Variable n : Z.
  Hypothesis Hl : (1 <= Z.of_nat (length h) <= n)%Z.
  Variable al : R.
  Hypothesis Hal : 0 < al.
  Definition A (x : Z -> R) : Z -> R := fun k => normal h n x k + al * x k.
  Lemma A_sym a b : dot n (A a) b = dot n a (A b).
  Proof.
    assert (E : forall a b, dot n (A a) b = zsum n (fun k => normal h n a k * b k) + al * dot n a b).
    { intros x y. unfold dot, A. rewrite <- zsum_scal, <- zsum_plus. apply zsum_ext. intros. lra. }
    rewrite (dot_comm n a (A b)), !E, <- !normal_adjoint, (dot_comm n b a). f_equal. apply zsum_ext. intros. lra.
  Qed.
  Lemma A_lower a : al * dot n a a <= dot n a (A a).
  Proof.
    rewrite (dot_comm n a (A a)). assert (E : dot n (A a) a = zsum n (fun k => normal h n a k * a k) + al * dot n a a).
    { unfold dot, A. rewrite <- zsum_scal, <- zsum_plus. apply zsum_ext. intros. lra. }
    rewrite E, <- normal_adjoint. assert (0 <= zsum (n - (Z.of_nat (length h) - 1)) (fun i => diff h n a i * diff h n a i)) by (apply zsum_nonneg; intros; apply Rle_0_sqr). lra.
  Qed.
  Lemma op_fin x x' : fin n x x' -> fin n (op h n (Some al) x) (A x').
  Proof. intros H k Hk. unfold op, vadd, vscale. rewrite (matxvec_fin h n x x' H), (H k Hk). reflexivity. Qed.

  Definition perp (v : Z -> R) (l : list (Z -> R)) : Prop := forall d, In d l -> dot n v d = 0.
  (** Past residuals [Rs] and directions [D], current residual [r] and direction [w]. *)
  Record conj (Rs D : list (Z -> R)) (r w : Z -> R) : Prop := {
    c_res : perp r D;
    c_dir : forall d, In d D -> dot n w (A d) = 0;
    c_span : forall d v, In d D -> perp v (w :: D) -> dot n v (A d) = 0;
    c_r : forall v, perp v (w :: D) -> dot n v r = 0;
    c_len : dot n r w = - dot n r r;
    c_past : forall q v, In q Rs -> perp v (w :: D) -> dot n v q = 0;
    c_orth : orthogonal n (r :: Rs) }.
  Lemma conj_curvature Rs D r w : conj Rs D r w -> 0 < dot n w (A w).
  Proof.
    intros C. pose proof (A_lower w) as L. pose proof (dot_pos n w) as P.
    assert (N : dot n r r <> 0) by (pose proof (c_orth _ _ _ _ C) as O; now inversion O).
    assert (W : dot n w w <> 0).
    { intros W. apply N. assert (dot n r w = 0); [|pose proof (c_len _ _ _ _ C); lra].
      (* Cauchy-Schwarz for a vector of length zero *)
      assert (G : forall t, 0 <= dot n r r + 2 * t * dot n r w).
      { intros t. pose proof (dot_pos n (lin 1 r t w)) as Q. rewrite lin_dot, !dot_lin, W, (dot_comm n w r) in Q. lra. }
      destruct (Req_dec (dot n r w) 0) as [|Nz]; auto. exfalso. specialize (G (- (dot n r r + 1) / (2 * dot n r w))).
      assert (E : 2 * (- (dot n r r + 1) / (2 * dot n r w)) * dot n r w = - (dot n r r + 1)) by (field; auto). rewrite E in G. lra. }
    assert (0 < al * dot n w w) by (apply Rmult_lt_0_compat; lra). lra.
  Qed.
  Lemma conj_step Rs D r w a B r' w' : conj Rs D r w ->
    a = dot n r w / dot n w (A w) -> r' = lin 1 r (- a) (A w) -> dot n r' r' <> 0 ->
    B = dot n r' (A w) / dot n w (A w) -> w' = lin (-1) r' B w ->
    conj (r :: Rs) (w :: D) r' w'.
  Proof.
    intros C Ea Er Nz EB Ew. pose proof (conj_curvature _ _ _ _ C) as K.
    assert (N : dot n r r <> 0) by (pose proof (c_orth _ _ _ _ C) as O; now inversion O).
    assert (Na : a <> 0).
    { rewrite Ea, (c_len _ _ _ _ C). intros E. apply N. apply (f_equal (fun t => t * dot n w (A w))) in E. field_simplify in E; lra. }
    assert (P' : perp r' (w :: D)).
    { intros d [<-|Hd]; rewrite Er, lin_dot.
      - rewrite A_sym, Ea. field. lra.
      - rewrite (c_res _ _ _ _ C d Hd), A_sym, (c_dir _ _ _ _ C d Hd). lra. }
    assert (R' : forall v, perp v (w' :: w :: D) -> dot n v r' = 0).
    { intros v Hv. pose proof (Hv w' (or_introl eq_refl)) as H1. pose proof (Hv w (or_intror (or_introl eq_refl))) as H2.
      rewrite Ew, dot_lin, H2 in H1. lra. }
    assert (T : forall v, perp v (w' :: w :: D) -> perp v (w :: D)) by (intros v Hv d Hd; apply Hv; now right).
    constructor; auto.
    - intros d [<-|Hd]; rewrite Ew, lin_dot.
      + rewrite EB. field. lra.
      + rewrite (c_span _ _ _ _ C d r' Hd P'), (c_dir _ _ _ _ C d Hd). lra.
    - intros d v [<-|Hd] Hv; [|now apply (c_span _ _ _ _ C); auto].
      pose proof (R' v Hv) as H1. rewrite Er, dot_lin, (c_r _ _ _ _ C v (T v Hv)) in H1.
      apply (Rmult_eq_reg_l (- a)); [|lra]. rewrite Rmult_0_r. rewrite <- H1. ring.
    - rewrite Ew, dot_lin, (P' w (or_introl eq_refl)). lra.
    - intros q v [<-|Hq] Hv; [apply (c_r _ _ _ _ C); auto|apply (c_past _ _ _ _ C); auto].
    - constructor; auto; [|apply (c_orth _ _ _ _ C)].
      intros q [<-|Hq]; [apply (c_r _ _ _ _ C); auto|apply (c_past _ _ _ _ C); auto].
  Qed.

  (** A state of the loop that holds these vectors. *)
  Definition holds (s : cg) (r w : Z -> R) : Prop :=
    fin n (cr s) r /\ fin n (cw s) w /\ fin n (cz s) (A w) /\ ca s = Some (dot n r w / dot n w (A w)) /\ exists x, fin n (cx s) x.
  Lemma loop_ends : forall fuel s Rs D r w, holds s r w -> conj Rs D r w -> (n <= Z.of_nat (fuel + length Rs))%Z ->
    snd (cg_loop h n (Some al) fuel s) = true.
  Proof.
    induction fuel as [|fuel IH]; intros s Rs D r w (Hr & Hw & Hz & Ha & x & Hx) C Hf.
    { pose proof (orthogonal_length n _ ltac:(lia) (c_orth _ _ _ _ C)) as L. cbn [length] in L. lia. }
    pose proof (conj_curvature _ _ _ _ C) as K.
    set (a := dot n r w / dot n w (A w)) in *. set (r' := lin 1 r (- a) (A w)).
    assert (Hr' : fin n (vsub (cr s) (vscale (ca s) (cz s))) r').
    { intros k Hk. unfold vsub, vscale. rewrite (Hr k Hk), Ha, (Hz k Hk). cbn. f_equal. unfold r', lin. lra. }
    cbn [cg_loop]. destruct (small_norm n (vsub (cr s) (vscale (ca s) (cz s)))) eqn:S; [reflexivity|].
    assert (Nz : dot n r' r' <> 0).
    { intros E. unfold small_norm in S. rewrite (dot_fin n _ r' _ r' Hr' Hr'), E, sqrt_0 in S. apply rltb_false in S. lra. }
    set (B := dot n r' (A w) / dot n w (A w)). set (w' := lin (-1) r' B w).
    pose proof (conj_step Rs D r w a B r' w' C eq_refl eq_refl Nz eq_refl eq_refl) as C'.
    pose proof (conj_curvature _ _ _ _ C') as K'.
    assert (HB : ndiv (ndot n (vsub (cr s) (vscale (ca s) (cz s))) (cz s)) (ndot n (cw s) (cz s)) = Some B).
    { rewrite (dot_fin n _ r' _ (A w) Hr' Hz), (dot_fin n _ w _ (A w) Hw Hz). unfold ndiv. destruct (Req_EM_T (dot n w (A w)) 0); [lra|reflexivity]. }
    assert (Hw' : fin n (vadd (vneg (vsub (cr s) (vscale (ca s) (cz s)))) (vscale (Some B) (cw s))) w').
    { intros k Hk. unfold vadd at 1, vneg, vscale at 2. rewrite (Hr' k Hk), (Hw k Hk). reflexivity. }
    rewrite HB. apply (IH _ (r :: Rs) (w :: D) r' w'); auto; [|cbn [length]; lia].
    pose proof (op_fin _ _ Hw') as Hz'. split; [exact Hr'|]. split; [exact Hw'|]. split; [exact Hz'|]. cbn [ca cx].
    assert (Ha' : ndiv (ndot n (vsub (cr s) (vscale (ca s) (cz s))) (vadd (vneg (vsub (cr s) (vscale (ca s) (cz s)))) (vscale (Some B) (cw s))))
      (ndot n (vadd (vneg (vsub (cr s) (vscale (ca s) (cz s)))) (vscale (Some B) (cw s))) (op h n (Some al) (vadd (vneg (vsub (cr s) (vscale (ca s) (cz s)))) (vscale (Some B) (cw s))))) = Some (dot n r' w' / dot n w' (A w'))).
    { rewrite (dot_fin n _ r' _ w' Hr' Hw'), (dot_fin n _ w' _ (A w') Hw' Hz'). unfold ndiv. destruct (Req_EM_T (dot n w' (A w')) 0); [lra|reflexivity]. }
    split; [exact Ha'|]. rewrite Ha'. exists (fun k => x k + dot n r' w' / dot n w' (A w') * w' k).
    intros k Hk. unfold vadd at 1, vscale at 1. rewrite (Hx k Hk), (Hw' k Hk). reflexivity.
  Qed.
  Lemma start_holds f f' : fin n f f' -> dot n f' f' <> 0 -> exists r w, holds (cg_start h n (Some al) f) r w /\ conj [] [] r w.
  Proof.
    intros Hf Nz. set (w := lin (-1) f' 0 f'). exists f', w.
    assert (Hr : fin n (vsub f (op h n (Some al) (fun _ => Some 0))) f').
    { intros k Hk. unfold vsub. rewrite (Hf k Hk), (op_fin (fun _ => Some 0) (fun _ => 0) (fun _ _ => eq_refl) k Hk). cbn. f_equal. unfold A. rewrite normal_zero by auto. lra. }
    assert (Hw : fin n (vneg (vsub f (op h n (Some al) (fun _ => Some 0)))) w).
    { intros k Hk. unfold vneg. rewrite (Hr k Hk). cbn. f_equal. unfold w, lin. lra. }
    assert (C : conj [] [] f' w).
    { constructor; try (intros; contradiction); try now intros ? [].
      - intros v Hv. pose proof (Hv w (or_introl eq_refl)) as E. unfold w in E. rewrite dot_lin in E. lra.
      - unfold w. rewrite dot_lin. lra.
      - constructor; [assumption|intros ? []|constructor]. }
    split; auto. pose proof (conj_curvature _ _ _ _ C) as K. pose proof (op_fin _ _ Hw) as Hz. unfold cg_start. cbv zeta. unfold holds. cbn [cr cw cz ca cx].
    assert (Ha : ndiv (ndot n (vsub f (op h n (Some al) (fun _ => Some 0))) (vneg (vsub f (op h n (Some al) (fun _ => Some 0)))))
      (ndot n (vneg (vsub f (op h n (Some al) (fun _ => Some 0)))) (op h n (Some al) (vneg (vsub f (op h n (Some al) (fun _ => Some 0)))))) = Some (dot n f' w / dot n w (A w))).
    { rewrite (dot_fin n _ f' _ w Hr Hw), (dot_fin n _ w _ (A w) Hw Hz). unfold ndiv. destruct (Req_EM_T (dot n w (A w)) 0); [lra|reflexivity]. }
    repeat (split; [assumption|]). rewrite Ha. exists (fun k => 0 + dot n f' w / dot n w (A w) * w k).
    intros k Hk. unfold vadd at 1, vscale at 1. rewrite (Hw k Hk). reflexivity.
  Qed.
  Lemma cg_terminates f f' fuel : fin n f f' -> (exists k, (0 <= k < n)%Z /\ f' k <> 0) -> (n <= Z.of_nat fuel)%Z ->
    snd (cg_loop h n (Some al) fuel (cg_start h n (Some al) f)) = true.
  Proof.
    intros Hf (k & Hk & N) Hfu. assert (Nz : dot n f' f' <> 0).
    { intros E.
      assert (G : f' k * f' k <= dot n f' f').
      { rewrite <- (zsum_single n k (f' k * f' k) Hk). apply zsum_le. intros i Hi.
        pose proof (Rle_0_sqr (f' i)) as P. unfold Rsqr in P. destruct (Z.eqb_spec i k) as [->|]; lra. }
      pose proof (Rsqr_pos_lt (f' k) N) as P. unfold Rsqr in P. lra. }
    destruct (start_holds f f' Hf Nz) as (r & w & H & C). apply (loop_ends fuel _ [] [] r w H C). cbn. lia.
  Qed.
End Cg.
