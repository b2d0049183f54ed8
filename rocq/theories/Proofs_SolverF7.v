From Verif Require Import Base Order CLoop Model_Ray Proofs_Ray Model_RayF Model_SolverF Spec_SolverF Proofs_FloatB Proofs_RayF Proofs_RayF2 Proofs_RayF3 Proofs_RayF4 Proofs_SolverF Proofs_SolverF2 Proofs_SolverF3 Proofs_SolverF6.
From Coq Require Import Reals Lra Psatz.
From Flocq Require Import Core BinarySingleNaN.
Local Open Scope R_scope.

(** ** Rounding errors of sums of products *)
Definition unit_ : R := / 16777216.
Lemma rep_bpow k : (-149 <= k)%Z -> rep (bpow radix2 k).
Proof. intros H. apply generic_format_bpow. rewrite fexp_is. unfold FLT_exp. lia. Qed.
Lemma absR_pos l : 0 <= absR l.
Proof. induction l as [|(x & w) l IH]; cbn; [lra|]. pose proof (Rabs_pos (B2R x * B2R w)). lra. Qed.
Definition cap : R := bpow radix2 120.
Lemma cap_big : 1 <= cap. Proof. unfold cap. change 1 with (bpow radix2 0). apply bpow_le. lia. Qed.
Lemma cap_huge : bpow radix2 121 < huge. Proof. apply bpow_lt. lia. Qed.
Lemma cap2 : bpow radix2 121 = 2 * cap. Proof. unfold cap. change 121%Z with (1 + 120)%Z. rewrite bpow_plus. reflexivity. Qed.
Lemma bpow_pow n : bpow radix2 (Z.of_nat n) = 2 ^ n.
Proof. induction n as [|n IH]; [reflexivity|]. rewrite Nat2Z.inj_succ, <- Z.add_1_l, bpow_plus, IH. reflexivity. Qed.
Lemma cap_pow : cap = 2 ^ 120. Proof. apply (bpow_pow 120). Qed.
Lemma bound_pow n S : / 8388608 * (n + 1) * S + 4 * n * eta = (n + 1) / 2 ^ 23 * S + n / 2 ^ 148.
Proof.
  assert (E : eta = / 2 ^ 150) by (unfold eta; change (-150)%Z with (- Z.of_nat 150)%Z; now rewrite bpow_opp, bpow_pow). rewrite E. replace 150%nat with (2 + 148)%nat by reflexivity. rewrite pow_add.
  assert (2 ^ 148 <> 0) by (apply pow_nonzero; lra). set (x := 2 ^ 148) in *. clearbody x. replace (2 ^ 23) with 8388608 by (simpl; ring). replace (2 ^ 2) with 4 by (simpl; ring). field. auto.
Qed.
(** One step: a computed value [a] with error at most c S + d *)
Lemma step a x w s S k : fin a = true -> fin x = true -> fin w = true -> 0 <= k <= 1000000 -> Rabs s <= S -> S + Rabs (V x * V w) <= cap ->
  Rabs (V a - s) <= 2 * unit_ * (k + 1) * S + 4 * k * eta ->
  fin (fadd a (fmul x w)) = true /\ Rabs (V (fadd a (fmul x w)) - (s + V x * V w)) <= 2 * unit_ * (k + 2) * (S + Rabs (V x * V w)) + 4 * (k + 1) * eta.
Proof.
  intros Fa Fx Fw Hk Hs Hc He. pose proof eta_small as Et. pose proof cap_big as Cb. set (t := V x * V w) in *. pose proof (Rabs_pos t) as Pt. pose proof (Rabs_pos s) as Ps.
  destruct (fmul_ok x w cap Fx Fw (rep_bpow 120 ltac:(lia)) ltac:(fold t; lra)) as (Fm & Em); [apply bpow_lt; lia|]. fold t in Em. pose proof (rd_rel t) as Rt. fold eta in Rt. change (/ 16777216) with unit_ in Rt. rewrite <- Em in Rt. set (m := V (fmul x w)) in *.
  assert (U : unit_ = / 16777216) by reflexivity. assert (KS : 2 * unit_ * (k + 1) * S <= / 8 * S) by (apply Rmult_le_compat_r; [lra|rewrite U; lra]). assert (Ke : 4 * k * eta <= / 8) by nra.
  apply abs_inv in He, Rt, Hs. assert (Ba : - (9 / 8 * S + / 8) <= V a <= 9 / 8 * S + / 8) by lra. assert (Bm : - (9 / 8 * Rabs t + / 8) <= m <= 9 / 8 * Rabs t + / 8).
  { pose proof (abs_inv t (Rabs t) (Rle_refl _)). rewrite U in Rt. lra. }
  destruct (fadd_ok a (fmul x w) (bpow radix2 121) Fa Fm (rep_bpow 121 ltac:(lia))) as (F & E); [fold m; rewrite cap2; apply Rabs_le; lra|apply cap_huge|]. split; auto. fold m in E. rewrite E. clear E F Em Fm Fa Fx Fw.
  pose proof (rd_rel (V a + m)) as Ra. fold eta in Ra. change (/ 16777216) with unit_ in Ra. set (y := rd (V a + m)) in *. clearbody y.
  assert (Bam : Rabs (V a + m) <= S + (2 * unit_ * (k + 1) * S + 4 * k * eta) + Rabs t + unit_ * Rabs t + eta).
  { pose proof (abs_inv t (Rabs t) (Rle_refl _)). apply Rabs_le. lra. }
  apply abs_inv in Ra. assert (Ub : unit_ * Rabs (V a + m) <= unit_ * (S + (2 * unit_ * (k + 1) * S + 4 * k * eta) + Rabs t + unit_ * Rabs t + eta)) by (apply Rmult_le_compat_l; [rewrite U; lra|exact Bam]).
  assert (PS : 0 <= S) by lra. assert (K1 : unit_ * (2 * unit_ * (k + 1) * S) <= unit_ * S).
  { apply Rmult_le_compat_l; [rewrite U; lra|]. lra. }
  assert (K2 : unit_ * (4 * k * eta) <= / 2 * eta). { rewrite U. nra. }
  assert (K3 : 2 * unit_ * (k + 2) * (S + Rabs t) = 2 * unit_ * (k + 1) * S + 2 * unit_ * S + 2 * unit_ * (k + 2) * Rabs t) by ring.
  assert (K4 : 2 * unit_ * 2 * Rabs t <= 2 * unit_ * (k + 2) * Rabs t) by (apply Rmult_le_compat_r; [lra|rewrite U; lra]).
  assert (K5 : unit_ * (unit_ * Rabs t) <= unit_ * Rabs t) by (rewrite U; lra). assert (K6 : unit_ * eta <= / 2 * eta) by (rewrite U; lra).
  apply Rabs_le. lra.
Qed.
Lemma dot_step l : forall a s S k, fin a = true -> (forall x w, In (x, w) l -> fin x = true /\ fin w = true) -> (0 <= k)%Z -> (k + Z.of_nat (length l) <= 1000000)%Z -> Rabs s <= S -> S + absR l <= cap ->
  Rabs (V a - s) <= 2 * unit_ * (IZR k + 1) * S + 4 * IZR k * eta ->
  fin (dotF a l) = true /\ Rabs (V (dotF a l) - (s + dotR l)) <= 2 * unit_ * (IZR k + INR (length l) + 1) * (S + absR l) + 4 * (IZR k + INR (length l)) * eta.
Proof.
  induction l as [|(x & w) l IH]; intros a s S k Fa Fl K0 Kl Hs Hc He.
  - cbn in *. split; auto. rewrite !Rplus_0_r. exact He.
  - cbn [dotR absR] in *. destruct (Fl x w (or_introl eq_refl)) as (Fx & Fw). pose proof (absR_pos l) as Pl. change (length ((x, w) :: l)) with (Datatypes.S (length l)) in *. rewrite Nat2Z.inj_succ in Kl.
    destruct (step a x w s S (IZR k) Fa Fx Fw) as (F & E); auto; [split; apply IZR_le; lia|lra|].
    destruct (IH (fadd a (fmul x w)) (s + V x * V w) (S + Rabs (V x * V w)) (k + 1)%Z F) as (F' & E'); auto.
    + intros x' w' H'. apply Fl. now right.
    + lia.
    + lia.
    + apply Rle_trans with (1 := Rabs_triang _ _). lra.
    + lra.
    + rewrite plus_IZR. replace (IZR k + 1 + 1) with (IZR k + 2) by ring. exact E.
    + unfold dotF at 1 2. cbn [fold_left]. fold (dotF (fadd a (fmul x w)) l). split; auto. rewrite S_INR. rewrite plus_IZR in E'. replace (s + (V x * V w + dotR l)) with (s + V x * V w + dotR l) by ring. eapply Rle_trans; [exact E'|]. right. ring.
Qed.
Theorem dot_error a l : fin a = true -> (forall x w, In (x, w) l -> fin x = true /\ fin w = true) -> (Z.of_nat (length l) <= 1000000)%Z -> Rabs (V a) + absR l <= cap ->
  fin (dotF a l) = true /\ Rabs (V (dotF a l) - (V a + dotR l)) <= / 8388608 * (INR (length l) + 1) * (Rabs (V a) + absR l) + 4 * INR (length l) * eta.
Proof.
  intros Fa Fl Hl Hc. destruct (dot_step l a (V a) (Rabs (V a)) 0 Fa Fl ltac:(lia) ltac:(lia) (Rle_refl _) Hc) as (F & E).
  - replace (V a - V a) with 0 by ring. rewrite Rabs_R0. pose proof (Rabs_pos (V a)). unfold unit_. pose proof eta_small. nra.
  - split; auto. eapply Rle_trans; [exact E|]. unfold unit_. right. field.
Qed.
(** ** Lengths are finite *)
Lemma traced_fin g buf q cx cy za zb zc segs i w : (1 <= gxF g <= 2 ^ 15)%Z -> (1 <= gyF g <= 2 ^ 15)%Z -> traced_of g buf (traceF (gxF g) (gyF g) q cx cy za zb zc) = Some segs -> In (i, w) segs -> fin w = true /\ 0 <= V w.
Proof.
  intros Hx Hy E Hi. unfold traced_of in E. destruct (_ && _)%bool; [|discriminate]. apply omap_forall2 in E. destruct (Forall2_in_r _ _ _ _ E Hi) as (n & Hn & F). apply in_zrange in Hn. ob F. ob F. injection F as <- <-.
  set (t := traceF _ _ _ _ _ _ _ _) in *. assert (P : forall m, (0 <= m < fcsize t)%Z -> fin (fst (fcoor t m)) = true /\ fin (snd (fcoor t m)) = true /\ Rabs (V (fst (fcoor t m))) <= IZR (2 ^ 15) /\ Rabs (V (snd (fcoor t m))) <= IZR (2 ^ 15)).
  { intros m Hm. destruct (point_ok (gxF g) (gyF g) q cx cy za zb zc Hx Hy (fcoor t m)) as (A1 & A2 & A3 & A4); [apply in_map, in_zrange; fold t; lia|]. repeat split; auto.
    - eapply Rle_trans; [exact A3|]. assert (1 <= IZR (gxF g) <= IZR (2 ^ 15)) by (split; apply IZR_le; lia). lra.
    - eapply Rle_trans; [exact A4|]. assert (1 <= IZR (gyF g) <= IZR (2 ^ 15)) by (split; apply IZR_le; lia). lra. }
  destruct (P n ltac:(lia)) as (A1 & A2 & A3 & A4). destruct (P (n + 1)%Z ltac:(lia)) as (B1 & B2 & B3 & B4). now apply (dist_ok _ _ (2 ^ 15)%Z ltac:(lia)).
Qed.
Lemma psegs_fin fmodf sinf cosf junk g c p d segs i w : (1 <= gxF g <= 2 ^ 15)%Z -> (1 <= gyF g <= 2 ^ 15)%Z -> project_segs fmodf sinf cosf junk g c p d = Some segs -> In (i, w) segs -> fin w = true /\ 0 <= V w.
Proof. intros Hx Hy E. unfold project_segs in E. ob E. ob E. destruct junk as ((? & ?) & ?). now apply (traced_fin _ _ _ _ _ _ _ _ _ _ _ Hx Hy) with (1 := E). Qed.
Lemma segs_fin fmodf sinf cosf junk g c p d segs i w : (1 <= gxF g <= 2 ^ 15)%Z -> (1 <= gyF g <= 2 ^ 15)%Z -> segsF fmodf sinf cosf junk g c p d = Some segs -> In (i, w) segs -> fin w = true /\ 0 <= V w.
Proof. intros Hx Hy E. unfold segsF, ray_traceF in E. ob E. ob E. destruct junk as ((? & ?) & ?). now apply (traced_fin _ _ _ _ _ _ _ _ _ _ _ Hx Hy) with (1 := E). Qed.
Lemma omap_length {A B} (f : A -> option B) l r : omap f l = Some r -> length r = length l.
Proof. intros E. apply omap_forall2 in E. induction E; cbn; congruence. Qed.
Lemma psegs_len fmodf sinf cosf junk g c p d segs : (1 <= gxF g <= 2 ^ 15)%Z -> (1 <= gyF g <= 2 ^ 15)%Z -> project_segs fmodf sinf cosf junk g c p d = Some segs -> (Z.of_nat (length segs) <= gxF g + gyF g + 1)%Z.
Proof.
  intros Hx Hy E. unfold project_segs in E. ob E. ob E. destruct junk as ((? & ?) & ?). unfold traced_of in E. set (t := traceF _ _ _ _ _ _ _ _) in *.
  destruct (_ && _)%bool eqn:B; [|discriminate]. apply omap_length in E. rewrite E, zrange_length. apply andb_true_iff in B. destruct B as (_ & B). apply Z.leb_le in B. lia.
Qed.

(** ** project against the exact sum over its segments *)
Definition ray_terms (g : geomF) (obj : arr b32) (s : Z) (segs : list (Z * b32)) : list (b32 * b32) := map (fun '(i, w) => (obj (i + s * gxF g * gyF g)%Z, w)) segs.
Section Untouched.
  Variables (fmodf sinf cosf : b32 -> b32) (junk : arr pointF * arr pointF * arr pointF) (g : geomF).
  Notation segs_ := (segsF fmodf sinf cosf junk g).
  Variables (ru : ruleF) (data : arr b32) (num_block : Z) (ind_block : arr Z) (k i : Z).
  Hypothesis Hi : (0 <= i < npixF g)%Z.
  Hypothesis Hx : (1 <= gxF g)%Z.
  Hypothesis Hy : (1 <= gyF g)%Z.
  Hypothesis No : forall p d segs w, (0 <= p < dtF g)%Z -> (0 <= d < dxF g)%Z -> segs_ (centerF g k) p d = Some segs -> ~ In (i, w) segs.
  Let j := (i + k * gxF g * gyF g)%Z.
  Lemma other_pix s n : s <> k -> (0 <= n < npixF g)%Z -> (n + s * gxF g * gyF g)%Z <> j.
  Proof. unfold j, npixF in *. intros N Hn E. assert (E1 : (gxF g * gyF g * s + n = gxF g * gyF g * k + i)%Z) by lia. apply Z.div_mod_unique in E1; lia. Qed.
  Lemma seg_angle c p d segs : segs_ c p d = Some segs -> (0 <= p < dtF g)%Z.
  Proof. intros E. unfold segsF in E. ob E. apply load_some in E0. tauto. Qed.
  Lemma add_untouched segs (f : b32 -> b32 -> b32) (a r : arr b32) : (forall w, ~ In (i, w) segs) ->
    ofold (fun '(i, w) a => let? v := load (npixF g) a i in store (npixF g) a i (f v w)) segs a = Some r -> r i = a i.
  Proof.
    intros N E. eapply (ofold_inv (fun st : arr b32 => st i = a i)); [exact E|reflexivity|]. intros (n & w) u v Hn Hu F. ob F. apply store_some in F. destruct F as (_ & ->). rewrite aset_ne; auto. intros ->. now apply (N w).
  Qed.
  Lemma correct_untouched s sd up rc r : os_correctF g ru s sd up rc = Some r -> s <> k \/ sd i = zeroF -> r j = rc j.
  Proof.
    intros E H. unfold os_correctF in E. eapply (ofor_inv (fun st : arr b32 => st j = rc j)); [exact E|reflexivity|]. intros n u v Hn Hu F. ob F. apply load_some in E0. destruct E0 as (_ & ->). destruct (nez (sd n)) eqn:Nz; [|injection F as <-; auto].
    ob F. ob F. ob F. apply cint_some in E0. subst. apply store_some in F. destruct F as (_ & ->). rewrite aset_ne; auto. destruct (Z.eq_dec s k) as [->|N]; [|intros Q; apply (other_pix s n N ltac:(lia)); lia].
    destruct H as [H|H]; [congruence|]. intros Q. unfold j in Q. assert (n = i) by lia. subst. rewrite H in Nz. discriminate.
  Qed.
  Lemma block_untouched s os st r : os_blockF fmodf sinf cosf junk g ru data num_block ind_block s (centerF g s) os st = Some r -> fst (fst (fst (snd r))) j = fst (fst (fst (snd st))) j.
  Proof.
    destruct st as (start & (((rc & sd) & su) & up)). intros F. unfold os_blockF in F. ob F. ob F. ob F. destruct a1 as ((sd1 & su1) & up1). ob F. injection F as <-. cbn [fst snd]. apply correct_untouched with (1 := E2).
    destruct (Z.eq_dec s k) as [->|N]; [right|now left]. assert (Q : snd (fst (sd1, su1, up1)) i = zeroF); [|exact Q].
    eapply (ofor_inv (fun st : arr b32 * arr b32 * arr b32 => snd (fst st) i = zeroF)); [exact E1| |].
    - cbn. unfold memsetF. replace ((0 <=? i) && (i <? npixF g))%Z with true by lia. reflexivity.
    - clear E1 E2. intros q u v _ Hu F. ob F. eapply (ofor_inv (fun st : arr b32 * arr b32 * arr b32 => snd (fst st) i = zeroF)); [exact F|exact Hu|]. clear F Hu u v.
      intros d ((u1 & u2) & u3) v Hd Hu F. unfold os_rayF in F. ob F. pose proof (seg_angle _ _ _ _ E2) as Hp. ob F. ob F. pose proof (add_untouched _ (fun v w => fadd v w) _ _ (fun w => No _ _ _ w Hp Hd E2) E4) as E5. cbn in Hu. rewrite Hu in E5.
      destruct (nez (sum_sq a3)); [|injection F as <-; exact E5]. ob F. ob F. ob F. ob F. injection F as <-. exact E5.
  Qed.
  Theorem os_untouched num_iter recon sd su up r : os_solveF fmodf sinf cosf junk g ru data num_block ind_block num_iter recon sd su up = Some r -> r j = recon j.
  Proof.
    intros E. unfold os_solveF in E. destruct (emptyF g); [injection E as <-; auto|]. ob E. ob E. destruct a0 as (((rc & sd1) & su1) & up1). injection E as <-.
    change rc with (fst (fst (fst (rc, sd1, su1, up1)))). eapply (ofor_inv (fun st : arr b32 * arr b32 * arr b32 * arr b32 => fst (fst (fst st)) j = recon j)); [exact E1|reflexivity|].
    clear E1. intros n (((u1 & u2) & u3) & u4) v _ Hu F. cbn in Hu. rewrite <- Hu. eapply (ofor_inv (fun st : arr b32 * arr b32 * arr b32 * arr b32 => fst (fst (fst st)) j = u1 j)); [exact F|reflexivity|].
    clear F v Hu. intros s w v _ Hw F. unfold os_sliceF in F. ob F. apply load_some in E. destruct E as (_ & ->). ob F. injection F as <-.
    eapply (ofor_inv (fun st : Z * (arr b32 * arr b32 * arr b32 * arr b32) => fst (fst (fst (snd st))) j = u1 j)); [exact E|exact Hw|]. clear E Hw. intros os x y _ Hx' F. rewrite <- Hx'. now apply block_untouched with (1 := F).
  Qed.
End Untouched.
