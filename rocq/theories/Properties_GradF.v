(** C130-C133: grad, tikh and tv in machine arithmetic. *)
From Verif Require Import Base Order CLoop Model_Ray Proofs_Ray Model_RayF Model_SolverF Spec_SolverF Model_PmlF Model_GradF Proofs_FloatB Proofs_RayF Proofs_RayF2 Proofs_RayF3 Proofs_RayF4.
From Verif Require Import Proofs_SolverF Proofs_SolverF2 Proofs_SolverF3 Proofs_SolverF7 Properties_SolverF Proofs_PmlF Spec_PmlF Proofs_PmlF3 Proofs_PmlF4 Properties_PmlF Spec_GradF Proofs_GradF Proofs_GradF2 Proofs_GradF3 Proofs_GradF4 Proofs_GradF5 Proofs_GradF6 Proofs_GradF7.
From Coq Require Import Reals Lra.
From Flocq Require Import Core BinarySingleNaN.
Local Open Scope Z_scope.

(** ** C130: no undefined behaviour.  nreg: length of reg_pars; prior: reg_data of tikh and its length. *)
Theorem C130_grad_safe fmodf sinf cosf junk g data nreg reg num_iter lambda recon : libm fmodf sinf cosf -> sizes_ok g -> small_ok g -> 1 <= nreg ->
  exists r, gradF fmodf sinf cosf junk g data nreg reg None num_iter lambda recon = Some r.
Proof. intros L S M H. apply grad_safe; auto. Qed.
Theorem C130_tikh_safe fmodf sinf cosf junk g data nreg reg n reg_data num_iter lambda recon : libm fmodf sinf cosf -> sizes_ok g -> small_ok g -> 2 <= nreg -> nrec g <= n ->
  exists r, gradF fmodf sinf cosf junk g data nreg reg (Some (n, reg_data)) num_iter lambda recon = Some r.
Proof. intros L S M H1 H2. apply grad_safe; auto. Qed.
Theorem C130_tv_safe fmodf sinf cosf junk g data nreg reg num_iter recon : libm fmodf sinf cosf -> sizes_ok g -> small_ok g -> 1 <= nreg ->
  exists r, tvF fmodf sinf cosf junk g data nreg reg num_iter recon = Some r.
Proof. intros L S M H. apply tv_safe; auto. Qed.

(** ** C131: slice k of one call equals slice k' of another, bit for bit, if these slices had the same inputs. *)
Section Slices.
  Variables (fmodf sinf cosf : b32 -> b32) (junk junk' : arr pointF * arr pointF * arr pointF) (g g' : geomF) (k k' : Z).
  Notation data_eq := (win (dtF g * dxF g) (k * dtF g * dxF g) (k' * dtF g * dxF g)).
  Notation rec_eq := (win (npixF g) (k * gxF g * gyF g) (k' * gxF g * gyF g)).
  Notation ok := (same_rays g g' /\ 1 <= gxF g <= 2 ^ 15 /\ 1 <= gyF g <= 2 ^ 15 /\ 1 <= dxF g /\ 1 <= dtF g /\ 0 <= k < dyF g /\ 0 <= k' < dyF g').
  Theorem C131_grad nreg nreg' reg reg' data data' num_iter lambda lambda' recon recon' r r' : ok -> centerF g k = centerF g' k' -> 0 <= num_iter ->
    reg 0 = reg' 0 -> data_eq data data' ->
    gradF fmodf sinf cosf junk g data nreg reg None num_iter lambda recon = Some r ->
    gradF fmodf sinf cosf junk' g' data' nreg' reg' None num_iter lambda' recon' = Some r' -> rec_eq recon recon' -> rec_eq r r'.
  Proof. intros (S & H1 & H2 & H3 & H4 & H5 & H6) E Hn R D. eapply grad_slices; eauto. exact I. Qed.
  Theorem C131_tikh nreg nreg' reg reg' n n' reg_data reg_data' data data' num_iter lambda lambda' recon recon' r r' : ok -> centerF g k = centerF g' k' -> 0 <= num_iter ->
    reg 0 = reg' 0 -> reg 1 = reg' 1 -> rec_eq reg_data reg_data' -> data_eq data data' ->
    gradF fmodf sinf cosf junk g data nreg reg (Some (n, reg_data)) num_iter lambda recon = Some r ->
    gradF fmodf sinf cosf junk' g' data' nreg' reg' (Some (n', reg_data')) num_iter lambda' recon' = Some r' -> rec_eq recon recon' -> rec_eq r r'.
  Proof. intros (S & H1 & H2 & H3 & H4 & H5 & H6) E Hn R R1 Rd D. eapply grad_slices; eauto. split; auto. Qed.
  Theorem C131_tv nreg nreg' reg reg' data data' num_iter recon recon' r r' : ok -> centerF g k = centerF g' k' -> 0 <= num_iter ->
    reg 0 = reg' 0 -> data_eq data data' ->
    tvF fmodf sinf cosf junk g data nreg reg num_iter recon = Some r ->
    tvF fmodf sinf cosf junk' g' data' nreg' reg' num_iter recon' = Some r' -> rec_eq recon recon' -> rec_eq r r'.
  Proof. intros (S & H1 & H2 & H3 & H4 & H5 & H6) E Hn R D. eapply tv_slices; eauto. Qed.
End Slices.

(** ** C132: the values. *)
Section Values.
  Variables (fmodf sinf cosf : b32 -> b32) (junk : arr pointF * arr pointF * arr pointF) (g : geomF) (data : arr b32) (nreg : Z) (reg : arr b32).
  Notation rays_ s := (fun p d => match segsF fmodf sinf cosf junk g (centerF g s) p d with Some l => l | None => [] end).
  Notation data_ s := (fun p d => data (d + p * dxF g + s * dtF g * dxF g)).
  Notation slice a s := (fun i => a (i + s * gxF g * gyF g)).
  Notation ok s i := (1 <= gxF g <= 2 ^ 15 /\ 1 <= gyF g <= 2 ^ 15 /\ 1 <= dyF g /\ 1 <= dtF g /\ 1 <= dxF g /\ 0 <= s < dyF g /\ 0 <= i < npixF g).
  Theorem C132_grad num_iter lambda recon r s i : ok s i -> 0 <= num_iter -> gradF fmodf sinf cosf junk g data nreg reg None num_iter lambda recon = Some r ->
    r (i + s * gxF g * gyF g) = grad_image (rays_ s) (dtF g) (dxF g) (gxF g) (gyF g) (data_ s) (step_r (dxF g * dtF g)) first_step (reg 0) None (Z.to_nat num_iter) (slice recon s) i.
  Proof. intros (Hx & Hy & H1 & H2 & H3 & Hs & Hi) Hn E. eapply (grad_value fmodf sinf cosf junk g Hx Hy ltac:(lia) ltac:(lia) ltac:(lia) data nreg reg None); eauto. unfold emptyF. lia. Qed.
  Theorem C132_tikh n reg_data num_iter lambda recon r s i : ok s i -> 0 <= num_iter -> gradF fmodf sinf cosf junk g data nreg reg (Some (n, reg_data)) num_iter lambda recon = Some r ->
    r (i + s * gxF g * gyF g) = grad_image (rays_ s) (dtF g) (dxF g) (gxF g) (gyF g) (data_ s) (step_r (dxF g * dtF g)) first_step (reg 0) (Some (reg 1, slice reg_data s)) (Z.to_nat num_iter) (slice recon s) i.
  Proof. intros (Hx & Hy & H1 & H2 & H3 & Hs & Hi) Hn E. eapply (grad_value fmodf sinf cosf junk g Hx Hy ltac:(lia) ltac:(lia) ltac:(lia) data nreg reg (Some (n, reg_data))); eauto. unfold emptyF. lia. Qed.
  Theorem C132_tv num_iter recon r s i : ok s i -> 0 <= num_iter -> tvF fmodf sinf cosf junk g data nreg reg num_iter recon = Some r ->
    r (i + s * gxF g * gyF g) = tv_image (rays_ s) (dtF g) (dxF g) (gxF g) (gyF g) (data_ s) (step_r (dxF g * dtF g)) (reg 0) tv_c (Z.to_nat num_iter) (slice recon s) i.
  Proof. intros (Hx & Hy & H1 & H2 & H3 & Hs & Hi) Hn E. eapply (tv_value fmodf sinf cosf junk g Hx Hy ltac:(lia) ltac:(lia) ltac:(lia) data nreg reg); eauto. unfold emptyF. lia. Qed.
End Values.
(** The scale is sqrt(2 / n) for n = dx * dt, up to a relative error of 2^-23. *)
Theorem C132_scale n : 1 <= n < 2 ^ 31 -> is_finite (step_r n) = true /\ (Rabs (B2R (step_r n) * sqrt (IZR n / 2) - 1) <= / 8388608)%R.
Proof. intros H. now apply step_r_ok. Qed.

(** ** C133: a blank slice (no measurement, image of zeros) stays blank, except that the step of Barzilai and Borwein is 0/0. *)
Lemma scale_facts n : 1 <= n < 2 ^ 31 -> is_finite (step_r n) = true /\ ~ is_zero (step_r n) /\ is_finite (fmul (of_int 2) (step_r n)) = true.
Proof.
  intros H. destruct (step_r_ok n H) as (F & E). pose proof (sqrt_half n H) as S. destruct (of_int_ok 2 ltac:(lia)) as (F2 & V2). unfold Rabs in E. destruct (Rcase_abs _) in E.
  - split; [exact F|]. split; [intros Z0; apply z_V in Z0; rewrite Z0 in E; lra|]. apply (fmul_ok _ _ 8); auto; [apply (rep_IZR 8); lia| |apply (huge_big 8); lia]. rewrite V2. rewrite Rabs_pos_eq; nra.
  - split; [exact F|]. split; [intros Z0; apply z_V in Z0; rewrite Z0 in *; lra|]. apply (fmul_ok _ _ 8); auto; [apply (rep_IZR 8); lia| |apply (huge_big 8); lia]. rewrite V2. rewrite Rabs_pos_eq; nra.
Qed.
Section Blank.
  Variables (fmodf sinf cosf : b32 -> b32) (junk : arr pointF * arr pointF * arr pointF) (g : geomF) (data : arr b32) (nreg : Z) (reg : arr b32) (s : Z).
  Notation ok := (1 <= gxF g <= 2 ^ 15 /\ 1 <= gyF g <= 2 ^ 15 /\ 1 <= dyF g /\ 1 <= dtF g /\ 1 <= dxF g /\ dxF g * dtF g < 2 ^ 31 /\ 0 <= s < dyF g).
  Definition blank_data : Prop := forall k, 0 <= k < dtF g * dxF g -> is_zero (data (k + s * dtF g * dxF g)).
  Definition blank_slice (a : arr b32) : Prop := forall i, 0 <= i < npixF g -> is_zero (a (i + s * gxF g * gyF g)).
  Lemma seg_facts c : 1 <= gxF g <= 2 ^ 15 -> 1 <= gyF g <= 2 ^ 15 -> forall p d i w, In (i, w) (segs_of fmodf sinf cosf junk g c p d) -> 0 <= i < gxF g * gyF g /\ fin w = true.
  Proof.
    intros Hx Hy p d i w H. split; [eapply segs_in; eauto|]. unfold segs_of in H. destruct (segsF fmodf sinf cosf junk g c p d) eqn:Q; [|destruct H]. eapply segs_fin; eauto.
  Qed.
  Lemma blank_dat : blank_data -> forall p d, 0 <= p < dtF g -> 0 <= d < dxF g -> is_zero (data_of g data s p d).
  Proof. intros H p d Hp Hd. unfold data_of. replace (d + p * dxF g + s * dtF g * dxF g) with ((d + p * dxF g) + s * dtF g * dxF g) by ring. apply H. nia. Qed.
  (** [prior]: grad, or tikh with a finite 2 * reg_pars[1] and a blank slice of reg_data *)
  Definition blank_reg (prior : option (Z * arr b32)) : Prop := match prior with None => True | Some (_, rd) => is_finite (fmul (of_int 2) (reg 1)) = true /\ blank_slice rd end.
  Lemma blank_prior_of prior : blank_reg prior -> blank_prior (gxF g) (gyF g) (prior_of g reg prior s).
  Proof. unfold blank_reg, blank_prior, prior_of. destruct prior as [(n & rd)|]; auto. Qed.
  Theorem C133_grad prior num_iter lambda recon r i : ok -> blank_reg prior -> blank_data -> blank_slice recon -> 0 <= num_iter -> 0 <= i < npixF g ->
    is_finite (reg 0) = true -> (0 <= B2R (reg 0%Z))%R \/ num_iter <= 1 ->
    gradF fmodf sinf cosf junk g data nreg reg prior num_iter lambda recon = Some r -> is_zero (r (i + s * gxF g * gyF g)).
  Proof.
    intros (Hx & Hy & H1 & H2 & H3 & H4 & Hs) Hp Hd Hr Hn Hi F0 H0 E. assert (Em : emptyF g = false) by (unfold emptyF; lia).
    pose proof (grad_value fmodf sinf cosf junk g Hx Hy ltac:(lia) ltac:(lia) ltac:(lia) data nreg reg prior num_iter lambda recon r s i Em Hn E Hs Hi) as Q. unfold img_of at 1 in Q. rewrite Q. clear Q. destruct (scale_facts (dxF g * dtF g) ltac:(nia)) as (Fr & Nr & F2).
    unfold grad_image. apply z_mul; [|exact Fr]. refine (proj1 (grad_zero _ _ _ _ _ _ _ first_step _ zeroF _ (seg_facts _ Hx Hy) Fr Nr F2 (blank_dat Hd) eq_refl _ _ (blank_prior_of _ Hp) Hr _ _) i Hi); [|auto].
    intros B. destruct H0 as [H0|H0]; [|lia]. exfalso. destruct (of_int_ok 0 ltac:(lia)) as (F00 & V00). rewrite (Bltb_correct 24 128 _ _ F0 F00) in B. rewrite V00 in B. destruct (Rlt_bool_spec (B2R (reg 0)) 0%R); [lra|discriminate].
  Qed.
  Theorem C133_grad_nan prior num_iter lambda recon r i : ok -> blank_reg prior -> blank_data -> blank_slice recon -> 2 <= num_iter -> 0 <= i < npixF g ->
    is_finite (reg 0) = true -> (B2R (reg 0%Z) < 0)%R ->
    gradF fmodf sinf cosf junk g data nreg reg prior num_iter lambda recon = Some r -> is_nan (r (i + s * gxF g * gyF g)) = true.
  Proof.
    intros (Hx & Hy & H1 & H2 & H3 & H4 & Hs) Hp Hd Hr Hn Hi F0 H0 E. assert (Em : emptyF g = false) by (unfold emptyF; lia).
    pose proof (grad_value fmodf sinf cosf junk g Hx Hy ltac:(lia) ltac:(lia) ltac:(lia) data nreg reg prior num_iter lambda recon r s i Em ltac:(lia) E Hs Hi) as Q. unfold img_of at 1 in Q. rewrite Q. clear Q. destruct (scale_facts (dxF g * dtF g) ltac:(nia)) as (Fr & Nr & F2).
    unfold grad_image. apply nan_mul_l. replace (Z.to_nat num_iter) with (S (S (Z.to_nat (num_iter - 2)))) by lia. refine (grad_nan _ _ _ _ _ _ _ first_step _ zeroF _ (seg_facts _ Hx Hy) Fr Nr F2 (blank_dat Hd) eq_refl _ _ _ (blank_prior_of _ Hp) Hr _ Hi).
    destruct (of_int_ok 0 ltac:(lia)) as (F00 & V00). rewrite (Bltb_correct 24 128 _ _ F0 F00), V00. apply Rlt_bool_true. exact H0.
  Qed.
  Theorem C133_tv num_iter recon r i : ok -> blank_data -> blank_slice recon -> 0 <= num_iter -> 0 <= i < npixF g -> is_finite (reg 0) = true -> B2R (reg 0) <> 0%R ->
    tvF fmodf sinf cosf junk g data nreg reg num_iter recon = Some r -> is_zero (r (i + s * gxF g * gyF g)).
  Proof.
    intros (Hx & Hy & H1 & H2 & H3 & H4 & Hs) Hd Hr Hn Hi F0 H0 E. assert (Em : emptyF g = false) by (unfold emptyF; lia).
    pose proof (tv_value fmodf sinf cosf junk g Hx Hy ltac:(lia) ltac:(lia) ltac:(lia) data nreg reg num_iter recon r s i Em Hn E Hs Hi) as Q. unfold img_of at 1 in Q. rewrite Q. clear Q. destruct (scale_facts (dxF g * dtF g) ltac:(nia)) as (Fr & Nr & F2).
    unfold tv_image. apply z_mul; [|exact Fr]. assert (C0 : is_finite tv_c = true) by reflexivity. assert (C1 : is_finite (fadd (of_int 1) tv_c) = true) by reflexivity. assert (C2 : ~ is_zero (fadd (of_int 1) tv_c)) by (vm_compute; tauto).
    refine (proj1 (tv_blank _ _ _ _ _ _ _ _ tv_c (proj1 Hx) (seg_facts _ Hx Hy) Fr Nr (blank_dat Hd) C0 C1 C2 _ _ Hr F0 (Proofs_GradF7.nonzero _ H0)) i Hi).
  Qed.
  (** Whatever was measured: a penalty of zero turns every pixel of a constant image into NaN, but for the last row and column *)
  Theorem C133_tv_zero num_iter recon v r i : ok -> (forall i, 0 <= i < npixF g -> recon (i + s * gxF g * gyF g) = v) -> 1 <= num_iter -> 0 <= i < npixF g -> i / gxF g < gyF g - 1 -> i mod gxF g < gxF g - 1 ->
    is_zero (reg 0) -> tvF fmodf sinf cosf junk g data nreg reg num_iter recon = Some r -> is_nan (r (i + s * gxF g * gyF g)) = true.
  Proof.
    intros (Hx & Hy & H1 & H2 & H3 & H4 & Hs) Hr Hn Hi I1 I2 Z0 E. assert (Em : emptyF g = false) by (unfold emptyF; lia).
    pose proof (tv_value fmodf sinf cosf junk g Hx Hy ltac:(lia) ltac:(lia) ltac:(lia) data nreg reg num_iter recon r s i Em ltac:(lia) E Hs Hi) as Q. unfold img_of at 1 in Q. rewrite Q. clear Q.
    unfold tv_image. apply nan_mul_l. replace (Z.to_nat num_iter) with (S (Z.to_nat (num_iter - 1))) by lia. assert (C0 : is_finite tv_c = true) by reflexivity.
    refine (proj1 (tv_flat _ _ _ _ _ _ _ _ tv_c (proj1 Hx) C0 _ _ v i Hr Z0 Hi _)). unfold inside. lia.
  Qed.
End Blank.

(** One slice, one angle of zero, two detector pixels, a grid of 2 x 2; reg_pars = 0.1, 1. *)
Section Example_.
  Definition tenth' : b32 := fdiv (of_int 1) (of_int 10).
  Definition ex_par (x : b32) : arr b32 := fun i => if i =? 0 then x else of_int 1.
  Definition ex_grad par prior n l m := gradF idF nilF oneF ex_junk ex_g (ints l) 2 (ex_par par) prior n (ints [7]) (ints m).
  Definition ex_tv par n l m := tvF idF nilF oneF ex_junk ex_g (ints l) 1 (ex_par par) n (ints m).
  Example C130_example_grad : rdF 4 (ex_grad tenth' None 2 [3; 5] [0; 0; 0; 0]) = Some [Some 96; Some 160; Some 96; Some 160].
  Proof. vm_compute. reflexivity. Qed.
  Example C130_example_bb : rdF 4 (ex_grad (of_int (-1)) None 3 [3; 5] [1; 2; 3; 4]) = Some [Some 50; Some 150; Some 250; Some 350].
  Proof. vm_compute. reflexivity. Qed.
  Example C130_example_tikh : rdF 4 (ex_grad tenth' (Some (4, ints [4; 3; 2; 1])) 2 [3; 5] [10; 0; 0; 0]) = Some [Some 604; Some 232; Some (-107); Some 160].
  Proof. vm_compute. reflexivity. Qed.
  Example C130_example_tv : rdF 4 (ex_tv tenth' 2 [3; 5] [1; 2; 3; 4]) = Some [Some 79; Some 161; Some 255; Some 366] /\
    rdF 4 (ex_tv (of_int 1) 3 [3; 5] [1; 2; 3; 4]) = Some [Some 197; Some 129; Some 124; Some 364].
  Proof. split; vm_compute; reflexivity. Qed.
  (** A grid of 3 x 3 *)
  Definition ex_g9 : geomF := mkGeomF 1 1 3 3 3 (fun _ => half) (fun _ => zeroF).
  Example C130_example_tv9 : rdF 9 (tvF idF nilF oneF ex_junk ex_g9 (ints [3; 5; 9]) 1 (ex_par tenth') 3 (ints [1; 2; 3; 4; 7; 6; 2; 8; 9])) = Some [Some 107; Some (-209); Some (-100); Some 384; Some 261; Some 208; Some 209; Some 364; Some 501].
  Proof. vm_compute. reflexivity. Qed.
  (** Arrays that are too short *)
  Theorem C130_short_refuted : exists g data recon, sizes_ok g /\ small_ok g /\
    gradF idF nilF oneF ex_junk g data 0 (ex_par tenth') None 1 recon recon = None /\
    gradF idF nilF oneF ex_junk g data 1 (ex_par tenth') (Some (nrec g, recon)) 1 recon recon = None /\
    gradF idF nilF oneF ex_junk g data 2 (ex_par tenth') (Some (nrec g - 1, recon)) 1 recon recon = None /\
    tvF idF nilF oneF ex_junk g data 0 (ex_par tenth') 1 recon = None.
  Proof. exists ex_g, (ints [3; 5]), (ints [1; 2; 3; 4]). split; [apply ex_sizes|]. split; [apply ex_sizes|]. repeat split; vm_compute; reflexivity. Qed.
  (** Three slices in one call; the second is the one above. *)
  Example C131_example : rdF 4 (match tvF idF nilF oneF ex_junk ex_g3 (ints [8; 8; 3; 5; 0; 1]) 1 (ex_par tenth') 2 (ints [9; 9; 9; 9; 1; 2; 3; 4; 6; 0; 6; 6]) with
      | Some r => Some (fun i => r (i + 4)) | None => None end) = Some [Some 79; Some 161; Some 255; Some 366] /\
    rdF 4 (match gradF idF nilF oneF ex_junk ex_g3 (ints [8; 8; 3; 5; 0; 1]) 1 (ex_par (of_int (-1))) None 3 (ints [7; 7; 7]) (ints [9; 9; 9; 9; 1; 2; 3; 4; 6; 0; 6; 6]) with
      | Some r => Some (fun i => r (i + 4)) | None => None end) = Some [Some 50; Some 150; Some 250; Some 350].
  Proof. split; vm_compute; reflexivity. Qed.
  (** The images of C132 here, and the constants *)
  Notation rays_ := (fun p d => match segsF idF nilF oneF ex_junk ex_g (of_int 1) p d with Some l => l | None => [] end).
  Example C132_example : map (fun i => to_int (fmul (of_int 100) (grad_image rays_ 1 2 2 2 (fun p d => ints [3; 5] (d + p * 2)) (step_r 2) first_step (of_int (-1)) None 3 (ints [1; 2; 3; 4]) i))) [0; 1; 2; 3] = [Some 50; Some 150; Some 250; Some 350] /\
    map (fun i => to_int (fmul (of_int 100) (grad_image rays_ 1 2 2 2 (fun p d => ints [3; 5] (d + p * 2)) (step_r 2) first_step tenth' (Some (of_int 1, ints [4; 3; 2; 1])) 2 (ints [10; 0; 0; 0]) i))) [0; 1; 2; 3] = [Some 604; Some 232; Some (-107); Some 160] /\
    map (fun i => to_int (fmul (of_int 100) (tv_image rays_ 1 2 2 2 (fun p d => ints [3; 5] (d + p * 2)) (step_r 2) tenth' tv_c 2 (ints [1; 2; 3; 4]) i))) [0; 1; 2; 3] = [Some 79; Some 161; Some 255; Some 366].
  Proof. vm_compute. repeat split. Qed.
  Example C132_constants : B2SF first_step = SpecFloat.S754_finite false 8589935 (-33) /\ B2SF tv_c = SpecFloat.S754_finite false 11744051 (-25) /\
    map (fun n => B2SF (step_r n)) [1; 2; 8] = [SpecFloat.S754_finite false 11863283 (-23); SpecFloat.S754_finite false 8388608 (-23); SpecFloat.S754_finite false 8388608 (-24)].
  Proof. vm_compute. repeat split. Qed.
  Example C133_example : rdF 4 (ex_grad (of_int (-1)) None 1 [0; 0] [0; 0; 0; 0]) = Some [Some 0; Some 0; Some 0; Some 0] /\
    rdF 4 (ex_grad (of_int (-1)) None 2 [0; 0] [0; 0; 0; 0]) = Some [None; None; None; None] /\
    rdF 4 (ex_tv (of_int 0) 1 [3; 5] [1; 1; 1; 1]) = Some [None; None; None; Some 154].
  Proof. repeat split; vm_compute; reflexivity. Qed.
End Example_.

Print Assumptions C130_grad_safe.
Print Assumptions C130_tikh_safe.
Print Assumptions C130_tv_safe.
Print Assumptions C131_grad.
Print Assumptions C131_tikh.
Print Assumptions C131_tv.
Print Assumptions C132_grad.
Print Assumptions C132_tikh.
Print Assumptions C132_tv.
Print Assumptions C132_scale.
Print Assumptions C133_grad.
Print Assumptions C133_grad_nan.
Print Assumptions C133_tv.
Print Assumptions C133_tv_zero.
Print Assumptions C130_short_refuted.
