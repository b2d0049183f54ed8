(** C126-C129: ospml_hybrid (pml_hybrid) and ospml_quad (pml_quad) in machine arithmetic. *)
From Verif Require Import Base Order CLoop Model_Ray Proofs_Ray Model_RayF Model_SolverF Spec_SolverF Model_PmlF Proofs_FloatB Proofs_RayF Proofs_RayF2 Proofs_RayF3 Proofs_RayF4.
From Verif Require Import Proofs_SolverF Proofs_SolverF2 Proofs_SolverF3 Properties_SolverF Proofs_PmlF Proofs_PmlF2 Spec_PmlF Proofs_PmlF3 Proofs_PmlF4 Proofs_PmlF5.
From Coq Require Import Reals Lra.
From Flocq Require Import Core BinarySingleNaN.
Local Open Scope R_scope.

(** ** C126: no undefined behaviour on grids of at least two rows and columns.  nreg: length of reg_pars. *)
Theorem C126_safe fmodf sinf cosf junk g (hybrid : bool) nreg reg data num_block ind_block num_iter recon : libm fmodf sinf cosf -> sizes_ok g -> small_ok g ->
  (2 <= gxF g)%Z -> (2 <= gyF g)%Z -> ((if hybrid then 2 else 1) <= nreg)%Z -> (1 <= num_block < 2 ^ 31)%Z ->
  (num_block = 1 \/ forall q, 0 <= q < dtF g -> 0 <= ind_block q < dtF g)%Z -> (dtF g < 2 ^ 31)%Z ->
  exists r, pmlF fmodf sinf cosf junk g hybrid nreg reg data num_block ind_block num_iter recon = Some r.
Proof. intros L S M Hx Hy Hr Hb Hi Ht. now apply pml_safe. Qed.
(** The division of dt by the number of subsets *)
Theorem C126_no_blocks_refuted fmodf sinf cosf junk g hybrid nreg reg data ind_block num_iter recon : (1 <= dyF g)%Z -> (1 <= dtF g)%Z -> (1 <= dxF g)%Z ->
  pmlF fmodf sinf cosf junk g hybrid nreg reg data 0 ind_block num_iter recon = None.
Proof. intros H1 H2 H3. unfold pmlF, emptyF. replace ((dyF g =? 0) || (dtF g =? 0) || (dxF g =? 0))%Z with false by lia. reflexivity. Qed.

(** ** C127: slice k of one call equals slice k' of another, bit for bit, if these slices had the same inputs. *)
Section Slices.
  Variables (fmodf sinf cosf : b32 -> b32) (junk junk' : arr pointF * arr pointF * arr pointF) (g g' : geomF) (k k' : Z).
  Notation data_eq := (win (dtF g * dxF g) (k * dtF g * dxF g) (k' * dtF g * dxF g)).
  Notation rec_eq := (win (npixF g) (k * gxF g * gyF g) (k' * gxF g * gyF g)).
  Notation ok := (same_rays g g' /\ (2 <= gxF g <= 2 ^ 15)%Z /\ (2 <= gyF g <= 2 ^ 15)%Z /\ (0 <= dxF g)%Z /\ (0 <= dtF g)%Z /\ (0 <= k < dyF g)%Z /\ (0 <= k' < dyF g')%Z).
  Theorem C127_slices hybrid nreg nreg' reg reg' data data' num_block ind_block num_iter recon recon' r r' : ok -> centerF g k = centerF g' k' ->
    reg 0%Z = reg' 0%Z /\ (hybrid = true -> reg 1%Z = reg' 1%Z) -> data_eq data data' ->
    pmlF fmodf sinf cosf junk g hybrid nreg reg data num_block ind_block num_iter recon = Some r ->
    pmlF fmodf sinf cosf junk' g' hybrid nreg' reg' data' num_block ind_block num_iter recon' = Some r' -> rec_eq recon recon' -> rec_eq r r'.
  Proof. intros (S & H1 & H2 & H3 & H4 & H5 & H6) E R D. eapply pml_slices; eauto; lia. Qed.
End Slices.

(** ** C128: with one subset, num_iter passes replace each pixel num_iter times by the value that [pix_new] gives for its
    slice alone. *)
Theorem C128_value fmodf sinf cosf junk g hybrid nreg reg data ind_block num_iter recon r s i : (2 <= gxF g <= 2 ^ 15)%Z -> (2 <= gyF g <= 2 ^ 15)%Z ->
  (1 <= dyF g)%Z -> (1 <= dtF g)%Z -> (1 <= dxF g)%Z -> (0 <= num_iter)%Z ->
  pmlF fmodf sinf cosf junk g hybrid nreg reg data 1 ind_block num_iter recon = Some r -> (0 <= s < dyF g)%Z -> (0 <= i < npixF g)%Z ->
  r (i + s * gxF g * gyF g)%Z =
  passes (fun p d => match segsF fmodf sinf cosf junk g (centerF g s) p d with Some l => l | None => [] end) (dtF g) (dxF g) (gxF g) (gyF g)
    (fun p d => data (d + p * dxF g + s * dtF g * dxF g)%Z) hybrid (reg 0%Z) (reg 1%Z) (Z.to_nat num_iter) (fun i => recon (i + s * gxF g * gyF g)%Z) i.
Proof. intros Hx Hy H1 H2 H3 Hn E Hs Hi. eapply (pml_value fmodf sinf cosf junk g hybrid nreg reg data ind_block); eauto; try lia. unfold emptyF. lia. Qed.

(** The factor gamma of ospml_hybrid is 1 / (1 + |(x - y) / delta|) up to 2^-23 (the difference and the quotient are rounded first). *)
Theorem C128_gamma delta x y : is_finite (fdiv (fsub x y) delta) = true ->
  is_finite (gammaF delta x y) = true /\ Rabs (B2R (gammaF delta x y) - / (1 + Rabs (B2R (fdiv (fsub x y) delta)))) <= / 8388608.
Proof. apply gamma_val. Qed.
Example C128_example_gamma : map (fun d => to_int (fmul (of_int 1000) (gammaF (of_int d) (of_int 1) (of_int 4)))) [1; 3; 6; -6]%Z = [Some 250; Some 500; Some 666; Some 666]%Z.
Proof. vm_compute. reflexivity. Qed.

(** ** C129: signs.  From an image and measurements without negative numbers: the square root is never taken of a negative
    number, and rounding can push a pixel below zero by no more than tol. *)
Theorem C129_discriminant e f gg : npos e -> nn f -> nn (fmul gg gg) /\ lb 0 (discF e f gg).
Proof.
  intros He Hf. split; [apply nn_sqr|]. unfold discF. assert (Hm : npos (fmul (fmul (of_int 8) e) f)) by (apply npos_mul; auto; apply npos_pmul; auto; reflexivity).
  destruct (sub_cases (fmul gg gg) _ (nn_sqr gg) Hm) as [->|[->|(F & _ & L)]]; [exact I|reflexivity|]. pose proof (nn_V _ (nn_sqr gg)). set (x := fsub _ _) in *. clearbody x. destruct x; try discriminate F; cbn [lb]; lra.
Qed.
Theorem C129_pixel_e fmodf sinf cosf junk g data img s i : (2 <= gxF g <= 2 ^ 15)%Z -> (2 <= gyF g <= 2 ^ 15)%Z -> (0 <= s < dyF g)%Z -> (0 <= i < npixF g)%Z ->
  inP nn (npixF g) img -> inP nn (ndata g) data -> (0 <= dxF g)%Z -> (0 <= dtF g)%Z ->
  npos (pix_e (fun p d => match segsF fmodf sinf cosf junk g (centerF g s) p d with Some l => l | None => [] end) (dtF g) (dxF g) (fun p d => data (d + p * dxF g + s * dtF g * dxF g)%Z) img i).
Proof.
  intros Hx Hy Hs Hi Ni Hd H1 H2. apply npos_pix_e; auto.
  - intros p d j w Hj. pose proof (segs_of_in fmodf sinf cosf junk g Hx Hy (centerF g s) p d j w Hj) as Hj'. split; [|now apply Ni]. destruct (segsF fmodf sinf cosf junk g (centerF g s) p d) eqn:Q; [|destruct Hj]. eapply nn_segs; eauto.
  - intros p d Hp Hd'. apply Hd. unfold ndata. assert (0 <= d + p * dxF g < dtF g * dxF g)%Z by nia. assert (0 <= s * (dtF g * dxF g) <= (dyF g - 1) * (dtF g * dxF g))%Z by nia. lia.
Qed.
(** One pass: F and G of a pixel, G with the sum of lengths.  [lb b x]: x is NaN or at least b. *)
Theorem C129_bound_partial fmodf sinf cosf junk g hybrid nreg reg data ind_block recon r s i tol : (2 <= gxF g <= 2 ^ 15)%Z -> (2 <= gyF g <= 2 ^ 15)%Z -> (1 <= dyF g)%Z -> (1 <= dtF g)%Z -> (1 <= dxF g)%Z ->
  pmlF fmodf sinf cosf junk g hybrid nreg reg data 1 ind_block 1 recon = Some r -> inP nn (nrec g) recon -> inP nn (ndata g) data -> nn (reg 0%Z) ->
  (0 <= s < dyF g)%Z -> (0 <= i < npixF g)%Z -> 0 <= tol <= 1 ->
  (let '(f, gg) := pix_fg (gxF g) (gyF g) hybrid (reg 0%Z) (reg 1%Z) (fun i => recon (i + s * gxF g * gyF g)%Z) (i / gyF g) (i mod gyF g) in
   Rmax 0 (B2R (fadd gg (pix_length (fun p d => match segsF fmodf sinf cosf junk g (centerF g s) p d with Some l => l | None => [] end) (dtF g) (dxF g) i))) * / 4194304 + bpow radix2 (-73)
     <= tol * B2R (fmul (of_int 4) f)) ->
  lb (- (tol + bpow radix2 (-148))) (r (i + s * gxF g * gyF g)%Z).
Proof. intros Hx Hy H1 H2 H3 E Hr Hd Hb Hs Hi Ht H. eapply (pml_bound fmodf sinf cosf junk g hybrid nreg reg data ind_block Hx Hy); eauto; try lia. unfold emptyF. lia. Qed.
(** ospml_quad: tol is the sum of the lengths in the pixel times 2^-22, over beta. *)
Theorem C129_quad_partial fmodf sinf cosf junk g nreg reg data ind_block recon r s i : (2 <= gxF g <= 2 ^ 15)%Z -> (2 <= gyF g <= 2 ^ 15)%Z -> (1 <= dyF g)%Z -> (1 <= dtF g)%Z -> (1 <= dxF g)%Z ->
  pmlF fmodf sinf cosf junk g false nreg reg data 1 ind_block 1 recon = Some r -> inP nn (nrec g) recon -> inP nn (ndata g) data ->
  is_finite (reg 0%Z) = true -> bpow radix2 (-60) <= B2R (reg 0%Z) <= bpow radix2 60 -> (0 <= s < dyF g)%Z -> (0 <= i < npixF g)%Z ->
  let len := pix_length (fun p d => match segsF fmodf sinf cosf junk g (centerF g s) p d with Some l => l | None => [] end) (dtF g) (dxF g) i in
  let tol := (B2R len * / 4194304 + bpow radix2 (-73)) / B2R (reg 0%Z) in
  tol <= 1 -> lb (- (tol + bpow radix2 (-148))) (r (i + s * gxF g * gyF g)%Z).
Proof. intros Hx Hy H1 H2 H3 E Hr Hd Fb Bb Hs Hi len tol Ht. eapply (pml_quad_bound fmodf sinf cosf junk g nreg reg data ind_block Hx Hy); eauto; try lia. unfold emptyF. lia. Qed.

(** One slice, one angle of zero, two detector pixels, a grid of 2 x 2, beta = 0.1. *)
Section Example_.
  Local Open Scope Z_scope.
  Definition tenth : b32 := fdiv (of_int 1) (of_int 10).
  Definition ex_reg : arr b32 := fun i => if i =? 0 then tenth else of_int 1.
  Definition ex_pml hybrid l m := pmlF idF nilF oneF ex_junk ex_g hybrid 2 ex_reg (ints l) 1 (fun _ => 0) 1 (ints m).
  Example C126_example_quad : rdF 4 (ex_pml false [3; 5] [1; 1; 1; 1]) = Some [Some 132; Some 186; Some 132; Some 186].
  Proof. vm_compute. reflexivity. Qed.
  Example C126_example_hybrid : rdF 4 (ex_pml true [3; 5] [1; 2; 3; 4]) = Some [Some 87; Some 179; Some 240; Some 327].
  Proof. vm_compute. reflexivity. Qed.
  (** The same by C128 *)
  Definition ex_pass hybrid l m i := passes (fun p d => match segsF idF nilF oneF ex_junk ex_g (of_int 1) p d with Some l => l | None => [] end) 1 2 2 2 (fun p d => ints l (d + p * 2)) hybrid tenth (of_int 1) 1 (ints m) i.
  Example C128_example : map (fun i => to_int (fmul (of_int 100) (ex_pass true [3; 5] [1; 2; 3; 4] i))) [0; 1; 2; 3] = [Some 87; Some 179; Some 240; Some 327] /\
    offsets 2 2 0 0 = [(0, 1); (1, 0); (1, 1)] /\ length (offsets 3 3 1 1) = 8%nat /\ length (offsets 3 3 0 1) = 5%nat.
  Proof. vm_compute. repeat split. Qed.
  (** Three slices in one call; the second is the one above. *)
  Example C127_example : rdF 4 (match pmlF idF nilF oneF ex_junk ex_g3 true 2 ex_reg (ints [8; 8; 3; 5; 0; 1]) 1 (fun _ => 0) 1 (ints [9; 9; 9; 9; 1; 2; 3; 4; 6; 0; 6; 6]) with
    | Some r => Some (fun i => r (i + 4)) | None => None end) = Some [Some 87; Some 179; Some 240; Some 327].
  Proof. vm_compute. reflexivity. Qed.
  (** A grid of one row: the neighbours of its first pixel include one in front of the array. *)
  Definition row_g : geomF := mkGeomF 1 1 2 1 2 (fun _ => of_int 1) (fun _ => zeroF).
  Lemma ex_sizes : sizes_ok ex_g /\ small_ok ex_g /\ sizes_ok row_g /\ small_ok row_g.
  Proof.
    split; [|split; [|split]]; try (constructor; cbn; try lia); intros s _; destruct (of_int_ok 1 ltac:(lia)) as (F & E); (split; [exact F|]); match goal with |- (Rabs ?x <= _)%R => change x with (V (of_int 1)) end; rewrite E; apply Rabs_le; lra.
  Qed.
  Theorem C126_one_row_refuted : exists g data recon, sizes_ok g /\ small_ok g /\ gxF g = 1 /\ gyF g = 2 /\
    forall hybrid, pmlF idF nilF oneF ex_junk g hybrid 2 ex_reg data 1 (fun _ => 0) 1 recon = None.
  Proof.
    exists row_g, (ints [3; 5]), (ints [1; 1]). split; [apply ex_sizes|]. split; [apply ex_sizes|]. split; [reflexivity|]. split; [reflexivity|]. intros [|]; vm_compute; reflexivity.
  Qed.
  (** No measured value at all: the pixels should become 0 and become negative. *)
  Theorem C129_negative_refuted : exists g data recon, sizes_ok g /\ small_ok g /\ inP nn (ndata g) data /\ inP (fun x => is_finite x = true /\ nn x) (nrec g) recon /\
    exists r, pmlF idF nilF oneF ex_junk g false 2 ex_reg data 1 (fun _ => 0) 1 recon = Some r /\ forall i, 0 <= i < nrec g -> is_finite (r i) = true /\ (B2R (r i) < 0)%R.
  Proof.
    exists ex_g, (ints [0; 0]), (ints [1; 1; 1; 1]). split; [apply ex_sizes|]. split; [apply ex_sizes|]. split; [|split].
    - intros i Hi. cbn in Hi. assert (i = 0 \/ i = 1) as [->| ->] by lia; reflexivity.
    - intros i Hi. cbn in Hi. assert (i = 0 \/ i = 1 \/ i = 2 \/ i = 3) as [->|[->|[->| ->]]] by lia; split; reflexivity.
    - match goal with |- exists r, ?x = Some r /\ _ => assert (E : match x with Some r => map (fun i => B2SF (r i)) [0; 1; 2; 3] | None => [] end = repeat (SpecFloat.S754_finite true 8388608 (-49)) 4) by (vm_compute; reflexivity); destruct x as [r|]; [|discriminate] end.
      exists r. split; [reflexivity|]. assert (K : forall x : b32, B2SF x = SpecFloat.S754_finite true 8388608 (-49) -> is_finite x = true /\ (B2R x < 0)%R).
      { intros x Q. split; [rewrite <- is_finite_SF_B2SF, Q; reflexivity|]. rewrite <- SF2R_B2SF, Q. cbn. unfold F2R. cbn. lra. }
      injection E as E0 E1 E2 E3. intros i Hi. cbn in Hi. assert (i = 0 \/ i = 1 \/ i = 2 \/ i = 3) as [->|[->|[->| ->]]] by lia; apply K; assumption.
  Qed.
  (** The quantities of C129 here: F = 0.2, G with the lengths = -0.4 + 1 *)
  Example C129_example : let fg := pix_fg 2 2 false tenth (of_int 1) (ints [1; 1; 1; 1]) 0 0 in let sg := fun p d => match segsF idF nilF oneF ex_junk ex_g (of_int 1) p d with Some l => l | None => [] end in
    to_int (fmul (of_int 1000) (fst fg)) = Some 200 /\ to_int (fmul (of_int 1000) (snd fg)) = Some (-400) /\ to_int (fmul (of_int 1000) (pix_length sg 1 2 0)) = Some 1000 /\ pix_e sg 1 2 (fun p d => zeroF) (ints [1; 1; 1; 1]) 0 = zeroF.
  Proof. vm_compute. repeat split. Qed.
End Example_.

Print Assumptions C126_safe.
Print Assumptions C126_no_blocks_refuted.
Print Assumptions C127_slices.
Print Assumptions C128_value.
Print Assumptions C128_gamma.
Print Assumptions C129_discriminant.
Print Assumptions C129_pixel_e.
Print Assumptions C129_bound_partial.
Print Assumptions C129_quad_partial.
Print Assumptions C126_one_row_refuted.
Print Assumptions C129_negative_refuted.
