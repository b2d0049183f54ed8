(** C114-C116: the border between Python and C. *)
From Coq Require Import Reals Lra String.
From Verif Require Import Base CLoop Model_Prep Model_Ray Model_Solver Model_Ospml Model_Grad Model_Gridrec Model_Recon Model_Extern
  Spec_Extern Proofs_Extern Proofs_Extern2 Proofs_Extern3 Proofs_Extern4 Proofs_Recon Proofs_Gridrec Properties_Gridrec Properties_Penalty.
Local Open Scope string_scope.
Local Open Scope Z_scope.
Local Open Scope list_scope.

(** ** C114: every parameter of the C functions gets the value its name means *)
Definition algorithms : list string :=
  ["art"; "bart"; "fbp"; "gridrec"; "mlem"; "osem"; "ospml_hybrid"; "ospml_quad"; "pml_hybrid"; "pml_quad"; "sirt"; "tv"; "grad"; "tikh"].
Theorem C114_recon fresh tomo center recon theta alg w kw c :
  wrapper fresh tomo center recon theta alg = Some w -> w kw = Ok c ->
  c_fn c = target alg (match get kw "accelerated" with Some (Flag b) => b | _ => false end) /\
  binds (meant_recon tomo center recon theta kw alg) c.
Proof. exact (wrapper_binds fresh tomo center recon theta alg w kw c). Qed.
(** There is a wrapper for every algorithm and for nothing else. *)
Theorem C114_wrappers fresh tomo center recon theta alg : (exists w, wrapper fresh tomo center recon theta alg = Some w) <-> In alg algorithms.
Proof.
  split.
  - intros (w & H). unfold wrapper in H.
    repeat match type of H with (if String.eqb alg ?s then _ else _) = _ => destruct (String.eqb_spec alg s) as [->|?]; [cbn; tauto|] end. discriminate H.
  - intros H. cbn [In algorithms] in H. repeat (destruct H as [<-|H]; [eexists; reflexivity|]). destruct H.
Qed.
(** The call succeeds if every parameter has a value of a suitable kind. *)
Definition suits (t : ctype) (v : pyval) : Prop :=
  match t with
  | Pfloat | Pint | Pbool | Pushort => exists a, v = Arr a
  | Pchar => exists s, v = Str s
  | Int => (exists z, v = Num z) \/ (exists b, v = Flag b)
  | Float => (exists z, v = Num z) \/ (exists x, v = Flt x) \/ (exists x, v = F32scalar x) \/ (exists b, v = Flag b)
  end.
Lemma on_ok f t kw k : (forall v, suits t v -> exists a, f v = Ok a) -> (exists v, get kw k = Some v /\ suits t v) -> exists a, on f kw k = Ok a.
Proof. intros H (v & E & S). unfold on. rewrite E. auto. Qed.
Lemma f_ok v : suits Pfloat v -> exists a, as_c_float_p v = Ok a. Proof. intros (a & ->). eexists. reflexivity. Qed.
Lemma i_ok v : suits Int v -> exists a, as_c_int v = Ok a. Proof. intros [(z & ->)|(b & ->)]; eexists; reflexivity. Qed.
Lemma ip_ok v : suits Pint v -> exists a, as_c_int_p v = Ok a. Proof. intros (a & ->). eexists. reflexivity. Qed.
Lemma c_ok v : suits Pchar v -> exists a, as_c_char_p v = Ok a. Proof. intros (a & ->). eexists. reflexivity. Qed.
Lemma arguments_ok l : (forall r, In r l -> exists a, r = Ok a) -> exists args, arguments l = Ok args.
Proof.
  induction l as [|r l IH]; intros H; [now exists []|]. destruct (H r) as (a & ->); [now left|]. destruct IH as (args & E); [intros; apply H; now right|].
  cbn [arguments]. unfold Ok in *. rewrite E. eexists. reflexivity.
Qed.
Lemma call_with_ok tomo center recon theta fn kw rest : (exists n, stack_dims tomo n) ->
  (forall k, In k ["num_gridx"; "num_gridy"] -> exists v, get kw k = Some v /\ suits Int v) ->
  (forall r, In r rest -> exists a, r = Ok a) -> exists c, call_with tomo center recon theta fn kw rest = Ok c.
Proof.
  intros (n & Hn) Hg Hr. unfold call_with, with_dims. assert (exists m, dims tomo = Ok m) as ([[dy dt] dx] & ->).
  { unfold stack_dims in Hn. unfold dims. destruct (shape tomo) as [|x [|y [|z [|w l]]]]; try contradiction; eexists; reflexivity. }
  unfold Ok. unfold call_c. destruct (arguments_ok (common tomo center recon theta dy dt dx kw ++ rest)) as (args & E).
  - intros r H. apply in_app_iff in H. destruct H as [H|H]; [|now apply Hr]. cbn [common In] in H.
    repeat (destruct H as [<-|H]; [first [eexists; reflexivity | apply (on_ok as_c_int Int); [exact i_ok|apply Hg; cbn; tauto]]|]). destruct H.
  - rewrite E. eexists. reflexivity.
Qed.
Theorem C114_succeeds fresh tomo center recon theta alg w kw : wrapper fresh tomo center recon theta alg = Some w -> (exists n, stack_dims tomo n) ->
  (exists b, get kw "accelerated" = Some (Flag b)) ->
  (forall p t, In (p, t) (prototype (target alg (truth kw))) -> ~ In p ["data"; "dy"; "dt"; "dx"; "center"; "theta"; "recon"] ->
     (single alg = true -> p <> "num_block" /\ p <> "ind_block") -> exists v, get kw (key_of p) = Some v /\ suits t v) ->
  exists c, w kw = Ok c.
Proof.
  unfold wrapper. intros Hw Hn (b & Hb) Hk. assert (truth kw = b) as Tb by (unfold truth; now rewrite Hb). rewrite Tb in Hk.
  Ltac found Hk := match goal with
    | |- exists a, on _ (one_block _ _) "num_block" = Ok a => eexists; reflexivity
    | |- exists a, on _ (one_block _ _) "ind_block" = Ok a => eexists; reflexivity
    | |- exists a, on as_c_int ?kw ?k = Ok a => apply (on_ok as_c_int Int); [exact i_ok|]
    | |- exists a, on as_c_int_p ?kw ?k = Ok a => apply (on_ok as_c_int_p Pint); [exact ip_ok|]
    | |- exists a, on as_c_float_p ?kw ?k = Ok a => apply (on_ok as_c_float_p Pfloat); [exact f_ok|]
    | |- exists a, on as_c_char_p ?kw ?k = Ok a => apply (on_ok as_c_char_p Pchar); [exact c_ok|]
    end.
  Ltac have Hk k t := refine (Hk k t _ _ _); [cbn; tauto|cbn [In]; intros N; repeat (destruct N as [N|N]; [discriminate N|]); destruct N|
    cbn; intros; first [discriminate | split; discriminate]].
  Ltac solve_kw Hk := first [have Hk "ngridx" Int | have Hk "ngridy" Int | have Hk "num_iter" Int | have Hk "num_block" Int | have Hk "ind_block" Pint
     | have Hk "fname" Pchar | have Hk "filter_par" Pfloat | have Hk "reg_pars" Pfloat | have Hk "reg_data" Pfloat | have Hk "pool_size" Int
     | have Hk "interp" Pchar | have Hk "device" Pchar | have Hk "grid_size" Pint | have Hk "block_size" Pint].
  Ltac run Hn Hk := apply call_with_ok; [exact Hn|
     intros k H; cbn [In] in H; repeat (destruct H as [<-|H]; [solve_kw Hk|]); destruct H|
     intros r H; cbn [In app] in H; repeat (destruct H as [<-|H]; [first [found Hk; solve_kw Hk | found Hk]|]); destruct H].
  repeat match type of Hw with (if String.eqb alg ?s then _ else _) = _ => destruct (String.eqb_spec alg s) as [->|?]; [injection Hw as <-|] end; [..|discriminate Hw].
  all: unfold c_art, c_bart, c_fbp, c_gridrec, c_mlem, c_osem, c_ospml_hybrid, c_ospml_quad, c_pml_hybrid, c_pml_quad, c_sirt, c_tv, c_grad, c_tikh, penalised, blocks, if_accelerated; rewrite ?Hb;
    try destruct b; unfold c_osem, c_bart, c_accel, blocks; run Hn Hk.
Qed.
(** Integers from -2^31 to 2^31 - 1 arrive unchanged. *)
Theorem C114_int z c : - 2 ^ 31 <= z < 2 ^ 31 -> carried (Num z) Int (I c) -> c = z.
Proof. exact (as_int_id z c). Qed.
(** Others do not: four billion and one iterations are one. *)
Theorem C114_wrap_refuted fresh tomo center recon theta kw : (exists n, stack_dims tomo n) ->
  get kw "num_gridx" = Some (Num 1) -> get kw "num_gridy" = Some (Num 1) -> get kw "num_iter" = Some (Num (2 ^ 32 + 1)) ->
  exists w c, wrapper fresh tomo center recon theta "art" = Some w /\ w kw = Ok c /\ int_of c "num_iter" = 1.
Proof.
  intros (n & Hn) Hx Hy Hi. unfold wrapper. cbn [String.eqb Ascii.eqb Bool.eqb]. eexists. unfold c_art, call_with, with_dims.
  assert (exists m, dims tomo = Ok m) as ([[dy dt] dx] & E).
  { unfold stack_dims in Hn. unfold dims. destruct (shape tomo) as [|x [|y [|z [|w l]]]]; try contradiction; eexists; reflexivity. }
  eexists. split; [reflexivity|]. rewrite E. unfold Ok, common, on. rewrite Hx, Hy, Hi. split; [reflexivity|]. reflexivity.
Qed.
(** The type of the elements is not looked at: the address of doubles is taken for one of floats. *)
Theorem C114_dtype_refuted fresh center recon theta : exists tomo w kw c,
  wrapper fresh tomo center recon theta "art" = Some w /\ w kw = Ok c /\ value_of c "data" = Some (Ptr tomo) /\ elem_of tomo = F64 /\
  In ("data", Pfloat) (prototype (c_fn c)).
Proof.
  exists (mkArr 0 F64 [1; 1; 1]). eexists. exists [("num_gridx", Num 1); ("num_gridy", Num 1); ("num_iter", Num 1)]. eexists.
  split; [reflexivity|]. split; [reflexivity|]. split; [reflexivity|]. split; [reflexivity|]. now left.
Qed.

(** The other wrappers.  n, m: sizes of the stack of objects and of the sinograms. *)
Ltac binding := eapply call_binds; [|eassumption]; repeat (apply Forall2_cons); try apply Forall2_nil;
  (first [apply gives_val | apply gives_kw]; [eauto with carried|]; intros; first [reflexivity | assumption]).
Theorem C114_project obj center tomo theta c : c_project obj center tomo theta = Ok c ->
  exists n m, stack_dims obj n /\ stack_dims tomo m /\ c_fn c = "project" /\
  binds (meant_by [("obj", Arr obj); ("oy", Num (fst3 n)); ("ox", Num (snd3 n)); ("oz", Num (thd3 n)); ("data", Arr tomo); ("dy", Num (fst3 m));
                   ("dt", Num (snd3 m)); ("dx", Num (thd3 m)); ("center", Arr center); ("theta", Arr theta)]) c.
Proof.
  intros H. unfold c_project in H. apply with_dims_ok in H. destruct H as (oy & ox & oz & Ho & H). apply with_dims_ok in H. destruct H as (dy & dt & dx & Hd & H).
  exists (oy, ox, oz), (dy, dt, dx). split; [exact Ho|]. split; [exact Hd|]. binding.
Qed.
Theorem C114_project2 objx objy center tomo theta c : c_project2 objx objy center tomo theta = Ok c ->
  exists n m, stack_dims objx n /\ stack_dims tomo m /\ c_fn c = "project2" /\
  binds (meant_by [("objx", Arr objx); ("objy", Arr objy); ("oy", Num (fst3 n)); ("ox", Num (snd3 n)); ("oz", Num (thd3 n)); ("data", Arr tomo);
                   ("dy", Num (fst3 m)); ("dt", Num (snd3 m)); ("dx", Num (thd3 m)); ("center", Arr center); ("theta", Arr theta)]) c.
Proof.
  intros H. unfold c_project2 in H. apply with_dims_ok in H. destruct H as (oy & ox & oz & Ho & H). apply with_dims_ok in H. destruct H as (dy & dt & dx & Hd & H).
  exists (oy, ox, oz), (dy, dt, dx). split; [exact Ho|]. split; [exact Hd|]. binding.
Qed.
Theorem C114_project3 objx objy objz center tomo theta axis c : c_project3 objx objy objz center tomo theta axis = Ok c ->
  exists n m, stack_dims objx n /\ stack_dims tomo m /\ c_fn c = "project3" /\
  binds (meant_by [("objx", Arr objx); ("objy", Arr objy); ("objz", Arr objz); ("oy", Num (fst3 n)); ("ox", Num (snd3 n)); ("oz", Num (thd3 n));
                   ("data", Arr tomo); ("dy", Num (fst3 m)); ("dt", Num (snd3 m)); ("dx", Num (thd3 m)); ("center", Arr center);
                   ("theta", Arr theta); ("axis", axis)]) c.
Proof.
  intros H. unfold c_project3 in H. apply with_dims_ok in H. destruct H as (oy & ox & oz & Ho & H). apply with_dims_ok in H. destruct H as (dy & dt & dx & Hd & H).
  exists (oy, ox, oz), (dy, dt, dx). split; [exact Ho|]. split; [exact Hd|]. binding.
Qed.
Theorem C114_vector tomo center recon1 recon2 theta kw c : c_vector tomo center recon1 recon2 theta kw = Ok c ->
  exists n, stack_dims tomo n /\ c_fn c = "vector" /\
  binds (meant_or kw [("data", Arr tomo); ("dy", Num (fst3 n)); ("dt", Num (snd3 n)); ("dx", Num (thd3 n)); ("center", Arr center);
                      ("theta", Arr theta); ("recon1", Arr recon1); ("recon2", Arr recon2)]) c.
Proof.
  intros H. unfold c_vector in H. apply with_dims_ok in H. destruct H as (dy & dt & dx & Hd & H). exists (dy, dt, dx). split; [exact Hd|]. binding.
Qed.
Theorem C114_vector2 tomo1 tomo2 center1 center2 recon1 recon2 recon3 theta1 theta2 axis1 axis2 kw c :
  c_vector2 tomo1 tomo2 center1 center2 recon1 recon2 recon3 theta1 theta2 axis1 axis2 kw = Ok c ->
  exists n, stack_dims tomo1 n /\ c_fn c = "vector2" /\
  binds (meant_or kw [("data1", Arr tomo1); ("data2", Arr tomo2); ("dy", Num (fst3 n)); ("dt", Num (snd3 n)); ("dx", Num (thd3 n));
                      ("center1", Arr center1); ("center2", Arr center2); ("theta1", Arr theta1); ("theta2", Arr theta2); ("recon1", Arr recon1);
                      ("recon2", Arr recon2); ("recon3", Arr recon3); ("axis1", axis1); ("axis2", axis2)]) c.
Proof.
  intros H. unfold c_vector2 in H. apply with_dims_ok in H. destruct H as (dy & dt & dx & Hd & H). exists (dy, dt, dx). split; [exact Hd|]. binding.
Qed.
Theorem C114_vector3 tomo1 tomo2 tomo3 center1 center2 center3 recon1 recon2 recon3 theta1 theta2 theta3 axis1 axis2 axis3 kw c :
  c_vector3 tomo1 tomo2 tomo3 center1 center2 center3 recon1 recon2 recon3 theta1 theta2 theta3 axis1 axis2 axis3 kw = Ok c ->
  exists n, stack_dims tomo1 n /\ c_fn c = "vector3" /\
  binds (meant_or kw [("data1", Arr tomo1); ("data2", Arr tomo2); ("data3", Arr tomo3); ("dy", Num (fst3 n)); ("dt", Num (snd3 n));
                      ("dx", Num (thd3 n)); ("center1", Arr center1); ("center2", Arr center2); ("center3", Arr center3); ("theta1", Arr theta1);
                      ("theta2", Arr theta2); ("theta3", Arr theta3); ("recon1", Arr recon1); ("recon2", Arr recon2); ("recon3", Arr recon3);
                      ("axis1", axis1); ("axis2", axis2); ("axis3", axis3)]) c.
Proof.
  intros H. unfold c_vector3 in H. apply with_dims_ok in H. destruct H as (dy & dt & dx & Hd & H). exists (dy, dt, dx). split; [exact Hd|]. binding.
Qed.
Lemma shape3_ok {A} a (f : Z -> Z -> Z -> result A) r : shape3 a f = Ok r -> exists x y z, shape a = [x; y; z] /\ f x y z = Ok r.
Proof. unfold shape3. destruct (shape a) as [|x [|y [|z [|w l]]]]; intros H; try discriminate H. now exists x, y, z. Qed.
(** prep: a stack of dx projections (for remove_stripe_sf too) with dy rows of dz pixels *)
Theorem C114_prep tomo v c : c_normalize_bg tomo v = Ok c \/ c_remove_stripe_sf tomo v = Ok c ->
  exists x y z, shape tomo = [x; y; z] /\
  (c_fn c = "normalize_bg" /\ binds (meant_by [("data", Arr tomo); ("dx", Num x); ("dy", Num y); ("dz", Num z); ("nair", v)]) c \/
   c_fn c = "remove_stripe_sf" /\ binds (meant_by [("data", Arr tomo); ("dx", Num x); ("dy", Num y); ("dz", Num z); ("size", v); ("istart", Num 0); ("iend", Num y)]) c).
Proof.
  intros [H|H]; apply shape3_ok in H; destruct H as (x & y & z & E & H); exists x, y, z; (split; [exact E|]).
  - left. binding.
  - right. binding.
Qed.
(** The three-dimensional filters are given their sizes by the caller. *)
Theorem C114_detect input output sz radius ncore dx dy dz c : c_stripes_detect3d input output sz radius ncore dx dy dz = Ok c ->
  c_fn c = "stripesdetect3d_main_float" /\
  binds (meant_by [("Input", Arr input); ("Output", Arr output); ("window_halflength_vertical", sz); ("ratio_radius", radius); ("ncores", ncore);
                   ("dimX", dx); ("dimY", dy); ("dimZ", dz)]) c.
Proof. intros H. unfold c_stripes_detect3d in H. binding. Qed.
Theorem C114_mask input output threshold len depth width sens ncore dx dy dz c :
  c_stripesmask3d input output threshold len depth width sens ncore dx dy dz = Ok c ->
  c_fn c = "stripesmask3d_main_float" /\
  binds (meant_by [("Input", Arr input); ("Output", Arr output); ("threshold_val", threshold); ("stripe_length_min", len); ("stripe_depth_min", depth);
                   ("stripe_width_min", width); ("sensitivity", sens); ("ncores", ncore); ("dimX", dx); ("dimY", dy); ("dimZ", dz)]) c.
Proof. intros H. unfold c_stripesmask3d in H. binding. Qed.
Theorem C114_sample mode arr dx dy dz level axis out c : c_sample mode arr dx dy dz level axis out = Ok c ->
  c_fn c = "sample" /\
  binds (meant_by [("mode", mode); ("data", Arr arr); ("dx", dx); ("dy", dy); ("dz", dz); ("level", level); ("axis", axis); ("out", Arr out)]) c.
Proof. intros H. unfold c_sample in H. binding. Qed.
Theorem C114_ring rec x y dx dy dz tmax tmin thresh thmin rw mode iend l c : shape rec = iend :: l ->
  c_remove_ring rec [x; y; dx; dy; dz; tmax; tmin; thresh; thmin; rw; mode] = Ok c ->
  c_fn c = "remove_ring" /\
  binds (meant_by [("data", Arr rec); ("center_x", x); ("center_y", y); ("dx", dx); ("dy", dy); ("dz", dz); ("thresh_max", tmax); ("thresh_min", tmin);
                   ("threshold", thresh); ("angular_min", thmin); ("ring_width", rw); ("int_mode", mode); ("istart", Num 0); ("iend", Num iend)]) c.
Proof. intros E H. unfold c_remove_ring in H. rewrite E in H. binding. Qed.
Theorem C114_median_float input output khs absdif ncore dx dy dz c :
  c_median_filt3d_float32 input output khs absdif ncore dx dy dz = Ok c ->
  c_fn c = "medianfilter_main_float" /\
  binds (meant_by [("Input", Arr input); ("Output", Arr output); ("radius", khs); ("mu_threshold", absdif); ("ncores", ncore); ("dimX", dx);
                   ("dimY", dy); ("dimZ", dz)]) c.
Proof. intros H. unfold c_median_filt3d_float32, c_median in H. binding. Qed.
Theorem C114_median_uint16 input output khs absdif ncore dx dy dz c :
  c_median_filt3d_uint16 input output khs absdif ncore dx dy dz = Ok c ->
  c_fn c = "medianfilter_main_uint16" /\
  binds (meant_by [("Input", Arr input); ("Output", Arr output); ("radius", khs); ("mu_threshold", absdif); ("ncores", ncore); ("dimX", dx);
                   ("dimY", dy); ("dimZ", dz)]) c.
Proof. intros H. unfold c_median_filt3d_uint16, c_median in H. binding. Qed.
Theorem C114_inpainter input mask output iter khs method ncore dx dy dz c : c_inpainter input mask output iter khs method ncore dx dy dz = Ok c ->
  c_fn c = "Inpainter_morph_main" /\
  binds (meant_by [("Input", Arr input); ("Mask", Arr mask); ("Output", Arr output); ("iterations", iter); ("W_halfsize", khs); ("method_type", method);
                   ("ncores", ncore); ("dimX", dx); ("dimY", dy); ("dimZ", dz)]) c.
Proof. intros H. unfold c_inpainter in H. binding. Qed.

(** ** C115: which cells of their arrays the C functions touch

    Two runs whose arrays agree on the cells counted by [needed] give volumes that agree on the cells of the volume, whatever is
    behind the arrays and in the work arrays; nothing outside the volume is changed. *)
Section Footprints.
  Variables (gx gy dy dt dx : Z) (num_block : Z) (fn fname : string) (pdim : Z).
  Notation need p := (needed fn fname pdim (ints dy dt dx gx gy num_block) p).
  Variables (center center' theta theta' data data' : arr R).
  Let g := mkGeom gx gy dy dt dx center theta.
  Let g' := mkGeom gx gy dy dt dx center' theta'.
  Hypothesis Hx : 1 <= gx.
  Hypothesis Hy : 1 <= gy.
  Hypothesis Hdata : agree (need "data") data data'.
  Hypothesis Hcenter : agree (need "center") center center'.
  Hypothesis Htheta : agree (need "theta") theta theta'.
  Lemma cells_recon : need "recon" = dy * npix g. Proof. unfold needed, npix, g. cbn. lia. Qed.
  Lemma geoms n : need "center" = n -> same_geom n g g'.
  Proof. intros <-. split; try reflexivity; [exact Hcenter|exact Htheta]. Qed.
  Lemma not_art : fn <> "art" -> need "center" = dy. Proof. intros N. unfold needed. cbn. now rewrite (proj2 (String.eqb_neq fn "art") N). Qed.

  Theorem C115_art n r r' sd sd' : fn = "art" -> agree (need "recon") r r' ->
    agree (need "recon") (art g data n r sd) (art g' data' n r' sd') /\ untouched (need "recon") r (art g data n r sd).
  Proof.
    intros Ef Hr. assert (need "center" = 1) as E by (unfold needed; now rewrite Ef). rewrite cells_recon in *. split.
    - exact (art_rel g g' 1 (geoms 1 E) Hx Hy ltac:(lia) data data' Hdata n r r' sd sd' Hr).
    - exact (art_out g Hx Hy data n r sd).
  Qed.
  Theorem C115_fbp r r' : fn = "fbp" -> agree (need "recon") r r' ->
    agree (need "recon") (fbp g data r) (fbp g' data' r') /\ untouched (need "recon") r (fbp g data r).
  Proof.
    intros Ef Hr. pose proof (not_art ltac:(now rewrite Ef)) as E. rewrite cells_recon in *. split.
    - exact (fbp_rel g g' dy (geoms dy E) Hx Hy data data' r r' ltac:(cbn; lia) Hdata Hr).
    - exact (fbp_out g Hx Hy data r).
  Qed.
  (** grad, tikh and tv read their parameters from reg_pars and the prior of tikh from reg_data. *)
  Theorem C115_grad reg reg' n r r' sm sm' gr gr' g0 g0' : fn = "grad" -> agree (need "reg_pars") reg reg' -> agree (need "recon") r r' ->
    agree (need "recon") (grad g data (reg 0) n r sm gr g0) (grad g' data' (reg' 0) n r' sm' gr' g0') /\
    untouched (need "recon") r (grad g data (reg 0) n r sm gr g0).
  Proof.
    intros Ef Hreg Hr. pose proof (not_art ltac:(now rewrite Ef)) as E. rewrite cells_recon in *.
    rewrite <- (Hreg 0) by (unfold needed; rewrite Ef; cbn; lia). split.
    - exact (gd_rel g g' dy (geoms dy E) Hx Hy ltac:(cbn; lia) data data' Hdata (reg 0) None None Logic.I n r r' sm sm' gr gr' g0 g0' Hr).
    - exact (gd_out g Hx data (reg 0) None n r sm gr g0).
  Qed.
  Theorem C115_tikh reg reg' prior prior' n r r' sm sm' gr gr' g0 g0' : fn = "tikh" -> agree (need "reg_pars") reg reg' ->
    agree (need "reg_data") prior prior' -> agree (need "recon") r r' ->
    agree (need "recon") (tikh g data (reg 0) (reg 1) prior n r sm gr g0) (tikh g' data' (reg' 0) (reg' 1) prior' n r' sm' gr' g0') /\
    untouched (need "recon") r (tikh g data (reg 0) (reg 1) prior n r sm gr g0).
  Proof.
    intros Ef Hreg Hp Hr. pose proof (not_art ltac:(now rewrite Ef)) as E. change (need "reg_data") with (need "recon") in Hp. rewrite cells_recon in *.
    rewrite <- (Hreg 0), <- (Hreg 1) by (unfold needed; rewrite Ef; cbn; lia). split.
    - exact (gd_rel g g' dy (geoms dy E) Hx Hy ltac:(cbn; lia) data data' Hdata (reg 0) (Some (reg 1, prior)) (Some (reg 1, prior')) (conj eq_refl Hp) n r r' sm sm' gr gr' g0 g0' Hr).
    - exact (gd_out g Hx data (reg 0) (Some (reg 1, prior)) n r sm gr g0).
  Qed.
  Theorem C115_tv reg reg' n r r' x x' y y' p1 p1' sm sm' a a' : fn = "tv" -> agree (need "reg_pars") reg reg' -> agree (need "recon") r r' ->
    agree (need "recon") (tv g data (reg 0) n r x y p1 sm a) (tv g' data' (reg' 0) n r' x' y' p1' sm' a') /\
    untouched (need "recon") r (tv g data (reg 0) n r x y p1 sm a).
  Proof.
    intros Ef Hreg Hr. pose proof (not_art ltac:(now rewrite Ef)) as E. rewrite cells_recon in *.
    rewrite <- (Hreg 0) by (unfold needed; rewrite Ef; cbn; lia). split.
    - exact (tv_rel g g' dy (geoms dy E) Hx Hy ltac:(cbn; lia) data data' Hdata (reg 0) n r r' x x' y y' p1 p1' sm sm' a a' Hr).
    - exact (tv_out g Hx data (reg 0) n r x y p1 sm a).
  Qed.

  (** The solvers with subsets: the entries of ind_block that are read name projections. *)
  Section Blocks.
    Variables ib ib' : arr Z.
    Hypothesis Hib : agree (need "ind_block") ib ib'.
    Hypothesis Hin : forall q, 0 <= q < need "ind_block" -> 0 <= ib q < dt.
    Hypothesis Hnb : 1 <= num_block.
    Hypothesis Hdt : 0 <= dt.
    Lemma blocks_same : num_block <> 1 -> agree (Model_Solver.dt g) ib ib' /\ forall q, 0 <= q < Model_Solver.dt g -> 0 <= ib q < Model_Solver.dt g.
    Proof.
      intros N. assert (need "ind_block" = dt) as E by (unfold needed; cbn; now rewrite (proj2 (Z.eqb_neq num_block 1) N)).
      rewrite E in Hib, Hin. split; [exact Hib|exact Hin].
    Qed.
    Theorem C115_subsets (rl : rule) n r r' sm sm' sd sd' u u' : fn = "bart" /\ rl = bart_rule \/ fn = "osem" /\ rl = osem_rule ->
      agree (need "recon") r r' ->
      agree (need "recon") (os_solve g rl data num_block ib n r sm sd u) (os_solve g' rl data' num_block ib' n r' sm' sd' u') /\
      untouched (need "recon") r (os_solve g rl data num_block ib n r sm sd u).
    Proof.
      intros Ef Hr. assert (need "center" = dy) as E by (apply not_art; destruct Ef as [(-> & _)|(-> & _)]; discriminate). rewrite cells_recon in *. split.
      - exact (os_rel g g' dy (geoms dy E) Hx Hy ltac:(cbn; lia) data data' Hdata num_block ib ib' blocks_same Hnb Hdt rl n r r' sm sm' sd sd' u u' Hr).
      - exact (os_out g data num_block ib Hnb Hdt rl n r sm sd u).
    Qed.
    (** The penalised solvers, on images of at least 2 x 2 pixels. *)
    Theorem C115_quad reg reg' n r r' : fn = "ospml_quad" -> 2 <= gx -> 2 <= gy -> agree (need "reg_pars") reg reg' -> agree (need "recon") r r' ->
      agree (need "recon") (ospml_quad (reg 0) g data num_block ib n r) (ospml_quad (reg' 0) g' data' num_block ib' n r') /\
      untouched (need "recon") r (ospml_quad (reg 0) g data num_block ib n r).
    Proof.
      intros Ef Hx2 Hy2 Hreg Hr. pose proof (not_art ltac:(now rewrite Ef)) as E. rewrite cells_recon in *.
      rewrite <- (Hreg 0) by (unfold needed; rewrite Ef; cbn; lia). split.
      - exact (ospml_rel g g' dy (geoms dy E) Hx Hy ltac:(cbn; lia) data data' Hdata num_block ib ib' blocks_same Hnb Hdt quad_gamma (reg 0) Hx2 Hy2 n r r' Hr).
      - exact (ospml_out g Hy data num_block ib Hnb Hdt quad_gamma (reg 0) Hx2 Hy2 n r).
    Qed.
    Theorem C115_hybrid reg reg' n r r' : fn = "ospml_hybrid" -> 2 <= gx -> 2 <= gy -> agree (need "reg_pars") reg reg' -> agree (need "recon") r r' ->
      agree (need "recon") (ospml_hybrid (reg 0) (reg 1) g data num_block ib n r) (ospml_hybrid (reg' 0) (reg' 1) g' data' num_block ib' n r') /\
      untouched (need "recon") r (ospml_hybrid (reg 0) (reg 1) g data num_block ib n r).
    Proof.
      intros Ef Hx2 Hy2 Hreg Hr. pose proof (not_art ltac:(now rewrite Ef)) as E. rewrite cells_recon in *.
      rewrite <- (Hreg 0), <- (Hreg 1) by (unfold needed; rewrite Ef; cbn; lia). split.
      - exact (ospml_rel g g' dy (geoms dy E) Hx Hy ltac:(cbn; lia) data data' Hdata num_block ib ib' blocks_same Hnb Hdt (hybrid_gamma (reg 1)) (reg 0) Hx2 Hy2 n r r' Hr).
      - exact (ospml_out g Hy data num_block ib Hnb Hdt (hybrid_gamma (reg 1)) (reg 0) Hx2 Hy2 n r).
    Qed.
  End Blocks.

  (** gridrec: images up to the padded width; smaller ones do not depend on uninitialised memory either. *)
  Lemma padded_unique p q : is_padded dx p -> is_padded dx q -> p = q.
  Proof.
    intros ((k & Ek) & H16 & Hd & Hm) ((l & El) & L16 & Ld & Lm).
    assert (G : forall a b : nat, (a < b)%nat -> 2 * 2 ^ Z.of_nat a <= 2 ^ Z.of_nat b).
    { intros a b Hab. replace (Z.of_nat b) with (Z.of_nat a + 1 + Z.of_nat (b - a - 1)) by lia. rewrite !Z.pow_add_r by lia.
      pose proof (Z.pow_pos_nonneg 2 (Z.of_nat a) ltac:(lia) ltac:(lia)). pose proof (Z.pow_pos_nonneg 2 (Z.of_nat (b - a - 1)) ltac:(lia) ltac:(lia)). nia. }
    destruct (Nat.lt_trichotomy k l) as [Hl|[->|Hl]].
    - pose proof (G k l Hl). lia.
    - congruence.
    - pose proof (G l k Hl). lia.
  Qed.
  Lemma pdim_padded : is_padded dx (pdim_of dx).
  Proof.
    destruct (pdim_spec dx) as (k & H4 & E & H & H'). split; [exists (Z.to_nat k); rewrite Z2Nat.id by lia; exact E|]. destruct (pdim_ge dx). auto.
  Qed.
  Theorem C115_gridrec par par' mem mem' r r' : fn = "gridrec" -> is_padded dx pdim -> 1 <= dy -> 1 <= dt -> 1 <= dx ->
    agree (need "filter_par") par par' -> agree (need "recon") r r' ->
    (gx < pdim /\ gy < pdim \/ gx <= pdim /\ gy <= pdim /\ mem = mem') ->
    agree (need "recon") (gridrec dy dt dx gx gy (get_filter fname par) (filter_is_2d fname) mem data center theta r)
                         (gridrec dy dt dx gx gy (get_filter fname par') (filter_is_2d fname) mem' data' center' theta' r') /\
    untouched (need "recon") r (gridrec dy dt dx gx gy (get_filter fname par) (filter_is_2d fname) mem data center theta r).
  Proof.
    intros Ef Hp Hdy Hdt Hdx Hpar Hr Hm. pose proof (padded_unique _ _ Hp pdim_padded) as Epd. destruct (pdim_ge dx) as (P16 & _).
    assert (need "recon" = dy * gx * gy) as Er by reflexivity. rewrite Er in *.
    assert (need "center" = dy) as Ec by (apply not_art; now rewrite Ef). rewrite Ec in Hcenter.
    assert (need "filter_par" = filter_cells fname dt (pdim_of dx)) as Ep by (rewrite <- Epd; unfold needed; now rewrite Ef). rewrite Ep in Hpar. rewrite Epd in Hm.
    pose proof (filter_reads fname par par' dt (pdim_of dx) P16 Hpar) as Hf.
    split; [|apply (gridrec_out dy dt dx gx gy (get_filter fname par) (get_filter fname par)); try lia; reflexivity].
    assert (A : forall m, agree (dy * gx * gy) (gridrec dy dt dx gx gy (get_filter fname par) (filter_is_2d fname) m data center theta r)
                         (gridrec dy dt dx gx gy (get_filter fname par') (filter_is_2d fname) m data' center' theta' r')).
    { intros m. apply gridrec_rel; auto. }
    destruct Hm as [(Hgx & Hgy)|(_ & _ & ->)]; [|apply A].
    intros i Hi. rewrite (A mem i Hi).
    assert (B : 0 < gx * gy) by nia.
    set (s := i / (gx * gy)). set (q := i mod (gx * gy)). assert (Ei : i = voxel gx gy s (q / gy) (q mod gy)).
    { unfold voxel, s, q. pose proof (Z.div_mod i (gx * gy) ltac:(lia)). pose proof (Z.div_mod (i mod (gx * gy)) gy ltac:(lia)). lia. }
    pose proof (Z.mod_pos_bound i (gx * gy) B) as Bq. fold q in Bq. pose proof (Z.mod_pos_bound q gy ltac:(lia)).
    rewrite Ei. apply C76_memory; try lia.
    - unfold fits. lia.
    - unfold s. split; [apply Z.div_pos; lia|apply Z.div_lt_upper_bound; lia].
    - split; [apply Z.div_pos; lia|apply Z.div_lt_upper_bound; lia].
  Qed.
End Footprints.
(** The projections: only the sinograms are written. *)
Theorem C115_project gx gy dy dt dx center center' theta theta' obj obj' data data' : 1 <= gx -> 1 <= gy ->
  agree 1 center center' -> agree dt theta theta' -> agree (dy * gx * gy) obj obj' -> agree (dy * dt * dx) data data' ->
  agree (dy * dt * dx) (project (mkGeom gx gy dy dt dx center theta) obj data) (project (mkGeom gx gy dy dt dx center' theta') obj' data') /\
  untouched (dy * dt * dx) data (project (mkGeom gx gy dy dt dx center theta) obj data).
Proof.
  intros Hx Hy Hc Ht Ho Hd. set (g := mkGeom gx gy dy dt dx center theta). set (g' := mkGeom gx gy dy dt dx center' theta').
  assert (same_geom 1 g g') as Hg by (split; try reflexivity; assumption). split.
  - refine (project_rel g g' 1 Hg Hx Hy obj obj' data data' ltac:(lia) _ Hd). unfold npix. cbn. now rewrite Z.mul_assoc.
  - exact (project_out g obj data).
Qed.
(** normalize_bg: a stack of dx projections of dy rows of dz pixels. *)
Theorem C115_normalize_bg dx dy dz nair data data' : 0 <= dx -> 0 <= dy -> nair <= dz -> agree (dx * dy * dz) data data' ->
  agree (dx * dy * dz) (normalize_bg dx dy dz nair data) (normalize_bg dx dy dz nair data') /\
  untouched (dx * dy * dz) data (normalize_bg dx dy dz nair data).
Proof.
  intros Hx Hy Hn H. set (M := dx * dy * dz) in *.
  assert (In_row : forall m n j, 0 <= m < dx -> 0 <= n < dy -> 0 <= j < dz -> 0 <= m * (dz * dy) + n * dz + j < M).
  { intros m n j Hm Hn' Hj. unfold M. assert (0 <= m * dy + n) by nia. assert (m * dy + n + 1 <= dx * dy) by nia.
    assert ((m * dy + n + 1) * dz <= dx * dy * dz) by (apply Z.mul_le_mono_nonneg_r; lia). assert (0 <= (m * dy + n) * dz) by (apply Z.mul_nonneg_nonneg; lia). lia. }
  split.
  - unfold normalize_bg. apply for_rel; auto. intros m d d' Hm Hd. apply for_rel; auto. intros n e e' Hn' He. unfold bg_row.
    set (i := m * (dz * dy) + n * dz).
    assert (E : for_ nair (fun j lr => (fst lr + e (i + j)%Z, snd lr + e (i + dz - 1 - j)%Z))%R (0, 0)%R =
                for_ nair (fun j lr => (fst lr + e' (i + j)%Z, snd lr + e' (i + dz - 1 - j)%Z))%R (0, 0)%R).
    { apply (for_rel eq); auto. intros j lr lr' Hj ->. pose proof (In_row m n j Hm Hn' ltac:(lia)). pose proof (In_row m n (dz - 1 - j) Hm Hn' ltac:(lia)).
      rewrite (He (i + j)) by (unfold i; lia). rewrite (He (i + dz - 1 - j)) by (unfold i; lia). reflexivity. }
    revert E. destruct (for_ nair _ _) as [l r]. destruct (for_ nair _ _) as [l' r']. intros E. injection E as -> ->. cbv zeta. apply (for_rel (agree M)); [|exact He]. intros j u v Hj Hu.
    rewrite (Hu (i + j)%Z) by (apply In_row; assumption). apply agree_aset; auto.
  - unfold normalize_bg. apply for_keep; [|apply untouched_refl]. intros m d Hm Hd. apply for_keep; auto. intros n e Hn' He. unfold bg_row.
    destruct (for_ nair _ _) as [l r]. cbv zeta. apply (for_keep (untouched M data)); auto. intros j u Hj Hu. apply untouched_aset; auto.
Qed.
(** More air pixels than a row has: cells in front of the array are read. *)
Lemma bg3 d : let l := ((0 + d 0%Z + d 1%Z + d 2%Z) / 3)%R in let r := ((0 + d 1%Z + d 0%Z + d (-1)%Z) / 3)%R in
  (0 < l)%R -> (0 < r)%R -> normalize_bg 1 1 2 3 d 1 = (d 1%Z / r)%R.
Proof.
  intros l r Hl Hr. transitivity (d 1%Z / ((if Rle_dec l 0 then 1 else l) + ((if Rle_dec r 0 then 1 else r) - (if Rle_dec l 0 then 1 else l)) / 1 * 1))%R; [reflexivity|].
  destruct (Rle_dec l 0); [lra|]. destruct (Rle_dec r 0); [lra|]. f_equal. field.
Qed.
Theorem C115_normalize_bg_refuted : exists data data', agree (1 * 1 * 2) data data' /\ normalize_bg 1 1 2 3 data 1 <> normalize_bg 1 1 2 3 data' 1.
Proof.
  exists (fun _ => 1%R), (fun i => if (i =? -1)%Z then 4%R else 1%R). split.
  - intros i Hi. destruct (i =? -1) eqn:E; auto. lia.
  - rewrite !bg3 by (cbn; lra). cbn. lra.
Qed.
(** An image of one row: the penalised solvers read behind the volume (C59 has what this does to results). *)
Theorem C115_row_refuted : exists g data recon recon', ngridx g = 1 /\ agree (npix g) recon recon' /\
  ~ agree (npix g) (ospml_quad 1 g data 1 (fun q => q) 1 recon) (ospml_quad 1 g data 1 (fun q => q) 1 recon').
Proof.
  destruct C59_single_row_refuted as (g & data & r & r' & V & E1 & E2 & Hr & _ & Hn). exists g, data, r, r'. split; [exact E1|]. split.
  - intros i Hi. apply Hr. lia.
  - intros F. apply Hn. apply F. unfold npix. rewrite E1, E2. lia.
Qed.

(** ** C116: recon gives the C functions arrays that are long enough *)
Theorem C116_bounds fresh alg dy dt dx tomo theta center init user lo hi c :
  fair alg dy dt dx tomo theta center init user lo hi -> recon_call fresh dy dt dx alg tomo theta center init user lo hi = Ok c ->
  forall n p t a pdim, is_padded dx pdim -> nth_error (prototype (c_fn c)) n = Some (p, t) -> nth_error (c_args c) n = Some (t, Ptr a) ->
  needed (c_fn c) (string_of c "fname") pdim (int_of c) p <= size a /\ elem_of a = elem_for t.
Proof. intros Hf Hc n p t a pdim. now apply (long_enough fresh alg dy dt dx tomo theta center init user lo hi c Hf Hc). Qed.
(** What arrives: the slices of the chunk, all angles, the options of the caller and else what the documentation says. *)
Theorem C116_values fresh alg dy dt dx tomo theta center init user lo hi c :
  fair alg dy dt dx tomo theta center init user lo hi -> recon_call fresh dy dt dx alg tomo theta center init user lo hi = Ok c ->
  c_fn c = target alg (match get user "accelerated" with Some (Flag b) => b | _ => false end) /\
  binds (meant_call alg dy dt dx tomo theta center init user lo hi) c.
Proof. exact (recon_call_binds fresh alg dy dt dx tomo theta center init user lo hi c). Qed.
(** Options that the algorithm does not know raise ValueError. *)
Theorem C116_unknown fresh alg dy dt dx tomo theta center init user lo hi k :
  ~ In k (allowed_for alg) -> get user k <> None -> recon_call fresh dy dt dx alg tomo theta center init user lo hi = Raise ValueError.
Proof.
  intros Hk Hu. unfold recon_call, recon_kwargs.
  assert (H : convert_all fresh (allowed_for alg) user = Raise ValueError).
  { induction user as [|[q v] l IH]; [now elim Hu|]. cbn [convert_all get] in *.
    destruct (mem_str q (allowed_for alg)) eqn:E; cbn [negb]; [|reflexivity].
    destruct (String.eqb_spec q k) as [->|N]; [exfalso; apply Hk; now apply mem_str_In|].
    unfold convert. destruct (float_key q); [destruct v|]; try reflexivity; now rewrite (IH Hu). }
  now rewrite H.
Qed.
(** A call without options is fair and reaches the C function. *)
Theorem C116_default fresh alg dy dt dx tomo theta center lo hi : In alg algorithms ->
  shape tomo = [dy; dt; dx] -> elem_of tomo = F32 -> shape theta = [dt] -> elem_of theta = F32 -> shape center = [dy] -> elem_of center = F32 ->
  1 <= dy < 2 ^ 31 -> 1 <= dt < 2 ^ 31 -> 1 <= dx < 2 ^ 31 -> 0 <= lo < hi -> hi <= dy ->
  fair alg dy dt dx tomo theta center None [] lo hi /\ exists c, recon_call fresh dy dt dx alg tomo theta center None [] lo hi = Ok c.
Proof.
  intros Ha Ts Te As Ae Cs Ce By Bt Bx Bl Bh. split.
  - split; auto; try discriminate; try (intros; discriminate); cbn; try lia.
  - assert (E : (dx <? 0) = false) by lia.
    destruct tomo as [ti te ts]. cbn in Ts, Te. subst ts.
    cbn [In algorithms] in Ha. repeat (destruct Ha as [<-|Ha]; [unfold recon_call, init_recon, new_recon; cbn; rewrite E; cbn; eexists; reflexivity|]). destruct Ha.
Qed.

(** What is not checked. *)
Definition a3 (n : nat) (x y z : Z) : ndarray := mkArr n F32 [x; y; z].
Definition a1 (n : nat) (x : Z) : ndarray := mkArr n F32 [x].
(** The call of [alg] reads or writes behind the array given for [p]. *)
Definition overruns (c : ccall) (p : string) : Prop := exists a pdim, is_padded (int_of c "dx") pdim /\ value_of c p = Some (Ptr a) /\
  size a < needed (c_fn c) (string_of c "fname") pdim (int_of c) p.
Lemma padded16 dx : dx <= 16 -> is_padded dx 16. Proof. intros H. split; [now exists 4%nat|]. lia. Qed.
Ltac overrun := eexists; split; [reflexivity|]; eexists; exists 16; split; [apply padded16; vm_compute; discriminate|]; split; [reflexivity|]; vm_compute; reflexivity.
(** init_recon of another size than the image *)
Theorem C116_init_refuted : exists c, recon_call 100 1 1 4 "art" (a3 0 1 1 4) (a1 1 1) (a1 2 1) (Some (a3 3 1 2 2)) [] 0 1 = Ok c /\ overruns c "recon".
Proof. overrun. Qed.
(** one number for the two parameters of tikh, pml_hybrid and ospml_hybrid *)
Theorem C116_reg_par_refuted : forall alg, In alg ["tikh"; "pml_hybrid"; "ospml_hybrid"] ->
  exists c, recon_call 100 1 1 4 alg (a3 0 1 1 4) (a1 1 1) (a1 2 1) None [("reg_par", Flt (1 / 2))] 0 1 = Ok c /\ overruns c "reg_pars".
Proof. intros alg H. cbn [In] in H. destruct H as [<-|[<-|[<-|[]]]]; overrun. Qed.
(** an order of fewer projections than there are *)
Theorem C116_ind_block_refuted : exists c, recon_call 100 1 3 4 "osem" (a3 0 1 3 4) (a1 1 3) (a1 2 1) None
  [("num_block", Num 2); ("ind_block", Arr (mkArr 7 I32 [2]))] 0 1 = Ok c /\ overruns c "ind_block".
Proof. overrun. Qed.
(** the default prior of tikh on an image wider than the detector *)
Theorem C116_reg_data_refuted : exists c, recon_call 100 1 1 4 "tikh" (a3 0 1 1 4) (a1 1 1) (a1 2 1) None
  [("num_gridx", Num 5); ("num_gridy", Num 5)] 0 1 = Ok c /\ overruns c "reg_data".
Proof. overrun. Qed.
(** a custom filter without its table *)
Theorem C116_filter_refuted : forall f, f = "custom" \/ f = "custom2d" ->
  exists c, recon_call 100 1 2 4 "gridrec" (a3 0 1 2 4) (a1 1 2) (a1 2 1) None [("filter_name", Str f)] 0 1 = Ok c /\ overruns c "filter_par".
Proof. intros f [-> | ->]; overrun. Qed.
(** no subsets: dt is divided by zero *)
Theorem C116_num_block_refuted : exists c, recon_call 100 1 3 4 "osem" (a3 0 1 3 4) (a1 1 3) (a1 2 1) None [("num_block", Num 0)] 0 1 = Ok c /\
  int_of c "num_block" = 0.
Proof. eexists. split; reflexivity. Qed.
(** A fair call of one chunk whose indices do not fit into int. *)
Theorem C116_int_refuted : exists tomo theta center c, fair "art" 512 1 2048 tomo theta center None [] 0 512 /\
  recon_call 100 512 1 2048 "art" tomo theta center None [] 0 512 = Ok c /\ 2 ^ 31 <= needed (c_fn c) "" 0 (int_of c) "recon".
Proof.
  exists (a3 0 512 1 2048), (a1 1 1), (a1 2 512).
  destruct (C116_default 100 "art" 512 1 2048 (a3 0 512 1 2048) (a1 1 1) (a1 2 512) 0 512) as (F & _); try reflexivity; try lia; [cbn; tauto|].
  eexists. split; [exact F|]. split; [reflexivity|]. vm_compute. discriminate.
Qed.
(** A numpy.float32 as reg_par has no address. *)
Theorem C116_float32_refuted x : recon_call 100 1 1 4 "tv" (a3 0 1 1 4) (a1 1 1) (a1 2 1) None [("reg_par", F32scalar x)] 0 1 = Raise AttributeError.
Proof. reflexivity. Qed.
(** Other numbers are accepted there. *)
Theorem C116_number x : exists c, recon_call 100 1 1 4 "tv" (a3 0 1 1 4) (a1 1 1) (a1 2 1) None [("reg_par", Flt x)] 0 1 = Ok c.
Proof. eexists. reflexivity. Qed.

(** Examples: a call of osem with two subsets, what its parameters receive and how long the arrays are. *)
Definition ex_call := recon_call 100 2 3 4 "osem" (a3 0 2 3 4) (a1 1 3) (a1 2 2) None [("num_block", Num 2); ("num_iter", Num 5)] 0 1.
Example ex_C114_osem : exists c, ex_call = Ok c /\ c_fn c = "osem" /\ int_of c "dy" = 1 /\ int_of c "dt" = 3 /\ int_of c "dx" = 4 /\
  int_of c "num_iter" = 5 /\ int_of c "num_block" = 2 /\ int_of c "ngridx" = 4.
Proof. eexists. split; [reflexivity|]. vm_compute. repeat split. Qed.
Example ex_C114_wrap : wrap32 (2 ^ 32 + 7) = 7 /\ wrap32 (2 ^ 31) = - 2 ^ 31. Proof. split; reflexivity. Qed.
Example ex_C115_needed : needed "osem" "" 16 (ints 1 3 4 4 4 2) "ind_block" = 3 /\ needed "osem" "" 16 (ints 1 3 4 4 4 2) "recon" = 16 /\
  needed "gridrec" "custom" 16 (ints 1 3 4 4 4 1) "filter_par" = 8 /\ needed "art" "" 16 (ints 2 3 4 4 4 1) "center" = 1.
Proof. repeat split. Qed.
Example ex_C116_osem : exists c a, ex_call = Ok c /\ value_of c "recon" = Some (Ptr a) /\ size a = 16.
Proof. eexists. eexists. split; [reflexivity|]. split; reflexivity. Qed.

Print Assumptions C114_recon.
Print Assumptions C114_wrappers.
Print Assumptions C114_succeeds.
Print Assumptions C114_int.
Print Assumptions C114_wrap_refuted.
Print Assumptions C114_dtype_refuted.
Print Assumptions C114_project.
Print Assumptions C114_project2.
Print Assumptions C114_project3.
Print Assumptions C114_vector.
Print Assumptions C114_vector2.
Print Assumptions C114_vector3.
Print Assumptions C114_prep.
Print Assumptions C114_detect.
Print Assumptions C114_mask.
Print Assumptions C114_sample.
Print Assumptions C114_ring.
Print Assumptions C114_median_float.
Print Assumptions C114_median_uint16.
Print Assumptions C114_inpainter.
Print Assumptions C115_art.
Print Assumptions C115_fbp.
Print Assumptions C115_grad.
Print Assumptions C115_tikh.
Print Assumptions C115_tv.
Print Assumptions C115_subsets.
Print Assumptions C115_quad.
Print Assumptions C115_hybrid.
Print Assumptions C115_gridrec.
Print Assumptions C115_project.
Print Assumptions C115_normalize_bg.
Print Assumptions C115_normalize_bg_refuted.
Print Assumptions C115_row_refuted.
Print Assumptions C116_bounds.
Print Assumptions C116_values.
Print Assumptions C116_unknown.
Print Assumptions C116_default.
Print Assumptions C116_init_refuted.
Print Assumptions C116_reg_par_refuted.
Print Assumptions C116_ind_block_refuted.
Print Assumptions C116_reg_data_refuted.
Print Assumptions C116_filter_refuted.
Print Assumptions C116_num_block_refuted.
Print Assumptions C116_int_refuted.
Print Assumptions C116_float32_refuted.
Print Assumptions C116_number.
