(** C98: device, interpolation and pool size of the accelerated solvers. *)
From Coq Require Import String Ascii.
From Verif Require Import Base Model_AccelOpts.
Local Open Scope Z_scope.

(** Letter by letter the same up to upper and lower case *)
Definition same_letter (c d : ascii) : Prop :=
  c = d \/ (65 <= code c <= 90 /\ code d = code c + 32) \/ (65 <= code d <= 90 /\ code c = code d + 32).
Fixpoint same_word (s t : string) : Prop :=
  match s, t with EmptyString, EmptyString => True | String c s, String d t => same_letter c d /\ same_word s t | _, _ => False end.
Fixpoint all_chars (P : ascii -> Prop) (s : string) : Prop := match s with EmptyString => True | String c s => P c /\ all_chars P s end.
Definition has_gpu (b : build) : Prop := use_cuda b = true /\ 0 < num_devices b.
(** the device used when nothing usable is asked for *)
Definition default_device (b : build) : option_t := if use_cuda b && (0 <? num_devices b) then (1, "gpu"%string) else (0, "cpu"%string).

Lemma code_inj c d : code c = code d -> c = d.
Proof. unfold code. intros H. rewrite <- (ascii_N_embedding c), <- (ascii_N_embedding d). f_equal. lia. Qed.
Lemma code_chr z : 0 <= z < 256 -> code (chr z) = z.
Proof. intros H. unfold code, chr. rewrite N_ascii_embedding; lia. Qed.
Lemma code_range c : 0 <= code c < 256.
Proof. unfold code. pose proof (N_ascii_bounded c). lia. Qed.

Lemma code_upper c : code (upper c) = if (97 <=? code c) && (code c <=? 122) then code c - 32 else code c.
Proof. unfold upper. destruct ((97 <=? code c) && (code c <=? 122)) eqn:E; auto. apply code_chr. lia. Qed.
Lemma code_lower c : code (lower c) = if (65 <=? code c) && (code c <=? 90) then code c + 32 else code c.
Proof. unfold lower. destruct ((65 <=? code c) && (code c <=? 90)) eqn:E; auto. apply code_chr. lia. Qed.

Lemma same_upper c d : same_letter c d <-> upper c = upper d.
Proof.
  pose proof (code_range c). pose proof (code_range d). split.
  - intros H1. apply code_inj. rewrite !code_upper. destruct H1 as [-> |H1]; auto.
    destruct ((97 <=? code c) && (code c <=? 122)) eqn:E1, ((97 <=? code d) && (code d <=? 122)) eqn:E2; lia.
  - intros H1. apply (f_equal code) in H1. rewrite !code_upper in H1. unfold same_letter.
    destruct ((97 <=? code c) && (code c <=? 122)) eqn:E1, ((97 <=? code d) && (code d <=? 122)) eqn:E2; try (left; apply code_inj; lia); right; lia.
Qed.
Lemma same_lower c d : same_letter c d <-> lower c = lower d.
Proof.
  pose proof (code_range c). pose proof (code_range d). split.
  - intros H1. apply code_inj. rewrite !code_lower. destruct H1 as [-> |H1]; auto.
    destruct ((65 <=? code c) && (code c <=? 90)) eqn:E1, ((65 <=? code d) && (code d <=? 90)) eqn:E2; lia.
  - intros H1. apply (f_equal code) in H1. rewrite !code_lower in H1. unfold same_letter.
    destruct ((65 <=? code c) && (code c <=? 90)) eqn:E1, ((65 <=? code d) && (code d <=? 90)) eqn:E2; try (left; apply code_inj; lia); right; lia.
Qed.
Lemma word_upper s t : same_word s t <-> str_map upper s = str_map upper t.
Proof.
  revert t. induction s as [|c s IH]; intros [|d t]; cbn; try (split; congruence || tauto).
  rewrite same_upper, IH. split; [intros [-> ->]; auto|intros H; injection H; auto].
Qed.
Lemma word_lower s t : same_word s t <-> str_map lower s = str_map lower t.
Proof.
  revert t. induction s as [|c s IH]; intros [|d t]; cbn; try (split; congruence || tauto).
  rewrite same_lower, IH. split; [intros [-> ->]; auto|intros H; injection H; auto].
Qed.

Lemma letter_digit c d : same_letter c d -> is_digit c = is_digit d.
Proof. intros [-> |[H|H]]; auto; unfold is_digit; lia. Qed.
Lemma word_first s t i : same_word s t -> first_digit i s = first_digit i t.
Proof.
  revert t i. induction s as [|c s IH]; intros [|d t] i; cbn; try tauto. intros [H1 H2]. rewrite (letter_digit c d H1). destruct (is_digit d); auto.
Qed.
Lemma word_last s t i : same_word s t -> last_digit i s = last_digit i t.
Proof.
  revert t i. induction s as [|c s IH]; intros [|d t] i; cbn; try tauto. intros [H1 H2]. rewrite (letter_digit c d H1), (IH t (i + 1) H2). auto.
Qed.
Lemma word_length s t : same_word s t -> str_length s = str_length t.
Proof.
  unfold str_length. revert t. induction s as [|c s IH]; intros [|d t]; cbn; try tauto. intros [_ H]. specialize (IH t H). lia.
Qed.
Lemma word_numeric s t : same_word s t -> is_numeric s = is_numeric t.
Proof. intros H. unfold is_numeric. now rewrite (word_length s t H), (word_first s t 0 H), (word_last s t 0 H). Qed.
Lemma no_digits_numeric s : all_chars (fun c => is_digit c = false) s -> is_numeric s = false.
Proof.
  intros H. unfold is_numeric. assert (E : forall i, first_digit i s = None) by (induction s as [|c s IH]; intros i; cbn; auto; destruct H as [-> H]; auto).
  rewrite E. now destruct (0 <? str_length s).
Qed.
Lemma matches_name itr s : is_numeric s = false -> str_map lower (snd itr) = snd itr -> matches itr s = true <-> same_word s (snd itr).
Proof.
  intros H E. unfold matches. rewrite H. cbn. rewrite String.eqb_eq, word_lower, E. split; congruence.
Qed.

Section Device.
  Variable b : build.
  Variable pythreads : Z.
  Notation device := (get_device b pythreads).

  (** By name, in any case, or by index *)
  Theorem C98_device_cpu w : pythreads <> 0 -> use_opencv b = true -> same_word w "cpu" \/ w = "0"%string -> device w = inr (0, "cpu"%string).
  Proof.
    intros Hp Hb H. unfold get_device. rewrite Hb. replace (pythreads =? 0) with false by lia.
    assert (M : matches (0, "cpu"%string) w = true).
    { destruct H as [H| ->]; [|reflexivity]. apply matches_name; auto. now rewrite (word_numeric w "cpu"). }
    cbn [app]. destruct (use_cuda b && (0 <? num_devices b)); cbn [find]; rewrite M; reflexivity.
  Qed.
  Theorem C98_device_gpu w : pythreads <> 0 -> has_gpu b -> same_word w "gpu" \/ w = "1"%string -> device w = inr (1, "gpu"%string).
  Proof.
    intros Hp [Hc Hn] H. unfold get_device. rewrite Hc. replace (0 <? num_devices b) with true by lia. replace (pythreads =? 0) with false by lia.
    assert (M : matches (1, "gpu"%string) w = true).
    { destruct H as [H| ->]; [|reflexivity]. apply matches_name; auto. now rewrite (word_numeric w "gpu"). }
    assert (M0 : matches (0, "cpu"%string) w = false).
    { destruct H as [H| ->]; [|reflexivity]. destruct (matches (0, "cpu"%string) w) eqn:E; auto.
      apply matches_name in E; auto; [|now rewrite (word_numeric w "gpu")]. rewrite word_lower in E, H. rewrite H in E. discriminate. }
    destruct (use_opencv b); cbn; rewrite ?M0, M; reflexivity.
  Qed.
  (** Anything that is not understood means the default. *)
  Theorem C98_device_default w : pythreads <> 0 -> use_opencv b = true \/ has_gpu b ->
    all_chars (fun c => is_digit c = false) w -> ~ same_word w "cpu" -> ~ same_word w "gpu" -> device w = inr (default_device b).
  Proof.
    intros Hp Hd Hw Hc Hg. apply no_digits_numeric in Hw.
    assert (M0 : matches (0, "cpu"%string) w = false) by (destruct (matches (0, "cpu"%string) w) eqn:E; auto; apply matches_name in E; auto; tauto).
    assert (M1 : matches (1, "gpu"%string) w = false) by (destruct (matches (1, "gpu"%string) w) eqn:E; auto; apply matches_name in E; auto; tauto).
    unfold get_device, default_device. replace (pythreads =? 0) with false by lia.
    destruct (use_opencv b) eqn:E1, (use_cuda b && (0 <? num_devices b)) eqn:E2; cbn; rewrite ?M0, ?M1; auto.
    destruct Hd as [|[H1 H2]]; [discriminate|]. rewrite H1 in E2. cbn in E2. lia.
  Qed.
  (** What is chosen is there; there is an answer if and only if some device is (and the number of Python threads is not zero). *)
  Theorem C98_device_there w o : device w = inr o -> (o = (0, "cpu"%string) /\ use_opencv b = true) \/ (o = (1, "gpu"%string) /\ has_gpu b).
  Proof.
    unfold get_device, has_gpu.
    destruct (use_opencv b), (use_cuda b && (0 <? num_devices b)) eqn:E; cbn; try discriminate; destruct (pythreads =? 0); try discriminate;
      repeat match goal with |- context [matches ?a ?s] => destruct (matches a s) eqn:?; cbn end;
      intros H; try discriminate; injection H as <-; first [left; split; reflexivity | right; apply andb_true_iff in E as [E1 E2]; repeat split; auto; lia].
  Qed.
  Theorem C98_device_answers w : (exists o, device w = inr o) <-> (use_opencv b = true \/ has_gpu b) /\ pythreads <> 0.
  Proof.
    split.
    - intros (o & H). split.
      + destruct (C98_device_there w o H) as [[_ ?]|[_ ?]]; auto.
      + intros ->. unfold get_device in H. destruct (use_opencv b), (use_cuda b && (0 <? num_devices b)); cbn in H; discriminate.
    - intros [Hd Hp]. unfold get_device. replace (pythreads =? 0) with false by lia.
      destruct (use_opencv b) eqn:E1, (use_cuda b && (0 <? num_devices b)) eqn:E2; cbn;
        repeat match goal with |- context [matches ?a ?s] => destruct (matches a s) eqn:?; cbn end; eauto.
      destruct Hd as [|[H1 H2]]; [discriminate|]. rewrite H1 in E2. cbn in E2. lia.
  Qed.
End Device.
(** A word with two digits or more is read as an index even if it is none: gpu10 is the CPU, where gpu or gpu1 would be the GPU; and the CPU
    cannot be insisted on. *)
Theorem C98_device_refuted :
  get_device {| use_opencv := true; use_cuda := true; num_devices := 1 |} 1 "gpu10" = inr (0, "cpu"%string) /\
  get_device {| use_opencv := true; use_cuda := true; num_devices := 1 |} 1 "gpu1" = inr (1, "gpu"%string) /\
  get_device {| use_opencv := false; use_cuda := true; num_devices := 1 |} 1 "cpu" = inr (1, "gpu"%string).
Proof. repeat split. Qed.
Example C98_device_example : get_device {| use_opencv := true; use_cuda := false; num_devices := 0 |} 4 "gpu" = inr (0, "cpu"%string) /\
  get_device {| use_opencv := true; use_cuda := true; num_devices := 2 |} 4 "GPU" = inr (1, "gpu"%string) /\
  get_device {| use_opencv := false; use_cuda := true; num_devices := 0 |} 4 "gpu" = inl Uncaught.
Proof. repeat split. Qed.

(** Numbers in words: [value ds] is the number with decimal digits ds, [numeral ds] how it is written. *)
Definition numeral (ds : list Z) : string := fold_right (fun d s => String (chr (48 + d)) s) EmptyString ds.
Definition value (ds : list Z) : Z := fold_left (fun v d => 10 * v + d) ds 0.
Definition decimal (ds : list Z) : Prop := ds <> [] /\ Forall (fun d => 0 <= d <= 9) ds.
Lemma digit_chr d : 0 <= d <= 9 -> is_digit (chr (48 + d)) = true /\ code (chr (48 + d)) = 48 + d.
Proof. intros H. unfold is_digit. rewrite code_chr by lia. split; lia. Qed.
Lemma read_numeral ds : Forall (fun d => 0 <= d <= 9) ds -> forall v, read_digits v (numeral ds) = fold_left (fun v d => 10 * v + d) ds v.
Proof.
  induction 1 as [|d ds H Hs IH]; intros v; [reflexivity|]. cbn [numeral fold_right read_digits fold_left]. destruct (digit_chr d H) as [-> ->].
  change (fold_right (fun d s => String (chr (48 + d)) s) EmptyString ds) with (numeral ds). rewrite IH. f_equal. lia.
Qed.
Lemma value_pos ds : Forall (fun d => 0 <= d <= 9) ds -> 0 <= value ds.
Proof.
  intros H. unfold value. enough (G : forall v, 0 <= v -> 0 <= fold_left (fun v d => 10 * v + d) ds v) by (apply G; lia).
  induction H as [|d ds H Hs IH]; intros v Hv; cbn [fold_left]; [lia|]. apply IH. lia.
Qed.
(** They are read as usual and replaced by the closest int when they are too large. *)
Theorem C98_numbers ds : decimal ds ->
  read_int (numeral ds) = Z.min (value ds) 2147483647 /\
  read_int (String (chr 43) (numeral ds)) = Z.min (value ds) 2147483647 /\
  read_int (String (chr 45) (numeral ds)) = Z.max (- value ds) (-2147483648).
Proof.
  intros [Hn Hd]. pose proof (value_pos ds Hd) as P. repeat split.
  - destruct ds as [|d ds]; [easy|]. inversion Hd as [|? ? H Hs]; subst. unfold read_int. cbn [numeral fold_right skip_spaces].
    destruct (digit_chr d H) as [_ E]. unfold is_space. rewrite E. replace (48 + d =? 32) with false by lia. replace (48 + d <=? 13) with false by lia.
    rewrite andb_false_r. cbn [orb]. rewrite E. replace (48 + d =? 45) with false by lia. replace (48 + d =? 43) with false by lia.
    change (String (chr (48 + d)) (fold_right (fun d s => String (chr (48 + d)) s) EmptyString ds)) with (numeral (d :: ds)).
    rewrite read_numeral by auto. fold (value (d :: ds)). unfold clamp_int. change (2 ^ 31) with 2147483648. lia.
  - unfold read_int. cbn [skip_spaces]. change (is_space (chr 43)) with false. cbv iota. change (code (chr 43)) with 43. cbn [Z.eqb Pos.eqb].
    rewrite read_numeral by auto. fold (value ds). unfold clamp_int. change (2 ^ 31) with 2147483648. lia.
  - unfold read_int. cbn [skip_spaces]. change (is_space (chr 45)) with false. cbv iota. change (code (chr 45)) with 45. cbn [Z.eqb Pos.eqb].
    rewrite read_numeral by auto. fold (value ds). unfold clamp_int. change (2 ^ 31) with 2147483648. lia.
Qed.
Example C98_numbers_example : read_int "1290" = 1290 /\ read_int "-7" = -7 /\ read_int "99999999999" = 2147483647.
Proof. repeat split. Qed.
(** Words taken as an index: those of at most two letters with a digit, longer ones with two digits. *)
Fixpoint digits (s : string) : Z := match s with EmptyString => 0 | String c s => (if (48 <=? code c) && (code c <=? 57) then 1 else 0) + digits s end.
Lemma digits_pos s : 0 <= digits s.
Proof. induction s as [|c s IH]; cbn [digits]; [lia|]. destruct (_ && _); lia. Qed.
Lemma first_none s i : first_digit i s = None <-> digits s = 0.
Proof.
  revert i. induction s as [|c s IH]; intros i; cbn [first_digit digits]; [tauto|]. unfold is_digit. pose proof (digits_pos s).
  destruct (_ && _); [split; [discriminate|lia]|]. apply IH.
Qed.
Lemma last_none s i : last_digit i s = None <-> digits s = 0.
Proof.
  revert i. induction s as [|c s IH]; intros i; cbn [last_digit digits]; [tauto|]. unfold is_digit. pose proof (digits_pos s). specialize (IH (i + 1)).
  destruct (last_digit (i + 1) s); [|destruct (_ && _)].
  - split; [discriminate|]. destruct (_ && _); [lia|]. intros E. apply IH. lia.
  - split; [discriminate|lia].
  - split; auto. intros _. replace (digits s) with 0; [lia|]. symmetry. now apply IH.
Qed.
Lemma last_after s i l : last_digit i s = Some l -> i <= l.
Proof.
  revert i l. induction s as [|c s IH]; intros i l; cbn [last_digit]; [discriminate|]. destruct (last_digit (i + 1) s) eqn:E.
  - intros H. injection H as <-. apply IH in E. lia.
  - destruct (is_digit c); [|discriminate]. intros H. injection H as <-. lia.
Qed.
Lemma first_last s i f l : first_digit i s = Some f -> last_digit i s = Some l -> (f = l <-> digits s = 1).
Proof.
  revert i f l. induction s as [|c s IH]; intros i f l; cbn [first_digit last_digit digits]; [discriminate|]. unfold is_digit.
  destruct (_ && _) eqn:D.
  - intros H. injection H as <-. destruct (last_digit (i + 1) s) as [m|] eqn:E; intros H; injection H as <-.
    + assert (i + 1 <= m) by (eapply last_after; eauto). assert (digits s <> 0) by (intros G; apply (last_none s (i + 1)) in G; congruence). lia.
    + apply last_none in E. lia.
  - destruct (last_digit (i + 1) s) as [m|] eqn:E; intros H; [|discriminate]. intros G. injection G as <-. apply (IH (i + 1) f m); auto.
Qed.
Theorem C98_index_words w : is_numeric w = true <-> 1 <= digits w /\ (Z.of_nat (String.length w) <= 2 \/ 2 <= digits w).
Proof.
  unfold is_numeric, str_length. pose proof (digits_pos w).
  destruct (Z.ltb_spec 0 (Z.of_nat (String.length w))) as [L|L].
  - destruct (first_digit 0 w) as [f|] eqn:F.
    + assert (digits w <> 0) by (intros G; apply (first_none w 0) in G; congruence).
      destruct (Z.leb_spec (Z.of_nat (String.length w)) 2); [split; auto; lia|].
      destruct (last_digit 0 w) as [l|] eqn:E; [|apply last_none in E; lia]. pose proof (first_last w 0 f l F E). lia.
    + apply first_none in F. split; [discriminate|lia].
  - destruct w; cbn in L; [|lia]. cbn. split; [discriminate|lia].
Qed.
Example C98_index_words_example : is_numeric "g1" = true /\ is_numeric "gpu1" = false /\ is_numeric "gpu10" = true.
Proof. repeat split. Qed.
(** An index picks the device that has it. *)
Theorem C98_device_index b pythreads ds : pythreads <> 0 -> decimal ds -> use_opencv b = true -> has_gpu b ->
  get_device b pythreads (numeral ds) = if value ds =? 0 then inr (0, "cpu"%string) else inr (1, "gpu"%string).
Proof.
  intros Hp Hd Hb [Hc Hn]. assert (M : forall o, matches o (numeral ds) = (fst o =? Z.min (value ds) 2147483647)).
  { intros o. unfold matches. replace (is_numeric (numeral ds)) with true; [cbn; now rewrite (proj1 (C98_numbers ds Hd))|]. symmetry. apply C98_index_words.
    destruct Hd as [Hne Hd]. assert (E : digits (numeral ds) = Z.of_nat (String.length (numeral ds))).
    { clear Hne. induction Hd as [|d ds H Hs IH]; [reflexivity|]. cbn [numeral fold_right digits String.length]. destruct (digit_chr d H) as [_ ->].
      replace ((48 <=? 48 + d) && (48 + d <=? 57)) with true by lia. fold (numeral ds). rewrite IH. lia. }
    rewrite E. destruct ds; [easy|]. cbn [numeral fold_right String.length]. lia. }
  unfold get_device. rewrite Hb, Hc. replace (0 <? num_devices b) with true by lia. replace (pythreads =? 0) with false by lia. cbn [andb app find].
  rewrite !M. cbn [fst]. destruct Hd as [_ Hd]. pose proof (value_pos ds Hd).
  change (matches (0, "cpu"%string) "gpu") with false. change (matches (1, "gpu"%string) "gpu") with true. cbv iota.
  destruct (Z.eqb_spec (value ds) 0) as [E|E].
  - rewrite E. reflexivity.
  - replace (0 =? Z.min (value ds) 2147483647) with false by lia. destruct (1 =? _); reflexivity.
Qed.

(** Interpolation *)
Theorem C98_interp choices w i k : In (i, k) choices -> NoDup (map (fun c => str_map upper (snd c)) choices) -> same_word w k -> get_choice choices w = Some i.
Proof.
  intros Hin Hn Hw. apply word_upper in Hw. unfold get_choice. rewrite Hw.
  assert (E : find (fun itr => String.eqb (str_map upper (snd itr)) (str_map upper k)) choices = Some (i, k)).
  { induction choices as [|[j l] choices IH]; [destruct Hin|]. cbn in *. inversion Hn as [|? ? H1 H2]; subst. destruct Hin as [Hin|Hin].
    - injection Hin as -> ->. now rewrite String.eqb_refl.
    - destruct (String.eqb_spec (str_map upper l) (str_map upper k)) as [E|E]; [|now apply IH].
      exfalso. apply H1. rewrite E. apply (in_map (fun c => str_map upper (snd c)) choices (i, k) Hin). }
  now rewrite E.
Qed.
Example C98_interp_example : get_choice opencv_choices "linear" = Some 1 /\ get_choice npp_choices "Cubic" = Some 4 /\
  NoDup (map (fun c => str_map upper (snd c)) opencv_choices) /\ NoDup (map (fun c => str_map upper (snd c)) npp_choices).
Proof. repeat split; repeat constructor; cbn; intuition discriminate. Qed.
(** Only modes of the list are ever used. *)
Theorem C98_interp_known choices w i : get_choice choices w = Some i -> In i (map fst choices).
Proof.
  unfold get_choice. destruct (find _ choices) as [[j k]|] eqn:E.
  - intros H. injection H as <-. apply find_some in E as [E _]. apply (in_map fst _ _ E).
  - destruct (find (fun itr => read_int w =? fst itr) choices) as [[j k]|] eqn:E2; [|discriminate].
    intros H. injection H as <-. apply find_some in E2 as [E2 H2]. cbn in H2. replace (read_int w) with j by lia. apply (in_map fst _ _ E2).
Qed.
(** On the CPU a word that does not begin with a number is never rejected: if it is not a mode, it means nearest neighbour.  On the GPU it
    ends the process. *)
Definition starts_plain (w : string) : Prop := match w with EmptyString => True | String c _ => is_digit c = false /\ is_space c = false /\ code c <> 45 /\ code c <> 43 end.
Theorem C98_interp_refuted w : starts_plain w -> ~ same_word w "NN" -> ~ same_word w "LINEAR" -> ~ same_word w "CUBIC" ->
  get_choice opencv_choices w = Some 0 /\ get_choice npp_choices w = None.
Proof.
  intros Hs H1 H2 H3. rewrite word_upper in H1, H2, H3.
  assert (R : read_int w = 0).
  { unfold read_int. destruct w as [|c w]; [reflexivity|]. cbn in Hs. destruct Hs as (A & B & C & D). cbn [skip_spaces]. rewrite B.
    replace (code c =? 45) with false by lia. replace (code c =? 43) with false by lia. cbn [read_digits]. rewrite A. reflexivity. }
  assert (U : forall k, str_map upper w <> str_map upper k -> String.eqb (str_map upper k) (str_map upper w) = false).
  { intros k Hk. apply String.eqb_neq. congruence. }
  apply U in H1, H2, H3.
  unfold get_choice, opencv_choices, npp_choices. cbn [find snd]. rewrite H1, H2, H3, R. split; reflexivity.
Qed.
Example C98_interp_bicubic : get_choice opencv_choices "bicubic" = Some 0 /\ get_choice npp_choices "bicubic" = None /\ get_choice opencv_choices "4" = None.
Proof. repeat split. Qed.

(** Pool size *)
Theorem C98_pool b hw pythreads env n : 1 <= pool b hw pythreads env n /\ (0 < n < 2 ^ 31 -> pool b hw pythreads env n = n).
Proof.
  unfold pool, as_unsigned. split; [lia|]. intros H. rewrite (Z.mod_small n) by lia. replace (n <=? 0) with false by lia. lia.
Qed.
Theorem C98_pool_auto b hw pythreads : use_cuda b = false -> 0 <= hw -> 0 <= pythreads ->
  pool b hw pythreads None 0 = Z.max 1 (hw / Z.max pythreads 1) /\ forall e, pool b hw pythreads (Some e) 0 = Z.max 1 e.
Proof. intros Hb Hh Hp. unfold pool. rewrite Hb. cbn [as_unsigned]. replace (as_unsigned 0 <=? 0) with true by reflexivity. split; intros; lia. Qed.
(** With a GPU build there are two workers per core. *)
Theorem C98_pool_auto_gpu b hw pythreads : use_cuda b = true -> 0 <= hw < 2 ^ 31 -> 0 <= pythreads ->
  pool b hw pythreads None 0 = Z.max 1 (2 * hw / Z.max pythreads 1) /\ forall e, pool b hw pythreads (Some e) 0 = Z.max 1 e.
Proof.
  intros Hb Hh Hp. unfold pool. rewrite Hb. replace (as_unsigned 0 <=? 0) with true by reflexivity.
  unfold as_unsigned. rewrite (Z.mod_small (hw + hw)) by lia. replace (hw + hw) with (2 * hw) by lia. split; intros; lia.
Qed.
(** A negative number is not "choose for me". *)
Theorem C98_pool_refuted b hw pythreads env n : - 2 ^ 31 <= n < 0 -> pool b hw pythreads env n = 2 ^ 32 + n.
Proof.
  intros H. unfold pool, as_unsigned. replace (n mod 2 ^ 32) with (2 ^ 32 + n).
  - replace (2 ^ 32 + n <=? 0) with false by lia. lia.
  - apply Z.mod_unique with (-1); lia.
Qed.

(** What runs *)
Section Runs.
  Variable img : Type.
  Variables cpu gpu : Z -> Z -> img -> bool * img.
  (** If the call returns, one of the solvers has run, with a mode of its list and at least one worker. *)
  Theorem C98_dispatch b hw pythreads env n interp device recon status r :
    run_cxx img cpu gpu b hw pythreads env n interp device recon = Returned status r ->
    exists i p, 1 <= p /\
      ((use_opencv b = true /\ In i [0; 1; 2] /\ snd (cpu i p recon) = r /\ status = (if fst (cpu i p recon) then 0 else 1)) \/
       (has_gpu b /\ In i [1; 2; 4] /\ snd (gpu i p recon) = r /\ status = (if fst (gpu i p recon) then 0 else 1))).
  Proof.
    unfold run_cxx. destruct (get_device b pythreads device) as [|o] eqn:E; [discriminate|].
    apply C98_device_there in E as [[-> Hb]|[-> Hb]].
    - unfold interpolation. cbn [snd String.eqb]. rewrite Hb. cbn.
      destruct (get_choice opencv_choices interp) as [i|] eqn:Ei; [|discriminate]. intros H.
      exists i, (pool b hw pythreads env n). split; [apply C98_pool|]. left. split; auto.
      split; [exact (C98_interp_known opencv_choices interp i Ei)|].
      destruct (fst (cpu i (pool b hw pythreads env n) recon)); injection H as <- <-; auto.
    - destruct Hb as [Hc Hn]. unfold interpolation. cbn. rewrite Hc.
      destruct (get_choice npp_choices interp) as [i|] eqn:Ei; [|discriminate]. intros H.
      exists i, (pool b hw pythreads env n). split; [apply C98_pool|]. right. split; [split; auto|].
      split; [exact (C98_interp_known npp_choices interp i Ei)|].
      destruct (fst (gpu i (pool b hw pythreads env n) recon)); injection H as <- <-; auto.
  Qed.
  (** The fallback that is announced does not happen, and Python is not told: a GPU solver that fails at once leaves the image as it was, and the
      caller gets it as if it were the result. *)
  Theorem C98_fallback_refuted b hw pythreads env n recon : pythreads <> 0 -> has_gpu b -> (forall i p r, gpu i p r = (false, r)) ->
    run_cxx img cpu gpu b hw pythreads env n "NN" "gpu" recon = Returned 1 recon /\
    py_accel img cpu gpu b hw pythreads env n "NN" "gpu" recon = Some recon.
  Proof.
    intros Hp Hg Hf. unfold py_accel, run_cxx. rewrite (C98_device_gpu b pythreads "gpu" Hp Hg) by (left; apply word_lower; reflexivity).
    unfold interpolation. cbn. destruct Hg as [Hc _]. rewrite Hc. cbn. rewrite Hf. auto.
  Qed.
End Runs.
Print Assumptions C98_device_cpu.
Print Assumptions C98_device_gpu.
Print Assumptions C98_device_default.
Print Assumptions C98_device_there.
Print Assumptions C98_device_answers.
Print Assumptions C98_device_refuted.
Print Assumptions C98_interp.
Print Assumptions C98_interp_known.
Print Assumptions C98_interp_refuted.
Print Assumptions C98_pool.
Print Assumptions C98_pool_auto.
Print Assumptions C98_pool_refuted.
Print Assumptions C98_dispatch.
Print Assumptions C98_fallback_refuted.
Print Assumptions C98_numbers.
Print Assumptions C98_index_words.
Print Assumptions C98_device_index.
Print Assumptions C98_pool_auto_gpu.
