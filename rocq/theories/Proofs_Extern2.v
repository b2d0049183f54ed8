(** Which cells of its arrays gridrec reads and writes. *)
From Verif Require Import Base CLoop Cplx Model_Prep Model_Gridrec Proofs_Gridrec Spec_Extern Proofs_Extern.
From Coq Require Import Reals String.
Local Open Scope R_scope.

Lemma fold_ext_in {S A} (l : list A) (f h : S -> A -> S) s : (forall x u, In x l -> f u x = h u x) -> fold_left f l s = fold_left h l s.
Proof. intros H. apply (fold_rel eq l f h s s); auto. intros x u v Hx ->. now apply H. Qed.

Section Gridrec2.
  Variables (dy dt dx gx gy : Z).
  Variables (pf pf' : R -> Z -> Z -> Z -> R) (filter2d : bool).
  Variables (mem data data' center center' theta theta' : arr R).
  Let pdim := pdim_of dx.
  Hypothesis Hpf : forall x j p, (0 <= j < pdim / 2)%Z -> (0 <= p < dt)%Z -> pf x j (if filter2d then p else 0)%Z (pdim / 2)%Z = pf' x j (if filter2d then p else 0)%Z (pdim / 2)%Z.
  Hypothesis Hdata : agree (dy * dt * dx) data data'.
  Hypothesis Hcenter : agree dy center center'.
  Hypothesis Htheta : agree dt theta theta'.

  Lemma sino_same s p j : (0 <= s < dy)%Z -> (0 <= p < dt)%Z -> (0 <= j)%Z -> sino dy dt dx data s p j = sino dy dt dx data' s p j.
  Proof.
    intros Hs Hp Hj. unfold sino. destruct (j <? dx)%Z eqn:E; auto.
    assert (p + s * dt + 1 <= dy * dt)%Z by nia. assert (0 <= p + s * dt)%Z by nia.
    assert (dx * (p + s * dt + 1) <= dx * (dy * dt))%Z by (apply Z.mul_le_mono_nonneg_l; lia). assert (0 <= dx * (p + s * dt))%Z by (apply Z.mul_nonneg_nonneg; lia).
    rewrite (Hdata (j + dx * (p + s * dt))%Z) by lia. destruct (s + 1 <? dy)%Z eqn:E2; auto.
    assert (p + (s + 1) * dt + 1 <= dy * dt)%Z by nia. assert (dx * (p + (s + 1) * dt + 1) <= dx * (dy * dt))%Z by (apply Z.mul_le_mono_nonneg_l; lia).
    rewrite (Hdata (j + dx * (p + s * dt) + dx * dt)%Z) by nia. reflexivity.
  Qed.
  Lemma sino_t_same s p : (0 <= s < dy)%Z -> (0 <= p < dt)%Z -> forall k, sino_t dy dt dx data s p k = sino_t dy dt dx data' s p k.
  Proof.
    intros Hs Hp k. unfold sino_t, dft_backward. apply csum_ext. intros i Hi. now rewrite sino_same by lia.
  Qed.
  Lemma grid_same s : (0 <= s < dy)%Z ->
    grid dt dx theta (filphase dt dx pf filter2d (center s)) (sino_t dy dt dx data s) =
    grid dt dx theta' (filphase dt dx pf' filter2d (center' s)) (sino_t dy dt dx data' s).
  Proof.
    intros Hs. unfold grid. apply (for_rel eq); auto. intros p h h' Hp ->. apply (for_range_rel eq); auto. intros j u v Hj ->.
    rewrite (Htheta p) by auto. unfold filphase. fold pdim in Hj |- *. rewrite Hpf by lia. rewrite (Hcenter s) by auto. now rewrite !sino_t_same by auto.
  Qed.

  Hypothesis Hgx : (1 <= gx <= pdim)%Z.
  Hypothesis Hgy : (1 <= gy <= pdim)%Z.
  Let M := (dy * gx * gy)%Z.
  Lemma walk_in n j iu : (1 <= n <= pdim)%Z -> In (j, iu) (walk 2 pdim n) -> (0 <= j < n)%Z.
  Proof.
    clear Hpf. intros Hn H. unfold pdim in *. destruct (pdim_even dx) as (m & E & Hm). rewrite E in *. rewrite walk_spec in H by lia.
    apply in_map_iff in H. destruct H as (q & Eq & Hq). injection Eq as <- _. now apply in_zrange in Hq.
  Qed.
  Lemma cell_in s k j : (0 <= s < dy)%Z -> (0 <= k < gx)%Z -> (0 <= j < gy)%Z -> (0 <= s * gx * gy + gy * (gx - 1 - k) + j < M)%Z.
  Proof.
    intros Hs Hk Hj. unfold M. assert (0 <= gy * (gx - 1 - k) <= gy * (gx - 1))%Z by nia. assert (0 <= s * gx * gy)%Z by nia.
    assert ((s + 1) * (gx * gy) <= dy * (gx * gy))%Z by nia. nia.
  Qed.
  Lemma put_rel winv h s r r' : agree M r r' -> agree M (put dy dx gx gy winv h s r) (put dy dx gx gy winv h s r').
  Proof.
    intros H. unfold put. apply fold_rel; auto. intros [j iu] u v _ Huv. apply fold_rel; auto. intros [k iv] a b _ Hab.
    cbv zeta. destruct (s + 1 <? dy)%Z; repeat apply agree_aset; auto.
  Qed.
  Lemma put_out winv h s r0 r : (0 <= s < dy)%Z -> untouched M r0 r -> untouched M r0 (put dy dx gx gy winv h s r).
  Proof.
    intros Hs H. unfold put. apply fold_keep; auto. intros [j iu] u Hj Hu. apply fold_keep; auto. intros [k iv] a Hk Ha.
    apply walk_in in Hj; auto. apply walk_in in Hk; auto. cbv zeta.
    destruct (s + 1 <? dy)%Z eqn:E; repeat apply untouched_aset; auto; apply cell_in; lia.
  Qed.
  Lemma gridrec_rel r r' : agree M r r' ->
    agree M (gridrec dy dt dx gx gy pf filter2d mem data center theta r) (gridrec dy dt dx gx gy pf' filter2d mem data' center' theta' r').
  Proof.
    intros H. unfold gridrec. destruct ((dy =? 0) || (dt =? 0) || (dx =? 0))%Z; auto. apply for_rel; auto. intros i u v Hi Huv. unfold gridrec_pair.
    rewrite grid_same by lia. now apply put_rel.
  Qed.
  Lemma gridrec_out r : untouched M r (gridrec dy dt dx gx gy pf filter2d mem data center theta r).
  Proof.
    unfold gridrec. destruct ((dy =? 0) || (dt =? 0) || (dx =? 0))%Z; [apply untouched_refl|]. apply for_keep; [|apply untouched_refl].
    intros i u Hi Hu. apply put_out; auto. lia.
  Qed.
End Gridrec2.

(** The filters read the cells of filter_cells. *)
Lemma filter_reads name par par' dt pdim : (16 <= pdim)%Z -> agree (filter_cells name dt pdim) par par' ->
  forall x j p, (0 <= j < pdim / 2)%Z -> (0 <= p < dt)%Z ->
  get_filter name par x j (if filter_is_2d name then p else 0)%Z (pdim / 2)%Z = get_filter name par' x j (if filter_is_2d name then p else 0)%Z (pdim / 2)%Z.
Proof.
  intros Hd H x j p Hj Hp. unfold get_filter, filters, filter_is_2d, filter_cells in *. cbn [find fst snd].
  repeat match goal with |- context [String.eqb ?m ?s] => destruct (String.eqb_spec m s) as [E|?]; [subst m|] end; cbn [String.eqb Ascii.eqb Bool.eqb orb snd] in *; try reflexivity; try congruence.
  all: repeat match goal with Hn : ?m <> ?s, Hx : context [String.eqb ?m ?s] |- _ => rewrite (proj2 (String.eqb_neq m s) Hn) in Hx end; try reflexivity; try congruence.
  - unfold filter_hann. now rewrite H by lia.
  - unfold filter_hamming. now rewrite H by lia.
  - unfold filter_parzen. now rewrite H by lia.
  - unfold filter_butterworth. now rewrite !H by lia.
  - unfold filter_custom. now rewrite H by lia.
  - unfold filter_custom2d. rewrite H by nia. reflexivity.
Qed.
