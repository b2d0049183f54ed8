(** prep/stripe.py: sorting based stripe removal, and scipy.ndimage.median_filter as used there.
    A sinogram is the list of its columns (np.transpose, 413); a column lists the projections.
    The index part of a pair is an integer (a float64 in the code, exact below 2^53).
    Not modelled: NaN inside scipy's median filter. *)
From Verif Require Import Base Order.
Local Open Scope Z_scope.

Section Sorting.
  Context {V : Type}.
  (** What is used of row[row[:, k].argsort()]: some permutation of the row, ordered by the key; which one of
      several is open (argsort is not stable). *)
  Definition sorts_by {A K} (lt : K -> K -> bool) (key : A -> K) (srt : list A -> list A) : Prop :=
    forall l, Permutation (srt l) l /\ ordered lt (map key (srt l)).
  Variables sort_value sort_index : list (Z * V) -> list (Z * V).
  (** _create_matindex (400-406) and dstack (414), one row *)
  Definition numbered (col : list V) : list (Z * V) := combine (zrange 0 (Z.of_nat (length col))) col.
  (** matsort[:, :, 1] = ..., one row (417, 419) *)
  Definition set_values (row : list (Z * V)) (vals : list V) : list (Z * V) := combine (map fst row) vals.
  (** _rs_sort (409-422); [filter] is the filter of lines 416-419 *)
  Definition rs_sort (filter : list (list V) -> list (list V)) (sino : list (list V)) : list (list V) :=
    let matsort := map (fun col => sort_value (numbered col)) sino in
    let filtered := filter (map (map snd) matsort) in
    let matsort := map (fun '(row, vals) => set_values row vals) (combine matsort filtered) in
    map (fun row => map snd (sort_index row)) matsort.

  (** scipy.ndimage.median_filter with the default mode 'reflect' (d c b a | a b c d | d c b a), window [sc] x [sr]
      around element r of column c, rank sc * sr // 2. *)
  Variable lt : V -> V -> bool.
  Variable dflt : V.
  Definition reflect (n x : Z) : Z := let y := x mod (2 * n) in if y <? n then y else 2 * n - 1 - y.
  Definition window_offsets (s : Z) : list Z := zrange (- (s / 2)) (s - s / 2).
  Definition at2 (m : list (list V)) (c r : Z) : V := nth (Z.to_nat r) (nth (Z.to_nat c) m []) dflt.
  Definition window (m : list (list V)) (w n sc sr c r : Z) : list V :=
    flat_map (fun dc => map (fun dr => at2 m (reflect w (c + dc)) (reflect n (r + dr))) (window_offsets sr)) (window_offsets sc).
  Definition median_filter (sc sr : Z) (m : list (list V)) : list (list V) :=
    let w := Z.of_nat (length m) in let n := Z.of_nat (length (nth 0 m [])) in
    map (fun c => map (fun r => nth (Z.to_nat (sc * sr / 2)) (isort lt (window m w n sc sr c r)) dflt) (zrange 0 n)) (zrange 0 w).
  (** 416-419 *)
  Definition sort_filter (size dim : Z) : list (list V) -> list (list V) :=
    if dim =? 1 then median_filter size 1 else median_filter size size.
  (** _remove_stripe_based_sorting (425-435), one sinogram; size = None is the default of 427-431 *)
  Definition default_size (ncol : Z) : Z := if ncol >? 2000 then 21 else Z.max 5 (ncol / 100).
  Definition remove_stripe_based_sorting (size : option Z) (dim : Z) (sino : list (list V)) : list (list V) :=
    let size := match size with Some s => s | None => default_size (Z.of_nat (length sino)) end in
    rs_sort (sort_filter size dim) sino.
End Sorting.
