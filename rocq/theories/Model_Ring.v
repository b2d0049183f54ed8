(** libtomo/misc/remove_ring.c and misc/corr.py remove_ring.  The two-dimensional arrays of the C code are
    row pointers into one block, so [image[0][row][col]] is block[row * width + col] for every col, also
    beyond the width.  The median filter is over a value type with the comparisons < and <=; the other
    parts are over exact reals.  Not modelled: axis 'y' of median_filter_fast_1D and filter_width (never
    used), malloc failure. *)
From Verif Require Import Base CLoop Model_Prep Model_Ray Model_Solver.
From Coq Require Import Reals.
Local Open Scope Z_scope.

Section Median.
  Context {V : Type} (lt le : V -> V -> bool) (zero : V).
  Definition swap {A} (a : arr A) (i j : Z) : arr A := aset (aset a i (a j)) j (a i).           (* 167-183 *)
  (** median_array and position_array *)
  Definition swap2 (st : arr V * arr Z) (i j : Z) : arr V * arr Z := (swap (fst st) i j, swap (snd st) i j).
  (** 185-205 *)
  Definition partition (st : arr V * arr Z) (left right pivot_index : Z) : arr V * arr Z * Z :=
    let pivot_value := fst st pivot_index in
    let st := swap2 st pivot_index right in
    let '(st, store_index) :=
      for_range left right (fun i '(st, store_index) =>
        if le (fst st i) pivot_value then (swap2 st i store_index, store_index + 1) else (st, store_index)) (st, left) in
    (swap2 st store_index right, store_index).
  (** 207-219; [fuel] bounds the recursion, one more than the number of elements is enough. *)
  Fixpoint quick_sort (fuel : nat) (st : arr V * arr Z) (left right : Z) : arr V * arr Z :=
    match fuel with
    | O => st
    | S fuel =>
        if left <? right then
          let '(st, p) := partition st left right (Z.quot (left + right) 2) in
          let st := quick_sort fuel st left (p - 1) in
          quick_sort fuel st (p + 1) right
        else st
    end.
  (** 221-258 *)
  Fixpoint bubble (fuel : nat) (st : arr V * arr Z) (index len : Z) : arr V * arr Z :=
    match fuel with
    | O => st
    | S fuel =>
        if (0 <? index) && (index <? len - 1) then
          if lt (fst st index) (fst st (index - 1)) then bubble fuel (swap2 st index (index - 1)) (index - 1) len
          else if lt (fst st (index + 1)) (fst st index) then bubble fuel (swap2 st index (index + 1)) (index + 1) len
          else st
        else if index =? 0 then
          if lt (fst st (index + 1)) (fst st index) then bubble fuel (swap2 st index (index + 1)) (index + 1) len else st
        else if index =? len - 1 then
          if lt (fst st index) (fst st (index - 1)) then bubble fuel (swap2 st index (index - 1)) (index - 1) len else st
        else st
    end.
  (** First window of a row (272-295). *)
  Definition first_window (image : arr V) (width height row start_col rad : Z) (st : arr V * arr Z) : arr V * arr Z :=
    for_range (- rad) (rad + 1) (fun n '(ma, pa) =>
      let adjusted_col := start_col + n in
      let v := if adjusted_col <? 0
               then let adjusted_row := if row <? height / 2 then row + height / 2 else row - height / 2 in
                    image (adjusted_row * width + - adjusted_col)
               else image (row * width + adjusted_col) in
      (aset ma (n + rad) v, aset pa (n + rad) (n + rad))) st.
  (** The value that enters and the aging of the others (303-319). *)
  Definition roll (image : arr V) (width row col rad : Z) (st : arr V * arr Z) : arr V * arr Z * Z :=
    let next_value := if col + rad <? width then image (row * width + (col + rad)) else zero in
    for_ (2 * rad + 1) (fun i '(ma, pa, last) =>
      let pa := aset pa i (pa i - 1) in
      if pa i <? 0 then (aset ma i next_value, aset pa i (2 * rad), i) else (ma, pa, last)) (st, 0).
  Definition median_step (image : arr V) (width row rad col : Z) (s : arr V * arr Z * arr V) : arr V * arr Z * arr V :=
    let '(st, out) := s in
    let '(st, last) := roll image width row col rad st in
    let st := bubble (Z.to_nat (2 * rad + 2)) st last (2 * rad + 1) in
    (st, aset out (row * width + col) (fst st rad)).
  (** One row (272-323). *)
  Definition median_row (image : arr V) (width height start_col end_col rad row : Z) (s : arr V * arr Z * arr V) : arr V * arr Z * arr V :=
    let '(st, out) := s in
    let st := first_window image width height row start_col rad st in
    let st := quick_sort (Z.to_nat (2 * rad + 2)) st 0 (2 * rad) in
    let out := aset out (row * width + start_col) (fst st rad) in
    for_range (start_col + 1) (end_col + 1) (median_step image width row rad) (st, out).
  (** median_filter_fast_1D with axis 'x' (260-325). *)
  Definition median_filter (out image : arr V) (start_row start_col end_row end_col rad width height : Z) : arr V :=
    snd (for_range start_row (end_row + 1) (median_row image width height start_col end_col rad)
           ((fun _ => zero, fun _ => 0), out)).
End Median.

Local Open Scope R_scope.
(** ** mean_filter_fast_1D (386-536), one column; exact arithmetic. *)
Section Mean.
  Variable image : arr R.
  Variables width height rad : Z.
  Definition num_elems : R := IZR (2 * rad + 1).
  Definition at_rc (row col : Z) : R := image (row * width + col)%Z.
  (** First sum of a column: rows given by [f n]. *)
  Definition first_sum (f : Z -> Z) (col : Z) : R :=
    for_range (- rad) (rad + 1) (fun n sum => sum + at_rc (f n) col) 0.
  (** The rolling loop, with the row that leaves and the row that enters (418-440, 467-489, 510-532). *)
  Definition roll_mean (lo hi : Z) (last next : Z -> Z) (col : Z) (s : arr R * R) : arr R * R :=
    for_range lo hi (fun row '(out, previous_sum) =>
      let sum := previous_sum - at_rc (last ((row - 1) - rad)%Z) col + at_rc (next (row + rad)%Z) col in
      (aset out (row * width + col)%Z (if Req_EM_T (at_rc row col) 0 then 0 else sum / num_elems), sum)) s.
  (** INT_MODE_WRAP (394-442) *)
  Definition wrap_column (start_row end_row col : Z) (out : arr R) : arr R :=
    let sum := first_sum (fun n => let row := (n + start_row)%Z in
      if (row <? 0)%Z then (row + height)%Z else if (row >=? height)%Z then (row - height)%Z else row) col in
    let out := aset out (start_row * width + col)%Z (sum / num_elems) in
    fst (roll_mean (start_row + 1) (end_row + 1)
           (fun r => if (r <? 0)%Z then (r + height)%Z else r) (fun r => if (r >=? height)%Z then (r - height)%Z else r) col (out, sum)).
  (** INT_MODE_REFLECT (443-534): the halves 0 .. h/2-1 and h/2 .. h-1. *)
  Definition reflect_column (col : Z) (out : arr R) : arr R :=
    let h2 := (height / 2)%Z in
    let lo r := if (r <? 0)%Z then (- r)%Z else r in
    let hi r := if (r >=? h2)%Z then (h2 - (r - h2) - 2)%Z else r in
    let sum := first_sum (fun n => if (n <? 0)%Z then (- n)%Z else hi n) col in
    let out := aset out col (sum / num_elems) in
    let out := fst (roll_mean 1 h2 lo hi col (out, sum)) in
    let lo2 r := if (r <? h2)%Z then (h2 + (h2 - r))%Z else r in
    let hi2 r := if (r >=? height)%Z then (height - (r - height) - 2)%Z else r in
    let sum := first_sum (fun n => let row := (n + h2)%Z in if (row <? h2)%Z then lo2 row else hi2 row) col in
    let out := aset out (h2 * width + col)%Z (sum / num_elems) in
    fst (roll_mean (h2 + 1) height lo2 hi2 col (out, sum)).
  Definition mean_filter (reflect : bool) (out : arr R) (start_row start_col end_row end_col : Z) : arr R :=
    for_range start_col (end_col + 1) (fun col out => if reflect then reflect_column col out else wrap_column start_row end_row col out) out.
End Mean.

(** ** ring_filter (538-602) *)
Definition rleb (x y : R) : bool := if Rle_dec x y then true else false.
Definition ring_filter (polar_image : arr R) (pol_height pol_width : Z) (threshold : R) (m_rad m_azi : Z) (reflect : bool) : arr R :=
  let med out c0 c1 rad := median_filter rltb rleb 0 out polar_image 0 c0 (pol_height - 1) c1 rad pol_width pol_height in
  let w3 := (pol_width / 3)%Z in
  let w23 := (2 * pol_width / 3)%Z in
  let filtered := med (fun _ => 0) 0%Z (w3 - 1)%Z (m_rad / 3)%Z in                             (* 550-558 *)
  let filtered := med filtered w3 (w23 - 1)%Z (2 * m_rad / 3)%Z in
  let filtered := med filtered w23 (pol_width - 1)%Z m_rad in
  let diff :=                                                                                  (* 563-574 *)
    for_ pol_height (fun row => for_ pol_width (fun col p =>
      let i := (row * pol_width + col)%Z in
      let v := p i - filtered i in
      aset p i (if rltb threshold v || rltb v (- threshold) then 0 else v))) polar_image in
  let mean out c0 c1 rad := mean_filter diff pol_width pol_height rad reflect out 0 c0 (pol_height - 1) c1 in
  let filtered := mean filtered 0%Z (w3 - 1)%Z (m_azi / 3)%Z in                                (* 581-588 *)
  let filtered := mean filtered w3 (w23 - 1)%Z (2 * m_azi / 3)%Z in
  let filtered := mean filtered w23 (pol_width - 1)%Z m_azi in
  for_ pol_height (fun row => for_ pol_width (fun col p =>                                     (* 591-597 *)
    let i := (row * pol_width + col)%Z in aset p i (filtered i))) diff.

(** ** Polar coordinates (56-165) *)
Definition pi_c : R := 314159265359 / 100000000000.                                            (* 54 *)
Definition min_distance_to_edge (center_x center_y : R) (width height : Z) : Z :=              (* 56-74 *)
  Z.min (Z.min (trunc (center_x + 1)) (trunc (center_y + 1))) (Z.min (trunc (IZR width - center_x)) (trunc (IZR height - center_y))).
Definition iround (x : R) : Z := Int_part (x + 1 / 2).                                         (* 76-80; 0 for x = 0 *)
Definition pol_height_of (max_r : Z) : Z := iround (2 * pi_c * IZR max_r).                     (* 89, ang_scale = 1 *)
Section Polar.
  Variables center_x center_y : R.
  (** 100-122 with r_scale = 1; image[y][x] is block[y * width + x]. *)
  Definition polar_x (pol_height row r : Z) : Z :=
    iround (IZR r * cos (IZR row * 2 * pi_c / IZR pol_height + pi_c / IZR pol_height) + center_x).
  Definition polar_y (pol_height row r : Z) : Z :=
    iround (IZR r * sin (IZR row * 2 * pi_c / IZR pol_height + pi_c / IZR pol_height) + center_y).
  Definition clip (thresh_max thresh_min v : R) : R :=
    if rltb thresh_max v then thresh_max else if rltb v thresh_min then thresh_min else v.
  Definition polar_transform (image : arr R) (width pol_width pol_height : Z) (thresh_max thresh_min : R) : arr R :=
    for_ pol_height (fun row => for_ pol_width (fun r p =>
      aset p (row * pol_width + r)%Z
        (clip thresh_max thresh_min (image (polar_y pol_height row r * width + polar_x pol_height row r)%Z)))) (fun _ => 0).
  (** 139-163; [atan2] is any function to [-pi, pi] (libm). *)
  Variable atan2 : R -> R -> R.
  Definition inverse_row (pol_height row col : Z) : Z :=
    let theta := atan2 (IZR row - center_y) (IZR col - center_x - pi_c / IZR pol_height) in
    let theta := if rltb theta 0 then theta + 2 * pi_c else theta in
    iround (theta * IZR pol_height / (2 * pi_c)).
  Definition inverse_col (row col : Z) : Z :=
    iround (sqrt ((IZR row - center_y) * (IZR row - center_y) + (IZR col - center_x) * (IZR col - center_x))).
  Definition inverse_at (polar_image : arr R) (pol_width pol_height row col : Z) : R :=
    let pol_row := inverse_row pol_height row col in
    let pol_col := inverse_col row col in
    if ((pol_row <? pol_height) && (pol_col <? pol_width))%Z then polar_image (pol_row * pol_width + pol_col)%Z else 0.

  (** ** One slice of remove_ring (622-659); data is the block of the slice. *)
  Definition m_azi_of (pol_height angular_min : Z) : Z := (pol_height * angular_min / 360)%Z.  (* 632, exact *)
  Definition ring_slice (data : arr R) (dx dy : Z) (thresh_max thresh_min threshold : R) (angular_min ring_width : Z) (reflect : bool) : arr R :=
    let pol_width := min_distance_to_edge center_x center_y dx dy in
    let pol_height := pol_height_of pol_width in
    let polar := polar_transform data dx pol_width pol_height thresh_max thresh_min in
    let ring := ring_filter polar pol_height pol_width threshold (2 * ring_width + 1)%Z (m_azi_of pol_height angular_min) reflect in
    for_ dy (fun row => for_ dx (fun col d =>
      let i := (row * dx + col)%Z in aset d i (d i - inverse_at ring pol_width pol_height row col))) data.
  (** All slices istart .. iend-1 (620-666): slice s is the block at s * dy * dx. *)
  Definition remove_ring (data : arr R) (dx dy : Z) (thresh_max thresh_min threshold : R) (angular_min ring_width : Z) (reflect : bool)
      (istart iend : Z) : arr R :=
    for_range istart iend (fun s d =>
      let d' := ring_slice (fun i => d (s * dy * dx + i)%Z) dx dy thresh_max thresh_min threshold angular_min ring_width reflect in
      fun x => d' (x - s * dy * dx)%Z) data.
End Polar.
