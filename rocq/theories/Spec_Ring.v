(** Vocabulary for the ring removal properties, independent of the model.  A polar image has [height]
    angles (rows, covering the full turn) and [width] radii (columns); [at row col] is its value. *)
From Verif Require Import Base Order.
From Coq Require Import Reals.
Local Open Scope Z_scope.

(** Index of the angle on the other side of the centre (half a turn away). *)
Definition across (height row : Z) : Z := if row <? height / 2 then row + height / 2 else row - height / 2.
(** The image continued along a ray: through the centre on one side, with zeros outside. *)
Definition along {V} (at_ : Z -> Z -> V) (zero : V) (width height row col : Z) : V :=
  if col <? 0 then at_ (across height row) (- col) else if col <? width then at_ row col else zero.
(** The window of radius [rad] around a position. *)
Definition around {V} (f : Z -> V) (c rad : Z) : list V := map (fun n => f (c + n)) (zrange (- rad) (rad + 1)).

(** Mean of a list of reals. *)
Definition rsum (l : list R) : R := fold_right Rplus 0%R l.
Definition mean (l : list R) : R := (rsum l / INR (length l))%R.
(** Row numbers continued periodically, and by reflection about the first and the last row of lo .. hi. *)
Definition wrapped (height row : Z) : Z := row mod height.
Definition mirrored (lo hi row : Z) : Z := if row <? lo then lo + (lo - row) else if hi <? row then hi - (row - hi) else row.
(** The row used for row number [r] in the window of [row]: wrap-around, or reflection inside the half turn
    of [row]. *)
Definition neighbour (reflect : bool) (height row r : Z) : Z :=
  if reflect then (if row <? height / 2 then mirrored 0 (height / 2 - 1) r else mirrored (height / 2) (height - 1) r)
  else wrapped height r.
(** The first row of a half turn (reflection) or of the turn. *)
Definition first_row (reflect : bool) (height row : Z) : bool := (row =? 0) || (reflect && (row =? height / 2)).
(** Azimuthal smoothing of [d]: the mean of the window, but 0 where [d] is 0 (except in a first row). *)
Definition azimuth (d : Z -> Z -> R) (reflect : bool) (height rad row col : Z) : R :=
  if negb (first_row reflect height row) && (if Req_EM_T (d row col) 0 then true else false) then 0%R
  else mean (around (fun r => d (neighbour reflect height row r) col) row rad).
(** Window radius in the inner, middle and outer third of the radii. *)
Definition third (width m col : Z) : Z :=
  if col <? width / 3 then m / 3 else if col <? 2 * width / 3 then 2 * m / 3 else m.
(** Values of magnitude above [t] are replaced by 0. *)
Definition small_only (t v : R) : R := if Rle_dec v t then if Rle_dec (- t) v then v else 0%R else 0%R.
