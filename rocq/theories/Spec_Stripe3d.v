(** Vocabulary for C93 and C94: volumes as functions of (column, slice, angle), no arrays. *)
From Verif Require Import Base Order CLoop.
From Coq Require Import Reals.
Local Open Scope Z_scope.

Definition vol (A : Type) : Type := Z -> Z -> Z -> A.
Definition inside (dx dy dz i j k : Z) : Prop := 0 <= i < dx /\ 0 <= j < dy /\ 0 <= k < dz.
(** The place at distance m from x, taken on the other side when there is none. *)
Definition reach (dim x m : Z) : Z := if (0 <=? x + m) && (x + m <? dim) then x + m else x - m.

Section Weights.
  Local Open Scope R_scope.
  Variables dx dy dz r : Z.
  Definition total (l : list R) : R := fold_right Rplus 0 l.
  Definition mean (l : list R) : R := total l / INR (length l).
  (** all pairs *)
  Definition pairs {A} (l l' : list Z) (f : Z -> Z -> A) : list A := flat_map (fun a => map (f a) l') l.
  (** size of the horizontal change over two columns *)
  Definition jump (x : vol R) : vol R := fun i j k => Rabs (x (reach dx i 2) j k - x i j k).
  (** its mean over the vertical plate, and over the r columns to the right and to the left in three slices *)
  Definition along (x : vol R) : vol R := fun i j k =>
    mean (pairs (zrange (- r) (r + 1)) (zrange (- r) (r + 1)) (fun m n => jump x i (reach dy j m) (reach dz k n))).
  Definition across (side : Z) (x : vol R) : vol R := fun i j k =>
    mean (pairs [-1; 0; 1]%Z (zrange 1 (r + 1)) (fun m n => jump x (reach dx i (side * n)) (reach dy j m) k)).
  (** smaller over larger of two non-negative numbers *)
  Definition similar (a b : R) : R := if Req_EM_T (Rmax a b) 0 then 0 else Rmin a b / Rmax a b.
  Definition around (x : vol R) : vol R := fun i j k =>
    total [x i j k; x (reach dx i (-1)) j k; x (reach dx i 1) j k; x i (reach dy j (-1)) k; x i (reach dy j 1) k;
           x i j (reach dz k (-1)); x i j (reach dz k 1)].
  (** the weight before the vertical filter *)
  Definition contrast (x : vol R) : vol R := fun i j k =>
    if Req_EM_T (Rmax (along x i j k) (across 1 x i j k)) 0 then Rmin (1428 / 10000 * around x i j k) 0
    else Rmin (similar (along x i j k) (across 1 x i j k)) (similar (along x i j k) (across (-1) x i j k)).
  Definition column_window (w : vol R) (h : Z) (i j k : Z) : list R := map (fun m => w i j (reach dz k m)) (zrange (- h) (h + 1)).
End Weights.

Section Masks.
  Variables dx dy dz : Z.
  Definition vertical_hits (b : vol bool) (h i j k : Z) : Z := Z.of_nat (count (fun m => b i j (reach dz k m)) (zrange (- h) (h + 1))).
  Definition depth_hits (b : vol bool) (h i j k : Z) : Z := Z.of_nat (count (fun m => b i (reach dy j m) k) (zrange (- h) (h + 1))).
  (** What is kept: voxels whose depth window has at most q hits; voxels whose vertical window has at least q hits. *)
  Definition kept_depth (b : vol bool) (h q : Z) : vol bool := fun i j k => b i j k && (depth_hits b h i j k <=? q).
  Definition kept_vertical (b : vol bool) (h q : Z) : vol bool := fun i j k => b i j k && (q <=? vertical_hits b h i j k).
  (** One merging pass of width w. *)
  Definition near (b : vol bool) (w i j k : Z) : Prop :=
    ((exists m, 0 <= m <= w / 2 /\ b (reach dx i (- m)) j k = true) /\ (exists m, 0 <= m <= w / 2 /\ b (reach dx i m) j k = true)) \/
    ((exists m, 0 <= m <= 2 * w /\ b i j (reach dz k (- m)) = true) /\ (exists m, 0 <= m <= 2 * w /\ b i j (reach dz k m) = true)).
  Definition nearb (b : vol bool) (w i j k : Z) : bool :=
    existsb (fun m => b (reach dx i (- m)) j k) (zrange 0 (w / 2 + 1)) && existsb (fun m => b (reach dx i m) j k) (zrange 0 (w / 2 + 1)) ||
    existsb (fun m => b i j (reach dz k (- m))) (zrange 0 (2 * w + 1)) && existsb (fun m => b i j (reach dz k m)) (zrange 0 (2 * w + 1)).
  Fixpoint merged (n : nat) (w : Z) (b : vol bool) : vol bool :=
    match n with
    | O => b
    | Datatypes.S n => fun i j k => merged n w b i j k || nearb (merged n w b) w i j k
    end.
  (** Candidates are the voxels with weight at most t; [qd] and [ql] are the numbers of hits required in the windows of the depth and of the length. *)
  Definition candidates (x : vol R) (t : R) : vol bool := fun i j k => if Rle_dec (x i j k) t then true else false.
  Definition survivors (x : vol R) (t : R) (len depth qd ql : Z) : vol bool :=
    let b := candidates x t in
    let b := if depth =? 0 then b else kept_depth b (depth / 2) qd in
    kept_vertical (kept_vertical b (len / 2) ql) (len / 2) (len / 2).
End Masks.
