(** Vocabulary for C101-C103: kernels and gains written out, no transforms. *)
From Coq Require Import Reals.
From Verif Require Import Base.
Local Open Scope R_scope.

Definition sum_to (n : Z) (f : Z -> R) : R := fold_right Rplus 0 (map f (zrange 0 n)).
(** height of a bell of width sigma at distance t from its centre *)
Definition bell (sigma t : R) : R := exp (- (t * t) / (2 * (sigma * sigma))).
(** weight of the neighbour at distance [d] among [M] samples: all frequencies from -M/2 up, weighted by a window *)
Definition kernel (M : Z) (window : Z -> R) (d : Z) : R :=
  sum_to M (fun k => window k * cos (PI * IZR d * IZR (2 * k - M) / IZR M)) / IZR M.
(** what a wave of [f] periods is multiplied with: the bell is centred between two frequencies *)
Definition gain (sigma f : R) : R := (bell sigma (f + 1 / 2) + bell sigma (f - 1 / 2)) / 2.
(** the wave of [f] periods in [M] samples *)
Definition wave (M f : Z) (phase : R) (j : Z) : R := cos (2 * PI * IZR (f * j) / IZR M + phase).
(** position [i] of a list of [n] elements that is continued by reflection about its first and its last element, up to n - 1 elements on both sides *)
Definition reflected (n i : Z) : Z := (n - 1 - Z.abs (n - 1 - Z.abs i))%Z.
(** every window of [size] columns around one of the [w] columns has less than half of its columns in [bad], and none of these is near a border *)
Definition sparse (w size : Z) (bad : Z -> bool) : Prop :=
  (forall c, bad c = true -> (size / 2 <= c < w - size / 2)%Z) /\
  (forall c, (0 <= c < w)%Z -> (2 * Z.of_nat (count bad (zrange (c - size / 2) (c - size / 2 + size))) < size)%Z).

(** What is asked of a wavelet transform and its inverse, on images with a shape. *)
Section Wavelets.
  Context {image : Type} (rows cols : image -> Z) (at_ : image -> Z -> Z -> R).
  Definition within (c : image) (y x : Z) : Prop := (0 <= y < rows c)%Z /\ (0 <= x < cols c)%Z.
  (** [d] is at least as large as [c] and shows it in its corner *)
  Definition shows (c d : image) : Prop := (rows c <= rows d)%Z /\ (cols c <= cols d)%Z /\ forall y x, within c y x -> at_ d y x = at_ c y x.
  Definition same (c d : image) : Prop := rows c = rows d /\ cols c = cols d /\ forall y x, within c y x -> at_ d y x = at_ c y x.
  Variables (analyse : image -> image * (image * image * image)) (synthesise : image * (image * image * image) -> image).
  Definition perfect : Prop :=
    (forall c a h v d, analyse c = (a, (h, v, d)) -> rows a = rows h /\ cols a = cols h /\ rows a = rows v /\ cols a = cols v) /\
    (forall c, shows c (synthesise (analyse c))) /\
    (forall a h v d a' v', rows a = rows v -> cols a = cols v -> same a a' -> same v v' -> same (synthesise (a, (h, v, d))) (synthesise (a', (h, v', d)))).
  (** no vertical detail on the first levels *)
  Fixpoint no_vertical (level : nat) (c : image) : Prop :=
    match level with
    | O => True
    | S level => let '(a, (h, v, d)) := analyse c in (forall y x, within v y x -> at_ v y x = 0) /\ no_vertical level a
    end.
End Wavelets.
