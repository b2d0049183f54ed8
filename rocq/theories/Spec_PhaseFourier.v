(** Vocabulary for C104: waves on an image and the response of a Paganin filter. *)
From Coq Require Import Reals.
From Verif Require Import Base Spec_StripeFourier.
Local Open Scope R_scope.

(** [f] periods along the rows axis of [h] pixels and [g] along the columns axis of [w] pixels *)
Definition plane_wave (h w f g : Z) (phase : R) (y x : Z) : R := cos (2 * PI * (IZR (f * y) / IZR h + IZR (g * x) / IZR w) + phase).
Definition total (h w : Z) (f : Z -> Z -> R) : R := sum_to h (fun y => sum_to w (fun x => f y x)).
(** 4 pi alpha + lambda z nu^2, up to a factor; pi as in the code *)
Definition denominator (wd alpha fx fy : R) : R := wd * (fx * fx + fy * fy) / (4 * (314159265359 / 100000000000)) + alpha.
(** the frequency that [k] periods in [n] pixels should be taken as, and what they are taken as *)
Definition frequency (n : Z) (pixel_size : R) (k : Z) : R := IZR k / (IZR n * pixel_size).
Definition seen_frequency (n : Z) (pixel_size : R) (k : Z) : R := (IZR k + (if Z.even n then 1 / 2 else 1)) / (IZR (n - 1) * pixel_size).
(** the lowest of the frequencies seen *)
Definition lowest (n : Z) (pixel_size : R) : R := if Z.even n then 1 / 2 / (IZR (n - 1) * pixel_size) else 0.
(** what k and l periods are multiplied with, before the real part is taken *)
Definition response (wd alpha pixel_size : R) (h w k l : Z) : R :=
  denominator wd alpha (lowest h pixel_size) (lowest w pixel_size) / denominator wd alpha (seen_frequency h pixel_size k) (seen_frequency w pixel_size l).
