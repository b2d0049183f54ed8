(** What gridrec computes, as sums.  A slice is given by its projections [d p k] (projection p, detector pixel k) and
    the position [c] of the rotation axis on the detector; [f p j] is the filter at frequency j of projection p. *)
From Verif Require Import Base Cplx.
From Coq Require Import Reals.
Local Open Scope R_scope.

(** The even Legendre polynomials are combined to the interpolation window: P(n+2) by the three-term recurrence. *)
Fixpoint legendre_pair (n : nat) (x : R) : R * R :=
  match n with
  | O => (1, x)
  | S n => let '(p, q) := legendre_pair n x in (q, ((2 * INR n + 3) * x * q - (INR n + 1) * p) / (INR n + 2))
  end.
Definition legendre_p (n : nat) (x : R) : R := fst (legendre_pair n x).

Section Slice.
  Variables (n dt dx : Z).                       (* n: the size of the padded grid *)
  Variable window : Z -> R.                      (* the window at multiples of 1/256 grid points *)
  Variable f : Z -> Z -> R.
  Variable theta : Z -> R.
  Variables (c : R) (d : Z -> Z -> R).
  (** the filtered Fourier transform of projection p about the rotation axis *)
  Definition spectrum (p j : Z) : cplx :=
    (cr (f p j * (PI / (IZR n * IZR dt))) * csum dx (fun k => cr (d p k) * expi (2 * PI * IZR j * (IZR k - c) / IZR n)))%C.
  (** the weight with which a sample at u is added to grid point i *)
  Definition nearest (x : R) : Z := Int_part (x + 1 / 2).
  Definition weight (u : R) (i : Z) : R :=
    if (1 <=? i)%Z && (i <? n)%Z then if Rle_dec (Rabs (u - IZR i)) 2 then window (nearest (Rabs (u - IZR i) * 256)) else 0 else 0.
  (** the wave with which a sample at u enters position a *)
  Definition wave (u : R) (a : Z) : cplx := csum n (fun i => (cr (weight u i) * turn n (- (a * i)))%C).
  Definition sample (p j : Z) (a b : Z) : R :=
    2 * re (spectrum p j * (wave (IZR j * cos (theta p) + IZR (n / 2)) a * wave (IZR j * sin (theta p) + IZR (n / 2)) b))%C.
  (** the sum over all projections and all frequencies from 1 to n/2 - 1 *)
  Definition image (a b : Z) : R := re (csum dt (fun p => csum (n / 2 - 1) (fun j => cr (sample p (j + 1) a b)))).
End Slice.

(** The factor that undoes the effect of the window at position a of an axis of n grid points: entry |a + 1| of the
    correction table, whose spacing is 2/(n - 1) of the half width of the window.  The table ends before a = n/2 - 1,
    where [beyond] is what lies in memory behind it. *)
Definition correction (n : Z) (window : Z -> R) (norm beyond : R) (a : Z) : R :=
  if (a + 1 =? n / 2)%Z then beyond
  else (if Z.even (a + 1) then norm else - norm) / window (nearest (IZR (Z.abs (a + 1)) * (1024 / IZR (n - 1)))).
(** positions of the columns and rows of the image: column j is position j - ceil (ngridy / 2) of the one axis, row i is
    position (ngridx - 1 - i) - ceil (ngridx / 2) of the other one *)
Definition column_at (ngridy j : Z) : Z := (j - (ngridy + 1) / 2)%Z.
Definition row_at (ngridx i : Z) : Z := (ngridx - 1 - i - (ngridx + 1) / 2)%Z.
