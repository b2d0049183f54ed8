(** libtomo/gridrec/gridrec.c and include/libtomo/filters.h, exact reals: legendre, set_pswf_tables, set_trig_tables,
    set_filter_tables, gridrec and the filters.  FFTW (or MKL) is the sum it computes: dft_backward and dft2_forward of
    Cplx.v, unnormalised.  Not modelled: float rounding, allocation, J_z, P_z, U_d, V_d (written, never read), 32 bit
    overflow of the indices, the int/float types of nt and L2. *)
From Verif Require Import Base CLoop Cplx Model_Prep Model_Solver.
From Coq Require Import Reals QArith Qreals String.
Local Open Scope R_scope.
Definition floorf (x : R) : Z := Int_part x.
Definition ceilf (x : R) : Z := (- Int_part (- x))%Z.
(** halves go away from zero *)
Definition roundf (x : R) : Z := if rltb x 0 then (- Int_part (- x + 1 / 2))%Z else Int_part (x + 1 / 2).

(** ** Tables *)
(** legendre (61-86): the sum of coefs(k) * P(2k, x); the state is (y, penult, last) *)
Definition legendre_step (coefs : Z -> R) (x : R) (j : Z) (st : R * R * R) : R * R * R :=
  let '(y, penult, last) := st in
  let mxlast := - (x * last) in
  let cur := - (2 * mxlast + penult) + (penult + mxlast) / IZR j in
  ((if Z.even j then y + cur * coefs (j / 2)%Z else y), last, cur).
Definition legendre (n : Z) (coefs : Z -> R) (x : R) : R :=
  fst (fst (for_range 2 (n + 1) (legendre_step coefs x) (coefs 0%Z, 1, x))).

(** 210-214, 220-223, 306-307: the decimal constants as rationals; L = (int) (2 * 7 / pi), L2 = (int) (7 / pi), tblspcg = 2 * ltbl / L *)
Definition coefs_q : list Q :=
  [5767616 # 100000; -8931343 # 100000; 4167596 # 100000; -1053599 # 100000; 1662374 # 1000000; -1780527 # 10000000;
   1372983 # 100000000; -7963169 # 10000000000; 3593372 # 100000000000; -1295941 # 1000000000000; 3817796 # 100000000000000]%Q.
Definition pswf_coefs (k : Z) : R := Q2R (nth (Z.to_nat k) coefs_q 0%Q).
Definition big_c : R := 7.
Definition nt : Z := 20.
Definition lambda : R := 99998546 / 100000000.
Definition ltbl : Z := 512.
Definition l2 : R := 2.
Definition tblspcg : R := 256.

(** set_pswf_tables (88-123) *)
Definition wtbl (i : Z) : R :=
  if (i =? 0)%Z then 1 else legendre nt pswf_coefs (IZR i / IZR ltbl) / legendre nt pswf_coefs 0.      (* 99-105 *)
Definition winv_norm : R := sqrt (PI / 2 / big_c / lambda) / (6 / 5).                                  (* 111 *)
Definition winv_fac (linv : Z) : R := IZR ltbl / (IZR linv + 1 / 2).                                   (* 98 *)
(** [mem]: what was in memory where winv is allocated, and behind it; 113-122 *)
Definition set_winv (linv : Z) (mem : arr R) : arr R :=
  snd (for_range 1 (linv + 1) (fun i '(norm, winv) =>
    let norm := - norm in
    let v := norm / wtbl (roundf (IZR i * winv_fac linv)) in
    (norm, aset (aset winv (linv - i) v) (linv + i) v)) (winv_norm, aset mem linv (winv_norm / wtbl 0))).

(** 226 *)
Fixpoint pdim_loop (fuel : nat) (dx pdim : Z) : Z :=
  if (pdim <? dx)%Z then match fuel with O => pdim | S fuel => pdim_loop fuel dx (pdim * 2) end else pdim.
Definition pdim_of (dx : Z) : Z := pdim_loop (Z.to_nat dx) dx 16.

(** 510-547: the pairs (j, iu) that the while loop around the for loop runs through for one axis of n pixels; a round is
    one for loop; rounds after the second start from ustart = 0, ufin = n - offset as well *)
Definition pad (pdim n : Z) : Z := Z.quot (pdim - n) 2.                              (* 503-504, C division *)
Definition offset (pdim n : Z) : Z := (pdim / 2 - pad pdim n)%Z.                     (* 505-506: M02 + 1 - pad *)
Definition round (j ustart ufin : Z) : list (Z * Z) := map (fun iu => (j + (iu - ustart), iu)%Z) (zrange ustart ufin).
Fixpoint walk_rounds (fuel : nat) (n off j ustart ufin : Z) : list (Z * Z) :=
  if (j <? n)%Z then
    match fuel with
    | O => []
    | S fuel => round j ustart ufin ++ walk_rounds fuel n off (j + Z.max 0 (ufin - ustart)) 0 (n - off)
    end
  else [].
Definition walk (fuel : nat) (pdim n : Z) : list (Z * Z) := walk_rounds fuel n (offset pdim n) 0 (pdim - offset pdim n) pdim.

Section Gridrec.
  Variables (dy dt dx ngridx ngridy : Z).
  Variable pf : R -> Z -> Z -> Z -> R.      (* the filter with its parameters: x, i, j, fwidth *)
  Variable filter2d : bool.
  Variable mem : arr R.
  Variables (data center theta : arr R).
  Let pdim := pdim_of dx.
  Let pdim2 := (pdim / 2)%Z.

  (** set_filter_tables (144-192) at row p (of the 2-D table; the only row of the 1-D table) and column j *)
  Definition filphase (c : R) (p j : Z) : cplx :=
    let norm := PI / IZR pdim / IZR dt in
    let rtmp1 := 2 * PI * c / IZR pdim in
    let x := IZR j * rtmp1 in
    (cr (pf (IZR j / IZR pdim) j (if filter2d then p else 0) pdim2) * ((cr (cos x) - ci * cr (sin x)) * cr norm))%C.

  (** 366-395: both slices of the pair, padded and transformed *)
  Definition sino (s p j : Z) : cplx :=
    if (j <? dx)%Z then
      (cr (data (j + dx * (p + s * dt))%Z) + ci * cr (if (s + 1 <? dy)%Z then data (j + dx * (p + s * dt) + dx * dt)%Z else 0%R))%C
    else cr 0.
  Definition sino_t (s p : Z) : Z -> cplx := dft_backward pdim (sino s p).

  (** H[i][k] += z *)
  Definition hadd (h : Z -> Z -> cplx) (i k : Z) (z : cplx) : Z -> Z -> cplx :=
    fun a b => if (a =? i)%Z && (b =? k)%Z then (h a b + z)%C else h a b.
  (** 411-422 *)
  Definition box_lo (u : R) : Z := Z.max 1 (ceilf (u - l2)).
  Definition box_hi (u : R) : Z := Z.min (pdim - 1) (floorf (u + l2)).
  (** 425-435: work and work2 *)
  Definition conv (u : R) (i : Z) : R := wtbl (roundf (Rabs (u - IZR i) * tblspcg)).
  (** 401-448: one frequency of one projection, with the two values spread over the boxes around (U, V) and its mirror *)
  Definition spread (u v : R) (cdata1 cdata2 : cplx) (h : Z -> Z -> cplx) : Z -> Z -> cplx :=
    for_range (box_lo u) (box_hi u + 1) (fun iu =>
      for_range (box_lo v) (box_hi v + 1) (fun iv h =>
        let convolv := cr (conv u iu * conv v iv) in
        hadd (hadd h iu iv (convolv * cdata1)%C) (pdim - iu) (pdim - iv) (convolv * cdata2)%C)) h.
  (** 365-449: [x p j] the transformed projections, [fp p j] the table *)
  Definition grid (fp x : Z -> Z -> cplx) : Z -> Z -> cplx :=
    for_ dt (fun p => for_range 1 pdim2 (fun j =>
      spread (IZR j * cos (theta p) + IZR pdim2) (IZR j * sin (theta p) + IZR pdim2)
             (fp p j * x p j)%C (conj (fp p j) * x p (pdim - j)%Z)%C)) (fun _ _ => cr 0).

  (** 502-547 *)
  Definition put (winv : arr R) (h : Z -> Z -> cplx) (s : Z) (recon : arr R) : arr R :=
    fold_left (fun recon '(j, iu) =>
      fold_left (fun recon '(k, iv) =>
        let corrn := winv (j + pad pdim ngridy)%Z * winv (k + pad pdim ngridx)%Z in
        let recon := aset recon (s * ngridx * ngridy + ngridy * (ngridx - 1 - k) + j)%Z (corrn * re (h iu iv)) in
        if (s + 1 <? dy)%Z then aset recon ((s + 1) * ngridx * ngridy + ngridy * (ngridx - 1 - k) + j)%Z (corrn * im (h iu iv)) else recon)
      (walk 2 pdim ngridx) recon) (walk 2 pdim ngridy) recon.

  (** 311-548: the pair of slices s, s + 1 *)
  Definition gridrec_pair (s : Z) (recon : arr R) : arr R :=
    put (set_winv (pdim2 - 1) mem) (dft2_forward pdim (grid (filphase (center s)) (sino_t s))) s recon.
  Definition gridrec (recon : arr R) : arr R :=
    if (dy =? 0)%Z || (dt =? 0)%Z || (dx =? 0)%Z then recon
    else for_ ((dy + 1) / 2) (fun i => gridrec_pair (2 * i)) recon.
End Gridrec.

(** ** filters.h (58-158) *)
Definition filter_none (pars : Z -> R) (x : R) (i j fwidth : Z) : R := 1.
Definition filter_shepp (pars : Z -> R) (x : R) (i j fwidth : Z) : R := if (i =? 0)%Z then 0 else Rabs (2 * x) * (sin (PI * x) / (PI * x)).
Definition filter_cosine (pars : Z -> R) (x : R) (i j fwidth : Z) : R := Rabs (2 * x) * cos (PI * x).
Definition filter_hann (pars : Z -> R) (x : R) (i j fwidth : Z) : R := Rabs (2 * x) * (1 / 2) * (1 + cos (2 * PI * x / pars 0%Z)).
Definition filter_hamming (pars : Z -> R) (x : R) (i j fwidth : Z) : R := Rabs (2 * x) * (54 / 100 + 46 / 100 * cos (2 * PI * x / pars 0%Z)).
Definition filter_ramlak (pars : Z -> R) (x : R) (i j fwidth : Z) : R := Rabs (2 * x).
Definition filter_parzen (pars : Z -> R) (x : R) (i j fwidth : Z) : R := Rabs (2 * x) * (1 - Rabs x / pars 0%Z) ^ 3.
(** powf of a base that is not negative; an exponent that is not positive at base 0 aside *)
Definition powf (a b : R) : R := if Req_EM_T a 0 then 0 else Rpower a b.
Definition filter_butterworth (pars : Z -> R) (x : R) (i j fwidth : Z) : R := Rabs (2 * x) / (1 + powf (x / pars 0%Z) (2 * pars 1%Z)).
Definition filter_custom (pars : Z -> R) (x : R) (i j fwidth : Z) : R := pars i.
Definition filter_custom2d (pars : Z -> R) (x : R) (i j fwidth : Z) : R := pars (j * fwidth + i)%Z.
Definition filters : list (string * ((Z -> R) -> R -> Z -> Z -> Z -> R)) :=
  [("none", filter_none); ("shepp", filter_shepp); ("cosine", filter_cosine); ("hann", filter_hann); ("hamming", filter_hamming);
   ("ramlak", filter_ramlak); ("parzen", filter_parzen); ("butterworth", filter_butterworth); ("custom", filter_custom);
   ("custom2d", filter_custom2d)]%string.
(** 130-150: the names of the table are shorter than 16 characters, so strncmp compares whole names *)
Definition get_filter (name : string) : (Z -> R) -> R -> Z -> Z -> Z -> R :=
  match find (fun e => String.eqb name (fst e)) filters with Some e => snd e | None => filter_shepp end.
Definition filter_is_2d (name : string) : bool := String.eqb name "custom2d"%string.
(** recon/algorithm.py 482: filter_par when the caller gives none *)
Definition default_par (k : Z) : R := if (k =? 0)%Z then 1 / 2 else 8.
