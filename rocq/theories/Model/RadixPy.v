(** Model of /repo/extra/snippet/radix4.py: digit reversal with a seed table and the four
    in-place transforms.  Numbers are exact reals and unbounded naturals; quotients that
    Python computes as floats (nvar/4, int(length/radix), tss/4, ...) are natural
    divisions here, exact for the powers that occur.  [Throw] is a Python exception: an
    index past the end (IndexError), a failed assert, a division by zero. *)
From Coq Require Import List Arith Bool Reals.
From Verif Require Import Base.Outcome Base.Cplx Spec.Dft.
Import ListNotations.
Open Scope outcome_scope.

(** extra/snippet/radix4.py — a[i] as an expression (indices are never negative there). *)
Definition py_get {T} (l : list T) (i : nat) : outcome T :=
  match nth_error l i with Some v => Ok v | None => Throw end.

(** extra/snippet/radix4.py — the assignment a[i] = v. *)
Definition py_set {T} (l : list T) (i : nat) (v : T) : outcome (list T) :=
  if i <? length l then Ok (upd l i v) else Throw.

(** extra/snippet/radix4.py:18-25 — swap(xarray, i, j). *)
Definition py_swap {T} (x : list T) (i j : nat) : outcome (list T) :=
  temp <- py_get x i ;;
  v <- py_get x j ;;
  x <- py_set x i v ;;
  py_set x j temp.

(** extra/snippet/radix4.py:42-46 — the loop over i, inside the loop over jvar. *)
Definition py_seed_inner (radix n1 : nat) (reverse : list nat) : outcome (list nat) :=
  for_range 1 (n1 / radix) (fun i reverse =>
    v <- py_get reverse i ;;
    reverse <- py_set reverse (radix * i) (v / radix) ;;
    for_range 1 radix (fun jvar reverse =>
      a <- py_get reverse (radix * i) ;;
      b <- py_get reverse jvar ;;
      py_set reverse (radix * i + jvar) (a + b)) reverse) reverse.

(** extra/snippet/radix4.py:37-46 — the seed table.  The loop over i stands inside the
    loop over jvar and reuses its variable, as in the code. *)
Definition py_seed (radix length n1 : nat) : outcome (list nat) :=
  reverse <- py_set (repeat 0 n1) 1 (length / radix) ;;
  for_range 1 radix (fun jvar reverse =>
    a <- py_get reverse (jvar - 1) ;;
    b <- py_get reverse 1 ;;
    reverse <- py_set reverse jvar (a + b) ;;
    py_seed_inner radix n1 reverse) reverse.

(** extra/snippet/radix4.py:48-57 — algorithm 1, the swaps. *)
Definition py_reversal_swaps {T} (radix log2length n1 : nat) (reverse : list nat) (x : list T)
  : outcome (list T) :=
  for_range 0 (n1 - 1) (fun i x =>
    for_range (i + 1) n1 (fun j x =>
      rj <- py_get reverse j ;;
      ri <- py_get reverse i ;;
      x <- py_swap x (i + rj) (j + ri) ;;
      if Nat.odd log2length then
        for_range 1 radix (fun z x => py_swap x (i + rj + z * n1) (j + ri + z * n1)) x
      else Ok x) x) x.

(** extra/snippet/radix4.py:28-58 — digitreversal(x, radix, log2length, length). *)
Definition py_digitreversal {T} (x : list T) (radix log2length len : nat) : outcome (list T) :=
  if negb (length x =? len) then Throw
  else if radix =? 0 then Throw
  else
    let n1 := if Nat.even log2length then Nat.sqrt len else Nat.sqrt (len / radix) in
    reverse <- py_seed radix len n1 ;;
    py_reversal_swaps radix log2length n1 reverse x.

(** extra/snippet/radix4.py:74-94 — one butterfly of dif_fft4. *)
Definition py_dif4_bf (twiddle : list C) (tss offset base k : nat) (x : list C) : outcome (list C) :=
  let a := base + k in
  let b := base + k + offset in
  let c := base + k + 2 * offset in
  let d := base + k + 3 * offset in
  xa <- py_get x a ;; xc <- py_get x c ;;
  xb <- py_get x b ;; xd <- py_get x d ;;
  let apc := (xa + xc)%C in
  let bpd := (xb + xd)%C in
  let amc := (xa - xc)%C in
  let bmd := (xb - xd)%C in
  x <- py_set x a (apc + bpd)%C ;;
  if k =? 0 then
    x <- py_set x b (amc - Ci * bmd)%C ;;
    x <- py_set x c (apc - bpd)%C ;;
    py_set x d (amc + Ci * bmd)%C
  else
    r1 <- py_get twiddle (k * tss) ;;
    r2 <- py_get twiddle (2 * k * tss) ;;
    r3 <- py_get twiddle (3 * k * tss) ;;
    x <- py_set x b ((amc - Ci * bmd) * r1)%C ;;
    x <- py_set x c ((apc - bpd) * r2)%C ;;
    py_set x d ((amc + Ci * bmd) * r3)%C.

(** extra/snippet/radix4.py:61-101 — dif_fft4(x, twiddle, log2length). *)
Definition py_dif_fft4 (x twiddle : list C) (log2length : nat) : outcome (list C) :=
  let length := 4 ^ log2length in
  '(_, _, _, _, x) <- for_range 0 log2length (fun _ s =>
      let '(length, tss, krange, block, x) := s in
      '(_, x) <- for_range 0 block (fun _ s =>
          let base := fst s in
          x <- for_range 0 krange (fun k x => py_dif4_bf twiddle tss (length / 4) base k x) (snd s) ;;
          Ok (base + 4 * krange, x)) (0, x) ;;
      Ok (length / 4, tss * 4, krange / 4, block * 4, x))
    (length, 1, length / 4, 1, x) ;;
  Ok x.

(** extra/snippet/radix4.py:116-141 — one butterfly of fft4. *)
Definition py_dit4_bf (twiddles : list C) (tss offset base k : nat) (x : list C) : outcome (list C) :=
  let a := base + k in
  let b := base + k + offset in
  let c := base + k + 2 * offset in
  let d := base + k + 3 * offset in
  xb <- py_get x b ;; xc <- py_get x c ;; xd <- py_get x d ;;
  '(xbr1, xcr2, xdr3) <- (if k =? 0 then Ok (xb, xc, xd) else
      r1 <- py_get twiddles (k * tss) ;;
      r2 <- py_get twiddles (2 * k * tss) ;;
      r3 <- py_get twiddles (3 * k * tss) ;;
      Ok ((xb * r1)%C, (xc * r2)%C, (xd * r3)%C)) ;;
  xa <- py_get x a ;;
  let e := (xa + xcr2)%C in
  let f := (xa - xcr2)%C in
  let g := (xbr1 + xdr3)%C in
  let h := (xbr1 - xdr3)%C in
  let j_h := (Ci * h)%C in
  x <- py_set x a (e + g)%C ;;
  x <- py_set x b (f - j_h)%C ;;
  x <- py_set x c (- g + e)%C ;;
  py_set x d (j_h + f)%C.

(** extra/snippet/radix4.py:104-148 — fft4(x, twiddles, log2length).  np.power(4, -1) on
    integers raises ValueError. *)
Definition py_fft4 (x twiddles : list C) (log2length : nat) : outcome (list C) :=
  if log2length =? 0 then Throw else
  '(_, _, _, _, x) <- for_range 0 log2length (fun _ s =>
      let '(nvar, tss, krange, block, x) := s in
      '(_, x) <- for_range 0 block (fun _ s =>
          let base := fst s in
          x <- for_range 0 krange (fun k x => py_dit4_bf twiddles tss (nvar / 4) base k x) (snd s) ;;
          Ok (base + 4 * krange, x)) (0, x) ;;
      Ok (4 * nvar, tss / 4, 4 * krange, block / 4, x))
    (4, 4 ^ (log2length - 1), 1, length x / 4, x) ;;
  Ok x.

(** extra/snippet/radix4.py:164-172 — one butterfly of dif_fft0. *)
Definition py_dif2_bf (twiddle : list C) (step half base_e n : nat) (x : list C) : outcome (list C) :=
  let base_o := base_e + half in
  a <- py_get x (base_e + n) ;; b <- py_get x (base_o + n) ;;
  let evar := (a + b)%C in
  ovar <- (if n =? 0 then Ok (a - b)%C else
             w <- py_get twiddle (n * step) ;; Ok ((a - b) * w)%C) ;;
  x <- py_set x (base_e + n) evar ;;
  py_set x (base_o + n) ovar.

(** extra/snippet/radix4.py:151-177 — dif_fft0(xarray, twiddle, log2length). *)
Definition py_dif_fft0 (x twiddle : list C) (log2length : nat) : outcome (list C) :=
  '(_, _, _, x) <- for_range 0 log2length (fun _ s =>
      let '(b_p, nvar_p, step, x) := s in
      let nvar_pp := nvar_p / 2 in
      '(_, x) <- for_range 0 b_p (fun _ s =>
          let base_e := fst s in
          x <- for_range 0 nvar_pp (fun n x => py_dif2_bf twiddle step nvar_pp base_e n x) (snd s) ;;
          Ok (base_e + nvar_p, x)) (0, x) ;;
      Ok (b_p * 2, nvar_p / 2, 2 * step, x))
    (1, length x, 1, x) ;;
  Ok x.

(** extra/snippet/radix4.py:194-201 — one butterfly of fft2. *)
Definition py_dit2_bf (twiddle : list C) (step half base_t n : nat) (x : list C) : outcome (list C) :=
  let base_b := base_t + half in
  bot <- (if n =? 0 then py_get x (base_b + n) else
            v <- py_get x (base_b + n) ;; w <- py_get twiddle (n * step) ;; Ok (v * w)%C) ;;
  top <- py_get x (base_t + n) ;;
  x <- py_set x (base_t + n) (top + bot)%C ;;
  py_set x (base_b + n) (top - bot)%C.

(** extra/snippet/radix4.py:180-206 — fft2(x, twiddle, log2length). *)
Definition py_fft2 (x twiddle : list C) (log2length : nat) : outcome (list C) :=
  '(_, _, _, x) <- for_range 0 log2length (fun _ s =>
      let '(b_p, nvar_p, step, x) := s in
      let nvar_pp := nvar_p / 2 in
      '(_, x) <- for_range 0 b_p (fun _ s =>
          let base_t := fst s in
          x <- for_range 0 nvar_pp (fun n x => py_dit2_bf twiddle step nvar_pp base_t n x) (snd s) ;;
          Ok (base_t + nvar_p, x)) (0, x) ;;
      Ok (b_p / 2, nvar_p * 2, step / 2, x))
    (length x / 2, 2, length x / 2, x) ;;
  Ok x.

(** extra/snippet/radix4.py:222-224, 281-283, 389-392 — np.linspace(0, kmax, int(kmax+1))
    and np.exp(-+2j*pi*k/length); [count] is kmax + 1. *)
Definition py_twiddles (d : direction) (count n : nat) : list C :=
  map (fun k => Cexp (dsign d * (2 * PI) * INR k / INR n)) (seq 0 count).

(** extra/snippet/radix4.py:220-228, 389-395 — testr4dif and foo: transform, then reorder. *)
Definition py_r4dif (d : direction) (log2length : nat) (x : list C) : outcome (list C) :=
  let n := 4 ^ log2length in
  x <- py_dif_fft4 x (py_twiddles d (3 * (n / 4 - 1) + 1) n) log2length ;;
  py_digitreversal x 4 log2length n.

(** extra/snippet/radix4.py:250-256 — testr4: reorder, then transform. *)
Definition py_r4 (d : direction) (log2length : nat) (x : list C) : outcome (list C) :=
  let n := 4 ^ log2length in
  x <- py_digitreversal x 4 log2length n ;;
  py_fft4 x (py_twiddles d (3 * (n / 4 - 1) + 1) n) log2length.

(** extra/snippet/radix4.py:280-287 — testr2dif. *)
Definition py_r2dif (d : direction) (log2length : nat) (x : list C) : outcome (list C) :=
  let n := 2 ^ log2length in
  x <- py_dif_fft0 x (py_twiddles d (n / 2) n) log2length ;;
  py_digitreversal x 2 log2length n.

(** extra/snippet/radix4.py:310-316 — testr2. *)
Definition py_r2 (d : direction) (log2length : nat) (x : list C) : outcome (list C) :=
  let n := 2 ^ log2length in
  x <- py_digitreversal x 2 log2length n ;;
  py_fft2 x (py_twiddles d (n / 2) n) log2length.
