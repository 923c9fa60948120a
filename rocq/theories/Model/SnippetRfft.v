(** The real FFT of the snippets, on interleaved floats.  Floats are exact reals and the
    literal 6.28318530717959F is 2 pi; int indices are nat (vectors of at most 2^30
    elements, for which no int overflows). *)
From Coq Require Import List Arith ZArith Bool Reals.
From Verif Require Import Base.Outcome Base.Cplx Model.Fft2.
Import ListNotations.
Open Scope outcome_scope.

(** extra/snippet/rfft.cpp:16-30 — reordering; [n] is the number of complex elements,
    the inner while loop (lines 23-27) is the one of bitrevorder.hpp. *)
Definition nr_reorder (n : nat) (x : list R) : outcome (list R) :=
  let nn := n * 2 in
  '(_, x) <- for_step 1 nn 2 (fun i s =>
    let '(j, x) := s in
    x <- (if i <? j then
            x <- swap x (j - 1) (i - 1) ;;
            swap x j i
          else Ok x) ;;
    '(m, j) <- bitrev_carry_f n j ;;
    Ok (j + m, x)) (1, x) ;;
  Ok x.

(** extra/snippet/rfft.cpp:34-60 — one iteration of the while loop over mmax; the loop of
    line 42 runs while i <= nn. *)
Definition nr_stage (nn mmax : nat) (isign : Z) (x : list R) : outcome (list R) :=
  let istep := mmax * 2 in
  let theta := (IZR isign * (2 * PI / INR mmax))%R in
  let wtemp := sin (1 / 2 * theta) in
  let wpr := (-2 * wtemp * wtemp)%R in
  let wpi := sin theta in
  '(_, x) <- for_step 1 mmax 2 (fun m s =>
    let '((wr_, wi_), x) := s in
    x <- for_step m (nn + 1) istep (fun i x =>
      let j := i + mmax in
      let jn1 := j - 1 in
      let in1 := i - 1 in
      xjn1 <- rd x jn1 ;; xj <- rd x j ;;
      let tempr := (wr_ * xjn1 - wi_ * xj)%R in
      let tempi := (wr_ * xj + wi_ * xjn1)%R in
      xin1 <- rd x in1 ;;
      x <- wr x jn1 (xin1 - tempr)%R ;;
      xi <- rd x i ;;
      x <- wr x j (xi - tempi)%R ;;
      xin1 <- rd x in1 ;;
      x <- wr x in1 (xin1 + tempr)%R ;;
      xi <- rd x i ;;
      wr x i (xi + tempi)%R) x ;;
    Ok (((wr_ * wpr - wi_ * wpi + wr_)%R, (wi_ * wpr + wr_ * wpi + wi_)%R), x))
    ((1%R, 0%R), x) ;;
  Ok x.

(** extra/snippet/rfft.cpp:9-62 — fft(data, n, isign).  Fuel: mmax doubles every
    iteration. *)
Definition nr_fft_ptr (x : list R) (n : nat) (isign : Z) : outcome (list R) :=
  let nn := n * 2 in
  x <- nr_reorder n x ;;
  '(_, x) <- while_fuel nn (fun s : nat * list R => fst s <? nn)
    (fun s => let '(mmax, x) := s in
       x <- nr_stage nn mmax isign x ;; Ok (mmax * 2, x)) (2, x) ;;
  Ok x.

(** extra/snippet/rfft.cpp:64 — fft(vector, isign); data[0] of an empty vector is UB. *)
Definition nr_fft (x : list R) (isign : Z) : outcome (list R) :=
  _ <- guard (1 <=? length x) ;;
  nr_fft_ptr x (length x / 2) isign.

(** extra/snippet/rfft.cpp:66-120 — rfft(vector, isign). *)
Definition nr_rfft (x : list R) (isign : Z) : outcome (list R) :=
  let n := length x in
  let c1 := (1 / 2)%R in
  let c2 := if Z.eqb isign 1 then (- (1 / 2))%R else (1 / 2)%R in
  let theta := (PI / INR (n / 2))%R in
  x <- (if Z.eqb isign 1 then nr_fft x 1 else Ok x) ;;
  let theta := if Z.eqb isign 1 then theta else (- theta)%R in
  let wtemp := sin (1 / 2 * theta) in
  let wpr := (-2 * wtemp * wtemp)%R in
  let wpi := sin theta in
  '(x, _, _) <- for_range 1 (n / 4) (fun i s =>
    let '(x, wr_, wi_) := s in
    let i1 := i + i in
    let i2 := 1 + i1 in
    let i3 := n - i1 in
    let i4 := 1 + i3 in
    xi1 <- rd x i1 ;; xi2 <- rd x i2 ;; xi3 <- rd x i3 ;; xi4 <- rd x i4 ;;
    let h1r := (c1 * (xi1 + xi3))%R in
    let h1i := (c1 * (xi2 - xi4))%R in
    let h2r := (- c2 * (xi2 + xi4))%R in
    let h2i := (c2 * (xi1 - xi3))%R in
    x <- wr x i1 (h1r + wr_ * h2r - wi_ * h2i)%R ;;
    x <- wr x i2 (h1i + wr_ * h2i + wi_ * h2r)%R ;;
    x <- wr x i3 (h1r - wr_ * h2r + wi_ * h2i)%R ;;
    x <- wr x i4 (- h1i + wr_ * h2i + wi_ * h2r)%R ;;
    Ok (x, (wr_ * wpr - wi_ * wpi + wr_)%R, (wi_ * wpr + wr_ * wpi + wi_)%R)) (x, (1 + wpr)%R, wpi) ;;
  h1r <- rd x 0 ;;
  x1 <- rd x 1 ;;
  if Z.eqb isign 1 then
    x <- wr x 0 (h1r + x1)%R ;;
    wr x 1 (h1r - x1)%R
  else
    x <- wr x 0 (c1 * (h1r + x1))%R ;;
    x <- wr x 1 (c1 * (h1r - x1))%R ;;
    nr_fft x (-1).

(** extra/snippet/rfft.cpp:129-146 — the timed loop of main: both transforms on the same
    buffer, [runs] times, nothing scaled in between; the second component is the list of
    values buffer[0] * (2 / size) stored in runs (lines 141-142, the times, are left out). *)
Definition nr_timed_loop (runs : nat) (buffer : list R) : outcome (list R * list R) :=
  for_range 0 runs (fun _ s =>
    let '(buffer, r) := s in
    buffer <- nr_rfft buffer 1 ;;
    buffer <- nr_rfft buffer (-1) ;;
    b0 <- rd buffer 0 ;;
    Ok (buffer, r ++ [(b0 * (2 / INR (length buffer)))%R])) (buffer, []).
