(** Model of the example transforms in /repo/extra/snippet.  Floating-point numbers are
    exact reals (the constant 3.14159265359 of radix4.cpp is taken to be pi); indices
    are unbounded naturals (int and size_t in the code; the model is meant for sizes
    below 2^29, where 3 * N does not overflow). *)
From Coq Require Import List Arith Bool Reals.
From Verif Require Import Base.Outcome Base.Sums Base.Cplx Spec.Dft Model.Fft2 Model.FftRadix Model.Stockham.
Import ListNotations.
Open Scope outcome_scope.

(** * split_radix.cpp *)

(** extra/snippet/split_radix.cpp:103-107 — members of split_radix_fft_plan. *)
Record split_radix_plan := {
  sr_size : nat;
  sr_lut1_f : list C;
  sr_lut3_f : list C;
  sr_lut1_b : list C;
  sr_lut3_b : list C
}.

(** extra/snippet/split_radix.cpp:24-29 — the lambda [w]: polar(1, -2 pi i / n). *)
Definition sr_w (n i : nat) : C :=
  let angle := (-1 * (PI * 2) * INR i / INR n)%R in (cos angle, sin angle).

(** extra/snippet/split_radix.cpp:17-37 — the constructor. *)
Definition make_split_radix_plan (n : nat) : outcome split_radix_plan :=
  let z := repeat C0 (n / 4) in
  for_range 0 (n / 4) (fun i p =>
    l1 <- wr (sr_lut1_f p) i (sr_w n i) ;;
    l3 <- wr (sr_lut3_f p) i (sr_w n (3 * i)) ;;
    a <- rd l1 i ;;
    b1 <- wr (sr_lut1_b p) i (Cconj a) ;;
    c <- rd l3 i ;;
    b3 <- wr (sr_lut3_b p) i (Cconj c) ;;
    Ok {| sr_size := sr_size p; sr_lut1_f := l1; sr_lut3_f := l3; sr_lut1_b := b1; sr_lut3_b := b3 |})
    {| sr_size := n; sr_lut1_f := z; sr_lut3_f := z; sr_lut1_b := z; sr_lut3_b := z |}.

(** extra/snippet/split_radix.cpp:76-86 and 88-100 — one group of four outputs with
    twiddles [w1] and [w3] (no multiplications at k = 0 in the code: [w] is None). *)
Definition sr_combine (N k : nat) (w : option (C * C)) (ob : nat) (out : list C) : outcome (list C) :=
  let I := (0, 1)%R : C in
  Uk <- rd out (ob + k) ;;
  Zk <- rd out (ob + (k + N / 2)) ;;
  Uk2 <- rd out (ob + (k + N / 4)) ;;
  Zdk <- rd out (ob + (k + 3 * N / 4)) ;;
  let a := match w with Some (w1, _) => (w1 * Zk)%C | None => Zk end in
  let b := match w with Some (_, w3) => (w3 * Zdk)%C | None => Zdk end in
  out <- wr out (ob + k) (Uk + (a + b))%C ;;
  out <- wr out (ob + (k + N / 2)) (Uk - (a + b))%C ;;
  out <- wr out (ob + (k + N / 4)) (Uk2 - I * (a - b))%C ;;
  wr out (ob + (k + 3 * N / 4)) (Uk2 + I * (a - b))%C.

(** extra/snippet/split_radix.cpp:49-101 — splitfft.  The pointers [in] and [out] are an
    array and an offset into it ([ib], [ob]); [in] and [out] do not overlap.  [fuel]
    bounds the recursion depth: running out of it stands for the endless recursion
    that N = 0 would start. *)
Fixpoint splitfft (fuel : nat) (inp : list C) (ib : nat) (out : list C) (ob : nat)
  (log2stride stride N : nat) (lut1 lut3 : list C) : outcome (list C) :=
  if N =? 1 then
    v <- rd inp ib ;; wr out ob v
  else if N =? 2 then
    a <- rd inp ib ;; b <- rd inp (ib + stride) ;;
    out <- wr out ob (a + b)%C ;;
    a <- rd inp ib ;; b <- rd inp (ib + stride) ;;
    wr out (ob + N / 2) (a - b)%C
  else
    match fuel with
    | O => UB
    | S fuel =>
      out <- splitfft fuel inp ib out ob (log2stride + 1) (Nat.shiftl stride 1) (Nat.shiftr N 1) lut1 lut3 ;;
      out <- splitfft fuel inp (ib + stride) out (ob + N / 2) (log2stride + 2)
               (Nat.shiftl stride 2) (Nat.shiftr N 2) lut1 lut3 ;;
      out <- splitfft fuel inp (ib + 3 * stride) out (ob + 3 * N / 4) (log2stride + 2)
               (Nat.shiftl stride 2) (Nat.shiftr N 2) lut1 lut3 ;;
      out <- sr_combine N 0 None ob out ;;
      for_range 1 (N / 4) (fun k out =>
        w1 <- rd lut1 (Nat.shiftl k log2stride) ;;
        w3 <- rd lut3 (Nat.shiftl k log2stride) ;;
        sr_combine N k (Some (w1, w3)) ob out) out
    end.

(** extra/snippet/split_radix.cpp:39-46 — operator()(in, out, dir). *)
Definition run_split_radix (p : split_radix_plan) (inp out : list C) (dir : direction)
  : outcome (list C) :=
  match dir with
  | Forward => splitfft (sr_size p) inp 0 out 0 0 1 (sr_size p) (sr_lut1_f p) (sr_lut3_f p)
  | Backward => splitfft (sr_size p) inp 0 out 0 0 1 (sr_size p) (sr_lut1_b p) (sr_lut3_b p)
  end.

(** extra/snippet/split_radix.cpp:112-118 — build a plan of a size and run it. *)
Definition split_radix_fft (n : nat) (inp out : list C) (dir : direction) : outcome (list C) :=
  p <- make_split_radix_plan n ;; run_split_radix p inp out dir.

(** * stockham.cpp *)

(** extra/snippet/stockham.cpp:71-80 — make_twiddle_lut. *)
Definition sn_stockham_lut (n : nat) : outcome (list C) :=
  let theta0 := (2 * PI / INR n)%R in
  for_range 0 (n / 2) (fun i w =>
    wr w i (cos (INR i * theta0), sin (INR i * theta0))%R) (repeat C0 (n / 2)).

(** extra/snippet/stockham.cpp:36-69 — fft0, the same text as the library's
    (src/neo/fft/reference/c2c_stockham_dif2_plan.hpp:71-104). *)
Definition sn_stockham_fft0 := dif2r_fft0.

(** extra/snippet/stockham.cpp:9,15 — construct a plan of a size, call fft(x). *)
Definition sn_stockham_fft (size : nat) (x : list C) : outcome (list C) :=
  w <- sn_stockham_lut size ;;
  '(x, _) <- sn_stockham_fft0 size size 1 false x (repeat C0 size) w ;;
  Ok x.

(** extra/snippet/stockham.cpp:9,19-28 — construct a plan of a size, call ifft(x). *)
Definition sn_stockham_ifft (size : nat) (x : list C) : outcome (list C) :=
  w <- sn_stockham_lut size ;;
  x <- for_range 0 size (fun p x => v <- rd x p ;; wr x p (Cconj v)) x ;;
  '(x, _) <- sn_stockham_fft0 size size 1 false x (repeat C0 size) w ;;
  for_range 0 size (fun k x => v <- rd x k ;; wr x k (Cconj v)) x.

(** * radix4.cpp *)

(** extra/snippet/radix4.cpp:162-172 — one stage of c2c_stockham, from x to work. *)
Definition sn_c2c_stockham_stage (sign : R) (l m : nat) (x work : list C) : outcome (list C) :=
  for_range 0 l (fun j work =>
    let angle := (sign * (PI * 2) * INR j / INR (2 * l))%R in
    let w := (cos angle, sin angle) : C in
    for_range 0 m (fun k work =>
      c0 <- rd x (k + j * m) ;;
      c1 <- rd x (k + j * m + l * m) ;;
      work <- wr work (k + 2 * j * m) (c0 + c1)%C ;;
      wr work (k + 2 * j * m + m) ((c0 - c1) * w)%C) work) work.

(** extra/snippet/radix4.cpp:146-182 — c2c_stockham(x, work, order, sign).  The spans x
    and work are exchanged after each stage ([xw] are the arrays they point at); after
    an odd number of stages the local [work] is the caller's x again and receives the
    copy.  The result is the pair of final arrays of the caller. *)
Definition sn_c2c_stockham (x work : list C) (order : nat) (sign : R) : outcome (list C * list C) :=
  let n := 2 ^ order in
  '(_, _, x, work) <- for_range 1 (order + 1) (fun t s =>
      let '(l, m, x, work) := s in
      work <- sn_c2c_stockham_stage sign l m x work ;;
      Ok (l / 2, m * 2, work, x))
    (n / 2, 1, x, work) ;;
  if Nat.odd order then
    work <- for_range 0 (length x) (fun i work => v <- rd x i ;; wr work i v) work ;;
    Ok (work, x)
  else Ok (x, work).

(** extra/snippet/radix4.cpp:46-51 — the carry loop of digitrevorder<4>. *)
Definition sn_digit_carry (k j : nat) : outcome (nat * nat) :=
  while_fuel (j + 1) (fun s : nat * nat => fst s <=? snd s)
    (fun s => Ok (fst s / 4, snd s - fst s)) (k, j).

(** extra/snippet/radix4.cpp:36-53 — digitrevorder<4>; an empty span makes
    [len - 1] wrap and the while loop endless: UB. *)
Definition sn_digitrevorder4 (x : list C) : outcome (list C) :=
  if length x =? 0 then UB else
  '(_, x) <- for_range 0 (length x - 1) (fun i s =>
      let j := fst s in
      x' <- (if i <? j then swap (snd s) i j else Ok (snd s)) ;;
      '(k, j) <- sn_digit_carry (3 * length x / 4) j ;;
      Ok (j + k / 3, x'))
    (0, x) ;;
  Ok x.

(** extra/snippet/radix4.cpp:80-95 — one butterfly of c2c_dit4. *)
Definition sn_dit4_butterfly (I w1 w2 w3 : C) (base LR : nat) (x : list C) : outcome (list C) :=
  a <- rd x (base + LR * 0) ;;
  b <- rd x (base + LR * 1) ;;
  c <- rd x (base + LR * 2) ;;
  d <- rd x (base + LR * 3) ;;
  let b := (b * w1)%C in
  let c := (c * w2)%C in
  let d := (d * w3)%C in
  let t0 := (a + c)%C in
  let t1 := (a - c)%C in
  let t2 := (b + d)%C in
  let t3 := (b - d)%C in
  x <- wr x (base + LR * 0) (t0 + t2)%C ;;
  x <- wr x (base + LR * 1) (t1 - t3 * I)%C ;;
  x <- wr x (base + LR * 2) (t0 - t2)%C ;;
  wr x (base + LR * 3) (t1 + t3 * I)%C.

(** extra/snippet/radix4.cpp:58-98 — c2c_dit4(x, order, sign). *)
Definition sn_c2c_dit4 (x : list C) (order : nat) (sign : R) : outcome (list C) :=
  let n := length x in
  let I := (0%R, sign) : C in
  x <- sn_digitrevorder4 x ;;
  for_range 1 (order + 1) (fun q x =>
    let L := 4 ^ q in
    let LR := L / 4 in
    let r := n / L in
    for_range 0 LR (fun j x =>
      let angle := (sign * (PI * 2) * INR j / INR L)%R in
      let polar t := (cos (angle * t), sin (angle * t))%R : C in
      for_range 0 r (fun k x =>
        sn_dit4_butterfly I (polar 1%R) (polar 2%R) (polar 3%R) (k * L + j) LR x) x) x) x.

(** extra/snippet/radix4.cpp:100-144 — c2c_dit4(x, w, order, sign): the overload that
    takes a table. *)
Definition sn_c2c_dit4_lut (x w : list C) (order : nat) (sign : R) : outcome (list C) :=
  let n := length x in
  let I := (0%R, sign) : C in
  x <- sn_digitrevorder4 x ;;
  for_range 1 (order + 1) (fun q x =>
    let L := 4 ^ q in
    let LR := L / 4 in
    let r := n / L in
    for_range 0 LR (fun j x =>
      w1 <- rd w j ;;
      let w2 := (w1 * w1)%C in
      let w3 := (w2 * w1)%C in
      for_range 0 r (fun k x => sn_dit4_butterfly I w1 w2 w3 (k * L + j) LR x) x) x) x.

(** * split_fft.cpp *)

(** extra/snippet/split_fft.cpp:159-209 — static_dit2_stage<Float, Order, Stage>: the
    three overloads (stage 0, later stages, end); [todo] is Order - Stage.  The loops
    of a stage are those of the library's kernel.  For Order 0 two overloads match
    (no compilation): UB. *)
Fixpoint static_dit2_stage (order stage todo : nat) (x twiddles : list C) : outcome (list C) :=
  match todo with
  | O => if stage =? 0 then UB else Ok x
  | S todo =>
    x <- (if stage =? 0 then dit2_stage0 x
          else dit2_stage twiddles (2 ^ stage) (2 ^ (stage + 1)) (2 ^ (order - stage - 1)) x) ;;
    static_dit2_stage order (stage + 1) todo x twiddles
  end.

(** extra/snippet/split_fft.cpp:211-235 — static_fft_plan<Float, Order>: construct and
    call operator().  bitrevorder (:126-134) runs over the span; the model asks for a
    span of the size of the plan. *)
Definition static_fft (order : nat) (x : list C) (dir : direction) : outcome (list C) :=
  let size := Nat.shiftl 1 order in
  wf <- make_twiddle_lut_radix2 size Forward ;;
  wb <- make_twiddle_lut_radix2 size Backward ;;
  rev <- bitrev_make size ;;
  _ <- guard (length x =? size) ;;
  x <- bitrev_apply rev x ;;
  match dir with
  | Forward => static_dit2_stage order 0 order x wf
  | Backward => static_dit2_stage order 0 order x wb
  end.

(** * dct.py *)

(** extra/snippet/dct.py:9-19 — dct2_2nfft_1(x): the FFT of x followed by its mirror
    image, times exp(-j pi k / 2N); numpy's fft.fft is the forward DFT. *)
Definition dct2_2nfft_1 (x : list R) : list R :=
  let N := length x in
  let Y := firstn N (DFT_list Forward (map RtoC (x ++ rev x))) in
  tab N (fun k => fst (nth k Y C0 * Cexp (- PI * INR k / INR (2 * N)))%C).

(** extra/snippet/dct.py:22-31 — dct2_2nfft_2(x): zero padding instead of the mirror. *)
Definition dct2_2nfft_2 (x : list R) : list R :=
  let N := length x in
  let Y := firstn N (DFT_list Forward (map RtoC (x ++ repeat 0%R N))) in
  tab N (fun k => fst (nth k Y C0 * (RtoC 2 * Cexp (- PI * INR k / INR (2 * N))))%C).

(** extra/snippet/dct.py:38-43 — the elements of v: x[::2], then x[-2::-2] (odd length)
    or x[::-2] (even length); [length] many in all. *)
Definition dct2_nfft_order (x : list R) : list R :=
  let N := length x in
  let h := (N - 1) / 2 + 1 in
  tab N (fun i => if i <? h then nth (2 * i) x 0%R
                  else if N mod 2 =? 1 then nth (N - 2 - 2 * (i - h)) x 0%R
                  else nth (N - 1 - 2 * (i - h)) x 0%R).

(** extra/snippet/dct.py:34-48 — dct2_nfft(x). *)
Definition dct2_nfft (x : list R) : list R :=
  let N := length x in
  let V := DFT_list Forward (map RtoC (dct2_nfft_order x)) in
  tab N (fun k => fst (nth k V C0 * (RtoC 2 * Cexp (- PI * INR k / INR (2 * N))))%C).
