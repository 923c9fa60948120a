(** Model of the Stockham (self-sorting) plans and the in-place radix-4 plans.
    Index arithmetic is on unbounded naturals: for orders up to the max_order() of
    each plan no 32-bit index of the code wraps. *)
From Coq Require Import List Arith Bool Reals.
From Verif Require Import Base.Outcome Base.Cplx Spec.Dft Model.Fft2 Model.FftRadix.
Import ListNotations.
Open Scope outcome_scope.

(** The constant [i = Complex{0, sign}] of all plans below
    (e.g. src/neo/fft/reference/c2c_stockham_dif3_plan.hpp:44-45). *)
Definition sign_i (dir : direction) : C := (0%R, dsign dir).

(** src/neo/fft/reference/c2c_stockham_dif3_plan.hpp:67-73 — radix-3 butterfly, outputs
    before the twiddle multiplication. *)
Definition stockham_bf3 (dir : direction) (c : list C) : outcome (list C) :=
  match c with
  | [c0; c1; c2] =>
    let d0 := (c1 + c2)%C in
    let d1 := (c0 - Cscale (1 / 2) d0)%C in
    let d2 := Cscale (sin (PI / 3)) ((c1 - c2) * sign_i dir)%C in
    Ok [(c0 + d0)%C; (d1 + d2)%C; (d1 - d2)%C]
  | _ => UB
  end.

(** src/neo/fft/reference/c2c_stockham_dif4_plan.hpp:68-76 — radix-4 butterfly. *)
Definition stockham_bf4 (dir : direction) (c : list C) : outcome (list C) :=
  match c with
  | [c0; c1; c2; c3] =>
    let d0 := (c0 + c2)%C in
    let d1 := (c0 - c2)%C in
    let d2 := (c1 + c3)%C in
    let d3 := ((c1 - c3) * sign_i dir)%C in
    Ok [(d0 + d2)%C; (d1 + d3)%C; (d0 - d2)%C; (d1 - d3)%C]
  | _ => UB
  end.

(** src/neo/fft/reference/c2c_stockham_dif5_plan.hpp:47-50 (constants) and 75-91
    (radix-5 butterfly). *)
Definition stockham_bf5 (dir : direction) (c : list C) : outcome (list C) :=
  match c with
  | [c0; c1; c2; c3; c4] =>
    let sqrt5_by_4 := (sqrt 5 / 4)%R in
    let sin_pi_by_5 := sin (PI / 5) in
    let sin_2pi_by_5 := sin (2 * PI / 5) in
    let sin_ratio := (sin_pi_by_5 / sin_2pi_by_5)%R in
    let i := sign_i dir in
    let d0 := (c1 + c4)%C in
    let d1 := (c2 + c3)%C in
    let d2 := Cscale sin_2pi_by_5 (c1 - c4)%C in
    let d3 := Cscale sin_2pi_by_5 (c2 - c3)%C in
    let d4 := (d0 + d1)%C in
    let d5 := Cscale sqrt5_by_4 (d0 - d1)%C in
    let d6 := (c0 - Cscale (1 / 4) d4)%C in
    let d7 := (d6 + d5)%C in
    let d8 := (d6 - d5)%C in
    let d9 := ((d2 + Cscale sin_ratio d3) * i)%C in
    let d10 := ((Cscale sin_ratio d2 - d3) * i)%C in
    Ok [(c0 + d4)%C; (d7 + d9)%C; (d8 + d10)%C; (d8 - d10)%C; (d7 - d9)%C]
  | _ => UB
  end.

(** src/neo/fft/reference/c2c_stockham_dif8_plan.hpp:44 (constant) and 78-105
    (radix-8 butterfly). *)
Definition stockham_bf8 (dir : direction) (c : list C) : outcome (list C) :=
  match c with
  | [c0; c1; c2; c3; c4; c5; c6; c7] =>
    let sqrt2_by_2 := (sqrt 2 / 2)%R in
    let i := sign_i dir in
    let d0 := (c0 + c4)%C in
    let d1 := (c0 - c4)%C in
    let d2 := (c2 + c6)%C in
    let d3 := ((c2 - c6) * i)%C in
    let d4 := (c1 + c5)%C in
    let d5 := (c1 - c5)%C in
    let d6 := (c3 + c7)%C in
    let d7 := (c3 - c7)%C in
    let e0 := (d0 + d2)%C in
    let e1 := (d0 - d2)%C in
    let e2 := (d4 + d6)%C in
    let e3 := ((d4 - d6) * i)%C in
    let e4 := Cscale sqrt2_by_2 (d5 - d7)%C in
    let e5 := (Cscale sqrt2_by_2 (d5 + d7) * i)%C in
    let e6 := (d1 + e4)%C in
    let e7 := (d1 - e4)%C in
    let e8 := (d3 + e5)%C in
    let e9 := (d3 - e5)%C in
    Ok [(e0 + e2)%C; (e6 + e8)%C; (e1 + e3)%C; (e7 - e9)%C;
        (e0 - e2)%C; (e7 + e9)%C; (e1 - e3)%C; (e6 - e8)%C]
  | _ => UB
  end.

(** The loops over j and k of one stage, common to the four files up to the radix
    (c2c_stockham_dif3_plan.hpp:58-75, dif4:57-78, dif5:62-93, dif8:59-107):
    read c_0.. from the work copy [y], butterfly, multiply output number c >= 1 by
    twiddle(radix*l, c*j), store to x. *)
Definition stockham_stage (bf : direction -> list C -> outcome (list C)) (radix : nat)
  (dir : direction) (l m : nat) (y x : list C) : outcome (list C) :=
  for_range 0 l (fun j x =>
    for_range 0 m (fun k x =>
      c <- mapM (fun t => rd y (k + j * m + t * l * m)) (seq 0 radix) ;;
      o <- bf dir c ;;
      for_range 0 radix (fun t x =>
        v <- rd o t ;;
        wr x (k + radix * j * m + t * m)
          (if t =? 0 then v else (v * twiddle (radix * l) (t * j) dir)%C)) x) x) x.

(** operator()(x, dir) of the four plans (dif3:40-80, dif4:40-83, dif5:40-98,
    dif8:40-112): [copy(x, y)], stage, [l /= radix; m *= radix], [order] times.
    [copy] needs x and the work area (size radix^order) to have equal extents. *)
Definition stockham_run (bf : direction -> list C -> outcome (list C)) (radix order : nat)
  (x : list C) (dir : direction) : outcome (list C) :=
  let n := radix ^ order in
  '(_, _, x) <- for_range 1 (order + 1) (fun _ s =>
      let '(l, m, x) := s in
      if length x =? n then
        x <- stockham_stage bf radix dir l m x x ;;
        Ok (l / radix, m * radix, x)
      else UB)
    (n / radix, 1, x) ;;
  Ok x.

(** src/neo/fft/reference/c2c_stockham_dif3_plan.hpp:24-87. *)
Definition c2c_stockham_dif3_plan := stockham_run stockham_bf3 3.
(** src/neo/fft/reference/c2c_stockham_dif4_plan.hpp. *)
Definition c2c_stockham_dif4_plan := stockham_run stockham_bf4 4.
(** src/neo/fft/reference/c2c_stockham_dif5_plan.hpp. *)
Definition c2c_stockham_dif5_plan := stockham_run stockham_bf5 5.
(** src/neo/fft/reference/c2c_stockham_dif8_plan.hpp. *)
Definition c2c_stockham_dif8_plan := stockham_run stockham_bf8 8.

(** * Radix-2 Stockham *)

(** src/neo/fft/reference/c2c_stockham_dif2_plan.hpp:89-101 — the loops of fft0. *)
Definition dif2r_stage (stage_len stride : nat) (x work w : list C) : outcome (list C) :=
  let m := stage_len / 2 in
  for_range 0 m (fun j work =>
    w1 <- rd w (j * stride) ;;
    for_range 0 stride (fun k work =>
      a <- rd x (k + stride * (j + 0)) ;;
      b <- rd x (k + stride * (j + m)) ;;
      work <- wr work (k + stride * (2 * j + 0)) (a + b)%C ;;
      wr work (k + stride * (2 * j + 1)) ((a - b) * w1)%C) work) work.

(** src/neo/fft/reference/c2c_stockham_dif2_plan.hpp:71-104 — recursive fft0; returns
    the final contents of its arguments (x, work).  [fuel] bounds the recursion depth;
    stage_len 0 would recurse for ever. *)
Fixpoint dif2r_fft0 (fuel stage_len stride : nat) (work_is_output : bool) (x work w : list C)
  : outcome (list C * list C) :=
  if stage_len =? 1 then
    if work_is_output then
      work <- for_range 0 stride (fun k work => v <- rd x k ;; wr work k v) work ;;
      Ok (x, work)
    else Ok (x, work)
  else
    match fuel with
    | O => UB
    | S fuel =>
      work <- dif2r_stage stage_len stride x work w ;;
      '(work, x) <- dif2r_fft0 fuel (stage_len / 2) (stride * 2) (negb work_is_output) work x w ;;
      Ok (x, work)
    end.

(** src/neo/fft/reference/c2c_stockham_dif2_plan.hpp:106-113 — make_twiddle_lut. *)
Definition dif2r_lut (n : nat) : outcome (list C) :=
  for_range 0 (n / 2) (fun i w => wr w i (twiddle n i Backward)) (repeat C0 (n / 2)).

(** src/neo/fft/reference/c2c_stockham_dif2_plan.hpp:55-59 — the lambda [conjugate]. *)
Definition conjugate (n : nat) (x : list C) : outcome (list C) :=
  for_range 0 n (fun i x => v <- rd x i ;; wr x i (Cconj v)) x.

(** src/neo/fft/reference/c2c_stockham_dif2_plan.hpp:39-64 — operator(), fft, ifft
    of c2c_stockham_dif2r_plan; [work] is the content of the member _work. *)
Definition c2c_stockham_dif2r_plan (order : nat) (work x : list C) (dir : direction)
  : outcome (list C) :=
  let n := 2 ^ order in
  w <- dif2r_lut n ;;
  match dir with
  | Forward =>
    '(x, _) <- dif2r_fft0 order n 1 false x work w ;; Ok x
  | Backward =>
    x <- conjugate n x ;;
    '(x, _) <- dif2r_fft0 order n 1 false x work w ;;
    conjugate n x
  end.

(** src/neo/fft/reference/c2c_stockham_dif2_plan.hpp:169-191 — butterfly(x, y, w, ...). *)
Definition dif2i_butterfly (x y w : list C) (stage_len stride offset : nat) : outcome (list C) :=
  for_range 0 stage_len (fun j y =>
    let jm := j * stride in
    let jm2 := jm * 2 in
    w1 <- rd w jm ;;
    for_range 0 stride (fun k y =>
      c0 <- rd x (k + jm) ;;
      c1 <- rd x (k + jm + offset) ;;
      y <- wr y (k + jm2) (c0 + c1)%C ;;
      wr y (k + jm2 + stride) ((c0 - c1) * w1)%C) y) y.

(** src/neo/fft/reference/c2c_stockham_dif2_plan.hpp:193-201 — make_twiddle_lut: row 0
    (used for forward) is filled with backward twiddles and vice versa. *)
Definition dif2i_lut (n : nat) (dir : direction) : outcome (list C) :=
  for_range 0 (n / 2) (fun i w => wr w i (twiddle n i (flip dir))) (repeat C0 (n / 2)).

(** src/neo/fft/reference/c2c_stockham_dif2_plan.hpp:144-166 — operator()(x, dir) of
    c2c_stockham_dif2i_plan. *)
Definition c2c_stockham_dif2i_plan (order : nat) (work x : list C) (dir : direction)
  : outcome (list C) :=
  let n := 2 ^ order in
  w <- dif2i_lut n dir ;;
  '(x, y) <- for_range 0 order (fun stage s =>
      let stride := 2 ^ stage in
      let stage_len := n / (stride * 2) in
      let offset := stage_len * stride in
      if Nat.even stage then
        y <- dif2i_butterfly (fst s) (snd s) w stage_len stride offset ;; Ok (fst s, y)
      else
        x <- dif2i_butterfly (snd s) (fst s) w stage_len stride offset ;; Ok (x, snd s))
    (x, work) ;;
  if Nat.odd order then
    (if length x =? length y then Ok y else UB)   (* copy(y, x) *)
  else Ok x.

(** * Radix 4, decimation in time (Stockham and in place), decimation in frequency *)

(** src/neo/fft/reference/c2c_stockham_dit4_plan.hpp:49-88 — inner loop body: the four
    outputs for position (j, k) of a stage. *)
Definition stockham_dit4_stage (dir : direction) (n q : nat) (y x : list C) : outcome (list C) :=
  let i := sign_i dir in
  let l := 4 ^ q in
  let r := n / l in
  let lstar := l / 4 in
  let rstar := 4 * r in
  for_range 0 lstar (fun j x =>
    let w1 := twiddle l (1 * j) dir in
    let w2 := twiddle l (2 * j) dir in
    let w3 := twiddle l (3 * j) dir in
    for_range 0 r (fun k x =>
      a <- rd y (j * rstar + r * 0 + k) ;;
      b <- rd y (j * rstar + r * 1 + k) ;;
      c <- rd y (j * rstar + r * 2 + k) ;;
      d <- rd y (j * rstar + r * 3 + k) ;;
      let b := (b * w1)%C in
      let c := (c * w2)%C in
      let d := (d * w3)%C in
      let t0 := (a + c)%C in
      let t1 := (a - c)%C in
      let t2 := (b + d)%C in
      let t3 := (b - d)%C in
      x <- wr x ((j + lstar * 0) * r + k) (t0 + t2)%C ;;
      x <- wr x ((j + lstar * 1) * r + k) (t1 - t3 * i)%C ;;
      x <- wr x ((j + lstar * 2) * r + k) (t0 - t2)%C ;;
      wr x ((j + lstar * 3) * r + k) (t1 + t3 * i)%C) x) x.

(** src/neo/fft/reference/c2c_stockham_dit4_plan.hpp:35-90 — operator()(x, dir). *)
Definition c2c_stockham_dit4_plan (order : nat) (x : list C) (dir : direction)
  : outcome (list C) :=
  let n := 4 ^ order in
  for_range 1 (order + 1) (fun q x =>
    if length x =? n then stockham_dit4_stage dir n q x x else UB) x.

(** src/neo/fft/reference/c2c_dit4_plan.hpp:74-94 (k = 0: no twiddles) and 96-121
    (k >= 1) — radix-4 DIT butterfly at [base + k]. *)
Definition dit4_butterfly (z w1 w2 w3 : C) (i0 offset : nat) (x : list C) : outcome (list C) :=
  let i1 := i0 + 1 * offset in
  let i2 := i0 + 2 * offset in
  let i3 := i0 + 3 * offset in
  c0 <- rd x i0 ;;
  c1 <- rd x i1 ;;
  c2 <- rd x i2 ;;
  c3 <- rd x i3 ;;
  let c1 := (c1 * w1)%C in
  let c2 := (c2 * w2)%C in
  let c3 := (c3 * w3)%C in
  let d0 := (c0 + c2)%C in
  let d1 := (c0 - c2)%C in
  let d2 := (c1 + c3)%C in
  let d3 := ((c1 - c3) * z)%C in
  x <- wr x i0 (d0 + d2)%C ;;
  x <- wr x i1 (d1 - d3)%C ;;
  x <- wr x i2 (- d2 + d0)%C ;;
  wr x i3 (d3 + d1)%C.

(** src/neo/fft/reference/c2c_dit4_plan.hpp:52-131 — c2c_dit4(x, twiddle, order, sign).
    [ipow<4>(order - 1)] wraps its argument for order 0 (UB).  In the k = 0 block the
    multiplications by 1 are absent in the code. *)
Definition c2c_dit4 (x tw : list C) (order : nat) (z : C) : outcome (list C) :=
  if order =? 0 then UB else
  '(_, _, _, _, x) <- for_range 0 order (fun _ s =>
      let '(len, w_stride, krange, block, x) := s in
      let offset := len / 4 in
      '(_, x) <- for_range 0 block (fun _ s =>
          let base := fst s in
          x <- dit4_butterfly z C1 C1 C1 base offset (snd s) ;;
          x <- for_range 1 krange (fun k x =>
              w1 <- rd tw (1 * k * w_stride) ;;
              w2 <- rd tw (2 * k * w_stride) ;;
              w3 <- rd tw (3 * k * w_stride) ;;
              dit4_butterfly z w1 w2 w3 (base + k) offset x) x ;;
          Ok (base + 4 * krange, x))
        (0, x) ;;
      Ok (4 * len, w_stride / 4, 4 * krange, block / 4, x))
    (4, 4 ^ (order - 1), 1, length x / 4, x) ;;
  Ok x.

(** src/neo/fft/reference/c2c_dit4_plan.hpp:153-178 — radix-4 DIF butterfly; [ws] are
    the twiddles when k <> 0. *)
Definition dif4_butterfly (z : C) (ws : option (C * C * C)) (i0 offset : nat) (x : list C)
  : outcome (list C) :=
  let i1 := i0 + offset in
  let i2 := i0 + 2 * offset in
  let i3 := i0 + 3 * offset in
  x0 <- rd x i0 ;;
  x1 <- rd x i1 ;;
  x2 <- rd x i2 ;;
  x3 <- rd x i3 ;;
  let d0 := (x0 + x2)%C in
  let d1 := (x0 - x2)%C in
  let d2 := (x1 + x3)%C in
  let d3 := (x1 - x3)%C in
  x <- wr x i0 (d0 + d2)%C ;;
  match ws with
  | None =>
    x <- wr x i1 (d1 - z * d3)%C ;;
    x <- wr x i2 (d0 - d2)%C ;;
    wr x i3 (d1 + z * d3)%C
  | Some (w1, w2, w3) =>
    x <- wr x i1 ((d1 - z * d3) * w1)%C ;;
    x <- wr x i2 ((d0 - d2) * w2)%C ;;
    wr x i3 ((d1 + z * d3) * w3)%C
  end.

(** src/neo/fft/reference/c2c_dit4_plan.hpp:133-188 — c2c_dif4(x, twiddle, order, sign). *)
Definition c2c_dif4 (x tw : list C) (order : nat) (z : C) : outcome (list C) :=
  let len := 4 ^ order in
  '(_, _, _, _, x) <- for_range 0 order (fun _ s =>
      let '(len, w_stride, krange, block, x) := s in
      '(_, x) <- for_range 0 block (fun _ s =>
          let base := fst s in
          x <- for_range 0 krange (fun k x =>
              let offset := len / 4 in
              ws <- (if k =? 0 then Ok None else
                       w1 <- rd tw (1 * k * w_stride) ;;
                       w2 <- rd tw (2 * k * w_stride) ;;
                       w3 <- rd tw (3 * k * w_stride) ;;
                       Ok (Some (w1, w2, w3))) ;;
              dif4_butterfly z ws (base + k) offset x) (snd s) ;;
          Ok (base + 4 * krange, x))
        (0, x) ;;
      Ok (len / 4, w_stride * 4, krange / 4, block * 4, x))
    (len, 1, len / 4, 1, x) ;;
  Ok x.

(** src/neo/fft/reference/c2c_dit4_plan.hpp:190-201 — make_twiddle_lut(n), one row.
    [n / 4 - 1] wraps for n < 4: the loop then runs past the end (UB). *)
Definition radix4_lut (n : nat) (dir : direction) : outcome (list C) :=
  if n <? 4 then UB else
  let kmax := 3 * (n / 4 - 1) in
  for_range 0 (kmax + 1) (fun i w => wr w i (twiddle n i dir)) (repeat C0 n).

(** src/neo/fft/reference/c2c_dit4_plan.hpp:34-49 — c2c_dit4_plan{order}(x, dir). *)
Definition c2c_dit4_plan (order : nat) (x : list C) (dir : direction) : outcome (list C) :=
  let n := 4 ^ order in
  lut <- digitrev_make 4 n ;;
  w <- radix4_lut n dir ;;
  x <- digitrev_apply lut x ;;
  c2c_dit4 x w order (sign_i dir).

(** src/neo/fft/reference/c2c_dit4_plan.hpp:34-49 — c2c_dif4_plan{order}(x, dir). *)
Definition c2c_dif4_plan (order : nat) (x : list C) (dir : direction) : outcome (list C) :=
  let n := 4 ^ order in
  lut <- digitrev_make 4 n ;;
  w <- radix4_lut n dir ;;
  x <- c2c_dif4 x w order (sign_i dir) ;;
  digitrev_apply lut x.
