(** The cosine transform and the direct transform in rounded arithmetic; see Model/RoundedFft.v for
    [rnd], [fcos] and [fsin].  The definitions repeat those of Model/FftApps.v with a rounding
    after every floating point operation, in the order of the source. *)
From Coq Require Import Reals List Arith ZArith.
From Verif Require Import Base.Outcome Base.Alias Base.Cplx Spec.Dft Spec.Rounding Model.Fft2 Model.Algorithm
  Model.FftApps Model.RoundedFft Model.RoundedConv.
Import ListNotations.
Local Open Scope outcome_scope.
Local Open Scope nat_scope.

Section Rounded.
Variables rnd fcos fsin : R -> R.

(** src/neo/fft/dct.hpp:29 and 67-70 *)
Definition rmake_dct_plan (order : nat) : outcome dct_plan :=
  f <- rmake_dit2_plan rnd fcos fsin order ;;
  Ok (DctPlan order f (repeat C0 (2 ^ order))).

(** src/neo/fft/dct.hpp:53 — std::numbers::pi in double, converted to Float *)
Definition rpi : R := rnd (nearest 53 (-1074) PI).

(** src/neo/fft/dct.hpp:53-58 — 2 * exp((0, -1) * pi * i / (2 * n)).  The factors of the complex
    number (0, -1) are reals, so its real part stays zero; std::exp of an imaginary number is the
    cosine and sine of the angle, each multiplied by std::exp(0) = 1. *)
Definition rdct_scale (len i : nat) : C :=
  let angle := rnd (rnd (rnd (-1 * rpi) * rnd (INR i)) / rnd (2 * rnd (INR len)))%R in
  (rnd (2 * rnd (1 * fcos angle)), rnd (2 * rnd (1 * fsin angle)))%R.

(** src/neo/fft/dct.hpp:35-64 — operator()(x). *)
Definition rdct_run (p : dct_plan) (x : list R) : outcome (dct_plan * list R) :=
  let len := length x in
  buf <- for_range 0 (len / 2) (fun i buf =>
    let src := i * 2 in
    let top := len - i - 1 in
    v <- rd x src ;;
    buf <- wr buf i (RtoC v) ;;
    v <- rd x (src + 1) ;;
    wr buf top (RtoC v)) (dc_buf p) ;;
  buf <- run_dit2_plan (rdit2_v3 rnd) (dc_fft p) buf Forward ;;
  x <- for_range 0 len (fun i x =>
    let scale := rdct_scale len i in
    b <- rd buf i ;;
    wr x i (fst (rmul rnd b scale))) x ;;
  Ok (DctPlan (dc_order p) (dc_fft p) buf, x).

(** src/neo/fft/dft.hpp:50 — polar(1, sign * two_pi * n * k / size) *)
Definition rdft_weight (dir : direction) (size n k : nat) : C :=
  let sign := match dir with Forward => (-1)%R | Backward => 1%R end in
  let angle := rnd (rnd (rnd (rnd (sign * rtwo_pi rnd) * rnd (INR n)) * rnd (INR k)) / rnd (INR size))%R in
  (rnd (1 * fcos angle), rnd (1 * fsin angle))%R.

(** src/neo/fft/dft.hpp:33-57; the input may be the output. *)
Definition rdft (inp : operand C) (out : list C) (dir : direction) : outcome (list C) :=
  let size := length (contents inp out) in
  for_range 0 size (fun k out =>
    tmp <- for_range 0 size (fun n tmp =>
      input <- rd (contents inp out) n ;;
      let w := rdft_weight dir size n k in
      Ok (radd rnd tmp (rmul rnd input w))) C0 ;;
    wr out k tmp) out.

End Rounded.
