(** src/neo/simd/{sse2,avx,avx512}.hpp — the batch types float32x4/8/16, float64x2/4/8 and
    float16x8/16, and src/neo/complex/scalar_complex.hpp over them and over _Float16.
    Numbers are IEEE 754 data: signed zeros, subnormals, infinities and one NaN (payloads and the
    exception flags are not modelled).  [m] is the rounding direction held in MXCSR. *)
From Coq Require Import ZArith List.
From Flocq Require Import Core IEEE754.BinarySingleNaN.
From Verif Require Import Base.Outcome Base.Alias.
Import ListNotations.

#[global] Instance prec_gt_0_11 : Prec_gt_0 11 := eq_refl.
#[global] Instance prec_gt_0_24 : Prec_gt_0 24 := eq_refl.
#[global] Instance prec_gt_0_53 : Prec_gt_0 53 := eq_refl.
#[global] Instance prec_lt_16 : Prec_lt_emax 11 16 := eq_refl.
#[global] Instance prec_lt_128 : Prec_lt_emax 24 128 := eq_refl.
#[global] Instance prec_lt_1024 : Prec_lt_emax 53 1024 := eq_refl.

(** _Float16, float, double *)
Definition f16 : Type := binary_float 11 16.
Definition f32 : Type := binary_float 24 128.
Definition f64 : Type := binary_float 53 1024.

(** A value converted to another format: rounded in direction [m]; a finite value too large
    overflows as that direction says. *)
Definition convert {p e} (p' e' : Z) {P : Prec_gt_0 p'} {E : Prec_lt_emax p' e'} (m : mode)
    (x : binary_float p e) : binary_float p' e' :=
  match x with
  | B754_zero s => B754_zero s
  | B754_infinity s => B754_infinity s
  | B754_nan => B754_nan
  | B754_finite s k ex _ => binary_normalize p' e' P E m (SpecFloat.cond_Zopp s (Zpos k)) ex s
  end.

(** The instructions on packed lanes; a register is the list of its lanes, lane 0 first:
    _mm256_cvtph_ps, _mm256_cvtps_ph(_, _MM_FROUND_CUR_DIRECTION),
    _mm256_{add,sub,mul}_ps.  [m] in [cvtph_ps] is irrelevant, the conversion is exact. *)
Definition cvtph_ps (x : list f16) : list f32 := map (convert 24 128 mode_NE) x.
Definition cvtps_ph (m : mode) (x : list f32) : list f16 := map (convert 11 16 m) x.
Definition add_ps (m : mode) : list f32 -> list f32 -> list f32 := zip_with (Bplus m).
Definition sub_ps (m : mode) : list f32 -> list f32 -> list f32 := zip_with (Bminus m).
Definition mul_ps (m : mode) : list f32 -> list f32 -> list f32 := zip_with (Bmult m).

(** _mm256_extracti128_si256(x, k) and _mm256_insertf128_si256(castsi128(lo), hi, 1) on sixteen
    16-bit lanes *)
Definition extract128 {T} (x : list T) (k : nat) : list T := firstn 8 (skipn (8 * k) x).
Definition insert128 {T} (lo hi : list T) : list T := firstn 8 lo ++ firstn 8 hi.

(** avx.hpp:63-69 — float16x8 binary_op *)
Definition half8_op (m : mode) (op : list f32 -> list f32 -> list f32) (lhs rhs : list f16) : list f16 :=
  let left := cvtph_ps lhs in
  let right := cvtph_ps rhs in
  let product := op left right in
  cvtps_ph m product.

(** avx.hpp:46-59 *)
Definition half8_add (m : mode) (lhs rhs : list f16) : list f16 := half8_op m (add_ps m) lhs rhs.
Definition half8_sub (m : mode) (lhs rhs : list f16) : list f16 := half8_op m (sub_ps m) lhs rhs.
Definition half8_mul (m : mode) (lhs rhs : list f16) : list f16 := half8_op m (mul_ps m) lhs rhs.

(** avx.hpp:122-139 — float16x16 binary_op *)
Definition half16_op (m : mode) (op : list f32 -> list f32 -> list f32) (lhs rhs : list f16) : list f16 :=
  let low_left := extract128 lhs 0 in
  let high_left := extract128 lhs 1 in
  let low_right := extract128 rhs 0 in
  let high_right := extract128 rhs 1 in
  let low_left_f16 := cvtph_ps low_left in
  let high_left_f16 := cvtph_ps high_left in
  let low_right_f16 := cvtph_ps low_right in
  let high_right_f16 := cvtph_ps high_right in
  let low_product := cvtps_ph m (op low_left_f16 low_right_f16) in
  let high_product := cvtps_ph m (op high_left_f16 high_right_f16) in
  insert128 low_product high_product.

(** avx.hpp:105-118 *)
Definition half16_add (m : mode) (lhs rhs : list f16) : list f16 := half16_op m (add_ps m) lhs rhs.
Definition half16_sub (m : mode) (lhs rhs : list f16) : list f16 := half16_op m (sub_ps m) lhs rhs.
Definition half16_mul (m : mode) (lhs rhs : list f16) : list f16 := half16_op m (mul_ps m) lhs rhs.

(** The batch types: lanes, and the three operators the type defines. *)
Record batch (T : Type) := Batch {
  b_size : nat;
  b_add : list T -> list T -> list T;
  b_sub : list T -> list T -> list T;
  b_mul : list T -> list T -> list T
}.
Arguments Batch {T}. Arguments b_size {T}. Arguments b_add {T}. Arguments b_sub {T}. Arguments b_mul {T}.

(** avx.hpp:16-141 *)
Definition float16x8 (m : mode) : batch f16 := Batch 8 (half8_add m) (half8_sub m) (half8_mul m).
Definition float16x16 (m : mode) : batch f16 := Batch 16 (half16_add m) (half16_sub m) (half16_mul m).

(** sse2.hpp:18-54, avx.hpp:145-187, avx512.hpp:11-49 — size = sizeof(register) / sizeof(float) *)
Definition float32xN (bits : nat) (m : mode) : batch f32 :=
  Batch (bits / 32) (zip_with (Bplus m)) (zip_with (Bminus m)) (zip_with (Bmult m)).
Definition float32x4 := float32xN 128.
Definition float32x8 := float32xN 256.
Definition float32x16 := float32xN 512.

(** sse2.hpp:56-92, avx.hpp:189-231, avx512.hpp:51-89 *)
Definition float64xN (bits : nat) (m : mode) : batch f64 :=
  Batch (bits / 64) (zip_with (Bplus m)) (zip_with (Bminus m)) (zip_with (Bmult m)).
Definition float64x2 := float64xN 128.
Definition float64x4 := float64xN 256.
Definition float64x8 := float64xN 512.

(** broadcast: _mm*_set1, or an array of [size] copies that is loaded (avx.hpp:29-34, 88-93) *)
Definition broadcast {T} (B : batch T) (v : T) : list T := repeat v (b_size B).

(** load_unaligned(&p[i]) reads [size] elements, store_unaligned(&p[i]) writes [size] elements;
    reaching past the end of the array is UB. *)
Definition load {T} (B : batch T) (p : list T) (i : nat) : outcome (list T) := slice p i (i + b_size B).
Definition store {T} (B : batch T) (reg : list T) (p : list T) (i : nat) : outcome (list T) :=
  splice p i (firstn (b_size B) reg).

(** scalar_complex.hpp:35-57 — scalar_complex<Batch>: a pair of registers *)
Definition sc_batch_add {T} (B : batch T) (x y : list T * list T) : list T * list T :=
  (b_add B (fst x) (fst y), b_add B (snd x) (snd y)).
Definition sc_batch_sub {T} (B : batch T) (x y : list T * list T) : list T * list T :=
  (b_sub B (fst x) (fst y), b_sub B (snd x) (snd y)).
Definition sc_batch_mul {T} (B : batch T) (x y : list T * list T) : list T * list T :=
  (b_sub B (b_mul B (fst x) (fst y)) (b_mul B (snd x) (snd y)),
   b_add B (b_mul B (fst x) (snd y)) (b_mul B (snd x) (fst y))).

(** scalar_complex.hpp:131-147 — abs of complex32 = scalar_complex<_Float16>: re * re + im * im in
    _Float16, the sum widened to float, std::sqrt in float, narrowed to _Float16.  Every _Float16
    operation is taken to round to _Float16. *)
Definition complex32_abs (m : mode) (re im : f16) : f16 :=
  let sum := Bplus m (Bmult m re re) (Bmult m im im) in
  convert 11 16 m (Bsqrt m (convert 24 128 mode_NE sum)).
