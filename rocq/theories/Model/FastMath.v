(** The fast logarithm: src/neo/math/fast_math.hpp, src/neo/unit/decibel.hpp.

    Floats are binary32 numbers of Flocq's IEEE754 library, which also gives their bits.  Every
    operation is rounded to nearest even ([rnd32]); none of them overflows. *)
From Coq Require Import Reals ZArith.
From Flocq Require Import Core IEEE754.Binary IEEE754.Bits.
From Verif Require Import Model.FixedPoint.
Local Open Scope R_scope.

(** src/neo/math/fast_math.hpp:12-18 — the arithmetic of fast_log2 on the integer [vx] and the
    float [mx]. *)
Definition fast_log2_arith (vx : Z) (mx : R) : R :=
  let y := rnd32 (rnd32 (IZR vx) * rnd32 (11920928955078125 / 10 ^ 23)) in
  rnd32 (rnd32 (rnd32 (y - rnd32 (12422551499 / 100000000)) - rnd32 (rnd32 (1498030302 / 1000000000) * mx))
         - rnd32 (rnd32 (172587999 / 100000000) / rnd32 (rnd32 (3520887068 / 10000000000) + mx))).

(** src/neo/math/fast_math.hpp:12-18 — fast_log2(x); bit_cast is src/neo/bit/bit_cast.hpp:11-25. *)
Definition fast_log2 (x : binary32) : R :=
  let vx := bits_of_b32 x in
  let mx := B2R 24 128 (b32_of_bits (Z.lor (Z.land vx 0x007FFFFF) 0x3f000000)) in
  fast_log2_arith vx mx.

(** src/neo/math/fast_math.hpp:21-25 *)
Definition fast_log10 (x : binary32) : R := rnd32 (fast_log2 x * rnd32 (30102999566 / 10 ^ 11)).

(** src/neo/unit/decibel.hpp:13-25 — amplitude_to_db<precision::estimate>(gain, infinity) for
    Float = float; 20 is exact. *)
Definition amplitude_to_db_estimate_floor (gain : binary32) (infinity : R) : R :=
  if Rle_dec (B2R 24 128 gain) 0 then infinity else Rmax infinity (rnd32 (20 * fast_log10 gain)).

(** src/neo/unit/decibel.hpp:27-31 *)
Definition amplitude_to_db_estimate (gain : binary32) : R := amplitude_to_db_estimate_floor gain (-144).
