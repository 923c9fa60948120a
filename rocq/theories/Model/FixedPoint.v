(** Fixed-point numbers: src/neo/fixed_point/fixed_point.hpp, complex.hpp.
    A fixed_point<IntType, F> is its stored integer (a [Z] in the range of IntType). *)
From Coq Require Import ZArith List Bool Reals.
From Flocq Require Import Core.
From Verif Require Import Base.Outcome Model.Integers.
Local Open Scope Z_scope.

Definition int8 : ity := Ity 8 true.
Definition int16 : ity := Ity 16 true.

(** std::clamp(x, lo, hi): undefined if hi < lo. *)
Definition clamp (x lo hi : Z) : outcome Z :=
  if hi <? lo then UB
  else Ok (if x <? lo then lo else if hi <? x then hi else x).

(** src/neo/fixed_point/fixed_point.hpp:15-21 — detail::saturate<IntType>(int32 x);
    the argument is converted to int32. *)
Definition saturate (t : ity) (x : Z) : outcome Z :=
  let x := iconv int32 x in
  let min_v := iconv int32 (imin t) in
  let max_v := iconv int32 (imax t) in
  r <- clamp x min_v max_v ;;
  Ok (iconv t r).

(** src/neo/fixed_point/fixed_point.hpp:62-71 — unary minus. *)
Definition fp_neg (t : ity) (a : Z) : outcome Z :=
  if a =? imin t then Ok (imax t)
  else v <- iarith t (- a) ;; Ok (iconv t v).

(** src/neo/fixed_point/fixed_point.hpp:73-79. *)
Definition fp_add (t : ity) (a b : Z) : outcome Z :=
  v <- iarith t (a + b) ;; saturate t v.

(** src/neo/fixed_point/fixed_point.hpp:81-87. *)
Definition fp_sub (t : ity) (a b : Z) : outcome Z :=
  v <- iarith t (a - b) ;; saturate t v.

(** src/neo/fixed_point/fixed_point.hpp:89-95 — (l * r) >> fractional_bits, arithmetic
    shift. *)
Definition fp_mul (t : ity) (F : Z) (a b : Z) : outcome Z :=
  v <- iarith t (a * b) ;; saturate t (Z.shiftr v F).

(** src/neo/fixed_point/fixed_point.hpp:97-107 — comparisons compare stored values. *)
Definition fp_eq (a b : Z) : bool := a =? b.
Definition fp_lt (a b : Z) : bool := a <? b.
Definition fp_le (a b : Z) : bool := a <=? b.

(** Rounding of a real to binary32 (round to nearest even; no overflow). *)
Definition rnd32 (x : R) : R := round radix2 (FLT_exp (-149) 24) ZnearestE x.

(** src/neo/fixed_point/fixed_point.hpp:40-41 — scale = float(1 << F), inv_scale = 1.0F / scale. *)
Definition scale32 (F : Z) : R := rnd32 (IZR (2 ^ F)).
Definition inv_scale32 (F : Z) : R := rnd32 (1 / scale32 F).

(** src/neo/fixed_point/fixed_point.hpp:45-48 — fixed_point(Float val): narrowing to
    float, multiplication in float, truncation to int32 (UB when out of range). *)
Definition fp_of_float (t : ity) (F : Z) (val : R) : outcome Z :=
  let v := rnd32 (rnd32 val * scale32 F) in
  let i := Ztrunc v in
  if fitsb int32 i then saturate t i else UB.

(** src/neo/fixed_point/fixed_point.hpp:52-56 — operator Float(): float(_value) * inv_scale. *)
Definition fp_to_float (F : Z) (a : Z) : R := rnd32 (rnd32 (IZR a) * inv_scale32 F).

(** src/neo/fixed_point/complex.hpp:33-47. *)
Definition fpc_add (t : ity) (l r : Z * Z) : outcome (Z * Z) :=
  re <- fp_add t (fst l) (fst r) ;; im <- fp_add t (snd l) (snd r) ;; Ok (re, im).
Definition fpc_sub (t : ity) (l r : Z * Z) : outcome (Z * Z) :=
  re <- fp_sub t (fst l) (fst r) ;; im <- fp_sub t (snd l) (snd r) ;; Ok (re, im).

(** src/neo/fixed_point/complex.hpp:49-72 — operator*. As in the code, [rim] is taken from
    [lhs]; the shift is 17 (16-bit storage) or 33 (32-bit storage, at least the width of
    int: UB); 8-bit storage does not compile and is UB here. *)
Definition fpc_mul (t : ity) (l r : Z * Z) : outcome (Z * Z) :=
  let shift := if iwidth t =? 16 then 17 else 33 in
  if (iwidth t =? 8) || (iwidth (promote t) <=? shift) then UB else
  let lre := fst l in
  let lim := snd l in
  let rre := fst r in
  let rim := snd l in
  a <- iarith t (lre * rre) ;; b <- iarith t (lim * rim) ;;
  c <- iarith t (lre * rim) ;; d <- iarith t (lim * rre) ;;
  re <- iarith (promote t) (Z.shiftr a shift - Z.shiftr b shift) ;;
  im <- iarith (promote t) (Z.shiftr c shift + Z.shiftr d shift) ;;
  Ok (iconv t re, iconv t im).
