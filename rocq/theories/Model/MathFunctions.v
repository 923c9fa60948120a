(** src/neo/math/{abs,conj,polar}.hpp for numbers of the standard library.  Floats are exact
    reals. *)
From Coq Require Import Reals ZArith Bool.
From Verif Require Import Base.Outcome Base.Cplx Model.Integers.
Open Scope outcome_scope.

(** src/neo/math/abs.hpp:23-33 — unsigned integers are returned as they are; std::abs of a signed
    integer takes place in int or wider, and negating the smallest value there is undefined. *)
Definition abs_integer (t : ity) (v : Z) : outcome Z :=
  if isigned t then (if fitsb (promote t) (Z.abs v) then Ok (Z.abs v) else UB) else Ok v.

(** src/neo/math/abs.hpp:41-46 — std::abs of a floating-point number and of a std::complex. *)
Definition abs_float (x : R) : R := Rabs x.
Definition abs_complex (z : C) : R := sqrt (fst z * fst z + snd z * snd z).

(** src/neo/math/conj.hpp:28-38 — std::conj; of a floating-point number it is a complex number. *)
Definition conj_complex (z : C) : C := (fst z, (- snd z)%R).
Definition conj_float (x : R) : C := conj_complex (x, 0%R).

(** src/neo/math/polar.hpp:20-27 — std::polar(r, theta); r must not be negative. *)
Definition polar (r theta : R) : outcome C :=
  if Rle_dec 0 r then Ok ((r * cos theta)%R, (r * sin theta)%R) else UB.
