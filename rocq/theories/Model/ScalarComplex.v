(** src/neo/complex/scalar_complex.hpp and the accessors src/neo/math/{real,imag,conj}.hpp.
    The scalar is an exact real. *)
From Coq Require Import Reals.
Local Open Scope R_scope.

(** scalar_complex.hpp:14-29, 112-113 — two scalars, real() and imag(). *)
Record sc := Sc { sc_re : R; sc_im : R }.

(** scalar_complex.hpp:21 — the imaginary part defaults to zero. *)
Definition sc_of (re : R) : sc := Sc re 0.

(** scalar_complex.hpp:27-29 — setters. *)
Definition sc_set_re (z : sc) (re : R) : sc := Sc re (sc_im z).
Definition sc_set_im (z : sc) (im : R) : sc := Sc (sc_re z) im.

(** scalar_complex.hpp:31-33. *)
Definition sc_pos (z : sc) : sc := z.
Definition sc_neg (z : sc) : sc := Sc (- sc_re z) (- sc_im z).

(** scalar_complex.hpp:35-41. *)
Definition sc_add (lhs rhs : sc) : sc := Sc (sc_re lhs + sc_re rhs) (sc_im lhs + sc_im rhs).

(** scalar_complex.hpp:43-49. *)
Definition sc_sub (lhs rhs : sc) : sc := Sc (sc_re lhs - sc_re rhs) (sc_im lhs - sc_im rhs).

(** scalar_complex.hpp:51-57. *)
Definition sc_mul (lhs rhs : sc) : sc :=
  Sc (sc_re lhs * sc_re rhs - sc_im lhs * sc_im rhs) (sc_re lhs * sc_im rhs + sc_im lhs * sc_re rhs).

(** scalar_complex.hpp:59-71; a zero divisor gives Coq's x / 0 instead of inf or NaN. *)
Definition sc_div (lhs rhs : sc) : sc :=
  let lr := sc_re lhs in
  let li := sc_im lhs in
  let rr := sc_re rhs in
  let ri := sc_im rhs in
  let denom := rr * rr + ri * ri in
  Sc ((lr * rr + li * ri) / denom) ((li * rr - lr * ri) / denom).

(** scalar_complex.hpp:72-94 — lhs op= rhs.  rhs is a reference and may be lhs itself ([None]);
    it is read in full before lhs is assigned. *)
Definition sc_assign (op : sc -> sc -> sc) (lhs : sc) (rhs : option sc) : sc :=
  let rhs := match rhs with Some r => r | None => lhs end in
  op lhs rhs.

(** scalar_complex.hpp:96-110 — scalar right-hand sides. *)
Definition sc_mul_scalar (lhs : sc) (rhs : R) : sc := Sc (sc_re lhs * rhs) (sc_im lhs * rhs).
Definition sc_div_scalar (lhs : sc) (rhs : R) : sc := Sc (sc_re lhs / rhs) (sc_im lhs / rhs).

(** scalar_complex.hpp:119-128 — get<I>. *)
Definition sc_get (i : bool) (z : sc) : R := if i then sc_im z else sc_re z.

(** scalar_complex.hpp:130-134. *)
Definition sc_conj (z : sc) : sc := Sc (sc_re z) (- sc_im z).

(** scalar_complex.hpp:136-153. *)
Definition sc_abs (z : sc) : R := sqrt (sc_re z * sc_re z + sc_im z * sc_im z).

(** src/neo/math/real.hpp:25-47, imag.hpp:25-47: floating point arguments are returned as
    they are, by both functions. *)
Definition math_real_float (x : R) : R := x.
Definition math_imag_float (x : R) : R := x.
Definition math_real (z : sc) : R := sc_re z.
Definition math_imag (z : sc) : R := sc_im z.
