(** Specification: the two floating point formats of the library, the accumulated effect of
    several roundings, and convolution of magnitudes. *)
From Coq Require Import Reals List ZArith.
From Flocq Require Import Core.
From Verif Require Import Base.Outcome Base.Cplx Spec.Rounding.
Local Open Scope R_scope.

(** binary32 (float) or binary64 (double): significant bits, exponent of the smallest number,
    exponent bound of the largest. *)
Definition ieee (prec emin emax : Z) : Prop :=
  (prec = 24 /\ emin = -149 /\ emax = 127)%Z \/ (prec = 53 /\ emin = -1074 /\ emax = 1023)%Z.

(** The largest relative error of one rounding, and half of the smallest positive number: the
    largest absolute error of a rounding that underflows. *)
Definition unit_roundoff (prec : Z) : R := bpow radix2 (- prec).
Definition underflow (emin : Z) : R := bpow radix2 (emin - 1).

(** The factor by which [k] roundings can change a number. *)
Definition growth (prec : Z) (k : nat) : R := (1 + unit_roundoff prec) ^ k.

(** [computed] is [exact] up to [k] roundings. *)
Definition up_to_roundings (prec : Z) (k : nat) (exact computed : R) : Prop :=
  exact / growth prec k <= computed <= exact * growth prec k.

(** Zero, or large enough for full precision: at least 2^-126 (float) or 2^-1022 (double). *)
Definition no_underflow (prec emin : Z) (v : R) : Prop := v = 0 \/ bpow radix2 (emin + prec - 1) <= Rabs v.
Definition in_range (emax : Z) (v : R) : Prop := Rabs v <= bpow radix2 emax.
