(** Specification: floating point arithmetic of a given precision, and distances of vectors. *)
From Coq Require Import Reals List ZArith.
From Flocq Require Import Core.
From Verif Require Import Base.Outcome Base.Cplx Base.VecNorm.
Local Open Scope R_scope.

(** The numbers with [prec] significant bits and exponents down to [emin], and rounding to the
    nearest of them, ties to even: binary32 has prec = 24 and emin = -149, binary64 has
    prec = 53 and emin = -1074. *)
Definition is_float (prec emin : Z) (x : R) : Prop := generic_format radix2 (FLT_exp emin prec) x.
Definition nearest (prec emin : Z) (x : R) : R := round radix2 (FLT_exp emin prec) ZnearestE x.

(** Arithmetic that rounds every result below [2 ^ emax] to nearest; nothing is said about results
    that overflow. *)
Definition rounds_to_nearest (prec emin emax : Z) (rnd : R -> R) : Prop :=
  forall x, Rabs x <= bpow radix2 emax -> rnd x = nearest prec emin x.

(** A library function [f] that computes [g] with an error of at most [2 ^ -prec]: one unit in the
    last place of the numbers in [1/2, 1). *)
Definition accurate (prec emin : Z) (f g : R -> R) : Prop :=
  forall x, is_float prec emin (f x) /\ Rabs (f x - g x) <= bpow radix2 (- prec).

(** Euclidean norm and distance. *)
Definition norm (x : list C) : R := vnorm (length x) (fun i => nth i x C0).
Definition distance (x y : list C) : R := vnorm (length x) (fun i => nth i x C0 - nth i y C0)%C.
Definition norm_r (x : list R) : R := rnorm (length x) (fun i => nth i x 0).
