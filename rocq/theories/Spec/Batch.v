(** Specification: operations on batches of IEEE 754 numbers. *)
From Coq Require Import Reals ZArith List.
From Flocq Require Import Core IEEE754.BinarySingleNaN.
From Verif Require Import Spec.Rounding.
Local Open Scope R_scope.

(** [op] works on [w] lanes: lane [k] of the result is [f] of lane [k] of the operands. *)
Definition lanewise {T} (w : nat) (f : T -> T -> T) (op : list T -> list T -> list T) : Prop :=
  forall x y, length x = w -> length y = w ->
    length (op x y) = w /\
    forall k d, (k < w)%nat -> nth k (op x y) d = f (nth k x d) (nth k y d).

(** [op] is the IEEE 754 operation of format (p, emax) whose exact result on finite operands is [g],
    rounded to nearest, ties to even: the nearest number if that is below 2^emax, else an infinity
    with the sign of the exact result. *)
Definition rounds (p emax emin : Z) (g : R -> R -> R)
    (op : binary_float p emax -> binary_float p emax -> binary_float p emax) : Prop :=
  forall a b, is_finite a = true -> is_finite b = true ->
    let v := g (B2R a) (B2R b) in
    (Rabs (nearest p emin v) < bpow radix2 emax ->
      is_finite (op a b) = true /\ B2R (op a b) = nearest p emin v) /\
    (bpow radix2 emax <= Rabs (nearest p emin v) ->
      op a b = B754_infinity (Rlt_bool v 0)).

(** A complex product computed with operations [sub], [add] and [mul] on the parts. *)
Definition complex_mul {T} (add sub mul : T -> T -> T) (x y : T * T) : T * T :=
  (sub (mul (fst x) (fst y)) (mul (snd x) (snd y)), add (mul (fst x) (snd y)) (mul (snd x) (fst y))).
