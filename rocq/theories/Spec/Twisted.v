(** Specification: the transform actually computed by the radix-4 plans — a DFT whose
    matrix entries carry an extra sign. *)
From Coq Require Import Reals List Arith.
From Verif Require Import Base.Outcome Base.Sums Base.Cplx Spec.Dft.

(** Base-4 digit number [a] of [k]. *)
Definition digit4 (a k : nat) : nat := (k / 4 ^ a) mod 4.

Fixpoint nsum (n : nat) (f : nat -> nat) : nat :=
  match n with
  | O => O
  | S n' => nsum n' f + f n'
  end.

(** sum over a + b = p - 1 of (digit a of K) * (digit b of J). *)
Definition dot4 (p K J : nat) : nat :=
  nsum p (fun a => digit4 a K * digit4 (p - 1 - a) J).

Definition sgn (n : nat) : C := if Nat.even n then C1 else (- C1)%C.

(** [TDFT d p x K] = sum_{J < 4^p} (-1)^(dot4 p K J) x_J exp(-+ 2 pi i J K / 4^p). *)
Definition TDFT (d : direction) (p : nat) (x : nat -> C) (K : nat) : C :=
  Csum (4 ^ p) (fun J => (x J * (sgn (dot4 p K J) * W d (4 ^ p) (J * K)))%C).
