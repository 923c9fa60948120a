(** Vocabulary for C61: levels of bins, buckets and pixels. *)
From Coq Require Import Reals List Arith ZArith.
From Verif Require Import Base.Outcome Base.Cplx Spec.Offline.
Import ListNotations.
Open Scope R_scope.

(** [n] is a nearest integer to [x], the even one of two. *)
Definition nearest (x : R) (n : Z) : Prop := Rabs (x - IZR n) <= 1 / 2 /\ (Rabs (x - IZR n) = 1 / 2 -> Z.even n = true).

(** The bucket of a bin with the weight [w]: its attenuation in dB against the loudest bin, between
    0 and 143, rounded. *)
Definition bucket (m w : R) (v : C) (i : nat) : Prop :=
  exists dB, level m v dB /\ nearest (Rmin 143 (Rmax 0 (- (dB + w)))) (Z.of_nat i).

(** All positions of a matrix. *)
Definition positions (rows cols : nat) : list (nat * nat) := flat_map (fun f => map (fun b => (f, b)) (seq 0 cols)) (seq 0 rows).

(** How many positions a function sends to [i]. *)
Definition count (idx : nat * nat -> nat) (i : nat) (l : list (nat * nat)) : nat := length (filter (fun p => Nat.eqb (idx p) i) l).
