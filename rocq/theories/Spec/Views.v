(** Vocabulary for statements about arrays sharing one memory. *)
From Coq Require Import Reals List Arith.
From Verif Require Import Base.Outcome Base.Cplx Model.Algorithm.

(** An input view is safe for an output when every cell it shares with the output has the same index. *)
Definition safe1 (x out : view1) (n : nat) : Prop :=
  forall i i', i < n -> i' < n -> at1 x i = at1 out i' -> i = i'.
Definition safe2 (x out : view2) (r c : nat) : Prop :=
  forall i j i' j', i < r -> j < c -> i' < r -> j' < c -> at2 x i j = at2 out i' j' -> i = i' /\ j = j'.
Definition inside1 (v : view1) (n : nat) (len : nat) : Prop := forall i, i < n -> at1 v i < len.
Definition inside2 (v : view2) (r c : nat) (len : nat) : Prop := forall i j, i < r -> j < c -> at2 v i j < len.

(** The resulting memory: [f i] at the i-th output cell, otherwise unchanged. *)
Definition written1 {T} (d : T) (out : view1) (n : nat) (f : nat -> T) (mem mem' : list T) : Prop :=
  length mem' = length mem /\ (forall i, i < n -> nth (at1 out i) mem' d = f i) /\
  (forall l, (forall i, i < n -> l <> at1 out i) -> nth l mem' d = nth l mem d).
Definition written2 {T} (d : T) (out : view2) (r c : nat) (f : nat -> nat -> T) (mem mem' : list T) : Prop :=
  length mem' = length mem /\ (forall i j, i < r -> j < c -> nth (at2 out i j) mem' d = f i j) /\
  (forall l, (forall i j, i < r -> j < c -> l <> at2 out i j) -> nth l mem' d = nth l mem d).

(** Array of length n at pointer p is disjoint from (or identical to) the one at q. *)
Definition apart (n p q : nat) : Prop := forall i j, i < n -> j < n -> p + i <> q + j.
Definition aligned (n p q : nat) : Prop := p = q \/ apart n p q.

(** Complex number i of the split array with parts at p and q. *)
Definition at_split (m : list R) (p q i : nat) : C := (nth (p + i) m 0%R, nth (q + i) m 0%R).

(** out[i] = x[i] * y[i] + z[i] for i < n, all other cells unchanged. *)
Definition fma_done (xre xim yre yim zre zim ore oim n : nat) (mem mem' : list R) : Prop :=
  length mem' = length mem /\
  (forall i, i < n -> at_split mem' ore oim i =
     (at_split mem xre xim i * at_split mem yre yim i + at_split mem zre zim i)%C) /\
  (forall l, (forall i, i < n -> l <> ore + i /\ l <> oim + i) -> nth l mem' 0%R = nth l mem 0%R).

(** The arrays at the six input pointers fit in memory and each is identical to an output
    array or apart from it; the two outputs are apart and z.imag is not out.real. *)
Definition fma_layout (xre xim yre yim zre zim ore oim n len : nat) : Prop :=
  (forall p, In p (xre :: xim :: yre :: yim :: zre :: zim :: ore :: oim :: nil) -> p + n <= len) /\
  apart n ore oim /\ apart n zim ore /\
  (forall p, In p (xre :: xim :: yre :: yim :: zre :: nil) -> aligned n p ore) /\
  (forall p, In p (xre :: xim :: yre :: yim :: zre :: zim :: nil) -> aligned n p oim).
