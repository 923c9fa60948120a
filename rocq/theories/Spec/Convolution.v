(** Specification: convolution sums. *)
From Coq Require Import Reals List Arith.
From Verif Require Import Base.Outcome Base.Sums Base.Cplx.
Import ListNotations.

(** Sample k of the linear convolution of x and h: sum_{m<=k} x_m h_{k-m}, samples outside
    an array counting as zero. *)
Definition lconv (x h : list R) (k : nat) : R :=
  Rsum (S k) (fun m => nth m x 0 * nth (k - m) h 0)%R.

Definition clconv (x h : list C) (k : nat) : C :=
  Csum (S k) (fun m => nth m x C0 * nth (k - m) h C0)%C.

(** A stream cut into blocks of size b. *)
Definition blocks_of (b : nat) (blocks : list (list R)) : Prop := forall x, In x blocks -> length x = b.

(** The first n samples of x, zeros after its end. *)
Definition pad (n : nat) (x : list R) : list R := tab n (fun i => nth i x 0%R).

(** Partition p of an impulse response, cut every b samples. *)
Definition part (b : nat) (h : list R) (p : nat) : list R := tab b (fun i => nth (p * b + i) h 0%R).

(** Number of partitions: ceiling of n / b. *)
Definition ceil_div (n b : nat) : nat := (n + b - 1) / b.

(** c * x + y, element by element. *)
Definition axpy (c : R) (x y : list R) : list R := tab (length x) (fun i => c * nth i x 0 + nth i y 0)%R.
