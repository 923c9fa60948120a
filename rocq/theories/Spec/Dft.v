(** Specification: the discrete Fourier transform. *)
From Coq Require Import Reals List.
From Verif Require Import Base.Outcome Base.Sums Base.Cplx.
Local Open Scope R_scope.

Inductive direction := Forward | Backward.

Definition dsign (d : direction) : R :=
  match d with Forward => -1 | Backward => 1 end.

Definition flip (d : direction) : direction :=
  match d with Forward => Backward | Backward => Forward end.

(** [W d n k] = exp(-+ 2 pi i k / n) (minus sign for the forward direction). *)
Definition W (d : direction) (n k : nat) : C := Cexp (dsign d * (2 * PI) * INR k / INR n).

(** [DFT d n x k] = sum_{j<n} x_j exp(-+ 2 pi i j k / n). *)
Definition DFT (d : direction) (n : nat) (x : nat -> C) (k : nat) : C :=
  Csum n (fun j => (x j * W d n (j * k))%C).

(** The same for vectors stored in arrays. *)
Definition DFT_list (d : direction) (x : list C) : list C :=
  tab (length x) (DFT d (length x) (fun j => nth j x C0)).

(** Bins 0..n/2 of the DFT of a real signal. *)
Definition RDFT_list (d : direction) (x : list R) : list C :=
  tab (length x / 2 + 1) (DFT d (length x) (fun j => RtoC (nth j x 0))).

(** Circular convolution: sum_{j<n} x_j y_{(i - j) mod n}. *)
Definition cconv (n : nat) (x y : nat -> C) (i : nat) : C :=
  Csum n (fun j => (x j * y (Nat.modulo (i + (n - j)) n))%C).
