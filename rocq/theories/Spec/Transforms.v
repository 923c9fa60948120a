(** Specification of the real inverse transform and the DCT-II, and reachable plan states. *)
From Coq Require Import Reals List Arith.
From Verif Require Import Base.Outcome Base.Sums Base.Cplx Spec.Dft Model.FftApps.
Local Open Scope R_scope.

(** Real signal of length 2m whose spectrum bins 0..m are X, times 2m:
    X_0 + (-1)^j X_m + 2 sum_{0<k<m} Re (X_k exp(2 pi i j k / (2m))), using only the real
    parts of X_0 and X_m. *)
Definition IRDFT (m : nat) (X : nat -> C) (j : nat) : R :=
  fst (X O) + (-1) ^ j * fst (X m) +
  2 * Rsum (m - 1) (fun k => fst (X (S k)) * cos (2 * PI * INR j * INR (S k) / INR (2 * m))
                           - snd (X (S k)) * sin (2 * PI * INR j * INR (S k) / INR (2 * m))).

(** Unnormalised DCT-II: 2 sum_i x_i cos(pi k (2i+1) / (2n)). *)
Definition DCT2 (n : nat) (x : nat -> R) (k : nat) : R :=
  2 * Rsum n (fun i => x i * cos (PI * INR k * INR (2 * i + 1) / INR (2 * n))).

(** Plan states reachable from the constructor by any calls that return. *)
Inductive rfft_reach (order : nat) : rfft_plan -> Prop :=
| rfft_made : forall p, make_rfft_plan order = Ok p -> rfft_reach order p
| rfft_fwd : forall p i o p' o', rfft_reach order p -> rfft_forward p i o = Ok (p', o') -> rfft_reach order p'
| rfft_bwd : forall p i o p' o', rfft_reach order p -> rfft_backward p i o = Ok (p', o') -> rfft_reach order p'.

Inductive dft_reach (size : nat) : dft_plan -> Prop :=
| dft_made : forall p, make_dft_plan size = Ok p -> dft_reach size p
| dft_run : forall p x d p' x', dft_reach size p -> dft_plan_run p x d = Ok (p', x') -> dft_reach size p'.

Inductive dct_reach (order : nat) : dct_plan -> Prop :=
| dct_made : forall p, make_dct_plan order = Ok p -> dct_reach order p
| dct_ran : forall p x p' x', dct_reach order p -> dct_run p x = Ok (p', x') -> dct_reach order p'.

(** A signal with its odd samples taken from two places later (cyclically). *)
Definition odd_rotated (n : nat) (x : nat -> R) (j : nat) : R := if Nat.even j then x j else x ((j + 2) mod n)%nat.
