(** Specification: transform plans of any size in rounded arithmetic, after any calls. *)
From Coq Require Import Reals List Arith.
From Verif Require Import Base.Outcome Base.Cplx Spec.Dft Model.Fft2 Model.FftApps Model.RoundedBluestein.

(** Plans for transforms of [size] points after any number of calls that returned. *)
Inductive rdft_reach (rnd fcos fsin : R -> R) (size : nat) : dft_plan -> Prop :=
| rdft_made : forall p, rmake_dft_plan rnd fcos fsin size = Ok p -> rdft_reach rnd fcos fsin size p
| rdft_ran : forall p x d p' x', rdft_reach rnd fcos fsin size p -> rdft_plan_run rnd p x d = Ok (p', x') -> rdft_reach rnd fcos fsin size p'.
