(** Specification: real and short-time transform plans in rounded arithmetic, after any calls. *)
From Coq Require Import Reals List Arith.
From Verif Require Import Base.Outcome Base.Cplx Base.VecNorm Model.Fft2 Model.FftApps Model.Stft Model.RoundedConv Model.RoundedReal.
Import ListNotations.

(** Plans of the given order after any number of forward and backward calls that returned. *)
Inductive rrfft_reach (rnd fcos fsin : R -> R) (order : nat) : rfft_plan -> Prop :=
| rrfft_made : forall p, rmake_rfft_plan rnd fcos fsin order = Ok p -> rrfft_reach rnd fcos fsin order p
| rrfft_fwd : forall p x out p' y, rrfft_reach rnd fcos fsin order p -> rrfft_forward rnd p x out = Ok (p', y) -> rrfft_reach rnd fcos fsin order p'
| rrfft_bwd : forall p X out p' y, rrfft_reach rnd fcos fsin order p -> rrfft_backward rnd p X out = Ok (p', y) -> rrfft_reach rnd fcos fsin order p'.

(** STFT plans made with options [o] after any number of calls that returned. *)
Inductive rstft_reach (rnd fcos fsin : R -> R) (o : stft_options) : stft_plan -> Prop :=
| rstft_made : forall p, rmake_stft_plan rnd fcos fsin o = Ok p -> rstft_reach rnd fcos fsin o p
| rstft_ran : forall p c n x p' r, rstft_reach rnd fcos fsin o p -> rstft_run rnd p c n x = Ok (p', r) -> rstft_reach rnd fcos fsin o p'.

(** Norm of all n bins of which [X] are the first n/2 + 1: the others are their mirror image. *)
Definition mirrored_norm (n : nat) (X : list C) : R :=
  rnorm n (fun k => Cabs (nth (if k <=? n / 2 then k else n - k) X C0)).

(** Cosine transform plans made in rounded arithmetic, after any calls. *)
Inductive rdct_reach (rnd fcos fsin : R -> R) (order : nat) : dct_plan -> Prop :=
| rdct_made : forall p, rmake_dct_plan rnd fcos fsin order = Ok p -> rdct_reach rnd fcos fsin order p
| rdct_ran : forall p x p' x', rdct_reach rnd fcos fsin order p -> rdct_run rnd fcos fsin p x = Ok (p', x') -> rdct_reach rnd fcos fsin order p'.
