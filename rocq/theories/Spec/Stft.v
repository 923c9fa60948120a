(** Specification: framing of a signal, and reachable STFT plans. *)
From Coq Require Import Reals List Arith.
From Verif Require Import Base.Outcome Base.Cplx Spec.Dft Spec.Convolution Model.Stft.
Import ListNotations.

(** Frame f of a signal: F samples starting at f * hop (zeros after the end of the signal),
    zero-padded to K and multiplied by a window. *)
Definition framed (K F hop : nat) (window : nat -> R) (signal : list R) (f : nat) : list R :=
  tab K (fun i => ((if i <? F then nth (f * hop + i) signal 0 else 0) * window i)%R).

(** A matrix of equally long rows. *)
Definition matrix_of {T} (rows cols : nat) (m : list (list T)) : Prop :=
  length m = rows /\ (forall r, In r m -> length r = cols).

(** STFT plans made with options [o] after any number of calls that returned. *)
Inductive stft_reach (o : stft_options) : stft_plan -> Prop :=
| stft_made : forall p, make_stft_plan o = Ok p -> stft_reach o p
| stft_ran : forall p c n x p' r, stft_reach o p -> stft_run p c n x = Ok (p', r) -> stft_reach o p'.

(** The impulse response whose partitions of size [m] are those of size [b] of [h],
    each followed by m - b zeros. *)
Definition stretched (b m : nat) (h : list R) : list R :=
  tab (ceil_div (length h) b * m) (fun i => if i mod m <? b then nth (i / m * b + i mod m) h 0%R else 0%R).
