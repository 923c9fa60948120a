(** Specification: what NumPy says an array contains, and numpy.fft's normalisation. *)
From Coq Require Import Reals ZArith List String.
From Verif Require Import Base.Outcome Base.Cplx Spec.Dft.
From Verif Require Import Model.PythonBindings.
Import ListNotations.

(** A one-dimensional array of [n] elements, [s] bytes apart, inside the address space. *)
Definition vector {T} (a : ndarray T) (n : nat) (s : Z) : Prop :=
  nd_shape a = [n] /\ nd_strides a = [s] /\ (0 < nd_itemsize a)%Z /\
  forall i, i < n -> (0 <= nd_data a + Z.of_nat i * s < 2 ^ 64)%Z.

(** Its elements: element i starts s * i bytes after element 0. *)
Definition np_values {T} (a : ndarray T) (n : nat) (s : Z) : list T :=
  tab n (fun i => nd_mem a (nd_data a + Z.of_nat i * s)%Z).

(** The elements are whole element sizes apart (always so unless the array is a field of a
    structured array); [s] may be zero or negative (broadcast and reversed arrays). *)
Definition whole_stride {T} (a : ndarray T) (s : Z) : Prop := (nd_itemsize a | s)%Z.

(** numpy.fft: factor of fft ([Forward]) and ifft ([Backward]) of length n for each norm. *)
Definition np_factor (dir : direction) (norm : string) (n : nat) : option R :=
  if String.eqb norm "ortho" then Some (/ sqrt (INR n))%R
  else if String.eqb norm "backward" then Some match dir with Forward => 1 | Backward => / INR n end%R
  else if String.eqb norm "forward" then Some match dir with Forward => / INR n | Backward => 1 end%R
  else None.
