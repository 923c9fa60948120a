(** Calls of FFT plans made by concurrent threads (property C73): what each call needs, what
    it may write and read, and what it should produce.  The calls themselves are
    Model/Concurrent.v; threads and races are Spec/Interleaving.v. *)
From Coq Require Import List Arith Reals.
From Verif Require Import Base.Outcome Base.Cplx Spec.Dft Spec.Transforms Spec.Interleaving.
From Verif Require Import Model.Fft2 Model.Concurrent.
Import ListNotations.

(** A call of a complex plan on vector [x]; a call of a real plan, whose own buffer is
    [buf], from vector [inp] to vector [out], forward or backward. *)
Inductive job :=
| FftJob (p : plan_arrays) (x : nat) (d : direction)
| RfftJob (p : plan_arrays) (buf inp out : nat)
| IrfftJob (p : plan_arrays) (buf inp out : nat).

Definition job_prog (j : job) : prog unit :=
  match j with
  | FftJob p x d => fft_prog p x d
  | RfftJob p buf inp out => rfft_prog p buf inp out
  | IrfftJob p buf inp out => irfft_prog p buf inp out
  end.

(** The array objects of a plan, and a memory in which they are as the constructor made them. *)
Definition plan_objects (p : plan_arrays) : list nat := [pa_table p; pa_wf p; pa_wb p].
Definition plan_in (m : memory) (p : plan_arrays) : Prop :=
  exists pl, make_dit2_plan (pa_order p) = Ok pl /\ holds Index m (pa_table p) (p_reorder pl) /\
    holds Cpx m (pa_wf p) (p_wf pl) /\ holds Cpx m (pa_wb p) (p_wb pl).

Definition writes (j : job) : list nat :=
  match j with
  | FftJob _ x _ => [x]
  | RfftJob _ buf _ out | IrfftJob _ buf _ out => [buf; out]
  end.
Definition reads (j : job) : list nat :=
  match j with
  | FftJob p _ _ => plan_objects p
  | RfftJob p _ inp _ | IrfftJob p _ inp _ => inp :: plan_objects p
  end.

(** Nothing one call writes is written or read by the other. *)
Definition separate (a b : job) : Prop :=
  forall o, In o (writes a) -> ~ In o (writes b) /\ ~ In o (reads b).

(** The call is a proper one: the plan is there, the vectors have the right lengths and are
    not arrays of the plan. *)
Definition ready (m : memory) (j : job) : Prop :=
  (forall o, In o (writes j) -> ~ In o (reads j)) /\ NoDup (writes j) /\
  match j with
  | FftJob p x _ => 0 < pa_order p /\ plan_in m p /\ exists xs, holds Cpx m x xs /\ length xs = 2 ^ pa_order p
  | RfftJob p buf inp out => 0 < pa_order p /\ plan_in m p /\
      (exists bs, holds Cpx m buf bs /\ length bs = 2 ^ pa_order p) /\
      (exists xs, holds Flt m inp xs /\ length xs = 2 ^ pa_order p) /\
      (exists os, holds Cpx m out os /\ length os = 2 ^ pa_order p / 2 + 1)
  | IrfftJob p buf inp out => 0 < pa_order p /\ plan_in m p /\
      (exists bs, holds Cpx m buf bs /\ length bs = 2 ^ pa_order p) /\
      (exists X, holds Cpx m inp X /\ length X = 2 ^ pa_order p / 2 + 1) /\
      (exists os, holds Flt m out os /\ length os = 2 ^ pa_order p)
  end.

(** What memory [m] holds after the call, started in [m0]. *)
Definition result (m0 m : memory) (j : job) : Prop :=
  match j with
  | FftJob _ x d => forall xs, holds Cpx m0 x xs -> holds Cpx m x (DFT_list d xs)
  | RfftJob _ _ inp out => forall xs, holds Flt m0 inp xs -> holds Cpx m out (RDFT_list Forward xs)
  | IrfftJob p _ inp out => forall X, holds Cpx m0 inp X ->
      holds Flt m out (tab (2 ^ pa_order p) (IRDFT (2 ^ (pa_order p - 1)) (fun k => nth k X C0)))
  end.

(** A memory made of the given arrays, numbered from 0. *)
Definition mem_of (objects : list (list value)) : memory :=
  fun l => nth_error (nth (fst l) objects []) (snd l).
