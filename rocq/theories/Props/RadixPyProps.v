(** C87 — the Python reference transforms of extra/snippet/radix4.py. *)
From Coq Require Import List Arith Bool Reals Lra Lia.
From Verif Require Import Base.Outcome Base.OutcomeFacts Base.Sums Base.Cplx Spec.Dft Spec.DigitRev Spec.Twisted.
From Verif Require Import Proof.DftTheory Model.RadixPy Proof.Radix4Proof Proof.RadixPyReversal Proof.RadixPyProof.
Import ListNotations.
Local Arguments Nat.pow : simpl never.

(** digitreversal moves element rev(i) to position i, for every radix from 2 on, every
    even or odd number of digits from 2 on and every element type. *)
Theorem C87_digit_reversal : forall T (d : T) radix p (x : list T), 2 <= radix -> 2 <= p -> length x = radix ^ p ->
  py_digitreversal x radix p (radix ^ p) = Ok (tab (radix ^ p) (fun i => nth (digit_rev radix p i) x d)).
Proof. intros. apply digitreversal_ok; auto. Qed.

(** For no or one digit it raises IndexError instead. *)
Theorem C87_digit_reversal_short : forall T radix p (x : list T), 2 <= radix -> p <= 1 -> length x = radix ^ p ->
  py_digitreversal x radix p (radix ^ p) = Throw.
Proof. intros. apply digitreversal_short; auto. Qed.

(** The decimation-in-time and the decimation-in-frequency transform of radix 2 compute the
    DFT, with forward and with backward twiddles, for every size from 4 on. *)
Theorem C87_radix2 : forall d p (x : list C), 2 <= p -> length x = 2 ^ p ->
  py_r2 d p x = Ok (DFT_list d x) /\ py_r2dif d p x = Ok (DFT_list d x).
Proof. intros d p x Hp Hx. destruct (r2_ok d p x Hp Hx). auto. Qed.

(** The transforms of radix 4 compute the forward DFT for every size from 16 on. *)
Theorem C87_radix4_forward : forall p (x : list C), 2 <= p -> length x = 4 ^ p ->
  py_r4 Forward p x = Ok (DFT_list Forward x) /\ py_r4dif Forward p x = Ok (DFT_list Forward x).
Proof. intros p x Hp Hx. destruct (r4_forward p x Hp Hx). auto. Qed.

(** With the backward table wb of foo() (the call left as a comment) they are no backward
    DFT: the factor j of the butterflies does not change its sign. *)
Theorem C87_radix4_backward_refuted : forall p, 2 <= p -> exists (x y : list C), length x = 4 ^ p /\
  py_r4 Backward p x = Ok y /\ py_r4dif Backward p x = Ok y /\ y <> DFT_list Backward x.
Proof.
  intros p Hp. destruct (TDFT_not_DFT Backward p ltac:(lia)) as [x [L N]].
  exists x. eexists. split; [exact L|]. destruct (r4_backward p x Hp L) as [A B].
  split; [exact B|]. split; [exact A|]. exact N.
Qed.

(** Orders 0 and 1 raise an exception in all four. *)
Theorem C87_short_orders : forall d p (x : list C), p <= 1 ->
  (length x = 4 ^ p -> py_r4 d p x = Throw /\ py_r4dif d p x = Throw) /\
  (length x = 2 ^ p -> py_r2 d p x = Throw /\ py_r2dif d p x = Throw).
Proof.
  intros d p x Hp. destruct (r_short d p x Hp) as [A B].
  split; intros H; [destruct (A H) | destruct (B H)]; auto.
Qed.

(** An odd number of binary digits, two ternary digits, and the input of foo(). *)
Example C87_example :
  py_digitreversal [0; 1; 2; 3; 4; 5; 6; 7] 2 3 8 = Ok [0; 4; 2; 6; 1; 5; 3; 7] /\
  py_digitreversal [0; 1; 2; 3; 4; 5; 6; 7; 8] 3 2 9 = Ok [0; 3; 6; 1; 4; 7; 2; 5; 8] /\
  let x := [C1; RtoC 2; RtoC 3] ++ repeat C0 13 in
  py_r4dif Forward 2 x = Ok (DFT_list Forward x).
Proof.
  split; [reflexivity|]. split; [reflexivity|]. intros x. apply C87_radix4_forward; [lia|reflexivity].
Qed.

Print Assumptions C87_digit_reversal.
Print Assumptions C87_digit_reversal_short.
Print Assumptions C87_radix2.
Print Assumptions C87_radix4_forward.
Print Assumptions C87_radix4_backward_refuted.
Print Assumptions C87_short_orders.
