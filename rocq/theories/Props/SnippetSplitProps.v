(** C86: the split-complex plan of the snippets and the objects its benchmark times. *)
From Coq Require Import List Arith Bool Lia Reals Lra.
From Verif Require Import Base.Outcome Base.OutcomeFacts Base.Sums Base.Cplx Spec.Dft Model.Fft2 Model.Snippets Model.SnippetSplit.
From Verif Require Import Proof.DftTheory Proof.SplitFftProof Proof.BitrevProof Proof.SnippetsProof Proof.SnippetSplitProof.
Import ListNotations.
Open Scope outcome_scope.
Local Open Scope nat_scope.
Local Arguments Nat.pow : simpl never.

(** A plan of order p >= 1 can be built, and one plan serves both directions and any
    number of calls: the arrays hold the real and imaginary parts of the DFT. *)
Theorem C86_split_plan : forall p, 0 < p -> exists pl, make_ss_plan p = Ok pl /\
  forall d (re im : list R), length re = 2 ^ p -> length im = 2 ^ p ->
  let X := DFT_list d (combine re im) in
  run_ss_plan pl (re, im) d = Ok (map fst X, map snd X).
Proof.
  intros p Hp. eexists. split. { apply make_ss_plan_ok; auto. }
  intros d re im Hr Hi X. rewrite (combine_unzip re im) by lia.
  apply (run_ss_plan_unzip p); auto. 2:{ apply make_ss_plan_ok; auto. }
  etransitivity; [apply combine_length|]. lia.
Qed.

(** The same numbers as the interleaved plan of the snippet. *)
Theorem C86_plans_agree : forall p d (x : list C), 0 < p -> length x = 2 ^ p ->
  exists pl X, make_ss_plan p = Ok pl /\ static_fft p x d = Ok X /\
    run_ss_plan pl (map fst x, map snd x) d = Ok (map fst X, map snd X).
Proof.
  intros p d x Hp Hx. eexists. exists (DFT_list d x). split. { apply make_ss_plan_ok; auto. }
  split. { apply static_fft_ok; auto. }
  apply (run_ss_plan_unzip p d x); auto. apply make_ss_plan_ok; auto.
Qed.

(** Arrays that do not fit the plan: a real array of any other size, or an imaginary one
    that is shorter, is accessed out of bounds. *)
Theorem C86_wrong_size_undefined : forall p d (re im : list R), 0 < p ->
  length re <> 2 ^ p \/ length im < 2 ^ p ->
  exists pl, make_ss_plan p = Ok pl /\ run_ss_plan pl (re, im) d = UB.
Proof.
  intros p d re im Hp H. eexists. split. { apply make_ss_plan_ok; auto. }
  apply (run_ss_plan_wrong p); auto. apply make_ss_plan_ok; auto.
Qed.

(** Each timed call of either benchmark leaves its buffer as it was, so every one of the
    timed iterations transforms the same signal (in exact arithmetic). *)
Theorem C86_benchmarks_keep_signal : forall p iterations, 0 < p ->
  (forall x : list C, length x = 2 ^ p ->
     timeit_state (interleave_benchmark_call p) iterations x = Ok x) /\
  exists pl, make_ss_plan p = Ok pl /\
    forall re im : list R, length re = 2 ^ p -> length im = 2 ^ p ->
      timeit_state (split_benchmark_call pl) iterations (re, im) = Ok (re, im).
Proof.
  intros p it Hp. split.
  - intros x Hx. apply timeit_same, interleave_benchmark_same; auto.
  - eexists. split. { apply make_ss_plan_ok; auto. }
    intros re im Hr Hi. apply timeit_same, (split_benchmark_same p); auto. apply make_ss_plan_ok; auto.
Qed.

Example C86_example :
  exists pl, make_ss_plan 1 = Ok pl /\
    run_ss_plan pl ([3; 1], [0; 2])%R Forward = Ok ([4; 2], [2; -2])%R /\
    run_ss_plan pl ([4; 2], [2; -2])%R Backward = Ok ([6; 2], [0; 4])%R.
Proof.
  eexists. split. { apply make_ss_plan_ok. lia. }
  assert (L2 : forall a b c d a' b' c' d' : R, a = a' -> b = b' -> c = c' -> d = d' ->
    Ok ([a; b], [c; d]) = Ok ([a'; b'], [c'; d'])) by (intros; subst; auto).
  split; cbn; apply L2; unfold Cadd, Csub; cbn [fst snd]; lra.
Qed.

Print Assumptions C86_split_plan.
Print Assumptions C86_plans_agree.
Print Assumptions C86_wrong_size_undefined.
Print Assumptions C86_benchmarks_keep_signal.
