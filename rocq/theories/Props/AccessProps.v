(** Property theorems C74: the work of an FFT call.  [accesses] (Spec/Accesses.v) lists the
    elements a call reads and writes, in order. *)
From Coq Require Import List Arith Lia Reals.
From Verif Require Import Base.Outcome Base.OutcomeFacts Base.Cplx Spec.Dft Spec.Interleaving Spec.Jobs Spec.Accesses.
From Verif Require Import Model.Fft2 Model.Concurrent.
From Verif Require Import Proof.RfftProof Proof.ConcurrentProof Proof.AccessesProof Props.ConcurrencyProps.
Import ListNotations.
Local Arguments Nat.div : simpl never.
Local Arguments Nat.pow : simpl never.

(** Whatever is in the vectors and buffers, a call makes the same accesses in the same order. *)
Theorem C74_independent_of_data : forall m m' j, ready m j -> ready m' j ->
  accesses (job_prog j) m = accesses (job_prog j) m'.
Proof. intros m m' j H H'. rewrite !job_accesses; auto. Qed.

(** A complex call of 2^p points makes (13 n + 7 (p - 1) n - 5 2^ceil(p/2)) / 2 accesses. *)
Theorem C74_complex_cost : forall m p x d, ready m (FftJob p x d) ->
  let n := 2 ^ pa_order p in
  2 * length (accesses (fft_prog p x d) m) + 5 * 2 ^ ((pa_order p + 1) / 2) = 13 * n + 7 * (pa_order p - 1) * n.
Proof.
  intros m p x d H n. change (fft_prog p x d) with (job_prog (FftJob p x d)). rewrite job_accesses by auto.
  destruct H as (_ & _ & Hp & _). cbn [job_tr]. unfold fft_tr. rewrite app_length, bitrev_length, stages_length by auto. fold n.
  pose proof (swaps_count (pa_order p)) as S. fold n in S.
  destruct (pow2_half (pa_order p) Hp) as [h [Hh [En _]]]. fold n in En.
  assert (E2 : n / 2 = h) by (rewrite En; apply half_of_double). rewrite E2.
  set (k := pa_order p - 1). set (s := length (swaps (pa_order p))) in *. set (w := 2 ^ ((pa_order p + 1) / 2)) in *.
  rewrite En in *. nia.
Qed.

(** That is at most n (3.5 p + 3). *)
Theorem C74_complex_cost_bound : forall m p x d, ready m (FftJob p x d) ->
  2 * length (accesses (fft_prog p x d) m) <= 2 ^ pa_order p * (7 * pa_order p + 6).
Proof.
  intros m p x d H. pose proof (C74_complex_cost m p x d H) as E. cbv zeta in E.
  destruct H as (_ & _ & Hp & _). set (n := 2 ^ pa_order p) in *. destruct (pa_order p); nia.
Qed.

(** A real call makes those of a complex one and 3 n + 2 (forward) or 4 n (backward) more. *)
Theorem C74_real_cost : forall m p x d buf inp out, ready m (FftJob p x d) ->
  let n := 2 ^ pa_order p in
  (forall m', ready m' (RfftJob p buf inp out) ->
     length (accesses (rfft_prog p buf inp out) m') = length (accesses (fft_prog p x d) m) + 3 * n + 2) /\
  (forall m', ready m' (IrfftJob p buf inp out) ->
     length (accesses (irfft_prog p buf inp out) m') = length (accesses (fft_prog p x d) m) + 4 * n).
Proof.
  intros m p x d buf inp out H n.
  change (fft_prog p x d) with (job_prog (FftJob p x d)). rewrite job_accesses by auto.
  destruct H as (_ & _ & Hp & _).
  assert (L : forall y e, length (fft_tr p y e) = length (fft_tr p x d)).
  { intros y e. unfold fft_tr. rewrite !app_length, !bitrev_length, !stages_length by auto. auto. }
  destruct (pow2_half (pa_order p) Hp) as [h [Hh [En _]]]. fold n in En.
  assert (E2 : n / 2 = h) by (rewrite En; apply half_of_double).
  split; intros m' H'.
  - change (rfft_prog p buf inp out) with (job_prog (RfftJob p buf inp out)). rewrite job_accesses by auto.
    cbn [job_tr]. unfold rfft_tr, copy_tr. fold n. rewrite !app_length, L.
    rewrite !(over_length _ 2) by reflexivity. rewrite E2. lia.
  - change (irfft_prog p buf inp out) with (job_prog (IrfftJob p buf inp out)). rewrite job_accesses by auto.
    cbn [job_tr]. unfold irfft_tr, copy_tr. cbv zeta. fold n. rewrite !app_length, L.
    rewrite !(over_length _ 2) by reflexivity. rewrite E2. lia.
Qed.

(** Threads as in C73: every complete schedule has exactly as many steps as the calls have
    accesses together, whatever the order. *)
Theorem C74_schedule_length : forall m0 jobs,
  (forall j, In j jobs -> ready m0 j) ->
  (forall s t a b, s <> t -> nth_error jobs s = Some a -> nth_error jobs t = Some b -> separate a b) ->
  forall n c, steps n (map job_prog jobs, m0) c -> finished c ->
    n = list_sum (map (fun j => length (accesses (job_prog j) m0)) jobs).
Proof. exact schedule_length. Qed.

(** Memories as in C73 with any two inputs: 8 points cost 98 accesses for both. *)
Example C74_example : forall (x x' : list C) (y y' : list R), length x = 8 -> length y = 8 -> length x' = 8 -> length y' = 8 ->
  exists m m', holds Cpx m 3 x /\ holds Cpx m' 3 x' /\
    let j := FftJob (PlanArrays 3 0 1 2) 3 Forward in
    ready m j /\ ready m' j /\ accesses (job_prog j) m = accesses (job_prog j) m' /\ length (accesses (job_prog j) m) = 98.
Proof.
  intros x x' y y' L1 L2 L3 L4.
  destruct (C73_hypotheses 3 x y ltac:(lia) L1 L2) as [m (H1 & _ & H2 & _)].
  destruct (C73_hypotheses 3 x' y' ltac:(lia) L3 L4) as [m' (H1' & _ & H2' & _)].
  exists m, m'. split; auto. split; auto. intros j.
  assert (R : ready m j) by (apply H2; simpl; auto). assert (R' : ready m' j) by (apply H2'; simpl; auto).
  split; auto. split; auto. split. apply C74_independent_of_data; auto.
  pose proof (C74_complex_cost m _ _ _ R) as E. cbn [pa_order] in E. cbv zeta in E. change (job_prog j) with (fft_prog (PlanArrays 3 0 1 2) 3 Forward).
  change (2 ^ 3) with 8 in E. change ((3 + 1) / 2) with 2 in E. change (2 ^ 2) with 4 in E. lia.
Qed.

Print Assumptions C74_independent_of_data.
Print Assumptions C74_complex_cost.
Print Assumptions C74_complex_cost_bound.
Print Assumptions C74_real_cost.
Print Assumptions C74_schedule_length.
