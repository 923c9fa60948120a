(** Property theorems C67: creation, moves and destruction of vendor FFT plans, any number of
    plans, any history.  Specification in Spec/Lifetime.v. *)
From Coq Require Import List Arith Lia.
From Verif Require Import Base.Outcome Model.PlanLifetime Spec.Lifetime Proof.LifetimeProof.
Import ListNotations.

(** In a well-formed program the only undefined step is running a plan that was moved from; no
    handle is released twice or used after its release otherwise. *)
Theorem C67_only_empty_plans_fail : forall b ops w op, exec b start ops = Ok w -> step b w op = UB ->
  exists x, op = Run x /\ empty_plan w x.
Proof. exact only_empty_plans_fail. Qed.

(** A plan that holds a handle can always run, whatever happened to the other plans. *)
Theorem C67_full_plan_runs : forall b ops w x o h, exec b start ops = Ok w -> objs w x = Some o -> own o = Some h ->
  step b w (Run x) = Ok w.
Proof. exact running_full_plan. Qed.

(** Accelerate and MKL: running a moved-from plan is always undefined. *)
Theorem C67_empty_plan_undefined : forall b ops w x, b <> Ipp -> exec b start ops = Ok w -> empty_plan w x -> step b w (Run x) = UB.
Proof. exact running_empty_plan. Qed.

(** IPP: a moved-from plan still runs on the handle it gave away, until the new owner is destroyed. *)
Theorem C67_ipp_moved_from_dangles : exists w w',
  exec Ipp start [Create 0; MoveConstruct 1 0] = Ok w /\ empty_plan w 0 /\ step Ipp w (Run 0) = Ok w /\
  step Ipp w (Destroy 1) = Ok w' /\ step Ipp w' (Run 0) = UB.
Proof.
  do 2 eexists. split; [reflexivity|]. split; [eexists; split; reflexivity|]. split; [reflexivity|]. split; reflexivity.
Qed.

(** Two plans never own the same handle, and every owned handle is live. *)
Theorem C67_unique_owner : forall b ops w x y o o' h, exec b start ops = Ok w -> objs w x = Some o -> objs w y = Some o' ->
  own o = Some h -> own o' = Some h -> x = y /\ In h (live w).
Proof.
  intros b ops w x y o o' h E Hx Hy Ho Ho'. destruct (exec_inv b ops start w (winv_start b) E) as [[_ [I2 [I3 _]]] _]. split; eauto.
Qed.

(** IPP never leaks: exactly the owned handles are live. *)
Theorem C67_ipp_live_owned : forall ops w, exec Ipp start ops = Ok w -> forall h, In h (live w) <-> owned w h.
Proof. exact ipp_live_owned. Qed.

(** Accelerate and MKL: the live handles are the owned ones and those whose plan was assigned
    over; the two sets do not meet. *)
Theorem C67_leak_account : forall b ops w, b <> Ipp -> exec b start ops = Ok w ->
  (forall h, In h (live w) <-> owned w h \/ In h (all_overwritten b start ops)) /\
  (forall h, owned w h -> ~ In h (all_overwritten b start ops)).
Proof. exact leak_account. Qed.

(** Once leaked, a handle is never released by any continuation. *)
Theorem C67_overwritten_is_leaked : forall b ops1 w x y o h ops2 w', b <> Ipp -> exec b start ops1 = Ok w ->
  objs w x = Some o -> own o = Some h -> x <> y -> exec b w (MoveAssign x y :: ops2) = Ok w' ->
  In h (live w') /\ ~ owned w' h.
Proof. exact overwritten_is_leaked. Qed.

(** When every plan is destroyed nothing is left, if no full plan was assigned over or the library is IPP. *)
Theorem C67_all_released : forall b ops w, exec b start ops = Ok w -> (forall x, objs w x = None) ->
  (b = Ipp \/ all_overwritten b start ops = []) -> live w = [].
Proof. exact all_released. Qed.

(** Without that condition a handle is left for good. *)
Theorem C67_no_leak_refuted : forall b, b <> Ipp -> exists ops w, exec b start ops = Ok w /\ (forall x, objs w x = None) /\ live w <> [].
Proof.
  intros b H. exists [Create 0; Create 1; MoveAssign 0 1; Destroy 0; Destroy 1].
  destruct b; try congruence; eexists; (split; [reflexivity|]); (split; [|cbn; discriminate]);
    intros x; cbn; unfold set; destruct (Nat.eqb_spec x 1), (Nat.eqb_spec x 0); reflexivity.
Qed.

(** A history with a full plan, an empty plan and one that was moved into. *)
Example C67_hypotheses : exists w, exec Mkl start [Create 0; Create 1; MoveConstruct 2 0; MoveAssign 0 1; Destroy 1; Run 0; Run 2; MoveConstruct 1 2] = Ok w /\
  owned w 0 /\ owned w 1 /\ empty_plan w 2 /\ all_overwritten Mkl start [Create 0; Create 1; MoveConstruct 2 0; MoveAssign 0 1] = [].
Proof.
  eexists. split; [reflexivity|]. split; [exists 1; eexists; split; reflexivity|]. split; [exists 0; eexists; split; reflexivity|].
  split; [eexists; split; reflexivity|]. reflexivity.
Qed.

Example C67_all_released_hypotheses : exists w, exec Vdsp start [Create 0; MoveConstruct 1 0; Run 1; Destroy 1; Destroy 0] = Ok w /\
  (forall x, objs w x = None) /\ all_overwritten Vdsp start [Create 0; MoveConstruct 1 0; Run 1; Destroy 1; Destroy 0] = [].
Proof.
  eexists. split; [reflexivity|]. split; [|reflexivity]. intros x. cbn. unfold set. destruct (Nat.eqb_spec x 1), (Nat.eqb_spec x 0); reflexivity.
Qed.

Print Assumptions C67_only_empty_plans_fail.
Print Assumptions C67_full_plan_runs.
Print Assumptions C67_empty_plan_undefined.
Print Assumptions C67_ipp_moved_from_dangles.
Print Assumptions C67_unique_owner.
Print Assumptions C67_ipp_live_owned.
Print Assumptions C67_leak_account.
Print Assumptions C67_overwritten_is_leaked.
Print Assumptions C67_all_released.
Print Assumptions C67_no_leak_refuted.
