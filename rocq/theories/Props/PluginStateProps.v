(** Property theorems C81: the plugin's parameters and saved state.
    Specification: highest, at_position, written_down (Spec/HostState.v). *)
From Coq Require Import Reals List Lra Lia Bool.
From Verif Require Import Spec.HostState Model.PluginState Proof.PluginStateProof.
Import ListNotations.
Local Open Scope R_scope.

(** C81.  A slider at [x] of its way is a gain of 4 x^2 or a wet share of x: the whole range is
    reached, moving up raises the value, a gain slider in the middle is a gain of 1, positions and
    values are one another's inverse. *)
Theorem C81_positions : forall p,
  (forall x, 0 <= x <= 1 -> convertFrom0to1 (param_range p) x = at_position p x /\
     0 <= at_position p x <= highest p /\ convertTo0to1 (param_range p) (convertFrom0to1 (param_range p) x) = x) /\
  (forall v, 0 <= v <= highest p -> 0 <= convertTo0to1 (param_range p) v <= 1 /\
     convertFrom0to1 (param_range p) (convertTo0to1 (param_range p) v) = v) /\
  (forall x y, 0 <= x -> x < y <= 1 -> convertFrom0to1 (param_range p) x < convertFrom0to1 (param_range p) y) /\
  convertFrom0to1 (param_range p) 1 = highest p /\ convertFrom0to1 (param_range p) 0 = 0 /\
  (p <> Wet -> convertFrom0to1 (param_range p) (1 / 2) = 1).
Proof.
  intros p. split; [|split; [|split]].
  - intros x H. split; [rewrite from_position, clamp_id by auto; auto|]. split; [apply at_range; auto|apply position_back; auto].
  - intros v H. split; [apply (to_position p v H)|apply value_back; auto].
  - intros x y Hx Hy. rewrite !from_position, !clamp_id by lra. apply at_mono; lra.
  - rewrite !from_position, !clamp_id by lra. split; [|split]; [| |intros H]; destruct p; simpl; try lra. congruence.
Qed.

(** Whatever the host automates and restores, also values out of range: parameters stay in range,
    an automated parameter has the value of its position, and the others keep theirs. *)
Theorem C81_values : forall events,
  (forall p, 0 <= st_value (state_run events) p <= highest p) /\
  (forall p x, 0 <= x <= 1 -> st_value (state_run (events ++ [Automate p x])) p = at_position p x) /\
  (forall p q x, q <> p -> st_value (state_run (events ++ [Automate p x])) q = st_value (state_run events) q) /\
  (forall p, st_value (state_run (events ++ [Timer])) p = st_value (state_run events) p) /\
  (forall p t, 0 <= t p <= highest p -> st_value (state_run (events ++ [Restore (Some t)])) p = t p).
Proof.
  intros events. split; [apply run_range|]. split; [|split; [|split]]; intros; rewrite run_snoc.
  - simpl. replace (param_eqb p p) with true by (destruct p; auto). rewrite from_position, clamp_id; auto.
  - simpl. destruct (param_eqb q p) eqn:E; auto. exfalso. destruct p, q; simpl in E; congruence.
  - auto.
  - apply restore_values. auto.
Qed.

(** Saving and restoring, for every history of the saved and of the restored instance: the restored
    parameters are those of the saved instance when they were last written down. *)
Theorem C81_save_restore : forall saved other p,
  st_value (state_run (other ++ [Restore (Some (getStateInformation (state_run saved)))])) p =
  st_value (state_run (written_down saved)) p.
Proof.
  intros saved other p. rewrite run_snoc. cbn [state_step].
  rewrite restore_values; unfold getStateInformation; rewrite run_tree; auto. apply run_range.
Qed.

(** So they are the parameters of the saved instance when nothing was automated since. *)
Theorem C81_save_restore_settled : forall saved e other p, writes e = true ->
  st_value (state_run (other ++ [Restore (Some (getStateInformation (state_run (saved ++ [e]))))])) p =
  st_value (state_run (saved ++ [e])) p.
Proof. intros. rewrite C81_save_restore, written_snoc, H. auto. Qed.

(** "A saved state has the parameters' values" is false: what was automated since the last tick of
    the timer is not in it. *)
Theorem C81_save_restore_refuted : forall saved other p x, 0 <= x <= 1 ->
  at_position p x <> st_value (state_run (written_down saved)) p ->
  st_value (state_run (other ++ [Restore (Some (getStateInformation (state_run (saved ++ [Automate p x]))))])) p <>
  st_value (state_run (saved ++ [Automate p x])) p.
Proof.
  intros saved other p x Hx D. rewrite C81_save_restore, written_snoc. cbn [writes].
  rewrite (proj1 (proj2 (C81_values saved))) by auto. auto.
Qed.

(** Data that is no state changes nothing. *)
Theorem C81_invalid_data : forall before after, state_run (before ++ Restore None :: after) = state_run (before ++ after).
Proof. intros. unfold state_run. rewrite !fold_left_app. reflexivity. Qed.

(** The input gain at full and the timer, then half wet: the second change is lost. *)
Example C81_example :
  let saved := [Automate InGain 1; Timer; Automate Wet (1 / 2)] in
  let new := state_run [Automate OutGain 0; Restore (Some (getStateInformation (state_run saved)))] in
  st_value (state_run saved) InGain = 4 /\ st_value (state_run saved) Wet = 1 / 2 /\
  st_value new InGain = 4 /\ st_value new Wet = 1 /\ st_value new OutGain = 1.
Proof.
  cbv zeta.
  assert (S : forall p, st_value (state_run [Automate OutGain 0; Restore (Some (getStateInformation (state_run [Automate InGain 1; Timer; Automate Wet (1 / 2)])))]) p
                        = st_value (state_run [Automate InGain 1; Timer]) p)
    by (exact (C81_save_restore [Automate InGain 1; Timer; Automate Wet (1 / 2)] [Automate OutGain 0])).
  rewrite !S. unfold state_run. simpl.
  rewrite (from_position InGain 1 : convertFrom0to1 gainRange 1 = _), (from_position Wet (1 / 2) : convertFrom0to1 normalised (1 / 2) = _), !clamp_id by lra.
  simpl. unfold param_default. repeat split; lra.
Qed.

Print Assumptions C81_positions.
Print Assumptions C81_values.
Print Assumptions C81_save_restore.
Print Assumptions C81_save_restore_settled.
Print Assumptions C81_save_restore_refuted.
Print Assumptions C81_invalid_data.
