(** Property theorems C80: the plugin's editors over every history of the host's calls.
    Specification: spec_after, open_after, proper (Spec/HostCalls.v). *)
From Coq Require Import String Reals List Arith ZArith Lia Bool.
From Verif Require Import Base.Outcome Spec.HostCalls Model.PluginEditors Proof.PluginEditorsProof.
Import ListNotations.
Local Open Scope nat_scope.
Local Arguments Z.pow : simpl never.
Local Arguments Z.modulo : simpl never.

(** C80.  Editors may be opened and closed and the plugin prepared in any order, any number of
    times, also with addresses used again: no editor that is gone is ever called, every open editor
    shows the sample rate, block size and channels of the last prepareToPlay (the defaults before),
    its benchmark tab works with the same specification, and only open editors are listened to. *)
Theorem C80_editors : forall show_double show_uint calls, proper calls ->
  exists i, host_run show_double show_uint calls = Ok i /\ getProcessSpec i = spec_after calls /\
    (forall a, if open_after calls a
               then in_editors i a = Some (Editor (Some ("Samplerate: " ++ show_double (hs_rate (spec_after calls)))%string)
                                                  (Some ("Block-size: " ++ show_uint (hs_block (spec_after calls)))%string)
                                                  (Some ("Channels: " ++ show_uint (hs_channels (spec_after calls)))%string)
                                                  (Some (spec_after calls)))
               else in_editors i a = None) /\
    (forall l, In l (in_listeners i) -> exists a, open_after calls a = true /\ (l = EditorListener a \/ l = TabListener a)).
Proof.
  intros sd su calls P. destruct (run_ok sd su calls P) as (i & E & [TS TN TE TT TD]).
  exists i. split; auto. split; auto. split.
  - intros a. rewrite TD. destruct (open_after calls a); reflexivity.
  - intros [a|a] I; exists a; split; auto; [apply TE|apply TT]; auto.
Qed.

(** What is shown after prepareToPlay are the host's own numbers when they are not negative. *)
Theorem C80_prepare : forall show_double show_uint calls rate n k, proper calls -> (0 <= n < 2 ^ 31)%Z -> (0 <= k < 2 ^ 31)%Z ->
  exists i, host_run show_double show_uint (calls ++ [Prepare rate n k]) = Ok i /\ getProcessSpec i = HostSpec rate n k /\
    forall a, open_after calls a = true -> exists e, in_editors i a = Some e /\
      ed_rate e = Some ("Samplerate: " ++ show_double rate)%string /\ ed_block e = Some ("Block-size: " ++ show_uint n)%string /\
      ed_channels e = Some ("Channels: " ++ show_uint k)%string /\ ed_tab e = Some (HostSpec rate n k).
Proof.
  intros sd su calls rate n k P Hn Hk. destruct (run_ok sd su calls P) as (i & E & T).
  destruct (step_ok sd su calls (Prepare rate n k) i T I) as (i' & E' & [TS TN TE TT TD]).
  rewrite spec_snoc in TS, TD. rewrite !Z.mod_small in TS, TD by lia.
  exists i'. split. { unfold host_run in *. rewrite fold_left_app, E. simpl. auto. } split; auto.
  intros a O. rewrite TD, open_snoc, O. eexists. split; [reflexivity|]. auto.
Qed.

(** Two editors, one of them closed and its address used again. *)
Definition ex_calls : list host_call :=
  [OpenEditor 1; Prepare 48000 256 2; OpenEditor 2; CloseEditor 1; Prepare 96000 1024 1; OpenEditor 1].
Example C80_example :
  proper ex_calls /\ open_after ex_calls 1 = true /\ open_after ex_calls 2 = true /\ open_after ex_calls 3 = false /\
  spec_after ex_calls = HostSpec 96000 1024 1 /\
  host_run (fun _ => EmptyString) (fun _ => EmptyString) [OpenEditor 1; CloseEditor 1; CloseEditor 1] = UB.
Proof.
  split; [|repeat split; reflexivity].
  intros before c after E. unfold ex_calls in E.
  repeat (destruct before as [|? before]; simpl in E; [inversion E; subst; simpl; auto|apply (f_equal (@tl _)) in E as E'; simpl in E'; apply (f_equal (@hd_error _)) in E; simpl in E; inversion E; subst; clear E; rename E' into E]).
Qed.

Print Assumptions C80_editors.
Print Assumptions C80_prepare.
