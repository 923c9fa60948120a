(** What a history of calls of the host says. *)
From Coq Require Import Reals List Arith Bool ZArith.
From Verif Require Import Model.PluginEditors.
Import ListNotations.

(** The specification of the last prepareToPlay; 44.1 kHz, 512 samples and two channels before. *)
Definition spec_after (calls : list host_call) : host_spec :=
  fold_left (fun s c => match c with Prepare r n k => HostSpec r (n mod 2 ^ 32) (k mod 2 ^ 32) | _ => s end) calls (HostSpec 44100 512 2).

(** The editors that are open. *)
Definition open_after (calls : list host_call) : nat -> bool :=
  fold_left (fun o c => match c with
                        | OpenEditor a => fun b => if b =? a then true else o b
                        | CloseEditor a => fun b => if b =? a then false else o b
                        | Prepare _ _ _ => o
                        end) calls (fun _ => false).

(** Editors are opened at free addresses, and only open editors are closed. *)
Definition proper (calls : list host_call) : Prop :=
  forall before c after, calls = before ++ c :: after ->
  match c with
  | OpenEditor a => open_after before a = false
  | CloseEditor a => open_after before a = true
  | Prepare _ _ _ => True
  end.
