(** The plugin's editors and what they show of the host's specification:
    extra/plugin/src/{PluginProcessor,PluginEditor}.cpp and the parts of ui/BenchmarkTab.cpp that
    have to do with it.  An editor is known by its address, a number that may be used again after
    the editor is gone.  juce::ListenerList is taken by its documentation: add() ignores a listener
    that is there already, remove() takes it out, call() calls every listener once.  Layout,
    painting and the file chooser are left out. *)
From Coq Require Import String Reals List Arith Bool ZArith.
From Verif Require Import Base.Outcome.
Import ListNotations.
Local Open Scope nat_scope.
Open Scope outcome_scope.

(** juce::dsp::ProcessSpec: a double and two std::uint32_t. *)
Record host_spec := HostSpec { hs_rate : R; hs_block : Z; hs_channels : Z }.

(** The two listeners an editor brings along: itself and its benchmark tab. *)
Inductive listener := EditorListener (address : nat) | TabListener (address : nat).
Definition listener_eqb (a b : listener) : bool :=
  match a, b with
  | EditorListener i, EditorListener j => i =? j
  | TabListener i, TabListener j => i =? j
  | _, _ => false
  end.

(** extra/plugin/src/PluginEditor.hpp:37-39 — the texts of the three labels;
    ui/BenchmarkTab.hpp:74 — the specification the tab works with.  [None] before it is set (a
    string given to the constructor of juce::Label is its name, not its text). *)
Record editor := Editor { ed_rate : option string; ed_block : option string; ed_channels : option string; ed_tab : option host_spec }.

(** extra/plugin/src/PluginProcessor.hpp:62, 66 and the editors that exist. *)
Record instance := Instance { in_spec : option host_spec; in_listeners : list listener; in_editors : nat -> option editor }.
Definition instance_make : instance := Instance None [] (fun _ => None).

Definition set_editor (i : instance) (a : nat) (e : option editor) : instance :=
  Instance (in_spec i) (in_listeners i) (fun b => if b =? a then e else in_editors i b).

(** extra/plugin/src/PluginProcessor.cpp:107-110 *)
Definition getProcessSpec (i : instance) : host_spec :=
  match in_spec i with Some s => s | None => HostSpec 44100 512 2 end.

(** extra/plugin/src/PluginProcessor.cpp:112, 114-117 *)
Definition addProcessSpecListener (l : listener) (i : instance) : instance :=
  if existsb (listener_eqb l) (in_listeners i) then i
  else Instance (in_spec i) (in_listeners i ++ [l]) (in_editors i).
Fixpoint remove_first (l : listener) (ls : list listener) : list listener :=
  match ls with [] => [] | k :: ks => if listener_eqb l k then ks else k :: remove_first l ks end.
Definition removeProcessSpecListener (l : listener) (i : instance) : instance :=
  Instance (in_spec i) (remove_first l (in_listeners i)) (in_editors i).

Section Texts.
(** juce::String of a double and of an unsigned number. *)
Variables (show_double : R -> string) (show_uint : Z -> string).

(** extra/plugin/src/PluginEditor.cpp:60-65 and ui/BenchmarkTab.cpp:222-224 — processSpecChanged() of
    the editor and of its tab (which then reloads its files, C76): undefined when the object is gone. *)
Definition processSpecChanged (l : listener) (s : host_spec) (i : instance) : outcome instance :=
  match l with
  | EditorListener a =>
      match in_editors i a with
      | Some e => Ok (set_editor i a (Some (Editor (Some ("Samplerate: " ++ show_double (hs_rate s))%string)
                                                   (Some ("Block-size: " ++ show_uint (hs_block s))%string)
                                                   (Some ("Channels: " ++ show_uint (hs_channels s))%string) (ed_tab e))))
      | None => UB
      end
  | TabListener a =>
      match in_editors i a with
      | Some e => Ok (set_editor i a (Some (Editor (ed_rate e) (ed_block e) (ed_channels e) (Some s))))
      | None => UB
      end
  end.

(** extra/plugin/src/PluginProcessor.cpp:47-58 — prepareToPlay(sampleRate, samplesPerBlock) with the
    number of channels of the main output; the convolution is C68. *)
Definition prepareToPlay (rate : R) (samplesPerBlock channels : Z) (i : instance) : outcome instance :=
  let s := HostSpec rate (samplesPerBlock mod 2 ^ 32) (channels mod 2 ^ 32) in
  let i := Instance (Some s) (in_listeners i) (in_editors i) in
  fold_left (fun i l => i <- i ;; processSpecChanged l s i) (in_listeners i) (Ok i).

(** extra/plugin/src/PluginEditor.cpp:7-33 — the constructor, at an address that is free; the tab is
    a member and is constructed first (ui/BenchmarkTab.cpp:113-114). *)
Definition open_editor (a : nat) (i : instance) : outcome instance :=
  _ <- guard (match in_editors i a with None => true | Some _ => false end) ;;
  let i := set_editor i a (Some (Editor None None None None)) in
  i <- processSpecChanged (TabListener a) (getProcessSpec i) i ;;
  let i := addProcessSpecListener (TabListener a) i in
  i <- processSpecChanged (EditorListener a) (getProcessSpec i) i ;;
  Ok (addProcessSpecListener (EditorListener a) i).

(** extra/plugin/src/PluginEditor.cpp:35-39 — the destructor, then the tab's
    (ui/BenchmarkTab.cpp:169-172); deleting an editor that does not exist is undefined. *)
Definition close_editor (a : nat) (i : instance) : outcome instance :=
  _ <- guard (match in_editors i a with None => false | Some _ => true end) ;;
  let i := removeProcessSpecListener (EditorListener a) i in
  let i := removeProcessSpecListener (TabListener a) i in
  Ok (set_editor i a None).

(** What the host does with an instance. *)
Inductive host_call := OpenEditor (address : nat) | CloseEditor (address : nat) | Prepare (rate : R) (samplesPerBlock channels : Z).
Definition host_step (c : host_call) (i : instance) : outcome instance :=
  match c with
  | OpenEditor a => open_editor a i
  | CloseEditor a => close_editor a i
  | Prepare r n c => prepareToPlay r n c i
  end.
Definition host_run (calls : list host_call) : outcome instance :=
  fold_left (fun i c => i <- i ;; host_step c i) calls (Ok instance_make).
End Texts.
