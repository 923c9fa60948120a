(** The plugin's parameters and its saved state: extra/plugin/src/PluginParameter.cpp and
    extra/plugin/src/PluginProcessor.cpp:92-105.  JUCE is not part of the repository:
    NormalisableRange, AudioParameterFloat and AudioProcessorValueTreeState are modelled from its
    sources.  Numbers are exact reals; a value tree is the value it holds for each parameter (trees
    without one of them, which the plugin never writes, are left out, and so are the type and the
    binary encoding). *)
From Coq Require Import Reals List Bool.
Import ListNotations.
Local Open Scope R_scope.

(** juce::NormalisableRange<float> without steps: start, end, skew. *)
Record range := Range { r_start : R; r_end : R; r_skew : R }.
Definition clamp01 (p : R) : R := Rmax 0 (Rmin 1 p).

(** setSkewForCentre(centre). *)
Definition setSkewForCentre (centre : R) (r : range) : range :=
  Range (r_start r) (r_end r) (ln (1 / 2) / ln ((centre - r_start r) / (r_end r - r_start r))).

(** convertTo0to1(v); std::pow(0, skew) is 0 for a positive skew. *)
Definition convertTo0to1 (r : range) (v : R) : R :=
  let p := clamp01 ((v - r_start r) / (r_end r - r_start r)) in
  if Req_EM_T (r_skew r) 1 then p
  else if Req_EM_T p 0 then 0 else Rpower p (r_skew r).

(** convertFrom0to1(p). *)
Definition convertFrom0to1 (r : range) (p : R) : R :=
  let p := clamp01 p in
  let p := if Req_EM_T (r_skew r) 1 then p
           else if Rlt_dec 0 p then exp (ln p / r_skew r) else p in
  r_start r + (r_end r - r_start r) * p.

(** extra/plugin/src/PluginParameter.hpp:12-14 *)
Inductive param := InGain | Wet | OutGain.
Definition param_eqb (a b : param) : bool :=
  match a, b with InGain, InGain | Wet, Wet | OutGain, OutGain => true | _, _ => false end.

(** extra/plugin/src/PluginParameter.cpp:42-47, 49-53 — ranges and defaults. *)
Definition normalised : range := Range 0 1 1.
Definition gainRange : range := setSkewForCentre 1 (Range 0 4 1).
Definition param_range (p : param) : range :=
  match p with InGain => gainRange | Wet => normalised | OutGain => gainRange end.
Definition param_default (p : param) : R := 1.

(** A value tree. *)
Definition tree := param -> R.

(** The parameters' values, whether a value has changed since it was last written to the tree, and
    the tree. *)
Record state := State { st_value : param -> R; st_changed : param -> bool; st_tree : tree }.

(** AudioProcessorValueTreeState::flushParameterValuesToValueTree(), called by a timer. *)
Definition flush (s : state) : state :=
  State (st_value s) (fun _ => false)
        (fun p => if st_changed s p then st_value s p else st_tree s p).

(** extra/plugin/src/PluginProcessor.cpp:14 — construction: the tree is filled with the defaults. *)
Definition state_make : state := flush (State param_default (fun _ => true) param_default).

(** The host moves a parameter: AudioParameterFloat::setValue(normalised value). *)
Definition automate (p : param) (x : R) (s : state) : state :=
  State (fun q => if param_eqb q p then convertFrom0to1 (param_range p) x else st_value s q)
        (fun q => if param_eqb q p then true else st_changed s q) (st_tree s).

(** extra/plugin/src/PluginProcessor.cpp:92-96 — getStateInformation(): the tree as it is, the
    parameters are not flushed to it. *)
Definition getStateInformation (s : state) : tree := st_tree s.

(** AudioProcessorValueTreeState: assigning a tree to [state] sets every parameter whose value
    differs (setDenormalisedValue) and flushes. *)
Definition restored (t : tree) (s : state) (p : param) : R * bool :=
  if Req_EM_T (t p) (st_value s p) then (st_value s p, st_changed s p)
  else (convertFrom0to1 (param_range p) (convertTo0to1 (param_range p) (t p)), true).
Definition replace_state (t : tree) (s : state) : state :=
  flush (State (fun p => fst (restored t s p)) (fun p => snd (restored t s p)) t).

(** extra/plugin/src/PluginProcessor.cpp:98-105 — setStateInformation(data): [None] is data that is
    no value tree. *)
Definition setStateInformation (data : option tree) (s : state) : state :=
  match data with Some t => replace_state t s | None => s end.

Inductive state_event := Automate (p : param) (x : R) | Timer | Restore (data : option tree).
Definition state_step (s : state) (e : state_event) : state :=
  match e with
  | Automate p x => automate p x s
  | Timer => flush s
  | Restore d => setStateInformation d s
  end.
Definition state_run (events : list state_event) : state := fold_left state_step events state_make.
