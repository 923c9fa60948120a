(** Vocabulary for C76: what a session with the benchmark tab should render, without threads. *)
From Coq Require Import Reals List Arith Bool.
From Verif Require Import Base.Outcome Base.Cplx Model.Stft Model.Convolution Model.PluginConvolution Model.BenchmarkTab.
Import ListNotations.

Section Spec.
Variable resampler : audio -> R -> audio.
Variable lanes : option nat.
Variable juce_convolution : option audio -> audio -> R -> list (list R).
Variable memory : nat -> nat -> list (list R).

(** [out] is the signal convolved by an engine, with the peak normalised. *)
Definition output_of (m : members) (e : engine) (out : list (list R)) : Prop :=
  exists raw, convolve resampler lanes juce_convolution memory e m = Ok raw /\
    normalised_peak (a_channels (m_signal m)) (a_samples (m_signal m)) raw = Ok out.

(** [error] is the distance between the spectrograms of the upols_convolver and of the sparse
    convolver at the [i]-th dynamic range of the quality test. *)
Definition error_of (m : members) (i : nat) (error : R) : Prop :=
  let channels := a_channels (m_signal m) in
  let frames := a_samples (m_signal m) in
  exists dense D raw sparse S,
    output_of m EUpols dense /\ quality_stft (m_stftSize m) channels frames dense = Ok D /\
    sparse_run memory (quality_range i) (m_binsToKeep m) m = Ok raw /\ normalised_peak channels frames raw = Ok sparse /\
    quality_stft (m_stftSize m) channels frames sparse = Ok S /\ maxChannelRMSError D S = Ok error.

(** The computations of an engine succeed, with the outputs and errors given. *)
Definition succeeds (m : members) (out : engine -> list (list R)) (err : nat -> R) (e : engine) : Prop :=
  match e with
  | ETests => True
  | EQuality => forall i, 1 <= i <= 180 -> error_of m i (err i)
  | _ => output_of m e (out e)
  end.

(** The files and the lines of text some jobs produce, in this order. *)
Definition files_of (out : engine -> list (list R)) (rate : R) (jobs : list engine) : list (engine * list (list R) * R) :=
  flat_map (fun e => match e with ETests | EQuality => [] | _ => [(e, out e, rate)] end) jobs.
Definition lines_of (err : nat -> R) (jobs : list engine) : list line :=
  flat_map (fun e => match e with
    | ETests => []
    | EQuality => map (fun i => Quality i (err i)) (rev (seq 1 180)) ++ [QualityDone]
    | _ => [Elapsed e] end) jobs.

(** The lines of some callbacks: one only moves the caret. *)
Definition callback_lines (callbacks : list (option line)) : list line := flat_map (fun c => match c with Some l => [l] | None => [] end) callbacks.

(** Events that do not change what is rendered, and the jobs they ask for when [selected] is
    chosen at first: every Render adds the engines chosen at that time, in the tab's order. *)
Definition harmless (ev : event) : Prop := match ev with Render | Select _ | Deliver | Pool => True | _ => False end.
Fixpoint requested (selected : list engine) (evs : list event) : list engine :=
  match evs with
  | [] => []
  | Render :: rest => filter (fun e => if in_dec engine_eq_dec e selected then true else false) engines ++ requested selected rest
  | Select es :: rest => requested es rest
  | _ :: rest => requested selected rest
  end.
Fixpoint last_selection (selected : list engine) (evs : list event) : list engine :=
  match evs with [] => selected | Select es :: rest => last_selection es rest | _ :: rest => last_selection selected rest end.

(** The pool has nothing to do. *)
Definition idle (t : tab_state) : Prop := t_job t = None /\ t_queue t = [].
(** The members with another choice of engines. *)
Definition choose (m : members) (es : list engine) : members :=
  Members (m_spec m) (m_signalFile m) (m_impulseFile m) (m_signal m) (m_impulse m) (m_binsToKeep m) (m_dynamicRange m) (m_weighted m) es (m_stftSize m).
(** The number of times an event occurs that lets the pool's thread run. *)
Definition pool_turns (evs : list event) : nat := length (filter (fun ev => match ev with Pool => true | _ => false end) evs).
Definition deliveries (evs : list event) : nat := length (filter (fun ev => match ev with Deliver => true | _ => false end) evs).
End Spec.
