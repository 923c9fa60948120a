(** The plugin as the host sees it: extra/plugin/src/{PluginProcessor,PerceptualConvolution,
    PluginParameter}.cpp.

    Samples are exact reals.  From JUCE, as documented and implemented: SmoothedValue (linear),
    DryWetMixer without latency, AudioBlock::multiplyBy, NormalisableRange.  The impulse response
    is what the audio format reader gives for the hard-wired path, [None] if there is none.
    The state tree (getStateInformation), listeners and the editor are not modelled. *)
From Coq Require Import Reals List Arith Bool ZArith.
From Verif Require Import Base.Outcome Model.ConstantOverlapAdd Model.PluginConvolution.
Import ListNotations.
Open Scope outcome_scope.

(** ** juce::SmoothedValue<float> *)
Record smoothed := Smoothed { sv_current : R; sv_target : R; sv_step : R; sv_countdown : nat; sv_steps : nat }.

(** reset(sampleRate, rampLengthInSeconds): floor(ramp * rate) steps; jump to the target. *)
Definition sv_reset (rate ramp : R) (s : smoothed) : smoothed :=
  Smoothed (sv_target s) (sv_target s) (sv_step s) 0 (Z.to_nat (Int_part (ramp * rate))).

(** setTargetValue *)
Definition sv_set (v : R) (s : smoothed) : smoothed :=
  if Req_EM_T v (sv_target s) then s else
  if sv_steps s =? 0 then Smoothed v v (sv_step s) 0 0 else
  Smoothed (sv_current s) v ((v - sv_current s) / INR (sv_steps s)) (sv_steps s) (sv_steps s).

(** getNextValue *)
Definition sv_next (s : smoothed) : R * smoothed :=
  match sv_countdown s with
  | 0 => (sv_target s, s)
  | S k =>
      let current := if k =? 0 then sv_target s else (sv_current s + sv_step s)%R in
      (current, Smoothed current (sv_target s) (sv_step s) k (sv_steps s))
  end.

Fixpoint sv_take (n : nat) (s : smoothed) : list R * smoothed :=
  match n with
  | 0 => ([], s)
  | S n => let (g, s) := sv_next s in let (gs, s) := sv_take n s in (g :: gs, s)
  end.

(** AudioBlock::multiplyBy, by a number and by a smoothed value: one factor per sample, the same
    for all channels; AudioBlock::add. *)
Definition multiply_by (g : R) (block : list (list R)) : list (list R) := map (map (fun v => v * g)%R) block.
Definition multiply_each (gs : list R) (row : list R) : list R := map (fun vg => fst vg * snd vg)%R (combine row gs).
Definition multiply_smoothed (l : nat) (s : smoothed) (block : list (list R)) : list (list R) * smoothed :=
  let (gs, s) := sv_take l s in (map (multiply_each gs) block, s).
Definition add_block (a b : list (list R)) : list (list R) :=
  map (fun rows => map (fun vw => fst vw + snd vw)%R (combine (fst rows) (snd rows))) (combine a b).

(** ** juce::dsp::DryWetMixer<float>, rule balanced, no wet latency *)
Record mixer := Mixer { mx_mix : R; mx_dry : smoothed; mx_wet : smoothed }.

(** update() *)
Definition mixer_set (mix : R) (m : mixer) : mixer :=
  Mixer mix (sv_set (2 * Rmin (1 / 2) (1 - mix)) (mx_dry m)) (sv_set (2 * Rmin (1 / 2) mix) (mx_wet m)).

(** The constructor: all wet; the rule is linear until prepare() but gives the same volumes. *)
Definition mixer_make : mixer := Mixer 1 (Smoothed 0 0 0 0 0) (Smoothed 1 1 0 0 0).

(** prepare(): update() and reset() with ramps of 50 ms. *)
Definition mixer_prepare (rate : R) (m : mixer) : mixer :=
  let m := mixer_set (mx_mix m) m in
  Mixer (mx_mix m) (sv_reset rate (5 / 100) (mx_dry m)) (sv_reset rate (5 / 100) (mx_wet m)).

(** mixWetSamples(): [dry] is what was pushed before. *)
Definition mixer_mix (l : nat) (dry wet : list (list R)) (m : mixer) : list (list R) * mixer :=
  let (wet, w) := multiply_smoothed l (mx_wet m) wet in
  let (dry, d) := multiply_smoothed l (mx_dry m) dry in
  (add_block wet dry, Mixer (mx_mix m) d w).

(** ** PerceptualConvolution *)

(** extra/plugin/src/PerceptualConvolution.hpp:20-26 — the parameters are read in every call. *)
Record effect := Effect { ef_convolution : option (cola dense); ef_mixer : mixer }.
Record params := Params { p_inGain : R; p_outGain : R; p_wet : R }.

Definition effect_make : effect := Effect None mixer_make.

(** extra/plugin/src/PerceptualConvolution.cpp:15-27 — prepare(); [frame], [unused] and [output]
    are the contents of the new buffers, reset() is not called. *)
Definition effect_prepare (resampler : audio -> R -> audio) (file : option audio) (spec : process_spec)
  (frame unused output : list (list R)) (e : effect) : outcome effect :=
  c <- dense_make (maximumBlockSize spec) ;;
  c <- match file with Some impulse => dense_load resampler impulse c | None => Ok c end ;;
  c <- dense_prepare resampler spec frame unused output c ;;
  Ok (Effect (Some c) (mixer_prepare (sampleRate spec) (ef_mixer e))).

(** extra/plugin/src/PerceptualConvolution.cpp:29-45 — process(). *)
Definition effect_process (numChannels : nat) (p : params) (block : list (list R)) (e : effect) : outcome (effect * list (list R)) :=
  let l := match block with [] => 0 | row :: _ => length row end in
  let block := multiply_by (p_inGain p) block in
  match ef_convolution e with
  | None => Ok (e, multiply_by (p_outGain p) block)
  | Some c =>
      let dry := block in
      '(c, block) <- process dense dense_processFrame numChannels l block block c ;;
      let m := mixer_set (p_wet p) (ef_mixer e) in
      let (block, m) := mixer_mix l dry block m in
      Ok (Effect (Some c) m, multiply_by (p_outGain p) block)
  end.

(** extra/plugin/src/PerceptualConvolution.cpp:47-52 — reset(). *)
Definition effect_reset (e : effect) : effect :=
  Effect (match ef_convolution e with Some c => Some (dense_reset c) | None => None end) (ef_mixer e).

(** ** PluginProcessor *)

(** juce::AudioChannelSet of a bus. *)
Inductive channel_set := Disabled | Mono | Stereo | OtherLayout (channels : nat).
Definition set_size (s : channel_set) : nat := match s with Disabled => 0 | Mono => 1 | Stereo => 2 | OtherLayout n => n end.
Definition set_eqb (a b : channel_set) : bool :=
  match a, b with
  | Disabled, Disabled | Mono, Mono | Stereo, Stereo => true
  | OtherLayout m, OtherLayout n => m =? n
  | _, _ => false
  end.

(** extra/plugin/src/PluginProcessor.cpp:62-74 *)
Definition isBusesLayoutSupported (main_in main_out : channel_set) : bool :=
  if negb (set_eqb main_out Mono) && negb (set_eqb main_out Stereo) then false else
  if negb (set_eqb main_out main_in) then false else true.

(** extra/plugin/src/PluginProcessor.cpp:47-58 — prepareToPlay(sampleRate, samplesPerBlock). *)
Definition prepareToPlay (resampler : audio -> R -> audio) (file : option audio) (rate : R) (samplesPerBlock : nat) (main_out : channel_set)
  (frame unused output : list (list R)) (e : effect) : outcome effect :=
  effect_prepare resampler file (ProcessSpec rate samplesPerBlock (set_size main_out)) frame unused output e.

(** extra/plugin/src/PluginProcessor.cpp:60 *)
Definition releaseResources : effect -> effect := effect_reset.

(** extra/plugin/src/PluginProcessor.cpp:76-86 — processBlock(): channels without input are cleared. *)
Definition processBlock (main_in main_out : channel_set) (p : params) (buffer : list (list R)) (e : effect) : outcome (effect * list (list R)) :=
  buffer <- for_range (set_size main_in) (set_size main_out) (fun i buffer =>
    row <- rd buffer i ;; wr buffer i (repeat 0%R (length row))) buffer ;;
  effect_process (length buffer) p buffer e.

(** The host: one processBlock() call per block with the parameters of that moment. *)
Fixpoint play (main_in main_out : channel_set) (session : list (params * list (list R))) (e : effect) : outcome (effect * list (list (list R))) :=
  match session with
  | [] => Ok (e, [])
  | (p, b) :: rest =>
      '(e, out) <- processBlock main_in main_out p b e ;;
      '(e, outs) <- play main_in main_out rest e ;;
      Ok (e, out :: outs)
  end.

(** extra/plugin/src/PluginProcessor.cpp:28 — getTailLengthSeconds(); juce::AudioProcessor's
    latency stays 0, as the call that would set it is commented out (PerceptualConvolution.cpp:22). *)
Definition getTailLengthSeconds : R := 0%R.
Definition getLatencySamples : nat := 0.

(** ** Parameters *)

(** juce::NormalisableRange<float> *)
Record range := Range { r_start : R; r_end : R; r_skew : R }.
Definition clamp01 (x : R) : R := Rmax 0 (Rmin 1 x).
Definition setSkewForCentre (centre : R) (r : range) : range :=
  Range (r_start r) (r_end r) (ln (1 / 2) / ln ((centre - r_start r) / (r_end r - r_start r))).
Definition convertFrom0to1 (r : range) (proportion : R) : R :=
  let p := clamp01 proportion in
  let p := if Req_EM_T (r_skew r) 1 then p else if Rlt_dec 0 p then exp (ln p / r_skew r) else p in
  (r_start r + (r_end r - r_start r) * p)%R.
Definition convertTo0to1 (r : range) (v : R) : R :=
  let p := clamp01 ((v - r_start r) / (r_end r - r_start r)) in
  if Req_EM_T (r_skew r) 1 then p else if Rlt_dec 0 p then exp (r_skew r * ln p) else p.

(** extra/plugin/src/PluginParameter.cpp:40-54 — createParameters(). *)
Definition normalised : range := Range 0 1 1.
Definition gainRange : range := setSkewForCentre 1 (Range 0 4 1).
Definition default_params : params := Params 1 1 1.

(** The parameters for the normalised values the host automates. *)
Definition from_host (inGain outGain wet : R) : params :=
  Params (convertFrom0to1 gainRange inGain) (convertFrom0to1 gainRange outGain) (convertFrom0to1 normalised wet).
