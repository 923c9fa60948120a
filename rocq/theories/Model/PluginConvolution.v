(** The plugin's convolution classes: extra/plugin/src/dsp/{DenseConvolution,Convolution}.{hpp,cpp},
    AudioBuffer.{hpp,cpp} (resample, to_mdarray, processBlocks).

    Samples are exact reals, a juce::AudioBuffer is a list of channels.  Reading audio files is
    not modelled: loadImpulseResponse() gets the decoded buffer.  juce::ResamplingAudioSource is
    a parameter.  Sample counts and channel numbers of JUCE are ints; they are natural numbers
    below 2^31 here.  jasserts are no-ops.  A std::vector indexed out of range is undefined. *)
From Coq Require Import Reals List Arith Bool ZArith.
From Verif Require Import Base.Outcome Base.Cplx Model.Integers Model.Algorithm Model.Statistics Model.Units Model.Stft Model.Convolution Model.ConstantOverlapAdd.
Import ListNotations.
Open Scope outcome_scope.

(** extra/plugin/src/dsp/AudioBuffer.hpp:12-17 — BufferWithSampleRate. *)
Record audio := Audio { a_channels : nat; a_samples : nat; a_rate : R; a_data : list (list R) }.

(** juce::dsp::ProcessSpec *)
Record process_spec := ProcessSpec { sampleRate : R; maximumBlockSize : nat; numChannels : nat }.

(** for (ch…) std::invoke(convolvers[ch], channel ch of the block) — DenseConvolution.cpp:70-73,
    Convolution.hpp:60-63. *)
Definition run_channels {ov fdl flt} (n : nat) (st : list (upc ov fdl flt) * list (list R)) : outcome (list (upc ov fdl flt) * list (list R)) :=
  for_range 0 n (fun ch (st : list (upc ov fdl flt) * list (list R)) =>
    let (convolvers, block) := st in
    c <- rd convolvers ch ;;
    row <- rd block ch ;;
    '(c, row) <- upc_run c row ;;
    convolvers <- wr convolvers ch c ;;
    block <- wr block ch row ;;
    Ok (convolvers, block)) st.

(** convolvers.resize(n): old elements stay, new ones are value-initialised. *)
Definition resize_convolvers {ov fdl flt} (l : list (upc ov fdl flt)) (n : nat) : outcome (list (upc ov fdl flt)) :=
  c <- make_upc ov fdl flt ;;
  Ok (firstn n l ++ repeat c (n - length l)).

(** for (ch < numChannels) convolvers[ch].filter(filter(ch, all, all)) *)
Definition filter_channels {ov fdl flt} (n : nat) (filter : list (list (list C))) (args : flt_args flt) (convolvers : list (upc ov fdl flt))
  : outcome (list (upc ov fdl flt)) :=
  for_range 0 n (fun ch convolvers =>
    channel <- rd filter ch ;;
    row <- rd channel 0 ;;
    c <- rd convolvers ch ;;
    c <- upc_filter c (length channel) (length row) channel args ;;
    wr convolvers ch c) convolvers.

(** src/neo/testing/testing.hpp:73-82 — generate_identity_impulse(block_size, num_subfilter). *)
Definition generate_identity_impulse (block_size num_subfilter : nat) : outcome (list (list C)) :=
  let impulse := repeat (repeat C0 (block_size + 1)) num_subfilter in
  row <- rd impulse 0 ;;
  row <- fill C1 row ;;
  wr impulse 0 row.

Section Plugin.
(** The contents of a buffer after juce::ResamplingAudioSource. *)
Variable resampler : audio -> R -> audio.

(** extra/plugin/src/dsp/AudioBuffer.cpp:11-35 *)
Definition resample (buf : audio) (destSampleRate : R) : audio :=
  if exact (a_rate buf) destSampleRate then buf else resampler buf destSampleRate.

(** ** DenseConvolution *)

(** extra/plugin/src/dsp/DenseConvolution.hpp:33-36 — members of the derived class; _filter is
    only a temporary (the convolvers copy it). *)
Record dense := Dense { _impulse : option audio; _spec : option process_spec; _convolvers : list upols_convolver }.

(** extra/plugin/src/dsp/DenseConvolution.cpp:23-25; blockSize is positive. *)
Definition dense_make (blockSize : nat) : outcome (cola dense) :=
  order <- next_order blockSize ;;
  Ok (cola_make dense order 0 (Dense None None [])).

(** extra/plugin/src/dsp/DenseConvolution.cpp:78-108 — updateImpulseResponse(). *)
Definition updateImpulseResponse (d : dense) : outcome dense :=
  match _spec d with
  | None => Ok d
  | Some spec =>
      match _impulse d with
      | Some impulse =>
          convolvers <- resize_convolvers (_convolvers d) (numChannels spec) ;;
          let resampled := resample impulse (sampleRate spec) in
          matrix <- normalize_impulse (Mat (a_channels resampled) (a_samples resampled) (a_data resampled)) ;;
          matrix <- match matrix with Mat _ _ m => Ok m | Vec _ => UB end ;;
          filter <- uniform_partition (a_channels resampled) (a_samples resampled) matrix (maximumBlockSize spec) ;;
          convolvers <- filter_channels (ov := ols) (fdl := dense_fdl) (flt := dense_filter) (numChannels spec) filter tt convolvers ;;
          Ok (Dense (_impulse d) (_spec d) convolvers)
      | None =>
          identity <- generate_identity_impulse (maximumBlockSize spec) 2 ;;
          convolvers <- resize_convolvers (_convolvers d) (numChannels spec) ;;
          convolvers <- filter_channels (ov := ols) (fdl := dense_fdl) (flt := dense_filter) (numChannels spec) (repeat identity (numChannels spec)) tt convolvers ;;
          Ok (Dense (_impulse d) (_spec d) convolvers)
      end
  end.

(** extra/plugin/src/dsp/DenseConvolution.cpp:27-53 — after a file has been read. *)
Definition dense_load (impulse : audio) (c : cola dense) : outcome (cola dense) :=
  d <- updateImpulseResponse (Dense (Some impulse) (_spec (_user _ c)) (_convolvers (_user _ c))) ;;
  Ok (set_user _ c d).

(** extra/plugin/src/dsp/ConstantOverlapAdd.hpp:53-72 with DenseConvolution.cpp:55-60 — prepare()
    and prepareFrame(), which gets the frame size as maximumBlockSize; [frame], [unused] and
    [output] are the contents of the buffers after setSize(). *)
Definition dense_prepare (spec : process_spec) (frame unused output : list (list R)) (c : cola dense) : outcome (cola dense) :=
  let c := prepare dense c frame unused output in
  d <- updateImpulseResponse (Dense (_impulse (_user _ c)) (Some (ProcessSpec (sampleRate spec) (_frameSize _ c) (numChannels spec)))
         (_convolvers (_user _ c))) ;;
  Ok (set_user _ c d).

(** extra/plugin/src/dsp/DenseConvolution.cpp:62-74 — processFrame(). *)
Definition dense_processFrame (d : dense) (frame : list (list R)) : outcome (dense * list (list R)) :=
  '(convolvers, frame) <- run_channels (length frame) (_convolvers d, frame) ;;
  Ok (Dense (_impulse d) (_spec d) convolvers, frame).

(** extra/plugin/src/dsp/DenseConvolution.cpp:76 — resetFrame(). *)
Definition dense_resetFrame (d : dense) : dense := d.

Definition dense_reset : cola dense -> cola dense := reset dense dense_resetFrame.
Definition dense_process_all : nat -> list (list (list R)) -> cola dense -> outcome (cola dense * list (list (list R))) :=
  process_all dense dense_processFrame.

(** ** Convolution *)

Variable lanes : option nat.   (* SIMD width of multiply_add on split spans *)

(** extra/plugin/src/dsp/Convolution.hpp:108-112 *)
Record pconv := PConv { pc_spec : option process_spec; pc_impulse : option audio; pc_convolvers : list (split_upols_convolver lanes) }.

(** extra/plugin/src/dsp/Convolution.hpp:84-104 *)
Definition pc_update (c : pconv) : outcome pconv :=
  match pc_spec c, pc_impulse c with
  | Some spec, Some impulse =>
      let resampled := resample impulse (sampleRate spec) in
      filter <- uniform_partition (a_channels resampled) (a_samples resampled) (a_data resampled) (maximumBlockSize spec) ;;
      convolvers <- resize_convolvers (pc_convolvers c) (numChannels spec) ;;
      convolvers <- filter_channels (ov := ols) (fdl := dense_split_fdl) (flt := dense_split_filter lanes) (numChannels spec) filter tt convolvers ;;
      Ok (PConv (pc_spec c) (pc_impulse c) convolvers)
  | _, _ => Ok c
  end.

Definition pc_make : pconv := PConv None None [].

(** extra/plugin/src/dsp/Convolution.hpp:22-29 *)
Definition pc_prepare (spec : process_spec) (c : pconv) : outcome pconv :=
  let c := PConv (Some spec) (pc_impulse c) (pc_convolvers c) in
  match pc_impulse c with Some _ => pc_update c | None => Ok c end.

(** extra/plugin/src/dsp/Convolution.hpp:31-35 *)
Definition pc_reset (c : pconv) : pconv := PConv (pc_spec c) (pc_impulse c) [].

(** extra/plugin/src/dsp/Convolution.hpp:66-81 — [None]: the file could not be read. *)
Definition pc_load (file : option audio) (c : pconv) : outcome pconv :=
  pc_update (PConv (pc_spec c) (match file with Some a => Some a | None => pc_impulse c end) (pc_convolvers c)).

(** extra/plugin/src/dsp/Convolution.hpp:37-64 — process() of a block of [l] samples; the result
    is the output block. *)
Definition pc_process (l : nat) (input : list (list R)) (c : pconv) : outcome (pconv * list (list R)) :=
  match pc_convolvers c, pc_spec c with
  | _ :: _, Some spec =>
      if negb (l =? maximumBlockSize spec) then Ok (c, input) else
      '(convolvers, output) <- run_channels (length input) (pc_convolvers c, input) ;;
      Ok (PConv (pc_spec c) (pc_impulse c) convolvers, output)
  | _, _ => Ok (c, input)
  end.

Definition samples_of (b : list (list R)) : nat := match b with [] => 0 | row :: _ => length row end.

(** One process() call per block. *)
Fixpoint pc_process_all (blocks : list (list (list R))) (c : pconv) : outcome (pconv * list (list (list R))) :=
  match blocks with
  | [] => Ok (c, [])
  | b :: rest =>
      '(c, out) <- pc_process (samples_of b) b c ;;
      '(c, outs) <- pc_process_all rest c ;;
      Ok (c, out :: outs)
  end.

(** extra/plugin/src/dsp/AudioBuffer.hpp:40-68 — processBlocks(processor, input, output,
    blockSize, sampleRate) with a Convolution; [channels] channels of [n] samples. *)
Definition sub_block (input : list (list R)) (i num : nat) : outcome (list (list R)) := mapM (fun row => slice row i (i + num)) input.

Definition processBlocks (channels n : nat) (input output : list (list R)) (blockSize : nat) (rate : R) (c : pconv)
  : outcome (pconv * list (list R)) :=
  c <- pc_prepare (ProcessSpec rate blockSize channels) c ;;
  '(c, output) <- for_step 0 n blockSize (fun i (st : pconv * list (list R)) =>
      let (c, output) := st in
      let numSamples := Nat.min (n - i) blockSize in
      inb <- sub_block input i numSamples ;;
      '(c, out) <- pc_process numSamples inb c ;;
      output <- for_range 0 channels (fun ch output =>
        row <- rd output ch ;; o <- rd out ch ;; row <- splice row i o ;; wr output ch row) output ;;
      Ok (c, output)) (c, output) ;;
  Ok (pc_reset c, output).
End Plugin.

(** ** Offline convolution *)

Section Offline.
Variable ov : overlap_type.
Variable fdl : fdl_type.
Variable flt : filter_type (fdl_row fdl).

(** One block of one channel: DenseConvolution.hpp:58-65, DenseConvolution.cpp:176-182; the
    products of getNumSamples() and block sizes are ints. *)
Definition offline_block (inp : list R) (frames blockSize i : nat) (st : upc ov fdl flt * list R * list R)
  : outcome (upc ov fdl flt * list R * list R) :=
  let '(convolver, block, out) := st in
  rest <- iarith int32 (Z.of_nat frames - Z.of_nat i) ;;
  let numSamples := Z.to_nat (Z.min rest (Z.of_nat blockSize)) in
  block <- fill 0%R block ;;
  part <- slice inp i (i + numSamples) ;;
  block <- copy_into part block 0 numSamples ;;
  '(convolver, block) <- upc_run convolver block ;;
  done <- slice block 0 numSamples ;;
  out <- copy_into done out i (i + numSamples) ;;
  Ok (convolver, block, out).

(** extra/plugin/src/dsp/DenseConvolution.hpp:39-70 — dense_convolve<Convolver>(); [output0] is
    what the new output buffer contains. *)
Definition dense_convolve (channels frames : nat) (signal : list (list R)) (ichannels iframes : nat) (filter : list (list R))
    (blockSize : nat) (args : flt_args flt) (output0 : list (list R)) : outcome (list (list R)) :=
  let block := repeat 0%R blockSize in
  matrix <- normalize_impulse (Mat ichannels iframes filter) ;;
  matrix <- match matrix with Mat _ _ m => Ok m | Vec _ => UB end ;;
  partitions <- uniform_partition ichannels iframes matrix blockSize ;;
  convolvers <- resize_convolvers (ov := ov) (fdl := fdl) (flt := flt) [] channels ;;
  convolvers <- filter_channels channels partitions args convolvers ;;
  '(_, _, output) <- for_step 0 frames blockSize (fun i (st : list (upc ov fdl flt) * list R * list (list R)) =>
      st <- for_range 0 channels (fun ch (st : list (upc ov fdl flt) * list R * list (list R)) =>
        let '(convolvers, block, output) := st in
        inp <- rd signal ch ;;
        out <- rd output ch ;;
        convolver <- rd convolvers ch ;;
        '(convolver, block, out) <- offline_block inp frames blockSize i (convolver, block, out) ;;
        convolvers <- wr convolvers ch convolver ;;
        output <- wr output ch out ;;
        Ok (convolvers, block, output)) st ;;
      _ <- iarith int32 (Z.of_nat i + Z.of_nat blockSize) ;;
      Ok st) (convolvers, block, output0) ;;
  Ok output.
End Offline.

(** extra/plugin/src/dsp/DenseConvolution.cpp:110-122 — normalization_factor() without the
    reciprocal.  For a silent filter the code gets 0 * (1 / 0) = NaN, for which amplitude_to_db
    returns -144, as it does for 0. *)
Definition max_power (filter : list (list C)) : outcome R :=
  for_range 0 (length filter) (fun p maxPower =>
    partition <- rd filter p ;;
    for_range 0 (length partition) (fun bin maxPower =>
      v <- rd partition bin ;;
      let amplitude := Cabs v in
      Ok (Rmax maxPower (amplitude * amplitude))) maxPower) 0%R.

(** extra/plugin/src/dsp/DenseConvolution.cpp:141-154 — the weights; A-weighting takes the
    logarithm of the frequency, which is -infinity for bin 0: [None]. *)
Definition bin_weights (K bins lowBinsToKeep : nat) (rate : R) : outcome (list (option R)) :=
  _ <- guard (lowBinsToKeep <=? bins) ;;
  let w := repeat (Some 100%R) lowBinsToKeep ++ repeat (Some 0%R) (bins - lowBinsToKeep) in
  for_range lowBinsToKeep bins (fun i w =>
    let frequency := rfftfreq (Z.of_nat K) (Z.of_nat i) (1 / rate) in
    wr w i (if Req_EM_T frequency 0 then None else Some (a_weighting frequency))) w.

(** extra/plugin/src/dsp/DenseConvolution.cpp:164-169 — isAboveThreshold; a weight of -infinity
    is below every threshold. *)
Definition isAboveThreshold (thresholdDB scale : R) (weights : list (option R)) (_row col : nat) (bin : C) : bool :=
  let gain := Cabs bin in
  let power := (gain * gain)%R in
  match nth col weights None with
  | None => false
  | Some w =>
      let dB := (amplitude_to_db (power * scale) * 0.5 + w)%R in
      if Rlt_dec thresholdDB dB then true else false
  end.

(** extra/plugin/src/dsp/DenseConvolution.cpp:124-186 — sparse_convolve(). *)
Definition sparse_convolve (channels frames : nat) (signal : list (list R)) (ichannels iframes : nat) (filter : list (list R))
    (blockSize : nat) (rate thresholdDB : R) (lowBinsToKeep : nat) (output0 : list (list R)) : outcome (list (list R)) :=
  let block := repeat 0%R blockSize in
  matrix <- normalize_impulse (Mat ichannels iframes filter) ;;
  matrix <- match matrix with Mat _ _ m => Ok m | Vec _ => UB end ;;
  partitions <- uniform_partition ichannels iframes matrix blockSize ;;
  first <- rd partitions 0 ;;
  frow <- rd first 0 ;;
  let bins := length frow in
  t <- iarith usize ((Z.of_nat bins - 1) * 2) ;;
  K <- bit_ceil 64 t ;;
  weights <- bin_weights (Z.to_nat K) bins lowBinsToKeep rate ;;
  '(_, output) <- for_range 0 channels (fun ch (st : list R * list (list R)) =>
      let (block, output) := st in
      convolver <- make_upc ola dense_fdl sparse_filter ;;
      channelPartitions <- rd partitions ch ;;
      row <- rd channelPartitions 0 ;;
      maxPower <- max_power channelPartitions ;;
      let scale := (1 / maxPower)%R in
      convolver <- upc_filter convolver (length channelPartitions) (length row) channelPartitions (isAboveThreshold thresholdDB scale weights) ;;
      inp <- rd signal ch ;;
      out <- rd output ch ;;
      '(_, block, out) <- for_step 0 frames blockSize (fun i st =>
          st <- offline_block ola dense_fdl sparse_filter inp frames blockSize i st ;;
          _ <- iarith int32 (Z.of_nat i + Z.of_nat blockSize) ;;
          Ok st) (convolver, block, out) ;;
      output <- wr output ch out ;;
      Ok (block, output)) (block, output0) ;;
  Ok output.
