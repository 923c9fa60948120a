(** The plugin's audio files: extra/plugin/src/dsp/AudioFile.{hpp,cpp} and the buffer sizes of
    resample() in AudioBuffer.cpp.  Samples and rates are exact reals.

    JUCE, which the repository does not contain, is taken at its documented word: a reader
    exists iff the file starts with a recording it understands, reading either fails or delivers the
    samples asked for; createOutputStream() opens an existing file at its end; the WAV writer
    supports 8, 16, 24 and 32 bits, and 32 bits are floats.  What 8 to 24 bits make of a sample
    and what the resampler computes are parameters. *)
From Coq Require Import Reals List Arith Bool ZArith.
From Flocq Require Import Core.
From Verif Require Import Base.Outcome Model.Integers Model.Statistics Model.PluginConvolution.
Import ListNotations.
Local Open Scope nat_scope.
Open Scope outcome_scope.

(** A recording as a juce::AudioFormatReader shows it: unsigned numChannels, int64
    lengthInSamples, sampleRate, and whether read() succeeds. *)
Record recording := Recording { rec_channels : Z; rec_length : Z; rec_rate : R; rec_intact : bool; rec_sample : nat -> nat -> R }.

(** A file on disk: recordings one after the other; [[]] holds nothing a reader understands. *)
Definition audio_file := list recording.

(** juce::AudioBuffer<float>{channels, samples}: negative sizes are not allowed. *)
Definition new_buffer (channels samples : Z) : outcome (nat * nat) :=
  _ <- guard ((0 <=? channels) && (0 <=? samples))%Z ;;
  Ok (Z.to_nat channels, Z.to_nat samples).

(** [return {}] — AudioFile.cpp:11, 16: an empty buffer, sample rate 0. *)
Definition no_file : audio := Audio 0 0 0%R [].

(** extra/plugin/src/dsp/AudioFile.cpp:7-20 — load(formats, file). *)
Definition load_file (file : audio_file) : outcome audio :=
  match file with
  | [] => Ok no_file
  | r :: _ =>
      '(channels, samples) <- new_buffer (iconv int32 (rec_channels r)) (iconv int32 (rec_length r)) ;;
      if rec_intact r
      then Ok (Audio channels samples (rec_rate r) (tab channels (fun ch => tab samples (fun i => rec_sample r ch i))))
      else Ok no_file
  end.

Section Resampling.
(** What juce::ResamplingAudioSource writes: source, destination rate, channel, sample. *)
Variable interpolated : audio -> R -> nat -> nat -> R.

(** extra/plugin/src/dsp/AudioBuffer.cpp:17, 22 — roundToInt(jmax(1.0, numSamples / factorReading)).
    A rate of 0 makes the factor 0, a destination rate of 0 makes it infinite; 0 / 0 is NaN, which jmax(1.0, NaN)
    ignores.  roundToInt() delivers the low 32 bits of the nearest integer, ties to even. *)
Definition final_size (numSamples : nat) (rate dest : R) : outcome Z :=
  if exact rate 0 then (if numSamples =? 0 then Ok 1%Z else UB)
  else if exact dest 0 then Ok 1%Z
  else Ok (iconv int32 (ZnearestE (Rmax 1 (INR numSamples / (rate / dest))))).

(** extra/plugin/src/dsp/AudioBuffer.cpp:11-35 — resample(). *)
Definition resample_buffer (buf : audio) (dest : R) : outcome audio :=
  if exact (a_rate buf) dest then Ok buf
  else
    size <- final_size (a_samples buf) (a_rate buf) dest ;;
    '(channels, samples) <- new_buffer (Z.of_nat (a_channels buf)) size ;;
    Ok (Audio channels samples dest (tab channels (fun ch => tab samples (fun i => interpolated buf dest ch i)))).

(** extra/plugin/src/dsp/AudioFile.cpp:22-30 — loadAndResample(). *)
Definition load_and_resample (file : audio_file) (dest : R) : outcome audio :=
  result <- load_file file ;;
  if negb (exact (a_rate result) dest) then resample_buffer result dest else Ok result.
End Resampling.

Section Writing.
(** A sample in 8, 16 or 24 bits. *)
Variable quantised : Z -> R -> R.

Definition wav_depths : list Z := [8; 16; 24; 32]%Z.
Definition stored (bits : Z) (v : R) : R := if (bits =? 32)%Z then v else quantised bits v.

(** extra/plugin/src/dsp/AudioFile.cpp:32-57 — writeToWavFile(file, buffer, sampleRate,
    bitsPerSample); [None] is a file that cannot be opened for writing.  A reference to sample 0
    of a channel without samples is undefined.  writeFromFloatArrays() writes nothing when its
    int number of samples is not positive. *)
Definition write_to_wav_file (file : option audio_file) (channels samples : nat) (buffer : list (list R)) (sampleRate : R) (bits : Z)
  : outcome (option audio_file) :=
  let ch := iconv (Ity 32 false) (Z.of_nat channels) in
  _ <- guard ((ch =? 0) || (0 <? Z.of_nat samples))%Z ;;
  match file with
  | Some old =>
      if existsb (Z.eqb bits) wav_depths
      then
        let written := iconv int32 (Z.of_nat samples) in
        Ok (Some (old ++ [Recording ch (Z.max 0 written) sampleRate true
             (fun c i => stored bits (nth i (nth c buffer []) 0%R))]))
      else Ok (Some old)
  | None => Ok None
  end.
End Writing.
