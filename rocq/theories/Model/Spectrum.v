(** Model of extra/plugin/src/dsp/Spectrum.cpp: the plugin's spectrogram image and histogram. *)
From Coq Require Import Reals List Arith ZArith Bool.
From Verif Require Import Base.Outcome Base.Cplx Model.Integers Model.Stft Model.Convolution Model.Units Model.PluginConvolution.
Import ListNotations.
Open Scope outcome_scope.

(** juce::roundToInt(float): nearest integer, halves to the even one. *)
Definition roundToInt (x : R) : Z :=
  let n := Int_part x in
  let f := (x - IZR n)%R in
  if Rlt_dec f (1 / 2) then n else
  if Rlt_dec (1 / 2) f then (n + 1)%Z else
  if Z.even n then n else (n + 1)%Z.

(** Spectrum.cpp:31-36, 77-81 — the weighted level of a bin; [scale] is the reciprocal of
    [max_power], the loop in Spectrum.cpp:19-28 and 59-68.  In a silent spectrogram the code gets
    0 * (1 / 0) = NaN, for which amplitude_to_db returns -144, as it does for 0. *)
Definition weighted_level (scale weight : R) (bin : C) : R :=
  let gain := Cabs bin in
  let power := (gain * gain)%R in
  let normalized := (power * scale)%R in
  (amplitude_to_db_floor normalized (-144) * 0.5 + weight)%R.

(** Spectrum.cpp:13-52 — powerSpectrumImage(); [img !! x !! y] is true where the pixel is white.
    [weighting] is a total function with finite values. *)
Definition powerSpectrumImage (frames bins : nat) (spectrum : list (list C)) (weighting : nat -> R) (threshold : R) : outcome (list (list bool)) :=
  maxPower <- max_power spectrum ;;
  let scale := (1 / maxPower)%R in
  let numFrames := Z.to_nat (iconv int32 (Z.of_nat frames)) in
  let numBins := Z.to_nat (iconv int32 (Z.of_nat bins)) in
  for_range 0 numFrames (fun frameIdx img =>
    for_range 0 numBins (fun binIdx img =>
      row <- rd spectrum frameIdx ;;
      bin <- rd row binIdx ;;
      y <- iarith int32 (Z.of_nat numBins - Z.of_nat binIdx - 1) ;;
      let y := Z.to_nat y in
      let dB := weighted_level scale (weighting y) bin in
      column <- rd img frameIdx ;;
      column <- wr column y (if Rlt_dec dB threshold then true else false) ;;
      wr img frameIdx column) img) (repeat (repeat false numBins) numFrames).

(** Spectrum.cpp:54-88 — powerHistogram(). *)
Definition powerHistogram (frames bins : nat) (spectogram : list (list C)) (weighting : nat -> R) : outcome (list Z) :=
  maxPower <- max_power spectogram ;;
  let scale := (1 / maxPower)%R in
  for_range 0 frames (fun frameIdx histogram =>
    for_range 0 bins (fun binIdx histogram =>
      row <- rd spectogram frameIdx ;;
      bin <- rd row binIdx ;;
      let dB := weighted_level scale (weighting binIdx) bin in
      let dBClamped := if Rlt_dec dB (-143) then (-143)%R else if Rlt_dec 0 dB then 0%R else dB in
      let index := Z.to_nat (iconv usize (roundToInt (Rabs dBClamped))) in
      n <- rd histogram index ;;
      n <- iarith int32 (n + 1) ;;
      wr histogram index n) histogram) (repeat 0%Z 144).

(** Spectrum.cpp:90-125 — powerHistogramImage(): the heights of the bars, at x = 8 * i.  Without
    a count in the first 143 buckets the code divides 0 by 0 and rounds a NaN. *)
Definition powerHistogramImage (frames bins : nat) (spectogram : list (list C)) (weighting : nat -> R) : outcome (list Z) :=
  histogram <- powerHistogram frames bins spectogram weighting ;;
  let maxBin := fold_left Z.max (firstn 143 histogram) 0%Z in
  _ <- guard (0 <? maxBin)%Z ;;
  mapM (fun i => n <- rd histogram i ;; Ok (roundToInt (IZR n / IZR maxBin * 250))) (seq 0 (144 - 1)).
