(** dense_convolve<Convolver>() of extra/plugin/src/dsp/DenseConvolution.hpp with
    upola_convolver_v2, as the benchmark tab calls it (extra/plugin/src/ui/BenchmarkTab.cpp:283-285);
    with the other convolvers it is in Model/PluginConvolution.v. *)
From Coq Require Import Reals List Arith Bool ZArith.
From Verif Require Import Base.Outcome Base.Cplx Model.Integers Model.Algorithm Model.Statistics Model.Stft Model.Convolution Model.PluginConvolution
  Model.OverlapAddConvolver.
Import ListNotations.
Open Scope outcome_scope.

(** extra/plugin/src/dsp/DenseConvolution.hpp:50-53 — convolvers[ch].filter(channel ch). *)
Definition v2_filter_channels (n : nat) (filter : list (list (list C))) (convolvers : list oac) : outcome (list oac) :=
  for_range 0 n (fun ch convolvers =>
    channel <- rd filter ch ;;
    row <- rd channel 0 ;;
    c <- rd convolvers ch ;;
    c <- oac_filter c (length channel) (length row) channel ;;
    wr convolvers ch c) convolvers.

(** extra/plugin/src/dsp/DenseConvolution.hpp:60-64 — one block of one channel. *)
Definition v2_block (inp : list R) (frames blockSize i : nat) (st : oac * list R * list R) : outcome (oac * list R * list R) :=
  let '(convolver, block, out) := st in
  rest <- iarith int32 (Z.of_nat frames - Z.of_nat i) ;;
  let numSamples := Z.to_nat (Z.min rest (Z.of_nat blockSize)) in
  block <- fill 0%R block ;;
  part <- slice inp i (i + numSamples) ;;
  block <- copy_into part block 0 numSamples ;;
  '(convolver, block) <- oac_run convolver block ;;
  done <- slice block 0 numSamples ;;
  out <- copy_into done out i (i + numSamples) ;;
  Ok (convolver, block, out).

(** extra/plugin/src/dsp/DenseConvolution.hpp:56-65 — all channels of one block. *)
Definition v2_channel (signal : list (list R)) (frames blockSize i ch : nat) (st : list oac * list R * list (list R))
  : outcome (list oac * list R * list (list R)) :=
  let '(convolvers, block, output) := st in
  inp <- rd signal ch ;;
  out <- rd output ch ;;
  convolver <- rd convolvers ch ;;
  '(convolver, block, out) <- v2_block inp frames blockSize i (convolver, block, out) ;;
  convolvers <- wr convolvers ch convolver ;;
  output <- wr output ch out ;;
  Ok (convolvers, block, output).

(** extra/plugin/src/dsp/DenseConvolution.hpp:39-70 — dense_convolve<upola_convolver_v2>();
    [output0] is what the new output buffer contains. *)
Definition dense_convolve_v2 (channels frames : nat) (signal : list (list R)) (ichannels iframes : nat) (filter : list (list R))
    (blockSize : nat) (output0 : list (list R)) : outcome (list (list R)) :=
  let block := repeat 0%R blockSize in
  matrix <- normalize_impulse (Mat ichannels iframes filter) ;;
  matrix <- match matrix with Mat _ _ m => Ok m | Vec _ => UB end ;;
  partitions <- uniform_partition ichannels iframes matrix blockSize ;;
  c <- make_oac ;;
  convolvers <- v2_filter_channels channels partitions (repeat c channels) ;;
  '(_, _, output) <- for_step 0 frames blockSize (fun i st =>
      st <- for_range 0 channels (v2_channel signal frames blockSize i) st ;;
      _ <- iarith int32 (Z.of_nat i + Z.of_nat blockSize) ;;
      Ok st) (convolvers, block, output0) ;;
  Ok output.
