(** The plugin's streaming framer: extra/plugin/src/dsp/ConstantOverlapAdd.hpp.

    Samples are exact reals.  A juce::AudioBuffer is a list of channels; setSize() leaves its
    contents unspecified, so prepare() takes them as arguments.  The ints are unbounded integers
    (their values stay below a few times the frame and block sizes).  Reads and writes outside
    a buffer are undefined behaviour, jasserts are no-ops.  processFrame() is a parameter: it
    sees the frames of all channels and may keep a state. *)
From Coq Require Import Reals List Arith Bool ZArith.
From Verif Require Import Base.Outcome.
Import ListNotations.
Open Scope outcome_scope.

(** A pointer offset or a length given as an int. *)
Definition index (z : Z) : outcome nat := _ <- guard (0 <=? z)%Z ;; Ok (Z.to_nat z).

(** juce::FloatVectorOperations::multiply(dest + doff, src1 + soff, src2 + woff, num). *)
Definition fvo_multiply (dest : list R) (doff : nat) (src1 : list R) (soff : nat) (src2 : list R) (woff num : nat) : outcome (list R) :=
  for_range 0 num (fun i dest =>
    a <- rd src1 (soff + i) ;; b <- rd src2 (woff + i) ;; wr dest (doff + i) (a * b)%R) dest.

(** std::copy_n(src + soff, num, dest + doff), also within one array when dest is in front. *)
Definition copy_n (src : list R) (soff num : nat) (dest : list R) (doff : nat) : outcome (list R) :=
  for_range 0 num (fun i dest => a <- rd src (soff + i) ;; wr dest (doff + i) a) dest.
Definition copy_within (a : list R) (soff num doff : nat) : outcome (list R) :=
  for_range 0 num (fun i a => v <- rd a (soff + i) ;; wr a (doff + i) v) a.

(** juce::AudioBuffer::addFrom(…, dest offset, source, source offset, num), one channel. *)
Definition add_from (dest : list R) (doff : nat) (src : list R) (soff num : nat) : outcome (list R) :=
  for_range 0 num (fun i dest =>
    a <- rd dest (doff + i) ;; b <- rd src (soff + i) ;; wr dest (doff + i) (a + b)%R) dest.

(** for (ch = 0; ch < numChannels; ++ch) on the channels of one buffer. *)
Definition each_channel (numChannels : nat) (f : nat -> list R -> outcome (list R)) (buf : list (list R)) : outcome (list (list R)) :=
  for_range 0 numChannels (fun ch buf => row <- rd buf ch ;; row <- f ch row ;; wr buf ch row) buf.

Section Framer.
Variable St : Type.
(** processFrame(): state and the frame buffer, replaced in place. *)
Variable processFrame : St -> list (list R) -> outcome (St * list (list R)).

(** extra/plugin/src/dsp/ConstantOverlapAdd.hpp:34-44 *)
Record cola := Cola {
  _frame : list (list R);
  _unusedInput : list (list R);
  _output : list (list R);
  _window : list R;
  _frameSize : nat;
  _hopSize : nat;
  _outputOffset : Z;
  _unusedInputCount : Z;
  _user : St;   (* the members of the derived class *)
}.

(** extra/plugin/src/dsp/ConstantOverlapAdd.hpp:47-51 *)
Definition cola_make (frameSizeAsPowerOf2 hopSizeDividerAsPowerOf2 : nat) (user : St) : cola :=
  Cola [] [] [] [] (2 ^ frameSizeAsPowerOf2) (2 ^ frameSizeAsPowerOf2 / 2 ^ hopSizeDividerAsPowerOf2) 0 0 user.

(** extra/plugin/src/dsp/ConstantOverlapAdd.hpp:201-210 — the rectangular window, times
    1 / (frameSize / hopSize / 2). *)
Definition createWindow (frameSize hopSize : nat) : list R :=
  map (fun w => w * (1 / (INR frameSize / INR hopSize / 2)))%R (repeat 1%R frameSize).

(** extra/plugin/src/dsp/ConstantOverlapAdd.hpp:64-67 — the number of samples of _output; the
    quotient of floats is exact for blocks of up to 2^24 samples. *)
Definition output_samples (frameSize hopSize bufferSize : nat) : nat :=
  let k := 1 + (bufferSize - 1) / hopSize in
  let m := k * hopSize + (frameSize - hopSize) in
  m + bufferSize - 1.

(** extra/plugin/src/dsp/ConstantOverlapAdd.hpp:53-72 — prepare(spec) without prepareFrame();
    [frame], [unused] and [output] are the contents after setSize(). *)
Definition prepare (c : cola) (frame unused output : list (list R)) : cola :=
  Cola frame unused output (createWindow (_frameSize c) (_hopSize c)) (_frameSize c) (_hopSize c)
    (Z.of_nat (_frameSize c) - 1) 0 (_user c).

(** juce::AudioBuffer::clear() *)
Definition clear (buf : list (list R)) : list (list R) := map (fun row => repeat 0%R (length row)) buf.

(** extra/plugin/src/dsp/ConstantOverlapAdd.hpp:74-85 — reset(); [resetFrame] is the derived
    class's. *)
Definition reset (resetFrame : St -> St) (c : cola) : cola :=
  Cola (clear (_frame c)) (clear (_unusedInput c)) (clear (_output c)) (_window c) (_frameSize c) (_hopSize c)
    (Z.of_nat (_frameSize c) - 1) 0 (resetFrame (_user c)).

Definition set_frame (c : cola) frame := Cola frame (_unusedInput c) (_output c) (_window c) (_frameSize c) (_hopSize c) (_outputOffset c) (_unusedInputCount c) (_user c).
Definition set_unused (c : cola) unused := Cola (_frame c) unused (_output c) (_window c) (_frameSize c) (_hopSize c) (_outputOffset c) (_unusedInputCount c) (_user c).
Definition set_output (c : cola) output := Cola (_frame c) (_unusedInput c) output (_window c) (_frameSize c) (_hopSize c) (_outputOffset c) (_unusedInputCount c) (_user c).
Definition set_offset (c : cola) o := Cola (_frame c) (_unusedInput c) (_output c) (_window c) (_frameSize c) (_hopSize c) o (_unusedInputCount c) (_user c).
Definition set_count (c : cola) n := Cola (_frame c) (_unusedInput c) (_output c) (_window c) (_frameSize c) (_hopSize c) (_outputOffset c) n (_user c).
Definition set_user (c : cola) u := Cola (_frame c) (_unusedInput c) (_output c) (_window c) (_frameSize c) (_hopSize c) (_outputOffset c) (_unusedInputCount c) u.

(** extra/plugin/src/dsp/ConstantOverlapAdd.hpp:212-220 *)
Definition writeBackFrame (c : cola) (numChannels : nat) : outcome cola :=
  let tail := _frameSize c - _hopSize c in
  output <- each_channel numChannels (fun ch row =>
      o <- index (_outputOffset c) ;;
      frame <- rd (_frame c) ch ;;
      row <- add_from row o frame 0 tail ;;
      copy_n frame tail (_hopSize c) row (o + tail)) (_output c) ;;
  Ok (set_offset (set_output c output) (_outputOffset c + Z.of_nat (_hopSize c))%Z).

(** Lines 125-129 and 164-166: process the frame, then buffer the output. *)
Definition run_frame (c : cola) (numChannels : nat) : outcome cola :=
  '(user, frame) <- processFrame (_user c) (_frame c) ;;
  writeBackFrame (set_user (set_frame c frame) user) numChannels.

(** extra/plugin/src/dsp/ConstantOverlapAdd.hpp:105-133 — one round of the loop over the left
    overs; [l] is the number of new samples, [off] is notYetUsedAudioDataOffset. *)
Definition leftover_round (numChannels : nat) (inBlock : list (list R)) (st : cola * nat) : outcome (cola * nat) :=
  let (c, off) := st in
  frame <- each_channel numChannels (fun ch row =>
      u <- index (_unusedInputCount c) ;;
      unused <- rd (_unusedInput c) ch ;;
      row <- fvo_multiply row 0 unused off (_window c) 0 u ;;
      inp <- rd inBlock ch ;;
      fvo_multiply row u inp 0 (_window c) u (_frameSize c - u)) (_frame c) ;;
  c <- run_frame (set_frame c frame) numChannels ;;
  Ok (set_count c (_unusedInputCount c - Z.of_nat (_hopSize c))%Z, off + _hopSize c).

Definition leftovers (numChannels l : nat) (inBlock : list (list R)) (c : cola) : outcome (cola * nat) :=
  while_fuel (S (Z.to_nat (_unusedInputCount c)))
    (fun st : cola * nat => let (c, _) := st in
       (0 <? _unusedInputCount c)%Z && (Z.of_nat (_frameSize c) <=? _unusedInputCount c + Z.of_nat l)%Z)
    (leftover_round numChannels inBlock) (c, 0).

(** extra/plugin/src/dsp/ConstantOverlapAdd.hpp:135-149 — too little input for another frame:
    move the left overs to the front and append the new samples. *)
Definition append_input (numChannels l : nat) (inBlock : list (list R)) (initialUnusedCount : Z) (c : cola) : outcome cola :=
  unused <- each_channel numChannels (fun ch row =>
      from <- index (initialUnusedCount - _unusedInputCount c)%Z ;;
      u <- index (_unusedInputCount c) ;;
      row <- copy_within row from u 0 ;;
      inp <- rd inBlock ch ;;
      copy_n inp 0 l row u) (_unusedInput c) ;;
  Ok (set_count (set_unused c unused) (_unusedInputCount c + Z.of_nat l)%Z).

(** extra/plugin/src/dsp/ConstantOverlapAdd.hpp:154-169 — one round of the loop over frames that
    lie in the new samples; the counter is dataOffset. *)
Definition direct_round (numChannels : nat) (inBlock : list (list R)) (st : cola * Z) : outcome (cola * Z) :=
  let (c, dataOffset) := st in
  frame <- each_channel numChannels (fun ch row =>
      inp <- rd inBlock ch ;;
      d <- index dataOffset ;;
      fvo_multiply row 0 inp d (_window c) 0 (_frameSize c)) (_frame c) ;;
  c <- run_frame (set_frame c frame) numChannels ;;
  Ok (c, (dataOffset + Z.of_nat (_hopSize c))%Z).

(** extra/plugin/src/dsp/ConstantOverlapAdd.hpp:150-182 *)
Definition use_input (numChannels l : nat) (inBlock : list (list R)) (c : cola) : outcome cola :=
  '(c, dataOffset) <- while_fuel (S l)
      (fun st : cola * Z => let (c, dataOffset) := st in (Z.of_nat (_frameSize c) <=? Z.of_nat l - dataOffset)%Z)
      (direct_round numChannels inBlock) (c, (- _unusedInputCount c)%Z) ;;
  let remaining := (Z.of_nat l - dataOffset)%Z in
  unused <- (if (0 <? remaining)%Z then
      each_channel numChannels (fun ch row =>
        inp <- rd inBlock ch ;;
        d <- index dataOffset ;;
        n <- index remaining ;;
        copy_n inp d n row 0) (_unusedInput c)
    else Ok (_unusedInput c)) ;;
  Ok (set_count (set_unused c unused) remaining).

(** extra/plugin/src/dsp/ConstantOverlapAdd.hpp:184-198 — returns the new object and the
    contents of the output block.  getNumSamples() of _output is [outputSamples]. *)
Definition emit (numChannels l outputSamples : nat) (outBlock : list (list R)) (c : cola) : outcome (cola * list (list R)) :=
  let shiftL := (_outputOffset c + Z.of_nat (_frameSize c) - Z.of_nat (_hopSize c) - Z.of_nat l)%Z in
  let tooMuch := (Z.of_nat l + shiftL - Z.of_nat outputSamples)%Z in
  let shiftL := if (0 <? tooMuch)%Z then (shiftL - tooMuch)%Z else shiftL in
  '(output, outBlock) <- for_range 0 numChannels (fun ch (st : list (list R) * list (list R)) =>
      let (output, outBlock) := st in
      row <- rd output ch ;;
      orow <- rd outBlock ch ;;
      orow <- copy_n row 0 l orow 0 ;;
      n <- index shiftL ;;
      row <- copy_within row l n 0 ;;
      output <- wr output ch row ;;
      outBlock <- wr outBlock ch orow ;;
      Ok (output, outBlock)) (_output c, outBlock) ;;
  Ok (set_offset (set_output c output) (_outputOffset c - Z.of_nat l)%Z, outBlock).

(** extra/plugin/src/dsp/ConstantOverlapAdd.hpp:87-199 — process(context) with [numChannels]
    channels of [l] samples.  The output block is written after the last read of the input
    block, so it does not matter whether they are the same memory. *)
Definition process (numChannels l : nat) (inBlock outBlock : list (list R)) (c : cola) : outcome (cola * list (list R)) :=
  let outputSamples := match _output c with [] => 0 | row :: _ => length row end in
  let initialUnusedCount := _unusedInputCount c in
  '(c, _) <- leftovers numChannels l inBlock c ;;
  c <- (if (0 <? _unusedInputCount c)%Z
        then append_input numChannels l inBlock initialUnusedCount c
        else use_input numChannels l inBlock c) ;;
  emit numChannels l outputSamples outBlock c.

(** The host: one process() call per block, each a list of channels, in place. *)
Fixpoint process_all (numChannels : nat) (blocks : list (list (list R))) (c : cola) : outcome (cola * list (list (list R))) :=
  match blocks with
  | [] => Ok (c, [])
  | b :: rest =>
      let l := match b with [] => 0 | row :: _ => length row end in
      '(c, out) <- process numChannels l b b c ;;
      '(c, outs) <- process_all numChannels rest c ;;
      Ok (c, out :: outs)
  end.
End Framer.
