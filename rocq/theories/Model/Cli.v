(** The command line convolver: extra/cli/src/convolver.cpp.  Floats are exact reals; reading and
    writing WAV files, printing and timing are not modelled. *)
From Coq Require Import Reals List Arith Bool ZArith.
From Verif Require Import Base.Outcome Base.Cplx Model.Integers Model.Algorithm Model.Statistics Model.Stft Model.Convolution.
Import ListNotations.
Open Scope outcome_scope.

Section Convolve.
Variable ov : overlap_type.
Variable fdl : fdl_type.
Variable flt : filter_type (fdl_row fdl).
Variable args : flt_args flt.

(** extra/cli/src/convolver.cpp:42-54 — one round of the inner loop: [i] and [block_size] are
    ints, the state holds the convolver, block_buffer and the channel's row of the output. *)
Definition cli_block (signal : list R) (block_size i : nat) (st : upc ov fdl flt * list R * list R)
  : outcome (upc ov fdl flt * list R * list R) :=
  let '(convolver, block_buffer, output) := st in
  block_buffer <- fill 0%R block_buffer ;;
  rest <- iarith int32 (iconv int32 (Z.of_nat (length output)) - Z.of_nat i) ;;
  let num_samples := Z.min rest (Z.of_nat block_size) in
  _ <- guard (0 <=? num_samples)%Z ;;
  let num_samples := Z.to_nat num_samples in
  input_block <- slice signal i (i + num_samples) ;;
  block_buffer <- copy_into input_block block_buffer 0 num_samples ;;
  '(convolver, block_buffer) <- upc_run convolver block_buffer ;;
  process_block <- slice block_buffer 0 num_samples ;;
  output <- copy_into process_block output i (i + num_samples) ;;
  _ <- iarith int32 (Z.of_nat i + Z.of_nat block_size) ;;   (* i += block_size *)
  Ok (convolver, block_buffer, output).

(** extra/cli/src/convolver.cpp:37-55 — one channel.  The filter's extents are those of the
    partitions of that channel. *)
Definition cli_channel (partitions : list (list (list C))) (signal : list (list R)) (block_size channel : nat)
    (st : list R * list (list R)) : outcome (list R * list (list R)) :=
  let '(block_buffer, output) := st in
  convolver <- make_upc ov fdl flt ;;
  part <- rd partitions channel ;;
  row <- rd part 0 ;;
  convolver <- upc_filter convolver (length part) (length row) part args ;;
  sig <- rd signal channel ;;
  out <- rd output channel ;;
  '(_, block_buffer, out) <- for_step 0 (length out) block_size (fun i st => cli_block sig block_size i st)
      (convolver, block_buffer, out) ;;
  output <- wr output channel out ;;
  Ok (block_buffer, output).

(** extra/cli/src/convolver.cpp:25-59 — convolve(signal, impulse, block_size); signal and impulse
    are matrices of [channels] x [frames] and [ichannels] x [iframes] samples. *)
Definition cli_convolve (channels frames : nat) (signal : list (list R)) (ichannels iframes : nat) (impulse : list (list R))
    (block_size : nat) : outcome (list (list R)) :=
  impulse_copy <- normalize_impulse (Mat ichannels iframes impulse) ;;
  impulse_copy <- match impulse_copy with Mat _ _ m => Ok m | Vec _ => UB end ;;
  partitions <- uniform_partition ichannels iframes impulse_copy block_size ;;
  let output := repeat (repeat 0%R frames) channels in
  let block_buffer := repeat 0%R block_size in
  '(_, output) <- for_int channels (fun channel st => cli_channel partitions signal block_size channel st) (block_buffer, output) ;;
  Ok output.
End Convolve.

(** extra/cli/src/convolver.cpp:88-115 — the two runs of main(): the output file is written by
    the first and overwritten by the second, after normalize_peak. *)
Definition cli_runs (lanes : option nat) (channels frames : nat) (signal : list (list R)) (iframes : nat) (filter : list (list R))
  : outcome (object R * object R) :=
  let block_size := 2 ^ 15 in   (* 8192 * 4 *)
  o1 <- cli_convolve ola dense_fdl dense_filter tt channels frames signal channels iframes filter block_size ;;
  o1 <- normalize_peak (Mat channels frames o1) ;;
  o2 <- cli_convolve ola dense_split_fdl (dense_split_filter lanes) tt channels frames signal channels iframes filter block_size ;;
  o2 <- normalize_peak (Mat channels frames o2) ;;
  Ok (o1, o2).

(** extra/cli/src/convolver.cpp:61-115 — main() after loading the files: [None] when it gives up
    (channel counts or sample rates differ), else the contents written by the two runs. *)
Definition cli_main (lanes : option nat) (channels frames : nat) (signal : list (list R)) (signal_sr : R)
    (ichannels iframes : nat) (filter : list (list R)) (filter_sr : R) : outcome (option (object R * object R)) :=
  if negb (channels =? ichannels) then Ok None else
  if negb (exact signal_sr filter_sr) then Ok None else
  r <- cli_runs lanes channels frames signal iframes filter ;;
  Ok (Some r).
