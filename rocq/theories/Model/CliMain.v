(** The command line convolver as a whole: extra/cli/src/convolver.cpp: main and
    extra/cli/src/wav.hpp.  Samples are exact reals.  dr_wav, which the repository does not
    contain, is taken at its documented word: opening succeeds iff the path holds a WAV file,
    reading returns the frames that are there, writing creates the file.  Printing is left out
    except for the conversions of its arguments; the third run, compiled only for targets with
    _Float16, is left out. *)
From Coq Require Import String Reals List Arith Bool ZArith.
From Verif Require Import Base.Outcome Base.Cplx Model.Integers Model.Statistics Model.Stft Model.Convolution Model.Cli.
Import ListNotations.
Local Open Scope nat_scope.
Open Scope outcome_scope.

(** A WAV file: the header's numbers of channels, sample rate and frames, and the samples present
    (decoded to float), frame by frame. *)
Record wav_file := WavFile { wf_channels : nat; wf_rate : Z; wf_frames : nat; wf_data : list R }.

(** The file system: the WAV files that can be opened, and the paths that can be written. *)
Record files := Files { f_content : string -> option wav_file; f_writable : string -> bool }.

(** extra/cli/src/wav.hpp:47 — audio_buffer: a matrix of channels x frames in layout_left, entry
    (ch, n) being at data[ch + n * channels]. *)
Record audio_buffer := AudioBuffer { ab_channels : nat; ab_frames : nat; ab_data : list R }.

(** The rows of a layout_left matrix and the data of a matrix of rows. *)
Definition buffer_rows (b : audio_buffer) : list (list R) :=
  tab (ab_channels b) (fun ch => tab (ab_frames b) (fun n => nth (ch + n * ab_channels b) (ab_data b) 0%R)).
Definition rows_buffer (channels frames : nat) (rows : list (list R)) : audio_buffer :=
  AudioBuffer channels frames
    (tab (channels * frames) (fun i => nth (i / channels) (nth (i mod channels) rows []) 0%R)).

(** extra/cli/src/wav.hpp:56, 64 — [return {}]. *)
Definition no_audio : audio_buffer * Z := (AudioBuffer 0 0 [], 0%Z).

(** extra/cli/src/wav.hpp:49-72 — load_wav_file<float>(path). *)
Definition load_wav_file (fs : files) (path : string) : audio_buffer * Z :=
  match f_content fs path with
  | None => no_audio
  | Some f =>
      let read := Nat.min (wf_frames f) (length (wf_data f) / wf_channels f) in
      if read =? wf_frames f
      then (AudioBuffer (wf_channels f) (wf_frames f) (firstn (wf_channels f * wf_frames f) (wf_data f)), wf_rate f)
      else no_audio
  end.

(** extra/cli/src/wav.hpp:88-104 — write_wav_file(buffer, sampleRate, path); the number of channels
    is a 16 bit number in the file, the sample rate (an integer here, see [load_wav_file]) must fit
    32 bits.  The result of drwav_init_file_write is not looked at: when the file cannot be
    created, frames are written through a handle that is not open (without frames the call
    returns at once). *)
Definition write_wav_file (fs : files) (b : audio_buffer) (rate : Z) (path : string)
  : outcome (list (string * wav_file)) :=
  _ <- guard ((0 <=? rate) && (rate <? 2 ^ 32))%Z ;;
  if f_writable fs path
  then Ok [(path, WavFile (Z.to_nat (Z.of_nat (ab_channels b) mod 2 ^ 16)) rate (ab_frames b) (ab_data b))]
  else _ <- guard (ab_frames b =? 0) ;; Ok [].

(** [int(rate)], conversion of a double: undefined outside the range of int. *)
Definition rate_to_int (rate : Z) : outcome unit := guard ((- 2 ^ 31 <=? rate) && (rate <? 2 ^ 31))%Z.

Inductive exit_code := ExitSuccess | ExitFailure.

(** extra/cli/src/convolver.cpp:99-107, 114-122 — one run: convolve (into an object), normalize
    and write. *)
Definition cli_one_run (fs : files) (convolved : outcome (list (list R))) (channels frames : nat) (rate : Z) (path : string)
  : outcome (list (string * wav_file)) :=
  output <- convolved ;;
  output <- normalize_peak (Mat channels frames output) ;;
  rows <- match output with Mat _ _ m => Ok m | Vec _ => UB end ;;
  write_wav_file fs (rows_buffer channels frames rows) rate path.

(** extra/cli/src/convolver.cpp:60-148 — main(argc, argv): the exit code and the files written, in
    order.  The rates are doubles holding the integers of the headers; float_equality::exact
    compares these integers. *)
Definition cli_program (lanes : option nat) (fs : files) (args : list string)
  : outcome (exit_code * list (string * wav_file)) :=
  match args with
  | [_; signal_path; filter_path; output_path] =>
      let '(signal, signal_sr) := load_wav_file fs signal_path in
      let '(filter, filter_sr) := load_wav_file fs filter_path in
      let channels := ab_channels signal in
      let frames := ab_frames signal in
      let block_size := 2 ^ 15 in   (* 8192 * 4 *)
      if negb (channels =? ab_channels filter) then Ok (ExitFailure, []) else
      _ <- rate_to_int signal_sr ;;
      _ <- rate_to_int filter_sr ;;
      if negb (signal_sr =? filter_sr)%Z then Ok (ExitFailure, []) else
      w1 <- cli_one_run fs
        (cli_convolve ola dense_fdl dense_filter tt channels frames (buffer_rows signal)
           (ab_channels filter) (ab_frames filter) (buffer_rows filter) block_size) channels frames signal_sr output_path ;;
      w2 <- cli_one_run fs
        (cli_convolve ola dense_split_fdl (dense_split_filter lanes) tt channels frames (buffer_rows signal)
           (ab_channels filter) (ab_frames filter) (buffer_rows filter) block_size) channels frames signal_sr output_path ;;
      Ok (ExitSuccess, w1 ++ w2)
  | _ => Ok (ExitFailure, [])
  end.
