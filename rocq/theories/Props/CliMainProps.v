(** Property theorems C79: the command line tool, from the files it is given to the file it writes.
    Specification: wav_sample, wav_channel, complete_wav, unreadable (Spec/Wav.v), lconv
    (Spec/Convolution.v). *)
From Coq Require Import String Reals List Arith ZArith Lia Lra Bool.
From Verif Require Import Base.Outcome Base.OutcomeFacts Base.Cplx Spec.Stft Spec.Convolution Spec.Statistics Spec.Wav.
From Verif Require Import Model.Fft2 Model.Integers Model.Statistics Model.Stft Model.Convolution Model.Cli Model.CliMain.
From Verif Require Import Proof.CliMainProof Props.CliProps.
Import ListNotations.
Local Arguments Nat.div : simpl never.
Local Arguments Nat.pow : simpl never.
Local Open Scope nat_scope.

(** C79.  Two readable files with the same channels and sample rate and an output that can be
    created: the tool succeeds and leaves a complete WAV file with the channels, the sample rate
    and the frames of the signal, channel ch holding the start of the convolution of channel ch of
    the two files, one positive gain for all; unless silent, the file's peak is exactly 1.  The
    file is written twice, with the same content both times. *)
Theorem C79_success : forall lanes fs prog sp fp op s f, (forall l, lanes = Some l -> 0 < l) ->
  f_content fs sp = Some s -> f_content fs fp = Some f -> complete_wav s -> complete_wav f ->
  wf_channels s = wf_channels f -> wf_rate s = wf_rate f -> (wf_rate s < 2 ^ 31)%Z ->
  sizes_fit 15 (wf_channels f) (wf_frames f) -> (Z.of_nat (wf_frames s) + 2 ^ 15 <= 2 ^ 31)%Z ->
  f_writable fs op = true ->
  exists a F, (0 < a)%R /\ cli_program lanes fs [prog; sp; fp; op] = Ok (ExitSuccess, [(op, F); (op, F)]) /\
    complete_wav F /\ wf_channels F = wf_channels s /\ wf_rate F = wf_rate s /\ wf_frames F = wf_frames s /\
    (forall ch n, ch < wf_channels s -> n < wf_frames s ->
       wav_sample F ch n = (lconv (wav_channel s ch) (wav_channel f ch) n * a)%R) /\
    ((exists ch n, ch < wf_channels s /\ n < wf_frames s /\ wav_sample F ch n <> 0%R) ->
     (forall ch n, ch < wf_channels s -> n < wf_frames s -> (Rabs (wav_sample F ch n) <= 1)%R) /\
     exists ch n, ch < wf_channels s /\ n < wf_frames s /\ Rabs (wav_sample F ch n) = 1%R).
Proof. exact program_success. Qed.

(** Every file system, every command line: a run that reports failure wrote nothing, and a run that
    reports success was given three paths, wrote at most twice and only to the third path. *)
Theorem C79_writes : forall lanes fs args c w, cli_program lanes fs args = Ok (c, w) ->
  (c = ExitFailure -> w = []) /\ (c = ExitSuccess -> length args = 4 /\ length w <= 2) /\
  forall p f, In (p, f) w -> p = nth 3 args EmptyString /\ f_writable fs p = true.
Proof. exact program_writes. Qed.

(** A wrong number of arguments is a failure. *)
Theorem C79_usage : forall lanes fs args, length args <> 4 -> cli_program lanes fs args = Ok (ExitFailure, []).
Proof. exact program_usage. Qed.

(** So are files that do not go together. *)
Theorem C79_mismatch : forall lanes fs prog sp fp op s f,
  f_content fs sp = Some s -> f_content fs fp = Some f -> complete_wav s -> complete_wav f ->
  (wf_rate s < 2 ^ 31)%Z -> (wf_rate f < 2 ^ 31)%Z -> wf_channels s <> wf_channels f \/ wf_rate s <> wf_rate f ->
  cli_program lanes fs [prog; sp; fp; op] = Ok (ExitFailure, []).
Proof. exact program_mismatch. Qed.

(** So is one file that does not exist or ends before its last frame, next to one that is fine. *)
Theorem C79_one_missing : forall lanes fs prog sp fp op g,
  (unreadable fs sp /\ f_content fs fp = Some g \/ unreadable fs fp /\ f_content fs sp = Some g) -> complete_wav g ->
  cli_program lanes fs [prog; sp; fp; op] = Ok (ExitFailure, []).
Proof. exact program_one_missing. Qed.

(** "A file that cannot be read is a failure" is false when neither can be read: the two empty
    buffers agree in channels and rate, the tool reports success and replaces the output file by
    one without channels, rate or frames. *)
Theorem C79_both_missing_refuted : forall lanes fs prog sp fp op, unreadable fs sp -> unreadable fs fp -> f_writable fs op = true ->
  cli_program lanes fs [prog; sp; fp; op] =
    Ok (ExitSuccess, [(op, WavFile 0 0%Z 0 []); (op, WavFile 0 0%Z 0 [])]).
Proof. exact program_both_missing. Qed.

(** "An output that cannot be created is a failure" is false: whether the file could be created is
    not looked at, and the frames are written through a handle that is not open. *)
Theorem C79_unwritable_refuted : forall lanes fs prog sp fp op s f, (forall l, lanes = Some l -> 0 < l) ->
  f_content fs sp = Some s -> f_content fs fp = Some f -> complete_wav s -> complete_wav f ->
  wf_channels s = wf_channels f -> wf_rate s = wf_rate f -> (wf_rate s < 2 ^ 31)%Z ->
  sizes_fit 15 (wf_channels f) (wf_frames f) -> (Z.of_nat (wf_frames s) + 2 ^ 15 <= 2 ^ 31)%Z ->
  f_writable fs op = false -> 0 < wf_frames s ->
  cli_program lanes fs [prog; sp; fp; op] = UB.
Proof. exact program_unwritable. Qed.

(** A header announcing a rate of 2^31 or more: the rate is printed as an int that cannot hold it. *)
Theorem C79_high_rate_refuted : forall lanes fs prog sp fp op s f,
  f_content fs sp = Some s -> f_content fs fp = Some f -> complete_wav s -> complete_wav f ->
  wf_channels s = wf_channels f -> (2 ^ 31 <= wf_rate s)%Z ->
  cli_program lanes fs [prog; sp; fp; op] = UB.
Proof. exact program_high_rate. Qed.

(** write_wav_file() then load_wav_file(): the same buffer and rate come back, for every buffer a
    WAV file can hold. *)
Theorem C79_wav_round_trip : forall fs b rate p, 0 < ab_channels b -> (Z.of_nat (ab_channels b) < 2 ^ 16)%Z -> (0 <= rate < 2 ^ 32)%Z ->
  length (ab_data b) = ab_channels b * ab_frames b -> f_writable fs p = true ->
  exists F, write_wav_file fs b rate p = Ok [(p, F)] /\ complete_wav F /\
    forall fs', f_content fs' p = Some F -> load_wav_file fs' p = (b, rate).
Proof. exact wav_round_trip. Qed.

(** Two stereo files at 48 kHz that meet the hypotheses of C79_success, the same with another
    rate, and a command line with paths that do not exist. *)
Definition ex_signal : wav_file := WavFile 2 48000 3 [1; 4; 2; 5; 3; 6]%R.
Definition ex_filter : wav_file := WavFile 2 48000 2 [1; 0; 0; 2]%R.
Definition ex_files : files :=
  Files (fun p => if String.eqb p "s" then Some ex_signal else if String.eqb p "f" then Some ex_filter
                  else if String.eqb p "r" then Some (WavFile 2 44100 2 [1; 0; 0; 2]%R) else None)
        (fun p => String.eqb p "o").
Example C79_example :
  (exists a F, (0 < a)%R /\
    cli_program (Some 4) ex_files ["convolver"; "s"; "f"; "o"]%string = Ok (ExitSuccess, [("o"%string, F); ("o"%string, F)]) /\
    wf_channels F = 2 /\ wf_rate F = 48000%Z /\ wf_frames F = 3 /\
    wav_sample F 0 2 = (3 * a)%R /\ wav_sample F 1 2 = (10 * a)%R) /\
  cli_program None ex_files ["convolver"; "s"; "r"; "o"]%string = Ok (ExitFailure, []) /\
  cli_program None ex_files ["convolver"; "s"; "nowhere"; "o"]%string = Ok (ExitFailure, []) /\
  cli_program None ex_files ["convolver"; "no"; "nowhere"; "o"]%string = Ok (ExitSuccess, [("o", WavFile 0 0 0 []); ("o", WavFile 0 0 0 [])])%string /\
  cli_program None ex_files ["convolver"; "s"; "f"; "p"]%string = UB.
Proof.
  assert (S15 : sizes_fit 15 (wf_channels ex_filter) (wf_frames ex_filter)).
  { unfold sizes_fit. cbn [wf_channels wf_frames ex_filter]. split; [unfold max_order; lia|]. split; [lia|]. split; [lia|].
    split; [reflexivity|]. assert (1 <= 2 ^ 15) by (apply Nat.neq_0_lt_0, Nat.pow_nonzero; lia).
    assert (ceil_div 2 (2 ^ 15) <= 2). { unfold ceil_div. apply Nat.div_le_upper_bound; nia. }
    assert (Z.of_nat (2 ^ 15) = 32768)%Z by (rewrite Nat2Z.inj_pow; reflexivity).
    assert (max_elements = 2 ^ 60 \/ 1000000 < max_elements)%Z by (right; reflexivity). nia. }
  assert (CS : complete_wav ex_signal) by (unfold complete_wav; simpl; lia).
  assert (CF : complete_wav ex_filter) by (unfold complete_wav; simpl; lia).
  split; [|split; [|split; [|split]]].
  - destruct (C79_success (Some 4) ex_files "convolver" "s" "f" "o" ex_signal ex_filter) as (a & F & Ha & E & _ & Ec & Er & Ef & Es & _); auto.
    { intros l H. inversion H. lia. } { reflexivity. } { vm_compute. discriminate. }
    exists a, F. split; auto. split; auto. split; [rewrite Ec; reflexivity|]. split; [rewrite Er; reflexivity|]. split; [rewrite Ef; reflexivity|].
    split; (rewrite Es by (cbn; lia)); f_equal; unfold lconv, wav_channel; simpl; unfold wav_sample; simpl; lra.
  - apply (C79_mismatch None ex_files "convolver" "s" "r" "o" ex_signal (WavFile 2 44100 2 [1; 0; 0; 2]%R));
      try reflexivity; auto. unfold complete_wav; simpl; lia.
  - apply (C79_one_missing None ex_files "convolver" "s" "nowhere" "o" ex_signal); auto. right. split; [left|]; reflexivity.
  - apply C79_both_missing_refuted; try (left; reflexivity). reflexivity.
  - apply (C79_unwritable_refuted None ex_files "convolver" "s" "f" "p" ex_signal ex_filter); auto; try reflexivity.
    { intros; discriminate. } { vm_compute. discriminate. } cbn. lia.
Qed.

Print Assumptions C79_success.
Print Assumptions C79_writes.
Print Assumptions C79_usage.
Print Assumptions C79_mismatch.
Print Assumptions C79_one_missing.
Print Assumptions C79_both_missing_refuted.
Print Assumptions C79_unwritable_refuted.
Print Assumptions C79_high_rate_refuted.
Print Assumptions C79_wav_round_trip.
