(** Vocabulary for the plugin's convolution classes. *)
From Coq Require Import Reals List Arith ZArith.
From Verif Require Import Base.Outcome Base.Cplx Spec.Stft Spec.Convolution Spec.Statistics Spec.Framer Model.Fft2 Model.Algorithm Model.Statistics Model.Stft Model.ConstantOverlapAdd Model.PluginConvolution.
Import ListNotations.
Local Open Scope nat_scope.
Local Open Scope outcome_scope.

(** A decoded impulse response that has samples and whose partitions of F samples can be allocated. *)
Definition response_fits (F : nat) (r : audio) : Prop :=
  matrix_of (a_channels r) (a_samples r) (a_data r) /\ 0 < a_channels r /\ 0 < a_samples r /\ (Z.of_nat (a_samples r) < 2 ^ 31)%Z /\
  (Z.of_nat (a_channels r) * Z.of_nat (ceil_div (a_samples r) F) * Z.of_nat (F + 1) < max_elements)%Z.

(** What a juce::AudioBuffer may contain after setSize() in prepare(): anything of that size. *)
Definition buffers_for (F channels N : nat) (frame unused output : list (list R)) : Prop :=
  matrix_of channels F frame /\ matrix_of channels (F - 1) unused /\ matrix_of channels (output_samples F F N) output.

(** A DenseConvolution made for block size B, after any calls that returned. *)
Inductive dense_reach (resampler : audio -> R -> audio) (B : nat) : cola dense -> Prop :=
| dr_made : forall c, dense_make B = Ok c -> dense_reach resampler B c
| dr_load : forall c a c', dense_reach resampler B c -> dense_load resampler a c = Ok c' -> dense_reach resampler B c'
| dr_prepare : forall c spec frame unused output c', dense_reach resampler B c -> dense_prepare resampler spec frame unused output c = Ok c' ->
    dense_reach resampler B c'
| dr_reset : forall c, dense_reach resampler B c -> dense_reach resampler B (dense_reset c)
| dr_process : forall c nch blocks c' outs, dense_reach resampler B c -> dense_process_all nch blocks c = Ok (c', outs) ->
    dense_reach resampler B c'.

(** Block sizes the constructor is used with: the frame size is the next power of two, F. *)
Definition block_size_ok (B : nat) : Prop := 2 <= B /\ B <= 2 ^ (max_order - 1).
Definition frame_size (B : nat) : nat := 2 ^ Nat.log2_up B.

(** The stream a session should give: silence for F - 1 samples, then the input convolved with
    the response, times [gain]; [before] is input that came earlier. *)
Definition convolved_stream (F : nat) (gain : R) (before stream h : list R) : list R :=
  tab (length stream) (fun t => if t <? F - 1 then 0%R else gain * lconv (before ++ stream) h (length before + (t - (F - 1))))%R.

(** The part of a stream that was cut into whole frames. *)
Definition whole_frames (F : nat) (stream : list R) : list R := firstn (length stream / F * F) stream.

(** What the host sees of the normalisation: one positive factor for all channels, which leaves no
    channel with energy above 1. *)
Definition normalised_by (a : R) (r : audio) : Prop :=
  (0 < a)%R /\ normalize_impulse (Mat (a_channels r) (a_samples r) (a_data r)) = Ok (Mat (a_channels r) (a_samples r) (map (map (fun v => v * a)%R) (a_data r))) /\
  forall ch, ch < a_channels r -> energy (nth ch (a_data r) []) <> 0%R -> (energy (map (fun v => v * a) (nth ch (a_data r) [])) <= 1)%R.

(** An object that was loaded with a response and prepared, in either order. *)
Definition ready_with (resampler : audio -> R -> audio) (B nch N : nat) (rate : R) (impulse : audio) (c : cola dense) : Prop :=
  exists c0 c1 frame unused output, dense_reach resampler B c0 /\ buffers_for (frame_size B) nch N frame unused output /\
    let spec := ProcessSpec rate N nch in
    (dense_load resampler impulse c0 = Ok c1 /\ dense_prepare resampler spec frame unused output c1 = Ok c \/
     dense_prepare resampler spec frame unused output c0 = Ok c1 /\ dense_load resampler impulse c1 = Ok c).

(** Sessions: each starts with reset(), then come the host's blocks. *)
Fixpoint run_sessions (nch : nat) (sessions : list (list (list (list R)))) (c : cola dense)
  : outcome (cola dense * list (list (list (list R)))) :=
  match sessions with
  | [] => Ok (c, [])
  | blocks :: rest =>
      '(c, outs) <- dense_process_all nch blocks (dense_reset c) ;;
      '(c, all) <- run_sessions nch rest c ;;
      Ok (c, outs :: all)
  end.
