(** What a WAV file holds. *)
From Coq Require Import Reals List ZArith.
From Verif Require Import Base.Outcome Model.CliMain.
Import ListNotations.

(** Sample [n] of channel [ch]: frames follow one another, each with one sample per channel. *)
Definition wav_sample (f : wav_file) (ch n : nat) : R := nth (n * wf_channels f + ch) (wf_data f) 0%R.
Definition wav_channel (f : wav_file) (ch : nat) : list R := tab (wf_frames f) (wav_sample f ch).

(** A file with all the frames its header announces. *)
Definition complete_wav (f : wav_file) : Prop :=
  (0 < wf_channels f)%nat /\ (Z.of_nat (wf_channels f) < 2 ^ 16)%Z /\ (0 <= wf_rate f < 2 ^ 32)%Z /\
  length (wf_data f) = (wf_channels f * wf_frames f)%nat.

(** No file, or one that ends early. *)
Definition unreadable (fs : files) (path : String.string) : Prop :=
  f_content fs path = None \/
  exists f, f_content fs path = Some f /\ (0 < wf_channels f)%nat /\ (length (wf_data f) < wf_channels f * wf_frames f)%nat.
