(** Vocabulary for C77: the percentage of bins the benchmark tab shows. *)
From Coq Require Import Reals List Arith ZArith.
From Verif Require Import Base.Outcome Base.Cplx Spec.Convolution Spec.Stft Spec.Offline Model.Units.
Import ListNotations.
Open Scope R_scope.

(** The bins of a response from sample 512 on, cut into blocks of 512 samples, each with its number. *)
Definition late_bins (response : list (list R)) : list (nat * C) :=
  flat_map (fun h => flat_map (fun row => combine (seq 0 (length row)) row) (block_spectra (2 ^ 9) (skipn (2 ^ 9) h))) response.

(** The weight of a bin in dB: that of its frequency, none for bin 0 or without weighting. *)
Definition bin_weight (weighted : bool) (rate : R) (b : nat) : R :=
  if weighted then match b with O => 0 | _ => a_weighting (INR b * rate / 1024) end else 0.

(** [p] is the percentage of those bins whose weighted level, relative to the loudest of them, is
    above [- range] dB. *)
Definition is_share (response : list (list R)) (weighted : bool) (rate range p : R) : Prop :=
  exists m (above : nat * C -> bool),
    loudest [map snd (late_bins response)] m /\
    (forall b v, In (b, v) (late_bins response) -> exists dB, level m v dB /\ (above (b, v) = true <-> - range < dB + bin_weight weighted rate b)) /\
    p = INR (length (filter above (late_bins response))) / INR (length (late_bins response)) * 100.

(** A response the tab can show: longer than 512 samples, and few enough bins for the counters. *)
Definition showable (channels samples : nat) (response : list (list R)) : Prop :=
  (0 < channels)%nat /\ (2 ^ 9 < samples)%nat /\ matrix_of channels samples response /\ (Z.of_nat channels * Z.of_nat (ceil_div samples (2 ^ 9)) * 513 < 2 ^ 31)%Z.

