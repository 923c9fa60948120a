(** Unit conversions: src/neo/unit/{decibel,mel}.hpp, src/neo/fft/rfftfreq.hpp,
    src/neo/math/a_weighting.hpp.  Floats are exact reals. *)
From Coq Require Import Reals List Arith ZArith Bool.
From Verif Require Import Base.Outcome Model.Integers Model.Statistics.
Import ListNotations.
Local Open Scope R_scope.
Local Open Scope outcome_scope.

(** std::log10 of a positive number. *)
Definition log10 (x : R) : R := ln x / ln 10.

(** src/neo/unit/decibel.hpp:14-25 — precision::accurate. *)
Definition amplitude_to_db_floor (gain infinity : R) : R :=
  if Rle_dec gain 0 then infinity else Rmax infinity (20 * log10 gain).

(** src/neo/unit/decibel.hpp:27-31. *)
Definition amplitude_to_db (gain : R) : R := amplitude_to_db_floor gain (-144).

(** src/neo/unit/mel.hpp:13-17. *)
Definition hertz_to_mel (hertz : R) : R := 2595 * log10 (1 + hertz / 700).

(** src/neo/unit/mel.hpp:19-23. *)
Definition mel_to_hertz (mels : R) : R := 700 * (Rpower 10 (mels / 2595) - 1).

(** src/neo/unit/mel.hpp:25-45; the counter is an int. *)
Definition mel_frequencies (out : list R) (fmin fmax : R) : outcome (list R) :=
  let n_mels := length out in
  if (n_mels =? 0)%nat then Ok out else
  if (n_mels =? 1)%nat then wr out 0 fmin else
  let min_mel := hertz_to_mel fmin in
  let max_mel := hertz_to_mel fmax in
  let step := (max_mel - min_mel) / INR (n_mels - 1) in
  for_int n_mels (fun i out => wr out i (mel_to_hertz (min_mel + step * INR i))) out.

(** src/neo/fft/rfftfreq.hpp:12-18. *)
Definition rfftfreq (size index : Z) (inv_sample_rate : R) : R :=
  let fs := 1 / inv_sample_rate in
  let inv_size := 1 / IZR size in
  IZR index * fs * inv_size.

(** src/neo/fft/rfftfreq.hpp:21-30; the extent is narrowed to int. *)
Definition rfftfreq_vec (vec : list R) (inv_sample_rate : R) : outcome (list R) :=
  let size := iconv int32 (Z.of_nat (length vec)) in
  for_range 0 (Z.to_nat size) (fun i vec => wr vec i (rfftfreq size (Z.of_nat i) inv_sample_rate)) vec.

(** src/neo/math/a_weighting.hpp:13-33. *)
Definition aw_constants : list R := map (fun v => v * v) [12194.217; 20.598997; 107.65265; 737.86223].
Definition a_weighting (frequency : R) : R :=
  let c i := nth i aw_constants 0 in
  let f_sq := frequency * frequency in
  2 + 20 * (log10 (c 0%nat) + 2 * log10 f_sq - log10 (f_sq + c 0%nat) - log10 (f_sq + c 1%nat)
            - 0.5 * log10 (f_sq + c 2%nat) - 0.5 * log10 (f_sq + c 3%nat)).
