(** Vocabulary for C59: which bins of the partition spectra the plugin's sparse_convolve() keeps. *)
From Coq Require Import Reals List Arith.
From Verif Require Import Base.Outcome Base.Cplx Spec.Dft Spec.Convolution Model.Units.

Import ListNotations.
Open Scope R_scope.

(** The blocks of a stream, the last one padded with zeros. *)
Definition padded_blocks (B : nat) (x : list R) : list (list R) :=
  tab ((length x + B - 1) / B) (fun t => tab B (fun i => nth (t * B + i) x 0)).

(** The spectra of the zero-padded partitions of a response, one row each. *)
Definition block_spectra (B : nat) (h : list R) : list (list C) :=
  tab (ceil_div (length h) B) (fun p => RDFT_list Forward (pad (2 * B) (part B h p))).

(** The power of a bin. *)
Definition bin_power (v : C) : R := fst v * fst v + snd v * snd v.

(** [m] is the power of the loudest bin of a matrix that has bins. *)
Definition loudest (mat : list (list C)) (m : R) : Prop :=
  (forall row v, In row mat -> In v row -> bin_power v <= m) /\ exists row v, In row mat /\ In v row /\ bin_power v = m.

(** Level of a bin relative to the loudest one in dB, not below -72 dB. *)
Definition level (m : R) (v : C) (dB : R) : Prop :=
  (bin_power v = 0 /\ dB = -72) \/ (0 < bin_power v /\ dB = Rmax (-72) (10 * (ln (bin_power v / m) / ln 10))).

(** Whether sparse_convolve() for a block size and a sample rate keeps bin [j] with the value [v]:
    the first [low] bins get 100 dB extra, bin 0 is lost when [low] is 0, every other bin is
    weighted for its frequency j * rate / (2 * B). *)
Definition keeps (B : nat) (rate threshold : R) (low : nat) (m : R) (j : nat) (v : C) : Prop :=
  exists dB, level m v dB /\
    ((j < low)%nat /\ threshold < dB + 100 \/
     ((low <= j)%nat /\ (0 < j)%nat) /\ threshold < dB + a_weighting (INR j * rate / INR (2 * B))).
