(** Windows, short-time Fourier transform and uniform partitioning:
    src/neo/math/windowing.hpp, src/neo/fft/stft.hpp, src/neo/convolution/uniform_partition.hpp. *)
From Coq Require Import Reals List Arith Bool ZArith.
From Verif Require Import Base.Outcome Base.Cplx Base.Alias Model.Fft2 Model.Integers Model.Algorithm
  Model.FftApps Model.Convolution.
Import ListNotations.

(** ** Windows.  A window is a function of index and size. *)

(** src/neo/math/windowing.hpp:15-25 — rectangular_window. *)
Definition rectangular_window (_ _ : nat) : R := 1%R.

(** src/neo/math/windowing.hpp:29-42 — hann_window.  Simplification: for size 1 the code
    divides 0 by 0 (NaN); here the quotient is Coq's 0 / 0.  See [window_finite]. *)
Definition hann_window (index size : nat) : R :=
  (1 / 2 * (1 - cos (2 * PI * INR index / INR (size - 1))))%R.

(** src/neo/math/windowing.hpp:46-59 — hamming_window (the same remark). *)
Definition hamming_window (index size : nat) : R :=
  (54 / 100 - 46 / 100 * cos (2 * PI * INR index / INR (size - 1)))%R.

(** src/neo/math/windowing.hpp:37, 39, 54, 56 — the divisor size - 1 is not zero. *)
Definition window_finite (size : nat) : bool := negb (size =? 1).

(** src/neo/math/windowing.hpp:62-68 — fill_window. *)
Definition fill_window (vec : list R) (window : nat -> nat -> R) : outcome (list R) :=
  let size := length vec in
  for_range 0 size (fun i vec => wr vec i (window i size)) vec.

(** src/neo/math/windowing.hpp:71-77 — generate_window. *)
Definition generate_window (window : nat -> nat -> R) (length : nat) : outcome (list R) :=
  fill_window (repeat 0%R length) window.

(** ** STFT *)

(** std::size_t. *)
Definition usize : ity := Ity 64 false.

(** src/neo/fft/stft.hpp:21-25 — num_sftf_frames. *)
Definition num_sftf_frames (signal_size frame_size overlap_size : Z) : outcome Z :=
  a <- iarith usize (signal_size - frame_size) ;;
  a <- iarith usize (a + overlap_size) ;;
  h <- iarith usize (frame_size - overlap_size) ;;
  q <- idiv usize a h ;;
  iarith usize (q + 1).

(** src/neo/fft/stft.hpp:31-37 — stft_options. *)
Record stft_options := StftOptions { so_frame : nat; so_transform : nat; so_overlap : nat; so_window : nat -> nat -> R }.

(** src/neo/fft/stft.hpp:99-106 — members of stft_plan. *)
Record stft_plan := StftPlan { st_options : stft_options; st_rfft : rfft_plan;
  st_input : list R; st_output : list C; st_window : list R }.

(** src/neo/fft/stft.hpp:51-54 and 99-106 — constructor from options. *)
Definition make_stft_plan (o : stft_options) : outcome stft_plan :=
  order <- next_order (so_transform o) ;;
  rfft <- make_rfft_plan order ;;
  let size := 2 ^ order in
  window <- fill_window (repeat 0%R size) (so_window o) ;;
  Ok (StftPlan o rfft (repeat 0%R size) (repeat C0 size) window).

(** src/neo/fft/stft.hpp:31-37 and 43-49 — constructor from the transform size: half
    overlap and the default Hann window. *)
Definition make_stft_plan_size (transform_size : nat) : outcome stft_plan :=
  make_stft_plan (StftOptions transform_size transform_size (transform_size / 2) hann_window).

(** Elements a std::vector can hold, std::complex<float> (8 bytes). *)
Definition max_elements : Z := (2 ^ 60)%Z.

(** src/neo/fft/stft.hpp:80-96 — one frame of one channel: [st] is the transform, the two
    buffers and the result indexed by channel, frame and bin. *)
Definition stft_frame (p : stft_plan) (x : list (list R)) (signal_len num_bins ch_idx frame_idx : nat)
    (st : rfft_plan * list R * list C * list (list (list C)))
  : outcome (rfft_plan * list R * list C * list (list (list C))) :=
  let '(rfft, inp, out, result) := st in
  let frame_len := Z.of_nat (so_frame (st_options p)) in
  let overlap := Z.of_nat (so_overlap (st_options p)) in
  a <- iarith usize (Z.of_nat frame_idx * frame_len) ;;
  b <- iarith usize (Z.of_nat frame_idx * overlap) ;;
  sample_idx <- iarith usize (a - b) ;;
  rest <- iarith usize (Z.of_nat signal_len - sample_idx) ;;
  let num_samples := Z.min rest frame_len in
  let first := Z.to_nat sample_idx in
  let num := Z.to_nat num_samples in
  channel <- rd x ch_idx ;;
  in_block <- slice channel first (first + num) ;;
  inp <- fill 0%R inp ;;
  out <- fill C0 out ;;
  inp <- copy_into in_block inp 0 num ;;
  inp <- multiply_r Self (Other (st_window p)) inp ;;
  '(rfft, out) <- rfft_forward rfft inp out ;;
  coeffs <- slice out 0 num_bins ;;
  rows <- rd result ch_idx ;;
  row <- rd rows frame_idx ;;
  row <- copy (fun v => v) coeffs row ;;
  rows <- wr rows frame_idx row ;;
  result <- wr result ch_idx rows ;;
  Ok (rfft, inp, out, result).

(** src/neo/fft/stft.hpp:56-99 — operator() on a matrix of [channels] rows of [signal_len]
    samples.  Simplification: a result of too many elements throws (std::length_error or
    std::bad_alloc) without the product of the extents wrapping. *)
Definition stft_run (p : stft_plan) (channels signal_len : nat) (x : list (list R))
  : outcome (stft_plan * list (list (list C))) :=
  let num_bins := 2 ^ rf_order (st_rfft p) / 2 + 1 in
  nf <- num_sftf_frames (Z.of_nat signal_len) (Z.of_nat (so_frame (st_options p))) (Z.of_nat (so_overlap (st_options p))) ;;
  if (max_elements <=? Z.of_nat channels * nf * Z.of_nat num_bins)%Z then Throw else
  let num_frames := Z.to_nat nf in
  let result := repeat (repeat (repeat C0 num_bins) num_frames) channels in
  '(rfft, inp, out, result) <-
    for_range 0 channels (fun ch_idx st =>
      for_range 0 num_frames (fun frame_idx st =>
        stft_frame p x signal_len num_bins ch_idx frame_idx st) st)
      (st_rfft p, st_input p, st_output p, result) ;;
  Ok (StftPlan (st_options p) rfft inp out (st_window p), result).

(** src/neo/fft/stft.hpp:109-115 — stft(x, options). *)
Definition stft (channels signal_len : nat) (x : list (list R)) (o : stft_options) : outcome (list (list (list C))) :=
  p <- make_stft_plan o ;; '(_, r) <- stft_run p channels signal_len x ;; Ok r.

(** src/neo/fft/stft.hpp:118-124 — stft(x, window_size). *)
Definition stft_size (channels signal_len : nat) (x : list (list R)) (window_size : nat) : outcome (list (list (list C))) :=
  p <- make_stft_plan_size window_size ;; '(_, r) <- stft_run p channels signal_len x ;; Ok r.

(** src/neo/convolution/uniform_partition.hpp:13-28 — uniform_partition; block_size * 2
    wraps at 2^64. *)
Definition uniform_partition (channels len : nat) (impulse_response : list (list R)) (block_size : nat)
  : outcome (list (list (list C))) :=
  t <- iarith usize (Z.of_nat block_size * 2) ;;
  stft channels len impulse_response (StftOptions block_size (Z.to_nat t) 0 rectangular_window).
