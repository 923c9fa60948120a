(** Real transforms and convolvers in rounded arithmetic.  The definitions repeat those of
    Model/FftApps.v, Model/Convolution.v and Model/Stft.v with a rounding after every floating
    point operation, in the order of the source; see Model/RoundedFft.v for [rnd], [fcos] and
    [fsin].  The plan records are shared: only the numbers in them differ. *)
From Coq Require Import Reals List Arith Bool ZArith.
From Verif Require Import Base.Outcome Base.Alias Base.Cplx Spec.Dft Model.Fft2 Model.Integers Model.Algorithm
  Model.FftApps Model.Convolution Model.Stft Model.RoundedFft.
Import ListNotations.
Local Open Scope outcome_scope.
Local Open Scope nat_scope.

Section Rounded.
Variables rnd fcos fsin : R -> R.

(** src/neo/fft/reference/c2c_dit2_plan.hpp:42-55 — constructor *)
Definition rmake_dit2_plan (order : nat) : outcome dit2_plan :=
  order <- check_order order ;;
  let size := 2 ^ order in
  reorder <- bitrevorder_plan order ;;
  wf <- rmake_twiddle_lut rnd fcos fsin (rtwo_pi rnd) size Forward ;;
  wb <- rmake_twiddle_lut rnd fcos fsin (rtwo_pi rnd) size Backward ;;
  Ok {| p_order := order; p_size := size; p_reorder := reorder; p_wf := wf; p_wb := wb |}.

(** src/neo/fft/fallback/fallback_rfft_plan.hpp:21 and 56-60 *)
Definition rmake_rfft_plan (order : nat) : outcome rfft_plan :=
  f <- rmake_dit2_plan order ;;
  Ok (RfftPlan order f (repeat C0 (2 ^ order))).

(** src/neo/fft/fallback/fallback_rfft_plan.hpp:27-36 — real to complex *)
Definition rrfft_forward (p : rfft_plan) (inp : list R) (out : list C) : outcome (rfft_plan * list C) :=
  let coeffs := 2 ^ rf_order p / 2 + 1 in
  buf <- copy RtoC inp (rf_buf p) ;;
  buf <- run_dit2_plan (rdit2_v3 rnd) (rf_fft p) buf Forward ;;
  bins <- slice buf 0 coeffs ;;
  out <- copy (fun v => v) bins out ;;
  Ok (RfftPlan (rf_order p) (rf_fft p) buf, out).

(** src/neo/fft/fallback/fallback_rfft_plan.hpp:38-54 — complex to real *)
Definition rrfft_backward (p : rfft_plan) (inp : list C) (out : list R) : outcome (rfft_plan * list R) :=
  let size := 2 ^ rf_order p in
  let coeffs := size / 2 + 1 in
  buf <- copy (fun v => v) inp (rf_buf p) ;;
  buf <- for_range coeffs size (fun i buf => v <- rd buf (size - i) ;; wr buf i (Cconj v)) buf ;;
  buf <- run_dit2_plan (rdit2_v3 rnd) (rf_fft p) buf Backward ;;
  out <- for_range 0 size (fun i out => v <- rd buf i ;; wr out i (fst v)) out ;;
  Ok (RfftPlan (rf_order p) (rf_fft p) buf, out).

(** src/neo/algorithm/scale.hpp:14-28, multiply.hpp:15-20, multiply_add.hpp:279-301 *)
Definition rscale_r (alpha : R) (obj : list R) : outcome (list R) := linalg_unary_op (fun v => rnd (v * alpha)) obj.
Definition rmultiply_r := @linalg_binary_op R (fun a b => rnd (a * b)).
Definition rmultiply_c := @linalg_binary_op C (rmul rnd).
Definition rmultiply_add_c (x y z : operand C) (out : list C) : outcome (list C) :=
  for_range 0 (length (contents x out)) (fun i out =>
    a <- rd (contents x out) i ;; b <- rd (contents y out) i ;; c <- rd (contents z out) i ;;
    wr out i (radd rnd (rmul rnd a b) c)) out.

(** src/neo/convolution/fft_convolver.hpp:66, src/neo/convolution/overlap_save.hpp:108 —
    1.0F / static_cast<real_type>(size) *)
Definition rinv_size (size : nat) : R := rnd (1 / rnd (INR size)).

(** src/neo/convolution/fft_convolver.hpp:22-26 and 70-76 — constructor *)
Definition rmake_fft_convolver (s p : nat) : outcome fft_convolver :=
  _ <- guard (0 <? s + p) ;;
  order <- next_order (s + p - 1) ;;
  plan <- rmake_rfft_plan order ;;
  let K := 2 ^ order in
  Ok (FftConvolver s p plan (repeat 0%R K) (repeat C0 (K / 2 + 1)) (repeat C0 (K / 2 + 1))).

(** src/neo/convolution/fft_convolver.hpp:54-60 — zero_pad_and_transform_forward *)
Definition rfc_forward (plan : rfft_plan) (tmp : list R) (inp : list R) (out : list C)
  : outcome (rfft_plan * list R * list C) :=
  tmp <- copy_into inp tmp 0 (length inp) ;;
  tmp <- fill_into 0%R tmp (length inp) (length tmp) ;;
  '(plan, out) <- rrfft_forward plan tmp out ;;
  Ok (plan, tmp, out).

(** src/neo/convolution/fft_convolver.hpp:37-51 and 62-68 — operator() *)
Definition rfft_convolver_run (c : fft_convolver) (signal patch out : list R) : outcome (fft_convolver * list R) :=
  '(plan, tmp, ss) <- rfc_forward (fc_plan c) (fc_tmp c) signal (fc_sspec c) ;;
  '(plan, tmp, ps) <- rfc_forward plan tmp patch (fc_pspec c) ;;
  ss <- rmultiply_c Self (Other ps) ss ;;
  '(plan, tmp) <- rrfft_backward plan ss tmp ;;
  tmp <- rscale_r (rinv_size (2 ^ rf_order plan)) tmp ;;
  res <- slice tmp 0 (fc_signal c + fc_patch c - 1) ;;
  out <- copy (fun v => v) res out ;;
  Ok (FftConvolver (fc_signal c) (fc_patch c) plan tmp ss ps, out).

(** src/neo/convolution/fft_convolver.hpp:79-93 — fft_convolve *)
Definition rfft_convolve (signal patch : list R) : outcome (list R) :=
  if (length signal =? 0) || (length patch =? 0) then Ok [] else
  c <- rmake_fft_convolver (length signal) (length patch) ;;
  '(_, out) <- rfft_convolver_run c signal patch (repeat 0%R (length signal + length patch - 1)) ;;
  Ok out.

(** src/neo/convolution/overlap_save.hpp:51-64 — constructor *)
Definition rmake_overlap_save (B F : nat) : outcome overlap_save :=
  _ <- guard (0 <? B + F) ;;
  order <- next_order (B + F - 1) ;;
  plan <- rmake_rfft_plan order ;;
  let K := 2 ^ order in
  Ok (OverlapSave B F plan (repeat 0%R K) (repeat 0%R K) (repeat C0 K)).

(** src/neo/convolution/overlap_save.hpp:84-112 — operator() *)
Definition roverlap_save_run {St} (o : overlap_save) (block : list R)
    (callback : list C -> St -> outcome (list C * St)) (st : St) : outcome (overlap_save * list R * St) :=
  let K := 2 ^ rf_order (os_plan o) in
  let B := os_block o in
  _ <- guard (B <=? K) ;;
  window <- slide_window_left B (os_window o) ;;
  window <- copy_into block window (K - B) K ;;
  '(plan, cbuf) <- rrfft_forward (os_plan o) window (os_cplx o) ;;
  coeffs <- slice cbuf 0 (K / 2 + 1) ;;
  '(coeffs, st) <- callback coeffs st ;;
  cbuf <- splice cbuf 0 coeffs ;;
  '(plan, rbuf) <- rrfft_backward plan cbuf (os_real o) ;;
  rbuf <- rscale_r (rinv_size K) rbuf ;;
  keep <- slice rbuf (K - B) K ;;
  block <- copy (fun v => v) keep block ;;
  Ok (OverlapSave B (os_filter o) plan window rbuf cbuf, block, st).
Definition rols : overlap_type := OverlapType overlap_save rmake_overlap_save (@roverlap_save_run).

(** src/neo/convolution/overlap_add.hpp:40-57 — constructor *)
Definition rmake_overlap_add (B F : nat) : outcome overlap_add :=
  _ <- guard (0 <? B + F) ;;
  order <- next_order (B + F - 1) ;;
  plan <- rmake_rfft_plan order ;;
  let K := 2 ^ order in
  Ok (OverlapAdd B F plan (repeat 0%R K) (repeat C0 (K / 2 + 1)) (repeat 0%R B)).

(** src/neo/algorithm/add.hpp:15-22 *)
Definition radd_r := @linalg_binary_op R (fun a b => rnd (a + b)).

(** src/neo/convolution/overlap_add.hpp:77-107 — operator() *)
Definition roverlap_add_run {St} (o : overlap_add) (block : list R)
    (callback : list C -> St -> outcome (list C * St)) (st : St) : outcome (overlap_add * list R * St) :=
  let K := 2 ^ rf_order (oa_plan o) in
  let B := oa_block o in
  window <- copy_into block (oa_window o) 0 B ;;
  window <- fill_into 0%R window B (B * 2) ;;
  '(plan, spectrum) <- rrfft_forward (oa_plan o) window (oa_spectrum o) ;;
  '(spectrum, st) <- callback spectrum st ;;
  '(plan, window) <- rrfft_backward plan spectrum window ;;
  window <- rscale_r (rinv_size K) window ;;
  signal <- slice window 0 B ;;
  block <- radd_r (Other signal) (Other (oa_overlap o)) block ;;
  padding <- slice window B (B * 2) ;;
  overlap <- copy (fun v => v) padding (oa_overlap o) ;;
  Ok (OverlapAdd B (oa_filter o) plan window spectrum overlap, block, st).
Definition rola : overlap_type := OverlapType overlap_add rmake_overlap_add (@roverlap_add_run).

(** src/neo/convolution/dense_filter.hpp:16-39 — dense_filter *)
Definition rdense_filter_mac (f : list (list C)) (row : list C) (i : nat) (acc : list C) : outcome (list C) :=
  sub <- rd f i ;; rmultiply_add_c (Other row) (Other sub) Self acc.
Definition rdense_filter : filter_type (list C) :=
  FilterType (list C) (list (list C)) unit (list C) [] dense_filter_filter rdense_filter_mac
    [] (fun n => repeat C0 n) (fill C0) (fun acc out => copy (fun v => v) acc out).

(** src/neo/algorithm/multiply_add.hpp:60-68 = 359-367 — one scalar iteration on split operands. *)
Definition rsplit_fma_scalar (xre xim yre yim zre zim ore oim : nat) (i : nat) (mem : list R) : outcome (list R) :=
  a <- rd mem (xre + i) ;; b <- rd mem (xim + i) ;; c <- rd mem (yre + i) ;; d <- rd mem (yim + i) ;;
  e <- rd mem (zre + i) ;;
  mem <- wr mem (ore + i) (rnd (rnd (rnd (a * c) - rnd (b * d)) + e))%R ;;
  f <- rd mem (zim + i) ;;
  wr mem (oim + i) (rnd (rnd (rnd (a * d) + rnd (b * c)) + f))%R.

(** src/neo/algorithm/multiply_add.hpp:359-367 — scalar loop *)
Definition rsplit_multiply_add (xre xim yre yim zre zim ore oim size : nat) (mem : list R) : outcome (list R) :=
  for_range 0 size (rsplit_fma_scalar xre xim yre yim zre zim ore oim) mem.

(** Lane-wise register arithmetic: each lane rounds. *)
Definition rplus (a b : R) : R := rnd (a + b)%R.
Definition rminus (a b : R) : R := rnd (a - b)%R.
Definition rtimes (a b : R) : R := rnd (a * b)%R.

(** src/neo/algorithm/multiply_add.hpp:27-69 — simd::detail::multiply_add<Batch> *)
Definition rsimd_multiply_add (inc : nat) (xre xim yre yim zre zim ore oim size : nat) (mem : list R)
  : outcome (list R) :=
  let vec_size := size - size mod inc in
  mem <- for_step 0 vec_size inc (fun i mem =>
    a <- slice mem (xre + i) (xre + i + inc) ;; b <- slice mem (xim + i) (xim + i + inc) ;;
    c <- slice mem (yre + i) (yre + i + inc) ;; d <- slice mem (yim + i) (yim + i + inc) ;;
    e <- slice mem (zre + i) (zre + i + inc) ;; f <- slice mem (zim + i) (zim + i + inc) ;;
    let out_re := reg_op rplus (reg_op rminus (reg_op rtimes a c) (reg_op rtimes b d)) e in
    let out_im := reg_op rplus (reg_op rplus (reg_op rtimes a d) (reg_op rtimes b c)) f in
    mem <- splice mem (ore + i) out_re ;;
    splice mem (oim + i) out_im) mem ;;
  for_range vec_size size (rsplit_fma_scalar xre xim yre yim zre zim ore oim) mem.

(** src/neo/algorithm/multiply_add.hpp:27-69 and 330-367 — multiply_add(x, y, z, z) on six separate
    rows; [lanes]: the SIMD loop with that many lanes, or the scalar loop. *)
Definition rsplit_mac_rows (lanes : option nat) (x y z : list R * list R) : outcome (list R * list R) :=
  let n := length (fst x) in
  _ <- guard ((length (snd x) =? n) && (length (fst y) =? n) && (length (snd y) =? n) &&
              (length (fst z) =? n) && (length (snd z) =? n)) ;;
  let mem := fst x ++ snd x ++ fst y ++ snd y ++ fst z ++ snd z in
  mem <- match lanes with
         | None => rsplit_multiply_add 0 n (2 * n) (3 * n) (4 * n) (5 * n) (4 * n) (5 * n) n mem
         | Some inc => rsimd_multiply_add inc 0 n (2 * n) (3 * n) (4 * n) (5 * n) (4 * n) (5 * n) n mem
         end ;;
  re <- slice mem (4 * n) (5 * n) ;; im <- slice mem (5 * n) (6 * n) ;;
  Ok (re, im).

(** src/neo/convolution/dense_filter.hpp:42-82 — dense_split_filter *)
Definition rsplit_filter_mac (lanes : option nat) (f : list (list R) * list (list R)) (row : list R * list R)
  (i : nat) (acc : list R * list R) : outcome (list R * list R) :=
  re <- rd (fst f) i ;; im <- rd (snd f) i ;;
  rsplit_mac_rows lanes row (re, im) acc.
Definition rdense_split_filter (lanes : option nat) : filter_type (list R * list R) :=
  FilterType (list R * list R) (list (list R) * list (list R)) unit (list R * list R) ([], [])
    split_filter_filter (rsplit_filter_mac lanes) ([], []) (fun n => (repeat 0%R n, repeat 0%R n))
    (fun acc => re <- fill 0%R (fst acc) ;; im <- fill 0%R (snd acc) ;; Ok (re, im)) split_acc_copy.

(** src/neo/convolution/dense_convolver.hpp — upols_convolver, upola_convolver, split_upols_convolver,
    split_upola_convolver *)
Definition rsplit_upols_convolver lanes := upc rols dense_split_fdl (rdense_split_filter lanes).
Definition rupols_convolver := upc rols dense_fdl rdense_filter.
Definition rsplit_upola_convolver lanes := upc rola dense_split_fdl (rdense_split_filter lanes).
Definition rupola_convolver := upc rola dense_fdl rdense_filter.

(** src/neo/fft/stft.hpp:51-54 and 99-106 — constructor from options; the values of the window are
    given (rounded already). *)
Definition rmake_stft_plan (o : stft_options) : outcome stft_plan :=
  order <- next_order (so_transform o) ;;
  rfft <- rmake_rfft_plan order ;;
  let size := 2 ^ order in
  window <- fill_window (repeat 0%R size) (so_window o) ;;
  Ok (StftPlan o rfft (repeat 0%R size) (repeat C0 size) window).

(** src/neo/fft/stft.hpp:80-96 — one frame of one channel *)
Definition rstft_frame (p : stft_plan) (x : list (list R)) (signal_len num_bins ch_idx frame_idx : nat)
    (st : rfft_plan * list R * list C * list (list (list C)))
  : outcome (rfft_plan * list R * list C * list (list (list C))) :=
  let '(rfft, inp, out, result) := st in
  let frame_len := Z.of_nat (so_frame (st_options p)) in
  let overlap := Z.of_nat (so_overlap (st_options p)) in
  a <- iarith usize (Z.of_nat frame_idx * frame_len) ;;
  b <- iarith usize (Z.of_nat frame_idx * overlap) ;;
  sample_idx <- iarith usize (a - b) ;;
  rest <- iarith usize (Z.of_nat signal_len - sample_idx) ;;
  let num_samples := Z.min rest frame_len in
  let first := Z.to_nat sample_idx in
  let num := Z.to_nat num_samples in
  channel <- rd x ch_idx ;;
  in_block <- slice channel first (first + num) ;;
  inp <- fill 0%R inp ;;
  out <- fill C0 out ;;
  inp <- copy_into in_block inp 0 num ;;
  inp <- rmultiply_r Self (Other (st_window p)) inp ;;
  '(rfft, out) <- rrfft_forward rfft inp out ;;
  coeffs <- slice out 0 num_bins ;;
  rows <- rd result ch_idx ;;
  row <- rd rows frame_idx ;;
  row <- copy (fun v => v) coeffs row ;;
  rows <- wr rows frame_idx row ;;
  result <- wr result ch_idx rows ;;
  Ok (rfft, inp, out, result).

(** src/neo/fft/stft.hpp:56-99 — operator() *)
Definition rstft_run (p : stft_plan) (channels signal_len : nat) (x : list (list R))
  : outcome (stft_plan * list (list (list C))) :=
  let num_bins := 2 ^ rf_order (st_rfft p) / 2 + 1 in
  nf <- num_sftf_frames (Z.of_nat signal_len) (Z.of_nat (so_frame (st_options p))) (Z.of_nat (so_overlap (st_options p))) ;;
  if (max_elements <=? Z.of_nat channels * nf * Z.of_nat num_bins)%Z then Throw else
  let num_frames := Z.to_nat nf in
  let result := repeat (repeat (repeat C0 num_bins) num_frames) channels in
  '(rfft, inp, out, result) <-
    for_range 0 channels (fun ch_idx st =>
      for_range 0 num_frames (fun frame_idx st =>
        rstft_frame p x signal_len num_bins ch_idx frame_idx st) st)
      (st_rfft p, st_input p, st_output p, result) ;;
  Ok (StftPlan (st_options p) rfft inp out (st_window p), result).

(** src/neo/fft/stft.hpp:109-115 — stft(x, options) *)
Definition rstft (channels signal_len : nat) (x : list (list R)) (o : stft_options) : outcome (list (list (list C))) :=
  p <- rmake_stft_plan o ;; '(_, r) <- rstft_run p channels signal_len x ;; Ok r.

(** src/neo/convolution/uniform_partition.hpp:13-28 — uniform_partition *)
Definition runiform_partition (channels len : nat) (impulse_response : list (list R)) (block_size : nat)
  : outcome (list (list (list C))) :=
  t <- iarith usize (Z.of_nat block_size * 2) ;;
  rstft channels len impulse_response (StftOptions block_size (Z.to_nat t) 0 rectangular_window).

End Rounded.
