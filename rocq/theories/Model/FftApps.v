(** Transforms built on the complex FFT plan: split-complex FFT, real FFT, Bluestein DFT,
    direct DFT, DCT-II.  Floats are exact reals. *)
From Coq Require Import List Arith Bool Reals.
From Verif Require Import Base.Outcome Base.Alias Base.Cplx Spec.Dft Model.Fft2 Model.Integers Model.Algorithm.
Import ListNotations.
Open Scope outcome_scope.

(** ** Split-complex FFT *)

(** src/neo/fft/fallback/fallback_split_fft_plan.hpp:134-136 — members: order, bit reversal
    table and the two twiddle rows (make_twiddles: forward table copied to split form). *)
Record split_plan := SplitPlan { sp_order : nat; sp_table : list nat; sp_re : list R; sp_im : list R }.

(** src/neo/fft/fallback/fallback_split_fft_plan.hpp:21 and 122-137 — constructor.
    Simplification: orders above 30 overflow the int arithmetic of stage_n and are UB here. *)
Definition make_split_plan (order : nat) : outcome split_plan :=
  _ <- guard (order <=? 30) ;;
  table <- bitrevorder_plan order ;;
  tw <- make_twiddle_lut_radix2 (2 ^ order) Forward ;;
  '(re, im) <- copy_to_split tw (repeat 0%R (length tw), repeat 0%R (length tw)) ;;
  Ok (SplitPlan order table re im).

(** src/neo/fft/fallback/fallback_split_fft_plan.hpp:54-73 — the stage-0 loop. *)
Definition split_stage_0 (size : nat) (x : list R * list R) : outcome (list R * list R) :=
  for_step 0 size 2 (fun k x =>
    let '(xre, xim) := x in
    let i1 := k in
    let i2 := k + 1 in
    x1re <- rd xre i1 ;; x1im <- rd xim i1 ;; x2re <- rd xre i2 ;; x2im <- rd xim i2 ;;
    xre <- wr xre i1 (x1re + x2re)%R ;;
    xim <- wr xim i1 (x1im + x2im)%R ;;
    xre <- wr xre i2 (x1re - x2re)%R ;;
    xim <- wr xim i2 (x1im - x2im)%R ;;
    Ok (xre, xim)) x.

(** src/neo/fft/fallback/fallback_split_fft_plan.hpp:80-120 — stage_n. *)
Definition split_stage_n (order : nat) (tw_re tw_im : list R) (x : list R * list R) : outcome (list R * list R) :=
  let size := 2 ^ order in
  for_range 1 order (fun stage x =>
    let stage_length := 2 ^ stage in
    let stride := 2 ^ (stage + 1) in
    let tw_stride := 2 ^ (order - stage - 1) in
    for_step 0 size stride (fun k x =>
      for_range 0 stage_length (fun pair x =>
        let '(xre, xim) := x in
        let i1 := k + pair in
        let i2 := k + pair + stage_length in
        let w_index := pair * tw_stride in
        wre <- rd tw_re w_index ;; wim <- rd tw_im w_index ;;
        x1re <- rd xre i1 ;; x1im <- rd xim i1 ;; x2re <- rd xre i2 ;; x2im <- rd xim i2 ;;
        let xwre := (wre * x2re - wim * x2im)%R in
        let xwim := (wre * x2im + wim * x2re)%R in
        xre <- wr xre i1 (x1re + xwre)%R ;;
        xim <- wr xim i1 (x1im + xwim)%R ;;
        xre <- wr xre i2 (x1re - xwre)%R ;;
        xim <- wr xim i2 (x1im - xwim)%R ;;
        Ok (xre, xim)) x) x) x.

(** src/neo/fft/fallback/fallback_split_fft_plan.hpp:27-41 — in place; the backward
    direction passes the imaginary part as real part and vice versa. *)
Definition split_run (p : split_plan) (x : list R * list R) (dir : direction) : outcome (list R * list R) :=
  x <- bitrev_apply_split (sp_table p) x ;;
  match dir with
  | Forward =>
    x <- split_stage_0 (2 ^ sp_order p) x ;;
    split_stage_n (sp_order p) (sp_re p) (sp_im p) x
  | Backward =>
    y <- split_stage_0 (2 ^ sp_order p) (snd x, fst x) ;;
    y <- split_stage_n (sp_order p) (sp_re p) (sp_im p) y ;;
    Ok (snd y, fst y)
  end.

(** src/neo/fft/fallback/fallback_split_fft_plan.hpp:43-52 — out of place. *)
Definition split_run_out (p : split_plan) (inp out : list R * list R) (dir : direction) : outcome (list R * list R) :=
  re <- copy (fun v => v) (fst inp) (fst out) ;;
  im <- copy (fun v => v) (snd inp) (snd out) ;;
  split_run p (re, im) dir.

(** ** Real FFT *)

(** src/neo/fft/fallback/fallback_rfft_plan.hpp:56-60 — members; the buffer keeps its
    contents between calls. *)
Record rfft_plan := RfftPlan { rf_order : nat; rf_fft : dit2_plan; rf_buf : list C }.

(** src/neo/fft/fallback/fallback_rfft_plan.hpp:21 and 56-60. *)
Definition make_rfft_plan (order : nat) : outcome rfft_plan :=
  f <- make_dit2_plan order ;;
  Ok (RfftPlan order f (repeat C0 (2 ^ order))).

(** src/neo/fft/fallback/fallback_rfft_plan.hpp:27-36 — real to complex. *)
Definition rfft_forward (p : rfft_plan) (inp : list R) (out : list C) : outcome (rfft_plan * list C) :=
  let coeffs := 2 ^ rf_order p / 2 + 1 in
  buf <- copy RtoC inp (rf_buf p) ;;
  buf <- run_dit2_plan c2c_dit2_v3 (rf_fft p) buf Forward ;;
  bins <- slice buf 0 coeffs ;;
  out <- copy (fun v => v) bins out ;;
  Ok (RfftPlan (rf_order p) (rf_fft p) buf, out).

(** src/neo/fft/fallback/fallback_rfft_plan.hpp:38-54 — complex to real. *)
Definition rfft_backward (p : rfft_plan) (inp : list C) (out : list R) : outcome (rfft_plan * list R) :=
  let size := 2 ^ rf_order p in
  let coeffs := size / 2 + 1 in
  buf <- copy (fun v => v) inp (rf_buf p) ;;
  buf <- for_range coeffs size (fun i buf => v <- rd buf (size - i) ;; wr buf i (Cconj v)) buf ;;
  buf <- run_dit2_plan c2c_dit2_v3 (rf_fft p) buf Backward ;;
  out <- for_range 0 size (fun i out => v <- rd buf i ;; wr out i (fst v)) out ;;
  Ok (RfftPlan (rf_order p) (rf_fft p) buf, out).

(** src/neo/fft/rfft.hpp:44-62 — rfft_deinterleave. *)
Definition rfft_deinterleave (dft x y : list C) : outcome (list C * list C) :=
  let n := length dft in
  let i : C := (0, -1)%R in
  d0 <- rd dft 0 ;;
  x <- wr x 0 (RtoC (fst d0)) ;;
  y <- wr y 0 (RtoC (snd d0)) ;;
  for_range 1 (n / 2 + 1) (fun k s =>
    let '(x, y) := s in
    zk <- rd dft k ;;
    v <- rd dft (n - k) ;;
    let znk := Cconj v in
    x <- wr x k ((zk + znk) * RtoC (1 / 2))%C ;;
    y <- wr y k (((zk - znk) * i) * RtoC (1 / 2))%C ;;
    Ok (x, y)) (x, y).

(** ** Direct DFT *)

(** src/neo/fft/dft.hpp:33-57; the input may be the output. *)
Definition dft (inp : operand C) (out : list C) (dir : direction) : outcome (list C) :=
  let sign := match dir with Forward => (-1)%R | Backward => 1%R end in
  let size := length (contents inp out) in
  for_range 0 size (fun k out =>
    tmp <- for_range 0 size (fun n tmp =>
      input <- rd (contents inp out) n ;;
      let w := Cexp (sign * (PI * 2) * INR n * INR k / INR size)%R in
      Ok (tmp + input * w)%C) C0 ;;
    wr out k tmp) out.

(** ** Bluestein *)

(** src/neo/fft/fallback/fallback_dft_plan.hpp:84-97 — members. *)
Record dft_plan := DftPlan { d_size : nat; d_order : nat; d_plan : dit2_plan;
  d_wf : list C; d_wb : list C; d_a : list C; d_b : list C }.

(** src/neo/fft/fallback/fallback_dft_plan.hpp:29-46 and 84-97 — constructor. *)
Definition make_dft_plan (size : nat) : outcome dft_plan :=
  order <- next_order (size * 2 + 1) ;;
  plan <- make_dit2_plan order ;;
  let n := INR size in
  let coef_forward := (PI / n * -1)%R in
  let coef_backward := (PI / n * 1)%R in
  '(wf, wb) <- for_range 0 size (fun i s =>
    let '(wf, wb) := s in
    let j := INR ((i * i) mod (size * 2)) in
    wf <- wr wf i (Cexp (j * coef_forward)) ;;
    wb <- wr wb i (Cexp (j * coef_backward)) ;;
    Ok (wf, wb)) (repeat C0 size, repeat C0 size) ;;
  Ok (DftPlan size order plan wf wb (repeat C0 (2 ^ order)) (repeat C0 (2 ^ order))).

(** src/neo/fft/fallback/fallback_dft_plan.hpp:50-82 — operator()(x, dir). *)
Definition dft_plan_run (p : dft_plan) (x : list C) (dir : direction) : outcome (dft_plan * list C) :=
  let w := match dir with Forward => d_wf p | Backward => d_wb p end in
  a <- fill C0 (d_a p) ;;
  b <- fill C0 (d_b p) ;;
  a <- multiply_c (Other x) (Other w) a ;;
  w0 <- rd w 0 ;;
  b <- wr b 0 w0 ;;
  b <- for_range 1 (d_size p) (fun i b =>
    let m := length b in
    v <- rd w i ;;
    let c := Cconj v in
    b <- wr b i c ;;
    wr b (m - i) c) b ;;
  a <- run_dit2_plan c2c_dit2_v3 (d_plan p) a Forward ;;
  b <- run_dit2_plan c2c_dit2_v3 (d_plan p) b Forward ;;
  a <- multiply_c Self (Other b) a ;;
  a <- run_dit2_plan c2c_dit2_v3 (d_plan p) a Backward ;;
  a <- scale_c (1 / INR (2 ^ d_order p)) a ;;
  sub <- slice a 0 (d_size p) ;;
  x <- multiply_c (Other sub) (Other w) x ;;
  Ok (DftPlan (d_size p) (d_order p) (d_plan p) (d_wf p) (d_wb p) a b, x).

(** ** DCT-II *)

(** src/neo/fft/dct.hpp:67-70 — members. *)
Record dct_plan := DctPlan { dc_order : nat; dc_fft : dit2_plan; dc_buf : list C }.

(** src/neo/fft/dct.hpp:29 and 67-70. *)
Definition make_dct_plan (order : nat) : outcome dct_plan :=
  f <- make_dit2_plan order ;;
  Ok (DctPlan order f (repeat C0 (2 ^ order))).

(** src/neo/fft/dct.hpp:35-64 — operator()(x). *)
Definition dct_run (p : dct_plan) (x : list R) : outcome (dct_plan * list R) :=
  let len := length x in
  buf <- for_range 0 (len / 2) (fun i buf =>
    let src := i * 2 in
    let top := len - i - 1 in
    v <- rd x src ;;
    buf <- wr buf i (RtoC v) ;;
    v <- rd x (src + 1) ;;
    wr buf top (RtoC v)) (dc_buf p) ;;
  buf <- run_dit2_plan c2c_dit2_v3 (dc_fft p) buf Forward ;;
  x <- for_range 0 len (fun i x =>
    let scale := (RtoC 2 * Cexp (-1 * PI * INR i / (2 * INR len)))%C in
    b <- rd buf i ;;
    wr x i (fst (b * scale)%C)) x ;;
  Ok (DctPlan (dc_order p) (dc_fft p) buf, x).
