(** Experimental packed real FFT on interleaved floats.  Floats are exact reals; int and
    unsigned indices are nat (they do not overflow below order 30). *)
From Coq Require Import List Arith Bool Reals.
From Verif Require Import Base.Outcome Base.Cplx Spec.Dft Model.Fft2.
Import ListNotations.
Open Scope outcome_scope.

(** src/neo/fft/experimental/rfft.hpp:32-57 — stage 0 of c2c_kernel. *)
Definition exp_stage_0 (size : nat) (x : list R) : outcome (list R) :=
  for_step 0 size 2 (fun k x =>
    let i1 := k in
    let i2 := k + 1 in
    let i1re := i1 * 2 in
    let i1im := i1re + 1 in
    let i2re := i2 * 2 in
    let i2im := i2re + 1 in
    x1re <- rd x i1re ;; x1im <- rd x i1im ;; x2re <- rd x i2re ;; x2im <- rd x i2im ;;
    x <- wr x i1re (x1re + x2re)%R ;;
    x <- wr x i1im (x1im + x2im)%R ;;
    x <- wr x i2re (x1re - x2re)%R ;;
    wr x i2im (x1im - x2im)%R) x.

(** src/neo/fft/experimental/rfft.hpp:26-92 — c2c_kernel::operator(); the loop state holds
    stage_length and stride, which double every stage. *)
Definition exp_kernel (x : list R) (twiddles : list C) : outcome (list R) :=
  let size := length x / 2 in
  order <- bit_log2 size ;;
  x <- exp_stage_0 size x ;;
  '(x, _, _) <- for_range 1 order (fun stage s =>
    let '(x, stage_length, stride) := s in
    let tw_stride := 2 ^ (order - stage - 1) in
    x <- for_step 0 size stride (fun k x =>
      for_range 0 stage_length (fun pair x =>
        tw <- rd twiddles (pair * tw_stride) ;;
        let i1 := k + pair in
        let i1re := i1 * 2 in
        let i1im := i1re + 1 in
        let i2 := i1 + stage_length in
        let i2re := i2 * 2 in
        let i2im := i2re + 1 in
        x1re <- rd x i1re ;; x1im <- rd x i1im ;;
        x2re <- rd x i2re ;; x2im <- rd x i2im ;;
        let x1 := (x1re, x1im) : C in
        let x2 := (x2re, x2im) : C in
        let xn1 := (x1 + tw * x2)%C in
        let xn2 := (x1 - tw * x2)%C in
        x <- wr x i1re (fst xn1) ;;
        x <- wr x i1im (snd xn1) ;;
        x <- wr x i2re (fst xn2) ;;
        wr x i2im (snd xn2)) x) x ;;
    Ok (x, stage_length * 2, stride * 2)) (x, 2, 4) ;;
  Ok x.

(** src/neo/fft/experimental/rfft.hpp:130-134 — members of c2c_dit2_plan. *)
Record exp_c2c := ExpC2c { ec_table : list nat; ec_wf : list C; ec_wb : list C }.

(** src/neo/fft/experimental/rfft.hpp:103-107 and 130-134 — constructor. *)
Definition make_exp_c2c (order : nat) : outcome exp_c2c :=
  table <- bitrevorder_plan order ;;
  wf <- make_twiddle_lut_radix2 (2 ^ order) Forward ;;
  wb <- make_twiddle_lut_radix2 (2 ^ order) Backward ;;
  Ok (ExpC2c table wf wb).

(** src/neo/fft/experimental/rfft.hpp:113-127 — c2c_dit2_plan::operator(). *)
Definition exp_c2c_run (p : exp_c2c) (x : list R) (dir : direction) : outcome (list R) :=
  x <- bitrev_apply_interleaved (ec_table p) x ;;
  match dir with
  | Forward => exp_kernel x (ec_wf p)
  | Backward => exp_kernel x (ec_wb p)
  end.

(** src/neo/fft/experimental/rfft.hpp:143 and 204-206 — rfft_plan constructor; the inner
    plan has order _order - 1U, which wraps for order 0: modelled as UB (oversized shift). *)
Definition make_exp_rfft (order : nat) : outcome exp_c2c :=
  _ <- guard (1 <=? order) ;;
  make_exp_c2c (order - 1).

(** src/neo/fft/experimental/rfft.hpp:149-202 — rfft_plan::operator(). *)
Definition exp_rfft_run (p : exp_c2c) (x : list R) (dir : direction) : outcome (list R) :=
  let n := length x in
  let c1 := (1 / 2)%R in
  let c2 := match dir with Forward => (- (1 / 2))%R | Backward => (1 / 2)%R end in
  let t := (PI / INR (n / 2))%R in
  let theta := match dir with Forward => t | Backward => (- t)%R end in
  x <- match dir with Forward => exp_c2c_run p x Forward | Backward => Ok x end ;;
  let wtemp := sin (1 / 2 * theta) in
  let wpr := (-2 * wtemp * wtemp)%R in
  let wpi := sin theta in
  '(x, _, _) <- for_range 1 (n / 4) (fun i s =>
    let '(x, wr_, wi_) := s in
    let i1 := i + i in
    let i2 := i1 + 1 in
    let i3 := n - i1 in
    let i4 := i3 + 1 in
    xi1 <- rd x i1 ;; xi2 <- rd x i2 ;; xi3 <- rd x i3 ;; xi4 <- rd x i4 ;;
    let h1r := (c1 * (xi1 + xi3))%R in
    let h1i := (c1 * (xi2 - xi4))%R in
    let h2r := (- c2 * (xi2 + xi4))%R in
    let h2i := (c2 * (xi1 - xi3))%R in
    x <- wr x i1 (h1r + wr_ * h2r - wi_ * h2i)%R ;;
    x <- wr x i2 (h1i + wr_ * h2i + wi_ * h2r)%R ;;
    x <- wr x i3 (h1r - wr_ * h2r + wi_ * h2i)%R ;;
    x <- wr x i4 (- h1i + wr_ * h2i + wi_ * h2r)%R ;;
    Ok (x, (wr_ * wpr - wi_ * wpi + wr_)%R, (wi_ * wpr + wr_ * wpi + wi_)%R)) (x, (1 + wpr)%R, wpi) ;;
  h1r <- rd x 0 ;;
  x1 <- rd x 1 ;;
  match dir with
  | Forward =>
    x <- wr x 0 (h1r + x1)%R ;;
    wr x 1 (h1r - x1)%R
  | Backward =>
    x <- wr x 0 (c1 * (h1r + x1))%R ;;
    x <- wr x 1 (c1 * (h1r - x1))%R ;;
    exp_c2c_run p x Backward
  end.
