(** Transforms of any size in rounded arithmetic: src/neo/fft/fallback/fallback_dft_plan.hpp; see
    Model/RoundedFft.v for [rnd], [fcos] and [fsin].  The definitions repeat those of
    Model/FftApps.v with a rounding after every floating point operation, in the order of the
    source. *)
From Coq Require Import Reals List Arith ZArith.
From Verif Require Import Base.Outcome Base.Alias Base.Cplx Spec.Dft Spec.Rounding Model.Fft2 Model.Integers Model.Algorithm
  Model.FftApps Model.RoundedFft Model.RoundedConv Model.RoundedReal.
Import ListNotations.
Local Open Scope outcome_scope.
Local Open Scope nat_scope.

Section Rounded.
Variables rnd fcos fsin : R -> R.

(** src/neo/fft/fallback/fallback_dft_plan.hpp:34-36 — pi / n * Float(-1) and pi / n * Float(1). *)
Definition rchirp_coef (dir : direction) (size : nat) : R :=
  let sign := match dir with Forward => (-1)%R | Backward => 1%R end in
  rnd (rnd (rpi rnd / rnd (INR size)) * sign).

(** src/neo/fft/fallback/fallback_dft_plan.hpp:39-42 — polar(1, j * coef), j = (i * i) % (size * 2). *)
Definition rchirp (dir : direction) (size i : nat) : C :=
  let j := rnd (INR ((i * i) mod (size * 2))) in
  let angle := rnd (j * rchirp_coef dir size) in
  (rnd (1 * fcos angle), rnd (1 * fsin angle))%R.

(** src/neo/fft/fallback/fallback_dft_plan.hpp:29-44 and 87-97 — constructor. *)
Definition rmake_dft_plan (size : nat) : outcome dft_plan :=
  order <- next_order (size * 2 + 1) ;;
  plan <- rmake_dit2_plan rnd fcos fsin order ;;
  '(wf, wb) <- for_range 0 size (fun i s =>
    let '(wf, wb) := s in
    wf <- wr wf i (rchirp Forward size i) ;;
    wb <- wr wb i (rchirp Backward size i) ;;
    Ok (wf, wb)) (repeat C0 size, repeat C0 size) ;;
  Ok (DftPlan size order plan wf wb (repeat C0 (2 ^ order)) (repeat C0 (2 ^ order))).

(** src/neo/algorithm/scale.hpp:14-27 — a real factor times complex elements. *)
Definition rscale_c (alpha : R) (obj : list C) : outcome (list C) := linalg_unary_op (fun v => (rnd (fst v * alpha), rnd (snd v * alpha))%R) obj.

(** src/neo/fft/fallback/fallback_dft_plan.hpp:48-82 — operator()(x, dir). *)
Definition rdft_plan_run (p : dft_plan) (x : list C) (dir : direction) : outcome (dft_plan * list C) :=
  let w := match dir with Forward => d_wf p | Backward => d_wb p end in
  a <- fill C0 (d_a p) ;;
  b <- fill C0 (d_b p) ;;
  a <- rmultiply_c rnd (Other x) (Other w) a ;;
  w0 <- rd w 0 ;;
  b <- wr b 0 w0 ;;
  b <- for_range 1 (d_size p) (fun i b =>
    let m := length b in
    v <- rd w i ;;
    let c := Cconj v in
    b <- wr b i c ;;
    wr b (m - i) c) b ;;
  a <- run_dit2_plan (rdit2_v3 rnd) (d_plan p) a Forward ;;
  b <- run_dit2_plan (rdit2_v3 rnd) (d_plan p) b Forward ;;
  a <- rmultiply_c rnd Self (Other b) a ;;
  a <- run_dit2_plan (rdit2_v3 rnd) (d_plan p) a Backward ;;
  a <- rscale_c (rinv_size rnd (2 ^ d_order p)) a ;;
  sub <- slice a 0 (d_size p) ;;
  x <- rmultiply_c rnd (Other sub) (Other w) x ;;
  Ok (DftPlan (d_size p) (d_order p) (d_plan p) (d_wf p) (d_wb p) a b, x).

End Rounded.
