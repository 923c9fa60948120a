(** The radix-2 transform in rounded arithmetic: src/neo/fft/reference/kernel/c2c_dit2.hpp,
    src/neo/fft/twiddle.hpp, src/neo/fft/reference/c2c_dit2_plan.hpp.

    [rnd] rounds the exact result of every floating point operation, in the order of the source.
    Compilers may not contract a product and a sum into one rounding (-ffp-contract=off).  A
    result that overflows is whatever [rnd] makes of it. *)
From Coq Require Import Reals List Arith ZArith.
From Verif Require Import Base.Outcome Base.Cplx Spec.Dft Spec.Rounding Model.Fft2.
Import ListNotations.
Local Open Scope outcome_scope.
Local Open Scope nat_scope.

Section Rounded.
Variable rnd : R -> R.

(** src/neo/complex/scalar_complex.hpp:35-41; std::complex computes the same. *)
Definition radd (x y : C) : C := (rnd (fst x + fst y), rnd (snd x + snd y))%R.

(** src/neo/complex/scalar_complex.hpp:43-49 *)
Definition rsub (x y : C) : C := (rnd (fst x - fst y), rnd (snd x - snd y))%R.

(** src/neo/complex/scalar_complex.hpp:51-57; std::complex computes the same unless both parts
    are NaN. *)
Definition rmul (x y : C) : C :=
  (rnd (rnd (fst x * fst y) - rnd (snd x * snd y)), rnd (rnd (fst x * snd y) + rnd (snd x * fst y)))%R.

(** src/neo/fft/reference/kernel/c2c_dit2.hpp:28-41 (same text at 79-92, 133-146, 182-195) *)
Definition rdit2_stage0 (x : list C) : outcome (list C) :=
  for_step 0 (length x) 2 (fun k x =>
    let i1 := k in
    let i2 := k + 1 in
    a <- rd x i1 ;; b <- rd x i2 ;;
    let temp := radd a b in
    a' <- rd x i1 ;; b' <- rd x i2 ;;
    x <- wr x i2 (rsub a' b') ;;
    wr x i1 temp) x.

(** src/neo/fft/reference/kernel/c2c_dit2.hpp:156-163 (same text at 51-58, 205-212, 222-229) *)
Definition rdit2_butterfly (tw : C) (i1 i2 : nat) (x : list C) : outcome (list C) :=
  a <- rd x i1 ;; b <- rd x i2 ;;
  let temp := radd a (rmul tw b) in
  a' <- rd x i1 ;; b' <- rd x i2 ;;
  x <- wr x i2 (rsub a' (rmul tw b')) ;;
  wr x i1 temp.

(** src/neo/fft/reference/kernel/c2c_dit2.hpp:154-165 (same loops at 49-60, 203-214) *)
Definition rdit2_stage (twiddles : list C) (stage_length stride tw_stride : nat) (x : list C) : outcome (list C) :=
  for_step 0 (length x) stride (fun k x =>
    for_range 0 stage_length (fun pair x =>
      tw <- rd twiddles (pair * tw_stride) ;;
      rdit2_butterfly tw (k + pair) (k + pair + stage_length) x) x) x.

(** src/neo/fft/reference/kernel/c2c_dit2.hpp:17-66 — kernel c2c_dit2_v1 *)
Definition rdit2_v1 (x twiddles : list C) : outcome (list C) :=
  order <- bit_log2 (length x) ;;
  x <- rdit2_stage0 x ;;
  '(_, _, x) <- for_range 1 order (fun stage s =>
      let '(stage_length, stride, x) := s in
      let tw_stride := 2 ^ (order - stage - 1) in
      x <- rdit2_stage twiddles stage_length stride tw_stride x ;;
      Ok (stage_length * 2, stride * 2, x))
    (2, 4, x) ;;
  Ok x.

(** src/neo/fft/reference/kernel/c2c_dit2.hpp:99-114 — one stage of v2 *)
Definition rdit2_v2_stage (twiddles : list C) (stage_size : nat) (x : list C) : outcome (list C) :=
  let size := length x in
  let half_stage := stage_size / 2 in
  let k_step := size / stage_size in
  for_step 0 size stage_size (fun i x =>
    for_range i (i + half_stage) (fun k x =>
      let index := k - i in
      tw <- rd twiddles (index * k_step) ;;
      let idx1 := k in
      let idx2 := k + half_stage in
      even <- rd x idx1 ;;
      odd <- rd x idx2 ;;
      let tmp := rmul odd tw in
      x <- wr x idx1 (radd even tmp) ;;
      wr x idx2 (rsub even tmp)) x) x.

(** src/neo/fft/reference/kernel/c2c_dit2.hpp:69-119 — kernel c2c_dit2_v2 *)
Definition rdit2_v2 (x twiddles : list C) : outcome (list C) :=
  x <- rdit2_stage0 x ;;
  '(_, x) <- while_fuel (length x)
      (fun s : nat * list C => fst s <=? length (snd s))
      (fun s =>
         x <- rdit2_v2_stage twiddles (fst s) (snd s) ;;
         Ok (fst s * 2, x))
      (4, x) ;;
  Ok x.

(** src/neo/fft/reference/kernel/c2c_dit2.hpp:122-168 — kernel c2c_dit2_v3 (default) *)
Definition rdit2_v3 (x twiddles : list C) : outcome (list C) :=
  order <- bit_log2 (length x) ;;
  x <- rdit2_stage0 x ;;
  for_range 1 order (fun stage x =>
    let stage_length := 2 ^ stage in
    let stride := 2 ^ (stage + 1) in
    let tw_stride := 2 ^ (order - stage - 1) in
    rdit2_stage twiddles stage_length stride tw_stride x) x.

(** src/neo/fft/reference/kernel/c2c_dit2.hpp:171-233 — kernel c2c_dit2_v4; for order 0 see
    Model/Fft2.v *)
Definition rdit2_v4 (x twiddles : list C) : outcome (list C) :=
  order <- bit_log2 (length x) ;;
  x <- rdit2_stage0 x ;;
  if order =? 0 then UB else
  x <- for_range 1 (order - 1) (fun stage x =>
    let stage_length := 2 ^ stage in
    let stride := 2 ^ (stage + 1) in
    let tw_stride := 2 ^ (order - stage - 1) in
    rdit2_stage twiddles stage_length stride tw_stride x) x ;;
  let stage_length := length x / 2 in
  for_range 0 stage_length (fun pair x =>
    tw <- rd twiddles pair ;;
    rdit2_butterfly tw pair (pair + stage_length) x) x.

(** The library's cosine and sine on floats (std::polar(1, angle) multiplies both by one). *)
Variables fcos fsin : R -> R.

(** src/neo/fft/twiddle.hpp:24 — std::numbers::pi * 2.0 in double, converted to Float *)
Definition rtwo_pi : R := rnd (nearest 53 (-1074) (nearest 53 (-1074) PI * 2)).

(** src/neo/fft/twiddle.hpp:17-29 — twiddle(size, index, dir); [two_pi] is the constant of line
    24. *)
Definition rtwiddle (two_pi : R) (size index : nat) (dir : direction) : C :=
  let sign := match dir with Forward => (-1)%R | Backward => 1%R end in
  let angle := rnd (rnd (rnd (sign * two_pi) * rnd (INR index)) / rnd (INR size))%R in
  (rnd (1 * fcos angle), rnd (1 * fsin angle))%R.

(** src/neo/fft/twiddle.hpp:31-52 — make_twiddle_lut_radix2(size, dir) *)
Definition rmake_twiddle_lut (two_pi : R) (size : nat) (dir : direction) : outcome (list C) :=
  let lut_size := size / 2 in
  let size' := lut_size * 2 in
  for_range 0 lut_size (fun i lut => wr lut i (rtwiddle two_pi size' i dir)) (repeat C0 lut_size).

(** src/neo/fft/fft.hpp:33-52, src/neo/fft/reference/c2c_dit2_plan.hpp:42-55, 81-95 — build a plan
    of the order and run it; [kernel] is the plan's template parameter. *)
Definition rfft_plan_run (kernel : list C -> list C -> outcome (list C)) (two_pi : R) (order : nat) (x : list C) (dir : direction) : outcome (list C) :=
  order <- check_order order ;;
  let size := 2 ^ order in
  reorder <- bitrevorder_plan order ;;
  w <- rmake_twiddle_lut two_pi size dir ;;
  x <- bitrev_apply reorder x ;;
  kernel x w.

End Rounded.
