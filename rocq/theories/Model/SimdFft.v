(** Transforms of several signals at once: the kernels of the radix-2 FFT instantiated with a
    SIMD register as element type, and the two plans of extra/benchmark/src/simd_fft.cpp that do
    so; the free functions of src/neo/fft/split_fft.hpp.  Lane values are exact reals, a register
    is the list of its lanes, an xsimd operator acts on every lane; loop counters are ints in the
    code and unbounded here (the constructors have no order check: orders above 30, where the
    ints overflow, are UB here as in Model/FftApps.v). *)
From Coq Require Import List Arith Bool Reals.
From Verif Require Import Base.Outcome Base.Alias Base.Cplx Spec.Dft Model.Fft2 Model.Algorithm Model.FftApps.
Import ListNotations.
Open Scope outcome_scope.

(** The operators a kernel uses on its element type. *)
Record elem_ops (T : Type) := ElemOps { e_add : T -> T -> T; e_sub : T -> T -> T; e_mul : T -> T -> T }.
Arguments ElemOps {T}. Arguments e_add {T}. Arguments e_sub {T}. Arguments e_mul {T}.

(** xsimd::batch<std::complex<Float>> and xsimd::batch<Float>: operators +, -, * lane by lane. *)
Definition cbatch_ops : elem_ops (list C) := ElemOps (zip_with Cadd) (zip_with Csub) (zip_with Cmul).
Definition rbatch_ops : elem_ops (list R) := ElemOps (zip_with Rplus) (zip_with Rminus) (zip_with Rmult).

(** xsimd::fms(a, b, c) = a * b - c and xsimd::fma(a, b, c) = a * b + c, lane by lane. *)
Definition rbatch_fms (a b c : list R) : list R := zip_with Rminus (zip_with Rmult a b) c.
Definition rbatch_fma (a b c : list R) : list R := zip_with Rplus (zip_with Rmult a b) c.

(** xsimd::broadcast(v) for a register of [lanes] lanes. *)
Definition broadcast {T} (lanes : nat) (v : T) : list T := repeat v lanes.

Section Kernels.
Context {T : Type} (o : elem_ops T).

(** src/neo/fft/reference/kernel/c2c_dit2.hpp:28-41 — stage 0, see Model/Fft2.v. *)
Definition bdit2_stage0 (x : list T) : outcome (list T) :=
  for_step 0 (length x) 2 (fun k x =>
    let i1 := k in
    let i2 := k + 1 in
    a <- rd x i1 ;; b <- rd x i2 ;;
    let temp := e_add o a b in
    a' <- rd x i1 ;; b' <- rd x i2 ;;
    x <- wr x i2 (e_sub o a' b') ;;
    wr x i1 temp) x.

(** src/neo/fft/reference/kernel/c2c_dit2.hpp:156-163 — one twiddled butterfly. *)
Definition bdit2_butterfly (tw : T) (i1 i2 : nat) (x : list T) : outcome (list T) :=
  a <- rd x i1 ;; b <- rd x i2 ;;
  let temp := e_add o a (e_mul o tw b) in
  a' <- rd x i1 ;; b' <- rd x i2 ;;
  x <- wr x i2 (e_sub o a' (e_mul o tw b')) ;;
  wr x i1 temp.

(** src/neo/fft/reference/kernel/c2c_dit2.hpp:154-165 — one stage. *)
Definition bdit2_stage (twiddles : list T) (stage_length stride tw_stride : nat) (x : list T)
  : outcome (list T) :=
  for_step 0 (length x) stride (fun k x =>
    for_range 0 stage_length (fun pair x =>
      tw <- rd twiddles (pair * tw_stride) ;;
      bdit2_butterfly tw (k + pair) (k + pair + stage_length) x) x) x.

(** src/neo/fft/reference/kernel/c2c_dit2.hpp:17-66 — c2c_dit2_v1. *)
Definition bdit2_v1 (x twiddles : list T) : outcome (list T) :=
  order <- bit_log2 (length x) ;;
  x <- bdit2_stage0 x ;;
  '(_, _, x) <- for_range 1 order (fun stage s =>
      let '(stage_length, stride, x) := s in
      let tw_stride := 2 ^ (order - stage - 1) in
      x <- bdit2_stage twiddles stage_length stride tw_stride x ;;
      Ok (stage_length * 2, stride * 2, x))
    (2, 4, x) ;;
  Ok x.

(** src/neo/fft/reference/kernel/c2c_dit2.hpp:99-114 — one stage of v2. *)
Definition bdit2_v2_stage (twiddles : list T) (stage_size : nat) (x : list T) : outcome (list T) :=
  let size := length x in
  let half_stage := stage_size / 2 in
  let k_step := size / stage_size in
  for_step 0 size stage_size (fun i x =>
    for_range i (i + half_stage) (fun k x =>
      let index := k - i in
      tw <- rd twiddles (index * k_step) ;;
      let idx1 := k in
      let idx2 := k + half_stage in
      even <- rd x idx1 ;;
      odd <- rd x idx2 ;;
      let tmp := e_mul o odd tw in
      x <- wr x idx1 (e_add o even tmp) ;;
      wr x idx2 (e_sub o even tmp)) x) x.

(** src/neo/fft/reference/kernel/c2c_dit2.hpp:69-119 — c2c_dit2_v2. *)
Definition bdit2_v2 (x twiddles : list T) : outcome (list T) :=
  x <- bdit2_stage0 x ;;
  '(_, x) <- while_fuel (length x)
      (fun s : nat * list T => fst s <=? length (snd s))
      (fun s =>
         x <- bdit2_v2_stage twiddles (fst s) (snd s) ;;
         Ok (fst s * 2, x))
      (4, x) ;;
  Ok x.

(** src/neo/fft/reference/kernel/c2c_dit2.hpp:122-168 — c2c_dit2_v3. *)
Definition bdit2_v3 (x twiddles : list T) : outcome (list T) :=
  order <- bit_log2 (length x) ;;
  x <- bdit2_stage0 x ;;
  for_range 1 order (fun stage x =>
    let stage_length := 2 ^ stage in
    let stride := 2 ^ (stage + 1) in
    let tw_stride := 2 ^ (order - stage - 1) in
    bdit2_stage twiddles stage_length stride tw_stride x) x.

(** src/neo/fft/reference/kernel/c2c_dit2.hpp:171-233 — c2c_dit2_v4. *)
Definition bdit2_v4 (x twiddles : list T) : outcome (list T) :=
  order <- bit_log2 (length x) ;;
  x <- bdit2_stage0 x ;;
  if order =? 0 then UB else
  x <- for_range 1 (order - 1) (fun stage x =>
    let stage_length := 2 ^ stage in
    let stride := 2 ^ (stage + 1) in
    let tw_stride := 2 ^ (order - stage - 1) in
    bdit2_stage twiddles stage_length stride tw_stride x) x ;;
  let stage_length := length x / 2 in
  for_range 0 stage_length (fun pair x =>
    tw <- rd twiddles pair ;;
    bdit2_butterfly tw pair (pair + stage_length) x) x.
End Kernels.

(** ** simd_fft_plan *)

(** extra/benchmark/src/simd_fft.cpp:55-57 — members. *)
Record simd_plan := SimdPlan { si_order : nat; si_table : list nat; si_tw : list (list C) }.

(** extra/benchmark/src/simd_fft.cpp:44-53 — twiddle(n): the forward table, every entry
    broadcast to all lanes. *)
Definition simd_twiddle (lanes n : nat) : outcome (list (list C)) :=
  scalar <- make_twiddle_lut_radix2 n Forward ;;
  for_range 0 (length scalar) (fun i vec =>
    w <- rd scalar i ;; wr vec i (broadcast lanes w)) (repeat (broadcast lanes C0) (length scalar)).

(** extra/benchmark/src/simd_fft.cpp:17 — constructor. *)
Definition make_simd_plan (lanes order : nat) : outcome simd_plan :=
  _ <- guard (order <=? 30) ;;
  table <- bitrevorder_plan order ;;
  tw <- simd_twiddle lanes (2 ^ order) ;;
  Ok (SimdPlan order table tw).

(** extra/benchmark/src/simd_fft.cpp:27-41 — operator()(x, dir); the kernel call of the backward
    branch is commented out in the source. *)
Definition simd_run (kernel : list (list C) -> list (list C) -> outcome (list (list C)))
    (p : simd_plan) (x : list (list C)) (dir : direction) : outcome (list (list C)) :=
  x <- bitrev_apply (si_table p) x ;;
  match dir with
  | Forward => kernel x (si_tw p)
  | Backward => Ok x
  end.

(** ** simd_split_fft_plan *)

(** extra/benchmark/src/simd_fft.cpp:190-192 — members. *)
Record simd_split_plan := SimdSplitPlan {
  ss_order : nat; ss_table : list nat; ss_re : list (list R); ss_im : list (list R) }.

(** extra/benchmark/src/simd_fft.cpp:168-188 — twiddle(n): real and imaginary rows. *)
Definition simd_split_twiddle (lanes n : nat) : outcome (list (list R) * list (list R)) :=
  inter <- make_twiddle_lut_radix2 n Forward ;;
  let z := repeat (broadcast lanes 0%R) (length inter) in
  for_range 0 (length inter) (fun i s =>
    w <- rd inter i ;;
    re <- wr (fst s) i (broadcast lanes (fst w)) ;;
    im <- wr (snd s) i (broadcast lanes (snd w)) ;;
    Ok (re, im)) (z, z).

(** extra/benchmark/src/simd_fft.cpp:66 — constructor. *)
Definition make_simd_split_plan (lanes order : nat) : outcome simd_split_plan :=
  _ <- guard (order <=? 30) ;;
  table <- bitrevorder_plan order ;;
  '(re, im) <- simd_split_twiddle lanes (2 ^ order) ;;
  Ok (SimdSplitPlan order table re im).

(** extra/benchmark/src/simd_fft.cpp:105-120 — the loop of stage_0. *)
Definition simd_split_stage_0 (size : nat) (x : list (list R) * list (list R))
  : outcome (list (list R) * list (list R)) :=
  for_step 0 size 2 (fun k x =>
    let '(xre, xim) := x in
    let i1 := k in
    let i2 := k + 1 in
    x1re <- rd xre i1 ;; x1im <- rd xim i1 ;; x2re <- rd xre i2 ;; x2im <- rd xim i2 ;;
    xre <- wr xre i1 (e_add rbatch_ops x1re x2re) ;;
    xim <- wr xim i1 (e_add rbatch_ops x1im x2im) ;;
    xre <- wr xre i2 (e_sub rbatch_ops x1re x2re) ;;
    xim <- wr xim i2 (e_sub rbatch_ops x1im x2im) ;;
    Ok (xre, xim)) x.

(** extra/benchmark/src/simd_fft.cpp:126-166 — stage_n. *)
Definition simd_split_stage_n (order : nat) (tw_re tw_im : list (list R)) (x : list (list R) * list (list R))
  : outcome (list (list R) * list (list R)) :=
  let size := 2 ^ order in
  for_range 1 order (fun stage x =>
    let stage_length := 2 ^ stage in
    let stride := 2 ^ (stage + 1) in
    let tw_stride := 2 ^ (order - stage - 1) in
    for_step 0 size stride (fun k x =>
      for_range 0 stage_length (fun pair x =>
        let '(xre, xim) := x in
        let i1 := k + pair in
        let i2 := k + pair + stage_length in
        let w_index := pair * tw_stride in
        wre <- rd tw_re w_index ;; wim <- rd tw_im w_index ;;
        x1re <- rd xre i1 ;; x1im <- rd xim i1 ;; x2re <- rd xre i2 ;; x2im <- rd xim i2 ;;
        let xwre := rbatch_fms wre x2re (e_mul rbatch_ops wim x2im) in
        let xwim := rbatch_fma wre x2im (e_mul rbatch_ops wim x2re) in
        xre <- wr xre i1 (e_add rbatch_ops x1re xwre) ;;
        xim <- wr xim i1 (e_add rbatch_ops x1im xwim) ;;
        xre <- wr xre i2 (e_sub rbatch_ops x1re xwre) ;;
        xim <- wr xim i2 (e_sub rbatch_ops x1im xwim) ;;
        Ok (xre, xim)) x) x) x.

(** extra/benchmark/src/simd_fft.cpp:72-85 — operator()(x, dir). *)
Definition simd_split_run (p : simd_split_plan) (x : list (list R) * list (list R)) (dir : direction)
  : outcome (list (list R) * list (list R)) :=
  x <- bitrev_apply_split (ss_table p) x ;;
  match dir with
  | Forward =>
    x <- simd_split_stage_0 (2 ^ ss_order p) x ;;
    simd_split_stage_n (ss_order p) (ss_re p) (ss_im p) x
  | Backward =>
    y <- simd_split_stage_0 (2 ^ ss_order p) (snd x, fst x) ;;
    y <- simd_split_stage_n (ss_order p) (ss_re p) (ss_im p) y ;;
    Ok (snd y, fst y)
  end.

(** extra/benchmark/src/simd_fft.cpp:87-97 — operator()(in, out, dir). *)
Definition simd_split_run_out (p : simd_split_plan) (inp out : list (list R) * list (list R)) (dir : direction)
  : outcome (list (list R) * list (list R)) :=
  re <- copy (fun v => v) (fst inp) (fst out) ;;
  im <- copy (fun v => v) (snd inp) (snd out) ;;
  simd_split_run p (re, im) dir.

(** ** Free functions on split-complex vectors *)

(** src/neo/fft/split_fft.hpp:36-42 and 44-50 — fft(plan, inout), fft(plan, in, out). *)
Definition split_fft_inout (p : split_plan) (x : list R * list R) : outcome (list R * list R) :=
  split_run p x Forward.
Definition split_fft_out (p : split_plan) (inp out : list R * list R) : outcome (list R * list R) :=
  split_run_out p inp out Forward.

(** src/neo/fft/split_fft.hpp:52-58 and 60-66 — ifft(plan, inout), ifft(plan, in, out). *)
Definition split_ifft_inout (p : split_plan) (x : list R * list R) : outcome (list R * list R) :=
  split_run p x Backward.
Definition split_ifft_out (p : split_plan) (inp out : list R * list R) : outcome (list R * list R) :=
  split_run_out p inp out Backward.
