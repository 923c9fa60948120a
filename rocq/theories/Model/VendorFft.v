(** The FFT plans that call a vendor library: Accelerate (src/neo/fft/backend/vdsp.hpp),
    MKL (src/neo/fft/backend/mkl.hpp) and IPP (src/neo/fft/backend/ipp.hpp), and the BLAS
    path of scale (src/neo/algorithm/backend/cblas.hpp).
    The library functions themselves are not part of the repository: the first section states
    what their documentation promises, in exact real arithmetic.  Everything after it models
    the repository's code around those calls.  Handles and their lifetimes are in
    Model/PlanLifetime.v; a plan here is one that owns its handle.  Allocation succeeds. *)
From Coq Require Import Reals ZArith List Arith Bool.
From Verif Require Import Base.Outcome Base.Sums Base.Cplx Spec.Dft Spec.Transforms Model.Algorithm.
Import ListNotations.

(** ** The vendor functions, as documented
    A pointer is an offset into the array that holds the elements; touching an element outside
    the array is undefined behaviour. *)

(** DftiComputeForward / DftiComputeBackward (placement in place, default scales 1),
    ippsFFTFwd_CToC_*_I / ippsFFTInv_CToC_*_I (flag NODIV): n consecutive elements at [ptr]
    are replaced by their unnormalised transform. *)
Definition lib_c2c_inplace (n : nat) (d : direction) (ptr : nat) (mem : list C) : outcome (list C) :=
  x <- slice mem ptr (ptr + n) ;;
  splice mem ptr (DFT_list d x).

(** ippsFFTFwd_CToC_*, ippsDFTFwd_CToC_* and their inverses (flag NODIV): source and
    destination must not overlap. *)
Definition lib_c2c_copy (n : nat) (d : direction) (src dst : nat) (mem : list C) : outcome (list C) :=
  _ <- guard ((src + n <=? dst) || (dst + n <=? src)) ;;
  x <- slice mem src (src + n) ;;
  splice mem dst (DFT_list d x).

(** vDSP_fft_zop (strides 1), ippsFFTFwd_CToC_32f and the like: separate arrays of real and imaginary parts. *)
Definition lib_split_copy (n : nat) (d : direction) (inp out : list R * list R) : outcome (list R * list R) :=
  re <- slice (fst inp) 0 n ;;
  im <- slice (snd inp) 0 n ;;
  let y := DFT_list d (combine re im) in
  re <- splice (fst out) 0 (map fst y) ;;
  im <- splice (snd out) 0 (map snd y) ;;
  Ok (re, im).

(** vDSP_fft_zip (stride 1), ippsFFTFwd_CToC_32f_I and the like. *)
Definition lib_split_inplace (n : nat) (d : direction) (x : list R * list R) : outcome (list R * list R) :=
  lib_split_copy n d x x.

(** CCS format: the n/2+1 complex bins as alternating real and imaginary parts. *)
Definition interleave (x : list C) : list R := flat_map (fun c => [fst c; snd c]) x.

(** ippsFFTFwd_RToCCS_*_I (flag NODIV): n reals in, n + 2 reals out, in the same array. *)
Definition lib_r2ccs_inplace (n : nat) (ptr : nat) (mem : list R) : outcome (list R) :=
  x <- slice mem ptr (ptr + n) ;;
  splice mem ptr (interleave (RDFT_list Forward x)).

(** ippsFFTFwd_RToCCS_*: n reals at [src] in; n/2+1 complex numbers, seen as n + 2 reals, out. *)
Definition lib_r2ccs_copy (n : nat) (src dst : nat) (mem : list R) (out : list C) : outcome (list C) :=
  x <- slice mem src (src + n) ;;
  splice out dst (RDFT_list Forward x).

(** ippsFFTInv_CCSToR_*_I (flag NODIV): the n + 2 reals of that format in, n reals out. *)
Definition lib_ccs2r_inplace (n : nat) (ptr : nat) (mem : list R) : outcome (list R) :=
  x <- slice mem ptr (ptr + 2 * (n / 2 + 1)) ;;
  splice mem ptr (tab n (IRDFT (n / 2) (fun k => (nth (2 * k) x 0%R, nth (2 * k + 1) x 0%R)))).

(** ippsFFTInv_CCSToR_*. *)
Definition lib_ccs2r_copy (n : nat) (src dst : nat) (mem : list C) (out : list R) : outcome (list R) :=
  x <- slice mem src (src + (n / 2 + 1)) ;;
  splice out dst (tab n (IRDFT (n / 2) (fun k => nth k x C0))).

(** ippsDCTFwd_*_I: orthonormal DCT-II. *)
Definition ipp_dct_weight (n k : nat) : R := if Nat.eqb k 0 then sqrt (1 / INR n) else sqrt (2 / INR n).
Definition lib_dct2_inplace (n : nat) (x : list R) : outcome (list R) :=
  v <- slice x 0 n ;;
  splice x 0 (tab n (fun k => (ipp_dct_weight n k *
    Rsum n (fun i => nth i v 0 * cos (PI * INR (2 * i + 1) * INR k / (2 * INR n))))%R)).

(** ippsDCTInv_*_I: orthonormal DCT-III. *)
Definition lib_dct3_inplace (n : nat) (x : list R) : outcome (list R) :=
  v <- slice x 0 n ;;
  splice x 0 (tab n (fun i => Rsum n (fun k =>
    (ipp_dct_weight n k * nth k v 0 * cos (PI * INR (2 * i + 1) * INR k / (2 * INR n)))%R))).

(** cblas_?scal(n, alpha, x, inc): nothing happens unless n and inc are positive. *)
Definition lib_scal {T} (op : T -> T) (n : Z) (x : nat) (inc : Z) (mem : list T) : outcome (list T) :=
  if (n <=? 0)%Z || (inc <=? 0)%Z then Ok mem else
  for_range 0 (Z.to_nat n) (fun i mem =>
    a <- rd mem (x + i * Z.to_nat inc) ;; wr mem (x + i * Z.to_nat inc) (op a)) mem.

(** ** Vectors and their layouts *)

(** A rank-1 mdspan with the default accessor: its cells and its layout type. *)
Inductive layout := LayoutRight | LayoutLeft | LayoutStride.
Record vec := Vec { vec_view : view1; vec_layout : layout }.

Definition layout_eqb (a b : layout) : bool :=
  match a, b with
  | LayoutRight, LayoutRight | LayoutLeft, LayoutLeft | LayoutStride, LayoutStride => true
  | _, _ => false
  end.

(** src/neo/container/mdspan.hpp:173-188 — always_vectorizable for rank 1 and the default accessor. *)
Definition always_vectorizable (vs : list vec) : bool :=
  forallb (fun v => layout_eqb (vec_layout v) LayoutLeft) vs ||
  forallb (fun v => layout_eqb (vec_layout v) LayoutRight) vs.

(** src/neo/algorithm/copy.hpp:16-30 from a view into a plan's buffer and back. *)
Definition gather {T} (v : view1) (mem buf : list T) : outcome (list T) :=
  for_range 0 (u_size v) (fun i buf => a <- rd mem (at1 v i) ;; wr buf i a) buf.
Definition put_back {T} (buf : list T) (v : view1) (mem : list T) : outcome (list T) :=
  for_range 0 (length buf) (fun i mem => a <- rd buf i ;; wr mem (at1 v i) a) mem.

(** src/neo/fft/order.hpp:28-32 and src/neo/math/ipow.hpp:30-31 — a shift by 64 or more is undefined. *)
Definition order_size (order : nat) : outcome nat := _ <- guard (order <? 64) ;; Ok (2 ^ order).

(** ** Accelerate *)

(** src/neo/fft/backend/vdsp.hpp:65-71 — members; the 2 x size arrays as pairs of rows. *)
Record vdsp_plan := VdspPlan { vd_order : nat; vd_size : nat; vd_in : list R * list R; vd_out : list R * list R }.

(** src/neo/fft/backend/vdsp.hpp:75-90 — constructor; _size is initialised before _plan. *)
Definition make_vdsp (order : nat) : outcome vdsp_plan :=
  size <- order_size order ;;
  if 27 <? order then Throw else
  Ok (VdspPlan order size (repeat 0%R size, repeat 0%R size) (repeat 0%R size, repeat 0%R size)).

(** src/neo/fft/backend/vdsp.hpp:122-146 — operator(). *)
Definition vdsp_run (p : vdsp_plan) (x : vec) (d : direction) (mem : list C) : outcome (vdsp_plan * list C) :=
  let v := vec_view x in
  inp <- for_range 0 (u_size v) (fun i s =>
    c <- rd mem (at1 v i) ;;
    re <- wr (fst s) i (fst c) ;;
    im <- wr (snd s) i (snd c) ;;
    Ok (re, im)) (vd_in p) ;;
  out <- lib_split_copy (2 ^ vd_order p) d inp (vd_out p) ;;
  mem <- for_range 0 (u_size v) (fun i mem =>
    re <- rd (fst out) i ;;
    im <- rd (snd out) i ;;
    wr mem (at1 v i) (re, im)) mem ;;
  Ok (VdspPlan (vd_order p) (vd_size p) inp out, mem).

(** src/neo/fft/backend/vdsp.hpp:200-211 — apple_vdsp_split_fft_plan; only the order matters to
    the calls.  No limit on the order is enforced. *)
Definition make_vdsp_split (order : nat) : outcome nat := _ <- order_size order ;; Ok order.

(** src/neo/fft/backend/vdsp.hpp:243-266 and 271-296 — contiguous operands only. *)
Definition vdsp_split_inplace (order : nat) (x : list R * list R) (d : direction) : outcome (list R * list R) :=
  lib_split_inplace (2 ^ order) d x.
Definition vdsp_split_copy (order : nat) (inp out : list R * list R) (d : direction) : outcome (list R * list R) :=
  lib_split_copy (2 ^ order) d inp out.

(** ** MKL *)

(** src/neo/fft/backend/mkl.hpp:97-99 — members. *)
Record mkl_plan := MklPlan { mk_order : nat; mk_buf : list C }.

(** src/neo/fft/backend/mkl.hpp:25 and 77-95. *)
Definition make_mkl (order : nat) : outcome mkl_plan :=
  if 27 <? order then Throw else Ok (MklPlan order (repeat C0 (2 ^ order))).

(** src/neo/fft/backend/mkl.hpp:50-69 — operator(). *)
Definition mkl_run (p : mkl_plan) (x : vec) (d : direction) (mem : list C) : outcome (mkl_plan * list C) :=
  let v := vec_view x in
  if always_vectorizable [x]
  then mem <- lib_c2c_inplace (2 ^ mk_order p) d (u_off v) mem ;; Ok (p, mem)
  else
    buf <- gather v mem (mk_buf p) ;;
    buf <- lib_c2c_inplace (2 ^ mk_order p) d 0 buf ;;
    mem <- put_back buf v mem ;;
    Ok (MklPlan (mk_order p) buf, mem).

(** ** IPP *)

(** src/neo/fft/backend/ipp.hpp:184-216 — the largest order, by precision, and the members. *)
Inductive precision := Single | Double.
Definition ipp_max_order (pr : precision) : nat := match pr with Single => 28 | Double => 27 end.
Record ipp_plan := IppPlan { ip_order : nat; ip_buf : list C }.

(** src/neo/fft/backend/ipp.hpp:53-71 and 125-129; GetSize reports an unsupported order, which
    ipp_check (lines 30-51) turns into an exception.  Orders are below 2^31, so the conversion
    to int keeps them. *)
Definition make_ipp (pr : precision) (order : nat) : outcome ipp_plan :=
  if ipp_max_order pr <? order then Throw else Ok (IppPlan order (repeat C0 (2 ^ order))).

(** src/neo/fft/backend/ipp.hpp:145-161 — operator()(x, dir). *)
Definition ipp_run (p : ipp_plan) (x : vec) (d : direction) (mem : list C) : outcome (ipp_plan * list C) :=
  let v := vec_view x in
  if always_vectorizable [x]
  then mem <- lib_c2c_inplace (2 ^ ip_order p) d (u_off v) mem ;; Ok (p, mem)
  else
    buf <- gather v mem (ip_buf p) ;;
    buf <- lib_c2c_inplace (2 ^ ip_order p) d 0 buf ;;
    mem <- put_back buf v mem ;;
    Ok (IppPlan (ip_order p) buf, mem).

(** src/neo/fft/backend/ipp.hpp:163-181 — operator()(input, output, dir); the buffer has the
    default layout, so the nested call works on it in place. *)
Definition ipp_run_copy (p : ipp_plan) (inp out : vec) (d : direction) (mem : list C) : outcome (ipp_plan * list C) :=
  if always_vectorizable [inp; out]
  then mem <- lib_c2c_copy (2 ^ ip_order p) d (u_off (vec_view inp)) (u_off (vec_view out)) mem ;; Ok (p, mem)
  else
    buf <- gather (vec_view inp) mem (ip_buf p) ;;
    buf <- lib_c2c_inplace (2 ^ ip_order p) d 0 buf ;;
    mem <- put_back buf (vec_view out) mem ;;
    Ok (IppPlan (ip_order p) buf, mem).

(** src/neo/fft/backend/ipp.hpp:73-91, 227-230 and 295-300 — intel_ipp_dft_plan: any length
    from 1; IPP rejects length 0 (ippStsSizeErr).  Lengths are below 2^31. *)
Record ipp_dft_plan := IppDftPlan { id_size : nat; id_in : list C; id_out : list C }.
Definition make_ipp_dft (size : nat) : outcome ipp_dft_plan :=
  if Nat.eqb size 0 then Throw else Ok (IppDftPlan size (repeat C0 size) (repeat C0 size)).

(** The library call from _tmp_in to _tmp_out, which are separate arrays. *)
Definition ipp_dft_tmp (p : ipp_dft_plan) (d : direction) (inp out : list C) : outcome (list C) :=
  x <- slice inp 0 (id_size p) ;;
  splice out 0 (DFT_list d x).

(** src/neo/fft/backend/ipp.hpp:240-248 — operator()(x, dir). *)
Definition ipp_dft_run (p : ipp_dft_plan) (x : vec) (d : direction) (mem : list C) : outcome (ipp_dft_plan * list C) :=
  inp <- gather (vec_view x) mem (id_in p) ;;
  out <- ipp_dft_tmp p d inp (id_out p) ;;
  mem <- put_back out (vec_view x) mem ;;
  Ok (IppDftPlan (id_size p) inp out, mem).

(** src/neo/fft/backend/ipp.hpp:250-270 — operator()(input, output, dir). *)
Definition ipp_dft_run_copy (p : ipp_dft_plan) (inp out : vec) (d : direction) (mem : list C) : outcome (ipp_dft_plan * list C) :=
  if always_vectorizable [inp; out]
  then mem <- lib_c2c_copy (id_size p) d (u_off (vec_view inp)) (u_off (vec_view out)) mem ;; Ok (p, mem)
  else
    tin <- gather (vec_view inp) mem (id_in p) ;;
    tout <- ipp_dft_tmp p d tin (id_out p) ;;
    mem <- put_back tout (vec_view out) mem ;;
    Ok (IppDftPlan (id_size p) tin tout, mem).

(** src/neo/fft/backend/ipp.hpp:311-361 — intel_ipp_split_fft_plan, contiguous operands only;
    its buffer (line 389) is never used, but its size is computed before the order is checked. *)
Definition make_ipp_split (pr : precision) (order : nat) : outcome nat :=
  _ <- order_size order ;;
  if ipp_max_order pr <? order then Throw else Ok order.
Definition ipp_split_inplace (order : nat) (x : list R * list R) (d : direction) : outcome (list R * list R) :=
  lib_split_inplace (2 ^ order) d x.
Definition ipp_split_copy (order : nat) (inp out : list R * list R) (d : direction) : outcome (list R * list R) :=
  lib_split_copy (2 ^ order) d inp out.

(** src/neo/fft/backend/ipp.hpp:404-407 and 487-491 — intel_ipp_rfft_plan; buffer of 2 * size reals. *)
Record ipp_rfft_plan := IppRfftPlan { ir_order : nat; ir_buf : list R }.
Definition make_ipp_rfft (pr : precision) (order : nat) : outcome ipp_rfft_plan :=
  size <- order_size order ;;
  if ipp_max_order pr <? order then Throw else Ok (IppRfftPlan order (repeat 0%R (size * 2))).

(** src/neo/fft/backend/ipp.hpp:419-439 — real to complex. *)
Definition ipp_rfft_forward (p : ipp_rfft_plan) (inp : vec) (mem : list R) (out : vec) (omem : list C)
  : outcome (ipp_rfft_plan * list C) :=
  let size := 2 ^ ir_order p in
  if always_vectorizable [inp] && always_vectorizable [out]
  then omem <- lib_r2ccs_copy size (u_off (vec_view inp)) (u_off (vec_view out)) mem omem ;; Ok (p, omem)
  else
    sub <- slice (ir_buf p) 0 size ;;
    sub <- gather (vec_view inp) mem sub ;;
    buf <- splice (ir_buf p) 0 sub ;;
    buf <- lib_r2ccs_inplace size 0 buf ;;
    omem <- for_range 0 (size / 2 + 1) (fun i omem =>
      re <- rd buf (i * 2) ;;
      im <- rd buf (i * 2 + 1) ;;
      wr omem (at1 (vec_view out) i) (re, im)) omem ;;
    Ok (IppRfftPlan (ir_order p) buf, omem).

(** src/neo/fft/backend/ipp.hpp:441-458 — complex to real. *)
Definition ipp_rfft_backward (p : ipp_rfft_plan) (inp : vec) (mem : list C) (out : vec) (omem : list R)
  : outcome (ipp_rfft_plan * list R) :=
  let size := 2 ^ ir_order p in
  if always_vectorizable [inp] && always_vectorizable [out]
  then omem <- lib_ccs2r_copy size (u_off (vec_view inp)) (u_off (vec_view out)) mem omem ;; Ok (p, omem)
  else
    buf <- for_range 0 (u_size (vec_view inp)) (fun i buf =>
      c <- rd mem (at1 (vec_view inp) i) ;;
      buf <- wr buf (i * 2) (fst c) ;;
      wr buf (i * 2 + 1) (snd c)) (ir_buf p) ;;
    buf <- lib_ccs2r_inplace size 0 buf ;;
    sub <- slice buf 0 size ;;
    omem <- put_back sub (vec_view out) omem ;;
    Ok (IppRfftPlan (ir_order p) buf, omem).

(** src/neo/fft/backend/ipp.hpp:93-112, 502-525 and 572-576 — intel_ipp_dct_plan; Forward is the
    DCT-II, Backward the DCT-III.  The length 2^order must fit an int. *)
Record ipp_dct_plan := IppDctPlan { ic_order : nat; ic_buf : list R }.
Definition make_ipp_dct (order : nat) : outcome ipp_dct_plan :=
  size <- order_size order ;;
  if 30 <? order then Throw else Ok (IppDctPlan order (repeat 0%R size)).
Definition ipp_dct_run (kind : direction) (p : ipp_dct_plan) (x : vec) (mem : list R) : outcome (ipp_dct_plan * list R) :=
  let v := vec_view x in
  buf <- gather v mem (ic_buf p) ;;
  buf <- match kind with Forward => lib_dct2_inplace | Backward => lib_dct3_inplace end (2 ^ ic_order p) buf ;;
  mem <- put_back buf v mem ;;
  Ok (IppDctPlan (ic_order p) buf, mem).

(** ** The BLAS path of scale *)

(** src/neo/algorithm/backend/cblas.hpp:25-61 — the size type has [bits] bits: 64 for Accelerate,
    32 for MKL's default (LP64) interface; static_cast wraps. *)
Definition blas_int (bits : Z) (n : Z) : Z :=
  let m := (n mod 2 ^ bits)%Z in if (m <? 2 ^ (bits - 1))%Z then m else (m - 2 ^ bits)%Z.

(** src/neo/algorithm/scale.hpp:14-28 with NEO_HAS_CBLAS. *)
Definition scale_blas {T} (bits : Z) (op : T -> T) (x : vec) (mem : list T) : outcome (list T) :=
  let v := vec_view x in
  if always_vectorizable [x]
  then lib_scal op (blas_int bits (Z.of_nat (u_size v))) (u_off v) (blas_int bits (Z.of_nat (u_s v))) mem
  else vec_unary_op op v mem.
