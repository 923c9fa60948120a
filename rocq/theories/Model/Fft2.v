(** Model of the radix-2 complex FFT: bit reversal, twiddle tables, kernels, plan.
    Floating-point numbers are exact reals; indices are unbounded naturals (the
    code uses unsigned/int/size_t; sizes are at most 2^27, see [check_order]). *)
From Coq Require Import List Arith Bool Reals.
From Verif Require Import Base.Outcome Base.Cplx Spec.Dft.
Import ListNotations.
Open Scope outcome_scope.

(** src/neo/bit/bit_log2.hpp:11-19 — [for (; x > 1; x >>= 1) ++result]. *)
Definition bit_log2 (x : nat) : outcome nat :=
  '(r, _) <- while_fuel x
               (fun s : nat * nat => 1 <? snd s)
               (fun s => Ok (fst s + 1, snd s / 2))
               (0, x) ;;
  Ok r.

(** std::swap(x[i], x[j]) as used in src/neo/fft/reference/bitrevorder.hpp:29. *)
Definition swap {T} (x : list T) (i j : nat) : outcome (list T) :=
  a <- rd x i ;; b <- rd x j ;; x <- wr x i b ;; wr x j a.

(** src/neo/fft/reference/bitrevorder.hpp:65-75 — bitrevorder_plan::make(size).
    Table entries are uint32 in the code; they are below [size]. *)
Definition bitrev_make (size : nat) : outcome (list nat) :=
  order <- bit_log2 size ;;
  for_range 0 size (fun i table =>
    for_range 0 order (fun j table =>
      v <- rd table i ;;
      wr table i (Nat.lor v (Nat.shiftl (Nat.land (Nat.shiftr i j) 1) (order - 1 - j))))
      table)
    (repeat 0 size).

(** src/neo/fft/reference/bitrevorder.hpp:21 — bitrevorder_plan(order). *)
Definition bitrevorder_plan (order : nat) : outcome (list nat) :=
  bitrev_make (Nat.shiftl 1 order).

(** src/neo/fft/reference/bitrevorder.hpp:23-32 — reordering a complex vector. *)
Definition bitrev_apply {T} (table : list nat) (x : list T) : outcome (list T) :=
  for_range 0 (length table) (fun i x =>
    t <- rd table i ;;
    if i <? t then swap x i t else Ok x) x.

(** src/neo/fft/reference/bitrevorder.hpp:34-50 — reordering interleaved floats. *)
Definition bitrev_apply_interleaved {T} (table : list nat) (x : list T) : outcome (list T) :=
  for_range 0 (length table) (fun i x =>
    t <- rd table i ;;
    if i <? t then
      let src_re := i * 2 in
      let src_im := src_re + 1 in
      let dest_re := t * 2 in
      let dest_im := dest_re + 1 in
      x <- swap x src_re dest_re ;;
      swap x src_im dest_im
    else Ok x) x.

(** src/neo/fft/reference/bitrevorder.hpp:52-62 — reordering split-complex vectors. *)
Definition bitrev_apply_split {T} (table : list nat) (x : list T * list T)
  : outcome (list T * list T) :=
  for_range 0 (length table) (fun i x =>
    t <- rd table i ;;
    if i <? t then
      re <- swap (fst x) i t ;;
      im <- swap (snd x) i t ;;
      Ok (re, im)
    else Ok x) x.

(** src/neo/fft/reference/bitrevorder.hpp:90-93 — [while (k <= j) { j -= k; k /= 2; }].
    Fuel: the loop is endless once k = 0; [k + j + 1] iterations cannot be reached
    otherwise, because [j] strictly decreases. *)
Definition bitrev_carry (k j : nat) : outcome (nat * nat) :=
  while_fuel (j + 1) (fun s : nat * nat => fst s <=? snd s)
    (fun s => Ok (fst s / 2, snd s - fst s)) (k, j).

(** src/neo/fft/reference/bitrevorder.hpp:80-96 — free function bitrevorder(x).
    [x.size() - 1U] wraps for an empty vector, then x[...] is never in range
    (k = 0 <= j = 0 makes the while loop endless): modelled as UB. *)
Definition bitrevorder {T} (x : list T) : outcome (list T) :=
  if length x =? 0 then UB else
  '(_, x) <- for_range 0 (length x - 1) (fun i s =>
      let j := fst s in
      x' <- (if i <? j then swap (snd s) i j else Ok (snd s)) ;;
      '(k, j) <- bitrev_carry (length x / 2) j ;;
      Ok (j + k, x'))
    (0, x) ;;
  Ok x.

(** src/neo/fft/reference/bitrevorder.hpp:112-115 —
    [while (m >= 2 && j > m) { j -= m; m >>= 1; }]. *)
Definition bitrev_carry_f (m j : nat) : outcome (nat * nat) :=
  while_fuel j (fun s : nat * nat => (2 <=? fst s) && (fst s <? snd s))
    (fun s => Ok (fst s / 2, snd s - fst s)) (m, j).

(** src/neo/fft/reference/bitrevorder.hpp:98-118 — free function on interleaved
    floats; int indices (size below 2^31). *)
Definition bitrevorder_interleaved {T} (x : list T) : outcome (list T) :=
  let nn := length x in
  let n := nn / 2 in
  '(_, x) <- for_step 1 nn 2 (fun i s =>
      let j := fst s in
      x' <- (if i <? j then
               x1 <- swap (snd s) (j - 1) (i - 1) ;;
               swap x1 j i
             else Ok (snd s)) ;;
      '(m, j) <- bitrev_carry_f n j ;;
      Ok (j + m, x'))
    (1, x) ;;
  Ok x.

(** src/neo/fft/twiddle.hpp:17-29 — twiddle(size, index, dir) =
    polar(1, sign * 2 pi * index / size), exact real arithmetic. *)
Definition twiddle (size index : nat) (dir : direction) : C :=
  let sign := match dir with Forward => (-1)%R | Backward => 1%R end in
  let angle := (sign * (2 * PI) * INR index / INR size)%R in
  (cos angle, sin angle).

(** src/neo/fft/twiddle.hpp:31-52 — make_twiddle_lut_radix2(size, dir). *)
Definition make_twiddle_lut_radix2 (size : nat) (dir : direction) : outcome (list C) :=
  let lut_size := size / 2 in
  let size' := lut_size * 2 in
  for_range 0 lut_size (fun i lut => wr lut i (twiddle size' i dir)) (repeat C0 lut_size).

(** src/neo/fft/reference/kernel/c2c_dit2.hpp:28-41 (same text at 79-92, 133-146,
    182-195) — stage 0: [for (k = 0; k < size; k += 2)] butterfly without twiddle. *)
Definition dit2_stage0 (x : list C) : outcome (list C) :=
  for_step 0 (length x) 2 (fun k x =>
    let i1 := k in
    let i2 := k + 1 in
    a <- rd x i1 ;; b <- rd x i2 ;;
    let temp := (a + b)%C in
    a' <- rd x i1 ;; b' <- rd x i2 ;;
    x <- wr x i2 (a' - b')%C ;;
    wr x i1 temp) x.

(** src/neo/fft/reference/kernel/c2c_dit2.hpp:156-163 (same text at 51-58, 205-212,
    222-229) — one twiddled butterfly on x[i1], x[i2]. *)
Definition dit2_butterfly (tw : C) (i1 i2 : nat) (x : list C) : outcome (list C) :=
  a <- rd x i1 ;; b <- rd x i2 ;;
  let temp := (a + tw * b)%C in
  a' <- rd x i1 ;; b' <- rd x i2 ;;
  x <- wr x i2 (a' - tw * b')%C ;;
  wr x i1 temp.

(** src/neo/fft/reference/kernel/c2c_dit2.hpp:154-165 (same loops at 49-60, 203-214) —
    one stage: blocks of [stride], [stage_length] pairs each. *)
Definition dit2_stage (twiddles : list C) (stage_length stride tw_stride : nat)
  (x : list C) : outcome (list C) :=
  for_step 0 (length x) stride (fun k x =>
    for_range 0 stage_length (fun pair x =>
      tw <- rd twiddles (pair * tw_stride) ;;
      dit2_butterfly tw (k + pair) (k + pair + stage_length) x) x) x.

(** src/neo/fft/reference/kernel/c2c_dit2.hpp:17-66 — kernel c2c_dit2_v1.
    [stage_length] and [stride] are loop-carried ints doubled each stage. *)
Definition c2c_dit2_v1 (x twiddles : list C) : outcome (list C) :=
  order <- bit_log2 (length x) ;;
  x <- dit2_stage0 x ;;
  '(_, _, x) <- for_range 1 order (fun stage s =>
      let '(stage_length, stride, x) := s in
      let tw_stride := 2 ^ (order - stage - 1) in
      x <- dit2_stage twiddles stage_length stride tw_stride x ;;
      Ok (stage_length * 2, stride * 2, x))
    (2, 4, x) ;;
  Ok x.

(** src/neo/fft/reference/kernel/c2c_dit2.hpp:99-114 — the loops of one stage of v2
    (inner loop variable [k] runs from [i] to [i + half_stage]). *)
Definition dit2_v2_stage (twiddles : list C) (stage_size : nat) (x : list C)
  : outcome (list C) :=
  let size := length x in
  let half_stage := stage_size / 2 in
  let k_step := size / stage_size in
  for_step 0 size stage_size (fun i x =>
    for_range i (i + half_stage) (fun k x =>
      let index := k - i in
      tw <- rd twiddles (index * k_step) ;;
      let idx1 := k in
      let idx2 := k + half_stage in
      even <- rd x idx1 ;;
      odd <- rd x idx2 ;;
      let tmp := (odd * tw)%C in
      x <- wr x idx1 (even + tmp)%C ;;
      wr x idx2 (even - tmp)%C) x) x.

(** src/neo/fft/reference/kernel/c2c_dit2.hpp:69-119 — kernel c2c_dit2_v2;
    [while (stage_size <= size)], stage_size doubling from 4 (fuel: size). *)
Definition c2c_dit2_v2 (x twiddles : list C) : outcome (list C) :=
  x <- dit2_stage0 x ;;
  '(_, x) <- while_fuel (length x)
      (fun s : nat * list C => fst s <=? length (snd s))
      (fun s =>
         x <- dit2_v2_stage twiddles (fst s) (snd s) ;;
         Ok (fst s * 2, x))
      (4, x) ;;
  Ok x.

(** src/neo/fft/reference/kernel/c2c_dit2.hpp:122-168 — kernel c2c_dit2_v3 (default).
    ipow<2>(e) is a shift, see Model/Bits.v; here 2^e. *)
Definition c2c_dit2_v3 (x twiddles : list C) : outcome (list C) :=
  order <- bit_log2 (length x) ;;
  x <- dit2_stage0 x ;;
  for_range 1 order (fun stage x =>
    let stage_length := 2 ^ stage in
    let stride := 2 ^ (stage + 1) in
    let tw_stride := 2 ^ (order - stage - 1) in
    dit2_stage twiddles stage_length stride tw_stride x) x.

(** src/neo/fft/reference/kernel/c2c_dit2.hpp:171-233 — kernel c2c_dit2_v4.
    [order - 1] is unsigned: for order 0 it wraps to 2^64-1 and the stage loop runs
    into an oversized shift, UB. *)
Definition c2c_dit2_v4 (x twiddles : list C) : outcome (list C) :=
  order <- bit_log2 (length x) ;;
  x <- dit2_stage0 x ;;
  if order =? 0 then UB else
  x <- for_range 1 (order - 1) (fun stage x =>
    let stage_length := 2 ^ stage in
    let stride := 2 ^ (stage + 1) in
    let tw_stride := 2 ^ (order - stage - 1) in
    dit2_stage twiddles stage_length stride tw_stride x) x ;;
  let stage_length := length x / 2 in
  for_range 0 stage_length (fun pair x =>
    tw <- rd twiddles pair ;;
    dit2_butterfly tw pair (pair + stage_length) x) x.

(** src/neo/fft/reference/c2c_dit2_plan.hpp:21-51 — members of c2c_dit2_plan. *)
Record dit2_plan := {
  p_order : nat;
  p_size : nat;
  p_reorder : list nat;
  p_wf : list C;
  p_wb : list C
}.

(** src/neo/fft/reference/c2c_dit2_plan.hpp:57-61 — max_order(). *)
Definition max_order : nat := 27.

(** src/neo/fft/reference/c2c_dit2_plan.hpp:97-104 — check_order(order). *)
Definition check_order (order : nat) : outcome nat :=
  if max_order <? order then Throw else Ok order.

(** src/neo/fft/reference/c2c_dit2_plan.hpp:42-55 — constructor, members in
    declaration order; fft::size(order) = 2^order (src/neo/fft/order.hpp:27-31). *)
Definition make_dit2_plan (order : nat) : outcome dit2_plan :=
  order <- check_order order ;;
  let size := 2 ^ order in
  reorder <- bitrevorder_plan order ;;
  wf <- make_twiddle_lut_radix2 size Forward ;;
  wb <- make_twiddle_lut_radix2 size Backward ;;
  Ok {| p_order := order; p_size := size; p_reorder := reorder; p_wf := wf; p_wb := wb |}.

(** src/neo/fft/reference/c2c_dit2_plan.hpp:81-95 — operator()(x, dir), for an
    arbitrary kernel (template parameter Kernel). *)
Definition run_dit2_plan (kernel : list C -> list C -> outcome (list C))
  (p : dit2_plan) (x : list C) (dir : direction) : outcome (list C) :=
  x <- bitrev_apply (p_reorder p) x ;;
  match dir with
  | Forward => kernel x (p_wf p)
  | Backward => kernel x (p_wb p)
  end.

(** src/neo/fft/fft.hpp:33-52 — the default fft_plan (fallback build) is
    c2c_dit2_plan with kernel v3: build a plan of the order and run it. *)
Definition fft_plan_run (order : nat) (x : list C) (dir : direction) : outcome (list C) :=
  p <- make_dit2_plan order ;;
  run_dit2_plan c2c_dit2_v3 p x dir.
