(** extra/benchmark/src/fixed_point.cpp — planar complex products of fixed-point arrays, and
    the register classes of src/neo/fixed_point/simd.hpp they run on.
    Timing, printing and the random contents of the inputs are not modelled. *)
From Coq Require Import ZArith List Bool.
From Verif Require Import Base.Outcome Base.Alias Model.Integers Model.FixedPoint Model.Simd Model.SimdBatch.
Import ListNotations.
Local Open Scope Z_scope.

(** fixed_point.cpp:138-141 (= 188-191) — the loop of cmulp::operator() and of
    cmulp_batch_fixed_point::operator().  [mul], [sub] and [add] are the operators of the
    element type; the six rows of _lhs, _rhs and _out are separate arrays. *)
Definition cmulp_loop {T} (mul sub add : T -> T -> outcome T) (lre lim rre rim ore oim : list T)
  : outcome (list T * list T) :=
  for_range 0 (length ore) (fun i '(ore, oim) =>
    a <- rd lre i ;; b <- rd lim i ;; c <- rd rre i ;; d <- rd rim i ;;
    ac <- mul a c ;; bd <- mul b d ;; re <- sub ac bd ;;
    ore <- wr ore i re ;;
    ad <- mul a d ;; bc <- mul b c ;; im <- add ad bc ;;
    oim <- wr oim i im ;;
    Ok (ore, oim)) (ore, oim).

(** fixed_point.cpp:120-145 — cmulp<fixed_point<t, F>, Size>. *)
Definition cmulp_fixed (t : ity) (F : Z) := cmulp_loop (fp_mul t F) (fp_sub t) (fp_add t).

(** src/neo/fixed_point/simd.hpp:107-151, 208-260 — q7x16 (the product on SSE4.1 only). *)
Definition q7x16 : batch Z := Batch (128 / 8) (add_kernel 8) (sub_kernel 8) (sse_mul_kernel_s8 7).

(** src/neo/fixed_point/simd.hpp:320-362, 420-462 — q7x32 and q7x64 have no operator-times:
    width, + and -. *)
Definition q7xN (bits : nat) : nat * (list Z -> list Z -> list Z) * (list Z -> list Z -> list Z) :=
  ((bits / 8)%nat, add_kernel 8, sub_kernel 8).
Definition q7x32 := q7xN 256.
Definition q7x64 := q7xN 512.

(** src/neo/fixed_point/simd.hpp:57-60 with 262-316, 76-84 with 364-416, 88-96 with 464-516 —
    q15x8 on SSE4.1, q15x16, q15x32: multiplication is mulhrs on each lane. *)
Definition q15xN (bits : nat) : batch Z := Batch (bits / 16) (add_kernel 16) (sub_kernel 16) (lanes mulhrs).
Definition q15x8 : batch Z := q15xN 128.
Definition q15x16 : batch Z := q15xN 256.
Definition q15x32 : batch Z := q15xN 512.

(** src/neo/fixed_point/simd.hpp:153-204 — q15x8 on NEON. *)
Definition q15x8_neon : batch Z := Batch (128 / 16) (add_kernel 16) (sub_kernel 16) neon_mul_kernel_s16.

(** fixed_point.cpp:177-195 — cmulp_batch_fixed_point<FixedBatch, Size>: elements are registers. *)
Definition cmulp_batch (B : batch Z) :=
  cmulp_loop (fun x y => Ok (b_mul B x y)) (fun x y => Ok (b_sub B x y)) (fun x y => Ok (b_add B x y)).

(** src/neo/algorithm/multiply_add.hpp:359-367 — the loop of multiply_add on split-complex vectors
    of any element type (that of fixed-point numbers and registers; multiply_add.cpp:42-154 calls it
    so).  [zre] and [zim] may be the rows of the output; x and y are separate arrays. *)
Definition split_fma_loop {T} (mul sub add : T -> T -> outcome T) (xre xim yre yim : list T)
    (zre zim : operand T) (ore oim : list T) : outcome (list T * list T) :=
  for_range 0 (length xre) (fun i '(ore, oim) =>
    a <- rd xre i ;; b <- rd xim i ;; c <- rd yre i ;; d <- rd yim i ;;
    ac <- mul a c ;; bd <- mul b d ;; s <- sub ac bd ;;
    e <- rd (contents zre ore) i ;; re <- add s e ;;
    ore <- wr ore i re ;;
    ad <- mul a d ;; bc <- mul b c ;; u <- add ad bc ;;
    f <- rd (contents zim oim) i ;; im <- add u f ;;
    oim <- wr oim i im ;;
    Ok (ore, oim)) (ore, oim).

(** ... for fixed_point<t, F> ... *)
Definition split_fma_fixed (t : ity) (F : Z) := split_fma_loop (fp_mul t F) (fp_sub t) (fp_add t).

(** ... and for registers. *)
Definition split_fma_batch (B : batch Z) :=
  split_fma_loop (fun x y => Ok (b_mul B x y)) (fun x y => Ok (b_sub B x y)) (fun x y => Ok (b_add B x y)).

(** Calls multiply_add(x, y, out, out) in a row, one for each (x.real, x.imag, y.real, y.imag);
    multiply_add.cpp:84 is one such call. *)
Fixpoint split_fma_runs (t : ity) (F : Z) (calls : list (list Z * list Z * list Z * list Z)) (ore oim : list Z)
  : outcome (list Z * list Z) :=
  match calls with
  | [] => Ok (ore, oim)
  | (xre, xim, yre, yim) :: rest =>
    '(ore, oim) <- split_fma_fixed t F xre xim yre yim Self Self ore oim ;;
    split_fma_runs t F rest ore oim
  end.
