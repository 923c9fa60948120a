(** SIMD array kernels for fixed-point numbers: src/neo/fixed_point/simd.hpp,
    src/neo/fixed_point/algorithm.hpp, src/neo/simd/{sse2,neon}.hpp.
    A register is the list of its lanes; each intrinsic is modelled lane by lane from
    the vendor's description. *)
From Coq Require Import ZArith List Bool.
From Verif Require Import Base.Outcome Base.Alias Model.Integers Model.FixedPoint.
Import ListNotations.
Local Open Scope Z_scope.

(** Signed saturation of an exact integer to [w] bits. *)
Definition sat_lane (w v : Z) : Z := Z.max (- 2 ^ (w - 1)) (Z.min (2 ^ (w - 1) - 1) v).

(** Lane-wise binary operation on registers. *)
Definition lanes (f : Z -> Z -> Z) (l r : list Z) : list Z := zip_with f l r.

(** src/neo/fixed_point/simd.hpp:28-31, 34-37 — _mm_adds_epi8/16, _mm_subs_epi8/16 and
    vqaddq/vqsubq_s8/s16. *)
Definition add_kernel (w : Z) (l r : list Z) : list Z := lanes (fun a b => sat_lane w (a + b)) l r.
Definition sub_kernel (w : Z) (l r : list Z) : list Z := lanes (fun a b => sat_lane w (a - b)) l r.

(** src/neo/fixed_point/simd.hpp:32 — vqdmulhq_s16: saturating (2*a*b) >> 16. *)
Definition neon_mul_kernel_s16 (l r : list Z) : list Z :=
  lanes (fun a b => sat_lane 16 (Z.shiftr (2 * a * b) 16)) l r.

(** _mm_mullo_epi16/32: low [w] bits of the product, as an unsigned pattern. *)
Definition mullo (w a b : Z) : Z := (a * b) mod 2 ^ w.
(** _mm_srli_epi16/32: logical shift right of a [w]-bit pattern. *)
Definition srli (F a : Z) : Z := Z.shiftr a F.
(** A [w]-bit pattern read as a signed number. *)
Definition as_signed (w a : Z) : Z := iconv (Ity w true) a.

(** src/neo/fixed_point/simd.hpp:42-55 — mul_kernel_s8<F> (16 lanes): widen the low and
    high halves, multiply, shift logically, pack with signed saturation. *)
Definition sse_mul_kernel_s8 (F : Z) (l r : list Z) : list Z :=
  let half f := lanes (fun a b => sat_lane 8 (as_signed 16 (srli F (mullo 16 a b)))) (f l) (f r) in
  half (firstn 8) ++ half (skipn 8).

(** src/neo/fixed_point/simd.hpp:57-74 — mul_kernel_s16<F> (8 lanes): _mm_mulhrs_epi16
    for F = 15, otherwise as above with 32-bit products. *)
Definition mulhrs (a b : Z) : Z := as_signed 16 (Z.shiftr (Z.shiftr (a * b) 14 + 1) 1).
Definition sse_mul_kernel_s16 (F : Z) (l r : list Z) : list Z :=
  if F =? 15 then lanes mulhrs l r else
  let half f := lanes (fun a b => sat_lane 16 (as_signed 32 (srli F (mullo 32 a b)))) (f l) (f r) in
  half (firstn 4) ++ half (skipn 4).

(** src/neo/simd/sse2.hpp:104-120 (same structure in neon.hpp:13-46) — simd::apply_kernel:
    scalar remainder first, then whole vectors.  [lhs], [rhs] may be the output. *)
Definition apply_kernel (vector_size : nat) (scalar : Z -> Z -> outcome Z)
    (vector : list Z -> list Z -> list Z) (lhs rhs : operand Z) (out : list Z) : outcome (list Z) :=
  let size := length (contents lhs out) in
  let remainder := (size mod vector_size)%nat in
  out <- for_range 0 remainder (fun i out =>
      a <- rd (contents lhs out) i ;; b <- rd (contents rhs out) i ;;
      v <- scalar a b ;; wr out i v) out ;;
  for_step remainder size vector_size (fun i out =>
      left <- slice (contents lhs out) i (i + vector_size) ;;
      right <- slice (contents rhs out) i (i + vector_size) ;;
      splice out i (vector left right)) out.

(** src/neo/fixed_point/algorithm.hpp:42-44, 100-102 — scalar loop. *)
Definition scalar_loop (scalar : Z -> Z -> outcome Z) (lhs rhs : operand Z) (out : list Z)
  : outcome (list Z) :=
  for_range 0 (length (contents lhs out)) (fun i out =>
    a <- rd (contents lhs out) i ;; b <- rd (contents rhs out) i ;;
    v <- scalar a b ;; wr out i v) out.

(** Instruction set selected by the NEO_HAS_ISA_* macros. *)
Inductive isa := Scalar | Sse2 | Sse41 | Neon.
Definition has_simd (i : isa) : bool := match i with Scalar => false | _ => true end.

(** src/neo/fixed_point/algorithm.hpp:20-45 — apply_fixed_point_kernel. *)
Definition apply_fixed_point_kernel (i : isa) (t : ity) (scalar : Z -> Z -> outcome Z)
    (vector : Z -> list Z -> list Z -> list Z) (lhs rhs : operand Z) (out : list Z) : outcome (list Z) :=
  if has_simd i && (iwidth t =? 8) then apply_kernel 16 scalar (vector 8) lhs rhs out
  else if has_simd i && (iwidth t =? 16) then apply_kernel 8 scalar (vector 16) lhs rhs out
  else scalar_loop scalar lhs rhs out.

(** src/neo/fixed_point/algorithm.hpp:51-58. *)
Definition array_add (i : isa) (t : ity) := apply_fixed_point_kernel i t (fp_add t) add_kernel.
(** src/neo/fixed_point/algorithm.hpp:62-69. *)
Definition array_subtract (i : isa) (t : ity) := apply_fixed_point_kernel i t (fp_sub t) sub_kernel.
(** src/neo/fixed_point/algorithm.hpp:73-104. *)
Definition array_multiply (i : isa) (t : ity) (F : Z) (lhs rhs : operand Z) (out : list Z)
  : outcome (list Z) :=
  match i with
  | Sse41 =>
    if iwidth t =? 8 then apply_kernel 16 (fp_mul t F) (sse_mul_kernel_s8 F) lhs rhs out
    else if iwidth t =? 16 then apply_kernel 8 (fp_mul t F) (sse_mul_kernel_s16 F) lhs rhs out
    else scalar_loop (fp_mul t F) lhs rhs out
  | Neon =>
    if (iwidth t =? 16) && (F =? 15) then apply_kernel 8 (fp_mul t F) neon_mul_kernel_s16 lhs rhs out
    else scalar_loop (fp_mul t F) lhs rhs out
  | _ => scalar_loop (fp_mul t F) lhs rhs out
  end.
