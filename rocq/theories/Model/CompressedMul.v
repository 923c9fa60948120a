(** extra/benchmark/src/fixed_point.cpp, cfloat_mul: float and complex<float> arrays kept
    as small integers and multiplied through neo::compressed_accessor views.  Values are reals in
    binary32, every float operation rounds. *)
From Coq Require Import Reals List Arith ZArith Bool.
From Verif Require Import Base.Outcome Model.Integers Model.FixedPoint Model.CompressedFdl.
Import ListNotations.
Local Open Scope nat_scope.
Local Open Scope outcome_scope.

(** fixed_point.cpp:252-257 — compress_float, the expression of compressed_fdl.hpp:39-43.  289-290 —
    std::transform over a whole array. *)
Definition cm_store (t : ity) (src : list R) : outcome (list Z) := mapM (cf_compress t) src.

(** compressed_accessor.hpp:25-33 — element [i] of the view, floating-point case. *)
Definition cm_get (t : ity) (store : list Z) (i : nat) : outcome R :=
  n <- rd store i ;; Ok (cf_expand t n).

(** src/neo/algorithm/multiply.hpp:15-20 and backend/linalg_binary_op.hpp:13-22 (rank 1) on two such
    views; fixed_point.cpp:293-301. *)
Definition cm_multiply (t : ity) (lhs rhs : list Z) (out : list R) : outcome (list R) :=
  for_range 0 (length lhs) (fun i out =>
    a <- cm_get t lhs i ;; b <- cm_get t rhs i ;; wr out i (rnd32 (a * b))) out.

(** fixed_point.cpp:274-301 — constructor, then one call; the noise signals are arguments. *)
Definition cfloat_mul (t : ity) (noise_a noise_b out : list R) : outcome (list R) :=
  lhs <- cm_store t noise_a ;;
  rhs <- cm_store t noise_b ;;
  cm_multiply t lhs rhs out.

(** ** FloatOrComplex = complex<float>, the commented-out instances of fixed_point.cpp:410-411 *)

(** fixed_point.cpp:259-272 — compress_complex over a whole array. *)
Definition cm_store_c (t : ity) (src : list (R * R)) : outcome (list (Z * Z)) :=
  mapM (fun v => re <- cf_compress t (fst v) ;; im <- cf_compress t (snd v) ;; Ok (re, im)) src.

(** compressed_accessor.hpp:34-46 — element [i] of the view, complex case. *)
Definition cm_get_c (t : ity) (store : list (Z * Z)) (i : nat) : outcome (R * R) :=
  n <- rd store i ;; Ok (cf_expand t (fst n), cf_expand t (snd n)).

(** src/neo/complex/scalar_complex.hpp:51-57 in binary32.  Simplification: no contraction to
    fused operations, finite values only. *)
Definition cmul32 (x y : R * R) : R * R :=
  (rnd32 (rnd32 (fst x * fst y) - rnd32 (snd x * snd y)), rnd32 (rnd32 (fst x * snd y) + rnd32 (snd x * fst y)))%R.

(** multiply.hpp:15-20 and linalg_binary_op.hpp:13-22 on complex views; fixed_point.cpp:274-301. *)
Definition cm_multiply_c (t : ity) (lhs rhs : list (Z * Z)) (out : list (R * R)) : outcome (list (R * R)) :=
  for_range 0 (length lhs) (fun i out =>
    a <- cm_get_c t lhs i ;; b <- cm_get_c t rhs i ;; wr out i (cmul32 a b)) out.
Definition cfloat_mul_c (t : ity) (noise_a noise_b out : list (R * R)) : outcome (list (R * R)) :=
  lhs <- cm_store_c t noise_a ;;
  rhs <- cm_store_c t noise_b ;;
  cm_multiply_c t lhs rhs out.
