(** src/neo/convolution/compressed_fdl.hpp and src/neo/container/compressed_accessor.hpp with
    element type complex<float>: values are reals in binary32, every float operation rounds. *)
From Coq Require Import Reals List Arith ZArith Bool.
From Flocq Require Import Core.
From Verif Require Import Base.Outcome Model.Integers Model.FixedPoint.
Import ListNotations.
Local Open Scope nat_scope.
Local Open Scope outcome_scope.

(** compressed_fdl.hpp:40-42 — max_val as float. *)
Definition cf_max (t : ity) : R := rnd32 (IZR (imax t)).

(** compressed_fdl.hpp:39-43 — compress.  std::lround rounds halves away from zero; its result
    is unspecified outside the range of long (UB here).  The cast wraps. *)
Definition cf_compress (t : ity) (val : R) : outcome Z :=
  let n := ZnearestA (rnd32 (val * cf_max t)) in
  if fitsb (Ity 64 true) n then Ok (iconv t n) else UB.

(** compressed_accessor.hpp:30-33, 38-45 — one component. *)
Definition cf_expand (t : ity) (n : Z) : R := rnd32 (rnd32 (IZR n) * rnd32 (1 / cf_max t)).

(** compressed_fdl.hpp:24, 51-52 — the storage: extents rows x cols of zeros. *)
Definition cf_make (rows cols : nat) : list (list (Z * Z)) := repeat (repeat (0%Z, 0%Z) cols) rows.

(** compressed_fdl.hpp:37-49 — insert.  Simplification: the unsigned counter does not wrap
    (extent below 2^32). *)
Definition cf_insert (t : ity) (input : list (R * R)) (index : nat) (fdl : list (list (Z * Z))) : outcome (list (list (Z * Z))) :=
  row <- rd fdl index ;;
  row <- for_range 0 (length input) (fun i row =>
    v <- rd input i ;;
    re <- cf_compress t (fst v) ;;
    im <- cf_compress t (snd v) ;;
    wr row i (re, im)) row ;;
  wr fdl index row.

(** compressed_fdl.hpp:27-35 and compressed_accessor.hpp:25-47 — fdl[index][i]. *)
Definition cf_read (t : ity) (fdl : list (list (Z * Z))) (index i : nat) : outcome (R * R) :=
  row <- rd fdl index ;;
  v <- rd row i ;;
  Ok (cf_expand t (fst v), cf_expand t (snd v)).
