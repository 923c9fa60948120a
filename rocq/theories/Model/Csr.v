(** Compressed sparse row matrix: src/neo/container/csr_matrix.hpp and the sparse
    multiply_add.  Indices are unbounded (overflow of IndexType is not modelled). *)
From Coq Require Import List Arith Bool.
From Verif Require Import Base.Outcome Base.Alias.
Import ListNotations.

Section Csr.
Variable T : Type.
Variable zero : T.   (* T{} *)

(** src/neo/container/csr_matrix.hpp:51-56. *)
Record csr := Csr { c_rows : nat; c_cols : nat; c_values : list T; c_colidx : list nat; c_rowidx : list nat }.

(** src/neo/container/csr_matrix.hpp:58-62. *)
Definition csr_empty (rows cols : nat) : csr := Csr rows cols [] [] (repeat 0 (rows + 1)).

(** src/neo/container/csr_matrix.hpp:64-98 — csr_matrix(matrix, filter); the dense matrix
    is the list of its rows, all of length [cols]. *)
Definition csr_build (rows cols : nat) (mat : list (list T)) (filter : nat -> nat -> T -> bool) : outcome csr :=
  count <- for_range 0 rows (fun r count =>
    row <- rd mat r ;;
    for_range 0 cols (fun c count =>
      v <- rd row c ;; Ok (if filter r c v then count + 1 else count)) count) 0 ;;
  '(idx, values, colidx, rowidx) <- for_range 0 rows (fun r s =>
      let '(idx, values, colidx, rowidx) := s in
      row <- rd mat r ;;
      rowidx <- wr rowidx r idx ;;
      for_range 0 cols (fun c s =>
        let '(idx, values, colidx, rowidx) := s in
        v <- rd row c ;;
        if filter r c v then
          values <- wr values idx v ;;
          colidx <- wr colidx idx c ;;
          Ok (idx + 1, values, colidx, rowidx)
        else Ok s) (idx, values, colidx, rowidx))
    (0, repeat zero count, repeat 0 count, repeat 0 (rows + 1)) ;;
  rowidx <- wr rowidx (length rowidx - 1) idx ;;
  Ok (Csr rows cols values colidx rowidx).

(** src/neo/container/csr_matrix.hpp:131-140 — operator()(row, col). *)
Definition csr_get (m : csr) (row col : nat) : outcome T :=
  lo <- rd (c_rowidx m) row ;;
  hi <- rd (c_rowidx m) (row + 1) ;;
  r <- for_range lo hi (fun i found =>
    match found with
    | Some v => Ok (Some v)
    | None =>
      c <- rd (c_colidx m) i ;;
      if c =? col then v <- rd (c_values m) i ;; Ok (Some v) else Ok None
    end) None ;;
  Ok match r with Some v => v | None => zero end.

(** std::vector::insert(next(begin, i), v). *)
Definition vec_insert {A} (l : list A) (i : nat) (v : A) : outcome (list A) :=
  if i <=? length l then Ok (firstn i l ++ v :: skipn i l) else UB.

(** src/neo/container/csr_matrix.hpp:145-148 — scan for the insert position; the state
    carries the value of the loop condition, whose evaluation reads the column. *)
Definition csr_scan (colidx : list nat) (lo hi col : nat) : outcome nat :=
  let test idx := if idx <? hi then c <- rd colidx idx ;; Ok (c <? col) else Ok false in
  go <- test lo ;;
  '(idx, _) <- while_fuel (hi - lo) (fun s : nat * bool => snd s)
    (fun s => go <- test (fst s + 1) ;; Ok (fst s + 1, go)) (lo, go) ;;
  Ok idx.

(** src/neo/container/csr_matrix.hpp:142-157 — insert(row, col, value). *)
Definition csr_insert (m : csr) (row col : nat) (value : T) : outcome csr :=
  lo <- rd (c_rowidx m) row ;;
  hi <- rd (c_rowidx m) (row + 1) ;;
  idx <- csr_scan (c_colidx m) lo hi col ;;
  values <- vec_insert (c_values m) idx value ;;
  colidx <- vec_insert (c_colidx m) idx col ;;
  rowidx <- for_range (row + 1) (c_rows m + 1) (fun i rowidx =>
    v <- rd rowidx i ;; wr rowidx i (v + 1)) (c_rowidx m) ;;
  Ok (Csr (c_rows m) (c_cols m) values colidx rowidx).

(** src/neo/algorithm/multiply_add.hpp:305-324 — out[col] = x[col] * value + z[col] over
    the stored entries of one row; z may be the output. *)
Definition csr_multiply_add (mul add : T -> T -> T) (x : operand T) (m : csr) (row : nat) (z : operand T) (out : list T)
  : outcome (list T) :=
  lo <- rd (c_rowidx m) row ;;
  hi <- rd (c_rowidx m) (row + 1) ;;
  for_range lo hi (fun i out =>
    col <- rd (c_colidx m) i ;;
    a <- rd (contents x out) col ;; v <- rd (c_values m) i ;; c <- rd (contents z out) col ;;
    wr out col (add (mul a v) c)) out.
End Csr.
Arguments Csr {T}. Arguments c_rows {T}. Arguments c_cols {T}. Arguments c_values {T}.
Arguments c_colidx {T}. Arguments c_rowidx {T}. Arguments csr_empty {T}. Arguments csr_build {T}.
Arguments csr_get {T}. Arguments csr_insert {T}. Arguments csr_multiply_add {T}.
