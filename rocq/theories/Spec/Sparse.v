(** What sparse-matrix operations should do. *)
From Coq Require Import List Arith Bool.
From Verif Require Import Base.Outcome Model.Csr.
Import ListNotations.

Section S.
Context {T : Type}.
Variable zero : T.

(** Element (r, c) of a dense matrix given as a list of rows. *)
Definition elem (mat : list (list T)) (r c : nat) : T := nth c (nth r mat []) zero.

(** Value of the most recent insert at (r, c), zero if none. *)
Definition last_insert (ops : list (nat * nat * T)) (r c : nat) : T :=
  fold_left (fun acc op => let '(r', c', v) := op in if (r =? r') && (c =? c') then v else acc) ops zero.

(** Perform the inserts (row, column, value) in order. *)
Definition run_inserts (ops : list (nat * nat * T)) (m : csr T) : outcome (csr T) :=
  fold_left (fun om op => m <- om ;; let '(r, c, v) := op in csr_insert m r c v) ops (Ok m).

(** The containers describe a sparse matrix: row offsets start at 0, never decrease and
    end at the number of stored values; the columns of each row are sorted and in range. *)
Definition csr_wf (m : csr T) : Prop :=
  length (c_rowidx m) = c_rows m + 1 /\ nth 0 (c_rowidx m) 0 = 0 /\
  nth (c_rows m) (c_rowidx m) 0 = length (c_values m) /\ length (c_colidx m) = length (c_values m) /\
  (forall r, r < c_rows m -> nth r (c_rowidx m) 0 <= nth (r + 1) (c_rowidx m) 0) /\
  (forall r i j, r < c_rows m -> nth r (c_rowidx m) 0 <= i <= j -> j < nth (r + 1) (c_rowidx m) 0 ->
     nth i (c_colidx m) 0 <= nth j (c_colidx m) 0 /\ nth j (c_colidx m) 0 < c_cols m).

(** No stored entry at (r, c). *)
Definition fresh (m : csr T) (r c : nat) : Prop :=
  forall i, nth r (c_rowidx m) 0 <= i < nth (r + 1) (c_rowidx m) 0 -> nth i (c_colidx m) 0 <> c.

(** Matrices reachable by the sized constructor, the dense constructor and inserts. *)
Inductive made : csr T -> Prop :=
| made_empty : forall rows cols, made (csr_empty rows cols)
| made_build : forall rows cols mat keep m, length mat = rows -> (forall l, In l mat -> length l = cols) ->
    csr_build zero rows cols mat keep = Ok m -> made m
| made_insert : forall m r c v m', made m -> r < c_rows m -> c < c_cols m ->
    csr_insert m r c v = Ok m' -> made m'.

(** The same, never inserting at a position that already has an entry. *)
Inductive made_once : csr T -> Prop :=
| once_empty : forall rows cols, made_once (csr_empty rows cols)
| once_build : forall rows cols mat keep m, length mat = rows -> (forall l, In l mat -> length l = cols) ->
    csr_build zero rows cols mat keep = Ok m -> made_once m
| once_insert : forall m r c v m', made_once m -> r < c_rows m -> c < c_cols m -> fresh m r c ->
    csr_insert m r c v = Ok m' -> made_once m'.
End S.
