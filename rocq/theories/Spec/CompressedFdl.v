(** Histories of a compressed frequency-domain delay line. *)
From Coq Require Import Reals List Arith ZArith.
From Verif Require Import Base.Outcome Model.Integers Model.FixedPoint Model.CompressedFdl Proof.FixedFloat.
Import ListNotations.
Local Open Scope R_scope.
Local Open Scope outcome_scope.

(** A sequence of insert(values, index) calls. *)
Fixpoint cf_run (t : ity) (ops : list (nat * list (R * R))) (fdl : list (list (Z * Z))) : outcome (list (list (Z * Z))) :=
  match ops with
  | [] => Ok fdl
  | (index, values) :: rest => fdl <- cf_insert t values index fdl ;; cf_run t rest fdl
  end.

(** The value most recently inserted at row r, column c. *)
Fixpoint newest (ops : list (nat * list (R * R))) (r c : nat) : option (R * R) :=
  match ops with
  | [] => None
  | (index, values) :: rest =>
      match newest rest r c with
      | Some v => Some v
      | None => if ((index =? r) && (c <? length values))%nat%bool then Some (nth c values (0, 0)) else None
      end
  end.

(** Calls within the extents, with binary32 components of magnitude at most 1. *)
Definition unit_float (x : R) : Prop := float32 x /\ Rabs x <= 1.
Definition good_insert (rows cols : nat) (op : nat * list (R * R)) : Prop :=
  (fst op < rows)%nat /\ (length (snd op) <= cols)%nat /\ forall v, In v (snd op) -> unit_float (fst v) /\ unit_float (snd v).

(** One half of a quantisation step plus float rounding. *)
Definition cf_error (t : ity) : R := 1 / (2 * IZR (imax t)) + / 2 ^ 22.
