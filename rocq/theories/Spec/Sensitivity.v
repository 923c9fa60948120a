(** Vocabulary for C70: how far the output of a partitioned convolver moves when the spectra of
    its partitions change. *)
From Coq Require Import Reals List Arith.
From Verif Require Import Base.Outcome Base.Cplx.
Import ListNotations.
Open Scope R_scope.

(** Bins 1 .. B-1 of a real signal of 2B samples stand for two frequencies of its spectrum. *)
Definition bin_weight (B j : nat) : R := if ((j =? 0) || (j =? B))%nat%bool then 1 else 2.

(** Sum of the magnitudes of all bins of some partitions. *)
Definition spectral_mass (rows B : nat) (mat : list (list C)) : R :=
  Rsum rows (fun p => Rsum (B + 1) (fun j => bin_weight B j * Cabs (nth j (nth p mat []) C0))).

(** The same for the difference of two matrices. *)
Definition spectral_distance (rows B : nat) (mat mat' : list (list C)) : R :=
  Rsum rows (fun p => Rsum (B + 1) (fun j => bin_weight B j * Cabs (nth j (nth p mat []) C0 - nth j (nth p mat' []) C0)%C)).

(** The same for the bins a predicate rejects. *)
Definition rejected_mass (pred : nat -> nat -> C -> bool) (rows B : nat) (mat : list (list C)) : R :=
  Rsum rows (fun p => Rsum (B + 1) (fun j =>
    let v := nth j (nth p mat []) C0 in if pred p j v then 0 else bin_weight B j * Cabs v)).

(** Every sample of the blocks is at most [M] in magnitude. *)
Definition peak_of (M : R) (blocks : list (list R)) : Prop := forall b v, In b blocks -> In v b -> Rabs v <= M.

(** Two streams of blocks have the same shape, and samples at the same place differ by at most [d]. *)
Definition within (d : R) (xs ys : list (list R)) : Prop :=
  Forall2 (Forall2 (fun x y => Rabs (x - y) <= d)) xs ys.
