(** Specification: the documented use of the partitioned convolver in rounded arithmetic. *)
From Coq Require Import Reals List.
From Verif Require Import Base.Outcome Base.Cplx Spec.Convolvers Model.Convolution Model.RoundedConv.
Import ListNotations.
Local Open Scope outcome_scope.

(** filter(uniform_partition(h, B)) on a default-constructed upols_convolver, then blocks. *)
Definition rpartitioned (rnd fcos fsin : R -> R) (B : nat) (h : list R) (blocks : list (list R)) : outcome (list (list R)) :=
  parts <- runiform_partition rnd fcos fsin 1 (length h) [h] B ;;
  mat <- rd parts 0 ;;
  row <- rd mat 0 ;;
  c <- make_upc (rols rnd fcos fsin) dense_fdl (rdense_filter rnd) ;;
  filter_and_run c (length mat) (length row) mat tt blocks.

(** The same on a split_upols_convolver whose multiply-add runs the scalar loop, or SIMD registers
    of the given number of lanes. *)
Definition rpartitioned_split (rnd fcos fsin : R -> R) (lanes : option nat) (B : nat) (h : list R) (blocks : list (list R)) : outcome (list (list R)) :=
  parts <- runiform_partition rnd fcos fsin 1 (length h) [h] B ;;
  mat <- rd parts 0 ;;
  row <- rd mat 0 ;;
  c <- make_upc (rols rnd fcos fsin) dense_split_fdl (rdense_split_filter rnd lanes) ;;
  filter_and_run c (length mat) (length row) mat tt blocks.

(** The same two on an upola_convolver and a split_upola_convolver. *)
Definition rpartitioned_add (rnd fcos fsin : R -> R) (B : nat) (h : list R) (blocks : list (list R)) : outcome (list (list R)) :=
  parts <- runiform_partition rnd fcos fsin 1 (length h) [h] B ;;
  mat <- rd parts 0 ;;
  row <- rd mat 0 ;;
  c <- make_upc (rola rnd fcos fsin) dense_fdl (rdense_filter rnd) ;;
  filter_and_run c (length mat) (length row) mat tt blocks.
Definition rpartitioned_add_split (rnd fcos fsin : R -> R) (lanes : option nat) (B : nat) (h : list R) (blocks : list (list R)) : outcome (list (list R)) :=
  parts <- runiform_partition rnd fcos fsin 1 (length h) [h] B ;;
  mat <- rd parts 0 ;;
  row <- rd mat 0 ;;
  c <- make_upc (rola rnd fcos fsin) dense_split_fdl (rdense_split_filter rnd lanes) ;;
  filter_and_run c (length mat) (length row) mat tt blocks.
