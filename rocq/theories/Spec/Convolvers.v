(** Vocabulary for C44-C48: a convolver seen as a function from input blocks to output blocks. *)
From Coq Require Import Reals List Arith.
From Verif Require Import Base.Outcome Base.Cplx Spec.Convolution Model.Convolution Model.Stft.
Import ListNotations.

(** The six class templates of dense_convolver.hpp and sparse_convolver.hpp.  A split
    convolver may use SIMD registers of some width; the sparse ones get a predicate. *)
Inductive convolver_kind :=
| Upols | Upola
| SplitUpols (lanes : option nat) | SplitUpola (lanes : option nat)
| SparseUpols (pred : nat -> nat -> C -> bool) | SparseUpola (pred : nat -> nat -> C -> bool).

Definition valid_kind (k : convolver_kind) : Prop :=
  match k with
  | SplitUpols (Some l) | SplitUpola (Some l) => 0 < l
  | _ => True
  end.

(** Calls filter() on a convolver, then processes the blocks one after the other. *)
Definition filter_and_run {ov fdl flt} (c : upc ov fdl flt) (rows cols : nat) (mat : list (list C)) (args : flt_args flt)
  (blocks : list (list R)) : outcome (list (list R)) :=
  c <- upc_filter c rows cols mat args ;; '(_, outs) <- upc_stream c blocks ;; Ok outs.

(** The same on a default-constructed convolver of the given kind. *)
Definition convolver (k : convolver_kind) (rows cols : nat) (mat : list (list C)) (blocks : list (list R))
  : outcome (list (list R)) :=
  match k with
  | Upols => c <- make_upc ols dense_fdl dense_filter ;; filter_and_run c rows cols mat tt blocks
  | Upola => c <- make_upc ola dense_fdl dense_filter ;; filter_and_run c rows cols mat tt blocks
  | SplitUpols l => c <- make_upc ols dense_split_fdl (dense_split_filter l) ;; filter_and_run c rows cols mat tt blocks
  | SplitUpola l => c <- make_upc ola dense_split_fdl (dense_split_filter l) ;; filter_and_run c rows cols mat tt blocks
  | SparseUpols p => c <- make_upc ols dense_fdl sparse_filter ;; filter_and_run c rows cols mat p blocks
  | SparseUpola p => c <- make_upc ola dense_fdl sparse_filter ;; filter_and_run c rows cols mat p blocks
  end.

(** The documented use: filter(uniform_partition(h, B)), then blocks. *)
Definition partitioned (k : convolver_kind) (B : nat) (h : list R) (blocks : list (list R)) : outcome (list (list R)) :=
  parts <- uniform_partition 1 (length h) [h] B ;;
  mat <- rd parts 0 ;;
  row <- rd mat 0 ;;
  convolver k (length mat) (length row) mat blocks.

(** The matrix with the entries a predicate rejects set to zero. *)
Definition drop_bins (pred : nat -> nat -> C -> bool) (rows cols : nat) (mat : list (list C)) : list (list C) :=
  tab rows (fun i => tab cols (fun j => let v := nth j (nth i mat []) C0 in if pred i j v then v else C0)).

(** a * xs + b * ys, block by block. *)
Definition mix (B : nat) (a b : R) (xs ys : list (list R)) : list (list R) :=
  tab (length xs) (fun t => tab B (fun i => a * nth i (nth t xs []) 0 + b * nth i (nth t ys []) 0)%R).

(** m blocks of silence. *)
Definition silence (B m : nat) : list (list R) := repeat (repeat 0%R B) m.

(** fft_convolver objects for sizes s and p after any number of calls that returned. *)
Inductive fft_convolver_reach (s p : nat) : fft_convolver -> Prop :=
| fc_made : forall c, make_fft_convolver s p = Ok c -> fft_convolver_reach s p c
| fc_ran : forall c x h out c' out', fft_convolver_reach s p c -> fft_convolver_run c x h out = Ok (c', out') ->
    fft_convolver_reach s p c'.
