(** How overlap_add_convolver (upola_convolver_v2) is used: filter(), then calls of any length. *)
From Coq Require Import Reals List Arith.
From Verif Require Import Base.Outcome Base.OutcomeFacts Base.Cplx Model.Stft Model.OverlapAddConvolver.
Import ListNotations.
Open Scope outcome_scope.

(** Every call is a whole number of blocks of [b] samples. *)
Definition whole_blocks (b : nat) (calls : list (list R)) : Prop :=
  forall x, In x calls -> exists q, length x = q * b.

(** The stream [x] as blocks of [b] samples. *)
Definition chop (b : nat) (x : list R) : list (list R) :=
  tab (length x / b) (fun t => tab b (fun i => nth (t * b + i) x 0%R)).

(** filter() on the object [c], then the calls; the object and the outputs. *)
Definition v2_use (c : oac) (rows cols : nat) (mat : list (list C)) (calls : list (list R)) : outcome (oac * list (list R)) :=
  c <- oac_filter c rows cols mat ;;
  oac_stream c calls.

(** A default constructed object. *)
Definition v2_matrix (rows cols : nat) (mat : list (list C)) (calls : list (list R)) : outcome (list (list R)) :=
  c <- make_oac ;;
  '(_, ys) <- v2_use c rows cols mat calls ;;
  Ok ys.

(** filter(uniform_partition(h, B)), then the calls. *)
Definition v2_response (c : oac) (B : nat) (h : list R) (calls : list (list R)) : outcome (oac * list (list R)) :=
  parts <- uniform_partition 1 (length h) [h] B ;;
  mat <- rd parts 0 ;;
  row <- rd mat 0 ;;
  v2_use c (length mat) (length row) mat calls.

Definition partitioned_v2 (B : nat) (h : list R) (calls : list (list R)) : outcome (list (list R)) :=
  c <- make_oac ;;
  '(_, ys) <- v2_response c B h calls ;;
  Ok ys.

(** One response and some calls, then another response and more calls, on one object. *)
Definition partitioned_v2_twice (B1 : nat) (h1 : list R) (calls1 : list (list R)) (B2 : nat) (h2 : list R)
    (calls2 : list (list R)) : outcome (list (list R)) :=
  c <- make_oac ;;
  '(c, _) <- v2_response c B1 h1 calls1 ;;
  '(_, ys) <- v2_response c B2 h2 calls2 ;;
  Ok ys.
