(** What the statistics and normalisation functions compute, on the list of all elements. *)
From Coq Require Import Reals List Arith ZArith.
From Verif Require Import Base.Cplx Model.Statistics.
Import ListNotations.
Open Scope R_scope.

(** The object is well formed: a matrix has the rows and columns it claims. *)
Definition well_formed {T} (x : object T) : Prop :=
  match x with Vec _ => True | Mat r c m => length m = r /\ forall row, In row m -> length row = c end.

(** All elements, row after row. *)
Definition entries {T} (x : object T) : list T := match x with Vec v => v | Mat _ _ m => concat m end.

(** Same rank and extents. *)
Definition same_shape {A B} (x : object A) (y : object B) : Prop :=
  match x, y with
  | Vec v, Vec w => length v = length w
  | Mat r c _, Mat r' c' _ => r = r' /\ c = c'
  | _, _ => False
  end.

(** Extents representable as int. *)
Definition int_extents {T} (x : object T) : Prop :=
  match x with
  | Vec v => (Z.of_nat (length v) < 2 ^ 31)%Z
  | Mat r c _ => (Z.of_nat r < 2 ^ 31)%Z /\ (Z.of_nat c < 2 ^ 31)%Z
  end.

Definition obj_map {A B} (f : A -> B) (x : object A) : object B :=
  match x with Vec v => Vec (map f v) | Mat r c m => Mat r c (map (map f) m) end.

Fixpoint total (l : list R) : R := match l with [] => 0 | v :: t => v + total t end.
Definition average (l : list R) : R := total l / INR (length l).
Definition energy (l : list R) : R := total (map (fun v => v * v) l).

(** Population variance: mean squared distance from the average. *)
Definition pvariance (l : list R) : R := average (map (fun v => (v - average l) * (v - average l)) l).

(** p is the largest magnitude. *)
Definition is_peak (l : list R) (p : R) : Prop :=
  (forall v, In v l -> Rabs v <= p) /\ exists v, In v l /\ Rabs v = p.
