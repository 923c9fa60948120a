(** Outcomes, arrays and loops: the vocabulary in which the C++ code is modelled.
    Nothing here models a particular function of /repo. *)
From Coq Require Import List Arith Lia Bool.
Import ListNotations.

(** Result of running a piece of C++: a value, undefined behaviour
    (out-of-range access, signed overflow, endless loop...) or an exception. *)
Inductive outcome (A : Type) : Type :=
| Ok (a : A)
| UB
| Throw.
Arguments Ok {A} _.
Arguments UB {A}.
Arguments Throw {A}.

Definition bind {A B} (m : outcome A) (k : A -> outcome B) : outcome B :=
  match m with
  | Ok a => k a
  | UB => UB
  | Throw => Throw
  end.

Declare Scope outcome_scope.
Delimit Scope outcome_scope with outcome.
Notation "x <- e ;; k" := (bind e (fun x => k))
  (at level 61, e at next level, right associativity) : outcome_scope.
Notation "' p <- e ;; k" := (bind e (fun x => match x with p => k end))
  (at level 61, p pattern, e at next level, right associativity) : outcome_scope.
Open Scope outcome_scope.

(** [guard b]: continue when [b], undefined behaviour otherwise. *)
Definition guard (b : bool) : outcome unit := if b then Ok tt else UB.

(** Array element read [a[i]]. *)
Definition rd {T} (l : list T) (i : nat) : outcome T :=
  match nth_error l i with
  | Some v => Ok v
  | None => UB
  end.

Fixpoint upd {T} (l : list T) (i : nat) (v : T) : list T :=
  match l, i with
  | [], _ => []
  | _ :: t, O => v :: t
  | h :: t, S i' => h :: upd t i' v
  end.

(** Array element write [a[i] = v]. *)
Definition wr {T} (l : list T) (i : nat) (v : T) : outcome (list T) :=
  if i <? length l then Ok (upd l i v) else UB.

(** [n] iterations, the loop variable being [lo], [lo+step], ... *)
Fixpoint loop {S} (n lo step : nat) (body : nat -> S -> outcome S) (s : S) : outcome S :=
  match n with
  | O => Ok s
  | Datatypes.S n' => s' <- body lo s ;; loop n' (lo + step) step body s'
  end.

(** [for (i = lo; i < hi; ++i) body] *)
Definition for_range {S} (lo hi : nat) (body : nat -> S -> outcome S) (s : S) : outcome S :=
  loop (hi - lo) lo 1 body s.

(** [for (i = lo; i < hi; i += step) body] *)
Definition for_step {S} (lo hi step : nat) (body : nat -> S -> outcome S) (s : S) : outcome S :=
  if step =? 0 then (if lo <? hi then UB else Ok s)
  else loop ((hi - lo + (step - 1)) / step) lo step body s.

(** [n] iterations counting down: loop variable [lo], [lo-1], ... *)
Fixpoint loop_down {S} (n lo : nat) (body : nat -> S -> outcome S) (s : S) : outcome S :=
  match n with
  | O => Ok s
  | Datatypes.S n' => s' <- body lo s ;; loop_down n' (lo - 1) body s'
  end.

(** [while (c s) s = body s], at most [fuel] iterations. *)
Fixpoint while_fuel {S} (fuel : nat) (c : S -> bool) (body : S -> outcome S) (s : S) : outcome S :=
  if c s then
    match fuel with
    | O => UB
    | Datatypes.S f => s' <- body s ;; while_fuel f c body s'
    end
  else Ok s.

(** Sub-array [a[lo, hi)] (std::submdspan with a tuple slice). *)
Definition slice {T} (l : list T) (lo hi : nat) : outcome (list T) :=
  if (lo <=? hi) && (hi <=? length l) then Ok (firstn (hi - lo) (skipn lo l)) else UB.

(** Write a whole sub-array back at offset [lo]. *)
Definition splice {T} (l : list T) (lo : nat) (s : list T) : outcome (list T) :=
  if lo + length s <=? length l
  then Ok (firstn lo l ++ s ++ skipn (lo + length s) l) else UB.

(** Run a function over all elements, in order, stopping at the first UB. *)
Fixpoint mapM {A B} (f : A -> outcome B) (l : list A) : outcome (list B) :=
  match l with
  | [] => Ok []
  | a :: t => b <- f a ;; bs <- mapM f t ;; Ok (b :: bs)
  end.

(** A mathematical vector of length [n] given by its elements. *)
Definition tab {T} (n : nat) (f : nat -> T) : list T := map f (seq 0 n).
