(** What a program reads and writes when it runs alone (property C74). *)
From Coq Require Import List Arith.
From Verif Require Import Base.Outcome Spec.Interleaving.
Import ListNotations.

(** The accesses in order: element, and whether it was written. *)
Fixpoint accesses {A} (p : prog A) (m : memory) : list (location * bool) :=
  match p with
  | Done _ | Crash => []
  | Read l k => (l, false) :: match m l with Some v => accesses (k v) m | None => [] end
  | Write l v k => (l, true) :: match m l with Some _ => accesses k (store m l v) | None => [] end
  end.
