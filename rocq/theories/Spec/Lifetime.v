(** Vocabulary for the life of library handles. *)
From Coq Require Import List Arith.
From Verif Require Import Base.Outcome Model.PlanLifetime.
Import ListNotations.

(** Some plan object owns handle h. *)
Definition owned (w : world) (h : nat) : Prop := exists x o, objs w x = Some o /\ own o = Some h.

(** A plan that was moved from and has not been assigned since. *)
Definition empty_plan (w : world) (x : nat) : Prop := exists o, objs w x = Some o /\ own o = None.

(** Handles of plans over which another plan was move-assigned, in the course of a history. *)
Definition overwritten (w : world) (op : plan_op) : list nat :=
  match op with
  | MoveAssign x y =>
      if Nat.eqb x y then [] else
      match objs w x with
      | Some o => match own o with Some h => [h] | None => [] end
      | None => []
      end
  | _ => []
  end.
Fixpoint all_overwritten (b : vendor) (w : world) (ops : list plan_op) : list nat :=
  match ops with
  | [] => []
  | op :: rest => overwritten w op ++ match step b w op with Ok w' => all_overwritten b w' rest | _ => [] end
  end.
