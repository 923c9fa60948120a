(** Vocabulary for C41: what an fdl_index tells its two callbacks. *)
From Coq Require Import List Arith.
From Verif Require Import Base.Outcome Model.Convolution.
Import ListNotations.

(** Calls of the copy callback (row) and of the multiply callback (row, filter partition). *)
Inductive event := Insert (row : nat) | Multiply (row filter : nat).

(** One call of the index with callbacks that write down their arguments. *)
Definition logged_call (x : fdl_index) : outcome (fdl_index * list event) :=
  fdl_index_run x (fun row log => Ok (log ++ [Insert row]))
    (fun row filter log => Ok (log ++ [Multiply row filter])) [].

(** A new index over n segments called T times: the log of every call. *)
Fixpoint logged_calls (n T : nat) : outcome (fdl_index * list (list event)) :=
  match T with
  | 0 => Ok (make_fdl_index n, [])
  | S T => '(x, logs) <- logged_calls n T ;; '(x, log) <- logged_call x ;; Ok (x, logs ++ [log])
  end.


(** Number of multiplications with a filter partition in a log. *)
Definition uses (s : nat) (log : list event) : nat :=
  length (filter (fun e => match e with Multiply _ f => f =? s | _ => false end) log).
