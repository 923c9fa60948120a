(** Signals packed into SIMD registers: register i of an array holds sample i of every signal. *)
From Coq Require Import List.
Import ListNotations.

(** Every register has [L] lanes. *)
Definition registers {T} (L : nat) (x : list (list T)) : Prop := Forall (fun r => length r = L) x.

(** The signal in lane [j]; [d] is the value of an absent lane and irrelevant for j < L. *)
Definition lane {T} (d : T) (j : nat) (x : list (list T)) : list T := map (fun r => nth j r d) x.
