(** What the host and the user know of the parameters. *)
From Coq Require Import Reals List.
From Verif Require Import Model.PluginState.
Import ListNotations.
Local Open Scope R_scope.

(** The values a parameter can have. *)
Definition highest (p : param) : R := match p with Wet => 1 | _ => 4 end.

(** The value of a parameter whose slider is at [x] of its way, in [0, 1]. *)
Definition at_position (p : param) (x : R) : R := match p with Wet => x | _ => 4 * x ^ 2 end.

(** A history without what happened after the values were last written down: by the timer, or
    because a saved state was restored. *)
Definition writes (e : state_event) : bool :=
  match e with Timer => true | Restore (Some _) => true | _ => false end.
Fixpoint drop_late (reversed : list state_event) : list state_event :=
  match reversed with [] => [] | e :: es => if writes e then reversed else drop_late es end.
Definition written_down (events : list state_event) : list state_event := rev (drop_late (rev events)).
