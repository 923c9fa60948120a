(** Threads over a shared memory, for property C73: programs as trees of single accesses,
    interleavings, data races.  Nothing here models a particular function of /repo.

    An access is to one array element.  A complex element is accessed at once; in the
    absence of races (which is what is proved) the grain does not matter. *)
From Coq Require Import List Arith Reals.
From Verif Require Import Base.Outcome Base.Cplx.
Import ListNotations.

(** What an array element holds: an index, a complex or a real number. *)
Inductive value := Index (n : nat) | Cpx (c : C) | Flt (r : R).

(** An element of an array object; memory that is not part of an object is [None]. *)
Definition location := (nat * nat)%type.
Definition memory := location -> option value.

Definition loc_eqb (a b : location) : bool := (fst a =? fst b) && (snd a =? snd b).
Definition store (m : memory) (l : location) (v : value) : memory :=
  fun l' => if loc_eqb l' l then Some v else m l'.

(** What is left to do of a thread: nothing, a read, a write, or it has done something
    undefined. *)
Inductive prog (A : Type) : Type :=
| Done (a : A)
| Read (l : location) (k : value -> prog A)
| Write (l : location) (v : value) (k : prog A)
| Crash.
Arguments Done {A} _.
Arguments Read {A} _ _.
Arguments Write {A} _ _ _.
Arguments Crash {A}.

Fixpoint pbind {A B} (p : prog A) (k : A -> prog B) : prog B :=
  match p with
  | Done a => k a
  | Read l f => Read l (fun v => pbind (f v) k)
  | Write l v q => Write l v (pbind q k)
  | Crash => Crash
  end.

Notation "x <~ e ;; k" := (pbind e (fun x => k)) (at level 61, e at next level, right associativity).

(** Next access of one thread. *)
Definition thread_step (p : prog unit) (m : memory) : option (prog unit * memory) :=
  match p with
  | Done _ | Crash => None
  | Read l k => match m l with Some v => Some (k v, m) | None => Some (Crash, m) end
  | Write l v k => match m l with Some _ => Some (k, store m l v) | None => Some (Crash, m) end
  end.

Definition config := (list (prog unit) * memory)%type.

(** Any thread may go next. *)
Inductive step : config -> config -> Prop :=
| step_thread : forall ps m t p p' m', nth_error ps t = Some p -> thread_step p m = Some (p', m') ->
    step (ps, m) (upd ps t p', m').

Inductive steps : nat -> config -> config -> Prop :=
| steps_0 : forall c, steps 0 c c
| steps_S : forall n c c' c'', steps n c c' -> step c' c'' -> steps (S n) c c''.

(** Two threads are about to touch the same element, at least one of them to write it. *)
Definition touches (p : prog unit) (l : location) (writing : bool) : Prop :=
  match p with
  | Read l' _ => l' = l /\ writing = false
  | Write l' _ _ => l' = l /\ writing = true
  | _ => False
  end.
Definition racing (c : config) : Prop :=
  exists t u p q l w, t <> u /\ nth_error (fst c) t = Some p /\ nth_error (fst c) u = Some q /\
    touches p l true /\ touches q l w.

Definition crashed (c : config) : Prop := In Crash (fst c).
Definition finished (c : config) : Prop := forall p, In p (fst c) -> p = Done tt.

(** Array object [o] holds the list [xs]. *)
Definition holds {T} (inj : T -> value) (m : memory) (o : nat) (xs : list T) : Prop :=
  forall i, m (o, i) = nth_error (map inj xs) i.
