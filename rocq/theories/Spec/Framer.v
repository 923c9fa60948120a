(** What a streaming overlap-add framer should output. *)
From Coq Require Import Reals List Arith Bool.
From Verif Require Import Base.Outcome Base.Cplx Spec.Stft.
Import ListNotations.

(** The samples of one channel, from the calls put end to end. *)
Definition channel_stream (blocks : list (list (list R))) (ch : nat) : list R := concat (map (fun b => nth ch b []) blocks).

(** Number of samples per channel. *)
Definition block_length (b : list (list R)) : nat := match b with [] => 0 | row :: _ => length row end.
Definition stream_length (blocks : list (list (list R))) : nat := list_sum (map block_length blocks).

(** Blocks the host may pass: [channels] channels of the same length, at most [max]. *)
Definition host_blocks (channels max : nat) (blocks : list (list (list R))) : Prop :=
  forall b, In b blocks -> matrix_of channels (block_length b) b /\ block_length b <= max.

(** How many whole frames of size F, every H samples, a stream of n samples has. *)
Definition frame_count (F H n : nat) : nat := if n <? F then 0 else (n - F) / H + 1.

(** The u-th frame of the streams, every sample times g. *)
Definition frame_at (channels F H : nat) (g : R) (stream : nat -> list R) (u : nat) : list (list R) :=
  tab channels (fun ch => tab F (fun i => nth (u * H + i) (stream ch) 0 * g)%R).
Definition frames_of (channels F H : nat) (g : R) (stream : nat -> list R) (n : nat) : list (list (list R)) :=
  tab (frame_count F H n) (frame_at channels F H g stream).

(** Run a stateful frame processor over frames, one after the other. *)
Fixpoint run_frames {St Fr} (f : St -> Fr -> outcome (St * Fr)) (s : St) (frames : list Fr) : outcome (St * list Fr) :=
  match frames with
  | [] => Ok (s, [])
  | x :: rest => '(s, y) <- f s x ;; '(s, ys) <- run_frames f s rest ;; Ok (s, y :: ys)
  end.

(** It works in place: the frame keeps its shape. *)
Definition keeps_shape {St} (channels F : nat) (f : St -> list (list R) -> outcome (St * list (list R))) : Prop :=
  forall s x s' y, matrix_of channels F x -> f s x = Ok (s', y) -> matrix_of channels F y.

(** Frames put down every H samples, the first one F - 1 samples late, and added up. *)
Definition overlap_added (F H : nat) (ys : list (list (list R))) (ch t : nat) : R :=
  Rsum (length ys) (fun u =>
    if (F - 1 + u * H <=? t) && (t <? F - 1 + u * H + F) then nth (t - (F - 1 + u * H)) (nth ch (nth u ys []) []) 0%R else 0%R).
