(** Vocabulary for the plugin as a whole. *)
From Coq Require Import Reals List Arith.
From Verif Require Import Base.Outcome Spec.Framer Model.PluginConvolution Model.PluginEffect.
Import ListNotations.

(** The blocks of a session and the value of a parameter at each sample of it. *)
Definition session_blocks (session : list (params * list (list R))) : list (list (list R)) := map snd session.
Definition parameter_stream (f : params -> R) (session : list (params * list (list R))) : list R :=
  concat (map (fun pb => repeat (f (fst pb)) (block_length (snd pb))) session).

(** Every block has samples. *)
Definition nonempty_blocks (session : list (params * list (list R))) : Prop := forall p b, In (p, b) session -> 0 < block_length b.

(** Volumes of the balanced mixing rule: both full at 1/2. *)
Definition dry_volume (wet : R) : R := (2 * Rmin (1 / 2) (1 - wet))%R.
Definition wet_volume (wet : R) : R := (2 * Rmin (1 / 2) wet)%R.

(** The gain moves in a straight line, in S samples, to each new target from where it was when
    the target changed; it starts at [start]. *)
Definition follows (S : nat) (start : R) (n : nat) (target gain : nat -> R) : Prop :=
  forall t t0, t0 <= t < n -> (forall u, t0 <= u <= t -> target u = target t) -> (t0 = 0 \/ target (t0 - 1) <> target t0) ->
    let before := if Nat.eqb t0 0 then start else gain (t0 - 1) in
    gain t = if Nat.eqb S 0 then target t else (before + (target t - before) * Rmin 1 (INR (t - t0 + 1) / INR S))%R.

(** Two streams multiplied sample by sample. *)
Definition amplified (gains x : list R) : list R := tab (length x) (fun t => nth t gains 0 * nth t x 0)%R.

(** A stream whose first samples are what was in memory. *)
Definition after_memory (n : nat) (memory stream : list R) : list R :=
  tab (length stream) (fun t => if Nat.ltb t n then nth t memory 0%R else nth t stream 0%R).

(** 50 ms in whole samples. *)
Definition ramp_length (S : nat) (rate : R) : Prop := (INR S <= rate / 20 < INR S + 1)%R.

(** The wet parameter of the last block, [before] if there was none. *)
Definition last_wet (before : R) (session : list (params * list (list R))) : R := last (map (fun pb => p_wet (fst pb)) session) before.

(** A plugin instance after any calls that returned; whether it was prepared, and the wet
    parameter of the last block it played since then, 1 if there was none. *)
Inductive effect_reach : bool -> R -> effect -> Prop :=
| er_made : effect_reach false 1 effect_make
| er_prepared : forall b w e resampler file rate N main_out frame unused output e', effect_reach b w e ->
    prepareToPlay resampler file rate N main_out frame unused output e = Ok e' -> effect_reach true w e'
| er_released : forall b w e, effect_reach b w e -> effect_reach b w (releaseResources e)
| er_played : forall b w e main_in main_out session e' outs, effect_reach b w e ->
    play main_in main_out session e = Ok (e', outs) -> effect_reach b (if b then last_wet w session else w) e'.

(** The output of one channel: input gain, convolution, mix of both, output gain.  [wet_stream]
    is what the convolution makes of the amplified input. *)
Definition effect_stream (session : list (params * list (list R))) (dry wet : nat -> R) (wet_stream : list R) (ch : nat) : list R :=
  tab (stream_length (session_blocks session)) (fun t =>
    nth t (parameter_stream p_outGain session) 0 *
    (wet t * nth t wet_stream 0 + dry t * (nth t (parameter_stream p_inGain session) 0 * nth t (channel_stream (session_blocks session) ch) 0)))%R.
Definition amplified_input (session : list (params * list (list R))) (ch : nat) : list R :=
  amplified (parameter_stream p_inGain session) (channel_stream (session_blocks session) ch).

(** The volumes of both during a session, when [before] is the wet parameter before it. *)
Definition volumes_follow (S : nat) (before : R) (session : list (params * list (list R))) (dry wet : nat -> R) : Prop :=
  follows S (dry_volume before) (stream_length (session_blocks session)) (fun t => dry_volume (nth t (parameter_stream p_wet session) 0%R)) dry /\
  follows S (wet_volume before) (stream_length (session_blocks session)) (fun t => wet_volume (nth t (parameter_stream p_wet session) 0%R)) wet.

(** The input F - 1 samples late, times 2. *)
Definition doubled_late (F : nat) (stream : list R) : list R :=
  tab (length stream) (fun t => if Nat.ltb t (F - 1) then 0%R else (2 * nth (t - (F - 1)) stream 0)%R).
