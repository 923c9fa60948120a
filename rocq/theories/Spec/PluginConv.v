(** Specification of the plugin's Convolution (C60): calls, and what a listener should hear. *)
From Coq Require Import Reals List Arith Bool.
From Verif Require Import Base.Outcome Spec.Stft Spec.Convolution Spec.Plugin Model.Fft2 Model.PluginConvolution.
Import ListNotations.
Local Open Scope nat_scope.
Local Open Scope outcome_scope.

(** Calls a host makes; a file that cannot be read is [CallLoad None]. *)
Inductive call := CallPrepare (spec : process_spec) | CallLoad (file : option audio) | CallReset | CallProcess (block : list (list R)).

(** A sequence of calls on the object, with the output block of every process() call. *)
Fixpoint run_calls (resampler : audio -> R -> audio) (lanes : option nat) (calls : list call) (c : pconv lanes)
  : outcome (pconv lanes * list (list (list R))) :=
  match calls with
  | [] => Ok (c, [])
  | CallPrepare spec :: rest => c <- pc_prepare resampler lanes spec c ;; run_calls resampler lanes rest c
  | CallLoad file :: rest => c <- pc_load resampler lanes file c ;; run_calls resampler lanes rest c
  | CallReset :: rest => run_calls resampler lanes rest (pc_reset lanes c)
  | CallProcess b :: rest =>
      '(c, out) <- pc_process lanes (samples_of b) b c ;;
      '(c, outs) <- run_calls resampler lanes rest c ;;
      Ok (c, out :: outs)
  end.

(** The listener: the last specification and response, and for every channel the samples that
    were convolved so far; no channels while the object passes its input on. *)
Record listener := Listener { l_spec : option process_spec; l_response : option audio; heard : list (list R) }.

Definition deaf : listener := Listener None None [].

(** A new response or specification: every channel starts over, and needs a response channel. *)
Definition start_over (resampler : audio -> R -> audio) (s : listener) : outcome listener :=
  match l_spec s, l_response s with
  | Some spec, Some a =>
      if numChannels spec <=? a_channels (resample resampler a (sampleRate spec)) then Ok (Listener (l_spec s) (l_response s) (repeat [] (numChannels spec))) else UB
  | _, _ => Ok s
  end.

(** One block: a block of the prepared size continues the stream of its channels, and is replaced
    by the convolution of the stream with the response.  Every other block is passed on. *)
Definition listen (resampler : audio -> R -> audio) (s : listener) (b : list (list R)) : outcome (listener * list (list R)) :=
  match l_spec s, l_response s with
  | Some spec, Some a =>
      if (length (heard s) =? 0) || negb (samples_of b =? maximumBlockSize spec) then Ok (s, b) else
      if length (heard s) <? length b then UB else
      let h ch := nth ch (a_data (resample resampler a (sampleRate spec))) [] in
      let before ch := nth ch (heard s) [] in
      Ok (Listener (l_spec s) (l_response s) (tab (length (heard s)) (fun ch => if ch <? length b then before ch ++ nth ch b [] else before ch)),
          tab (length b) (fun ch => tab (maximumBlockSize spec) (fun i => lconv (before ch ++ nth ch b []) (h ch) (length (before ch) + i))))
  | _, _ => Ok (s, b)
  end.

Fixpoint listen_all (resampler : audio -> R -> audio) (calls : list call) (s : listener) : outcome (listener * list (list (list R))) :=
  match calls with
  | [] => Ok (s, [])
  | CallPrepare spec :: rest => s <- start_over resampler (Listener (Some spec) (l_response s) (heard s)) ;; listen_all resampler rest s
  | CallLoad file :: rest =>
      s <- start_over resampler (Listener (l_spec s) (match file with Some a => Some a | None => l_response s end) (heard s)) ;; listen_all resampler rest s
  | CallReset :: rest => listen_all resampler rest (Listener (l_spec s) (l_response s) [])
  | CallProcess b :: rest =>
      '(s, out) <- listen resampler s b ;;
      '(s, outs) <- listen_all resampler rest s ;;
      Ok (s, out :: outs)
  end.

(** The calls of a host that keeps to the documented sizes: blocks of a power of two of samples,
    responses (after resampling) that have samples, channels of equal length. *)
Definition host_calls (resampler : audio -> R -> audio) (calls : list call) : Prop :=
  (forall spec, In (CallPrepare spec) calls -> exists k, 0 < k < max_order /\ maximumBlockSize spec = 2 ^ k) /\
  (forall spec a, In (CallPrepare spec) calls -> In (CallLoad (Some a)) calls -> response_fits (maximumBlockSize spec) (resample resampler a (sampleRate spec))) /\
  (forall b, In (CallProcess b) calls -> forall row, In row b -> length row = samples_of b).

(** processBlocks(): what one channel of [n] samples becomes, in blocks of [B]: whole blocks are
    convolved, the samples after the last whole block are passed on. *)
Definition played (B n : nat) (h x : list R) (i : nat) : R := if i <? n / B * B then lconv x h i else nth i x 0%R.
