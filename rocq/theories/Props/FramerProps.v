(** Property theorems C55: the plugin's streaming overlap-add framer.
    Specification in Spec/Framer.v. *)
From Coq Require Import Reals List Arith ZArith Lia Lra Bool.
From Verif Require Import Base.Outcome Base.OutcomeFacts Base.Cplx Spec.Stft Spec.Framer Model.ConstantOverlapAdd Proof.FramerProof.
Import ListNotations.
Local Arguments Nat.div : simpl never.
Local Arguments Nat.pow : simpl never.
Local Open Scope nat_scope.

(** An object right after prepare(): whatever the buffers contain. *)
Definition just_prepared {St} (p d nch N : nat) (user : St) (c : cola St) : Prop :=
  exists frame unused output, matrix_of nch (2 ^ p) frame /\ matrix_of nch (2 ^ p - 1) unused /\
    matrix_of nch (output_samples (2 ^ p) (2 ^ p / 2 ^ d) N) output /\
    c = prepare St (cola_make St p d user) frame unused output.

(** The frames a session cuts out of its input: every 2^(p-d) samples, times 2 * hop / frame. *)
Definition session_frames (p d nch : nat) (blocks : list (list (list R))) : list (list (list R)) :=
  frames_of nch (2 ^ p) (2 ^ p / 2 ^ d) (2 * INR (2 ^ p / 2 ^ d) / INR (2 ^ p)) (channel_stream blocks) (stream_length blocks).

(** C55.  prepare(), reset(), then blocks of any sizes up to the prepared maximum, for any frame
    processor that works in place: no access is out of range, every call returns a full block,
    and the output stream is the processed frames, added up F - 1 samples late.  The right-hand
    side does not mention how the stream was cut into blocks. *)
Theorem C55_overlap_add : forall St (pf : St -> list (list R) -> outcome (St * list (list R))) rf p d nch N user c blocks s' ys,
  d <= p -> 0 < nch -> 0 < N -> keeps_shape nch (2 ^ p) pf -> just_prepared p d nch N user c -> host_blocks nch N blocks ->
  run_frames pf (rf user) (session_frames p d nch blocks) = Ok (s', ys) ->
  exists c' outs, process_all St pf nch blocks (reset St rf c) = Ok (c', outs) /\ _user _ c' = s' /\
    length outs = length blocks /\ (forall t, t < length blocks -> matrix_of nch (block_length (nth t blocks [])) (nth t outs [])) /\
    forall ch, ch < nch -> channel_stream outs ch = tab (stream_length blocks) (overlap_added (2 ^ p) (2 ^ p / 2 ^ d) ys ch).
Proof.
  intros St pf rf p d nch N user c blocks s' ys Hd Hn HN Hk (f & u & o & Mf & Mu & Mo & ->) Hb Er.
  destruct (reset_ok St pf p d nch N Hd Hn HN Hk rf (prepare St (cola_make St p d user) f u o) blocks s' ys) as (c' & outs & E & Eu & _ & L & M & V); auto.
  - apply prepared_shaped; auto.
  - exists c', outs. auto.
Qed.

(** Two hosts that cut the same streams differently, and prepared for different block sizes, get
    the same streams back. *)
Theorem C55_block_sizes_do_not_matter : forall St (pf : St -> list (list R) -> outcome (St * list (list R))) rf p d nch N1 N2 user c1 c2 b1 b2,
  d <= p -> 0 < nch -> 0 < N1 -> 0 < N2 -> keeps_shape nch (2 ^ p) pf -> (forall s x, exists s' y, pf s x = Ok (s', y)) ->
  just_prepared p d nch N1 user c1 -> just_prepared p d nch N2 user c2 -> host_blocks nch N1 b1 -> host_blocks nch N2 b2 ->
  stream_length b1 = stream_length b2 -> (forall ch, ch < nch -> channel_stream b1 ch = channel_stream b2 ch) ->
  exists c1' c2' o1 o2, process_all St pf nch b1 (reset St rf c1) = Ok (c1', o1) /\ process_all St pf nch b2 (reset St rf c2) = Ok (c2', o2) /\
    _user _ c1' = _user _ c2' /\ forall ch, ch < nch -> channel_stream o1 ch = channel_stream o2 ch.
Proof.
  intros St pf rf p d nch N1 N2 user c1 c2 b1 b2 Hd Hn HN1 HN2 Hk Ht P1 P2 B1 B2 L E.
  assert (Q : forall frames s, exists s' ys, run_frames pf s frames = Ok (s', ys)).
  { induction frames as [|x rest IH]; intros s; cbn [run_frames]; [eauto|]. destruct (Ht s x) as (s1 & y & ->). cbn [bind].
    destruct (IH s1) as (s2 & ys & ->). cbn [bind]. eauto. }
  assert (S : session_frames p d nch b1 = session_frames p d nch b2).
  { unfold session_frames, frames_of. rewrite L. apply tab_ext. intros u _. unfold frame_at. apply tab_ext. intros ch Hch. rewrite E by auto. reflexivity. }
  destruct (Q (session_frames p d nch b1) (rf user)) as (s' & ys & Er).
  destruct (C55_overlap_add St pf rf p d nch N1 user c1 b1 s' ys) as (c1' & o1 & R1 & U1 & _ & _ & V1); auto.
  destruct (C55_overlap_add St pf rf p d nch N2 user c2 b2 s' ys) as (c2' & o2 & R2 & U2 & _ & _ & V2); auto.
  { rewrite <- S. exact Er. }
  exists c1', c2', o1, o2. split; auto. split; auto. split; [congruence|]. intros ch Hch. rewrite V1, V2 by auto. rewrite L. reflexivity.
Qed.

(** reset() after any session - with or without a reset before it - starts over: only the frame
    processor's own state is left from the past, after resetFrame(). *)
Theorem C55_reset_starts_over : forall St (pf : St -> list (list R) -> outcome (St * list (list R))) rf p d nch N user c (cleared : bool) past c1 outs1 blocks s1 ys1 s' ys,
  d <= p -> 0 < nch -> 0 < N -> keeps_shape nch (2 ^ p) pf -> just_prepared p d nch N user c -> host_blocks nch N past -> host_blocks nch N blocks ->
  run_frames pf (if cleared then rf user else user) (session_frames p d nch past) = Ok (s1, ys1) ->
  process_all St pf nch past (if cleared then reset St rf c else c) = Ok (c1, outs1) ->
  run_frames pf (rf s1) (session_frames p d nch blocks) = Ok (s', ys) ->
  exists c' outs, process_all St pf nch blocks (reset St rf c1) = Ok (c', outs) /\ _user _ c' = s' /\
    forall ch, ch < nch -> channel_stream outs ch = tab (stream_length blocks) (overlap_added (2 ^ p) (2 ^ p / 2 ^ d) ys ch).
Proof.
  intros St pf rf p d nch N user c cleared past c1 outs1 blocks s1 ys1 s' ys Hd Hn HN Hk (f & u & o & Mf & Mu & Mo & ->) Hb1 Hb2 Er1 Ep1 Er.
  assert (Sh : shaped p d nch N (prepare St (cola_make St p d user) f u o)) by (apply prepared_shaped; auto).
  assert (W : shaped p d nch N c1 /\ _user _ c1 = s1).
  { destruct cleared.
    - destruct (reset_ok St pf p d nch N Hd Hn HN Hk rf (prepare St (cola_make St p d user) f u o) past s1 ys1) as (c' & outs & E & Eu & Sh1 & _); auto.
      rewrite E in Ep1. injection Ep1 as <- <-. auto.
    - destruct (framer_ok St pf p d nch N Hd Hn HN Hk False (prepare St (cola_make St p d user) f u o) past s1 ys1) as (c' & outs & E & Eu & Sh1 & _); auto.
      + intros [].
      + rewrite E in Ep1. injection Ep1 as <- <-. auto. }
  destruct W as [Sh1 Eu1].
  destruct (reset_ok St pf p d nch N Hd Hn HN Hk rf c1 blocks s' ys) as (c' & outs & E & Eu & _ & L & M & V); auto.
  - rewrite Eu1. exact Er.
  - exists c', outs. auto.
Qed.

(** With a processor that leaves the frames alone: silence for F - 1 samples, then the input
    times 2 - after a rise over the first F - hop samples, where fewer frames overlap. *)
Theorem C55_identity_has_gain_two : forall St rf p d nch N (user : St) c blocks, d <= p -> 0 < nch -> 0 < N -> just_prepared p d nch N user c ->
  host_blocks nch N blocks -> let F := 2 ^ p in let H := 2 ^ (p - d) in
  exists c' outs, process_all St (fun s x => Ok (s, x)) nch blocks (reset St rf c) = Ok (c', outs) /\
    forall ch, ch < nch -> channel_stream outs ch = tab (stream_length blocks) (fun t =>
      if t <? F - 1 then 0%R else
      if t <? F - 1 + (F - H) then (nth (t - (F - 1)) (channel_stream blocks ch) 0 * (2 * INR H * INR ((t - (F - 1)) / H + 1) / INR F))%R
      else (2 * nth (t - (F - 1)) (channel_stream blocks ch) 0)%R).
Proof.
  intros St rf p d nch N user c blocks Hd Hn HN Hp Hb F H.
  assert (EH : 2 ^ p / 2 ^ d = H) by (apply (hop_is p d nch N); auto).
  assert (EF : F = 2 ^ d * H) by (unfold F; rewrite <- EH; apply (frame_hops p d nch N); auto).
  assert (PH : 0 < H) by (unfold H; apply Nat.neq_0_lt_0, Nat.pow_nonzero; lia).
  assert (Pk : 0 < 2 ^ d) by (apply Nat.neq_0_lt_0, Nat.pow_nonzero; lia).
  destruct (C55_overlap_add St (fun s x => Ok (s, x)) rf p d nch N user c blocks (rf user) (session_frames p d nch blocks)) as (c' & outs & E & _ & _ & _ & V); auto.
  - intros s x s' y M E. injection E as <- <-. auto.
  - apply identity_frames.
  - exists c', outs. split; auto. intros ch Hch. rewrite V by auto. apply tab_ext. intros t Ht. fold F.
    destruct (Nat.ltb_spec t (F - 1)) as [Hlt|Hge].
    + unfold overlap_added. apply Rsum_0. intros u _. destruct (Nat.leb_spec (F - 1 + u * (F / 2 ^ d)) t); [lia|]. reflexivity.
    + unfold session_frames. fold F in EH |- *. rewrite EH. rewrite (identity_overlap (2 ^ d)) by (auto; lia).
      assert (P1 : (0 < INR F)%R) by (apply lt_0_INR; rewrite EF; nia). assert (P2 : (0 < INR H)%R) by (apply lt_0_INR; auto).
      pose proof (Nat.div_mod (t - (F - 1)) H ltac:(lia)) as Dm. pose proof (Nat.mod_upper_bound (t - (F - 1)) H ltac:(lia)) as Mb.
      destruct (Nat.ltb_spec t (F - 1 + (F - H))) as [Hl|Hg].
      * rewrite Nat.min_l. { field. lra. }
        assert ((t - (F - 1)) / H < 2 ^ d - 1); [|lia]. apply Nat.div_lt_upper_bound; [lia|]. rewrite Nat.mul_sub_distr_l, Nat.mul_1_r, (Nat.mul_comm H), <- EF. lia.
      * rewrite Nat.min_r. { assert (EFR : INR F = (INR (2 ^ d) * INR H)%R) by (rewrite <- mult_INR; f_equal; exact EF). rewrite EFR. assert (INR (2 ^ d) <> 0%R) by (apply not_0_INR; lia). field. split; auto. lra. }
        assert (2 ^ d - 1 <= (t - (F - 1)) / H); [|lia]. apply Nat.div_le_lower_bound; [lia|]. rewrite Nat.mul_sub_distr_l, Nat.mul_1_r, (Nat.mul_comm H), <- EF. lia.
Qed.

(** Without reset(): still no access out of range, but the host hears what was in memory - a
    first block shorter than the frame is the old contents of the output buffer. *)
Theorem C55_prepare_alone_does_not_clear : forall St (pf : St -> list (list R) -> outcome (St * list (list R))) p d nch N user frame unused output b,
  d <= p -> 0 < nch -> keeps_shape nch (2 ^ p) pf ->
  matrix_of nch (2 ^ p) frame -> matrix_of nch (2 ^ p - 1) unused -> matrix_of nch (output_samples (2 ^ p) (2 ^ p / 2 ^ d) N) output ->
  matrix_of nch (block_length b) b -> 0 < block_length b <= N -> block_length b < 2 ^ p ->
  exists c', process_all St pf nch [b] (prepare St (cola_make St p d user) frame unused output) =
    Ok (c', [map (fun row => firstn (block_length b) row) output]).
Proof.
  intros St pf p d nch N user frame unused output b Hd Hn Hk Mf Mu Mo Mb Hl HF.
  destruct (emit_first St pf p d nch N user frame unused output b) as (c' & E); auto.
  exists c'. cbn [process_all]. change (match b with [] => 0 | row :: _ => length row end) with (block_length b). rewrite E. reflexivity.
Qed.

(** The hypotheses are met: frames of 4 every 2 samples, one channel, a session of blocks of 3, 1
    and 2 samples; the frame processor counts frames and doubles every other one. *)
Definition every_other (s : nat) (x : list (list R)) : outcome (nat * list (list R)) :=
  Ok (S s, if Nat.even s then x else map (map (fun v => 2 * v)%R) x).

Example C55_instance : exists c' outs,
  process_all nat every_other 1 [[[1; 2; 3]]; [[4]]; [[5; 6]]]%R
    (reset nat (fun _ => 0) (prepare nat (cola_make nat 2 1 7) [[9; 9; 9; 9]]%R [[9; 9; 9]]%R [[9; 9; 9; 9; 9; 9; 9; 9]]%R)) = Ok (c', outs) /\
  _user _ c' = 2 /\ channel_stream outs 0 = [0; 0; 0; 1; 2; 9]%R.
Proof.
  destruct (C55_overlap_add nat every_other (fun _ => 0) 2 1 1 3 7 (prepare nat (cola_make nat 2 1 7) [[9; 9; 9; 9]]%R [[9; 9; 9]]%R [[9; 9; 9; 9; 9; 9; 9; 9]]%R)
    [[[1; 2; 3]]; [[4]]; [[5; 6]]]%R 2 [[[1; 2; 3; 4]]; [[6; 8; 10; 12]]]%R) as (c' & outs & E & U & _ & _ & V); auto.
  - intros s x s' y [L W] E. injection E as <- <-. destruct (Nat.even s); [split; auto|]. split; [rewrite map_length; auto|].
    intros row Hr. apply in_map_iff in Hr. destruct Hr as (q & <- & Hq). rewrite map_length. auto.
  - exists [[9; 9; 9; 9]]%R, [[9; 9; 9]]%R, [[9; 9; 9; 9; 9; 9; 9; 9]]%R. repeat split; try (intros row [<-|[]]; reflexivity).
  - intros b [<-|[<-|[<-|[]]]]; repeat split; cbn; try lia; intros row [<-|[]]; reflexivity.
  - assert (G : (2 * INR 2 / INR 4)%R = 1%R) by (cbn; field). unfold session_frames.
    change (2 ^ 2) with 4. change (4 / 2 ^ 1) with 2. rewrite G. unfold frames_of.
    replace (frame_count _ _ _) with 2 by reflexivity. unfold frame_at, tab. cbn. unfold every_other. cbn. repeat (f_equal; try ring).
  - exists c', outs. split; auto. split; auto. rewrite V by lia. change (2 ^ 2) with 4. change (4 / 2 ^ 1) with 2. unfold overlap_added, Rsum. cbn. repeat (f_equal; try ring).
Qed.

Print Assumptions C55_overlap_add.
Print Assumptions C55_block_sizes_do_not_matter.
Print Assumptions C55_reset_starts_over.
Print Assumptions C55_identity_has_gain_two.
Print Assumptions C55_prepare_alone_does_not_clear.
