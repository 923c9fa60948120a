(** Property theorems C58: the plugin's DenseConvolution.
    Specification: lconv (Spec/Convolution.v), channel_stream and host_blocks (Spec/Framer.v),
    energy (Spec/Statistics.v), dense_reach and response_fits (Spec/Plugin.v). *)
From Coq Require Import Reals List Arith ZArith Lia Lra Bool.
From Verif Require Import Base.Outcome Base.OutcomeFacts Base.Cplx Spec.Stft Spec.Convolution Spec.Statistics Spec.Framer Spec.Plugin.
From Verif Require Import Model.Fft2 Model.Integers Model.Statistics Model.Stft Model.Convolution Model.ConstantOverlapAdd Model.PluginConvolution.
From Verif Require Import Proof.DftTheory Proof.StreamProof Proof.CliProof Proof.FramerProof Proof.PluginProof Proof.DenseConvolutionProof Props.StatisticsProps.
Import ListNotations.
Local Arguments Nat.div : simpl never.
Local Arguments Nat.pow : simpl never.
Local Open Scope nat_scope.

(** C58.  Load a response and prepare, in either order and after any earlier calls: both return,
    as long as the response has the channels the host plays. *)
Theorem C58_load_and_prepare : forall resampler B nch N rate impulse c0 c1 frame unused output, block_size_ok B ->
  let r := resample resampler impulse rate in response_fits (frame_size B) r -> nch <= a_channels r ->
  dense_reach resampler B c0 -> buffers_for (frame_size B) nch N frame unused output ->
  (dense_load resampler impulse c0 = Ok c1 -> exists c, dense_prepare resampler (ProcessSpec rate N nch) frame unused output c1 = Ok c) /\
  (dense_prepare resampler (ProcessSpec rate N nch) frame unused output c0 = Ok c1 -> exists c, dense_load resampler impulse c1 = Ok c).
Proof.
  intros resampler B nch N rate impulse c0 c1 f u o HB r Hr Hle H Hbuf.
  destruct (ready_ok resampler B nch N rate impulse HB Hr Hle) as (A1 & A2 & _). split; eauto.
Qed.

(** C58.  Then reset and blocks of any sizes up to the prepared maximum: no access is out of
    range and every channel is, F - 1 samples late, the linear convolution of the input with the
    (resampled) response of that channel, times 2 and the normalisation factor. *)
Theorem C58_convolution : forall resampler B nch N rate impulse c blocks, block_size_ok B -> 0 < nch -> 0 < N ->
  let r := resample resampler impulse rate in response_fits (frame_size B) r -> nch <= a_channels r ->
  ready_with resampler B nch N rate impulse c -> host_blocks nch N blocks ->
  exists a c' outs, normalised_by a r /\ dense_process_all nch blocks (dense_reset c) = Ok (c', outs) /\
    (forall t, t < length blocks -> matrix_of nch (block_length (nth t blocks [])) (nth t outs [])) /\
    forall ch, ch < nch -> channel_stream outs ch = convolved_stream (frame_size B) (2 * a) [] (channel_stream blocks ch) (nth ch (a_data r) []).
Proof.
  intros resampler B nch N rate impulse c blocks HB Hn HN r Hr Hle Hc Hb. pose proof (order_ok B HB) as Hp. pose proof Hr as (M & _ & Hs & _).
  destruct (ready_ok resampler B nch N rate impulse HB Hr Hle) as (_ & _ & A). destruct (A c Hc) as (a & Ha & Sh & Hh). fold r in Ha, Hh.
  assert (Hl : forall ch, ch < nch -> 0 < length (scaled_response r a ch)) by (intros ch Hch; rewrite scaled_length by (auto; lia); auto).
  assert (Hb0 : forall ch, ch < nch -> blocks_of (2 ^ Nat.log2_up B) []) by (intros ch _ x []).
  destruct (session_ok _ nch N (scaled_response r a) Hp Hl Hn HN (fun _ => []) c blocks Sh Hh Hb0 Hb) as (c' & outs & E & _ & _ & _ & _ & _ & Mo & V).
  exists a, c', outs. split; auto. split; auto. split; auto. intros ch Hch. rewrite V by auto. rewrite <- (stream_len nch N blocks ch Hb Hch).
  apply (convolved_from (frame_size B) a blocks [] (scaled_response r a ch) (nth ch (a_data r) []) ch); auto.
  - apply Nat.neq_0_lt_0, Nat.pow_nonzero. lia.
  - apply (Hb0 ch Hch).
  - intros v k. unfold scaled_response. rewrite lconv_scale. ring.
Qed.

(** reset() does not silence the convolvers: each session also hears the tails of the frames of
    all sessions since the response was loaded. *)
Theorem C58_sessions : forall resampler B nch N rate impulse c sessions, block_size_ok B -> 0 < nch -> 0 < N ->
  let r := resample resampler impulse rate in response_fits (frame_size B) r -> nch <= a_channels r ->
  ready_with resampler B nch N rate impulse c -> (forall s, In s sessions -> host_blocks nch N s) ->
  exists a c' outs, normalised_by a r /\ run_sessions nch sessions c = Ok (c', outs) /\ length outs = length sessions /\
    forall s ch, s < length sessions -> ch < nch -> channel_stream (nth s outs []) ch =
      convolved_stream (frame_size B) (2 * a) (concat (map (fun past => whole_frames (frame_size B) (channel_stream past ch)) (firstn s sessions)))
        (channel_stream (nth s sessions []) ch) (nth ch (a_data r) []).
Proof.
  intros resampler B nch N rate impulse c sessions HB Hn HN r Hr Hle Hc Hb. pose proof (order_ok B HB) as Hp. pose proof Hr as (M & _ & Hs & _).
  destruct (ready_ok resampler B nch N rate impulse HB Hr Hle) as (_ & _ & A). destruct (A c Hc) as (a & Ha & Sh & Hh). fold r in Ha, Hh.
  destruct (sessions_ok _ nch N a (fun ch => nth ch (a_data r) []) (scaled_response r a) Hp Hn HN) with (sessions := sessions) (prev := fun _ : nat => @nil (list R)) (before := fun _ : nat => @nil R) (c := c)
    as (c' & outs & E & L & V); auto.
  - intros ch Hch. rewrite scaled_length by (auto; lia). auto.
  - intros ch v k Hch. unfold scaled_response. rewrite lconv_scale. ring.
  - intros ch _ x [].
  - exists a, c', outs. split; [exact Ha|]. split; [exact E|]. split; [exact L|]. exact V.
Qed.

(** Without a response: the input, times 2, F - 1 samples late. *)
Theorem C58_default_passes_through : forall resampler B nch N rate c0 frame unused output blocks, block_size_ok B -> 0 < nch -> 0 < N ->
  dense_make B = Ok c0 -> buffers_for (frame_size B) nch N frame unused output -> host_blocks nch N blocks ->
  exists c c' outs, dense_prepare resampler (ProcessSpec rate N nch) frame unused output c0 = Ok c /\
    dense_process_all nch blocks (dense_reset c) = Ok (c', outs) /\
    forall ch, ch < nch -> channel_stream outs ch = tab (stream_length blocks) (fun t =>
      if t <? frame_size B - 1 then 0%R else (2 * nth (t - (frame_size B - 1)) (channel_stream blocks ch) 0)%R).
Proof.
  intros resampler B nch N rate c0 f u o blocks HB Hn HN E0 Hbuf Hb. pose proof (order_ok B HB) as Hp. destruct (block_size_Z B HB) as [HB1 HB63].
  pose proof (reach_sized resampler B c0 HB1 HB63 (dr_made _ _ _ E0)) as S0.
  assert (I0 : _impulse (_user _ c0) = None).
  { unfold dense_make in E0. apply bind_ok in E0. destruct E0 as (k & _ & E0). injection E0 as <-. reflexivity. }
  destruct (update_identity resampler (Nat.log2_up B) nch Hp (Dense (_impulse (_user _ c0)) (Some (ProcessSpec rate (_frameSize _ c0) nch)) (_convolvers (_user _ c0)))
    (ProcessSpec rate (_frameSize _ c0) nch)) as (d & Eu & Hh & _); auto. { apply S0. }
  assert (Ep : dense_prepare resampler (ProcessSpec rate N nch) f u o c0 = Ok (set_user _ (prepare _ c0 f u o) d)).
  { unfold dense_prepare. cbn [prepare _frameSize _user sampleRate numChannels]. rewrite Eu. reflexivity. }
  assert (Sh : shaped (Nat.log2_up B) 0 nch N (set_user _ (prepare _ c0 f u o) d)) by (apply (prepare_shape B nch N c0 f u o S0 Hbuf)).
  assert (Hb0 : forall ch, ch < nch -> blocks_of (2 ^ Nat.log2_up B) []) by (intros ch _ x []).
  assert (Hl : forall ch : nat, ch < nch -> 0 < length (unit_impulse (Nat.log2_up B))) by (intros; cbn; lia).
  destruct (session_ok _ nch N (fun _ => unit_impulse (Nat.log2_up B)) Hp Hl Hn HN (fun _ => []) _ blocks Sh Hh Hb0 Hb) as (c' & outs & E & _ & _ & _ & _ & _ & _ & V).
  exists (set_user _ (prepare _ c0 f u o) d), c', outs. split; [exact Ep|]. split; [exact E|]. intros ch Hch. rewrite V by auto. apply tab_ext. intros t Ht. fold (frame_size B).
  destruct (t <? frame_size B - 1); auto. rewrite lconv_unit by auto. cbn [concat app length Nat.add]. replace 0%R with (2 * 0)%R at 1 by ring. rewrite (map_nth (fun v => 2 * v)%R). reflexivity.
Qed.

(** A response with fewer channels than the host plays - a mono response on a stereo track - makes
    prepare() or load read out of range. *)
Theorem C58_missing_channels : forall resampler B nch N rate impulse c0 c1 frame unused output, block_size_ok B ->
  let r := resample resampler impulse rate in response_fits (frame_size B) r -> a_channels r < nch ->
  dense_reach resampler B c0 ->
  (dense_load resampler impulse c0 = Ok c1 -> dense_prepare resampler (ProcessSpec rate N nch) frame unused output c1 = UB) /\
  (dense_prepare resampler (ProcessSpec rate N nch) frame unused output c0 = Ok c1 -> dense_load resampler impulse c1 = UB).
Proof.
  intros resampler B nch N rate impulse c0 c1 f u o HB r Hr Hlt H. pose proof (order_ok B HB) as Hp. destruct (block_size_Z B HB) as [HB1 HB63].
  split; intros E.
  - pose proof (dr_load _ _ _ _ _ H E) as H1. destruct (reach_sized _ _ _ HB1 HB63 H1) as [S1 S2]. destruct (load_impulse _ _ _ _ E) as (I1 & _).
    unfold dense_prepare. cbn [prepare _frameSize _user sampleRate numChannels].
    destruct (update_response resampler (Nat.log2_up B) nch Hp (Dense (_impulse (_user _ c1)) (Some (ProcessSpec rate (_frameSize _ c1) nch)) (_convolvers (_user _ c1)))
      (ProcessSpec rate (_frameSize _ c1) nch) impulse) as [_ U]; auto. cbn [sampleRate] in U. rewrite U by auto. reflexivity.
  - destruct (reach_sized _ _ _ HB1 HB63 H) as [S1 S2]. destruct (prepared_as _ _ _ _ _ _ _ E) as (_ & _ & Sp).
    unfold dense_load.
    destruct (update_response resampler (Nat.log2_up B) nch Hp (Dense (Some impulse) (_spec (_user _ c1)) (_convolvers (_user _ c1)))
      (ProcessSpec rate (_frameSize _ c0) nch) impulse) as [_ U]; auto. cbn [sampleRate] in U. rewrite U by auto. reflexivity.
Qed.

(** A stream starting after reset() should not depend on what was played before; it does. *)
Definition late_echo : audio := Audio 1 3 48000 [[0; 0; 1]]%R.

Lemma exact_refl : forall x, exact x x = true.
Proof. intros x. unfold exact. destruct (Req_EM_T x x); congruence. Qed.
Lemma echo_is : forall resampler, resample resampler late_echo 48000 = late_echo.
Proof. intros. unfold resample. cbn [a_rate late_echo]. rewrite exact_refl. reflexivity. Qed.

Lemma echo_fits : forall resampler, response_fits (frame_size 2) (resample resampler late_echo 48000).
Proof.
  intros resampler. rewrite echo_is.
  split; [split; auto; intros row [<-|[]]; auto|]. split; [cbn; lia|]. split; [cbn; lia|]. split; reflexivity.
Qed.

Lemma echo_ready : forall resampler, exists c, ready_with resampler 2 1 4 48000 late_echo c.
Proof.
  intros resampler. assert (HB : block_size_ok 2). { split; [lia|]. apply (Nat.pow_le_mono_r 2 1); unfold max_order; lia. }
  destruct (dense_make 2) as [c0| |] eqn:E0; try discriminate E0.
  assert (E1 : exists c1, dense_load resampler late_echo c0 = Ok c1) by (injection E0 as <-; eexists; reflexivity). destruct E1 as (c1 & E1).
  assert (Hbuf : buffers_for (frame_size 2) 1 4 [[7; 7]]%R [[7]]%R [[7; 7; 7; 7; 7; 7; 7]]%R).
  { repeat split; auto; intros row [<-|[]]; reflexivity. }
  assert (Hle : 1 <= a_channels (resample resampler late_echo 48000)) by (rewrite echo_is; cbn; lia).
  destruct (C58_load_and_prepare resampler 2 1 4 48000 late_echo c0 c1 [[7; 7]]%R [[7]]%R [[7; 7; 7; 7; 7; 7; 7]]%R HB (echo_fits resampler) Hle (dr_made _ _ _ E0) Hbuf) as [A _].
  destruct (A E1) as (c & E2). exists c, c0, c1, [[7; 7]]%R, [[7]]%R, [[7; 7; 7; 7; 7; 7; 7]]%R. split; [exact (dr_made _ _ _ E0)|]. split; [exact Hbuf|]. left. auto.
Qed.

(** Silence after a reset is not silent: with a unit impulse played before it, its echo comes out. *)
Theorem C58_reset_silences_refuted : forall resampler, exists a c c' out1 out2, (0 < a)%R /\ ready_with resampler 2 1 4 48000 late_echo c /\
  run_sessions 1 [[[[1; 0]]]; [[[0; 0; 0; 0]]]]%R c = Ok (c', [out1; out2]) /\ channel_stream out2 0 = [0; 2 * a; 0; 0]%R.
Proof.
  intros resampler. destruct (echo_ready resampler) as (c & Hc).
  assert (HB : block_size_ok 2). { split; [lia|]. apply (Nat.pow_le_mono_r 2 1); unfold max_order; lia. }
  assert (Er : resample resampler late_echo 48000 = late_echo) by apply echo_is.
  destruct (C58_sessions resampler 2 1 4 48000 late_echo c [[[[1; 0]]]; [[[0; 0; 0; 0]]]]%R HB) as (a & c' & outs & Ha & E & L & V); auto; try lia.
  - apply echo_fits.
  - rewrite Er. cbn. lia.
  - intros s [<-|[<-|[]]] b [<-|[]]; repeat split; cbn; try lia; intros row [<-|[]]; reflexivity.
  - destruct outs as [|o1 [|o2 [|]]]; cbn in L; try lia. exists a, c, c', o1, o2. split; [apply Ha|]. split; auto. split; auto.
    specialize (V 1 0 ltac:(cbn; lia) ltac:(lia)). cbn [nth] in V. rewrite V, Er.
    replace (concat _) with [1; 0]%R by reflexivity. replace (channel_stream _ 0) with [0; 0; 0; 0]%R by reflexivity. change (frame_size 2) with 2.
    unfold convolved_stream, lconv, Rsum, tab. cbn. repeat (f_equal; try ring).
Qed.

(** The hypotheses are met: frames of 2, one channel, blocks of 3 and 2 samples. *)
Example C58_instance : forall resampler, exists a c c' outs, (0 < a)%R /\ ready_with resampler 2 1 4 48000 late_echo c /\
  dense_process_all 1 [[[1; 2; 3]]; [[4; 5]]]%R (dense_reset c) = Ok (c', outs) /\ channel_stream outs 0 = [0; 0; 0; 2 * a; 4 * a]%R.
Proof.
  intros resampler. destruct (echo_ready resampler) as (c & Hc).
  assert (HB : block_size_ok 2). { split; [lia|]. apply (Nat.pow_le_mono_r 2 1); unfold max_order; lia. }
  assert (Er : resample resampler late_echo 48000 = late_echo) by apply echo_is.
  destruct (C58_convolution resampler 2 1 4 48000 late_echo c [[[1; 2; 3]]; [[4; 5]]]%R HB) as (a & c' & outs & Ha & E & _ & V); auto; try lia.
  - apply echo_fits.
  - rewrite Er. cbn. lia.
  - intros b [<-|[<-|[]]]; repeat split; cbn; try lia; intros row [<-|[]]; reflexivity.
  - exists a, c, c', outs. split; [apply Ha|]. split; auto. split; auto. rewrite V, Er by lia.
    replace (channel_stream _ 0) with [1; 2; 3; 4; 5]%R by reflexivity. change (frame_size 2) with 2.
    unfold convolved_stream, lconv, Rsum, tab. cbn. repeat (f_equal; try ring).
Qed.

Print Assumptions C58_load_and_prepare.
Print Assumptions C58_convolution.
Print Assumptions C58_sessions.
Print Assumptions C58_default_passes_through.
Print Assumptions C58_missing_channels.
Print Assumptions C58_reset_silences_refuted.
