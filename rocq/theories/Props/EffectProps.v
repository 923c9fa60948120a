(** Property theorems C68: the plugin as the host sees it.
    Specification: Spec/Effect.v (effect_stream, volumes_follow, effect_reach), channel_stream and
    host_blocks (Spec/Framer.v), convolved_stream (Spec/Plugin.v). *)
From Coq Require Import Reals List Arith ZArith Lia Lra Bool.
From Verif Require Import Base.Outcome Base.OutcomeFacts Base.Cplx Spec.Stft Spec.Convolution Spec.Framer Spec.Plugin Spec.Effect.
From Verif Require Import Model.Fft2 Model.ConstantOverlapAdd Model.PluginConvolution Model.PluginEffect.
From Verif Require Import Proof.DenseConvolutionProof Proof.EffectProof Props.DenseConvolutionProps.
Import ListNotations.
Local Arguments Nat.div : simpl never.
Local Arguments Nat.pow : simpl never.
Local Open Scope nat_scope.

(** C68.  The layouts the host can choose: mono or stereo, the same at input and output. *)
Theorem C68_layouts : forall main_in main_out, isBusesLayoutSupported main_in main_out = true <-> main_in = main_out /\ (main_out = Mono \/ main_out = Stereo).
Proof.
  intros i o. split.
  - destruct o, i; cbn; intros H; try discriminate; auto.
  - intros [-> [->| ->]]; reflexivity.
Qed.

Lemma supported_sizes : forall main_in main_out, isBusesLayoutSupported main_in main_out = true -> set_size main_in = set_size main_out /\ 0 < set_size main_out.
Proof. intros i o H. apply C68_layouts in H. destruct H as [-> [->| ->]]; cbn; auto. Qed.

(** C68.  After any history and prepareToPlay() with a response that has the channels of the bus,
    blocks of any sizes up to the announced one, with any automation: nothing is read out of range
    and each channel is the output gain times the mix of the amplified input, undelayed, and its
    convolution with the response, F - 1 samples late and twice as loud as the normalised one.
    The first F - 1 samples of the latter are whatever was in the new buffer.  Both volumes move
    linearly, in 50 ms, to those of the balanced rule for the wet parameter. *)
Theorem C68_response : forall resampler impulse rate N main_in main_out frame unused output b w0 e0 session S,
  isBusesLayoutSupported main_in main_out = true -> block_size_ok N -> ramp_length S rate -> effect_reach b w0 e0 ->
  let nch := set_size main_out in let F := frame_size N in let r := resample resampler impulse rate in
  response_fits F r -> nch <= a_channels r -> buffers_for F nch N frame unused output ->
  host_blocks nch N (session_blocks session) -> nonempty_blocks session ->
  exists a e e' outs dry wet, normalised_by a r /\
    prepareToPlay resampler (Some impulse) rate N main_out frame unused output e0 = Ok e /\
    play main_in main_out session e = Ok (e', outs) /\
    (forall k, k < length session -> matrix_of nch (block_length (nth k (session_blocks session) [])) (nth k outs [])) /\
    volumes_follow S w0 session dry wet /\
    forall ch, ch < nch -> channel_stream outs ch = effect_stream session dry wet
      (after_memory (F - 1) (nth ch output []) (convolved_stream F (2 * a) [] (amplified_input session ch) (nth ch (a_data r) []))) ch.
Proof.
  intros resampler impulse rate N mi mo f u o b w0 e0 session S HL HN HS He nch F r Hr Hle Hbuf Hb Hne. destruct (supported_sizes _ _ HL) as [Hin Hn].
  apply (prepare_with resampler rate N mi mo HN Hn Hin f u o Hbuf S w0 b e0 HS He session Hb Hne impulse Hr Hle).
Qed.

(** C68.  When the file is not there - the path is the author's - the wet signal is the input,
    F - 1 samples late and twice as loud. *)
Theorem C68_no_response : forall resampler rate N main_in main_out frame unused output b w0 e0 session S,
  isBusesLayoutSupported main_in main_out = true -> block_size_ok N -> ramp_length S rate -> effect_reach b w0 e0 ->
  let nch := set_size main_out in let F := frame_size N in
  buffers_for F nch N frame unused output -> host_blocks nch N (session_blocks session) -> nonempty_blocks session ->
  exists e e' outs dry wet, prepareToPlay resampler None rate N main_out frame unused output e0 = Ok e /\
    play main_in main_out session e = Ok (e', outs) /\
    (forall k, k < length session -> matrix_of nch (block_length (nth k (session_blocks session) [])) (nth k outs [])) /\
    volumes_follow S w0 session dry wet /\
    forall ch, ch < nch -> channel_stream outs ch = effect_stream session dry wet
      (after_memory (F - 1) (nth ch output []) (doubled_late F (amplified_input session ch))) ch.
Proof.
  intros resampler rate N mi mo f u o b w0 e0 session S HL HN HS He nch F Hbuf Hb Hne. destruct (supported_sizes _ _ HL) as [Hin Hn].
  apply (prepare_without resampler rate N mi mo HN Hn Hin f u o Hbuf S w0 b e0 HS He session Hb Hne).
Qed.

(** A response with too few channels for the bus - mono on a stereo track - is read out of range. *)
Theorem C68_missing_channels : forall resampler impulse rate N main_out frame unused output e0, block_size_ok N ->
  let r := resample resampler impulse rate in response_fits (frame_size N) r -> a_channels r < set_size main_out ->
  prepareToPlay resampler (Some impulse) rate N main_out frame unused output e0 = UB.
Proof.
  intros resampler impulse rate N mo f u o e0 HN r Hr Hlt. unfold prepareToPlay, effect_prepare. cbn [maximumBlockSize sampleRate].
  destruct (block_size_Z N HN) as [HB1 HB63].
  assert (Q0 : exists c0, dense_make N = Ok c0) by (unfold dense_make; rewrite IntegersProof.next_order_ok by auto; eexists; reflexivity). destruct Q0 as (c0 & E0). rewrite E0. cbn [bind].
  assert (Q1 : exists c1, dense_load resampler impulse c0 = Ok c1).
  { unfold dense_make in E0. apply bind_ok in E0. destruct E0 as (k & _ & E0). injection E0 as <-. eexists. reflexivity. } destruct Q1 as (c1 & E1). rewrite E1. cbn [bind].
  destruct (C58_missing_channels resampler N (set_size mo) N rate impulse c0 c1 f u o HN Hr Hlt (dr_made _ _ _ E0)) as [A _]. rewrite (A E1). reflexivity.
Qed.

(** Before the first prepareToPlay() only the gains are applied. *)
Theorem C68_before_prepare : forall main_in main_out w e session, isBusesLayoutSupported main_in main_out = true -> effect_reach false w e ->
  play main_in main_out session e = Ok (e, map (fun pb => map (map (fun v => v * p_inGain (fst pb) * p_outGain (fst pb))%R) (snd pb)) session).
Proof.
  intros mi mo w e session HL He. destruct (supported_sizes _ _ HL) as [Hin _]. destruct (reach_mix _ _ _ He) as [_ Hc]. cbn in Hc.
  induction session as [|(p, b) rest IH]; auto. cbn [play]. unfold processBlock. rewrite Hin. unfold for_range. rewrite Nat.sub_diag. cbn [loop bind].
  unfold effect_process. rewrite Hc. cbn [bind]. rewrite IH. cbn [bind map fst snd]. do 3 f_equal. unfold multiply_by. rewrite map_map. apply map_ext. intros row. rewrite map_map. reflexivity.
Qed.

(** ** The volumes *)

(** Both are full at 1/2; 0 is all dry, 1 all wet, neither ever leaves [0, 1]. *)
Theorem C68_balanced : (forall w, (0 <= w <= 1 / 2)%R -> dry_volume w = 1%R /\ wet_volume w = (2 * w)%R) /\
  (forall w, (1 / 2 <= w <= 1)%R -> dry_volume w = (2 * (1 - w))%R /\ wet_volume w = 1%R).
Proof.
  unfold dry_volume, wet_volume. split; intros w H; unfold Rmin; destruct (Rle_dec (1 / 2) (1 - w)), (Rle_dec (1 / 2) w); split; lra.
Qed.

Lemma volume_range : forall w, (0 <= w <= 1)%R -> (0 <= dry_volume w <= 1)%R /\ (0 <= wet_volume w <= 1)%R.
Proof.
  intros w H. destruct C68_balanced as [A B]. destruct (Rle_dec w (1 / 2)); [destruct (A w)|destruct (B w)]; lra.
Qed.

(** C68.  Automation of the wet parameter makes no clicks: both volumes stay in [0, 1], change by at
    most 1/S per sample, and after 50 ms of a constant parameter they are those of the rule. *)
Theorem C68_no_clicks : forall S w0 session dry wet, 0 < S -> volumes_follow S w0 session dry wet -> (0 <= w0 <= 1)%R ->
  (forall p b, In (p, b) session -> (0 <= p_wet p <= 1)%R) ->
  forall t, t < stream_length (session_blocks session) ->
  (0 <= dry t <= 1)%R /\ (0 <= wet t <= 1)%R /\
  (Rabs (dry t - (if (t =? 0)%nat then dry_volume w0 else dry (t - 1)%nat)) <= 1 / INR S)%R /\
  (Rabs (wet t - (if (t =? 0)%nat then wet_volume w0 else wet (t - 1)%nat)) <= 1 / INR S)%R /\
  (S <= t + 1 -> (forall u, t + 1 - S <= u <= t -> nth u (parameter_stream p_wet session) 0%R = nth t (parameter_stream p_wet session) 0%R) ->
   dry t = dry_volume (nth t (parameter_stream p_wet session) 0%R) /\ wet t = wet_volume (nth t (parameter_stream p_wet session) 0%R)).
Proof.
  intros S w0 session dry wet HS [Fd Fw] H0 Hp t Ht.
  assert (P : forall u, u < stream_length (session_blocks session) -> (0 <= nth u (parameter_stream p_wet session) 0 <= 1)%R).
  { intros u Hu. rewrite <- (parameter_length p_wet) in Hu. pose proof (nth_In _ 0%R Hu) as I. unfold parameter_stream in I at 2. apply in_concat in I. destruct I as (l & Il & I).
    apply in_map_iff in Il. destruct Il as ((p, b) & <- & Hb). apply repeat_spec in I. rewrite I. apply (Hp p b Hb). }
  pose proof (volume_range w0 H0) as [D0 W0].
  assert (D : forall u, u < stream_length (session_blocks session) -> (0 <= dry_volume (nth u (parameter_stream p_wet session) 0) <= 1)%R) by (intros u Hu; exact (proj1 (volume_range _ (P u Hu)))).
  assert (W : forall u, u < stream_length (session_blocks session) -> (0 <= wet_volume (nth u (parameter_stream p_wet session) 0) <= 1)%R) by (intros u Hu; exact (proj2 (volume_range _ (P u Hu)))).
  split; [exact (follows_between _ _ _ _ _ 0 1 Fd D0 D t Ht)|]. split; [exact (follows_between _ _ _ _ _ 0 1 Fw W0 W t Ht)|].
  split; [exact (follows_smooth _ _ _ _ _ HS Fd D0 D t Ht)|]. split; [exact (follows_smooth _ _ _ _ _ HS Fw W0 W t Ht)|].
  intros HSt Hc. split.
  - apply (follows_settled _ _ _ _ _ t Fd Ht HSt). intros u Hu. rewrite Hc by auto. reflexivity.
  - apply (follows_settled _ _ _ _ _ t Fw Ht HSt). intros u Hu. rewrite Hc by auto. reflexivity.
Qed.

(** The wet parameter never moved: the volumes are constant. *)
Theorem C68_constant_mix : forall S w session dry wet x ch, volumes_follow S w session dry wet -> (forall p b, In (p, b) session -> p_wet p = w) ->
  effect_stream session dry wet x ch = effect_stream session (fun _ => dry_volume w) (fun _ => wet_volume w) x ch.
Proof.
  intros S w session dry wet x ch [Fd Fw] Hp. unfold effect_stream. apply tab_ext. intros t Ht.
  assert (P : forall u, u <= t -> nth u (parameter_stream p_wet session) 0%R = w).
  { intros u Hu. assert (Hu' : u < length (parameter_stream p_wet session)) by (rewrite parameter_length; lia). pose proof (nth_In _ 0%R Hu') as I. unfold parameter_stream in I at 2.
    apply in_concat in I. destruct I as (l & Il & I). apply in_map_iff in Il. destruct Il as ((p, b) & <- & Hb). apply repeat_spec in I. rewrite I. apply (Hp p b Hb). }
  rewrite (follows_steady _ _ _ _ _ Fd t Ht) by (intros u Hu; rewrite P by auto; reflexivity).
  rewrite (follows_steady _ _ _ _ _ Fw t Ht) by (intros u Hu; rewrite P by auto; reflexivity). reflexivity.
Qed.

(** All dry, from the start: the input times both gains, without delay. *)
Theorem C68_all_dry : forall S session dry wet x ch, volumes_follow S 0 session dry wet -> (forall p b, In (p, b) session -> p_wet p = 0%R) ->
  effect_stream session dry wet x ch = tab (stream_length (session_blocks session)) (fun t =>
    nth t (parameter_stream p_outGain session) 0 * (nth t (parameter_stream p_inGain session) 0 * nth t (channel_stream (session_blocks session) ch) 0))%R.
Proof.
  intros S session dry wet x ch HV Hp. rewrite (C68_constant_mix S 0%R session dry wet x ch HV Hp). unfold effect_stream. apply tab_ext. intros t Ht.
  destruct C68_balanced as [A _]. destruct (A 0%R) as [-> ->]; [lra|]. ring.
Qed.

(** ** Parameters *)

Lemma gain_skew : r_skew gainRange = (1 / 2)%R.
Proof.
  unfold gainRange, setSkewForCentre. cbn [r_start r_end r_skew]. replace ((1 - 0) / (4 - 0))%R with ((1 / 2) * (1 / 2))%R by field. rewrite ln_mult by lra.
  assert (ln (1 / 2) <> 0)%R. { assert (ln (1 / 2) < ln 1)%R by (apply ln_increasing; lra). rewrite ln_1 in H. lra. } field. lra.
Qed.
Lemma clamp_id : forall x, (0 <= x <= 1)%R -> clamp01 x = x.
Proof. intros x H. unfold clamp01. rewrite Rmin_right by lra. apply Rmax_right. lra. Qed.

(** C68.  What automation does: a normalised value v gives a gain of 4 v^2 or a wet of v, and the
    host reads back the value it wrote. *)
Theorem C68_automation : forall i o w, (0 <= i <= 1)%R -> (0 <= o <= 1)%R -> (0 <= w <= 1)%R ->
  from_host i o w = Params (4 * (i * i)) (4 * (o * o)) w /\
  convertTo0to1 gainRange (p_inGain (from_host i o w)) = i /\ convertTo0to1 gainRange (p_outGain (from_host i o w)) = o /\ convertTo0to1 normalised (p_wet (from_host i o w)) = w.
Proof.
  assert (E : forall v, (0 <= v <= 1)%R -> convertFrom0to1 gainRange v = (4 * (v * v))%R).
  { intros v H. unfold convertFrom0to1. rewrite gain_skew, clamp_id by auto. destruct (Req_EM_T (1 / 2) 1); [lra|]. cbn [gainRange setSkewForCentre r_start r_end].
    destruct (Rlt_dec 0 v); [|assert (v = 0)%R by lra; subst; ring]. replace (ln v / (1 / 2))%R with (ln v + ln v)%R by field. rewrite exp_plus, exp_ln by auto. ring. }
  assert (E2 : forall v, (0 <= v <= 1)%R -> convertFrom0to1 normalised v = v).
  { intros v H. unfold convertFrom0to1. rewrite clamp_id by auto. cbn [normalised r_start r_end r_skew]. destruct (Req_EM_T 1 1); [ring|lra]. }
  assert (T : forall v, (0 <= v <= 1)%R -> convertTo0to1 gainRange (4 * (v * v)) = v).
  { intros v H. unfold convertTo0to1. rewrite gain_skew. cbn [gainRange setSkewForCentre r_start r_end]. replace ((4 * (v * v) - 0) / (4 - 0))%R with (v * v)%R by field.
    rewrite clamp_id by nra. destruct (Req_EM_T (1 / 2) 1); [lra|]. destruct (Rlt_dec 0 (v * v)).
    + assert (0 < v)%R by nra. rewrite ln_mult by auto. replace (1 / 2 * (ln v + ln v))%R with (ln v) by field. apply exp_ln. auto.
    + assert (v = 0)%R by nra. subst. ring. }
  intros i o w Hi Ho Hw. unfold from_host. rewrite !E, E2 by auto. cbn [p_inGain p_outGain p_wet]. split; auto. split; auto. split; auto.
  unfold convertTo0to1. cbn [normalised r_start r_end r_skew]. replace ((w - 0) / (1 - 0))%R with w by field. rewrite clamp_id by auto. destruct (Req_EM_T 1 1); [reflexivity|lra].
Qed.

(** Values outside the range are clamped to it. *)
Theorem C68_automation_clamped : forall i o w, let clamp x := Rmax 0 (Rmin 1 x) in from_host i o w = from_host (clamp i) (clamp o) (clamp w) /\
  (0 <= p_inGain (from_host i o w) <= 4)%R /\ (0 <= p_outGain (from_host i o w) <= 4)%R /\ (0 <= p_wet (from_host i o w) <= 1)%R.
Proof.
  intros i o w clamp. assert (Hc : forall v, (0 <= clamp v <= 1)%R) by (intros v; unfold clamp, Rmax, Rmin; destruct (Rle_dec 1 v), (Rle_dec 0 _); lra).
  assert (E : from_host i o w = from_host (clamp i) (clamp o) (clamp w)).
  { assert (C : forall v, clamp01 v = clamp01 (clamp v)) by (intros v; rewrite (clamp_id (clamp v) (Hc v)); reflexivity). unfold from_host, convertFrom0to1. rewrite (C i), (C o), (C w). reflexivity. }
  split; [exact E|]. rewrite E. destruct (C68_automation (clamp i) (clamp o) (clamp w)) as (-> & _); auto. cbn [p_inGain p_outGain p_wet].
  pose proof (Hc i). pose proof (Hc o). pose proof (Hc w). split; [nra|]. split; [nra|lra].
Qed.

(** The parameters a new instance starts with are those of these normalised values. *)
Theorem C68_defaults : default_params = from_host (1 / 2) (1 / 2) 1.
Proof. destruct (C68_automation (1 / 2) (1 / 2) 1) as (-> & _); try lra. unfold default_params. f_equal; field. Qed.

(** ** What the host is told *)

Definition all_wet (b : list R) : params * list (list R) := (default_params, [b]).
Lemma size_four : block_size_ok 4.
Proof. split; [lia|]. apply (Nat.pow_le_mono_r 2 2); unfold max_order; lia. Qed.
Lemma ramp_48k : exists S, ramp_length S 48000 /\ 0 < S.
Proof. exists (Z.to_nat 2400). unfold ramp_length. rewrite INR_IZR_INZ, Z2Nat.id by lia. split; [lra|]. lia. Qed.
Lemma seven : forall m, buffers_for (frame_size 4) 1 4 [[m; m; m; m]]%R [[m; m; m]]%R [[m; m; m; m; m; m; m]]%R.
Proof. intros m. repeat split; auto; intros row [<-|[]]; reflexivity. Qed.
Lemma mono_blocks : forall session, (forall p b, In (p, b) session -> exists row, b = [row] /\ 0 < length row <= 4) -> host_blocks 1 4 (session_blocks session) /\ nonempty_blocks session.
Proof.
  intros session H. split.
  - intros b Hb. apply in_map_iff in Hb. destruct Hb as ((p, x) & <- & Hx). destruct (H p x Hx) as (row & -> & Hl). cbn. split; [|lia]. split; auto. intros r [<-|[]]. reflexivity.
  - intros p b Hb. destruct (H p b Hb) as (row & -> & Hl). cbn. lia.
Qed.

(** A new instance on a mono track at 48 kHz with blocks of up to 4 samples and memory full of
    [m]; no response, all wet. *)
Lemma demo : forall resampler m session, session <> [] -> (forall p b, In (p, b) session -> p = default_params /\ exists row, b = [row] /\ 0 < length row <= 4) ->
  exists e e' outs, prepareToPlay resampler None 48000 4 Mono [[m; m; m; m]]%R [[m; m; m]]%R [[m; m; m; m; m; m; m]]%R effect_make = Ok e /\
    play Mono Mono session e = Ok (e', outs) /\
    channel_stream outs 0 = effect_stream session (fun _ => 0%R) (fun _ => 1%R) (after_memory 3 [m; m; m; m; m; m; m]%R (doubled_late 4 (amplified_input session 0))) 0.
Proof.
  intros resampler m session _ Hs. destruct ramp_48k as (S & HS & _).
  destruct (mono_blocks session) as [Hb Hne]. { intros p b I. apply (Hs p b I). }
  destruct (C68_no_response resampler 48000 4 Mono Mono [[m; m; m; m]]%R [[m; m; m]]%R [[m; m; m; m; m; m; m]]%R false 1 effect_make session S eq_refl size_four HS er_made (seven m) Hb Hne)
    as (e & e' & outs & dry & wet & E1 & E2 & _ & HV & V).
  exists e, e', outs. split; [exact E1|]. split; [exact E2|]. rewrite V by (cbn; lia).
  rewrite (C68_constant_mix S 1%R session dry wet _ 0 HV) by (intros p b I; destruct (Hs p b I) as (-> & _); reflexivity).
  destruct C68_balanced as [_ B]. destruct (B 1%R) as [Ed Ew]; [lra|]. unfold effect_stream. apply tab_ext. intros t Ht. cbv beta. rewrite Ed, Ew. change (frame_size 4) with 4. cbn [nth Nat.sub]. ring.
Qed.

(** The host is told that there is no latency, but an impulse comes out three samples late. *)
Theorem C68_latency_refuted : forall resampler, exists e e' outs,
  prepareToPlay resampler None 48000 4 Mono [[0; 0; 0; 0]]%R [[0; 0; 0]]%R [[0; 0; 0; 0; 0; 0; 0]]%R effect_make = Ok e /\
  play Mono Mono [all_wet [1; 0; 0; 0]%R] e = Ok (e', outs) /\ channel_stream outs 0 = [0; 0; 0; 2]%R /\ getLatencySamples = 0.
Proof.
  intros resampler. destruct (demo resampler 0%R [all_wet [1; 0; 0; 0]%R]) as (e & e' & outs & E1 & E2 & V).
  - discriminate.
  - intros p b [E|[]]. injection E as <- <-. split; auto. eexists. split; [reflexivity|]. cbn. lia.
  - exists e, e', outs. split; [exact E1|]. split; [exact E2|]. split; [|reflexivity]. rewrite V. unfold effect_stream, after_memory, doubled_late, amplified_input, amplified, tab. cbn. repeat (f_equal; try ring).
Qed.

(** Silence in, noise out: the first samples come from memory nobody has written. *)
Theorem C68_silence_refuted : forall resampler, exists e e' outs,
  prepareToPlay resampler None 48000 4 Mono [[7; 7; 7; 7]]%R [[7; 7; 7]]%R [[7; 7; 7; 7; 7; 7; 7]]%R effect_make = Ok e /\
  play Mono Mono [all_wet [0; 0; 0; 0]%R] e = Ok (e', outs) /\ channel_stream outs 0 = [7; 7; 7; 0]%R.
Proof.
  intros resampler. destruct (demo resampler 7%R [all_wet [0; 0; 0; 0]%R]) as (e & e' & outs & E1 & E2 & V).
  - discriminate.
  - intros p b [E|[]]. injection E as <- <-. split; auto. eexists. split; [reflexivity|]. cbn. lia.
  - exists e, e', outs. split; [exact E1|]. split; [exact E2|]. rewrite V. unfold effect_stream, after_memory, doubled_late, amplified_input, amplified, tab. cbn. repeat (f_equal; try ring).
Qed.

(** The host is told that there is no tail; with a response of three samples the output goes on
    after the input has become silent, and after its own delay. *)
Theorem C68_tail_refuted : forall resampler, exists a e e' outs, (0 < a)%R /\
  prepareToPlay resampler (Some late_echo) 48000 4 Mono [[0; 0; 0; 0]]%R [[0; 0; 0]]%R [[0; 0; 0; 0; 0; 0; 0]]%R effect_make = Ok e /\
  play Mono Mono [all_wet [1]%R; all_wet [0; 0; 0; 0]%R; all_wet [0; 0]%R] e = Ok (e', outs) /\
  channel_stream outs 0 = [0; 0; 0; 0; 0; 2 * a; 0]%R /\ getTailLengthSeconds = 0%R.
Proof.
  intros resampler. destruct ramp_48k as (S & HS & _). set (session := [all_wet [1]%R; all_wet [0; 0; 0; 0]%R; all_wet [0; 0]%R]).
  destruct (mono_blocks session) as [Hb Hne]. { intros p b [E|[E|[E|[]]]]; injection E as <- <-; eexists; (split; [reflexivity|]); cbn; lia. }
  assert (Hr : response_fits (frame_size 4) (resample resampler late_echo 48000)).
  { rewrite echo_is. split; [split; auto; intros row [<-|[]]; auto|]. split; [cbn; lia|]. split; [cbn; lia|]. split; reflexivity. }
  destruct (C68_response resampler late_echo 48000 4 Mono Mono [[0; 0; 0; 0]]%R [[0; 0; 0]]%R [[0; 0; 0; 0; 0; 0; 0]]%R false 1 effect_make session S eq_refl size_four HS er_made Hr)
    as (a & e & e' & outs & dry & wet & Ha & E1 & E2 & _ & HV & V); auto.
  { rewrite echo_is. cbn. lia. } { apply seven. }
  exists a, e, e', outs. split; [apply Ha|]. split; [exact E1|]. split; [exact E2|]. split; [|reflexivity]. rewrite V by (cbn; lia). rewrite echo_is.
  rewrite (C68_constant_mix S 1%R session dry wet _ 0 HV) by (intros p b [E|[E|[E|[]]]]; injection E as <- <-; reflexivity).
  destruct C68_balanced as [_ B]. destruct (B 1%R) as [Ed Ew]; [lra|]. unfold effect_stream. rewrite Ed, Ew. change (frame_size 4) with 4.
  unfold after_memory, convolved_stream, amplified_input, amplified, lconv, Rsum, tab. cbn. repeat (f_equal; try ring).
Qed.

(** Half wet, the two signals are not aligned: an impulse is heard twice.  The plugin has played
    a block at this setting before. *)
Theorem C68_aligned_refuted : forall resampler, exists e0 e e' outs, effect_reach true (1 / 2) e0 /\
  prepareToPlay resampler None 48000 4 Mono [[0; 0; 0; 0]]%R [[0; 0; 0]]%R [[0; 0; 0; 0; 0; 0; 0]]%R e0 = Ok e /\
  play Mono Mono [(Params 1 1 (1 / 2), [[1; 0; 0; 0]])]%R e = Ok (e', outs) /\ channel_stream outs 0 = [1; 0; 0; 2]%R.
Proof.
  intros resampler. destruct ramp_48k as (S & HS & _). set (session := [(Params 1 1 (1 / 2), [[1; 0; 0; 0]])]%R).
  destruct (mono_blocks session) as [Hb Hne]. { intros p b [E|[]]. injection E as <- <-. eexists. split; [reflexivity|]. cbn. lia. }
  destruct (C68_no_response resampler 48000 4 Mono Mono [[0; 0; 0; 0]]%R [[0; 0; 0]]%R [[0; 0; 0; 0; 0; 0; 0]]%R false 1 effect_make session S eq_refl size_four HS er_made (seven 0) Hb Hne)
    as (e1 & e2 & outs1 & _ & _ & E1 & E2 & _).
  assert (R2 : effect_reach true (1 / 2) e2). { apply (er_played true 1 e1 Mono Mono session e2 outs1); auto. eapply er_prepared; [apply er_made|exact E1]. }
  destruct (C68_no_response resampler 48000 4 Mono Mono [[0; 0; 0; 0]]%R [[0; 0; 0]]%R [[0; 0; 0; 0; 0; 0; 0]]%R true (1 / 2) e2 session S eq_refl size_four HS R2 (seven 0) Hb Hne)
    as (e & e' & outs & dry & wet & E3 & E4 & _ & HV & V).
  exists e2, e, e', outs. split; [exact R2|]. split; [exact E3|]. split; [exact E4|]. rewrite V by (cbn; lia).
  rewrite (C68_constant_mix S (1 / 2)%R session dry wet _ 0 HV) by (intros p b [E|[]]; injection E as <- <-; reflexivity).
  destruct C68_balanced as [_ B]. destruct (B (1 / 2)%R) as [Ed Ew]; [lra|]. unfold effect_stream. rewrite Ed, Ew. change (frame_size 4) with 4.
  unfold after_memory, doubled_late, amplified_input, amplified, tab. cbn. repeat (f_equal; try field).
Qed.

(** Automation at work, at 40 Hz so that a ramp has two samples: from all wet to all dry. *)
Example C68_instance : forall resampler, exists e e' outs,
  prepareToPlay resampler None 40 4 Mono [[0; 0; 0; 0]]%R [[0; 0; 0]]%R [[0; 0; 0; 0; 0; 0; 0]]%R effect_make = Ok e /\
  play Mono Mono [(Params 2 3 0, [[1; 1]]); (Params 1 1 0, [[1; 5]])]%R e = Ok (e', outs) /\ channel_stream outs 0 = [3; 6; 1; 5]%R.
Proof.
  intros resampler. set (session := [(Params 2 3 0, [[1; 1]]); (Params 1 1 0, [[1; 5]])]%R).
  assert (HS : ramp_length 2 40) by (unfold ramp_length; cbn; lra).
  destruct (mono_blocks session) as [Hb Hne]. { intros p b [E|[E|[]]]; injection E as <- <-; eexists; (split; [reflexivity|]); cbn; lia. }
  destruct (C68_no_response resampler 40 4 Mono Mono [[0; 0; 0; 0]]%R [[0; 0; 0]]%R [[0; 0; 0; 0; 0; 0; 0]]%R false 1 effect_make session 2 eq_refl size_four HS er_made (seven 0) Hb Hne)
    as (e & e' & outs & dry & wet & E1 & E2 & _ & [Fd Fw] & V).
  exists e, e', outs. split; [exact E1|]. split; [exact E2|]. rewrite V by (cbn; lia).
  destruct C68_balanced as [A B]. destruct (A 0%R) as [D0 W0]; [lra|]. destruct (B 1%R) as [D1 W1]; [lra|].
  assert (P : forall u, u < 4 -> nth u (parameter_stream p_wet session) 0%R = 0%R) by (intros [|[|[|[|u]]]] Hu; try reflexivity; lia).
  assert (Gd : forall t, t < 4 -> dry t = Rmin 1 (INR (t + 1) / 2)).
  { intros t Ht. rewrite (Fd t 0); [|cbn; lia|intros u Hu; rewrite !P by lia; reflexivity|auto]. cbn [Nat.eqb]. rewrite P, D0, D1, Nat.sub_0_r by auto. replace (INR 2) with 2%R by (cbn; ring). ring. }
  assert (Gw : forall t, t < 4 -> wet t = (1 - Rmin 1 (INR (t + 1) / 2))%R).
  { intros t Ht. rewrite (Fw t 0); [|cbn; lia|intros u Hu; rewrite !P by lia; reflexivity|auto]. cbn [Nat.eqb]. rewrite P, W0, W1, Nat.sub_0_r by auto. replace (INR 2) with 2%R by (cbn; ring). ring. }
  unfold effect_stream. change (stream_length (session_blocks session)) with 4. unfold tab. cbn [seq map]. rewrite !Gd, !Gw by lia. change (frame_size 4) with 4.
  unfold after_memory, doubled_late, amplified_input, amplified, tab. cbn.
  rewrite (Rmin_right 1 (1 / 2)), (Rmin_left 1 ((1 + 1) / 2)), (Rmin_left 1 ((1 + 1 + 1) / 2)), (Rmin_left 1 ((1 + 1 + 1 + 1) / 2)) by lra. repeat (f_equal; try field).
Qed.

Print Assumptions C68_layouts.
Print Assumptions C68_response.
Print Assumptions C68_no_response.
Print Assumptions C68_missing_channels.
Print Assumptions C68_before_prepare.
Print Assumptions C68_balanced.
Print Assumptions C68_no_clicks.
Print Assumptions C68_constant_mix.
Print Assumptions C68_all_dry.
Print Assumptions C68_automation.
Print Assumptions C68_automation_clamped.
Print Assumptions C68_defaults.
Print Assumptions C68_latency_refuted.
Print Assumptions C68_silence_refuted.
Print Assumptions C68_tail_refuted.
Print Assumptions C68_aligned_refuted.
