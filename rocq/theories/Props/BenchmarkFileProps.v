(** Property theorems C76, continued: what the sparse engine, the plugin's Convolution and the
    quality test of the benchmark tab compute.  Specification: this file (sparsely_convolved,
    spectrogram, spectral_distance), Spec/Benchmark.v, Spec/Stft.v, Spec/Offline.v, Spec/PluginConv.v,
    lconv (Spec/Convolution.v), is_peak and average (Spec/Statistics.v). *)
From Coq Require Import Reals List Arith Bool ZArith Lia Lra.
From Verif Require Import Base.Outcome Base.OutcomeFacts Base.Sums Base.Cplx Spec.Dft Spec.Transforms Spec.Stft Spec.Convolution Spec.Convolvers Spec.Statistics Spec.Offline Spec.Plugin Spec.PluginConv Spec.Benchmark.
From Verif Require Import Model.Fft2 Model.Integers Model.Statistics Model.Units Model.Stft Model.Convolution Model.PluginConvolution Model.BenchmarkTab.
From Verif Require Import Proof.StatisticsProof Proof.CliProof Proof.FramerProof Proof.BenchmarkProof Proof.BenchmarkEngines.
From Verif Require Import Props.StatisticsProps Props.ConvolutionProps Props.OfflineProps Props.PluginConvProps Props.BenchmarkProps.
Import ListNotations.
Local Arguments Nat.pow : simpl never.
Local Arguments Nat.div : simpl never.
Local Open Scope nat_scope.

(** [raw] is the signal [s] run, in blocks of [2 ^ k] samples, through an overlap-add convolver
    that lost the bins of the scaled response [h] that are neither among the lowest [low] nor
    within [range] dB of the loudest one. *)
Definition sparsely_convolved (k : nat) (s h : audio) (range : R) (low : nat) (raw : list (list R)) : Prop :=
  let B := 2 ^ k in let parts := ceil_div (a_samples h) B in
  exists a outs, scales a (a_channels h) (a_samples h) (a_data h) /\
    raw = tab (a_channels s) (fun ch => firstn (a_samples s) (concat (outs ch))) /\
    forall ch, ch < a_channels s -> exists loud pred,
      let spectra := scaled_spectra B a (nth ch (a_data h) []) in
      loudest spectra loud /\
      (forall p row j v, nth_error spectra p = Some row -> nth_error row j = Some v -> (pred p j v = true <-> keeps B (a_rate h) (- range)%R low loud j v)) /\
      convolver Upola parts (B + 1) (drop_bins pred parts (B + 1) spectra) (padded_blocks B (nth ch (a_data s) [])) = Ok (outs ch).

(** A file scaled by [gain]: to a peak of 1, unless it is silent. *)
Definition scaled_to_peak (gain : R) (raw file : list (list R)) : Prop :=
  (0 < gain)%R /\ file = map (map (fun v => v * gain)%R) raw /\ ((exists v, In v (concat raw) /\ v <> 0%R) -> is_peak (concat file) 1).

(** The spectrogram of frames of [n] samples under the first half of a Hann window of the (padded)
    transform's length, at half a frame's distance. *)
Definition spectrogram (n channels frames : nat) (x : list (list R)) : list (list (list C)) :=
  let K := 2 ^ Nat.log2_up (2 * n) in
  tab channels (fun c => tab (ceil_div frames (n - n / 2)) (fun f =>
    RDFT_list Forward (framed K n (n - n / 2) (fun i => (1 - cos (2 * PI * INR i / INR (K - 1))) / 2)%R (nth c x []) f))).

(** The root of the mean squared difference of the magnitudes, in the worst channel. *)
Definition channel_distance (D S : list (list C)) : R :=
  sqrt (average (map (fun q => (Cabs (fst q) - Cabs (snd q)) * (Cabs (fst q) - Cabs (snd q)))%R (combine (concat D) (concat S)))).
Definition spectral_distance (D S : list (list (list C))) (e : R) : Prop :=
  (forall ch, ch < length D -> (channel_distance (nth ch D []) (nth ch S []) <= e)%R) /\
  exists ch, ch < length D /\ channel_distance (nth ch D []) (nth ch S []) = e.

Section C76.
Variable resampler : audio -> R -> audio.
Variable lanes : option nat.
Variable juce : option audio -> audio -> R -> list (list R).
Variable memory : nat -> nat -> list (list R).
Notation works := (succeeds resampler lanes juce memory).
Notation output := (output_of resampler lanes juce memory).

Lemma peak_of_matrix : forall channels frames raw, matrix_of channels frames raw ->
  exists gain file, scaled_to_peak gain raw file /\ normalised_peak channels frames raw = Ok file.
Proof using.
  intros channels frames raw M. destruct (C17_normalize_peak (Mat channels frames raw) M) as (c & Hc & En & Hp & _).
  exists c, (map (map (fun v => v * c)%R) raw). split; [split; [auto|split; auto]|]. unfold normalised_peak. rewrite En. reflexivity.
Qed.

Lemma sparse_run_ok : forall range low m, let s := m_signal m in let h := m_impulse m in
  (forall channels n, matrix_of channels n (memory channels n)) -> offline_fits 12 (a_channels s) (a_samples s) (a_channels h) (a_samples h) ->
  matrix_of (a_channels s) (a_samples s) (a_data s) -> matrix_of (a_channels h) (a_samples h) (a_data h) ->
  a_channels s <= a_channels h -> (0 < a_rate h)%R -> low <= 2 ^ 12 + 1 ->
  exists raw, sparsely_convolved 12 s h range low raw /\ matrix_of (a_channels s) (a_samples s) raw /\ sparse_run memory range low m = Ok raw.
Proof using.
  intros range low m s h Hmem Hfit Hs Hh Hle Hr Hlow.
  destruct (C59_sparse 12 _ _ _ _ _ _ (a_rate h) (- range)%R low _ Hfit Hs Hh (Hmem _ _) Hle Hr Hlow) as (a & outs & Ha & E & L & Hc).
  eexists. split; [|split; [|exact E]].
  - exists a, outs. split; [exact Ha|]. split; [reflexivity|exact Hc].
  - apply matrix_intro; [apply tab_length|]. intros i Hi. rewrite nth_tab by auto. rewrite firstn_length. specialize (L i Hi). lia.
Qed.

(** C76.  The sparse engine's file: the dynamic range and the number of low bins are those set in
    the tab, the rate the one of the response. *)
Theorem C76_sparse_file : forall m, let s := m_signal m in let h := m_impulse m in
  (forall channels n, matrix_of channels n (memory channels n)) -> offline_fits 12 (a_channels s) (a_samples s) (a_channels h) (a_samples h) ->
  matrix_of (a_channels s) (a_samples s) (a_data s) -> matrix_of (a_channels h) (a_samples h) (a_data h) ->
  a_channels s <= a_channels h -> (0 < a_rate h)%R -> m_binsToKeep m <= 2 ^ 12 + 1 ->
  exists raw gain file, sparsely_convolved 12 s h (m_dynamicRange m) (m_binsToKeep m) raw /\ scaled_to_peak gain raw file /\ output m ESparse file.
Proof using.
  intros m s h Hmem Hfit Hs Hh Hle Hr Hlow. destruct (sparse_run_ok (m_dynamicRange m) (m_binsToKeep m) m Hmem Hfit Hs Hh Hle Hr Hlow) as (raw & H & M & E).
  destruct (peak_of_matrix _ _ _ M) as (gain & file & Hg & En). exists raw, gain, file. split; [exact H|]. split; [exact Hg|]. exists raw. split; [exact E|exact En].
Qed.

(** C76.  The file of the plugin's Convolution: the signal convolved with the response file,
    resampled to the host's rate, in whole blocks of 4096 samples; what is left over at the end of
    the signal is not convolved. *)
Theorem C76_neo_file : forall m a, let s := m_signal m in let r := resample resampler a (sampleRate (m_spec m)) in
  lanes_ok lanes -> (forall channels n, matrix_of channels n (memory channels n)) -> m_impulseFile m = Some a ->
  0 < a_channels s -> matrix_of (a_channels s) (a_samples s) (a_data s) -> response_fits (2 ^ 12) r ->
  (a_channels s <= a_channels r -> exists gain file, let raw := tab (a_channels s) (fun ch => tab (a_samples s) (played (2 ^ 12) (a_samples s) (nth ch (a_data r) []) (nth ch (a_data s) []))) in
     scaled_to_peak gain raw file /\ output m ENeo file) /\
  (a_channels r < a_channels s -> convolve resampler lanes juce memory ENeo m = UB).
Proof using.
  intros m a s r Hl Hmem Ha Hch Hs Hr.
  assert (H12 : 0 < 12 < max_order) by (unfold max_order; lia).
  destruct (C60_process_blocks resampler lanes (PConv lanes None (Some a) []) a 12 (a_channels s) (a_samples s) (sampleRate (m_spec m)) (a_data s) (memory (a_channels s) (a_samples s)) Hl eq_refl H12 Hch Hr Hs (Hmem _ _)) as [P1 P2].
  assert (Ec : convolve resampler lanes juce memory ENeo m =
    ('(_, out) <- processBlocks resampler lanes (a_channels s) (a_samples s) (a_data s) (memory (a_channels s) (a_samples s)) (2 ^ 12) (sampleRate (m_spec m)) (PConv lanes None (Some a) []) ;; Ok out)%outcome).
  { unfold convolve. rewrite Ha. reflexivity. }
  split.
  - intros Hle. destruct (P1 Hle) as (c & E & _).
    destruct (peak_of_matrix (a_channels s) (a_samples s) (tab (a_channels s) (fun ch => tab (a_samples s) (played (2 ^ 12) (a_samples s) (nth ch (a_data r) []) (nth ch (a_data s) []))))) as (gain & file & Hg & En).
    { apply matrix_intro; [apply tab_length|]. intros i Hi. rewrite nth_tab by auto. apply tab_length. }
    exists gain, file. split; [exact Hg|]. eexists. rewrite Ec, E. split; [reflexivity|exact En].
  - intros Hlt. rewrite Ec, (P2 Hlt). reflexivity.
Qed.

Lemma distance_ok : forall channels parts bins D S, 0 < channels -> 0 < parts -> length D = channels -> length S = channels ->
  (forall ch, ch < channels -> matrix_of parts bins (nth ch D []) /\ matrix_of parts bins (nth ch S [])) ->
  exists e, maxChannelRMSError D S = Ok e /\ spectral_distance D S e.
Proof using.
  intros channels parts bins D S Hc Hp LD LS HM. unfold maxChannelRMSError. rewrite LD.
  destruct (for_range_inv R (fun n e => (forall ch, ch < n -> (channel_distance (nth ch D []) (nth ch S []) <= e)%R) /\
      (n = 0 /\ e = 0%R \/ exists ch, ch < n /\ channel_distance (nth ch D []) (nth ch S []) = e)) 0 channels
    (fun ch rmse => (s <- rd D ch ;; r <- rd S ch ;; s0 <- rd s 0 ;; r0 <- rd r 0 ;;
      e <- rmse_c (Mat (length s) (length s0) s) (Mat (length r) (length r0) r) ;; Ok (Rmax rmse e))%outcome) 0%R) as (e & E & HI & HE).
  - lia.
  - split; [intros; lia|auto].
  - intros j e Hj [H1 H2]. destruct (HM j ltac:(lia)) as [MD MS].
    rewrite (rd_ok _ D j []), (rd_ok _ S j []) by lia. cbn [bind].
    pose proof MD as [L1 W1]. pose proof MS as [L2 W2].
    rewrite (rd_ok _ (nth j D []) 0 []), (rd_ok _ (nth j S []) 0 []) by lia. cbn [bind].
    rewrite (W1 (nth 0 (nth j D []) [])), (W2 (nth 0 (nth j S []) [])) by (apply nth_In; lia). rewrite L1, L2.
    unfold rmse_c, mse_c. rewrite mse_ok; [|exact MD|exact MS|split; reflexivity]. cbn [bind entries].
    eexists. split; [reflexivity|]. change (sqrt _) with (channel_distance (nth j D []) (nth j S [])).
    set (d := channel_distance (nth j D []) (nth j S [])).
    assert (Hd : (0 <= d)%R) by (apply sqrt_pos).
    split.
    + intros ch Hch. destruct (Nat.eq_dec ch j) as [->|N]; [apply Rmax_r|]. eapply Rle_trans; [apply H1; lia|apply Rmax_l].
    + right. destruct (Rle_dec e d) as [G|G].
      * exists j. rewrite Rmax_right by exact G. split; [lia|reflexivity].
      * rewrite Rmax_left by lra. destruct H2 as [[_ ->]|(ch & Hch & He)]; [lra|]. exists ch. split; [lia|exact He].
  - exists e. split; [exact E|]. split; rewrite LD; auto. destruct HE as [[Z _]|HE]; [lia|exact HE].
Qed.

Lemma quality_stft_ok : forall n channels frames x, 1 <= n -> 2 * n <= 2 ^ max_order -> 0 < frames -> (Z.of_nat frames < 2 ^ 64)%Z -> matrix_of channels frames x ->
  (Z.of_nat channels * Z.of_nat (ceil_div frames (n - n / 2)) * Z.of_nat (2 ^ Nat.log2_up (2 * n) / 2 + 1) < max_elements)%Z ->
  quality_stft n channels frames x = Ok (spectrogram n channels frames x).
Proof using.
  intros n channels frames x Hn HM Hf H64 M Hmax. set (o := StftOptions n (n * 2) (n / 2) hann_window).
  assert (H2 : 2 <= so_transform o <= 2 ^ max_order) by (cbn [o so_transform]; lia).
  destruct (C39_constructor o H2) as [p E]. unfold quality_stft, stft. fold o. rewrite E. cbn [bind].
  assert (HK : n <= 2 ^ Nat.log2_up (n * 2)). { pose proof (Nat.log2_up_spec (n * 2) ltac:(lia)). lia. }
  destruct (C39_stft o p x channels frames (stft_made _ p E)) as [p' E']; auto; cbn [o so_transform so_overlap so_frame] in *.
  { apply Nat.div_lt; lia. } { rewrite (Nat.mul_comm n 2). exact Hmax. }
  rewrite E'. cbn [bind]. f_equal. unfold spectrogram. rewrite (Nat.mul_comm n 2). apply tab_ext. intros c _. apply tab_ext. intros f _. f_equal.
  unfold framed. apply tab_ext. intros i _. f_equal. unfold o. cbn [so_window]. unfold hann_window, Rdiv. ring.
Qed.

(** C76.  The quality test compares, for 180 dynamic ranges from 90 dB down to 1 dB, the dense
    convolution with the sparse one, both scaled to a peak of 1: the error it prints is the distance
    of the two spectrograms in the worst channel. *)
Theorem C76_quality : forall m, let s := m_signal m in let h := m_impulse m in let n := m_stftSize m in
  (forall channels n, matrix_of channels n (memory channels n)) -> offline_fits 12 (a_channels s) (a_samples s) (a_channels h) (a_samples h) ->
  matrix_of (a_channels s) (a_samples s) (a_data s) -> matrix_of (a_channels h) (a_samples h) (a_data h) ->
  0 < a_channels s <= a_channels h -> 0 < a_samples s -> (0 < a_rate h)%R -> m_binsToKeep m <= 2 ^ 12 + 1 ->
  1 <= n -> 2 * n <= 2 ^ max_order ->
  (Z.of_nat (a_channels s) * Z.of_nat (ceil_div (a_samples s) (n - n / 2)) * Z.of_nat (2 ^ Nat.log2_up (2 * n) / 2 + 1) < max_elements)%Z ->
  exists gain dense err, scaled_to_peak gain (tab (a_channels s) (fun ch => tab (a_samples s) (lconv (nth ch (a_data s) []) (nth ch (a_data h) [])))) dense /\
    (forall out, works m out err EQuality) /\
    forall i, 1 <= i <= 180 -> exists range raw gain' sparse,
      (range = 1 + (INR i - 1) * (89 / 179))%R /\ sparsely_convolved 12 s h range (m_binsToKeep m) raw /\ scaled_to_peak gain' raw sparse /\
      spectral_distance (spectrogram n (a_channels s) (a_samples s) dense) (spectrogram n (a_channels s) (a_samples s) sparse) (err i).
Proof using.
  intros m s h n Hmem Hfit Hs Hh [Hc Hle] Hf Hr Hlow Hn HM Hmax.
  destruct (C59_dense OffUpols 12 _ _ _ _ _ _ (memory (a_channels s) (a_samples s)) I Hfit Hs Hh (Hmem _ _) Hle) as (a & Ha & Ed).
  set (raw0 := convolved_by a (a_channels s) (a_samples s) (a_data s) (a_data h)) in *.
  set (clean := tab (a_channels s) (fun ch => tab (a_samples s) (lconv (nth ch (a_data s) []) (nth ch (a_data h) [])))).
  assert (Hraw : raw0 = map (map (fun v => v * a)%R) clean).
  { unfold raw0, convolved_by, clean. unfold tab at 3. rewrite map_map. apply map_ext. intros ch. unfold tab. rewrite map_map. apply map_ext. intros i. ring. }
  assert (M0 : matrix_of (a_channels s) (a_samples s) raw0).
  { apply matrix_intro; [apply tab_length|]. intros i Hi. unfold raw0, convolved_by. rewrite nth_tab by auto. apply tab_length. }
  destruct (peak_of_matrix _ _ _ M0) as (g & dense & Hg & En).
  assert (H64 : (Z.of_nat (a_samples s) < 2 ^ 64)%Z). { destruct Hfit as (_ & _ & _ & _ & _ & G). eapply Z.lt_trans with (2 ^ 32)%Z; [|reflexivity]. change (2 ^ 32)%Z with (2 * 2 ^ 31)%Z. pose proof (Nat2Z.is_nonneg (2 ^ 12)). lia. }
  assert (Mx : forall gain raw file, matrix_of (a_channels s) (a_samples s) raw -> scaled_to_peak gain raw file -> matrix_of (a_channels s) (a_samples s) file).
  { intros gain raw file [L W] (_ & -> & _). split; [rewrite map_length; auto|]. intros row Hrow. apply in_map_iff in Hrow. destruct Hrow as (x & <- & Hx). rewrite map_length. auto. }
  set (D := spectrogram n (a_channels s) (a_samples s) dense).
  assert (ED : quality_stft n (a_channels s) (a_samples s) dense = Ok D) by (apply quality_stft_ok; eauto).
  assert (Hout : output m EUpols dense) by (exists raw0; split; [exact Ed|exact En]).
  set (err := fun i => match (raw <- sparse_run memory (quality_range i) (m_binsToKeep m) m ;; sparse <- normalised_peak (a_channels s) (a_samples s) raw ;;
    S <- quality_stft n (a_channels s) (a_samples s) sparse ;; maxChannelRMSError D S)%outcome with Ok e => e | _ => 0%R end).
  assert (Hi : forall i, exists raw gain' sparse, sparsely_convolved 12 s h (quality_range i) (m_binsToKeep m) raw /\ scaled_to_peak gain' raw sparse /\
    spectral_distance D (spectrogram n (a_channels s) (a_samples s) sparse) (err i) /\ error_of resampler lanes juce memory m i (err i)).
  { intros i. destruct (sparse_run_ok (quality_range i) (m_binsToKeep m) m Hmem Hfit Hs Hh Hle Hr Hlow) as (raw & H & M & E).
    destruct (peak_of_matrix _ _ _ M) as (g' & sparse & Hg' & En'). fold s in En'.
    assert (ES : quality_stft n (a_channels s) (a_samples s) sparse = Ok (spectrogram n (a_channels s) (a_samples s) sparse)) by (apply quality_stft_ok; eauto).
    set (K := 2 ^ Nat.log2_up (2 * n)).
    assert (HR : forall x ch, ch < a_channels s -> matrix_of (ceil_div (a_samples s) (n - n / 2)) (K / 2 + 1) (nth ch (spectrogram n (a_channels s) (a_samples s) x) [])).
    { intros x ch Hch. unfold spectrogram. rewrite nth_tab by auto. split; [apply tab_length|]. intros row Hrow. unfold tab in Hrow at 1. apply in_map_iff in Hrow.
      destruct Hrow as (f & <- & _). unfold RDFT_list. rewrite tab_length. unfold framed. rewrite tab_length. reflexivity. }
    destruct (distance_ok (a_channels s) (ceil_div (a_samples s) (n - n / 2)) (K / 2 + 1) D (spectrogram n (a_channels s) (a_samples s) sparse)) as (e & Ee & He); auto.
    { assert (0 < n - n / 2) by (pose proof (Nat.div_lt n 2 ltac:(lia) ltac:(lia)); lia). pose proof (ceil_div_ge (a_samples s) (n - n / 2) H0). nia. }
    { apply tab_length. } { apply tab_length. } { intros ch Hch. split; apply HR; auto. }
    assert (Ei : err i = e) by (unfold err; rewrite E; cbn [bind]; rewrite En'; cbn [bind]; rewrite ES; cbn [bind]; rewrite Ee; reflexivity).
    exists raw, g', sparse. rewrite Ei. split; [exact H|]. split; [exact Hg'|]. split; [exact He|].
    exists dense, D, raw, sparse, (spectrogram n (a_channels s) (a_samples s) sparse). auto 10. }
  destruct Hg as (Hg0 & Hg1 & Hg2). destruct Ha as (Ha0 & _).
  exists (a * g)%R, dense, err. split; [|split].
  - split; [apply Rmult_lt_0_compat; auto|]. split.
    + rewrite Hg1, Hraw, map_map. apply map_ext. intros row. rewrite map_map. apply map_ext. intros v. ring.
    + intros (v & Hv & Nv). apply Hg2. exists (v * a)%R. split; [|apply Rmult_integral_contrapositive; split; lra].
      rewrite Hraw, <- concat_map. apply in_map_iff. exists v. auto.
  - intros out i _. destruct (Hi i) as (raw & g' & sparse & _ & _ & _ & H). exact H.
  - intros i _. destruct (Hi i) as (raw & g' & sparse & H1 & H2 & H3 & _). exists (quality_range i), raw, g', sparse. split; [|split; [exact H1|split; [exact H2|exact H3]]].
    unfold quality_range. field.
Qed.
End C76.

Lemma sevens_matrix : forall channels n, matrix_of channels n (sevens channels n).
Proof. intros channels n. split; [apply repeat_length|]. intros row H. apply repeat_spec in H. subst. apply repeat_length. Qed.

(** The tab of C76_instance meets the hypotheses of all three; its signal is shorter than a block,
    and the plugin's Convolution leaves it as it is. *)
Example C76_files_instance : forall resampler juce, let m := t_members some_tab in
  (exists file, output_of resampler None juce sevens m ESparse file) /\
  (exists err, forall out, succeeds resampler None juce sevens m out err EQuality) /\
  output_of resampler None juce sevens m ENeo [[1; 0; 0]]%R.
Proof.
  intros resampler juce m.
  assert (Hfit : offline_fits 12 (a_channels (m_signal m)) (a_samples (m_signal m)) (a_channels (m_impulse m)) (a_samples (m_impulse m))).
  { unfold m. cbn [t_members some_tab m_signal m_impulse some_signal some_response a_channels a_samples]. unfold offline_fits, max_order. repeat split; try lia; vm_compute; auto; discriminate. }
  assert (Hs : matrix_of (a_channels (m_signal m)) (a_samples (m_signal m)) (a_data (m_signal m))) by (split; [reflexivity|]; intros row [<-|[]]; reflexivity).
  assert (Hh : matrix_of (a_channels (m_impulse m)) (a_samples (m_impulse m)) (a_data (m_impulse m))) by (split; [reflexivity|]; intros row [<-|[]]; reflexivity).
  assert (Hle : 0 < a_channels (m_signal m) <= a_channels (m_impulse m)) by (cbn; lia).
  assert (Hr : (0 < a_rate (m_impulse m))%R) by (cbn; lra).
  assert (Hb : m_binsToKeep m <= 2 ^ 12 + 1) by (cbn [m t_members some_tab m_binsToKeep]; pose proof (Nat.pow_le_mono_r 2 4 12); change (2 ^ 4) with 16 in *; lia).
  assert (Hn : 2 * m_stftSize m <= 2 ^ max_order) by (cbn [m t_members some_tab m_stftSize]; unfold max_order; change (2 * 512) with (2 ^ 10); apply Nat.pow_le_mono_r; lia).
  split; [|split].
  - destruct (C76_sparse_file resampler None juce sevens m sevens_matrix Hfit Hs Hh (proj2 Hle) Hr Hb) as (raw & gain & file & _ & _ & H). exists file. exact H.
  - destruct (C76_quality resampler None juce sevens m sevens_matrix Hfit Hs Hh Hle) as (gain & dense & err & _ & H & _); auto; try (cbn; lia).
    { vm_compute. reflexivity. }
    exists err. exact H.
  - assert (E : resample resampler some_response (sampleRate (m_spec m)) = some_response).
    { unfold resample. cbn [m t_members some_tab m_spec sampleRate some_response a_rate]. unfold exact. destruct (Req_EM_T 44100 44100) as [_|N]; [reflexivity|]. exfalso. apply N. reflexivity. }
    destruct (C76_neo_file resampler None juce sevens m some_response I sevens_matrix eq_refl (proj1 Hle) Hs) as [H _].
    { rewrite E. unfold response_fits. split; [exact Hh|]. destruct Hfit as (_ & H1 & H2 & H3 & H4 & _). auto. }
    rewrite E in H. destruct (H (proj2 Hle)) as (gain & file & (Hg & Hf & Hp) & Ho).
    assert (Eraw : tab (a_channels (m_signal m)) (fun ch => tab (a_samples (m_signal m)) (played (2 ^ 12) (a_samples (m_signal m)) (nth ch (a_data some_response) []) (nth ch (a_data (m_signal m)) []))) = [[2; 0; 0]]%R).
    { unfold m. cbn [t_members some_tab m_signal some_signal some_response a_channels a_samples a_data]. unfold tab. cbn [map seq nth]. unfold played. rewrite Nat.div_small by (pose proof (Nat.pow_le_mono_r 2 4 12); change (2 ^ 4) with 16 in *; lia). reflexivity. }
    rewrite Eraw in Hf, Hp. cbn [map] in Hf. subst file.
    assert (Hg2 : (gain = / 2)%R).
    { destruct Hp as [H1 (v & Hv & E1)]. { exists 2%R. split; [left; reflexivity|lra]. }
      cbn [concat app] in Hv. destruct Hv as [<-|[<-|[<-|[]]]]; [rewrite Rabs_right in E1 by lra; lra| |]; rewrite Rmult_0_l, Rabs_R0 in E1; lra. }
    subst gain. replace (2 * / 2)%R with 1%R in Ho by lra. rewrite !Rmult_0_l in Ho. exact Ho.
Qed.

Print Assumptions C76_sparse_file.
Print Assumptions C76_neo_file.
Print Assumptions C76_quality.
