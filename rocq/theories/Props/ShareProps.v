(** C77: the percentage of bins the benchmark tab shows for a response. *)
From Coq Require Import Reals List Arith ZArith Lia Lra.
From Verif Require Import Base.Outcome Base.OutcomeFacts Base.Cplx Model.Integers Model.Statistics Model.Algorithm Model.Units Model.Stft Model.Convolution
  Model.PluginConvolution Model.Spectrum Model.BenchmarkTab Spec.Dft Spec.Convolution Spec.Stft Spec.Transforms Spec.Offline Spec.Spectrum Spec.Share Spec.Benchmark Spec.Statistics
  Proof.IntegersProof Proof.StatisticsProof Proof.DftTheory Proof.StftProof Proof.ConvTheory Proof.ConvCorollaries Proof.OfflineProof Proof.SpectrumProof Proof.UpcInstances
  Proof.ShareProof Props.ConvolutionProps Props.SpectrumProps.
Import ListNotations.
Open Scope outcome_scope.
Local Arguments Nat.div : simpl never.
Local Arguments Nat.modulo : simpl never.
Local Arguments Nat.pow : simpl never.

(** The spectrogram of the tab's picture. *)
Definition spectrogram (a : audio) : list (list (list C)) :=
  tab (a_channels a) (fun c => tab (ceil_div (a_samples a) (2 ^ 10 - 2 ^ 10 / 2)) (fun f =>
    RDFT_list Forward (framed (2 ^ 10) (2 ^ 10) (2 ^ 10 - 2 ^ 10 / 2) (fun i => (1 - cos (2 * PI * INR i / INR (2 ^ 10 - 1))) / 2)%R (nth c (a_data a) []) f))).

Lemma spectrogram_ok : forall a, 0 < a_channels a -> 0 < a_samples a -> matrix_of (a_channels a) (a_samples a) (a_data a) ->
  (Z.of_nat (a_channels a) * Z.of_nat (ceil_div (a_samples a) (2 ^ 9)) * 513 < 2 ^ 31)%Z ->
  stft_size (a_channels a) (a_samples a) (a_data a) (2 ^ 10) = Ok (spectrogram a).
Proof.
  intros a Hc Hs Hm Hz. rewrite (C39_stft_default (2 ^ 10)); auto.
  - split; [exact (Nat.pow_le_mono_r 2 1 10 ltac:(lia) ltac:(lia))|exact (Nat.pow_le_mono_r 2 10 27 ltac:(lia) ltac:(lia))].
  - exact (samples_64 _ _ Hc Hz).
  - rewrite Nat.log2_up_pow2 by lia. change (2 ^ 10 - 2 ^ 10 / 2) with (2 ^ 9). change (Z.of_nat (2 ^ 10 / 2 + 1)) with 513%Z. unfold max_elements. lia.
Qed.

(** C77: the tab shows the percentage of the late response's bins whose weighted level is within
    the dynamic range. *)
Theorem C77_percentage : forall a weighted rate range, showable (a_channels a) (a_samples a) (a_data a) -> (0 < rate)%R ->
  exists p, updateImages a weighted rate range = Ok p /\ is_share (a_data a) weighted rate range p.
Proof.
  intros a weighted rate range H Hr. pose proof H as (Hc & Hs & Hm & Hz).
  destruct (response_share a weighted rate range H Hr) as (parts & p & EP & ES & HI). exists p. split; [|exact HI].
  assert (Hs0 : 0 < a_samples a) by lia. unfold updateImages. rewrite (spectrogram_ok a Hc Hs0 Hm Hz). cbn [bind]. rewrite EP. cbn [bind]. rewrite weighting_table_ok by auto. cbn [bind].
  set (F := ceil_div (a_samples a) (2 ^ 10 - 2 ^ 10 / 2)). assert (HF : 0 < F) by (apply ceil_pos; [apply Nat.neq_0_lt_0; discriminate|lia]).
  rewrite (rd_ok _ _ 0 []) by (unfold spectrogram; rewrite tab_length; auto). cbn [bind]. unfold spectrogram at 1. rewrite nth_tab by auto.
  fold F. set (S := tab F _). assert (HS : matrix_of F (2 ^ 9 + 1) S).
  { split; [apply tab_length|]. intros row Hin. apply in_map_iff in Hin. destruct Hin as (f & <- & _). rewrite RDFT_list_length. unfold framed. rewrite tab_length. reflexivity. }
  destruct HS as [LS WS].
  assert (HZ : (Z.of_nat (F * (2 ^ 9 + 1)) < 2 ^ 31)%Z). { rewrite Nat2Z.inj_mul. change (Z.of_nat (2 ^ 9 + 1)) with 513%Z. change F with (ceil_div (a_samples a) (2 ^ 9)). nia. }
  rewrite (rd_ok _ _ 0 []) by lia. cbn [bind].
  replace (nth 0 (spectrogram a) []) with S by (unfold spectrogram; rewrite nth_tab by auto; reflexivity).
  destruct (C61_image F (2 ^ 9 + 1) S (fun y => if weighted then nth y (tab (2 ^ 10) (bin_weight true rate)) 0%R else 0%R) (- range)) as (m & img & _ & EI & _);
    [split; auto|auto|lia|nia|reflexivity|].
  rewrite LS, (WS (nth 0 S [])) by (apply nth_In; lia). rewrite EI. cbn [bind].
  destruct (C61_histogram F (2 ^ 9 + 1) S (fun y => if weighted then nth y (tab (2 ^ 10) (bin_weight true rate)) 0%R else 0%R)) as (m' & h & idx & Hl & EH & Lh & HX & HC & _);
    [split; auto|auto|lia|auto|].
  destruct (C61_bars F (2 ^ 9 + 1) S _ h (conj LS WS) HF ltac:(lia) HZ EH) as (bars & M & EB & _); [|rewrite EB; cbn [bind]; exact ES].
  destruct (HX 0 0 HF ltac:(lia)) as (H1 & dB & HL & HN).
  assert (Ew : (if weighted then nth 0 (tab (2 ^ 10) (bin_weight true rate)) 0%R else 0%R) = 0%R).
  { destruct weighted; [|reflexivity]. rewrite nth_tab by (apply Nat.neq_0_lt_0; discriminate). reflexivity. }
  cbv beta in HN. rewrite Ew in HN.
  exists (idx (0, 0)). split.
  - assert (HdB : (-72 <= dB)%R). { destruct HL as [[_ Ed]|[_ Ed]]; rewrite Ed; [lra|apply Rmax_l]. }
    destruct HN as [HN _]. apply abs_le in HN. assert (G : (Rmin 143 (Rmax 0 (- (dB + 0))) <= 72)%R). { unfold Rmin, Rmax. destruct (Rle_dec 0 _), (Rle_dec 143 _); lra. }
    assert (Hlt : (IZR (Z.of_nat (idx (0%nat, 0%nat))) < 143)%R) by lra. apply lt_IZR in Hlt. lia.
  - rewrite HC by auto. unfold count. assert (Hin : In (0, 0) (filter (fun q => idx q =? idx (0, 0)) (positions F (2 ^ 9 + 1)))).
    { apply filter_In. split; [apply in_positions; split; [auto|lia]|apply Nat.eqb_refl]. }
    destruct (filter _ _); [contradiction|]. cbn [length]. lia.
Qed.

(** The percentage is one number. *)
Theorem C77_definite : forall response weighted rate range p q, is_share response weighted rate range p -> is_share response weighted rate range q -> p = q.
Proof.
  intros response weighted rate range p q (m & k & [A1 (r1 & v1 & [<-|[]] & I1 & E1)] & K1 & ->) (m' & k' & [A2 (r2 & v2 & [<-|[]] & I2 & E2)] & K2 & ->).
  assert (m = m') as <-. { apply Rle_antisym; [rewrite <- E1; apply (A2 _ _ (or_introl eq_refl) I1)|rewrite <- E2; apply (A1 _ _ (or_introl eq_refl) I2)]. }
  do 4 f_equal. apply filter_ext_in. intros [b v] Hin. destruct (K1 b v Hin) as (d1 & L1 & B1), (K2 b v Hin) as (d2 & L2 & B2). rewrite (level_unique _ _ _ _ L1 L2) in B1.
  destruct (k (b, v)), (k' (b, v)); auto; [symmetry; apply B2, B1; reflexivity|apply B1, B2; reflexivity].
Qed.

Lemma filter_true : forall A (l : list A), filter (fun _ => true) l = l.
Proof. intros A l. induction l as [|x l IH]; [reflexivity|]. cbn [filter]. rewrite IH. reflexivity. Qed.

Lemma filter_sub : forall A (f g : A -> bool) l, (forall x, In x l -> f x = true -> g x = true) -> length (filter f l) <= length (filter g l).
Proof.
  intros A f g l H. induction l as [|x l IH]; [reflexivity|]. cbn [filter]. pose proof (IH ltac:(intros; apply H; cbn; auto)). pose proof (H x ltac:(cbn; auto)).
  destruct (f x), (g x); cbn [length]; try lia; discriminate (H1 eq_refl).
Qed.

Lemma share_le : forall n m t, (n <= m <= t)%nat -> (0 < t)%nat -> (0 <= INR n / INR t * 100 <= INR m / INR t * 100)%R /\ (INR m / INR t * 100 <= 100)%R.
Proof.
  intros n m t [H1 H2] Ht. apply lt_0_INR in Ht. apply le_INR in H1, H2. pose proof (pos_INR n). pose proof (Rinv_0_lt_compat _ Ht).
  assert (INR t * / INR t = 1)%R by (apply Rinv_r; lra). unfold Rdiv. nra.
Qed.

(** It lies between 0 and 100 and grows with the range. *)
Theorem C77_monotone : forall a weighted rate range range', showable (a_channels a) (a_samples a) (a_data a) -> (0 < rate)%R -> (range <= range')%R ->
  exists p p', updateImages a weighted rate range = Ok p /\ updateImages a weighted rate range' = Ok p' /\ (0 <= p <= p')%R /\ (p' <= 100)%R.
Proof.
  intros a weighted rate r r' H Hr Hle. destruct (C77_percentage a weighted rate r H Hr) as (p & E & m & k & L1 & K1 & ->).
  destruct (C77_percentage a weighted rate r' H Hr) as (p' & E' & m' & k' & L2 & K2 & ->). eexists _, _. split; [exact E|]. split; [exact E'|].
  assert (m = m') as <-. { destruct L1 as [A1 (r1 & v1 & [<-|[]] & I1 & E1)], L2 as [A2 (r2 & v2 & [<-|[]] & I2 & E2)].
    apply Rle_antisym; [rewrite <- E1; apply (A2 _ _ (or_introl eq_refl) I1)|rewrite <- E2; apply (A1 _ _ (or_introl eq_refl) I2)]. }
  set (bins := late_bins (a_data a)) in *.
  assert (Hb : 0 < length bins). { destruct L1 as [_ (row & v & [<-|[]] & Hv & _)]. destruct bins; [contradiction|cbn; lia]. }
  destruct (share_le (length (filter k bins)) (length (filter k' bins)) (length bins)) as [[? ?] ?]; auto. split.
  - apply filter_sub. intros [b v] Hin Hk. destruct (K1 b v Hin) as (d1 & D1 & B1), (K2 b v Hin) as (d2 & D2 & B2). rewrite (level_unique _ _ _ _ D1 D2) in B1.
    apply B2. apply B1 in Hk. lra.
  - rewrite <- (filter_true _ bins) at 2. apply filter_sub. auto.
Qed.

(** It depends neither on the gain of the recording ... *)
Theorem C77_gain : forall a weighted rate range g, showable (a_channels a) (a_samples a) (a_data a) -> (0 < rate)%R -> g <> 0%R ->
  updateImages (Audio (a_channels a) (a_samples a) (a_rate a) (map (map (fun v => v * g)%R) (a_data a))) weighted rate range = updateImages a weighted rate range.
Proof.
  intros a weighted rate range g H Hr Hg. destruct (C77_percentage a weighted rate range H Hr) as (p & -> & S1).
  destruct (C77_percentage (Audio (a_channels a) (a_samples a) (a_rate a) (map (map (fun v => v * g)%R) (a_data a))) weighted rate range) as (q & -> & S2); auto.
  - cbn [a_channels a_samples a_data]. destruct H as (H1 & H2 & [L W] & H4). split; [|split; [|split]]; auto. split; [rewrite map_length; auto|].
    intros row Hin. apply in_map_iff in Hin. destruct Hin as (h & <- & Hh). rewrite map_length. auto.
  - f_equal. apply (C77_definite (a_data a) weighted rate range); auto. apply (is_share_scale g); auto.
Qed.

(** ... nor on its first 512 samples. *)
Theorem C77_start_ignored : forall a b weighted rate range, showable (a_channels a) (a_samples a) (a_data a) -> showable (a_channels b) (a_samples b) (a_data b) -> (0 < rate)%R ->
  map (skipn (2 ^ 9)) (a_data a) = map (skipn (2 ^ 9)) (a_data b) -> updateImages a weighted rate range = updateImages b weighted rate range.
Proof.
  intros a b weighted rate range Ha Hb Hr E. destruct (C77_percentage a weighted rate range Ha Hr) as (p & -> & S1). destruct (C77_percentage b weighted rate range Hb Hr) as (q & -> & S2).
  f_equal. apply (C77_definite (a_data a) weighted rate range); auto.
  assert (EL : late_bins (a_data b) = late_bins (a_data a)).
  { unfold late_bins. rewrite <- (flat_map_map _ _ _ (skipn (2 ^ 9)) (fun h => flat_map (fun row => combine (seq 0 (length row)) row) (block_spectra (2 ^ 9) h)) (a_data a)).
    rewrite E. symmetry. apply flat_map_map. }
  unfold is_share in *. rewrite EL in S2. exact S2.
Qed.

(** A late response with a sound in it has bins in every positive range. *)
Theorem C77_positive : forall a rate range h n, showable (a_channels a) (a_samples a) (a_data a) -> (0 < rate)%R -> (0 < range)%R ->
  In h (a_data a) -> 2 ^ 9 <= n -> nth n h 0%R <> 0%R -> exists p, updateImages a false rate range = Ok p /\ (0 < p <= 100)%R.
Proof.
  intros a rate range h n H Hr Hrange Hh Hn Hx. destruct (C77_percentage a false rate range H Hr) as (p & E & m & k & Hl & K & ->). eexists. split; [exact E|].
  set (bins := late_bins (a_data a)) in *.
  assert (Hm : (0 < m)%R).
  { destruct Hl as [A (row & v & [<-|[]] & Hv & Ev)]. destruct (Rtotal_order m 0) as [G|[G|G]]; [pose proof (bin_power_pos v); lra| |exact G]. exfalso. apply Hx.
    set (h' := skipn (2 ^ 9) h).
    assert (Hn' : n - 2 ^ 9 < length h'). { unfold h'. rewrite skipn_length. destruct (Nat.lt_ge_cases n (length h)); [lia|]. exfalso. apply Hx, nth_overflow. auto. }
    assert (E0 : nth n h 0%R = nth (n - 2 ^ 9) h' 0%R). { unfold h'. rewrite nth_skipn_add. f_equal. lia. }
    set (q := (n - 2 ^ 9) / 2 ^ 9). set (i := (n - 2 ^ 9) mod 2 ^ 9). pose proof (Nat.mod_upper_bound (n - 2 ^ 9) (2 ^ 9) ltac:(discriminate)) as Hi. fold i in Hi.
    pose proof (partition_inverse 9 h' q i ltac:(lia)) as PI. assert (Hib : (i <? 2 ^ 9) = true) by (apply Nat.ltb_lt; auto). rewrite Hib in PI.
    assert (En : q * 2 ^ 9 + i = n - 2 ^ 9). { unfold q, i. pose proof (Nat.div_mod (n - 2 ^ 9) (2 ^ 9) ltac:(discriminate)). lia. }
    rewrite En in PI. rewrite E0, <- PI.
    assert (Z : forall j, nth j (RDFT_list Forward (pad (2 * 2 ^ 9) (part (2 ^ 9) h' q))) C0 = C0).
    { intros j. destruct (Nat.lt_ge_cases j (length (RDFT_list Forward (pad (2 * 2 ^ 9) (part (2 ^ 9) h' q))))) as [Hj|Hj]; [|apply nth_overflow; auto].
      set (w := nth j _ C0). assert (Hw : In w (map snd bins)).
      { unfold bins. rewrite late_bins_parts, bins_snd. apply in_concat. exists (RDFT_list Forward (pad (2 * 2 ^ 9) (part (2 ^ 9) h' q))). split; [|apply nth_In; auto].
        apply in_concat. exists (block_spectra (2 ^ 9) h'). split; [apply in_map_iff; exists h; split; [reflexivity|exact Hh]|]. apply in_map_iff. exists q. split; [reflexivity|]. apply in_seq. split; [apply Nat.le_0_l|].
        cbn [plus]. unfold q, ceil_div. apply Nat.div_lt_upper_bound; [discriminate|]. pose proof (Nat.div_mod (length h' + 2 ^ 9 - 1) (2 ^ 9) ltac:(discriminate)).
        pose proof (Nat.mod_upper_bound (length h' + 2 ^ 9 - 1) (2 ^ 9) ltac:(discriminate)). lia. }
      pose proof (A _ w (or_introl eq_refl) Hw) as Hp. pose proof (bin_power_pos w). assert (Hz : bin_power w = 0%R) by lra. clear - Hz. destruct w as [x y]. unfold bin_power in Hz. cbn [fst snd] in Hz. unfold C0. f_equal; nra. }
    unfold IRDFT. rewrite (Rsum_ext _ _ (fun _ => 0%R)). 2: { intros j Hj. rewrite !Z. unfold C0. cbn [fst snd]. ring. } rewrite Rsum_const, !Z. unfold C0. cbn [fst snd]. unfold Rdiv. ring. }
  destruct Hl as [A (row & v & [<-|[]] & Hv & Ev)]. apply in_map_iff in Hv. destruct Hv as ([b v'] & Ev' & Hin). cbn [snd] in Ev'. subst v'.
  assert (Hk : k (b, v) = true).
  { destruct (K b v Hin) as (dB & HL & HI). apply HI. destruct HL as [[HL _]|[_ ->]]; [lra|]. rewrite Ev. replace (m / m)%R with 1%R by (field; lra). rewrite ln_1. unfold bin_weight. unfold Rdiv. rewrite Rmult_0_l, Rmult_0_r. rewrite Rmax_right by lra. lra. }
  assert (Hf : In (b, v) (filter k bins)) by (apply filter_In; auto).
  assert (H1 : 0 < length (filter k bins)) by (destruct (filter k bins); [contradiction|cbn; lia]). assert (Hb : 0 < length bins) by (destruct bins; [contradiction|cbn; lia]).
  split.
  - apply lt_0_INR in H1, Hb. pose proof (Rinv_0_lt_compat _ Hb). unfold Rdiv. apply Rmult_lt_0_compat; [apply Rmult_lt_0_compat; auto|lra].
  - destruct (share_le 0 (length (filter k bins)) (length bins)) as [_ G]; auto. split; [lia|]. rewrite <- (filter_true _ bins) at 2. apply filter_sub. auto.
Qed.

(** C77, refuted: bins below the dynamic range are not counted.  Levels end at -72 dB, so without
    weighting a range above 72 dB counts all bins, silent ones too. *)
Theorem C77_quiet_bins_refuted : forall a rate range, showable (a_channels a) (a_samples a) (a_data a) -> (0 < rate)%R -> (72 < range)%R ->
  updateImages a false rate range = Ok 100%R.
Proof.
  intros a rate range H Hr Hrange. destruct (C77_percentage a false rate range H Hr) as (p & E & m & k & Hl & K & ->). rewrite E. f_equal.
  set (bins := late_bins (a_data a)) in *.
  assert (Hb : 0 < length bins). { destruct Hl as [_ (row & v & [<-|[]] & Hv & _)]. destruct bins; [contradiction|cbn; lia]. }
  assert (Ef : filter k bins = bins).
  { rewrite <- (filter_true _ bins) at 2. apply filter_ext_in. intros [b v] Hin. destruct (K b v Hin) as (dB & HL & HI). apply HI. unfold bin_weight.
    assert (-72 <= dB)%R by (destruct HL as [[_ ->]|[_ ->]]; [lra|apply Rmax_l]). lra. }
  rewrite Ef. apply lt_0_INR in Hb. field. lra.
Qed.

(** C77, refuted: every response can be shown.  One below 512 samples is cut out of bounds, one of
    512 samples leaves nothing to transform and the allocation fails. *)
Theorem C77_short_response_refuted : forall a weighted rate range, 0 < a_channels a -> 0 < a_samples a <= 2 ^ 9 -> matrix_of (a_channels a) (a_samples a) (a_data a) ->
  (Z.of_nat (a_channels a) * 513 < 2 ^ 31)%Z ->
  updateImages a weighted rate range = if a_samples a <? 2 ^ 9 then UB else Throw.
Proof.
  intros a weighted rate range Hc [Hs Hs'] Hm Hz.
  assert (E1 : ceil_div (a_samples a) (2 ^ 9) = 1). { unfold ceil_div. symmetry. apply (Nat.div_unique _ _ 1 (a_samples a - 1)); lia. }
  unfold updateImages. rewrite (spectrogram_ok a Hc Hs Hm) by (rewrite E1; lia). cbn [bind].
  unfold filter_partitions. rewrite normalize_impulse_ok by exact Hm. cbn [obj_map bind].
  destruct (Nat.ltb_spec (a_samples a) (2 ^ 9)) as [G|G].
  - assert (G' : (2 ^ 9 <=? a_samples a) = false) by (apply Nat.leb_gt; auto). rewrite G'. reflexivity.
  - assert (Es : a_samples a = 2 ^ 9) by lia. assert (G' : (2 ^ 9 <=? a_samples a) = true) by (apply Nat.leb_le; auto). rewrite G'. cbn [guard bind].
    destruct Hm as [L W]. set (resp := map (map (fun v => v * impulse_factor (a_data a))%R) (a_data a)).
    assert (W' : forall row, In row resp -> length row = a_samples a). { intros row Hr. apply in_map_iff in Hr. destruct Hr as (h & <- & Hh). rewrite map_length. auto. }
    rewrite (mapM_ok _ _ _ (skipn (2 ^ 9))).
    2: { intros row Hr. rewrite slice_ok by (rewrite ?(W' row Hr); lia). f_equal. rewrite <- (W' row Hr), <- skipn_length. apply firstn_all. }
    cbn [bind]. rewrite Es, Nat.sub_diag. unfold uniform_partition. rewrite usize_arith. cbn [bind].
    replace (Z.to_nat ((Z.of_nat (2 ^ 9) * 2) mod 2 ^ 64)) with (2 ^ 10) by reflexivity. unfold stft.
    set (o := StftOptions (2 ^ 9) (2 ^ 10) 0 rectangular_window).
    destruct (make_stft_ok o) as (p & E & I).
    { cbn [o so_transform]. split; [exact (Nat.pow_le_mono_r 2 1 10 ltac:(lia) ltac:(lia))|exact (Nat.pow_le_mono_r 2 10 27 ltac:(lia) ltac:(lia))]. }
    rewrite E. cbn [bind]. unfold stft_run. destruct (sti_rfft _ _ I) as (RO & _ & _). rewrite RO, (sti_options _ _ I). cbn [o so_frame so_overlap so_transform].
    change (Z.of_nat 0) with 0%Z. rewrite frames_zero by (rewrite pow9; lia). cbn [bind]. rewrite Nat.log2_up_pow2 by lia.
    change (Z.of_nat (2 ^ 10 / 2 + 1)) with 513%Z. rewrite pow9. change (((2 ^ 64 - 1) / (512 - 0) + 1) mod 2 ^ 64)%Z with (2 ^ 55)%Z.
    destruct (Z.leb_spec max_elements (Z.of_nat (a_channels a) * 2 ^ 55 * 513)) as [_|G2]; [reflexivity|]. unfold max_elements in G2. lia.
Qed.

(** In the tab: loading a response that can be shown puts its name and the percentage in the text,
    a new dynamic range or weighting appends the new percentage. *)
Theorem C77_tab : forall resampler lanes juce memory t a, idle t ->
  let m := t_members t in let rate := sampleRate (m_spec m) in let h := resample resampler a rate in
  (0 < rate)%R -> showable (a_channels h) (a_samples h) (a_data h) ->
  forall range weighted, exists p0 p1 p2 t',
    run_events resampler lanes juce memory [LoadImpulse a; SetRange range; SetWeighted weighted] (Tab t) = Ok (Tab t') /\
    t_text t' = [FileName; Percentage p0; Percentage p1; Percentage p2] /\
    is_share (a_data h) (m_weighted m) rate (m_dynamicRange m) p0 /\ is_share (a_data h) (m_weighted m) rate range p1 /\ is_share (a_data h) weighted rate range p2.
Proof.
  intros resampler lanes juce memory [m q job inbox text files] a (H1 & H2). cbn [t_job t_queue t_members] in *. subst. cbv zeta. intros Hr Hs range weighted.
  set (h := resample resampler a (sampleRate (m_spec m))) in *.
  destruct (C77_percentage h (m_weighted m) (sampleRate (m_spec m)) (m_dynamicRange m) Hs Hr) as (p0 & E0 & S0).
  destruct (C77_percentage h (m_weighted m) (sampleRate (m_spec m)) range Hs Hr) as (p1 & E1 & S1).
  destruct (C77_percentage h weighted (sampleRate (m_spec m)) range Hs Hr) as (p2 & E2 & S2).
  exists p0, p1, p2. eexists. split; [|split; [|auto]].
  - cbn [run_events step]. unfold setImpulseResponseFile, redraw. cbn [t_members t_job free_of_race guard bind set_members set_text m_impulseFile m_impulse m_weighted m_spec m_dynamicRange].
    fold h. rewrite E0. cbn [bind]. unfold set_setting, redraw. cbn -[updateImages]. fold h. rewrite E1. cbn -[updateImages]. fold h. rewrite E2. cbn. reflexivity.
  - reflexivity.
Qed.

(** A response of 513 samples whose last one is a click. *)
Definition late_click : audio := Audio 1 (2 ^ 9 + 1) 44100%R [repeat 0%R (2 ^ 9) ++ [1%R]].

Example C77_instance : showable (a_channels late_click) (a_samples late_click) (a_data late_click) /\
  (exists p, updateImages late_click false 44100 6 = Ok p /\ (0 < p <= 100)%R) /\
  updateImages late_click false 44100 90 = Ok 100%R /\
  updateImages (Audio 1 2 44100%R [[3; -4]]%R) true 44100 90 = UB /\ updateImages (Audio 1 (2 ^ 9) 44100%R [repeat 1%R (2 ^ 9)]) true 44100 90 = Throw.
Proof.
  assert (HS : showable (a_channels late_click) (a_samples late_click) (a_data late_click)).
  { unfold showable, late_click. cbn [a_channels a_samples a_data]. split; [lia|]. split; [lia|]. split.
    - split; [reflexivity|]. intros row [<-|[]]. rewrite app_length, repeat_length. reflexivity.
    - change (ceil_div (2 ^ 9 + 1) (2 ^ 9)) with 2. lia. }
  split; [exact HS|]. split; [|split; [|split]].
  - apply (C77_positive late_click 44100 6 (repeat 0%R (2 ^ 9) ++ [1%R]) (2 ^ 9) HS); [lra|lra|left; reflexivity|lia|].
    rewrite app_nth2 by (rewrite repeat_length; lia). rewrite repeat_length, Nat.sub_diag. cbn. lra.
  - apply C77_quiet_bins_refuted; [exact HS|lra|lra].
  - rewrite C77_short_response_refuted; cbn [a_channels a_samples a_data]; [reflexivity|lia|split; [lia|exact (Nat.pow_le_mono_r 2 1 9 ltac:(lia) ltac:(lia))]|split; [reflexivity|intros row [<-|[]]; reflexivity]|lia].
  - rewrite C77_short_response_refuted; cbn [a_channels a_samples a_data]; [rewrite Nat.ltb_irrefl; reflexivity|lia|split; [apply pow9_pos|lia]|split; [reflexivity|intros row [<-|[]]; apply repeat_length]|lia].
Qed.

Print Assumptions C77_percentage.
Print Assumptions C77_definite.
Print Assumptions C77_monotone.
Print Assumptions C77_gain.
Print Assumptions C77_start_ignored.
Print Assumptions C77_positive.
Print Assumptions C77_quiet_bins_refuted.
Print Assumptions C77_short_response_refuted.
Print Assumptions C77_tab.
