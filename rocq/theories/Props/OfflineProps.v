(** Property theorems C59: the plugin's offline convolution, dense_convolve() and sparse_convolve().
    Specification: lconv (Spec/Convolution.v), block_spectra (Spec/Offline.v), energy
    (Spec/Statistics.v), drop_bins (Spec/Convolvers.v), keeps and loudest (Spec/Offline.v). *)
From Coq Require Import Reals List Arith ZArith Lia Lra Bool.
From Verif Require Import Base.Outcome Base.OutcomeFacts Base.Sums Base.Cplx Spec.Dft Spec.Transforms Spec.Stft Spec.Convolution Spec.Convolvers Spec.Statistics Spec.Offline.
From Verif Require Import Model.Fft2 Model.Integers Model.Statistics Model.Units Model.Stft Model.Convolution Model.PluginConvolution Model.OfflineV2.
From Verif Require Import Proof.ConvTheory Proof.DftTheory Proof.StreamProof Proof.StftProof Proof.UpcProof Proof.UpcInstances Proof.UpcFinal Proof.StatisticsProof Proof.CliProof Proof.PluginProof Proof.OfflineProof Proof.OfflineV2Proof Proof.ConvCorollaries Props.StatisticsProps Props.UnitsProps.
Import ListNotations.
Local Arguments Nat.div : simpl never.
Local Arguments Nat.pow : simpl never.
Local Open Scope nat_scope.

(** Sizes both functions can handle: a block size of two samples or more, a response that has
    samples and whose partitions can be allocated, a signal whose length plus a block fits an int. *)
Definition offline_fits (k channels frames ichannels iframes : nat) : Prop :=
  0 < k < max_order /\ 0 < ichannels /\ 0 < iframes /\ (Z.of_nat iframes < 2 ^ 31)%Z /\
  (Z.of_nat ichannels * Z.of_nat (ceil_div iframes (2 ^ k)) * Z.of_nat (2 ^ k + 1) < max_elements)%Z /\
  (Z.of_nat frames + Z.of_nat (2 ^ k) <= 2 ^ 31)%Z.

(** [a] is the factor all responses are scaled by: positive, and what normalize_impulse() applies. *)
Definition scales (a : R) (ichannels iframes : nat) (filter : list (list R)) : Prop :=
  (0 < a)%R /\ normalize_impulse (Mat ichannels iframes filter) = Ok (Mat ichannels iframes (map (map (fun v => v * a)%R) filter)) /\
  (forall ch, ch < ichannels -> energy (nth ch filter []) <> 0%R -> (energy (map (fun v => v * a) (nth ch filter [])) <= 1)%R).

Lemma some_scale : forall ichannels iframes filter, matrix_of ichannels iframes filter -> 0 < ichannels -> exists a, scales a ichannels iframes filter.
Proof.
  intros ic ifr filter Hm Hi. destruct (C18_normalize_impulse ic ifr filter) as (a & Ha & En & He & _); auto. exists a. split; auto. split; auto.
  intros ch Hch N. apply He; auto. apply nth_In. destruct Hm as [L _]. lia.
Qed.

(** The convolvers dense_convolve() can be instantiated with. *)
Inductive offline_convolver := OffUpols | OffUpola | OffSplitUpols (lanes : option nat) | OffSplitUpola (lanes : option nat) | OffUpolaV2.
Definition offline_valid (c : offline_convolver) : Prop := match c with OffSplitUpols (Some l) | OffSplitUpola (Some l) => 0 < l | _ => True end.
Definition offline_dense (c : offline_convolver) (channels frames : nat) (signal : list (list R)) (ichannels iframes : nat) (filter : list (list R)) (B : nat)
    (uninitialised : list (list R)) : outcome (list (list R)) :=
  match c with
  | OffUpols => dense_convolve ols dense_fdl dense_filter channels frames signal ichannels iframes filter B tt uninitialised
  | OffUpola => dense_convolve ola dense_fdl dense_filter channels frames signal ichannels iframes filter B tt uninitialised
  | OffSplitUpols l => dense_convolve ols dense_split_fdl (dense_split_filter l) channels frames signal ichannels iframes filter B tt uninitialised
  | OffSplitUpola l => dense_convolve ola dense_split_fdl (dense_split_filter l) channels frames signal ichannels iframes filter B tt uninitialised
  | OffUpolaV2 => dense_convolve_v2 channels frames signal ichannels iframes filter B uninitialised
  end.

(** C59.  Signal and response scaled by the common factor, convolved channel by channel and cut to
    the length of the signal; what the new output buffer contained does not matter. *)
Definition convolved_by (a : R) (channels frames : nat) (signal filter : list (list R)) : list (list R) :=
  tab channels (fun ch => tab frames (fun n => lconv (nth ch signal []) (nth ch filter []) n * a)%R).

Lemma convolved_scaled : forall a channels frames signal filter,
  tab channels (fun ch => tab frames (lconv (nth ch signal []) (nth ch (map (map (fun v => v * a)%R) filter) []))) = convolved_by a channels frames signal filter.
Proof. intros. apply tab_ext. intros ch Hch. apply tab_ext. intros n Hn. rewrite nth_scaled. apply lconv_scale. Qed.

Theorem C59_dense : forall c k channels frames signal ichannels iframes filter uninitialised, offline_valid c -> offline_fits k channels frames ichannels iframes ->
  matrix_of channels frames signal -> matrix_of ichannels iframes filter -> matrix_of channels frames uninitialised -> channels <= ichannels ->
  exists a, scales a ichannels iframes filter /\
    offline_dense c channels frames signal ichannels iframes filter (2 ^ k) uninitialised = Ok (convolved_by a channels frames signal filter).
Proof.
  intros c k channels frames signal ic ifr filter un Hv (Hk & Hi & Hif & H31 & Hmax & Hf) Hs Hm Ho Hle.
  destruct (some_scale ic ifr filter Hm Hi) as (a & Ha). exists a. split; auto. destruct Ha as (_ & En & _).
  assert (H64 : (Z.of_nat ifr < 2 ^ 64)%Z) by (eapply Z.lt_trans; [exact H31|reflexivity]).
  rewrite <- convolved_scaled. pose proof (scaled_matrix _ _ _ a Hm) as Hm'.
  destruct c as [| |l|l|]; unfold offline_dense.
  - apply (dense_convolve_ok k channels frames ic ifr signal filter _ un Hk Hs Ho Hif H64 Hmax Hf Hm' En Upols _ _ _ _ refilters_upols (ex_intro _ _ eq_refl) I I Hle).
  - apply (dense_convolve_ok k channels frames ic ifr signal filter _ un Hk Hs Ho Hif H64 Hmax Hf Hm' En Upola _ _ _ _ refilters_upola (ex_intro _ _ eq_refl) I I Hle).
  - apply (dense_convolve_ok k channels frames ic ifr signal filter _ un Hk Hs Ho Hif H64 Hmax Hf Hm' En (SplitUpols l) _ _ _ _ (refilters_split l) (ex_intro _ _ eq_refl) Hv I Hle).
  - apply (dense_convolve_ok k channels frames ic ifr signal filter _ un Hk Hs Ho Hif H64 Hmax Hf Hm' En (SplitUpola l) _ _ _ _ (refilters_split_add l) (ex_intro _ _ eq_refl) Hv I Hle).
  - apply (dense_convolve_v2_ok k channels frames ic ifr signal filter _ un Hk Hs Ho Hif H64 Hmax Hf Hm' En Hle).
Qed.

(** A response with fewer channels than the signal: out of bounds. *)
Theorem C59_dense_missing_channels : forall c k channels frames signal ichannels iframes filter uninitialised, offline_valid c -> offline_fits k channels frames ichannels iframes ->
  matrix_of channels frames signal -> matrix_of ichannels iframes filter -> matrix_of channels frames uninitialised -> ichannels < channels ->
  offline_dense c channels frames signal ichannels iframes filter (2 ^ k) uninitialised = UB.
Proof.
  intros c k channels frames signal ic ifr filter un Hv (Hk & Hi & Hif & H31 & Hmax & Hf) Hs Hm Ho Hlt.
  destruct (some_scale ic ifr filter Hm Hi) as (a & _ & En & _).
  assert (H64 : (Z.of_nat ifr < 2 ^ 64)%Z) by (eapply Z.lt_trans; [exact H31|reflexivity]).
  pose proof (scaled_matrix _ _ _ a Hm) as Hm'.
  destruct c as [| |l|l|]; unfold offline_dense.
  - apply (dense_convolve_missing k channels frames ic ifr signal filter _ un Hk Hs Ho Hif H64 Hmax Hf Hm' En Upols _ _ _ _ refilters_upols (ex_intro _ _ eq_refl) I I Hlt).
  - apply (dense_convolve_missing k channels frames ic ifr signal filter _ un Hk Hs Ho Hif H64 Hmax Hf Hm' En Upola _ _ _ _ refilters_upola (ex_intro _ _ eq_refl) I I Hlt).
  - apply (dense_convolve_missing k channels frames ic ifr signal filter _ un Hk Hs Ho Hif H64 Hmax Hf Hm' En (SplitUpols l) _ _ _ _ (refilters_split l) (ex_intro _ _ eq_refl) Hv I Hlt).
  - apply (dense_convolve_missing k channels frames ic ifr signal filter _ un Hk Hs Ho Hif H64 Hmax Hf Hm' En (SplitUpola l) _ _ _ _ (refilters_split_add l) (ex_intro _ _ eq_refl) Hv I Hlt).
  - apply (dense_convolve_v2_missing k channels frames ic ifr signal filter _ un Hk Hs Ho Hif H64 Hmax Hf Hm' En Hlt).
Qed.

(** The partition spectra of a scaled response. *)
Definition scaled_spectra (B : nat) (a : R) (h : list R) : list (list C) := block_spectra B (map (fun v => v * a)%R h).

Lemma scaled_spectra_eq : forall k a h, partition_spectra (2 ^ k) (map (fun v => v * a)%R h) = scaled_spectra (2 ^ k) a h.
Proof. intros. apply partition_spectra_pow2. Qed.

Lemma spectra_cell : forall k a h i j, 0 < k -> i < ceil_div (length h) (2 ^ k) -> j < 2 ^ k + 1 ->
  In (nth i (scaled_spectra (2 ^ k) a h) []) (scaled_spectra (2 ^ k) a h) /\ In (cell (scaled_spectra (2 ^ k) a h) i j) (nth i (scaled_spectra (2 ^ k) a h) []).
Proof.
  intros k a h i j Hk Hi Hj. assert (HB : 0 < 2 ^ k) by (apply Nat.neq_0_lt_0, Nat.pow_nonzero; discriminate).
  pose proof (StftProof.partition_matrix (2 ^ k) (map (fun v => v * a)%R h) HB) as [L W]. rewrite scaled_spectra_eq in *.
  rewrite map_length in L. rewrite Nat.log2_up_pow2 in W by lia.
  assert (H1 : In (nth i (scaled_spectra (2 ^ k) a h) []) (scaled_spectra (2 ^ k) a h)) by (apply nth_In; lia). split; auto.
  unfold cell. apply nth_In. rewrite W; auto.
Qed.

(** C59.  sparse_convolve() runs every channel through a overlap-add convolver whose partition
    spectra have lost all bins that are not kept.  The signal is cut into blocks, the last one is
    padded with zeros, the output is cut to the length of the signal. *)
Theorem C59_sparse : forall k channels frames signal ichannels iframes filter rate threshold low uninitialised, offline_fits k channels frames ichannels iframes ->
  matrix_of channels frames signal -> matrix_of ichannels iframes filter -> matrix_of channels frames uninitialised -> channels <= ichannels ->
  (0 < rate)%R -> low <= 2 ^ k + 1 ->
  exists a outs, scales a ichannels iframes filter /\
    sparse_convolve channels frames signal ichannels iframes filter (2 ^ k) rate threshold low uninitialised =
      Ok (tab channels (fun ch => firstn frames (concat (outs ch)))) /\
    (forall ch, ch < channels -> frames <= length (concat (outs ch))) /\
    forall ch, ch < channels -> exists m pred,
      let spectra := scaled_spectra (2 ^ k) a (nth ch filter []) in
      loudest spectra m /\
      (forall p row j v, nth_error spectra p = Some row -> nth_error row j = Some v -> (pred p j v = true <-> keeps (2 ^ k) rate threshold low m j v)) /\
      convolver Upola (ceil_div iframes (2 ^ k)) (2 ^ k + 1) (drop_bins pred (ceil_div iframes (2 ^ k)) (2 ^ k + 1) spectra) (padded_blocks (2 ^ k) (nth ch signal [])) = Ok (outs ch).
Proof.
  intros k channels frames signal ic ifr filter rate threshold low un (Hk & Hi & Hif & H31 & Hmax & Hf) Hs Hm Ho Hle Hr Hlow.
  destruct (some_scale ic ifr filter Hm Hi) as (a & Ha). exists a.
  assert (H64 : (Z.of_nat ifr < 2 ^ 64)%Z) by (eapply Z.lt_trans; [exact H31|reflexivity]).
  pose proof (scaled_matrix _ _ _ a Hm) as Hm'. pose proof Ha as (_ & En & _). assert (HB : 0 < 2 ^ k) by (apply Nat.neq_0_lt_0, Nat.pow_nonzero; discriminate).
  set (m := map (map (fun v => v * a)%R) filter) in *.
  exists (fun ch => sparse_outs k ifr signal m rate threshold low (loudness k m ch) ch). split; [exact Ha|].
  assert (Lc : forall ch, ch < channels -> frames <= length (concat (sparse_outs k ifr signal m rate threshold low (loudness k m ch) ch))).
  { intros ch Hch. unfold sparse_outs. rewrite (concat_blocks_length (2 ^ k)) by apply outs_blocks. rewrite outs_length, (UpcInstances.matrix_row _ _ _ _ ch Hs Hch).
    apply (ceil_div_ge frames (2 ^ k) HB). }
  split; [|split; [exact Lc|]].
  - rewrite (sparse_convolve_ok k channels frames ic ifr signal filter _ un Hk Hs Ho Hif H64 Hmax Hf Hm' En rate threshold low Hr Hlow Hi Hle). f_equal.
    apply tab_ext. intros ch Hch. unfold sparse_outs. pose proof (Lc ch Hch) as L. unfold sparse_outs in L. set (o := outs_of _ _ _ _ _) in *.
    apply (list_eq_nth _ 0%R). { unfold pad. rewrite tab_length, firstn_length. lia. }
    intros i Hi0. unfold pad in *. rewrite tab_length in Hi0. rewrite nth_tab by auto. symmetry. apply nth_firstn_lt. auto.
  - intros ch Hch. pose proof (loudness_ok k channels frames ic ifr signal filter _ un Hk Hs Ho Hif H64 Hmax Hf Hm' En rate threshold low Hr Hlow ch ltac:(lia)) as (H0 & Hl & _).
    pose proof (sparse_outs_convolver k channels frames ic ifr signal filter _ un Hk Hs Ho Hif H64 Hmax Hf Hm' En rate threshold low Hr Hlow
      (loudness k m ch) ch Hch ltac:(lia)) as Hc.
    unfold m in Hl at 1, Hc at 2. rewrite nth_scaled, scaled_spectra_eq in Hl, Hc. do 2 eexists. cbv zeta. split; [exact Hl|]. split; [|exact Hc].
    intros p row j v Ep Ej. apply keeps_iff; auto.
    + apply nth_error_In in Ep. assert (Hj : j < length row) by (apply nth_error_Some; rewrite Ej; discriminate).
      pose proof (StftProof.partition_matrix (2 ^ k) (map (fun v => v * a)%R (nth ch filter [])) HB) as [_ W]. rewrite scaled_spectra_eq in W. rewrite Nat.log2_up_pow2 in W by lia.
      rewrite <- (W row); auto.
    + apply nth_error_In in Ep, Ej. destruct Hl as [Hl _]. apply (Hl row v); auto.
Qed.

(** The level of a bin of the response lies between -72 dB and 0 dB. *)
Lemma level_range : forall m v dB, (bin_power v <= m)%R -> level m v dB -> (-72 <= dB <= 0)%R.
Proof.
  intros m v dB Hv [(_ & ->)|(Hp & ->)]; [lra|]. split; [apply Rmax_l|]. apply Rmax_lub; [lra|].
  assert (Hln : (ln (bin_power v / m) <= 0)%R).
  { rewrite <- ln_1. assert (Hq : (0 < bin_power v / m)%R) by (apply Rdiv_lt_0_compat; lra). assert (Hq1 : (bin_power v / m <= 1)%R).
    { apply Rmult_le_reg_r with m; [lra|]. unfold Rdiv. rewrite Rmult_assoc, Rinv_l by lra. lra. }
    destruct (Rle_lt_or_eq_dec _ _ Hq1) as [H|H]; [left; apply ln_increasing; auto|rewrite H; lra]. }
  assert (H10 : (0 < ln 10)%R) by (rewrite <- ln_1; apply ln_increasing; lra).
  assert (Hi : (0 < / ln 10)%R) by (apply Rinv_0_lt_compat; auto). unfold Rdiv. nra.
Qed.

(** C59.  A threshold below every possible level keeps all bins, if bin 0 is among the low bins to
    keep: the result is that of dense_convolve(). *)
Theorem C59_sparse_keeps_all : forall k channels frames signal ichannels iframes filter rate threshold low uninitialised, offline_fits k channels frames ichannels iframes ->
  matrix_of channels frames signal -> matrix_of ichannels iframes filter -> matrix_of channels frames uninitialised -> channels <= ichannels ->
  (0 < rate)%R -> 0 < low <= 2 ^ k + 1 ->
  (threshold < 28)%R -> (forall j, low <= j <= 2 ^ k -> (threshold < -72 + a_weighting (INR j * rate / INR (2 * 2 ^ k)))%R) ->
  exists a, scales a ichannels iframes filter /\
    sparse_convolve channels frames signal ichannels iframes filter (2 ^ k) rate threshold low uninitialised = Ok (convolved_by a channels frames signal filter).
Proof.
  intros k channels frames signal ic ifr filter rate threshold low un (Hk & Hi & Hif & H31 & Hmax & Hf) Hs Hm Ho Hle Hr (Hlow0 & Hlow) Ht Hw.
  destruct (some_scale ic ifr filter Hm Hi) as (a & Ha). exists a. split; auto.
  assert (H64 : (Z.of_nat ifr < 2 ^ 64)%Z) by (eapply Z.lt_trans; [exact H31|reflexivity]).
  pose proof (scaled_matrix _ _ _ a Hm) as Hm'. pose proof Ha as (_ & En & _).
  rewrite (sparse_convolve_ok k channels frames ic ifr signal filter _ un Hk Hs Ho Hif H64 Hmax Hf Hm' En rate threshold low Hr Hlow Hi Hle). f_equal.
  rewrite <- convolved_scaled. apply tab_ext. intros ch Hch.
  apply (sparse_all_kept k channels frames ic ifr signal filter _ un Hk Hs Ho Hif H64 Hmax Hf Hm' En rate threshold low Hr Hlow); auto; [lia|].
  intros i j Hi0 Hj.
  pose proof (loudness_ok k channels frames ic ifr signal filter _ un Hk Hs Ho Hif H64 Hmax Hf Hm' En rate threshold low Hr Hlow ch ltac:(lia)) as (_ & (Hl & _) & _).
  rewrite nth_scaled in Hl |- *. rewrite scaled_spectra_eq in *.
  rewrite <- (UpcInstances.matrix_row _ _ _ _ ch Hm ltac:(lia)) in Hi0. destruct (spectra_cell k a (nth ch filter []) i j ltac:(lia) Hi0 Hj) as (I1 & I2).
  specialize (Hl _ _ I1 I2). apply keeps_iff; auto.
  pose proof (level_db _ _ Hl) as Hd. pose proof (level_range _ _ _ Hl Hd). eexists. split; [exact Hd|].
  destruct (Nat.lt_ge_cases j low) as [Hj0|Hj0]; [left; split; [auto|lra]|right; split; [lia|]]. specialize (Hw j ltac:(lia)). lra.
Qed.

(** C59.  A threshold of 100 dB or more keeps nothing. *)
Theorem C59_sparse_silent : forall k channels frames signal ichannels iframes filter rate threshold low uninitialised, offline_fits k channels frames ichannels iframes ->
  matrix_of channels frames signal -> matrix_of ichannels iframes filter -> matrix_of channels frames uninitialised -> channels <= ichannels ->
  (0 < rate)%R -> low <= 2 ^ k + 1 -> (100 <= threshold)%R ->
  sparse_convolve channels frames signal ichannels iframes filter (2 ^ k) rate threshold low uninitialised = Ok (repeat (repeat 0%R frames) channels).
Proof.
  intros k channels frames signal ic ifr filter rate threshold low un (Hk & Hi & Hif & H31 & Hmax & Hf) Hs Hm Ho Hle Hr Hlow Ht.
  destruct (some_scale ic ifr filter Hm Hi) as (a & Ha).
  assert (H64 : (Z.of_nat ifr < 2 ^ 64)%Z) by (eapply Z.lt_trans; [exact H31|reflexivity]).
  pose proof (scaled_matrix _ _ _ a Hm) as Hm'. pose proof Ha as (_ & En & _).
  rewrite (sparse_convolve_ok k channels frames ic ifr signal filter _ un Hk Hs Ho Hif H64 Hmax Hf Hm' En rate threshold low Hr Hlow Hi Hle). f_equal.
  rewrite repeat_tab. apply tab_ext. intros ch Hch.
  apply (sparse_none_kept k channels frames ic ifr signal filter _ un Hk Hs Ho Hif H64 Hmax Hf Hm' En rate threshold low Hr Hlow); auto; [lia|].
  intros i j Hi0 Hj.
  pose proof (loudness_ok k channels frames ic ifr signal filter _ un Hk Hs Ho Hif H64 Hmax Hf Hm' En rate threshold low Hr Hlow ch ltac:(lia)) as (_ & (Hl & _) & _).
  rewrite nth_scaled in Hl |- *. rewrite scaled_spectra_eq in *.
  rewrite <- (UpcInstances.matrix_row _ _ _ _ ch Hm ltac:(lia)) in Hi0. destruct (spectra_cell k a (nth ch filter []) i j ltac:(lia) Hi0 Hj) as (I1 & I2).
  specialize (Hl _ _ I1 I2). apply not_true_iff_false. intros Hkeep. apply keeps_iff in Hkeep; auto.
  destruct Hkeep as (dB & Hd & Hc). pose proof (level_range _ _ _ Hl Hd). destruct Hc as [(_ & Hc)|((_ & Hj0) & Hc)]; [lra|].
  assert (HB : 0 < 2 ^ k) by (apply Nat.neq_0_lt_0, Nat.pow_nonzero; discriminate).
  assert (Hfq : (0 < INR j * rate / INR (2 * 2 ^ k))%R).
  { apply Rdiv_lt_0_compat; [apply Rmult_lt_0_compat; auto|]; apply lt_0_INR; lia. }
  destruct (C57_a_weighting (INR j * rate / INR (2 * 2 ^ k))) as (_ & Haw & _); lra.
Qed.

(** Fewer response channels than signal channels, more low bins than there are bins. *)
Theorem C59_sparse_missing_channels : forall k channels frames signal ichannels iframes filter rate threshold low uninitialised, offline_fits k channels frames ichannels iframes ->
  matrix_of channels frames signal -> matrix_of ichannels iframes filter -> matrix_of channels frames uninitialised -> ichannels < channels \/ 2 ^ k + 1 < low ->
  (0 < rate)%R ->
  sparse_convolve channels frames signal ichannels iframes filter (2 ^ k) rate threshold low uninitialised = UB.
Proof.
  intros k channels frames signal ic ifr filter rate threshold low un (Hk & Hi & Hif & H31 & Hmax & Hf) Hs Hm Ho Hbad Hr.
  destruct (some_scale ic ifr filter Hm Hi) as (a & Ha).
  assert (H64 : (Z.of_nat ifr < 2 ^ 64)%Z) by (eapply Z.lt_trans; [exact H31|reflexivity]).
  pose proof (scaled_matrix _ _ _ a Hm) as Hm'. pose proof Ha as (_ & En & _).
  destruct (Nat.lt_ge_cases (2 ^ k + 1) low) as [Hlow|Hlow].
  - apply (sparse_convolve_low k channels frames ic ifr signal filter _ un Hk Hs Ho Hif H64 Hmax Hf Hm' En rate threshold low Hlow Hi).
  - apply (sparse_convolve_missing k channels frames ic ifr signal filter _ un Hk Hs Ho Hif H64 Hmax Hf Hm' En rate threshold low Hr Hlow). lia.
Qed.

Lemma spectrum_of_unit : forall (v : R) i, i < 3 -> nth i (RDFT_list Forward [v; 0; 0; 0]%R) C0 = RtoC v.
Proof.
  intros v i Hi. rewrite nth_RDFT by (cbn [length]; change (4 / 2) with 2; lia). unfold DFT. cbn [length].
  rewrite (Csum_single 4 0); [|lia|].
  - cbn [nth Nat.mul]. rewrite W_0. ring.
  - intros j Hj N. replace (nth j [v; 0; 0; 0]%R 0%R) with 0%R by (destruct j as [|[|[|[|j]]]]; [lia|reflexivity|reflexivity|reflexivity|lia]).
    change (RtoC 0) with C0. ring.
Qed.

(** C59.  With no low bins to keep, no threshold gives the dense result: bin 0 is always dropped,
    because the A-weighting of 0 Hz is minus infinity. *)
Theorem C59_sparse_drops_bin_0_refuted : forall rate threshold a, (0 < rate)%R -> scales a 1 1 [[1%R]] ->
  sparse_convolve 1 1 [[1%R]] 1 1 [[1%R]] 2 rate threshold 0 [[0%R]] <> Ok (convolved_by a 1 1 [[1%R]] [[1%R]]).
Proof.
  intros rate threshold a Hr (Ha & En & _).
  assert (Hone : forall v : R, matrix_of 1 1 [[v]]) by (intros v; split; [reflexivity|intros l [<-|[]]; reflexivity]).
  assert (Hk : 0 < 1 < max_order) by (unfold max_order; lia). cbn [map] in En.
  assert (Hmax : (Z.of_nat 1 * Z.of_nat (ceil_div 1 (2 ^ 1)) * Z.of_nat (2 ^ 1 + 1) < max_elements)%Z) by reflexivity.
  pose proof (sparse_convolve_ok 1 1 1 1 1 [[1%R]] [[1%R]] [[(1 * a)%R]] [[0%R]] Hk (Hone _) (Hone _) ltac:(lia) eq_refl Hmax ltac:(vm_compute; discriminate) (Hone _) En
    rate threshold 0 Hr ltac:(cbn; lia) ltac:(lia) ltac:(lia)) as E.
  change (2 ^ 1) with 2 in E. rewrite E. clear E. intros E.
  apply (f_equal (fun o => match o with Ok l => nth 0 (nth 0 l []) 0%R | _ => 0%R end)) in E. cbv beta iota in E. unfold convolved_by in E.
  rewrite !(nth_tab _ 1) in E by lia. unfold pad in E. rewrite !(nth_tab _ 1) in E by lia. unfold lconv in E. cbn [Rsum nth Nat.leb Nat.sub] in E.
  revert E. set (mx := loudness 1 _ 0). unfold sparse_outs, outs_of, effective, kind_outs. cbn [nth].
  change (cut (2 ^ 1) [1%R]) with [[1%R; 0%R]]. cbn [length]. unfold kind_out. cbn [tab map seq concat app].
  set (F := cell _). change (2 ^ 1) with 2. cbn [tab map seq concat app nth]. rewrite upola_windows. cbn [Nat.eqb]. rewrite mac_windows_sum by lia.
  unfold IRDFT. cbn [Rsum]. change (2 ^ 1) with 2. unfold Csum, wterm. cbn [Nat.leb Nat.sub].
  change (add_win 1 [[1%R; 0%R]] 0) with [1%R; 0%R; 0%R; 0%R].
  assert (EF : forall i, i < 3 -> F 0 i = C0 \/ F 0 i = RtoC a).
  { intros i Hi. unfold F. rewrite drop_bins_cell; [|apply (partition_matrix 2 [(1 * a)%R]); lia|vm_compute; lia]. unfold masked.
    destruct (isAboveThreshold _ _ _ _ _ _); auto. right. unfold cell. rewrite partition_spectra_pow2. rewrite nth_tab by (vm_compute; lia).
    change (pad (2 * 2 ^ 1) (part (2 ^ 1) [(1 * a)%R] 0)) with [(1 * a)%R; 0%R; 0%R; 0%R]. rewrite spectrum_of_unit by auto. rewrite Rmult_1_l. reflexivity. }
  assert (EF0 : F 0 0 = C0).
  { unfold F. rewrite drop_bins_cell; [|apply (partition_matrix 2 [(1 * a)%R]); lia|vm_compute; lia]. unfold masked, isAboveThreshold. rewrite nth_tab by (vm_compute; lia).
    unfold weight_of. cbn [Nat.ltb Nat.leb]. destruct (Req_EM_T _ 0) as [_|N]; [reflexivity|]. exfalso. apply N. unfold rfftfreq. change (Z.of_nat 0) with 0%Z. unfold Rdiv. ring. }
  clearbody F. change (ceil_div 1 2) with 1. unfold Rsum. cbn [bsum Nat.leb Nat.sub]. rewrite !spectrum_of_unit by lia. rewrite EF0.
  replace (2 * PI * INR 0 * INR 1 / INR (2 * 2))%R with 0%R by (cbn [INR]; unfold Rdiv; ring). rewrite cos_0, sin_0.
  destruct (EF 1 ltac:(lia)) as [->| ->], (EF 2 ltac:(lia)) as [->| ->]; unfold C0, RtoC, Cmul, Cadd; cbn [fst snd pow INR Nat.mul Nat.add]; intros E; lra.
Qed.

(** A signal of three samples, blocks of two, a response of two samples and energy 25. *)
Example C59_instance : exists a, scales a 1 2 [[3; 4]]%R /\
  offline_dense OffUpols 1 3 [[1; 2; 3]]%R 1 2 [[3; 4]]%R 2 [[7; 7; 7]]%R = Ok [[3 * a; 10 * a; 17 * a]]%R /\
  sparse_convolve 1 3 [[1; 2; 3]]%R 1 2 [[3; 4]]%R 2 44100 0 3 [[7; 7; 7]]%R = Ok [[3 * a; 10 * a; 17 * a]]%R /\
  sparse_convolve 1 3 [[1; 2; 3]]%R 1 2 [[3; 4]]%R 2 44100 100 3 [[7; 7; 7]]%R = Ok [[0; 0; 0]]%R /\
  sparse_convolve 1 3 [[1; 2; 3]]%R 1 2 [[3; 4]]%R 2 44100 0 4 [[7; 7; 7]]%R = UB.
Proof.
  assert (M3 : forall x y z : R, matrix_of 1 3 [[x; y; z]]) by (intros; split; [reflexivity|intros l [<-|[]]; reflexivity]).
  assert (M2 : matrix_of 1 2 [[3; 4]]%R) by (split; [reflexivity|intros l [<-|[]]; reflexivity]).
  assert (Hf : offline_fits 1 1 3 1 2). { unfold offline_fits, max_order. repeat split; try lia; vm_compute; auto; discriminate. }
  assert (Ec : forall a, convolved_by a 1 3 [[1; 2; 3]]%R [[3; 4]]%R = [[3 * a; 10 * a; 17 * a]]%R).
  { intros a. unfold convolved_by. cbn [tab map seq nth]. unfold lconv, Rsum. cbn [bsum Nat.sub nth]. repeat f_equal; ring. }
  assert (Hu : forall a b, scales a 1 2 [[3; 4]]%R -> scales b 1 2 [[3; 4]]%R -> a = b).
  { intros a b (_ & Ea & _) (_ & Eb & _). rewrite Ea in Eb. inversion Eb. lra. }
  destruct (C59_dense OffUpols 1 1 3 [[1; 2; 3]]%R 1 2 [[3; 4]]%R [[7; 7; 7]]%R I Hf (M3 _ _ _) M2 (M3 _ _ _) (le_n _)) as (a & Ha & Ed).
  destruct (C59_sparse_keeps_all 1 1 3 [[1; 2; 3]]%R 1 2 [[3; 4]]%R 44100 0 3 [[7; 7; 7]]%R Hf (M3 _ _ _) M2 (M3 _ _ _) (le_n _) ltac:(lra) ltac:(change (2 ^ 1) with 2; lia) ltac:(lra)) as (b & Hb & Es).
  { intros j Hj. change (2 ^ 1) with 2 in Hj. lia. }
  rewrite (Hu b a Hb Ha), Ec in Es. rewrite Ec in Ed. exists a. split; auto. split; [exact Ed|]. split; [exact Es|]. split.
  - apply (C59_sparse_silent 1 1 3 [[1; 2; 3]]%R 1 2 [[3; 4]]%R 44100 100 3 [[7; 7; 7]]%R Hf (M3 _ _ _) M2 (M3 _ _ _) (le_n _) ltac:(lra) ltac:(change (2 ^ 1) with 2; lia) ltac:(lra)).
  - apply (C59_sparse_missing_channels 1 1 3 [[1; 2; 3]]%R 1 2 [[3; 4]]%R 44100 0 4 [[7; 7; 7]]%R Hf (M3 _ _ _) M2 (M3 _ _ _)); [right; change (2 ^ 1) with 2; lia|lra].
Qed.

Print Assumptions C59_dense.
Print Assumptions C59_dense_missing_channels.
Print Assumptions C59_sparse.
Print Assumptions C59_sparse_keeps_all.
Print Assumptions C59_sparse_silent.
Print Assumptions C59_sparse_missing_channels.
Print Assumptions C59_sparse_drops_bin_0_refuted.
