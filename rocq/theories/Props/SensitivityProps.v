(** Property theorems C70: how much the output of a partitioned convolver can move when the
    spectra of its partitions change, and what leaving out bins costs.
    Specification: Spec/Sensitivity.v, drop_bins (Spec/Convolvers.v), block_spectra, keeps and
    loudest (Spec/Offline.v). *)
From Coq Require Import Reals List Arith ZArith Lia Lra Bool.
From Verif Require Import Base.Outcome Base.OutcomeFacts Base.Sums Base.Cplx Base.VecNorm Spec.Dft Spec.Transforms Spec.Stft Spec.Convolution Spec.Convolvers
  Spec.Offline Spec.Sensitivity.
From Verif Require Import Model.Fft2 Model.Integers Model.Units Model.Stft Model.Convolution Model.PluginConvolution.
From Verif Require Import Proof.DftTheory Proof.ConvTheory Proof.StreamProof Proof.LtiProof Proof.StftProof Proof.UpcProof Proof.UpcInstances Proof.UpcFinal Proof.OfflineProof
  Proof.PluginProof Proof.CliProof Proof.ConvCorollaries Proof.SensitivityProof Props.OfflineProps.
Import ListNotations.
Local Arguments Nat.div : simpl never.
Local Arguments Nat.pow : simpl never.
Local Open Scope nat_scope.

(** C70.  Two filters in the same convolver: the outputs differ by at most the peak of the input
    times the distance of the filters.  All blocks, all block sizes, all numbers of partitions. *)
Theorem C70_filter_change : forall kd k rows mat mat' blocks M, valid_kind kd ->
  (match kd with SparseUpols _ | SparseUpola _ => False | _ => True end) -> 0 < k < max_order -> 0 < rows ->
  matrix_of rows (2 ^ k + 1) mat -> matrix_of rows (2 ^ k + 1) mat' -> blocks_of (2 ^ k) blocks -> (0 <= M)%R -> peak_of M blocks ->
  exists outs outs', convolver kd rows (2 ^ k + 1) mat blocks = Ok outs /\ convolver kd rows (2 ^ k + 1) mat' blocks = Ok outs' /\
    within (M * spectral_distance rows (2 ^ k) mat mat') outs outs'.
Proof.
  intros kd k rows mat mat' blocks M HV Hd Hk HP Hm Hm' Hb HM Hp. rewrite !convolver_ok by auto. do 2 eexists. split; [reflexivity|]. split; [reflexivity|].
  replace (effective kd rows (2 ^ k + 1) mat) with mat by (destruct kd; [reflexivity|reflexivity|reflexivity|reflexivity|destruct Hd|destruct Hd]).
  replace (effective kd rows (2 ^ k + 1) mat') with mat' by (destruct kd; [reflexivity|reflexivity|reflexivity|reflexivity|destruct Hd|destruct Hd]).
  exact (kind_within k rows (proj1 Hk) kd kd (cell mat) (cell mat') M blocks HM Hp (fun _ _ _ => eq_refl)).
Qed.

(** C70.  No output sample exceeds the peak of the input times the mass of the filter; for the
    sparse convolvers too, whatever the predicate. *)
Theorem C70_bounded : forall kd k rows mat blocks M, valid_kind kd -> 0 < k < max_order -> 0 < rows ->
  matrix_of rows (2 ^ k + 1) mat -> blocks_of (2 ^ k) blocks -> (0 <= M)%R -> peak_of M blocks ->
  exists outs, convolver kd rows (2 ^ k + 1) mat blocks = Ok outs /\ peak_of (M * spectral_mass rows (2 ^ k) mat) outs.
Proof.
  intros kd k rows mat blocks M HV Hk HP Hm Hb HM Hp. rewrite convolver_ok by auto. eexists. split; [reflexivity|].
  intros b v Hb' Hv. unfold kind_outs, tab in Hb'. apply in_map_iff in Hb'. destruct Hb' as (t & <- & _). apply in_map_iff in Hv. destruct Hv as (i & <- & _).
  eapply Rle_trans; [apply (kind_bound k rows (proj1 Hk) kd _ M blocks t i HM Hp)|]. apply Rmult_le_compat_l; [auto|].
  unfold entry_mass, spectral_mass. apply Rsum_mono. intros a Ha. apply Rsum_mono. intros j Hj. apply Rmult_le_compat_l. { pose proof (weight_pos (2 ^ k) j). lra. }
  fold (cell mat a j). destruct kd; try (right; reflexivity); unfold effective; rewrite drop_bins_cell by auto; unfold masked;
    destruct (_ a j _); [lra|rewrite Cabs_0; apply Cabs_pos|lra|rewrite Cabs_0; apply Cabs_pos].
Qed.

Lemma sparse_within : forall pred k rows mat blocks M, 0 < k < max_order -> 0 < rows -> matrix_of rows (2 ^ k + 1) mat ->
  blocks_of (2 ^ k) blocks -> (0 <= M)%R -> peak_of M blocks ->
  within (M * rejected_mass pred rows (2 ^ k) mat)
    (kind_outs (SparseUpols pred) k rows (cell (drop_bins pred rows (2 ^ k + 1) mat)) blocks) (kind_outs Upols k rows (cell mat) blocks) /\
  within (M * rejected_mass pred rows (2 ^ k) mat)
    (kind_outs (SparseUpola pred) k rows (cell (drop_bins pred rows (2 ^ k + 1) mat)) blocks) (kind_outs Upola k rows (cell mat) blocks).
Proof.
  intros pred k rows mat blocks M Hk HP Hm Hb HM Hp.
  assert (E : rejected_mass pred rows (2 ^ k) mat = entry_mass (2 ^ k) rows (fun a i => cell (drop_bins pred rows (2 ^ k + 1) mat) a i - cell mat a i)%C).
  { unfold rejected_mass, entry_mass. apply Rsum_ext. intros a Ha. apply Rsum_ext. intros j Hj. rewrite drop_bins_cell by auto. unfold masked.
    cbv zeta. fold (cell mat a j). destruct (pred a j _).
    - replace (cell mat a j - cell mat a j)%C with C0 by ring. rewrite Cabs_0. ring.
    - replace (C0 - cell mat a j)%C with (- cell mat a j)%C by ring. rewrite Cabs_opp. reflexivity. }
  rewrite E. split; apply kind_within; auto; lia.
Qed.

(** C70.  A sparse convolver stays as close to the dense one as the bins it leaves out allow,
    whatever the predicate. *)
Theorem C70_rejected : forall pred k rows mat blocks M, 0 < k < max_order -> 0 < rows ->
  matrix_of rows (2 ^ k + 1) mat -> blocks_of (2 ^ k) blocks -> (0 <= M)%R -> peak_of M blocks ->
  exists sparse_s dense_s sparse_a dense_a,
    convolver (SparseUpols pred) rows (2 ^ k + 1) mat blocks = Ok sparse_s /\ convolver Upols rows (2 ^ k + 1) mat blocks = Ok dense_s /\
    convolver (SparseUpola pred) rows (2 ^ k + 1) mat blocks = Ok sparse_a /\ convolver Upola rows (2 ^ k + 1) mat blocks = Ok dense_a /\
    within (M * rejected_mass pred rows (2 ^ k) mat) sparse_s dense_s /\ within (M * rejected_mass pred rows (2 ^ k) mat) sparse_a dense_a.
Proof.
  intros pred k rows mat blocks M Hk HP Hm Hb HM Hp. rewrite !convolver_ok by (cbn; auto). do 4 eexists.
  do 4 (split; [reflexivity|]). apply sparse_within; auto.
Qed.

(** C70.  If no bin above the level [e] is left out, the output is off by at most the peak of the
    input times [e] times the number of samples in all padded partitions. *)
Theorem C70_level : forall pred k rows mat blocks M e, 0 < k < max_order -> 0 < rows ->
  matrix_of rows (2 ^ k + 1) mat -> blocks_of (2 ^ k) blocks -> (0 <= M)%R -> peak_of M blocks -> (0 <= e)%R ->
  (forall p j, p < rows -> j <= 2 ^ k -> let v := nth j (nth p mat []) C0 in pred p j v = false -> (Cabs v <= e)%R) ->
  exists sparse_s dense_s sparse_a dense_a,
    convolver (SparseUpols pred) rows (2 ^ k + 1) mat blocks = Ok sparse_s /\ convolver Upols rows (2 ^ k + 1) mat blocks = Ok dense_s /\
    convolver (SparseUpola pred) rows (2 ^ k + 1) mat blocks = Ok sparse_a /\ convolver Upola rows (2 ^ k + 1) mat blocks = Ok dense_a /\
    within (M * e * INR (rows * (2 * 2 ^ k))) sparse_s dense_s /\ within (M * e * INR (rows * (2 * 2 ^ k))) sparse_a dense_a.
Proof.
  intros pred k rows mat blocks M e Hk HP Hm Hb HM Hp He Hl. rewrite !convolver_ok by (cbn; auto). do 4 eexists.
  do 4 (split; [reflexivity|]). destruct (sparse_within pred k rows mat blocks M Hk HP Hm Hb HM Hp) as (S1 & S2).
  assert (L : (M * rejected_mass pred rows (2 ^ k) mat <= M * e * INR (rows * (2 * 2 ^ k)))%R).
  { rewrite Rmult_assoc. apply Rmult_le_compat_l; auto. unfold rejected_mass.
    assert (HB : 0 < 2 ^ k) by (apply Nat.neq_0_lt_0, Nat.pow_nonzero; discriminate).
    rewrite !mult_INR. replace (e * (INR rows * (INR 2 * INR (2 ^ k))))%R with (Rsum rows (fun _ => 2 * INR (2 ^ k) * e)%R) by (rewrite Rsum_const; cbn [INR]; ring).
    apply Rsum_mono. intros a Ha. rewrite <- weight_sum by auto. apply Rsum_mono. intros j Hj. pose proof (weight_pos (2 ^ k) j). cbv zeta.
    destruct (pred a j _) eqn:Ep. { apply Rmult_le_pos; lra. } apply Rmult_le_compat_l; [lra|]. apply Hl; auto. lia. }
  split; eapply within_le; eauto.
Qed.

(** C70.  The documented use with a sparse convolver: the linear convolution up to the bins left out. *)
Theorem C70_convolution : forall kd pred k h blocks M, kd = SparseUpols pred \/ kd = SparseUpola pred -> 0 < k < max_order -> 0 < length h ->
  (Z.of_nat (length h) < 2 ^ 64)%Z -> (Z.of_nat (ceil_div (length h) (2 ^ k)) * Z.of_nat (2 ^ k + 1) < max_elements)%Z ->
  blocks_of (2 ^ k) blocks -> (0 <= M)%R -> peak_of M blocks ->
  exists outs, partitioned kd (2 ^ k) h blocks = Ok outs /\ length (concat outs) = length (concat blocks) /\
    forall n, n < length (concat blocks) ->
      (Rabs (nth n (concat outs) 0 - lconv (concat blocks) h n) <= M * rejected_mass pred (ceil_div (length h) (2 ^ k)) (2 ^ k) (block_spectra (2 ^ k) h))%R.
Proof.
  intros kd pred k h blocks M Hkd Hk Hh H64 Hmax Hb HM Hp.
  destruct (partitioned_convolver kd k h blocks Hk Hh H64 Hmax) as (E & Hm & HP). rewrite E. rewrite convolver_ok by (destruct Hkd; subst kd; cbn; auto).
  destruct (sparse_within pred k _ _ blocks M Hk HP Hm Hb HM Hp) as (S1 & S2). rewrite partition_spectra_pow2 in *.
  assert (H0 : (0 <= M * rejected_mass pred (ceil_div (length h) (2 ^ k)) (2 ^ k) (block_spectra (2 ^ k) h))%R).
  { apply Rmult_le_pos; auto. unfold rejected_mass. apply Rsum_nonneg. intros a Ha. apply Rsum_nonneg. intros j Hj. cbv zeta. destruct (pred a j _); [lra|].
    apply Rmult_le_pos; [|apply Cabs_pos]. pose proof (weight_pos (2 ^ k) j). lra. }
  pose proof (dense_concat Upols k h blocks Hk Hh Hb) as D1. pose proof (dense_concat Upola k h blocks Hk Hh Hb) as D2. rewrite partition_spectra_pow2 in D1, D2.
  eexists. split; [reflexivity|]. apply within_concat in S1; auto. apply within_concat in S2; auto. rewrite D1, tab_length in S1. rewrite D2, tab_length in S2.
  destruct Hkd as [-> | ->]; unfold effective; [destruct S1 as (L & S)|destruct S2 as (L & S)]; (split; [exact L|]); intros n Hn; specialize (S n);
    rewrite nth_tab in S by auto; exact S.
Qed.

(** How loud a bin sparse_convolve() leaves out can be relative to the loudest one: the threshold
    minus the weight of the bin.  Levels end at -72 dB: bins whose limit is below that are kept. *)
Definition bin_limit (B : nat) (rate threshold : R) (low j : nat) : R :=
  (threshold - (if j <? low then 100 else a_weighting (INR j * rate / INR (2 * B))))%R.
Definition lost_amplitude (B : nat) (rate threshold : R) (low j : nat) : R :=
  if Rle_dec (-72) (bin_limit B rate threshold low j) then Rpower 10 (bin_limit B rate threshold low j / 20) else 0%R.

Lemma level_amplitude : forall m v dB, (bin_power v <= m)%R -> level m v dB -> (Cabs v <= sqrt m * Rpower 10 (dB / 20))%R.
Proof.
  intros m v dB Hm Hl. assert (Hs : (0 <= sqrt m)%R) by apply sqrt_pos. assert (HR : forall x, (0 < Rpower 10 x)%R) by (intros; apply exp_pos).
  destruct Hl as [(H0 & ->)|(Hp & Ed)].
  - replace (Cabs v) with 0%R. { apply Rmult_le_pos; auto. left. apply HR. } unfold Cabs, Cnorm2. unfold bin_power in H0. rewrite H0. symmetry. apply sqrt_0.
  - assert (H10 : (0 < ln 10)%R) by (rewrite <- ln_1; apply ln_increasing; lra).
    assert (Hmp : (0 < m)%R) by lra.
    apply Rle_trans with (sqrt m * Rpower 10 (10 * (ln (bin_power v / m) / ln 10) / 20))%R.
    + right. unfold Rpower. replace (10 * (ln (bin_power v / m) / ln 10) / 20 * ln 10)%R with (/ 2 * ln (bin_power v / m))%R by (field; lra).
      change (exp (/ 2 * ln (bin_power v / m))) with (Rpower (bin_power v / m) (/ 2)). rewrite Rpower_sqrt by (apply Rdiv_lt_0_compat; auto).
      rewrite <- sqrt_mult; [|lra|left; apply Rdiv_lt_0_compat; auto]. unfold Cabs, Cnorm2. fold (bin_power v). f_equal. field. lra.
    + apply Rmult_le_compat_l; auto. apply Rle_Rpower; [lra|]. pose proof (Rmax_r (-72) (10 * (ln (bin_power v / m) / ln 10))). lra.
Qed.

Lemma dropped_amplitude : forall B rate threshold low m j v, (0 < rate)%R -> 0 < B -> 0 < low -> (bin_power v <= m)%R ->
  ~ keeps B rate threshold low m j v -> (Cabs v <= sqrt m * lost_amplitude B rate threshold low j)%R.
Proof.
  intros B rate threshold low m j v Hr HB Hlow Hm Hn. pose proof (level_db m v Hm) as Hd. remember (amplitude_to_db (bin_power v * (1 / m)) * 0.5)%R as dB.
  pose proof (level_range _ _ _ Hm Hd). pose proof (level_amplitude _ _ _ Hm Hd) as Ha.
  assert (Hl : (dB <= bin_limit B rate threshold low j)%R).
  { apply Rnot_lt_le. intros H1. apply Hn. exists dB. split; auto. unfold bin_limit in H1. destruct (Nat.ltb_spec j low).
    - left. split; auto. lra.
    - right. split; [lia|]. lra. }
  unfold lost_amplitude. destruct (Rle_dec _ _) as [H1|H1]; [|lra]. eapply Rle_trans; [exact Ha|]. apply Rmult_le_compat_l; [apply sqrt_pos|].
  apply Rle_Rpower; [lra|]. lra.
Qed.

Lemma padded_peak : forall B x M, (0 <= M)%R -> (forall v, In v x -> (Rabs v <= M)%R) -> peak_of M (padded_blocks B x).
Proof.
  intros B x M HM H b v Hb Hv. unfold padded_blocks, tab in Hb. apply in_map_iff in Hb. destruct Hb as (t & <- & _). apply in_map_iff in Hv. destruct Hv as (i & <- & _).
  destruct (Nat.lt_ge_cases (t * B + i) (length x)); [apply H, nth_In; auto|]. rewrite nth_overflow, Rabs_R0; auto.
Qed.

Lemma padded_concat : forall B x, 0 < B -> concat (padded_blocks B x) = tab ((length x + B - 1) / B * B) (fun n => nth n x 0%R).
Proof.
  intros B x HB. unfold padded_blocks. rewrite concat_tab_blocks by lia. apply tab_ext. intros i Hi. f_equal. rewrite (Nat.div_mod i B) at 3 by lia. lia.
Qed.

(** C70.  What the threshold of sparse_convolve() costs: in every channel the output is the
    convolution with the scaled response, up to the peak of the signal times the amplitude of the
    loudest bin times the sum over the bins of the amplitude that can be lost there. *)
Theorem C70_threshold : forall k channels frames signal ichannels iframes filter rate threshold low uninitialised M, offline_fits k channels frames ichannels iframes ->
  matrix_of channels frames signal -> matrix_of ichannels iframes filter -> matrix_of channels frames uninitialised -> channels <= ichannels ->
  (0 < rate)%R -> 0 < low <= 2 ^ k + 1 -> (0 <= M)%R -> peak_of M signal ->
  exists a out, scales a ichannels iframes filter /\
    sparse_convolve channels frames signal ichannels iframes filter (2 ^ k) rate threshold low uninitialised = Ok out /\
    matrix_of channels frames out /\
    forall ch, ch < channels -> exists m, loudest (scaled_spectra (2 ^ k) a (nth ch filter [])) m /\
      forall n, n < frames ->
        (Rabs (nth n (nth ch out []) 0 - lconv (nth ch signal []) (nth ch filter []) n * a) <=
         M * sqrt m * INR (ceil_div iframes (2 ^ k)) * Rsum (2 ^ k + 1) (fun j => bin_weight (2 ^ k) j * lost_amplitude (2 ^ k) rate threshold low j))%R.
Proof.
  intros k channels frames signal ic ifr filter rate threshold low un M Hfit Hs Hm Ho Hle Hr (Hlow0 & Hlow) HM Hp.
  destruct (C59_sparse k channels frames signal ic ifr filter rate threshold low un Hfit Hs Hm Ho Hle Hr Hlow) as (a & outs & Ha & E & _ & Hch).
  destruct Hfit as (Hk & Hi & Hif & H31 & Hmax & Hf). assert (HB : 0 < 2 ^ k) by (apply Nat.neq_0_lt_0, Nat.pow_nonzero; discriminate).
  assert (HC : forall ch, ch < channels -> frames <= length (concat (outs ch)) /\ exists m, loudest (scaled_spectra (2 ^ k) a (nth ch filter [])) m /\
      forall n, n < frames ->
        (Rabs (nth n (concat (outs ch)) 0 - lconv (nth ch signal []) (nth ch filter []) n * a) <=
         M * sqrt m * INR (ceil_div ifr (2 ^ k)) * Rsum (2 ^ k + 1) (fun j => bin_weight (2 ^ k) j * lost_amplitude (2 ^ k) rate threshold low j))%R).
  { intros ch Hc. destruct (Hch ch Hc) as (m & pred & Hl & Hkeep & Hrun). cbv zeta in *.
    set (x := nth ch signal []) in *. set (h := map (fun v => v * a)%R (nth ch filter [])). set (rows := ceil_div ifr (2 ^ k)) in *.
    assert (Lx : length x = frames) by (apply (UpcInstances.matrix_row _ _ _ _ ch Hs Hc)).
    assert (Lh : length h = ifr) by (unfold h; rewrite map_length; apply (UpcInstances.matrix_row _ _ _ _ ch Hm); lia).
    assert (Hpk : peak_of M (padded_blocks (2 ^ k) x)).
    { apply padded_peak; auto. intros v Hv. apply (Hp x); auto. unfold x. apply nth_In. destruct Hs as [-> _]. auto. }
    assert (Hbl : blocks_of (2 ^ k) (padded_blocks (2 ^ k) x)).
    { intros b Hb. unfold padded_blocks, tab in Hb. apply in_map_iff in Hb. destruct Hb as (t & <- & _). apply tab_length. }
    pose proof (StftProof.partition_matrix (2 ^ k) h HB) as Hmat. rewrite Lh, Nat.log2_up_pow2 in Hmat by lia. fold rows in Hmat.
    assert (HP : 0 < rows) by (unfold rows; rewrite ceil_div_pos by auto; lia).
    pose proof (dense_concat Upola k h (padded_blocks (2 ^ k) x) Hk ltac:(lia) Hbl) as D. rewrite Lh in D. fold rows in D.
    assert (Es : partition_spectra (2 ^ k) h = scaled_spectra (2 ^ k) a (nth ch filter [])) by apply scaled_spectra_eq. rewrite Es in Hmat, D.
    rewrite convolver_ok in Hrun by (cbn; auto; apply drop_bins_matrix). injection Hrun as <-. unfold effective.
    destruct (sparse_within pred k rows _ (padded_blocks (2 ^ k) x) M Hk HP Hmat Hbl HM Hpk) as (_ & S2).
    change (kind_outs (SparseUpola pred)) with (kind_outs Upola) in S2.
    assert (Hcell : forall p j, p < rows -> j < 2 ^ k + 1 ->
      let row := nth p (scaled_spectra (2 ^ k) a (nth ch filter [])) [] in let v := nth j row C0 in
      nth_error (scaled_spectra (2 ^ k) a (nth ch filter [])) p = Some row /\ nth_error row j = Some v /\ (bin_power v <= m)%R).
    { intros p j Hp0 Hj row v. destruct Hmat as [L W]. assert (I1 : nth_error (scaled_spectra (2 ^ k) a (nth ch filter [])) p = Some row).
      { apply nth_error_nth'. lia. } assert (I2 : nth_error row j = Some v). { apply nth_error_nth'. rewrite W; auto. apply (nth_error_In _ _ I1). }
      split; auto. split; auto. destruct Hl as [Hl _]. apply (Hl row v); [apply (nth_error_In _ _ I1)|apply (nth_error_In _ _ I2)]. }
    set (T := Rsum (2 ^ k + 1) _).
    assert (HT : (rejected_mass pred rows (2 ^ k) (scaled_spectra (2 ^ k) a (nth ch filter [])) <= sqrt m * INR rows * T)%R).
    { unfold rejected_mass. replace (sqrt m * INR rows * T)%R with (Rsum rows (fun _ => sqrt m * T)%R) by (rewrite Rsum_const; ring).
      apply Rsum_mono. intros p Hp0. unfold T. rewrite <- Rsum_mul_l. apply Rsum_mono. intros j Hj. cbv zeta. destruct (Hcell p j Hp0 Hj) as (I1 & I2 & I3).
      pose proof (weight_pos (2 ^ k) j). set (v := nth j (nth p (scaled_spectra (2 ^ k) a (nth ch filter [])) []) C0) in *.
      replace (sqrt m * (bin_weight (2 ^ k) j * lost_amplitude (2 ^ k) rate threshold low j))%R with
        (bin_weight (2 ^ k) j * (sqrt m * lost_amplitude (2 ^ k) rate threshold low j))%R by ring.
      destruct (pred p j v) eqn:Ep.
      - apply Rmult_le_pos; [lra|]. apply Rmult_le_pos; [apply sqrt_pos|]. unfold lost_amplitude. destruct (Rle_dec _ _); [left; apply exp_pos|lra].
      - apply Rmult_le_compat_l; [lra|]. apply dropped_amplitude; auto. intros Hkp. apply (Hkeep p _ j v I1 I2) in Hkp. congruence. }
    assert (H0 : (0 <= rejected_mass pred rows (2 ^ k) (scaled_spectra (2 ^ k) a (nth ch filter [])))%R).
    { unfold rejected_mass. apply Rsum_nonneg. intros p Hp0. apply Rsum_nonneg. intros j Hj. cbv zeta. destruct (pred p j _); [lra|].
      apply Rmult_le_pos; [|apply Cabs_pos]. pose proof (weight_pos (2 ^ k) j). lra. }
    apply within_concat in S2; [|apply Rmult_le_pos; auto]. destruct S2 as (L2 & S2). rewrite D, tab_length in L2.
    assert (Lc : frames <= length (concat (padded_blocks (2 ^ k) x))).
    { rewrite padded_concat by auto. rewrite tab_length, Lx. apply (ceil_div_ge frames (2 ^ k) HB). }
    split; [lia|]. exists m. split; auto. intros n Hn. specialize (S2 n). rewrite D, nth_tab in S2 by lia.
    replace (lconv x (nth ch filter []) n * a)%R with (lconv (concat (padded_blocks (2 ^ k) x)) h n).
    - eapply Rle_trans; [exact S2|]. rewrite !Rmult_assoc. apply Rmult_le_compat_l; auto. rewrite <- Rmult_assoc. exact HT.
    - unfold h. rewrite lconv_scale. f_equal. rewrite padded_concat by auto. unfold lconv. apply Rsum_ext. intros i Hi0. f_equal.
      destruct (Nat.lt_ge_cases i ((length x + 2 ^ k - 1) / 2 ^ k * 2 ^ k)) as [Hi1|Hi1].
      + rewrite nth_tab by auto. reflexivity.
      + rewrite nth_overflow by (rewrite tab_length; auto). symmetry. apply nth_overflow. pose proof (ceil_div_ge (length x) (2 ^ k) HB). unfold ceil_div in *. lia. }
  exists a. eexists. split; [exact Ha|]. split; [exact E|]. split.
  - split; [apply tab_length|]. intros r Hr0. unfold tab in Hr0. apply in_map_iff in Hr0. destruct Hr0 as (ch & <- & Hc). apply in_seq in Hc.
    destruct (HC ch ltac:(lia)) as (L & _). rewrite firstn_length. lia.
  - intros ch Hc. destruct (HC ch Hc) as (L & m & Hl & Hn). exists m. split; auto. intros n Hn0. rewrite nth_tab by auto. rewrite nth_firstn_lt by auto. apply Hn; auto.
Qed.

(** C70.  The bound cannot be improved: leave out the only bin of a filter that is not zero, and a
    constant input is off by exactly the bound, in the dense convolvers' second block and all its
    samples, for every block size. *)
Definition mean_filter (k : nat) (c : R) : list (list C) := [RtoC c :: repeat C0 (2 ^ k)].
Definition two_ones (k : nat) : list (list R) := [repeat 1%R (2 ^ k); repeat 1%R (2 ^ k)].

Lemma mean_filter_matrix : forall k c, matrix_of 1 (2 ^ k + 1) (mean_filter k c).
Proof. intros k c. split; auto. intros r [<-|[]]. cbn [length]. rewrite repeat_length. lia. Qed.

Lemma mean_filter_cell : forall k c, cell (mean_filter k c) 0 0 = RtoC c /\ forall i, 0 < i -> cell (mean_filter k c) 0 i = C0.
Proof. intros k c. split; auto. intros [|i] Hi; [lia|]. unfold cell, mean_filter. cbn [nth]. apply nth_repeat. Qed.

Lemma two_ones_concat : forall k n, n < 2 * 2 ^ k -> nth n (concat (two_ones k)) 0%R = 1%R.
Proof.
  intros k n Hn. unfold two_ones. cbn [concat]. rewrite app_nil_r, <- repeat_app. rewrite (nth_indep _ 0%R 1%R) by (rewrite repeat_length; lia). apply nth_repeat.
Qed.

Theorem C70_attained : forall k c, 0 < k < max_order ->
  (peak_of 1 (two_ones k) /\ rejected_mass (fun _ _ _ => false) 1 (2 ^ k) (mean_filter k c) = Rabs c)%R /\
  exists sparse_s dense_s sparse_a dense_a,
    convolver (SparseUpols (fun _ _ _ => false)) 1 (2 ^ k + 1) (mean_filter k c) (two_ones k) = Ok sparse_s /\
    convolver Upols 1 (2 ^ k + 1) (mean_filter k c) (two_ones k) = Ok dense_s /\
    convolver (SparseUpola (fun _ _ _ => false)) 1 (2 ^ k + 1) (mean_filter k c) (two_ones k) = Ok sparse_a /\
    convolver Upola 1 (2 ^ k + 1) (mean_filter k c) (two_ones k) = Ok dense_a /\
    nth 1 sparse_s [] = repeat 0%R (2 ^ k) /\ nth 1 dense_s [] = repeat c (2 ^ k) /\
    nth 1 sparse_a [] = repeat 0%R (2 ^ k) /\ nth 1 dense_a [] = repeat c (2 ^ k).
Proof.
  intros k c Hk. assert (HB : 0 < 2 ^ k) by (apply Nat.neq_0_lt_0, Nat.pow_nonzero; discriminate).
  destruct (mean_filter_cell k c) as (E0 & E1).
  assert (N2 : (INR (2 * 2 ^ k) <> 0)%R) by (apply not_0_INR; lia).
  assert (Hb : blocks_of (2 ^ k) (two_ones k)). { intros b [<-|[<-|[]]]; apply repeat_length. }
  split.
  - split. { intros b v [<-|[<-|[]]] Hv; apply repeat_spec in Hv; subst v; rewrite Rabs_R1; lra. }
    unfold rejected_mass. rewrite Rsum_S. unfold Rsum at 1, bsum. rewrite (Rsum_single _ 0); [|lia|].
    + cbn [nth mean_filter]. unfold bin_weight. cbn [Nat.eqb orb]. rewrite Cabs_RtoC. ring.
    + intros i Hi Hi0. cbv zeta. fold (cell (mean_filter k c) 0 i). rewrite E1, Cabs_0 by lia. ring.
  - rewrite !convolver_ok by (cbn; auto; try lia; apply mean_filter_matrix). do 4 eexists. do 4 (split; [reflexivity|]). unfold effective.
    assert (S0 : forall F, (forall a i, a < 1 -> F a i = C0) -> forall kd, nth 1 (kind_outs kd k 1 F (two_ones k)) [] = repeat 0%R (2 ^ k)).
    { intros F HF kd. unfold kind_outs. rewrite nth_tab by (cbn; lia). rewrite repeat_tab. apply tab_ext. intros i Hi.
      assert (Hz : (Rabs (kind_out kd k 1 F (two_ones k) 1 i) <= 1 * entry_mass (2 ^ k) 1 F)%R).
      { apply kind_bound; [lia|lra|]. intros b v [<-|[<-|[]]] Hv; apply repeat_spec in Hv; subst v; rewrite Rabs_R1; lra. }
      replace (entry_mass (2 ^ k) 1 F) with 0%R in Hz.
      - rewrite Rmult_0_r in Hz. unfold Rabs in Hz. destruct (Rcase_abs _); lra.
      - unfold entry_mass. symmetry. apply Rsum_0. intros a Ha. apply Rsum_0. intros j Hj. rewrite HF, Cabs_0 by auto. ring. }
    assert (D0 : forall pred, (forall i j v, pred i j v = false) -> forall a i, a < 1 -> cell (drop_bins pred 1 (2 ^ k + 1) (mean_filter k c)) a i = C0).
    { intros pred Hpred a i Ha. rewrite drop_bins_cell by (auto; apply mean_filter_matrix). unfold masked. rewrite Hpred. reflexivity. }
    split; [apply S0, D0; auto|]. split.
    + unfold kind_outs. rewrite nth_tab by (cbn; lia). rewrite repeat_tab. apply tab_ext. intros i Hi. cbn [kind_out]. rewrite upols_windows.
      rewrite (mean_window k c) by auto. rewrite (save_win_length k ltac:(lia)). rewrite (Rsum_ext _ _ (fun _ => 1%R)).
      * rewrite Rsum_const. field. exact N2.
      * intros n Hn. rewrite nth_save_win by (auto; lia). unfold delayed. destruct (Nat.leb_spec (2 * 2 ^ k) (2 * 2 ^ k + n)); [|lia]. apply two_ones_concat. lia.
    + split; [apply S0, D0; auto|]. unfold kind_outs. rewrite nth_tab by (cbn; lia). rewrite repeat_tab. apply tab_ext. intros i Hi. cbn [kind_out]. rewrite upola_windows.
      cbn [Nat.eqb]. rewrite !(mean_window k c) by auto.
      assert (G : forall u, u < 2 -> Rsum (length (add_win k (two_ones k) u)) (fun n => nth n (add_win k (two_ones k) u) 0%R) = INR (2 ^ k)).
      { intros u Hu. rewrite (add_win_length k ltac:(lia)). replace (2 * 2 ^ k) with (2 ^ k + 2 ^ k) by lia. rewrite Rsum_split.
        transitivity (Rsum (2 ^ k) (fun _ => 1%R) + 0)%R; [|rewrite Rsum_const; ring]. apply f_equal2.
        - apply Rsum_ext. intros n Hn. rewrite nth_add_win by (auto; lia). destruct (Nat.ltb_spec n (2 ^ k)); [|lia]. apply two_ones_concat. nia.
        - apply Rsum_0. intros n Hn. rewrite nth_add_win by (auto; lia). destruct (Nat.ltb_spec (2 ^ k + n) (2 ^ k)); [lia|]. reflexivity. }
      cbn [Nat.sub]. rewrite !G by lia. rewrite mult_INR in N2 |- *. cbn [INR] in *. field. intros Z. apply N2. rewrite Z. ring.
Qed.

(** C70: a stereo signal meets the hypotheses of C70_threshold; in each channel the error is
    bounded by the same sum. *)
Example C70_instance_threshold : exists a out, scales a 2 3 [[1; 0; 1]; [0; 2; 0]]%R /\
  sparse_convolve 2 3 [[1; -2; 3]; [0; 1; 0]]%R 2 3 [[1; 0; 1]; [0; 2; 0]]%R 2 44100 (-40) 1 [[7; 7; 7]; [7; 7; 7]]%R = Ok out /\
  forall ch, ch < 2 -> exists m, forall n, n < 3 ->
    (Rabs (nth n (nth ch out []) 0 - lconv (nth ch [[1; -2; 3]; [0; 1; 0]] []) (nth ch [[1; 0; 1]; [0; 2; 0]] []) n * a) <=
     3 * sqrt m * 2 * (lost_amplitude 2 44100 (-40) 1 0 + 2 * lost_amplitude 2 44100 (-40) 1 1 + lost_amplitude 2 44100 (-40) 1 2))%R.
Proof.
  assert (M23 : forall a b c d e f : R, matrix_of 2 3 [[a; b; c]; [d; e; f]]) by (intros; split; [reflexivity|intros l [<-|[<-|[]]]; reflexivity]).
  assert (Hf : offline_fits 1 2 3 2 3). { unfold offline_fits, max_order. repeat split; try lia; vm_compute; auto; discriminate. }
  destruct (C70_threshold 1 2 3 [[1; -2; 3]; [0; 1; 0]]%R 2 3 [[1; 0; 1]; [0; 2; 0]]%R 44100 (-40) 1 [[7; 7; 7]; [7; 7; 7]]%R 3 Hf) as (a & out & Ha & E & _ & Hch); auto; try lra.
  - cbn. lia.
  - intros b v [<-|[<-|[]]] Hv; repeat destruct Hv as [<-|Hv]; try destruct Hv; unfold Rabs; destruct (Rcase_abs _); lra.
  - exists a, out. split; auto. split; auto. intros ch Hc. destruct (Hch ch Hc) as (m & _ & Hn). exists m. intros n Hn0. eapply Rle_trans; [apply (Hn n Hn0)|].
    right. change (ceil_div 3 (2 ^ 1)) with 2. change (2 ^ 1 + 1) with 3. change (2 ^ 1) with 2. unfold Rsum, bsum, bin_weight. cbn [Nat.eqb orb INR]. ring.
Qed.

(** C70: three bins, the middle one left out. *)
Example C70_instance_rejected : exists sparse dense,
  convolver (SparseUpols (fun _ j _ => negb (j =? 1))) 1 3 [[(1, 0); (3, 4); (2, 0)]]%R [[1; 2]; [-3; 0]]%R = Ok sparse /\
  convolver Upols 1 3 [[(1, 0); (3, 4); (2, 0)]]%R [[1; 2]; [-3; 0]]%R = Ok dense /\ within 30 sparse dense.
Proof.
  destruct (C70_rejected (fun _ j _ => negb (j =? 1)) 1 1 [[(1, 0); (3, 4); (2, 0)]]%R [[1; 2]; [-3; 0]]%R 3) as (s & d & _ & _ & Es & Ed & _ & _ & H & _);
    try (unfold max_order; lia); try lra.
  - split; auto. intros l [<-|[]]. reflexivity.
  - intros b [<-|[<-|[]]]; reflexivity.
  - intros b v [<-|[<-|[]]] Hv; repeat destruct Hv as [<-|Hv]; try destruct Hv; unfold Rabs; destruct (Rcase_abs _); lra.
  - exists s, d. split; auto. split; auto. eapply within_le; [|exact H]. right. change (2 ^ 1) with 2. unfold rejected_mass, Rsum, bsum, bin_weight. cbn [Nat.eqb orb negb nth Nat.add].
    unfold Cabs, Cnorm2. cbn [fst snd]. replace (3 * 3 + 4 * 4)%R with (5 * 5)%R by ring. rewrite sqrt_square by lra. ring.
Qed.

Print Assumptions C70_filter_change.
Print Assumptions C70_bounded.
Print Assumptions C70_rejected.
Print Assumptions C70_level.
Print Assumptions C70_convolution.
Print Assumptions C70_threshold.
Print Assumptions C70_attained.
