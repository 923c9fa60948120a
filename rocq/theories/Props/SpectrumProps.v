(** Property theorems C61: the plugin's spectrogram image and histogram.
    Specification: bin_power, loudest and level (Spec/Offline.v), nearest, bucket, positions and
    count (Spec/Spectrum.v). *)
From Coq Require Import Reals List Arith ZArith Lia Lra Bool.
From Verif Require Import Base.Outcome Base.OutcomeFacts Base.Cplx Spec.Offline Spec.Stft Spec.Spectrum Model.Integers Model.Stft Model.Convolution Model.Units Model.PluginConvolution Model.Spectrum
  Proof.UpcInstances Proof.OfflineProof Proof.SpectrumProof.
Import ListNotations.
Open Scope nat_scope.

Lemma in_matrix : forall frames bins spectrum f b, matrix_of frames bins spectrum -> f < frames -> b < bins ->
  In (nth f spectrum []) spectrum /\ In (nth b (nth f spectrum []) C0) (nth f spectrum []).
Proof.
  intros frames bins spectrum f b Hm Hf Hb. split; apply nth_In; [rewrite (proj1 Hm); auto|]. rewrite (matrix_row _ _ _ _ f Hm) by auto. auto.
Qed.

Lemma bin_below : forall frames bins spectrum f b m, matrix_of frames bins spectrum -> f < frames -> b < bins -> loudest spectrum m ->
  (bin_power (nth b (nth f spectrum []) C0) <= m)%R.
Proof. intros frames bins spectrum f b m Hm Hf Hb [H _]. destruct (in_matrix _ _ _ f b Hm Hf Hb). eapply H; eauto. Qed.

Lemma in_positions : forall f b frames bins, In (f, b) (positions frames bins) <-> f < frames /\ b < bins.
Proof.
  intros f b frames bins. unfold positions. rewrite in_flat_map. split.
  - intros (x & Hx & Hi). apply in_map_iff in Hi. destruct Hi as (y & E & Hy). injection E as -> ->. apply in_seq in Hx. apply in_seq in Hy. lia.
  - intros [H1 H2]. exists f. split; [apply in_seq; lia|]. apply in_map_iff. exists b. split; auto. apply in_seq. lia.
Qed.

(** Every bin of a spectrogram is counted once, in the bucket of its weighted attenuation. *)
Theorem C61_histogram : forall frames bins spectrum weighting,
  matrix_of frames bins spectrum -> 0 < frames -> 0 < bins -> (Z.of_nat (frames * bins) < 2 ^ 31)%Z ->
  exists m h idx, loudest spectrum m /\
    powerHistogram frames bins spectrum weighting = Ok h /\ length h = 144 /\
    (forall f b, f < frames -> b < bins -> idx (f, b) < 144 /\ bucket m (weighting b) (nth b (nth f spectrum []) C0) (idx (f, b))) /\
    (forall i, i < 144 -> nth i h 0%Z = Z.of_nat (count idx i (positions frames bins))) /\
    fold_right Z.add 0%Z h = Z.of_nat (frames * bins).
Proof.
  intros frames bins spectrum weighting Hm Hf Hb Hint. destruct (max_power_ok _ _ _ Hm Hf Hb) as (m & Em & _ & Hl).
  exists m, (tab 144 (fun i => Z.of_nat (count (hist_index spectrum weighting m) i (positions frames bins)))), (hist_index spectrum weighting m).
  split; [exact Hl|]. split; [apply histogram_ok; auto|]. split; [apply tab_length|].
  split. { intros f b Hf' Hb'. split; [apply index_range|]. apply index_bucket. eapply bin_below; eauto. }
  split; [intros i Hi; rewrite nth_tab by auto; reflexivity|].
  rewrite <- (positions_length frames bins), <- (count_total (hist_index spectrum weighting m) (positions frames bins) 144) by (intros p _; apply index_range).
  unfold tab. generalize (seq 0 144). induction l as [|i l IH]; cbn [map fold_right]; [reflexivity|]. rewrite IH, Nat2Z.inj_add. reflexivity.
Qed.

(** A bin has one bucket. *)
Theorem C61_one_bucket : forall m w v i j, bucket m w v i -> bucket m w v j -> i = j.
Proof.
  intros m w v i j (d1 & L1 & N1) (d2 & L2 & N2). rewrite (level_unique _ _ _ _ L1 L2) in N1. apply Nat2Z.inj. eapply nearest_unique; eauto.
Qed.

(** The histogram does not depend on the gain or phase of the recording. *)
Theorem C61_gain_invariant : forall frames bins spectrum weighting g,
  matrix_of frames bins spectrum -> 0 < frames -> 0 < bins -> (Z.of_nat (frames * bins) < 2 ^ 31)%Z -> g <> C0 ->
  exists h, powerHistogram frames bins spectrum weighting = Ok h /\
    powerHistogram frames bins (map (map (Cmul g)) spectrum) weighting = Ok h.
Proof.
  intros frames bins spectrum weighting g Hm Hf Hb Hint Hg.
  assert (Hm' : matrix_of frames bins (map (map (Cmul g)) spectrum)).
  { destruct Hm as [L W]. split; [rewrite map_length; auto|]. intros row H. apply in_map_iff in H. destruct H as (q & <- & Hq). rewrite map_length. auto. }
  destruct (max_power_ok _ _ _ Hm Hf Hb) as (m & Em & _ & Hl). destruct (max_power_ok _ _ _ Hm' Hf Hb) as (m' & Em' & _ & Hl').
  set (p := bin_power g). assert (Hp : (0 < p)%R).
  { pose proof (bin_power_pos g) as H0. fold p in H0. destruct H0 as [|H0]; auto. exfalso. apply Hg. unfold p, bin_power in H0. destruct g as [a b]. cbn [fst snd] in H0. unfold C0. f_equal; nra. }
  assert (Epow : forall v, bin_power (Cmul g v) = (p * bin_power v)%R). { intros [a b]. unfold p, bin_power, Cmul. destruct g as [x y]. cbn [fst snd]. ring. }
  assert (Emm : m' = (p * m)%R).
  { apply Rle_antisym.
    - destruct Hl' as [_ (row & v & Hr & Hv & <-)]. apply in_map_iff in Hr. destruct Hr as (q & <- & Hq). apply in_map_iff in Hv. destruct Hv as (u & <- & Hu).
      rewrite Epow. apply Rmult_le_compat_l; [lra|]. destruct Hl as [H _]. eapply H; eauto.
    - destruct Hl as [_ (row & v & Hr & Hv & <-)]. rewrite <- Epow. destruct Hl' as [H _]. eapply H; [apply in_map; exact Hr|apply in_map; exact Hv]. }
  rewrite (histogram_ok _ _ _ weighting Hm Hint _ Em), (histogram_ok _ _ _ weighting Hm' Hint _ Em'). eexists. split; [reflexivity|]. f_equal. apply tab_ext. intros i Hi. f_equal.
  unfold count. f_equal. apply filter_ext_in. intros [f b] Hin. apply in_positions in Hin. destruct Hin as [Hf' Hb']. f_equal.
  unfold hist_index. cbn [fst snd].
  assert (Er : nth f (map (map (Cmul g)) spectrum) [] = map (Cmul g) (nth f spectrum [])) by (change (@nil C) with (map (Cmul g) []) at 1; apply map_nth).
  rewrite Er. assert (Ev : nth b (map (Cmul g) (nth f spectrum [])) C0 = Cmul g (nth b (nth f spectrum []) C0)).
  { rewrite (nth_indep _ C0 (Cmul g C0)) by (rewrite map_length, (matrix_row _ _ _ _ f Hm) by auto; auto). apply map_nth. }
  rewrite Ev. set (v := nth b (nth f spectrum []) C0). pose proof (bin_below _ _ _ f b m Hm Hf' Hb' Hl) as Hv. fold v in Hv.
  apply (C61_one_bucket m (weighting b) v); [|apply index_bucket; auto].
  assert (Hv' : (bin_power (Cmul g v) <= m')%R) by (rewrite Epow, Emm; apply Rmult_le_compat_l; lra).
  destruct (index_bucket m' (weighting b) (Cmul g v) Hv') as (dB & HL & HN). exists dB. split; [|exact HN].
  pose proof (bin_power_pos v) as Hv0. destruct HL as [(A & B)|(A & B)]; rewrite Epow in A.
  - left. split; auto. nra.
  - right. assert (0 < bin_power v)%R by nra. split; auto. rewrite B, Epow, Emm. do 4 f_equal. field. split; lra.
Qed.

(** Without weights nothing is counted more than 72 dB below the loudest bin, though there are 144
    buckets: everything quieter is in bucket 72. *)
Theorem C61_quiet_bins_refuted : forall frames bins spectrum,
  matrix_of frames bins spectrum -> 0 < frames -> 0 < bins -> (Z.of_nat (frames * bins) < 2 ^ 31)%Z ->
  exists h, powerHistogram frames bins spectrum (fun _ => 0%R) = Ok h /\ forall i, 72 < i < 144 -> nth i h 0%Z = 0%Z.
Proof.
  intros frames bins spectrum Hm Hf Hb Hint. destruct (C61_histogram _ _ _ (fun _ => 0%R) Hm Hf Hb Hint) as (m & h & idx & Hl & E & _ & HI & HC & _).
  exists h. split; auto. intros i Hi. rewrite HC by lia. unfold count.
  assert (HF : forall l, (forall p, In p l -> In p (positions frames bins)) -> filter (fun p => idx p =? i) l = []).
  { induction l as [|[f b] l IH]; intros Hin; auto. cbn [filter]. destruct (proj1 (in_positions f b frames bins) (Hin _ (or_introl eq_refl))) as [Hf' Hb'].
    destruct (HI f b Hf' Hb') as (_ & dB & HL & HN). destruct (Nat.eqb_spec (idx (f, b)) i) as [Ei|Ei]; [exfalso|solve [apply IH; intros; apply Hin; right; auto]].
    assert (HdB : (-72 <= dB)%R). { destruct HL as [[_ Ed]|[_ Ed]]; rewrite Ed; [lra|apply Rmax_l]. }
    destruct HN as [HN _]. apply abs_le in HN. rewrite Ei in HN. assert (Hq : (73 <= IZR (Z.of_nat i))%R) by (apply IZR_le; lia).
    assert (Rmin 143 (Rmax 0 (- (dB + 0))) <= 72)%R; [|lra]. eapply Rle_trans; [apply Rmin_r|]. apply Rmax_lub; lra. }
  rewrite HF by auto. reflexivity.
Qed.

(** A pixel is white where the level of the bin it shows plus the weight of its row is below the
    threshold. *)
Theorem C61_image : forall frames bins spectrum weighting threshold,
  matrix_of frames bins spectrum -> 0 < frames -> 0 < bins -> (Z.of_nat frames < 2 ^ 31)%Z -> (Z.of_nat bins < 2 ^ 31)%Z ->
  exists m img, loudest spectrum m /\
    powerSpectrumImage frames bins spectrum weighting threshold = Ok img /\ matrix_of frames bins img /\
    forall x y, x < frames -> y < bins -> exists dB, level m (nth (bins - 1 - y) (nth x spectrum []) C0) dB /\
      (nth y (nth x img []) false = true <-> (dB + weighting y < threshold)%R).
Proof.
  intros frames bins spectrum weighting threshold Hm Hf Hb H1 H2. destruct (max_power_ok _ _ _ Hm Hf Hb) as (m & Em & _ & Hl).
  exists m, (tab frames (fun x => tab bins (pixel bins spectrum weighting threshold m x))). split; [exact Hl|]. split; [apply image_ok; auto|].
  split. { split; [apply tab_length|]. intros row H. apply in_map_iff in H. destruct H as (x & <- & _). apply tab_length. }
  intros x y Hx Hy. destruct (level_of m (weighting y) (nth (bins - 1 - y) (nth x spectrum []) C0)) as (dB & HL & E); [eapply bin_below; eauto; lia|].
  exists dB. split; auto. rewrite !nth_tab by auto. unfold pixel. rewrite E. destruct (Rlt_dec (dB + weighting y) threshold); split; intro HH; auto; try discriminate; contradiction.
Qed.

(** The picture is upside down for the weights: the pixel of a bin uses the weight of the mirrored
    bin.  Here both bins have the same level, bin 0 has a weight of -100 dB, and the pixel that is
    shown as quieter than -50 dB is that of bin 1. *)
Theorem C61_image_weights_refuted :
  let weighting := fun i : nat => match i with O => (-100)%R | _ => 0%R end in
  exists img, powerSpectrumImage 1 2 [[C1; C1]] weighting (-50) = Ok img /\
    nth (2 - 1 - 1) (nth 0 img []) false = true /\ nth (2 - 1 - 0) (nth 0 img []) true = false.
Proof.
  intros weighting. assert (Hm : matrix_of 1 2 [[C1; C1]]) by (split; auto; intros row [<-|[]]; auto).
  destruct (C61_image 1 2 [[C1; C1]] weighting (-50) Hm) as (m & img & [Hl1 (row & v & Hr & Hv & Ev)] & E & [L W] & HP); try lia.
  exists img. split; auto. assert (Em : m = 1%R). { rewrite <- Ev. destruct Hr as [<-|[]]. destruct Hv as [<-|[<-|[]]]; unfold bin_power, C1; cbn; ring. }
  assert (HL : forall dB, level m C1 dB -> dB = 0%R).
  { intros dB [(A & _)|(_ & ->)]; [unfold bin_power, C1 in A; cbn in A; lra|]. rewrite Em. unfold bin_power, C1. cbn [fst snd]. replace ((1 * 1 + 0 * 0) / 1)%R with 1%R by field. rewrite ln_1. unfold Rdiv. rewrite Rmult_0_l, Rmult_0_r. apply Rmax_right. lra. }
  split.
  - destruct (HP 0 0) as (dB & A & B); [lia|lia|]. apply HL in A. apply B. subst dB. unfold weighting. lra.
  - destruct (HP 0 1) as (dB & A & B); [lia|lia|]. apply HL in A. subst dB.
    rewrite (nth_indep _ true false) by (rewrite (matrix_row _ _ _ _ 0 (conj L W)) by lia; lia). change (2 - 1 - 0) with 1.
    destruct (nth 1 (nth 0 img []) false) eqn:En; auto. pose proof (proj1 B eq_refl) as HH. unfold weighting in HH. lra.
Qed.

(** With a constant weight the picture is right: a pixel is white exactly where the weighted level
    of its bin is below the threshold. *)
Theorem C61_image_flat : forall frames bins spectrum w threshold,
  matrix_of frames bins spectrum -> 0 < frames -> 0 < bins -> (Z.of_nat frames < 2 ^ 31)%Z -> (Z.of_nat bins < 2 ^ 31)%Z ->
  exists m img, loudest spectrum m /\ powerSpectrumImage frames bins spectrum (fun _ => w) threshold = Ok img /\
    forall f b, f < frames -> b < bins -> exists dB, level m (nth b (nth f spectrum []) C0) dB /\
      (nth (bins - 1 - b) (nth f img []) false = true <-> (dB + w < threshold)%R).
Proof.
  intros frames bins spectrum w threshold Hm Hf Hb H1 H2. destruct (C61_image _ _ _ (fun _ => w) threshold Hm Hf Hb H1 H2) as (m & img & Hl & E & _ & HP).
  exists m, img. split; auto. split; auto. intros f b Hf' Hb'. destruct (HP f (bins - 1 - b) Hf' ltac:(lia)) as (dB & A & B). exists dB. split; auto.
  replace (bins - 1 - (bins - 1 - b)) with b in A by lia. exact A.
Qed.

(** The bars of the histogram image: 143 heights up to 250 pixels, the most frequent bucket has the
    full height, and each bar is its share of that height, rounded. *)
Theorem C61_bars : forall frames bins spectrum weighting h,
  matrix_of frames bins spectrum -> 0 < frames -> 0 < bins -> (Z.of_nat (frames * bins) < 2 ^ 31)%Z ->
  powerHistogram frames bins spectrum weighting = Ok h -> (exists i, i < 143 /\ nth i h 0%Z <> 0%Z) ->
  exists bars M, powerHistogramImage frames bins spectrum weighting = Ok bars /\ length bars = 143 /\
    (exists i, i < 143 /\ nth i h 0%Z = M /\ nth i bars 0%Z = 250%Z) /\
    forall i, i < 143 -> (nth i h 0 <= M)%Z /\ (0 <= nth i bars 0 <= 250)%Z /\ nearest (250 * (IZR (nth i h 0%Z) / IZR M)) (nth i bars 0%Z).
Proof.
  intros frames bins spectrum weighting h Hm Hf Hb Hint Eh HX.
  destruct (C61_histogram _ _ _ weighting Hm Hf Hb Hint) as (m & h' & idx & _ & E & L & _ & HC & _). rewrite E in Eh. injection Eh as ->.
  rewrite (image_bars _ _ _ _ _ E). apply bars_ok; auto; [rewrite L; lia|]. intros v Hv. destruct (In_nth _ _ 0%Z Hv) as (i & Hi & <-). rewrite HC by lia. lia.
Qed.

(** Without weights there are always bars. *)
Theorem C61_bars_flat : forall frames bins spectrum,
  matrix_of frames bins spectrum -> 0 < frames -> 0 < bins -> (Z.of_nat (frames * bins) < 2 ^ 31)%Z ->
  exists bars, powerHistogramImage frames bins spectrum (fun _ => 0%R) = Ok bars.
Proof.
  intros frames bins spectrum Hm Hf Hb Hint. destruct (C61_histogram _ _ _ (fun _ => 0%R) Hm Hf Hb Hint) as (m & h & idx & Hl & E & Lh & HI & HC & _).
  destruct (C61_quiet_bins_refuted _ _ _ Hm Hf Hb Hint) as (h' & E' & HZ). rewrite E in E'. injection E' as <-.
  destruct (C61_bars _ _ _ _ h Hm Hf Hb Hint E) as (bars & M & EB & _); [|eauto].
  exists (idx (0, 0)). destruct (HI 0 0 Hf Hb) as (H1 & _).
  assert (Hne : nth (idx (0, 0)) h 0%Z <> 0%Z).
  { rewrite HC by auto. assert (In (0, 0) (filter (fun p => idx p =? idx (0, 0)) (positions frames bins))) by (apply filter_In; split; [apply in_positions; auto|apply Nat.eqb_refl]).
    unfold count. destruct (filter _ _); [contradiction|]. cbn [length]. lia. }
  split; auto. destruct (Nat.lt_ge_cases (idx (0, 0)) 143); auto. exfalso. apply Hne. apply HZ. lia.
Qed.

(** With weights there may be none: when every bin is 143 dB down, the image divides 0 by 0 and
    rounds the NaN. *)
Theorem C61_no_bars_refuted : forall frames bins spectrum weighting,
  matrix_of frames bins spectrum -> 0 < frames -> 0 < bins -> (Z.of_nat (frames * bins) < 2 ^ 31)%Z ->
  (forall b, b < bins -> (weighting b <= -143)%R) ->
  powerHistogramImage frames bins spectrum weighting = UB.
Proof.
  intros frames bins spectrum weighting Hm Hf Hb Hint Hw.
  destruct (max_power_ok _ _ _ Hm Hf Hb) as (m & Em & _ & Hl). rewrite (image_bars _ _ _ _ _ (histogram_ok _ _ _ weighting Hm Hint _ Em)).
  apply no_bars. intros i Hi. rewrite nth_tab by lia. unfold count.
  assert (HF : forall l, (forall p, In p l -> In p (positions frames bins)) -> filter (fun p => hist_index spectrum weighting m p =? i) l = []).
  { induction l as [|[f b] l IH]; intros Hin; auto. cbn [filter]. destruct (proj1 (in_positions f b frames bins) (Hin _ (or_introl eq_refl))) as [Hf' Hb'].
    destruct (Nat.eqb_spec (hist_index spectrum weighting m (f, b)) i) as [Ei|Ei]; [exfalso|solve [apply IH; intros; apply Hin; right; auto]].
    pose proof (index_range m (weighting b) (nth b (nth f spectrum []) C0)) as [_ HR]. change (index_of m (weighting b) (nth b (nth f spectrum []) C0)) with (hist_index spectrum weighting m (f, b)) in HR.
    destruct (level_of m (weighting b) (nth b (nth f spectrum []) C0)) as (dB & HL & EL); [eapply bin_below; eauto|]. rewrite EL in HR. specialize (Hw b Hb').
    assert (HdB : (dB <= 0)%R).
    { pose proof (bin_below _ _ _ f b m Hm Hf' Hb' Hl) as Hv. destruct HL as [(_ & ->)|(P & ->)]; [lra|]. apply Rmax_lub; [lra|].
      assert (Hq : (0 < bin_power (nth b (nth f spectrum []) C0) / m <= 1)%R).
      { split; [apply Rdiv_lt_0_compat; lra|]. apply Rmult_le_reg_r with m; [lra|]. unfold Rdiv. rewrite Rmult_assoc, Rinv_l by lra. lra. }
      assert (H10 : (0 < ln 10)%R) by (rewrite <- ln_1; apply ln_increasing; lra).
      assert (ln (bin_power (nth b (nth f spectrum []) C0) / m) <= 0)%R.
      { rewrite <- ln_1. destruct (Rle_lt_or_eq_dec _ _ (proj2 Hq)) as [Hlt| ->]; [left; apply ln_increasing; lra|lra]. }
      assert (ln (bin_power (nth b (nth f spectrum []) C0) / m) / ln 10 <= 0)%R; [|lra]. apply Rmult_le_reg_r with (ln 10); auto. unfold Rdiv. rewrite Rmult_assoc, Rinv_l by lra. lra. }
    rewrite Rmax_right, Rmin_left, round_int in HR by lra. lia. }
  rewrite HF by auto. reflexivity.
Qed.

(** A concrete spectrogram meets the hypotheses of the theorems above. *)
Example C61_instance : matrix_of 2 3 [[C1; C0; C1]; [C0; C1; C1]] /\ 0 < 2 /\ 0 < 3 /\ (Z.of_nat (2 * 3) < 2 ^ 31)%Z /\ (2, 1)%R <> C0 /\
  exists h, powerHistogram 2 3 [[C1; C0; C1]; [C0; C1; C1]] (fun _ => 0%R) = Ok h /\ exists i, i < 143 /\ nth i h 0%Z <> 0%Z.
Proof.
  assert (Hm : matrix_of 2 3 [[C1; C0; C1]; [C0; C1; C1]]) by (split; auto; intros row [<-|[<-|[]]]; auto).
  repeat split; try lia; auto; try (intros row [<-|[<-|[]]]; auto). { intro H. apply (f_equal fst) in H. cbn in H. lra. }
  destruct (C61_histogram _ _ _ (fun _ => 0%R) Hm) as (m & h & idx & Hl & E & _ & HI & HC & _); try lia.
  exists h. split; auto. destruct (HI 0 0) as (H1 & (dB & HL & HN)); [lia|lia|]. cbn [nth] in HL.
  assert (Em : m = 1%R). { destruct Hl as [H1' (row & v & Hr & Hv & Ev)]. specialize (H1' [C1; C0; C1] C1 (or_introl eq_refl) (or_introl eq_refl)).
    destruct Hr as [<-|[<-|[]]]; destruct Hv as [<-|[<-|[<-|[]]]]; unfold bin_power, C1, C0 in *; cbn in *; lra. }
  assert (E0 : dB = 0%R). { destruct HL as [(A & _)|(_ & ->)]; [unfold bin_power, C1 in A; cbn in A; lra|]. rewrite Em. unfold bin_power, C1. cbn [fst snd]. replace ((1 * 1 + 0 * 0) / 1)%R with 1%R by field. rewrite ln_1. unfold Rdiv. rewrite Rmult_0_l, Rmult_0_r. apply Rmax_right. lra. }
  assert (Ei : idx (0, 0) = 0). { apply Nat2Z.inj. apply (nearest_unique _ _ _ HN). rewrite E0. rewrite Rmax_left, Rmin_right by lra. split; [rewrite Rminus_0_r, Rabs_R0; lra|auto]. }
  exists 0. split; [lia|]. rewrite HC by lia. unfold count, positions. cbn [seq map flat_map app filter]. rewrite Ei. cbn [Nat.eqb length]. lia.
Qed.

Print Assumptions C61_histogram.
Print Assumptions C61_one_bucket.
Print Assumptions C61_gain_invariant.
Print Assumptions C61_quiet_bins_refuted.
Print Assumptions C61_image.
Print Assumptions C61_image_weights_refuted.
Print Assumptions C61_image_flat.
Print Assumptions C61_bars.
Print Assumptions C61_bars_flat.
Print Assumptions C61_no_bars_refuted.
