(** The benchmark tab's percentage counts the bins above the threshold. *)
From Coq Require Import Reals List Arith ZArith Lia Lra.
From Verif Require Import Base.Outcome Base.OutcomeFacts Base.Cplx Model.Integers Model.Statistics Model.Algorithm Model.Units Model.Stft Model.Convolution
  Model.PluginConvolution Model.Spectrum Model.BenchmarkTab Spec.Dft Spec.Convolution Spec.Stft Spec.Offline Spec.Spectrum Spec.Share Spec.Statistics
  Proof.IntegersProof Proof.StatisticsProof Proof.DftTheory Proof.StftProof Proof.ConvTheory Proof.ConvCorollaries Proof.OfflineProof Proof.SpectrumProof Proof.UpcInstances.
Import ListNotations.
Open Scope outcome_scope.
Local Arguments Nat.div : simpl never.
Local Arguments Nat.modulo : simpl never.
Local Arguments Nat.pow : simpl never.

(** ** Sums *)
Definition nsum (n : nat) (f : nat -> nat) : nat := list_sum (map f (seq 0 n)).

Lemma nsum_S : forall n f, nsum (S n) f = nsum n f + f n.
Proof. intros n f. unfold nsum. rewrite seq_S, map_app, list_sum_app. cbn. lia. Qed.

Lemma nsum_le : forall n f c, (forall i, i < n -> f i <= c) -> nsum n f <= n * c.
Proof. induction n as [|n IH]; intros f c H; [cbn; lia|]. rewrite nsum_S. pose proof (IH f c ltac:(auto)). pose proof (H n ltac:(lia)). lia. Qed.

Lemma nsum_R : forall n f, INR (nsum n f) = Rsum n (fun i => INR (f i)).
Proof. induction n as [|n IH]; intros f; [reflexivity|]. rewrite nsum_S, plus_INR, Rsum_S, IH. reflexivity. Qed.

Lemma nsum_ext : forall n f g, (forall i, i < n -> f i = g i) -> nsum n f = nsum n g.
Proof. induction n as [|n IH]; intros f g H; [reflexivity|]. rewrite !nsum_S, (IH f g), (H n); auto. Qed.

Lemma nsum_swap : forall n m f, nsum n (fun i => nsum m (f i)) = nsum m (fun j => nsum n (fun i => f i j)).
Proof.
  intros n m f. apply INR_eq. rewrite !nsum_R. rewrite (Rsum_ext n _ (fun i => Rsum m (fun j => INR (f i j)))) by (intros; apply nsum_R).
  rewrite Rsum_swap. apply Rsum_ext. intros j _. symmetry. apply nsum_R.
Qed.

(** A loop that adds [g j] to a counter. *)
Lemma count_loop : forall (M : nat) n g body c0,
  (forall j c, j < n -> c + g j <= M -> body j (Z.of_nat c) = Ok (Z.of_nat (c + g j))) -> c0 + nsum n g <= M ->
  for_range 0 n body (Z.of_nat c0) = Ok (Z.of_nat (c0 + nsum n g)).
Proof.
  intros M n g body c0 Hb Hc.
  assert (Hm : forall j, j < n -> nsum (S j) g <= nsum n g).
  { intros j Hj. clear - Hj. induction n as [|n IH]; [lia|]. destruct (Nat.eq_dec j n) as [->|]; [lia|]. pose proof (IH ltac:(lia)). rewrite (nsum_S n). lia. }
  destruct (for_range_inv _ (fun j c => c = Z.of_nat (c0 + nsum j g)) 0 n body (Z.of_nat c0)) as (c & E & ->); [lia|cbn; f_equal; lia| |exact E].
  intros j c Hj ->. exists (Z.of_nat (c0 + nsum (S j) g)). split; auto. pose proof (Hm j ltac:(lia)). rewrite nsum_S in *.
  rewrite Hb by lia. do 2 f_equal. lia.
Qed.

Lemma filter_flat_map : forall A B (p : B -> bool) (f : A -> list B) l, length (filter p (flat_map f l)) = list_sum (map (fun x => length (filter p (f x))) l).
Proof. intros A B p f l. induction l as [|x l IH]; [reflexivity|]. cbn [flat_map map list_sum]. rewrite filter_app, app_length, IH. reflexivity. Qed.

Lemma length_flat_map : forall A B (f : A -> list B) l c, (forall x, In x l -> length (f x) = c) -> length (flat_map f l) = length l * c.
Proof. intros A B f l c H. induction l as [|x l IH]; [reflexivity|]. cbn [flat_map length]. rewrite app_length, IH, H by (intros; try apply H; cbn; auto). lia. Qed.

Lemma map_seq_nth : forall A B (f : A -> B) (l : list A) d, map f l = map (fun i => f (nth i l d)) (seq 0 (length l)).
Proof.
  intros A B f l d. induction l as [|x l IH]; [reflexivity|]. cbn [length seq map nth]. f_equal. rewrite IH, <- seq_shift, map_map. reflexivity.
Qed.

Lemma combine_seq : forall A (l : list A) d, combine (seq 0 (length l)) l = map (fun i => (i, nth i l d)) (seq 0 (length l)).
Proof.
  intros A l d. assert (G : forall s, combine (seq s (length l)) l = map (fun i => (s + i, nth i l d)) (seq 0 (length l))).
  { induction l as [|x l IH]; intros s; [reflexivity|]. cbn [length seq combine map nth]. rewrite Nat.add_0_r. f_equal. rewrite IH, <- seq_shift, map_map.
    apply map_ext. intros i. f_equal. lia. }
  exact (G 0).
Qed.

(** ** The table of weights *)
Lemma weighting_table_ok : forall sr, (0 < sr)%R -> weighting_table sr = Ok (tab (2 ^ 10) (bin_weight true sr)).
Proof.
  intros sr Hs. unfold weighting_table.
  destruct (for_range_inv _ (fun i w => w = tab (2 ^ 10) (fun j => if j <? i then bin_weight true sr j else 0%R)) 0 (2 ^ 10)
    (fun i w => let frequency := rfftfreq 1024 (Z.of_nat i) (1 / sr) in wr w i (if Req_EM_T frequency 0 then 0%R else a_weighting frequency)) (repeat 0%R (2 ^ 10))) as (w & E & ->).
  - lia.
  - apply (list_eq_tab _ 0%R); [apply repeat_length|]. intros j Hj. rewrite nth_repeat. reflexivity.
  - intros i w Hi ->. eexists. split; [apply wr_ok; rewrite tab_length; lia|].
    rewrite upd_tab by lia. apply tab_ext. intros j Hj.
    assert (Ef : rfftfreq 1024 (Z.of_nat i) (1 / sr) = (INR i * sr / 1024)%R). { unfold rfftfreq. rewrite <- INR_IZR_INZ. field. lra. }
    rewrite Ef. destruct (Nat.eqb_spec j i) as [->|Hne].
    + assert (L : (i <? S i) = true) by (apply Nat.ltb_lt; lia). rewrite L. unfold bin_weight. destruct i as [|i].
      * destruct (Req_EM_T _ _) as [_|G]; [reflexivity|]. exfalso. apply G. cbn [INR]. lra.
      * destruct (Req_EM_T _ _) as [G|_]; [|reflexivity]. exfalso. pose proof (lt_0_INR (S i) ltac:(lia)). assert (0 < INR (S i) * sr / 1024)%R by (apply Rmult_lt_0_compat; [apply Rmult_lt_0_compat; auto|lra]). lra.
    + destruct (Nat.ltb_spec j i), (Nat.ltb_spec j (S i)); auto; lia.
  - refine (eq_trans E _). apply f_equal. apply tab_ext. intros j Hj. apply Nat.ltb_lt in Hj. rewrite Hj. reflexivity.
Qed.

(** ** The count *)
Definition bins_of (parts : list (list (list C))) : list (nat * C) :=
  flat_map (fun mat => flat_map (fun row => combine (seq 0 (length row)) row) mat) parts.
Definition above (weighted : bool) (rate range m : R) (p : nat * C) : bool :=
  if Rlt_dec (- range) (weighted_level (1 / m) (bin_weight weighted rate (fst p)) (snd p)) then true else false.

Lemma in_bins : forall parts b v, In (b, v) (bins_of parts) -> exists mat row, In mat parts /\ In row mat /\ In v row.
Proof.
  intros parts b v H. apply in_flat_map in H. destruct H as (mat & Hm & H). apply in_flat_map in H. destruct H as (row & Hr & H). apply in_combine_r in H. eauto.
Qed.

Lemma bins_snd : forall parts, map snd (bins_of parts) = concat (concat parts).
Proof.
  induction parts as [|mat parts IH]; [reflexivity|]. cbn [bins_of flat_map concat]. rewrite map_app, concat_app. fold (bins_of parts). rewrite IH. f_equal.
  induction mat as [|row mat IH2]; [reflexivity|]. cbn [flat_map concat]. rewrite map_app, IH2. f_equal.
  generalize 0. induction row as [|v row IH3]; intros k; [reflexivity|]. cbn [length seq combine map snd]. f_equal. apply IH3.
Qed.

Lemma int32_ok : forall v, (- 2 ^ 31 <= v < 2 ^ 31)%Z -> iarith int32 v = Ok v.
Proof.
  intros v H. unfold iarith. change (isigned (promote int32)) with true. cbv iota. replace (fitsb (promote int32) v) with true; [reflexivity|].
  symmetry. unfold fitsb. apply andb_true_intro. split; apply Z.leb_le; cbn; lia.
Qed.

Section Count.
Variables (parts : list (list (list C))) (n P K : nat) (weighted : bool) (rate range : R).
Hypothesis (Hn : 0 < n) (HP : 0 < P) (HK : 0 < K) (HK10 : K <= 2 ^ 10) (Hlen : length parts = n) (Hparts : forall mat, In mat parts -> matrix_of P K mat).
Hypothesis (Hint : (Z.of_nat (n * P * K) < 2 ^ 31)%Z) (Hrate : (0 < rate)%R).

Lemma all_rows : matrix_of (n * P) K (concat parts).
Proof using All.
  split.
  - rewrite <- Hlen. clear - Hparts. induction parts as [|mat l IH]; [reflexivity|]. cbn [concat length]. rewrite app_length, IH by (intros; apply Hparts; cbn; auto).
    destruct (Hparts mat ltac:(cbn; auto)) as [-> _]. lia.
  - intros row H. apply in_concat in H. destruct H as (mat & Hm & Hr). destruct (Hparts mat Hm) as [_ W]. auto.
Qed.

Lemma bins_length : length (bins_of parts) = n * P * K.
Proof using All.
  unfold bins_of. rewrite (length_flat_map _ _ _ _ (P * K)); [rewrite Hlen; lia|]. intros mat Hm. destruct (Hparts mat Hm) as [L W].
  rewrite (length_flat_map _ _ _ _ K); [rewrite L; reflexivity|]. intros row Hr. rewrite combine_length, seq_length, (W row Hr). lia.
Qed.

Definition ind (m : R) (ch f b : nat) : nat :=
  if above weighted rate range m (b, nth b (nth f (nth ch parts []) []) C0) then 1 else 0.

Lemma filter_bins : forall m, length (filter (above weighted rate range m) (bins_of parts)) = nsum n (fun ch => nsum P (fun f => nsum K (ind m ch f))).
Proof using All.
  intros m. unfold bins_of. rewrite filter_flat_map. rewrite (map_seq_nth _ _ _ parts []), Hlen. apply nsum_ext. intros ch Hch.
  assert (Hm : In (nth ch parts []) parts) by (apply nth_In; lia). destruct (Hparts _ Hm) as [L W].
  rewrite filter_flat_map, (map_seq_nth _ _ _ _ []), L. apply nsum_ext. intros f Hf.
  assert (Hr : length (nth f (nth ch parts []) []) = K) by (apply W, nth_In; lia).
  rewrite (combine_seq _ _ C0), Hr. clear. induction K as [|k IH]; [reflexivity|]. rewrite nsum_S, seq_S, map_app, filter_app, app_length, IH. f_equal.
  cbn [plus map filter]. unfold ind. destruct (above _ _ _ _ _); reflexivity.
Qed.

Lemma share_ok : exists m, loudest [map snd (bins_of parts)] m /\
  share parts weighted rate range = Ok (INR (length (filter (above weighted rate range m) (bins_of parts))) / INR (length (bins_of parts)) * 100)%R.
Proof using All.
  destruct (max_power_ok _ _ _ all_rows ltac:(nia) HK) as (m & Em & _ & Hl). exists m. split.
  { rewrite bins_snd. destruct Hl as [H1 (row & v & Hr & Hv & Ev)]. split.
    - intros row' v' [<-|[]] H. apply in_concat in H. destruct H as (r & Hr' & Hv'). eapply H1; eauto.
    - exists (concat (concat parts)), v. split; [left; reflexivity|]. split; auto. apply in_concat. eauto. }
  unfold share. rewrite Em. cbn [bind]. rewrite weighting_table_ok by auto. cbn [bind].
  assert (H0 : In (nth 0 parts []) parts) by (apply nth_In; lia). destruct (Hparts _ H0) as [L0 W0].
  rewrite (rd_ok _ parts 0 []) by lia. cbn [bind]. rewrite (rd_ok _ _ 0 []) by lia. cbn [bind]. rewrite L0, Hlen.
  rewrite (W0 (nth 0 (nth 0 parts []) [])) by (apply nth_In; lia).
  set (M := n * P * K).
  assert (Hi1 : forall ch f b, ind m ch f b <= 1) by (intros; unfold ind; destruct (above _ _ _ _ _); lia).
  assert (Hsum : nsum P (fun f => nsum K (fun b => nsum n (fun ch => ind m ch f b))) = nsum n (fun ch => nsum P (fun f => nsum K (ind m ch f)))).
  { rewrite (nsum_ext P _ (fun f => nsum n (fun ch => nsum K (ind m ch f)))) by (intros f _; apply nsum_swap). apply nsum_swap. }
  assert (Hb : nsum n (fun ch => nsum P (fun f => nsum K (ind m ch f))) <= M).
  { unfold M. rewrite <- Nat.mul_assoc. apply nsum_le. intros ch _. apply nsum_le. intros f _. rewrite <- (Nat.mul_1_r K) at 2. apply nsum_le. auto. }
  change 0%Z with (Z.of_nat 0).
  rewrite (count_loop M P (fun f => nsum K (fun b => nsum n (fun ch => ind m ch f b)))).
  - cbn [bind]. rewrite Hsum. cbn [plus]. rewrite filter_bins, bins_length, <- INR_IZR_INZ. reflexivity.
  - intros f c Hf Hc. apply (count_loop M); [|exact Hc]. intros b c1 Hb1 Hc1. apply (count_loop M); [|exact Hc1]. intros ch c2 Hch Hc2.
    unfold count_bin.
    assert (Ew : (if weighted then rd (tab (2 ^ 10) (bin_weight true rate)) b else Ok 0%R) = Ok (bin_weight weighted rate b)).
    { destruct weighted; [|reflexivity]. rewrite (rd_ok _ _ b 0%R) by (rewrite tab_length; lia). rewrite nth_tab by lia. reflexivity. }
    rewrite Ew. cbn [bind]. assert (Hm : In (nth ch parts []) parts) by (apply nth_In; lia). destruct (Hparts _ Hm) as [L W].
    rewrite (rd_ok _ parts ch []) by lia. cbn [bind]. rewrite (rd_ok _ _ f []) by lia. cbn [bind].
    rewrite (rd_ok _ _ b C0) by (rewrite (W (nth f (nth ch parts []) [])) by (apply nth_In; lia); lia). cbn [bind]. cbv zeta.
    revert Hc2. unfold ind, above. cbn [fst snd].
    destruct (Rlt_dec _ _); intros Hc2; fold M in Hint.
    + rewrite int32_ok by lia. f_equal. lia.
    + rewrite int32_ok by lia. f_equal. lia.
  - rewrite Hsum. cbn [plus]. exact Hb.
Qed.
End Count.

(** ** A gain does not matter *)
Lemma bin_power_scale : forall g v, bin_power (Cmul (RtoC g) v) = (g * g * bin_power v)%R.
Proof. intros g [x y]. unfold bin_power, Cmul, RtoC. cbn [fst snd]. ring. Qed.

Lemma level_scale : forall g m v dB, g <> 0%R -> level (g * g * m) (Cmul (RtoC g) v) dB <-> level m v dB.
Proof.
  intros g m v dB Hg. assert (Hgg : (0 < g * g)%R) by nra. unfold level. rewrite bin_power_scale.
  assert (Hp : (0 < g * g * bin_power v)%R <-> (0 < bin_power v)%R) by (split; intros; nra).
  assert (H0 : (g * g * bin_power v = 0)%R <-> (bin_power v = 0)%R) by (split; intros; nra).
  assert (Hq : forall x, (g * g * x / (g * g * m) = x / m)%R).
  { intros x. destruct (Req_dec m 0) as [->|Hm]; [|field; auto]. unfold Rdiv. rewrite Rmult_0_r. rewrite Rinv_0. ring. }
  rewrite Hp, H0, Hq. reflexivity.
Qed.

Lemma spectrum_scale : forall g x, RDFT_list Forward (map (fun v => v * g)%R x) = map (Cmul (RtoC g)) (RDFT_list Forward x).
Proof.
  intros g x. unfold RDFT_list. rewrite map_length, map_tab. apply tab_ext. intros k Hk. rewrite <- DFT_scale. apply DFT_ext. intros j Hj.
  rewrite (nth_indep _ 0%R (0 * g)%R) by (rewrite map_length; auto). rewrite (map_nth (fun v => v * g)%R). unfold RtoC, Cmul. cbn [fst snd]. f_equal; ring.
Qed.

Lemma nth_scale : forall g (x : list R) i, nth i (map (fun v => v * g)%R x) 0%R = (nth i x 0 * g)%R.
Proof.
  intros g x i. destruct (Nat.lt_ge_cases i (length x)).
  - rewrite (nth_indep _ 0%R (0 * g)%R) by (rewrite map_length; auto). apply (map_nth (fun v => v * g)%R).
  - rewrite !nth_overflow by (rewrite ?map_length; auto). ring.
Qed.

Lemma block_spectra_scale : forall B g h, block_spectra B (map (fun v => v * g)%R h) = map (map (Cmul (RtoC g))) (block_spectra B h).
Proof.
  intros B g h. unfold block_spectra. rewrite map_length, map_tab. apply tab_ext. intros p Hp. rewrite <- spectrum_scale. f_equal.
  unfold pad. rewrite map_tab. apply tab_ext. intros i Hi. unfold part.
  destruct (Nat.lt_ge_cases i B); [rewrite !nth_tab by auto; apply nth_scale|]. rewrite !nth_overflow by (rewrite tab_length; auto). ring.
Qed.

Definition scale_bin (g : R) (p : nat * C) : nat * C := (fst p, Cmul (RtoC g) (snd p)).

Lemma flat_map_map : forall A B C (f : A -> B) (g : B -> list C) l, flat_map g (map f l) = flat_map (fun x => g (f x)) l.
Proof. intros A B C0 f g l. induction l as [|x l IH]; [reflexivity|]. cbn [map flat_map]. rewrite IH. reflexivity. Qed.

Lemma map_flat_map : forall A B C (f : B -> C) (g : A -> list B) l, map f (flat_map g l) = flat_map (fun x => map f (g x)) l.
Proof. intros A B C0 f g l. induction l as [|x l IH]; [reflexivity|]. cbn [flat_map]. rewrite map_app, IH. reflexivity. Qed.

Lemma late_bins_scale : forall g response, late_bins (map (map (fun v => v * g)%R) response) = map (scale_bin g) (late_bins response).
Proof.
  intros g response. unfold late_bins. rewrite flat_map_map, map_flat_map. apply flat_map_ext. intros h. rewrite skipn_map, block_spectra_scale, flat_map_map, map_flat_map.
  apply flat_map_ext. intros row. rewrite map_length. generalize 0. induction row as [|v row IH]; intros k; [reflexivity|]. cbn [length seq combine map]. f_equal. apply IH.
Qed.

Lemma loudest_scale : forall g bins m, g <> 0%R -> loudest [map snd (map (scale_bin g) bins)] m -> loudest [map snd bins] (m / (g * g)).
Proof.
  intros g bins m Hg [H1 (row & v & [<-|[]] & Hv & Ev)]. assert (Hgg : (0 < g * g)%R) by nra. rewrite map_map in *. cbn [scale_bin snd] in *. split.
  - intros row w [<-|[]] Hw. apply in_map_iff in Hw. destruct Hw as (p & <- & Hp).
    assert (A : (g * g * bin_power (snd p) <= m)%R). { rewrite <- bin_power_scale. eapply H1; [left; reflexivity|]. apply in_map_iff. eauto. }
    apply Rmult_le_reg_r with (g * g)%R; auto. unfold Rdiv. rewrite Rmult_assoc, Rinv_l by lra. lra.
  - apply in_map_iff in Hv. destruct Hv as (p & <- & Hp). exists (map snd bins), (snd p). split; [left; reflexivity|]. split; [apply in_map; auto|].
    rewrite bin_power_scale in Ev. rewrite <- Ev. field. auto.
Qed.

Lemma is_share_scale : forall g response weighted rate range p, g <> 0%R ->
  is_share (map (map (fun v => v * g)%R) response) weighted rate range p -> is_share response weighted rate range p.
Proof.
  intros g response weighted rate range p Hg (m & keep & Hl & Hk & ->). unfold is_share. rewrite late_bins_scale in *. set (bins := late_bins response) in *.
  exists (m / (g * g))%R, (fun q => keep (scale_bin g q)). split; [apply loudest_scale; auto|]. split.
  - intros b v H. destruct (Hk b (Cmul (RtoC g) v)) as (dB & HL & HI). { apply in_map_iff. exists (b, v). auto. }
    exists dB. split; auto. apply (level_scale g); auto. replace (g * g * (m / (g * g)))%R with m by (field; auto). exact HL.
  - rewrite map_length. do 3 f_equal. clear. induction bins as [|q bins IH]; [reflexivity|]. cbn [map filter]. destruct (keep (scale_bin g q)); cbn [length]; rewrite IH; reflexivity.
Qed.

(** ** The tab's percentage *)
Definition late_parts (response : list (list R)) : list (list (list C)) := map (fun h => block_spectra (2 ^ 9) (skipn (2 ^ 9) h)) response.

Lemma late_bins_parts : forall response, late_bins response = bins_of (late_parts response).
Proof. intros response. unfold late_bins, bins_of, late_parts. rewrite flat_map_map. reflexivity. Qed.

Lemma pow9 : Z.of_nat (2 ^ 9) = 512%Z. Proof. reflexivity. Qed.
Lemma pow9_pos : 0 < 2 ^ 9. Proof. apply Nat.neq_0_lt_0. discriminate. Qed.
Lemma bins9 : 2 * 2 ^ 9 / 2 + 1 = 2 ^ 9 + 1. Proof. reflexivity. Qed.

Lemma ceil_mono : forall a b B, 0 < B -> a <= b -> ceil_div a B <= ceil_div b B.
Proof. intros a b B HB H. unfold ceil_div. apply Nat.div_le_mono; lia. Qed.
Lemma ceil_pos : forall a B, 0 < B -> 0 < a -> 0 < ceil_div a B.
Proof. intros a B HB H. unfold ceil_div. apply Nat.div_str_pos. lia. Qed.

Lemma samples_64 : forall channels samples, 0 < channels -> (Z.of_nat channels * Z.of_nat (ceil_div samples (2 ^ 9)) * 513 < 2 ^ 31)%Z -> (Z.of_nat samples < 2 ^ 64)%Z.
Proof.
  intros channels samples Hc H. assert (G : samples <= 2 ^ 9 * ceil_div samples (2 ^ 9)).
  { unfold ceil_div. pose proof (Nat.div_mod (samples + 2 ^ 9 - 1) (2 ^ 9) ltac:(discriminate)). pose proof (Nat.mod_upper_bound (samples + 2 ^ 9 - 1) (2 ^ 9) ltac:(discriminate)). lia. }
  apply Nat2Z.inj_le in G. rewrite Nat2Z.inj_mul, pow9 in G. nia.
Qed.

Lemma parts_shape : forall channels samples response, showable channels samples response ->
  let P := ceil_div (samples - 2 ^ 9) (2 ^ 9) in
  0 < P /\ length (late_parts response) = channels /\ (forall mat, In mat (late_parts response) -> matrix_of P (2 ^ 9 + 1) mat) /\ (Z.of_nat (channels * P * (2 ^ 9 + 1)) < 2 ^ 31)%Z.
Proof.
  intros channels samples response (Hc & Hs & [L W] & Hz) P. split; [apply ceil_pos; [apply pow9_pos|lia]|]. split; [unfold late_parts; rewrite map_length; auto|]. split.
  - intros mat H. apply in_map_iff in H. destruct H as (h & <- & Hh). assert (Hl : length (skipn (2 ^ 9) h) = samples - 2 ^ 9) by (rewrite skipn_length, (W h Hh); reflexivity).
    unfold block_spectra. rewrite Hl. split; [apply tab_length|]. intros row Hr. apply in_map_iff in Hr. destruct Hr as (p & <- & _). rewrite RDFT_list_length. unfold pad. rewrite tab_length. apply bins9.
  - pose proof (ceil_mono (samples - 2 ^ 9) samples (2 ^ 9) pow9_pos (Nat.le_sub_l _ _)) as G. fold P in G. rewrite !Nat2Z.inj_mul, Nat2Z.inj_add, pow9. change (512 + Z.of_nat 1)%Z with 513%Z. nia.
Qed.

Lemma filter_partitions_ok : forall a, showable (a_channels a) (a_samples a) (a_data a) ->
  exists g, (0 < g)%R /\ filter_partitions a = Ok (late_parts (map (map (fun v => v * g)%R) (a_data a))).
Proof.
  intros [channels samples rate response] H. cbn [a_channels a_samples a_data] in *. pose proof H as (Hc & Hs & Hm & Hz). pose proof Hm as [L W].
  assert (NE : response <> []) by (intros ->; cbn in L; lia).
  exists (impulse_factor response). destruct (impulse_factor_spec response NE) as [_ (c0 & _ & E0)]. assert (P : (0 < impulse_factor response)%R) by (rewrite E0; apply energy_factor_pos).
  split; auto. set (g := impulse_factor response) in *. unfold filter_partitions. cbn [a_channels a_samples a_data].
  rewrite normalize_impulse_ok by exact Hm. cbn [obj_map bind]. fold g.
  assert (G : (2 ^ 9 <=? samples) = true) by (apply Nat.leb_le; lia). rewrite G. cbn [guard bind].
  set (resp := map (map (fun v => v * g)%R) response).
  assert (W' : forall row, In row resp -> length row = samples). { intros row Hr. apply in_map_iff in Hr. destruct Hr as (h & <- & Hh). rewrite map_length. auto. }
  rewrite (mapM_ok _ _ _ (skipn (2 ^ 9))).
  2: { intros row Hr. rewrite slice_ok by (rewrite ?(W' row Hr); lia). f_equal. rewrite <- (W' row Hr), <- skipn_length. apply firstn_all. }
  cbn [bind].
  assert (Hl : matrix_of channels (samples - 2 ^ 9) (map (skipn (2 ^ 9)) resp)).
  { split; [unfold resp; rewrite !map_length; auto|]. intros row Hr. apply in_map_iff in Hr. destruct Hr as (h & <- & Hh). rewrite skipn_length, (W' h Hh). reflexivity. }
  rewrite uniform_partition_ok; auto.
  - f_equal. unfold late_parts. assert (Lr : length resp = channels) by (unfold resp; rewrite map_length; auto).
    etransitivity; [|symmetry; apply (map_seq_nth _ _ _ resp [])]. rewrite Lr. apply tab_ext. intros c Hc'.
    rewrite partition_spectra_pow2. rewrite (nth_indep _ [] (skipn (2 ^ 9) [])) by (rewrite map_length; lia). rewrite (map_nth (skipn (2 ^ 9))). reflexivity.
  - apply pow9_pos.
  - exact (Nat.pow_le_mono_r 2 10 27 ltac:(lia) ltac:(lia)).
  - lia.
  - pose proof (samples_64 _ _ Hc Hz). lia.
  - replace (Nat.log2_up (2 ^ 9)) with 9 by reflexivity. destruct (parts_shape channels samples response H) as (_ & _ & _ & B). rewrite !Nat2Z.inj_mul in B. unfold max_elements. lia.
Qed.

Lemma response_share : forall a weighted rate range, showable (a_channels a) (a_samples a) (a_data a) -> (0 < rate)%R ->
  exists parts p, filter_partitions a = Ok parts /\ share parts weighted rate range = Ok p /\ is_share (a_data a) weighted rate range p.
Proof.
  intros a weighted rate range H Hr. destruct (filter_partitions_ok a H) as (g & Hg & E).
  set (resp := map (map (fun v => v * g)%R) (a_data a)) in *.
  assert (H' : showable (a_channels a) (a_samples a) resp).
  { destruct H as (H1 & H2 & [L W] & H4). split; [|split; [|split]]; auto. split; [unfold resp; rewrite map_length; auto|].
    intros row Hin. apply in_map_iff in Hin. destruct Hin as (h & <- & Hh). rewrite map_length. auto. }
  destruct (parts_shape _ _ _ H') as (HP & HL & HW & HZ). destruct H' as (Hc & _).
  destruct (share_ok (late_parts resp) _ _ (2 ^ 9 + 1) weighted rate range Hc HP ltac:(lia) ltac:(apply Nat.leb_le; reflexivity) HL HW HZ Hr) as (m & Hm & ES).
  eexists _, _. split; [exact E|]. split; [exact ES|]. apply (is_share_scale g); [lra|]. fold resp.
  exists m, (above weighted rate range m). rewrite late_bins_parts. split; [exact Hm|]. split; [|reflexivity].
  intros b v Hb. destruct Hm as [Hm _]. assert (Hv : (bin_power v <= m)%R). { eapply Hm; [left; reflexivity|]. exact (in_map snd _ _ Hb). }
  destruct (level_of m (bin_weight weighted rate b) v Hv) as (dB & HLv & Ew). exists dB. split; auto. unfold above. cbn [fst snd]. rewrite Ew.
  destruct (Rlt_dec _ _); split; intros; auto; try discriminate; contradiction.
Qed.
