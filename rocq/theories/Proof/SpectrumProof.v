(** Proofs about the plugin's spectrogram image and histogram. *)
From Coq Require Import Reals List Arith ZArith Lia Lra Bool.
From Verif Require Import Base.Outcome Base.OutcomeFacts Base.Cplx Spec.Offline Spec.Spectrum Spec.Stft Model.Integers Model.Stft Model.Convolution Model.Units Model.PluginConvolution Model.Spectrum
  Proof.IntegersProof Proof.UpcInstances Proof.OfflineProof Proof.StockhamProof.
Import ListNotations.
Open Scope nat_scope.
Open Scope outcome_scope.

(** ** Rounding *)

Lemma abs_le : forall x a, (Rabs x <= a)%R -> (- a <= x <= a)%R.
Proof. intros x a H. unfold Rabs in H. destruct (Rcase_abs x); lra. Qed.

Lemma round_nearest : forall x, nearest x (roundToInt x).
Proof.
  intros x. unfold nearest, roundToInt. destruct (base_Int_part x) as [H1 H2]. set (n := Int_part x) in *.
  destruct (Rlt_dec (x - IZR n) (1 / 2)) as [A|A].
  { rewrite Rabs_right by lra. split; [lra|]. intros; lra. }
  destruct (Rlt_dec (1 / 2) (x - IZR n)) as [B|B].
  { rewrite plus_IZR. rewrite Rabs_left1 by lra. split; [lra|]. intros; lra. }
  destruct (Z.even n) eqn:E.
  - rewrite Rabs_right by lra. split; [lra|auto].
  - rewrite plus_IZR. rewrite Rabs_left1 by lra. split; [lra|]. intros _. rewrite Z.add_1_r, Z.even_succ, <- Z.negb_even, E. reflexivity.
Qed.

Lemma nearest_unique : forall x m n, nearest x m -> nearest x n -> m = n.
Proof.
  intros x m n (A1 & A2) (B1 & B2). destruct (Z.eq_dec m n) as [|N]; auto. exfalso.
  assert (D : (Rabs (IZR m - IZR n) <= 1)%R). { replace (IZR m - IZR n)%R with ((x - IZR n) - (x - IZR m))%R by ring. eapply Rle_trans; [apply Rabs_triang|]. rewrite Rabs_Ropp. lra. }
  rewrite <- minus_IZR, <- abs_IZR in D. apply le_IZR in D.
  assert (Hd : (m - n = 1 \/ m - n = -1)%Z) by lia.
  assert (E1 : Rabs (x - IZR m) = (1 / 2)%R /\ Rabs (x - IZR n) = (1 / 2)%R).
  { assert (T : (IZR m - IZR n = (x - IZR n) - (x - IZR m))%R) by ring. rewrite <- minus_IZR in T.
    apply abs_le in A1. apply abs_le in B1.
    destruct Hd as [Hd|Hd]; rewrite Hd in T; [rewrite (Rabs_left1 (x - IZR m)), (Rabs_right (x - IZR n)) by lra|rewrite (Rabs_right (x - IZR m)), (Rabs_left1 (x - IZR n)) by lra]; lra. }
  specialize (A2 (proj1 E1)). specialize (B2 (proj2 E1)).
  destruct Hd as [Hd|Hd]; [replace m with (Z.succ n) in A2 by lia; rewrite Z.even_succ, <- Z.negb_even, B2 in A2|replace n with (Z.succ m) in B2 by lia; rewrite Z.even_succ, <- Z.negb_even, A2 in B2]; discriminate.
Qed.

Lemma round_range : forall x a b, (IZR a <= x <= IZR b)%R -> (a <= roundToInt x <= b)%Z.
Proof.
  intros x a b [H1 H2]. destruct (round_nearest x) as (N1 & N2). apply abs_le in N1. set (n := roundToInt x) in *. split.
  - destruct (Z_le_gt_dec a n); auto. exfalso. assert (IZR n <= IZR a - 1)%R. { rewrite <- minus_IZR. apply IZR_le. lia. } lra.
  - destruct (Z_le_gt_dec n b); auto. exfalso. assert (IZR b + 1 <= IZR n)%R. { rewrite <- plus_IZR. apply IZR_le. lia. } lra.
Qed.

Lemma round_le : forall x y, (x <= y)%R -> (roundToInt x <= roundToInt y)%Z.
Proof.
  intros x y H. destruct (Z_le_gt_dec (roundToInt x) (roundToInt y)) as [|G]; auto. exfalso.
  pose proof (round_nearest x) as Nx. pose proof (round_nearest y) as Ny. pose proof Nx as (A1 & _). pose proof Ny as (B1 & _).
  apply abs_le in A1. apply abs_le in B1. assert (IZR (roundToInt y) + 1 <= IZR (roundToInt x))%R. { rewrite <- plus_IZR. apply IZR_le. lia. }
  assert (x = y) by lra. subst y. lia.
Qed.

Lemma round_int : forall n, roundToInt (IZR n) = n.
Proof. intros n. destruct (round_range (IZR n) n n); lra || lia. Qed.

(** ** Levels *)

Lemma level_of : forall m w v, (bin_power v <= m)%R -> exists dB, level m v dB /\ weighted_level (1 / m) w v = (dB + w)%R.
Proof.
  intros m w v H. exists (amplitude_to_db (bin_power v * (1 / m)) * 0.5)%R. split; [apply level_db; auto|].
  unfold weighted_level. rewrite power_abs. reflexivity.
Qed.

(** The index powerHistogram() computes. *)
Definition index_of (m w : R) (v : C) : nat :=
  let dB := weighted_level (1 / m) w v in
  let c := if Rlt_dec dB (-143) then (-143)%R else if Rlt_dec 0 dB then 0%R else dB in
  Z.to_nat (iconv usize (roundToInt (Rabs c))).

Lemma index_range : forall m w v, index_of m w v < 144 /\ Z.of_nat (index_of m w v) =
  roundToInt (Rmin 143 (Rmax 0 (- weighted_level (1 / m) w v))).
Proof.
  intros m w v. unfold index_of. set (dB := weighted_level (1 / m) w v). set (c := if Rlt_dec dB (-143) then _ else _).
  assert (Ec : Rabs c = Rmin 143 (Rmax 0 (- dB))).
  { unfold c. destruct (Rlt_dec dB (-143)); [rewrite Rabs_left by lra; rewrite Rmax_right, Rmin_left by lra; ring|].
    destruct (Rlt_dec 0 dB); [rewrite Rabs_R0, Rmax_left, Rmin_right by lra; ring|]. rewrite Rabs_left1, Rmax_right, Rmin_right by lra. ring. }
  rewrite Ec. assert (Hr : (0 <= roundToInt (Rmin 143 (Rmax 0 (- dB))) <= 143)%Z).
  { apply round_range. split; [apply Rmin_glb; [lra|apply Rmax_l]|apply Rmin_l]. }
  set (n := roundToInt _) in *. assert (Ei : iconv usize n = n). { unfold iconv, usize. cbn [isigned iwidth]. apply Z.mod_small. split; [lia|]. apply Z.le_lt_trans with 143%Z; [lia|reflexivity]. }
  rewrite Ei. split; lia.
Qed.

Lemma index_bucket : forall m w v, (bin_power v <= m)%R -> bucket m w v (index_of m w v).
Proof.
  intros m w v H. destruct (level_of m w v H) as (dB & Hl & E). exists dB. split; auto. rewrite (proj2 (index_range m w v)), E. apply round_nearest.
Qed.

(** ** Counting *)

Lemma positions_S : forall rows cols, positions (S rows) cols = positions rows cols ++ map (fun b => (rows, b)) (seq 0 cols).
Proof. intros rows cols. unfold positions. rewrite seq_S, flat_map_app. cbn [flat_map Nat.add]. rewrite app_nil_r. reflexivity. Qed.

Lemma positions_length : forall rows cols, length (positions rows cols) = rows * cols.
Proof. induction rows as [|r IH]; intros cols; [reflexivity|]. rewrite positions_S, app_length, IH, map_length, seq_length. lia. Qed.

Lemma count_app : forall idx i l1 l2, count idx i (l1 ++ l2) = count idx i l1 + count idx i l2.
Proof. intros idx i l1 l2. unfold count. rewrite filter_app, app_length. reflexivity. Qed.

Lemma count_one : forall idx i p, count idx i [p] = if idx p =? i then 1 else 0.
Proof. intros idx i p. unfold count. cbn [filter]. destruct (idx p =? i); reflexivity. Qed.

Lemma count_le : forall idx i l, count idx i l <= length l.
Proof. intros idx i l. unfold count. induction l as [|p l IH]; cbn; auto. destruct (idx p =? i); cbn; lia. Qed.

Lemma count_total : forall idx l n, (forall p, In p l -> idx p < n) -> fold_right Nat.add 0 (map (fun i => count idx i l) (seq 0 n)) = length l.
Proof.
  intros idx l n. induction l as [|p l IH]; intros H.
  - unfold count. cbn. induction (seq 0 n); cbn; auto.
  - cbn [length]. rewrite <- IH by (intros q Hq; apply H; right; auto). specialize (H p (or_introl eq_refl)).
    assert (G : forall s m, idx p < s + m -> fold_right Nat.add 0 (map (fun i => count idx i (p :: l)) (seq s m)) = (if s <=? idx p then 1 else 0) + fold_right Nat.add 0 (map (fun i => count idx i l) (seq s m))).
    { intros s m. revert s. induction m as [|m IHm]; intros s Hs; cbn [seq map fold_right].
      - destruct (Nat.leb_spec s (idx p)); lia.
      - rewrite IHm by lia. unfold count at 1. cbn [filter]. fold (count idx s l). destruct (Nat.eqb_spec (idx p) s) as [E|E]; cbn [length]; fold (count idx s l);
          destruct (Nat.leb_spec s (idx p)), (Nat.leb_spec (S s) (idx p)); lia. }
    rewrite G by lia. reflexivity.
Qed.

Section Histogram.
Variables (frames bins : nat) (spectrum : list (list C)) (weighting : nat -> R).
Hypothesis Hm : matrix_of frames bins spectrum.
Hypothesis Hint : (Z.of_nat (frames * bins) < 2 ^ 31)%Z.

Let bin (p : nat * nat) : C := nth (snd p) (nth (fst p) spectrum []) C0.
Definition hist_index (m : R) (p : nat * nat) : nat := index_of m (weighting (snd p)) (bin p).

Lemma histogram_ok : forall m, max_power spectrum = Ok m ->
  powerHistogram frames bins spectrum weighting = Ok (tab 144 (fun i => Z.of_nat (count (hist_index m) i (positions frames bins)))).
Proof using All.
  intros m Em. unfold powerHistogram. rewrite Em. cbn [bind]. cbv zeta.
  destruct (for_range_inv _ (fun f h => h = tab 144 (fun i => Z.of_nat (count (hist_index m) i (positions f bins)))) 0 frames
    (fun frameIdx histogram => for_range 0 bins (fun binIdx histogram =>
      row <- rd spectrum frameIdx ;;
      bin <- rd row binIdx ;;
      let dB := weighted_level (1 / m) (weighting binIdx) bin in
      let dBClamped := if Rlt_dec dB (-143) then (-143)%R else if Rlt_dec 0 dB then 0%R else dB in
      let index := Z.to_nat (iconv usize (roundToInt (Rabs dBClamped))) in
      n <- rd histogram index ;;
      n <- iarith int32 (n + 1) ;;
      wr histogram index n) histogram) (repeat 0%Z 144)) as (h & E & Eh); [lia| | |].
  - rewrite repeat_tab. apply tab_ext. reflexivity.
  - intros f h Hf Eh.
    destruct (for_range_inv _ (fun b h => h = tab 144 (fun i => Z.of_nat (count (hist_index m) i (positions f bins ++ map (fun b => (f, b)) (seq 0 b))))) 0 bins
      (fun binIdx histogram =>
      row <- rd spectrum f ;;
      bin <- rd row binIdx ;;
      let dB := weighted_level (1 / m) (weighting binIdx) bin in
      let dBClamped := if Rlt_dec dB (-143) then (-143)%R else if Rlt_dec 0 dB then 0%R else dB in
      let index := Z.to_nat (iconv usize (roundToInt (Rabs dBClamped))) in
      n <- rd histogram index ;;
      n <- iarith int32 (n + 1) ;;
      wr histogram index n) h) as (h2 & E2 & Eh2); [lia| | |].
    + rewrite Eh. cbn [seq map]. rewrite app_nil_r. reflexivity.
    + intros b h1 Hb Eh1. rewrite (rd_ok _ _ _ []) by (rewrite (proj1 Hm); lia). cbn [bind].
      rewrite (rd_ok _ _ _ C0) by (rewrite (matrix_row _ _ _ _ f Hm) by lia; lia). cbn [bind]. cbv zeta.
      fold (index_of m (weighting b) (nth b (nth f spectrum []) C0)).
      assert (Ei : index_of m (weighting b) (nth b (nth f spectrum []) C0) = hist_index m (f, b)) by reflexivity. rewrite Ei.
      assert (Hi : hist_index m (f, b) < 144) by apply index_range.
      rewrite (rd_ok _ _ _ 0%Z) by (rewrite Eh1, tab_length; auto). cbn [bind]. rewrite Eh1, nth_tab by auto.
      set (done := positions f bins ++ map (fun b => (f, b)) (seq 0 b)).
      assert (Hlen : length done < frames * bins).
      { unfold done. rewrite app_length, positions_length, map_length, seq_length. assert (f * bins + bins <= frames * bins) by (replace (f * bins + bins) with (S f * bins) by lia; apply Nat.mul_le_mono_r; lia). lia. }
      pose proof (count_le (hist_index m) (hist_index m (f, b)) done) as Hc.
      assert (Ea : iarith int32 (Z.of_nat (count (hist_index m) (hist_index m (f, b)) done) + 1) = Ok (Z.of_nat (count (hist_index m) (hist_index m (f, b)) done) + 1)%Z).
      { unfold iarith. cbn. unfold fitsb. cbn. rewrite (proj2 (Z.leb_le _ _)) by lia. rewrite (proj2 (Z.leb_le _ _)) by lia. reflexivity. }
      rewrite Ea. cbn [bind]. rewrite wr_ok by (rewrite tab_length; auto). eexists. split; [reflexivity|].
      rewrite upd_tab by auto. apply tab_ext. intros i Hi'. rewrite seq_S, map_app, app_assoc. cbn [map Nat.add]. fold done. rewrite count_app.
      rewrite count_one. destruct (Nat.eqb_spec i (hist_index m (f, b))) as [->|N].
      * rewrite Nat.eqb_refl. lia.
      * destruct (Nat.eqb_spec (hist_index m (f, b)) i); [congruence|]. f_equal. lia.
    + exists h2. split; [exact E2|]. rewrite Eh2. apply tab_ext. intros i _. rewrite positions_S. reflexivity.
  - cbv zeta in E. rewrite E, Eh. reflexivity.
Qed.
End Histogram.

(** ** The image *)
Section Image.
Variables (frames bins : nat) (spectrum : list (list C)) (weighting : nat -> R) (threshold : R).
Hypothesis Hm : matrix_of frames bins spectrum.
Hypothesis Hf31 : (Z.of_nat frames < 2 ^ 31)%Z.
Hypothesis Hb31 : (Z.of_nat bins < 2 ^ 31)%Z.

Lemma int_size : forall n, (Z.of_nat n < 2 ^ 31)%Z -> Z.to_nat (iconv int32 (Z.of_nat n)) = n.
Proof. intros n H. rewrite iconv_fits; [lia|unfold valid_ity, std_width; simpl; auto|]. unfold fits, imin, imax, int32. cbn [iwidth isigned]. change (2 ^ (32 - 1))%Z with 2147483648%Z. change (2 ^ 31)%Z with 2147483648%Z in H. lia. Qed.

Definition pixel (m : R) (x y : nat) : bool :=
  if Rlt_dec (weighted_level (1 / m) (weighting y) (nth (bins - 1 - y) (nth x spectrum []) C0)) threshold then true else false.

Lemma image_ok : forall m, max_power spectrum = Ok m ->
  powerSpectrumImage frames bins spectrum weighting threshold = Ok (tab frames (fun x => tab bins (pixel m x))).
Proof using All.
  intros m Em. unfold powerSpectrumImage. rewrite Em. cbn [bind]. cbv zeta. rewrite !int_size by auto.
  match goal with |- for_range 0 frames ?b ?i = _ =>
    destruct (for_range_inv _ (fun f img => img = tab frames (fun x => tab bins (fun y => if x <? f then pixel m x y else false))) 0 frames b i) as (h & E & Eh) end; [lia| | |].
  - rewrite repeat_tab. apply tab_ext. intros x Hx. rewrite repeat_tab. reflexivity.
  - intros f img Hf Eimg.
    match goal with |- exists s', for_range 0 bins ?b ?i = _ /\ _ =>
      destruct (for_range_inv _ (fun c img => img = tab frames (fun x => tab bins (fun y => if (x <? f) || ((x =? f) && (bins - c <=? y)) then pixel m x y else false))) 0 bins b i) as (h2 & E2 & Eh2) end; [lia| | |].
    + rewrite Eimg. apply tab_ext. intros x Hx. apply tab_ext. intros y Hy. destruct (Nat.leb_spec (bins - 0) y); [lia|]. rewrite andb_false_r, orb_false_r. reflexivity.
    + intros b img1 Hb E1. rewrite (rd_ok _ _ _ []) by (rewrite (proj1 Hm); lia). cbn [bind].
      rewrite (rd_ok _ _ _ C0) by (rewrite (matrix_row _ _ _ _ f Hm) by lia; lia). cbn [bind].
      assert (Ea : iarith int32 (Z.of_nat bins - Z.of_nat b - 1) = Ok (Z.of_nat bins - Z.of_nat b - 1)%Z).
      { unfold iarith. cbn. unfold fitsb. cbn. rewrite (proj2 (Z.leb_le _ _)) by lia. rewrite (proj2 (Z.leb_le _ _)) by lia. reflexivity. }
      rewrite Ea. cbn [bind]. replace (Z.to_nat (Z.of_nat bins - Z.of_nat b - 1)) with (bins - 1 - b) by lia.
      rewrite (rd_ok _ _ _ []) by (rewrite E1, tab_length; lia). cbn [bind]. rewrite E1, nth_tab by lia.
      rewrite wr_ok by (rewrite tab_length; lia). cbn [bind]. rewrite wr_ok by (rewrite tab_length; lia). eexists. split; [reflexivity|].
      rewrite upd_tab by lia. rewrite upd_tab by lia. apply tab_ext. intros x Hx. destruct (Nat.eqb_spec x f) as [->|N].
      * apply tab_ext. intros y Hy. rewrite Nat.ltb_irrefl. cbn [orb andb]. destruct (Nat.eqb_spec y (bins - 1 - b)) as [->|Ny].
        { rewrite (proj2 (Nat.leb_le (bins - S b) _)) by lia. unfold pixel. replace (bins - 1 - (bins - 1 - b)) with b by lia. reflexivity. }
        rewrite ?Nat.eqb_refl. cbn [andb]. destruct (Nat.leb_spec (bins - b) y), (Nat.leb_spec (bins - S b) y); try reflexivity; lia.
      * apply tab_ext. intros y Hy. reflexivity.
    + exists h2. split; [exact E2|]. rewrite Eh2. apply tab_ext. intros x Hx. apply tab_ext. intros y Hy.
      rewrite (proj2 (Nat.leb_le (bins - bins) y)) by lia. rewrite andb_true_r.
      destruct (Nat.ltb_spec x f), (Nat.eqb_spec x f), (Nat.ltb_spec x (S f)); try reflexivity; lia.
  - rewrite E, Eh. f_equal. apply tab_ext. intros x Hx. apply tab_ext. intros y Hy. rewrite (proj2 (Nat.ltb_lt x frames)) by auto. reflexivity.
Qed.
End Image.

(** ** The bars *)

Lemma fold_max : forall l a, (0 <= a)%Z -> let m := fold_left Z.max l a in (a <= m)%Z /\ (forall n, In n l -> (n <= m)%Z) /\ (m = a \/ In m l).
Proof.
  induction l as [|x l IH]; intros a Ha; cbn [fold_left]; cbv zeta.
  - split; [lia|]. split; [intros n []|auto].
  - destruct (IH (Z.max a x)) as (A & B & D); [lia|]. split; [lia|]. split.
    + intros n [->|Hn]; [lia|auto].
    + destruct D as [D|D]; [|right; right; auto]. destruct (Z.max_spec a x) as [(_ & E)|(_ & E)]; rewrite D, E; [right; left; auto|left; auto].
Qed.

Definition bars_of (n : nat) (h : list Z) : outcome (list Z) :=
  let maxBin := fold_left Z.max (firstn n h) 0%Z in
  _ <- guard (0 <? maxBin)%Z ;;
  mapM (fun i => v <- rd h i ;; Ok (roundToInt (IZR v / IZR maxBin * 250))) (seq 0 n).

Lemma image_bars : forall frames bins spectrum weighting h, powerHistogram frames bins spectrum weighting = Ok h ->
  powerHistogramImage frames bins spectrum weighting = bars_of 143 h.
Proof. intros frames bins spectrum weighting h E. unfold powerHistogramImage. rewrite E. reflexivity. Qed.

Lemma bars_ok : forall n h, n < length h -> (forall v, In v h -> (0 <= v)%Z) -> (exists i, i < n /\ nth i h 0%Z <> 0%Z) ->
  exists bars M, bars_of n h = Ok bars /\ length bars = n /\
    (exists i, i < n /\ nth i h 0%Z = M /\ nth i bars 0%Z = 250%Z) /\
    forall i, i < n -> (nth i h 0 <= M)%Z /\ (0 <= nth i bars 0 <= 250)%Z /\ nearest (250 * (IZR (nth i h 0%Z) / IZR M)) (nth i bars 0%Z).
Proof.
  intros n h L Hpos (i0 & Hi0 & N0). unfold bars_of.
  destruct (fold_max (firstn n h) 0%Z ltac:(lia)) as (A & B & D). set (M := fold_left Z.max (firstn n h) 0%Z) in *. clearbody M.
  assert (Hin : forall j, j < n -> In (nth j h 0%Z) (firstn n h)). { intros j Hj. rewrite <- (nth_firstn_lt _ h n j 0%Z) by auto. apply nth_In. rewrite firstn_length. lia. }
  assert (Hp : forall j, j < n -> (0 <= nth j h 0 <= M)%Z). { intros j Hj. split; [apply Hpos, nth_In; lia|apply B; auto]. }
  assert (HM : (0 < M)%Z). { pose proof (Hp _ Hi0). lia. }
  assert (HX : exists i, i < n /\ nth i h 0%Z = M). { destruct D as [D|D]; [lia|]. destruct (In_nth _ _ 0%Z D) as (j & Hj & Ej). rewrite firstn_length in Hj. rewrite nth_firstn_lt in Ej by lia. exists j. split; [lia|auto]. }
  exists (tab n (fun i => roundToInt (IZR (nth i h 0%Z) / IZR M * 250))), M.
  assert (HMR : (0 < IZR M)%R) by (apply IZR_lt; auto).
  split. { rewrite (proj2 (Z.ltb_lt _ _)) by auto. cbn [guard bind]. apply mapM_tab. intros j Hj. apply in_seq in Hj. rewrite (rd_ok _ _ _ 0%Z) by lia. reflexivity. }
  split; [apply tab_length|]. split.
  - destruct HX as (i & Hi & Ei). exists i. split; auto. rewrite !nth_tab by lia. split; auto. rewrite Ei. replace (IZR M / IZR M * 250)%R with (IZR 250) by (field; lra). apply round_int.
  - intros i Hi. rewrite !nth_tab by lia. split; [apply Hp; auto|]. split.
    + apply round_range. destruct (Hp i Hi) as [P1 P2]. pose proof (IZR_le _ _ P1). pose proof (IZR_le _ _ P2).
      assert (0 <= IZR (nth i h 0%Z) / IZR M <= 1)%R; [|lra]. split; [apply Rmult_le_pos; [lra|left; apply Rinv_0_lt_compat; auto]|].
      apply Rmult_le_reg_r with (IZR M); auto. unfold Rdiv. rewrite Rmult_assoc, Rinv_l, Rmult_1_r, Rmult_1_l by lra. lra.
    + replace (250 * (IZR (nth i h 0%Z) / IZR M))%R with (IZR (nth i h 0%Z) / IZR M * 250)%R by ring. apply round_nearest.
Qed.

Lemma no_bars : forall n h, (forall i, i < n -> nth i h 0%Z = 0%Z) -> bars_of n h = UB.
Proof.
  intros n h H. unfold bars_of. destruct (fold_max (firstn n h) 0%Z ltac:(lia)) as (_ & _ & D). set (M := fold_left Z.max (firstn n h) 0%Z) in *. clearbody M.
  assert (E : M = 0%Z). { destruct D as [D|D]; auto. destruct (In_nth _ _ 0%Z D) as (j & Hj & Ej). rewrite firstn_length in Hj. rewrite nth_firstn_lt in Ej by lia. rewrite H in Ej by lia. congruence. }
  rewrite E. reflexivity.
Qed.
