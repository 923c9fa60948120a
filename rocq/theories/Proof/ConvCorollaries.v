(** Corollaries and counterexamples for C36-C48. *)
From Coq Require Import Reals List Arith Bool Lia ZArith Lra.
From Verif Require Import Base.Outcome Base.OutcomeFacts Base.Sums Base.Alias Base.Cplx Spec.Dft Spec.Transforms Spec.Convolution Spec.Stft Spec.Convolvers
  Model.Fft2 Model.Integers Model.Algorithm Model.FftApps Model.Csr Model.Convolution Model.Stft
  Proof.DftTheory Proof.RfftProof Proof.AlgorithmProof Proof.ConvTheory Proof.FftConvProof Proof.OverlapProof Proof.StreamProof
  Proof.LtiProof Proof.UpcProof Proof.UpcInstances Proof.StftProof Proof.UpcFinal Proof.DirectConvProof.
Import ListNotations.
Local Arguments Nat.div : simpl never.
Local Arguments Nat.modulo : simpl never.
Local Arguments Nat.pow : simpl never.

(** ** Direct convolution *)

Lemma conv_sum_lconv : forall x h k, conv_sum R 0%R Rplus Rmult x h k = lconv x h k.
Proof. reflexivity. Qed.

Lemma conv_sum_clconv : forall x h k, conv_sum C C0 Cadd Cmul x h k = clconv x h k.
Proof. reflexivity. Qed.

Lemma direct_real : forall x h, 0 < length x + length h ->
  direct_convolve R 0%R Rplus Rmult x h = Ok (tab (length x + length h - 1) (lconv x h)).
Proof. intros x h H. rewrite (direct_convolve_ok R 0%R 1%R Rplus Rmult Rminus Ropp RTheory) by auto. reflexivity. Qed.

Lemma direct_complex : forall x h, 0 < length x + length h ->
  direct_convolve C C0 Cadd Cmul x h = Ok (tab (length x + length h - 1) (clconv x h)).
Proof. intros x h H. rewrite (direct_convolve_ok C C0 C1 Cadd Cmul Csub Copp C_ring) by auto. reflexivity. Qed.

(** ** Convolvers: reset *)

Lemma filter_resets :
  (forall (c : upols_convolver) rows cols mat blocks,
     filter_and_run c rows cols mat tt blocks = convolver Upols rows cols mat blocks) /\
  (forall (c : upola_convolver) rows cols mat blocks,
     filter_and_run c rows cols mat tt blocks = convolver Upola rows cols mat blocks) /\
  (forall l (c : split_upols_convolver l) rows cols mat blocks,
     filter_and_run c rows cols mat tt blocks = convolver (SplitUpols l) rows cols mat blocks) /\
  (forall l (c : split_upola_convolver l) rows cols mat blocks,
     filter_and_run c rows cols mat tt blocks = convolver (SplitUpola l) rows cols mat blocks) /\
  (forall p (c : sparse_upols_convolver) rows cols mat blocks,
     filter_and_run c rows cols mat p blocks = convolver (SparseUpols p) rows cols mat blocks) /\
  (forall p (c : sparse_upola_convolver) rows cols mat blocks,
     filter_and_run c rows cols mat p blocks = convolver (SparseUpola p) rows cols mat blocks).
Proof.
  destruct make_upc_ok as [[os Es] [oa Ea]].
  repeat split; intros; unfold convolver, make_upc; cbn [ov_make ols ola]; rewrite ?Es, ?Ea; reflexivity.
Qed.

(** ** Convolvers: linear, causal, delay *)

Lemma kind_outs_length : forall kd k P F all, length (kind_outs kd k P F all) = length all.
Proof. intros. apply tab_length. Qed.

Lemma convolver_linear : forall kd k P mat a b xs ys, valid_kind kd -> 0 < k < max_order -> 0 < P -> matrix_of P (2 ^ k + 1) mat ->
  blocks_of (2 ^ k) xs -> blocks_of (2 ^ k) ys -> length ys = length xs ->
  exists ox oy, convolver kd P (2 ^ k + 1) mat xs = Ok ox /\ convolver kd P (2 ^ k + 1) mat ys = Ok oy /\
    convolver kd P (2 ^ k + 1) mat (mix (2 ^ k) a b xs ys) = Ok (mix (2 ^ k) a b ox oy).
Proof.
  intros kd k P mat a b xs ys HV Hk HP Hm Hx Hy L. rewrite !convolver_ok by (auto; apply mix_blocks).
  do 2 eexists. split; [reflexivity|]. split; [reflexivity|]. f_equal.
  unfold mix at 2. rewrite kind_outs_length. unfold kind_outs at 1.
  replace (length (mix (2 ^ k) a b xs ys)) with (length xs) by (symmetry; apply tab_length).
  apply tab_ext. intros t Ht. apply tab_ext. intros i Hi. unfold kind_outs. rewrite !nth_tab by (auto; lia).
  destruct kd; unfold kind_out; first [apply upols_mix; auto; lia | apply upola_mix; auto; lia].
Qed.

Lemma firstn_tab_ext : forall A n m1 m2 (f g : nat -> A), Nat.min n m1 = Nat.min n m2 -> (forall t, t < n -> f t = g t) ->
  firstn n (tab m1 f) = firstn n (tab m2 g).
Proof.
  intros A n m1 m2 f g E H. destruct n; [reflexivity|]. destruct m1; [destruct m2; [reflexivity|simpl in E; lia]|].
  apply (list_eq_nth _ (f 0)).
  - rewrite !firstn_length, !tab_length. exact E.
  - intros t Ht. rewrite firstn_length, tab_length in Ht. rewrite !nth_firstn_lt by lia. rewrite !nth_tab by lia. apply H. lia.
Qed.

Lemma convolver_causal : forall kd k P mat n xs ys, valid_kind kd -> 0 < k < max_order -> 0 < P -> matrix_of P (2 ^ k + 1) mat ->
  blocks_of (2 ^ k) xs -> blocks_of (2 ^ k) ys -> firstn n xs = firstn n ys ->
  exists ox oy, convolver kd P (2 ^ k + 1) mat xs = Ok ox /\ convolver kd P (2 ^ k + 1) mat ys = Ok oy /\
    firstn n ox = firstn n oy.
Proof.
  intros kd k P mat n xs ys HV Hk HP Hm Hx Hy E. rewrite !convolver_ok by auto.
  do 2 eexists. split; [reflexivity|]. split; [reflexivity|]. unfold kind_outs. apply firstn_tab_ext.
  - rewrite <- !firstn_length. rewrite E. reflexivity.
  - intros t Ht. apply tab_ext. intros i Hi.
    destruct kd; unfold kind_out; first [apply (upols_causal k _ _ ltac:(lia) n); auto | apply (upola_causal k _ _ ltac:(lia) n); auto].
Qed.

Lemma convolver_delay : forall kd k P mat m xs, valid_kind kd -> 0 < k < max_order -> 0 < P -> matrix_of P (2 ^ k + 1) mat ->
  blocks_of (2 ^ k) xs ->
  exists ox, convolver kd P (2 ^ k + 1) mat xs = Ok ox /\
    convolver kd P (2 ^ k + 1) mat (silence (2 ^ k) m ++ xs) = Ok (silence (2 ^ k) m ++ ox).
Proof.
  intros kd k P mat m xs HV Hk HP Hm Hx. rewrite !convolver_ok by (auto; apply silence_blocks; auto).
  eexists. split; [reflexivity|]. f_equal. apply (list_eq_nth _ []).
  { rewrite app_length, !kind_outs_length, app_length. reflexivity. }
  intros t Ht. rewrite kind_outs_length, app_length in Ht. unfold silence in Ht. rewrite repeat_length in Ht.
  unfold kind_outs at 1. rewrite nth_tab by (rewrite app_length; unfold silence; rewrite repeat_length; auto).
  assert (E : forall i, kind_out kd k P (cell (effective kd P (2 ^ k + 1) mat)) (silence (2 ^ k) m ++ xs) t i =
    if t <? m then 0%R else kind_out kd k P (cell (effective kd P (2 ^ k + 1) mat)) xs (t - m) i).
  { intros i. destruct kd; unfold kind_out; first [apply upols_delay; lia | apply upola_delay; lia]. }
  rewrite (tab_ext _ _ _ _ (fun i _ => E i)). unfold silence. destruct (Nat.ltb_spec t m).
  - rewrite app_nth1 by (rewrite repeat_length; auto). rewrite (nth_indep _ [] (repeat 0%R (2 ^ k))) by (rewrite repeat_length; auto). rewrite nth_repeat. symmetry. apply repeat_tab.
  - rewrite app_nth2 by (rewrite repeat_length; auto). rewrite repeat_length. unfold kind_outs. rewrite nth_tab by lia. reflexivity.
Qed.

(** ** Partitioned convolvers, power-of-two blocks *)

Lemma partitioned_pow2 : forall kd k h all, valid_kind kd -> 0 < k < max_order -> 0 < length h ->
  (Z.of_nat (length h) < 2 ^ 64)%Z -> (Z.of_nat (ceil_div (length h) (2 ^ k)) * Z.of_nat (2 ^ k + 1) < max_elements)%Z ->
  (match kd with SparseUpols p | SparseUpola p => forall i j v, p i j v = true | _ => True end) ->
  blocks_of (2 ^ k) all ->
  exists outs, partitioned kd (2 ^ k) h all = Ok outs /\
    concat outs = tab (length (concat all)) (lconv (concat all) h) /\ length outs = length all /\ blocks_of (2 ^ k) outs.
Proof.
  intros kd k h all HV Hk Hh H64 Hmax Hp Hall.
  assert (E : Nat.log2_up (2 ^ k) = k) by (apply Nat.log2_up_pow2; lia).
  assert (HB : 2 <= 2 ^ k) by (change 2 with (2 ^ 1) at 1; apply Nat.pow_le_mono_r; lia).
  assert (HM : 2 * 2 ^ k <= 2 ^ max_order) by (rewrite <- Nat.pow_succ_r'; apply Nat.pow_le_mono_r; lia).
  exists (filtered (2 ^ k) h all). split.
  - apply partitioned_ok; rewrite ?E; auto.
  - destruct (filtered_concat (2 ^ k) h ltac:(auto) ltac:(auto) ltac:(rewrite E; auto) all ltac:(rewrite E; auto)) as (C1 & C2 & C3). rewrite E in C1, C3.
    split; [|auto]. rewrite C1. apply tab_ext. intros i Hi. apply lconv_ext. apply stretched_pow2.
Qed.

(** ** Overlap-save with a block size that is not a power of two *)

Lemma synth_zero : forall m j, 0 < m -> synth (2 * m) (repeat C0 (m + 1)) j = 0%R.
Proof.
  intros m j Hm. unfold synth. rewrite half_of_double, (IRDFT_ext _ _ (fun _ => C0)), IRDFT_0 by (auto; intros; apply nth_repeat).
  unfold Rdiv. ring.
Qed.

Lemma transfer_zero : forall H, transfer_callback H (RDFT_list Forward (repeat 0%R 4)) tt =
  transfer_callback H (repeat C0 3) tt.
Proof.
  intros H. f_equal. apply (list_eq_nth _ C0); [reflexivity|]. intros i Hi. rewrite RDFT_zero, nth_repeat. reflexivity.
Qed.

Lemma save_block3_wrong : exists o o' y1 y2, make_overlap_save 3 2 = Ok o /\
  ov_stream ols (transfer_callback (RDFT_list Forward (pad 4 [0; 1]%R))) o tt [[1; 1; 1]; [0; 0; 0]]%R = Ok (o', [y1; y2], tt) /\
  y2 = [0; 0; 0]%R /\ lconv (concat [[1; 1; 1]; [0; 0; 0]]%R) [0; 1]%R 3 = 1%R.
Proof.
  assert (M4 : 4 <= 2 ^ max_order) by (change 4 with (2 ^ 2); apply Nat.pow_le_mono_r; [lia|unfold max_order; lia]).
  destruct (make_overlap_save_ok 3 2) as (o & Eo & Io); [lia|exact M4|].
  change (2 ^ Nat.log2_up (3 + 2 - 1)) with 4 in Io.
  set (H := RDFT_list Forward (pad 4 [0; 1]%R)).
  assert (T : forall X, length X = 3 -> exists Y, transfer_callback H X tt = Ok (Y, tt) /\ length Y = 3).
  { intros X HX. destruct (transfer_spec 3 H eq_refl [] X tt I HX) as (st' & E & L & _). destruct st'. eauto. }
  destruct (T (RDFT_list Forward (os_next 3 (repeat 0%R 4) [1; 1; 1]%R)) eq_refl) as (Y1 & E1 & L1).
  destruct (overlap_save_run_ok unit 3 2 (repeat 0%R 4) o [1; 1; 1]%R (transfer_callback H) tt Y1 tt) as (o1 & R1 & I1);
    auto; try lia. { change (3 <= 4). lia. }
  assert (W2 : os_next 3 (os_next 3 (repeat 0%R 4) [1; 1; 1]%R) [0; 0; 0]%R = repeat 0%R 4).
  { unfold os_next, slid. cbn [length repeat tab_length]. rewrite !tab_length.
    change (4 / 3) with 1. reflexivity. }
  assert (E2 : transfer_callback H (RDFT_list Forward (os_next 3 (os_next 3 (repeat 0%R 4) [1; 1; 1]%R) [0; 0; 0]%R)) tt
     = Ok (repeat C0 3, tt)).
  { rewrite W2, transfer_zero. destruct (transfer_spec 3 H eq_refl [] (repeat C0 3) tt I eq_refl) as (st' & E & _).
    destruct st'. rewrite E. do 2 f_equal. unfold last_times. transitivity (tab 3 (fun _ => C0)); [|reflexivity]. apply tab_ext. intros i Hi.
    cbn [app last]. rewrite nth_repeat. ring. }
  destruct (overlap_save_run_ok unit 3 2 _ o1 [0; 0; 0]%R (transfer_callback H) tt _ tt ltac:(lia) ltac:(lia)
    ltac:(change (3 <= 4); lia) I1 eq_refl E2 eq_refl) as (o2 & R2 & I2).
  do 4 eexists. split; [exact Eo|]. cbn [ov_stream ols ov_run]. rewrite R1. cbn [bind]. rewrite R2. cbn [bind].
  split; [reflexivity|]. split.
  - transitivity (tab 3 (fun _ => 0%R)); [|reflexivity]. apply tab_ext. intros i Hi.
    replace (length (os_next 3 (repeat 0%R 4) [1; 1; 1]%R)) with (2 * 2) by reflexivity. apply (synth_zero 2). lia.
  - unfold lconv, Rsum. cbn. ring.
Qed.

(** ** Overlap-add with a filter longer than block + 1 *)

Lemma last_times_one : forall H X, last_times 3 H ([] ++ [X]) = tab 3 (fun k => nth k X C0 * nth k H C0)%C.
Proof. reflexivity. Qed.

Lemma rcconv4 : forall a b i, rcconv 4 a b i =
  (a 0%nat * b ((i + 4) mod 4)%nat + a 1%nat * b ((i + 3) mod 4)%nat + a 2%nat * b ((i + 2) mod 4)%nat + a 3%nat * b ((i + 1) mod 4)%nat)%R.
Proof. intros. unfold rcconv, Rsum. cbn [bsum Nat.sub]. ring. Qed.

Ltac mod4 := repeat match goal with |- context [?a mod 4] => let v := eval compute in (a mod 4) in change (a mod 4) with v end.

Lemma tab_1 : forall A (f : nat -> A), tab 1 f = [f 0]. Proof. reflexivity. Qed.

Lemma add_long_filter_wrong : exists o o' y1 y2, make_overlap_add 1 3 = Ok o /\
  ov_stream ola (transfer_callback (RDFT_list Forward (pad 4 [0; 0; 1]%R))) o tt [[1]; [0]]%R = Ok (o', [y1; y2], tt) /\
  y2 = [1]%R /\ lconv (concat [[1]; [0]]%R) [0; 0; 1]%R 1 = 0%R.
Proof.
  assert (M4 : 3 <= 2 ^ max_order). { transitivity (2 ^ 2); [change (2 ^ 2) with 4; lia|apply Nat.pow_le_mono_r; unfold max_order; lia]. }
  destruct (make_overlap_add_ok 1 3) as (o & Eo & Io); [lia|exact M4|].
  change (2 ^ Nat.log2_up (1 + 3 - 1)) with 4 in Io.
  set (h := pad 4 [0; 0; 1]%R). set (H := RDFT_list Forward h).
  assert (T : forall X, length X = 3 -> transfer_callback H X tt = Ok (tab 3 (fun k => nth k X C0 * nth k H C0)%C, tt)).
  { intros X HX. destruct (transfer_spec 3 H eq_refl [] X tt I HX) as (st' & E & L & _). destruct st'. rewrite E. reflexivity. }
  assert (Sy : forall w j, length w = 4 -> j < 4 -> synth 4 (tab 3 (fun k => nth k (RDFT_list Forward w) C0 * nth k H C0)%C) j =
    rcconv 4 (fun i => nth i h 0%R) (fun i => nth i w 0%R) j).
  { intros w j Hw Hj. apply (synth_mul 2 h w j); auto; lia. }
  set (w1 := oa_next 1 (repeat 0%R 4) [1]%R) in *.
  destruct (overlap_add_run_ok unit 1 3 (repeat 0%R 4) (repeat 0%R 1) o [1]%R (transfer_callback H) tt _ tt ltac:(lia)
     ltac:(change (2 <= 4); lia) Io eq_refl (T (RDFT_list Forward w1) eq_refl) eq_refl) as (o1 & R1 & I1).
  change (length (repeat 0%R 4)) with 4 in *.
  match type of I1 with oa_inv _ _ ?w ?v _ => set (w1' := w) in *; set (v1 := v) in * end.
  set (w2 := oa_next 1 w1' [0]%R) in *.
  destruct (overlap_add_run_ok unit 1 3 w1' v1 o1 [0]%R (transfer_callback H) tt _ tt ltac:(lia)
     ltac:(change (2 <= 4); lia) I1 eq_refl (T (RDFT_list Forward w2) eq_refl) eq_refl) as (o2 & R2 & I2).
  do 4 eexists. split; [exact Eo|]. cbn [ov_stream ola ov_run]. rewrite R1. cbn [bind]. rewrite R2. cbn [bind].
  split; [reflexivity|]. split.
  - assert (V : forall j, j < 4 -> nth j w1' 0%R = if j =? 2 then 1%R else 0%R).
    { intros j Hj. unfold w1'. rewrite nth_tab by auto. rewrite Sy by auto. rewrite rcconv4.
      unfold h, pad, w1, oa_next. destruct j as [|[|[|[|]]]]; try lia; mod4; cbn; ring. }
    change (length w1') with 4. rewrite tab_1. f_equal. rewrite Sy by (auto; lia). rewrite rcconv4.
    assert (V1 : nth 0 v1 0%R = 0%R).
    { unfold v1. rewrite (nth_tab _ 1) by lia. rewrite Sy by (auto; lia). rewrite rcconv4. unfold h, pad, w1, oa_next. mod4. cbn. ring. }
    rewrite V1. unfold h, pad, w2, oa_next. change (length w1') with 4.
    mod4. rewrite !(nth_tab _ 4) by lia.
    cbn [Nat.ltb Nat.leb Nat.mul Nat.add]. rewrite !V by lia. cbn. ring.
  - unfold lconv, Rsum. cbn. ring.
Qed.

(** ** fft_convolver objects *)

Lemma fc_forward_keeps : forall order pl tmp inp out pl' tmp' out', 0 < order -> rf_inv order pl ->
  fc_forward pl tmp inp out = Ok (pl', tmp', out') ->
  rf_inv order pl' /\ length tmp' = length tmp /\ length out' = length out.
Proof.
  intros order pl tmp inp out pl' tmp' out' Ho Hp E. unfold fc_forward in E.
  apply bind_ok in E; destruct E as (t1 & E1 & E). apply copy_into_length in E1.
  apply bind_ok in E; destruct E as (t2 & E2 & E).
  assert (L2 : length t2 = length t1).
  { unfold fill_into in E2. apply bind_ok in E2; destruct E2 as (s & _ & E2). apply bind_ok in E2; destruct E2 as (s' & _ & E2).
    eapply splice_length; eauto. }
  apply bind_ok in E; destruct E as ([pl2 o2] & E3 & E). inversion E; subst. clear E.
  pose proof (rfft_forward_length _ _ _ _ _ E3). split; [eapply rfft_forward_inv; eauto|]. split; congruence.
Qed.

Lemma rfft_backward_length : forall p x out p' out', rfft_backward p x out = Ok (p', out') -> length out' = length out.
Proof.
  intros p x out p' out' E. unfold rfft_backward in E.
  do 3 (apply bind_ok in E; destruct E as (? & _ & E)). apply bind_ok in E. destruct E as (o & E1 & E). inversion E; subst. clear E.
  revert E1. apply (for_range_keeps _ (fun l => length l = length out)); auto.
  intros j t t' Ht Et. apply bind_ok in Et. destruct Et as (? & _ & Et). apply wr_inv in Et. destruct Et as [_ ->]. rewrite upd_length. exact Ht.
Qed.

Lemma fc_keeps : forall s p c x h out c' out', 2 <= s + p - 1 -> fc_inv s p c -> fft_convolver_run c x h out = Ok (c', out') -> fc_inv s p c'.
Proof.
  intros s p c x h out c' out' Hs I E. unfold fft_convolver_run in E.
  pose proof (log2_up_pos' _ Hs) as Ho.
  apply bind_ok in E; destruct E as ([[pl1 t1] s1] & E1 & E). apply (fc_forward_keeps _ _ _ _ _ _ _ _ Ho (fci_plan _ _ _ I)) in E1.
  destruct E1 as (I1 & L1 & M1).
  apply bind_ok in E; destruct E as ([[pl2 t2] s2] & E2 & E). apply (fc_forward_keeps _ _ _ _ _ _ _ _ Ho I1) in E2.
  destruct E2 as (I2 & L2 & M2).
  apply bind_ok in E; destruct E as (s3 & E3 & E). apply binary_length in E3.
  apply bind_ok in E; destruct E as ([pl4 t4] & E4 & E). pose proof (rfft_backward_length _ _ _ _ _ E4) as L4.
  apply (rfft_backward_inv _ _ _ _ _ _ Ho I2) in E4.
  rewrite scale_map in E. cbn [bind] in E.
  apply bind_ok in E; destruct E as (r & _ & E). apply bind_ok in E; destruct E as (o & _ & E). inversion E; subst. clear E.
  split; cbn; [apply I|apply I|auto| | |]; rewrite ?map_length.
  - rewrite L4, L2, L1. apply (fci_tmp _ _ _ I).
  - rewrite E3, M1. apply (fci_ss _ _ _ I).
  - rewrite M2. apply (fci_ps _ _ _ I).
Qed.

Lemma fc_reach_inv : forall s p c, 2 <= s + p - 1 -> s + p - 1 <= 2 ^ max_order -> fft_convolver_reach s p c -> fc_inv s p c.
Proof.
  intros s p c Hs Hm H. induction H.
  - destruct (make_fft_convolver_ok s p Hs Hm) as (c0 & E & I). rewrite H in E. inversion E. subst. exact I.
  - eapply fc_keeps; eauto.
Qed.

Lemma fft_convolve_1x1 : forall a b, fft_convolve [a] [b] = UB.
Proof. reflexivity. Qed.

(** ** Partitions restore the impulse response *)

Lemma partition_spectra_pow2 : forall k h, partition_spectra (2 ^ k) h =
  tab (ceil_div (length h) (2 ^ k)) (fun p => RDFT_list Forward (pad (2 * 2 ^ k) (part (2 ^ k) h p))).
Proof.
  intros k h. unfold partition_spectra. rewrite Nat.log2_up_pow2 by lia. apply tab_ext. intros p Hp. do 2 f_equal.
  unfold part. apply tab_ext. intros i Hi. apply stretched_pow2.
Qed.

Lemma partition_inverse : forall k h p n, n < 2 * 2 ^ k ->
  (IRDFT (2 ^ k) (fun j => nth j (RDFT_list Forward (pad (2 * 2 ^ k) (part (2 ^ k) h p))) C0) n / INR (2 * 2 ^ k))%R =
  if n <? 2 ^ k then nth (p * 2 ^ k + n) h 0%R else 0%R.
Proof.
  intros k h p n Hn. assert (0 < 2 ^ k) by (apply Nat.neq_0_lt_0, Nat.pow_nonzero; lia).
  rewrite (IRDFT_ext _ _ (DFT Forward (2 * 2 ^ k) (fun j => RtoC (nth j (pad (2 * 2 ^ k) (part (2 ^ k) h p)) 0%R)))); auto.
  - rewrite irdft_rdft by auto. rewrite nth_pad by auto. unfold part.
    destruct (Nat.ltb_spec n (2 ^ k)).
    + rewrite nth_tab by auto. field. apply INR_nz. lia.
    + rewrite nth_overflow by (rewrite tab_length; auto). field. apply INR_nz. lia.
  - intros j Hj. rewrite nth_RDFT; rewrite pad_length; auto. rewrite half_of_double. lia.
Qed.

Lemma Rsum_pick : forall n i (f : nat -> R), i < n -> (forall j, j < n -> j <> i -> f j = 0%R) -> Rsum n f = f i.
Proof.
  intros n i f Hi H. unfold Rsum. induction n; [lia|]. cbn [bsum]. destruct (Nat.eq_dec i n) as [->|Hne].
  - rewrite (bsum_0 R 0%R 1%R Rplus Rmult Rminus Ropp RTheory) by (intros; apply H; lia). ring.
  - rewrite IHn by (auto; try lia; intros; apply H; lia). rewrite (H n) by lia. ring.
Qed.

Lemma partition_restores : forall k h i, i < length h ->
  Rsum (ceil_div (length h) (2 ^ k)) (fun p =>
    if (p * 2 ^ k <=? i) && (i <? p * 2 ^ k + 2 * 2 ^ k) then
      (IRDFT (2 ^ k) (fun j => nth j (nth p (partition_spectra (2 ^ k) h) []) C0) (i - p * 2 ^ k) / INR (2 * 2 ^ k))%R
    else 0%R) = nth i h 0%R.
Proof.
  intros k h i Hi. set (B := 2 ^ k). assert (HB : 0 < B) by (apply Nat.neq_0_lt_0, Nat.pow_nonzero; lia).
  destruct (ceil_div_covers (length h) B i HB Hi) as [Hp Hb].
  assert (E : forall p, p < ceil_div (length h) B ->
    (if (p * B <=? i) && (i <? p * B + 2 * B) then
      (IRDFT B (fun j => nth j (nth p (partition_spectra B h) []) C0) (i - p * B) / INR (2 * B))%R else 0%R) =
    if p =? i / B then nth i h 0%R else 0%R).
  { intros p Hpp. unfold B at 5. rewrite partition_spectra_pow2. fold B. rewrite (nth_tab _ (ceil_div _ _)) by auto.
    destruct (Nat.leb_spec (p * B) i), (Nat.ltb_spec i (p * B + 2 * B)); cbn [andb];
      try (destruct (Nat.eqb_spec p (i / B)); auto; subst; lia).
    unfold B. rewrite partition_inverse by (fold B; lia). fold B.
    destruct (Nat.ltb_spec (i - p * B) B), (Nat.eqb_spec p (i / B)); auto.
    - f_equal. lia.
    - exfalso. apply n. apply (Nat.div_unique i B p (i - p * B)); lia.
    - subst. lia. }
  rewrite (Rsum_ext _ _ _ E). rewrite (Rsum_pick _ (i / B)); auto.
  - rewrite Nat.eqb_refl. reflexivity.
  - intros j Hj Hne. apply Nat.eqb_neq in Hne. rewrite Hne. reflexivity.
Qed.

(** ** The Hann window over a longer transform *)

Lemma hann_cut : forall F K, 2 <= F -> F < K -> hann_window (F - 1) F = 0%R /\ (0 < hann_window (F - 1) K)%R.
Proof.
  intros F K HF HK. assert (P1 : (0 < INR (F - 1))%R) by (apply lt_0_INR; lia). assert (P2 : (0 < INR (K - 1))%R) by (apply lt_0_INR; lia).
  split.
  - unfold hann_window. replace (2 * PI * INR (F - 1) / INR (F - 1))%R with (2 * PI)%R by (field; lra). rewrite cos_2PI. lra.
  - unfold hann_window. set (a := (PI * INR (F - 1) / INR (K - 1))%R).
    replace (2 * PI * INR (F - 1) / INR (K - 1))%R with (2 * a)%R by (unfold a; field; lra).
    rewrite cos_2a_sin. assert (0 < sin a)%R; [|nra]. apply sin_gt_0.
    + unfold a. pose proof PI_RGT_0. apply Rdiv_lt_0_compat; auto. apply Rmult_lt_0_compat; auto.
    + unfold a. apply (Rmult_lt_reg_r (INR (K - 1))); auto. replace (PI * INR (F - 1) / INR (K - 1) * INR (K - 1))%R with (PI * INR (F - 1))%R by (field; lra).
      apply Rmult_lt_compat_l; [apply PI_RGT_0|]. apply lt_INR. lia.
Qed.

(** ** Block size 1 *)

Lemma save_size_1 : forall St cb (st : St) v o, make_overlap_save 1 1 = Ok o -> overlap_save_run o [v] cb st = UB.
Proof. intros St cb st v o E. inversion E; subst. reflexivity. Qed.

Lemma add_size_1 : forall St cb (st : St) v o, make_overlap_add 1 1 = Ok o -> overlap_add_run o [v] cb st = UB.
Proof. intros St cb st v o E. inversion E; subst. reflexivity. Qed.

Lemma partitioned_1 : forall h v rest, 0 < length h -> (Z.of_nat (length h) * 2 < max_elements)%Z ->
  partitioned Upols 1 h ([v] :: rest) = UB /\ partitioned Upola 1 h ([v] :: rest) = UB.
Proof.
  intros h v rest Hh Hmax. unfold partitioned.
  assert (CD : ceil_div (length h) 1 = length h) by (unfold ceil_div; rewrite Nat.div_1_r; lia).
  assert (HM : 2 <= 2 ^ max_order) by (change 2 with (2 ^ 1) at 1; apply Nat.pow_le_mono_r; unfold max_order; lia).
  rewrite (partition_one 1) by (first [lia | exact HM | unfold max_elements in Hmax; lia | rewrite CD; exact Hmax]).
  cbn [bind rd nth_error].
  pose proof (partition_matrix 1 h ltac:(lia)) as Hm. rewrite CD in Hm. change (2 ^ Nat.log2_up 1 + 1) with 2 in Hm.
  rewrite (rd_ok _ _ 0 []) by (destruct Hm as [-> _]; exact Hh). cbn [bind].
  rewrite (matrix_row _ _ _ _ 0 Hm Hh). pose proof (proj1 Hm) as Lm. rewrite Lm.
  destruct make_upc_ok as [[os Es] [oa Ea]]. unfold convolver, make_upc. cbn [ov_make ols ola]. rewrite Es, Ea. cbn [bind].
  unfold filter_and_run, upc_filter. cbn [guard Nat.ltb Nat.leb bind Nat.sub ov_make ols ola]. rewrite Es, Ea. cbn [bind].
  rewrite !dense_filter_ok by auto. cbn [bind upc_stream upc_run].
  unfold upc_run. cbn [ov_run ols ola u_overlap]. rewrite (save_size_1 _ _ _ _ _ Es), (add_size_1 _ _ _ _ _ Ea). split; reflexivity.
Qed.
