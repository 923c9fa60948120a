(** FFT convolution. *)
From Coq Require Import Reals List Arith Lia Lra Bool ZArith.
From Verif Require Import Base.Outcome Base.OutcomeFacts Base.Sums Base.Cplx Base.Alias Spec.Dft Spec.Transforms
  Spec.Convolution Model.Fft2 Model.Integers Model.Algorithm Model.FftApps Model.Convolution
  Proof.DftTheory Proof.Fft2Proof Proof.IntegersProof Proof.AlgorithmProof Proof.RfftProof Proof.ConvTheory.
Import ListNotations.
Local Arguments Nat.div : simpl never.
Local Arguments Nat.modulo : simpl never.
Local Arguments Nat.pow : simpl never.

Record fc_inv (s p : nat) (c : fft_convolver) : Prop := FcInv {
  fci_s : fc_signal c = s; fci_p : fc_patch c = p;
  fci_plan : rf_inv (Nat.log2_up (s + p - 1)) (fc_plan c);
  fci_tmp : length (fc_tmp c) = 2 ^ Nat.log2_up (s + p - 1);
  fci_ss : length (fc_sspec c) = 2 ^ Nat.log2_up (s + p - 1) / 2 + 1;
  fci_ps : length (fc_pspec c) = 2 ^ Nat.log2_up (s + p - 1) / 2 + 1 }.

Lemma log2_up_fits : forall n, 0 < n -> n <= 2 ^ Nat.log2_up n.
Proof.
  intros n Hn. destruct (Nat.eq_dec n 1) as [->|]. { cbv. lia. } apply Nat.log2_up_spec. lia.
Qed.

Lemma log2_up_pos' : forall n, 2 <= n -> 0 < Nat.log2_up n.
Proof. intros n H. apply Nat.log2_up_pos. lia. Qed.

Lemma log2_up_max : forall n k, n <= 2 ^ k -> Nat.log2_up n <= k.
Proof. intros n k H. rewrite <- (Nat.log2_up_pow2 k) by lia. apply Nat.log2_up_le_mono. exact H. Qed.

Lemma make_rfft_ok : forall order, 0 < order <= max_order -> exists p, make_rfft_plan order = Ok p /\ rf_inv order p.
Proof.
  intros order H. unfold make_rfft_plan. pose proof (make_dit2_plan_ok order H) as E. rewrite E. cbn [bind].
  eexists; split; [reflexivity|]. apply make_rfft_inv. unfold make_rfft_plan. rewrite E. reflexivity.
Qed.

Lemma Z_fits : forall n, n <= 2 ^ max_order -> (Z.of_nat n <= 2 ^ 63)%Z.
Proof.
  intros n H. apply (Z.le_trans _ (Z.of_nat (2 ^ max_order))). { now apply Nat2Z.inj_le. }
  rewrite Nat2Z.inj_pow. change (Z.of_nat 2) with 2%Z. apply Z.pow_le_mono_r; [lia|]. unfold max_order. lia.
Qed.

Lemma make_fft_convolver_ok : forall s p, 2 <= s + p - 1 -> s + p - 1 <= 2 ^ max_order ->
  exists c, make_fft_convolver s p = Ok c /\ fc_inv s p c.
Proof.
  intros s p H1 H2. unfold make_fft_convolver.
  replace (0 <? s + p) with true by (symmetry; apply Nat.ltb_lt; lia). cbn [guard bind].
  rewrite next_order_ok by (apply Z_fits; exact H2). cbn [bind].
  destruct (make_rfft_ok (Nat.log2_up (s + p - 1))) as (pl & E & I).
  { split. apply log2_up_pos'; lia. apply log2_up_max. exact H2. }
  rewrite E. cbn [bind]. eexists; split; [reflexivity|].
  constructor; cbn; rewrite ?repeat_length; auto.
Qed.

Lemma fc_forward_ok : forall order pl tmp inp out, 0 < order -> rf_inv order pl -> length tmp = 2 ^ order ->
  length inp <= 2 ^ order -> length out = 2 ^ order / 2 + 1 ->
  exists pl', fc_forward pl tmp inp out = Ok (pl', pad (2 ^ order) inp, RDFT_list Forward (pad (2 ^ order) inp)) /\
    rf_inv order pl'.
Proof.
  intros order pl tmp inp out Ho I Ht Hi Hl. unfold fc_forward.
  rewrite (copy_into_ok _ 0%R) by lia. cbn [bind].
  rewrite (fill_into_ok _ 0%R) by (rewrite ?tab_length; lia). cbn [bind]. rewrite !tab_length.
  match goal with |- context [rfft_forward pl ?t out] => replace t with (pad (2 ^ order) inp) end.
  2:{ unfold pad. rewrite Ht. apply tab_ext. intros i Hi'. rewrite nth_tab by lia.
      destruct (Nat.leb_spec (length inp) i), (Nat.ltb_spec i (2 ^ order)); cbn [andb]; try lia.
      - rewrite nth_overflow; auto.
      - cbn [Nat.leb andb]. rewrite Nat.sub_0_r. cbn [Nat.add].
        destruct (Nat.ltb_spec i (length inp)); [reflexivity|lia]. }
  destruct (rfft_forward_ok order pl (pad (2 ^ order) inp) out Ho I) as (pl' & E & I').
  { apply pad_length. } { lia. }
  rewrite skipn_all2 in E by lia. rewrite app_nil_r in E.
  rewrite E. cbn [bind]. eexists; split; [reflexivity|exact I'].
Qed.

Lemma fft_convolver_run_ok : forall s p c x h out, 0 < s -> 0 < p -> 2 <= s + p - 1 -> fc_inv s p c ->
  length x = s -> length h = p -> length out = s + p - 1 ->
  exists c', fft_convolver_run c x h out = Ok (c', tab (s + p - 1) (lconv x h)) /\ fc_inv s p c'.
Proof.
  intros s p c x h out Hs Hp H2 [Is Ip Ipl It Iss Ips] Hx Hh Hout.
  set (order := Nat.log2_up (s + p - 1)) in *.
  assert (Hpos : 0 < order) by (apply log2_up_pos'; lia).
  assert (HK : s + p - 1 <= 2 ^ order) by (apply log2_up_fits; lia).
  unfold fft_convolver_run.
  destruct (fc_forward_ok order (fc_plan c) (fc_tmp c) x (fc_sspec c)) as (p1 & E1 & I1); try lia; auto.
  rewrite E1. cbn [bind].
  destruct (fc_forward_ok order p1 (pad (2 ^ order) x) h (fc_pspec c)) as (p2 & E2 & I2); try lia; auto.
  { apply pad_length. }
  rewrite E2. cbn [bind]. unfold multiply_c.
  rewrite linalg_binary_ok by (cbn [contents]; rewrite !RDFT_list_length, !pad_length; reflexivity).
  cbn [bind contents].
  destruct (pow2_half order Hpos) as (m & Hm & HKm & Em).
  rewrite (zip_with_tab _ _ _ _ _ _ C0 C0) by (rewrite !RDFT_list_length, !pad_length; reflexivity).
  rewrite RDFT_list_length, pad_length.
  match goal with |- context [rfft_backward p2 ?X ?o] =>
    destruct (rfft_backward_ok order p2 X o Hpos I2) as (p3 & E3 & I3) end.
  { rewrite tab_length. rewrite HKm, half_of_double. lia. } { apply pad_length. }
  rewrite E3. cbn [bind]. rewrite scale_map. cbn [bind]. rewrite map_tab.
  rewrite (slice_spec _ 0%R) by (rewrite ?tab_length; lia). cbn [bind].
  rewrite copy_full by (rewrite tab_length, Is, Ip, Hout; lia). cbn [bind]. rewrite map_id.
  eexists; split.
  - f_equal. f_equal. rewrite Nat.sub_0_r, Is, Ip. apply tab_ext. intros i Hi. cbn [Nat.add].
    rewrite nth_tab by lia.
    rewrite <- Em, HKm, half_of_double in *.
    rewrite (IRDFT_ext m _ (fun k => nth k (RDFT_list Forward (pad (2 * m) x)) C0 * nth k (RDFT_list Forward (pad (2 * m) h)) C0)%C)
      by (try lia; intros k Hk; rewrite nth_tab by lia; reflexivity).
    rewrite irdft_rdft_mul by (rewrite ?pad_length; lia).
    destruct I3 as (R1 & _ & _). rewrite R1, HKm.
    rewrite (rcconv_linear _ s p) by (try lia; intros j Hj; unfold pad;
      (destruct (le_lt_dec (2 * m) j); [rewrite nth_tab_ge by lia; reflexivity|rewrite nth_tab by lia; apply nth_overflow; lia])).
    unfold lconv. field_simplify.
    + apply Rsum_ext. intros j Hj. rewrite !nth_pad by lia. reflexivity.
    + apply INR_nz. lia.
  - constructor; cbn [fc_signal fc_patch fc_plan fc_tmp fc_sspec fc_pspec]; auto.
    + now rewrite tab_length.
    + now rewrite tab_length.
    + now rewrite RDFT_list_length, pad_length.
Qed.

Lemma fft_convolve_ok : forall x h, 0 < length x -> 0 < length h -> 2 <= length x + length h - 1 ->
  length x + length h - 1 <= 2 ^ max_order ->
  fft_convolve x h = Ok (tab (length x + length h - 1) (lconv x h)).
Proof.
  intros x h Hx Hh H2 Hm. unfold fft_convolve.
  destruct (Nat.eqb_spec (length x) 0); [lia|]. destruct (Nat.eqb_spec (length h) 0); [lia|]. cbn [orb].
  destruct (make_fft_convolver_ok (length x) (length h) H2 Hm) as (c & E & I). rewrite E. cbn [bind].
  destruct (fft_convolver_run_ok _ _ c x h (repeat 0%R (length x + length h - 1)) Hx Hh H2 I eq_refl eq_refl) as (c' & E' & _).
  { apply repeat_length. }
  rewrite E'. reflexivity.
Qed.

Lemma fft_convolve_empty : forall x h, length x = 0 \/ length h = 0 -> fft_convolve x h = Ok [].
Proof.
  intros x h [H|H]; unfold fft_convolve; rewrite H; cbn; auto. rewrite orb_true_r. reflexivity.
Qed.
