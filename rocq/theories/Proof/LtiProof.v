(** overlap_save and overlap_add with a fixed transfer function; sums behind the partitioned
    convolver. *)
From Coq Require Import Reals List Arith Lia Lra Bool ZArith.
From Verif Require Import Base.Outcome Base.OutcomeFacts Base.Sums Base.Cplx Base.Alias Spec.Dft Spec.Transforms
  Spec.Convolution Model.Fft2 Model.Integers Model.Algorithm Model.FftApps Model.Convolution
  Proof.DftTheory Proof.Fft2Proof Proof.IntegersProof Proof.AlgorithmProof Proof.RfftProof Proof.ConvTheory
  Proof.FftConvProof Proof.OverlapProof Proof.StreamProof.
Import ListNotations.
Local Arguments Nat.div : simpl never.
Local Arguments Nat.modulo : simpl never.
Local Arguments Nat.pow : simpl never.

(** Spectrum product back in time, as a circular convolution. *)
Lemma synth_mul : forall m (a b : list R) j, 0 < m -> length a = 2 * m -> length b = 2 * m -> j < 2 * m ->
  synth (2 * m) (tab (m + 1) (fun k => nth k (RDFT_list Forward b) C0 * nth k (RDFT_list Forward a) C0)%C) j
  = rcconv (2 * m) (fun i => nth i a 0%R) (fun i => nth i b 0%R) j.
Proof.
  intros m a b j Hm Ha Hb Hj. unfold synth. rewrite half_of_double.
  rewrite (IRDFT_ext m _ (fun k => nth k (RDFT_list Forward a) C0 * nth k (RDFT_list Forward b) C0)%C)
    by (try lia; intros k Hk; rewrite nth_tab by lia; ring).
  rewrite irdft_rdft_mul by auto. field. apply INR_nz. lia.
Qed.

Lemma nth_pad0 : forall n x j, length x <= n -> nth j (pad n x) 0%R = nth j x 0%R.
Proof.
  intros n x j H. destruct (le_lt_dec n j).
  - unfold pad. rewrite nth_tab_ge by auto. rewrite nth_overflow by lia. reflexivity.
  - apply nth_pad. auto.
Qed.

(** Overlap-save: the last B samples of block t. *)
Lemma save_sum : forall B K (all : list (list R)) (h : list R) t i, length h + B <= K + 1 -> B <= K -> i < B ->
  rcconv K (fun j => nth j (pad K h) 0%R) (fun j => nth j (tab K (fun j => delayed (concat all) (S t * B + j) K)) 0%R) (K - B + i)
  = Rsum (length h) (fun j => nth j h 0 * delayed (concat all) (t * B + i) j)%R.
Proof.
  intros B K all h t i HK HBK Hi.
  rewrite (rcconv_tail K (length h)) by (try lia; intros j Hj; rewrite nth_pad0 by lia; apply nth_overflow; lia).
  apply Rsum_ext. intros j Hj. rewrite nth_pad by lia. rewrite nth_tab by lia. f_equal. apply delayed_eq. lia.
Qed.

(** Overlap-add: first half of block t's result plus second half of block t-1's. *)
Lemma add_sum : forall B (all : list (list R)) (h : nat -> R) t i, i < B -> (forall j, B + 1 <= j -> h j = 0%R) ->
  (Rsum (S i) (fun j => h j * oa_blk B all t (i - j)) +
   (if t =? 0 then 0 else Rsum (S (B + i)) (fun j => h j * oa_blk B all (t - 1) (B + i - j))))%R
  = Rsum (B + 1) (fun j => h j * delayed (concat all) (t * B + i) j)%R.
Proof.
  intros B all h t i Hi Hh.
  set (f1 := fun j => (if j <=? i then h j * oa_blk B all t (i - j) else 0)%R).
  set (f2 := fun j => (if t =? 0 then 0 else if j <=? B + i then h j * oa_blk B all (t - 1) (B + i - j) else 0)%R).
  assert (E1 : Rsum (S i) (fun j => h j * oa_blk B all t (i - j))%R = Rsum (B + 1) f1).
  { rewrite (Rsum_le_zero (S i) (B + 1) f1); [| lia | intros j Hj; unfold f1; destruct (Nat.leb_spec j i); [lia|reflexivity] ].
    apply Rsum_ext. intros j Hj. unfold f1. destruct (Nat.leb_spec j i); [reflexivity|lia]. }
  assert (E2 : (if t =? 0 then 0 else Rsum (S (B + i)) (fun j => h j * oa_blk B all (t - 1) (B + i - j)))%R = Rsum (B + 1) f2).
  { unfold f2. destruct (t =? 0). { symmetry. apply Rsum_0. auto. }
    etransitivity. { apply (Rsum_le_zero (B + 1)); [lia|]. intros j Hj. rewrite Hh by lia. ring. }
    apply Rsum_ext. intros j Hj. destruct (Nat.leb_spec j (B + i)); [reflexivity|lia]. }
  rewrite E1, E2, <- Rsum_add. apply Rsum_ext. intros j Hj. unfold f1, f2, oa_blk, delayed.
  destruct (Nat.leb_spec j i).
  - destruct (Nat.leb_spec j (t * B + i)); [|lia]. destruct (Nat.ltb_spec (i - j) B); [|lia].
    destruct (Nat.leb_spec j (B + i)); [|lia]. destruct (Nat.ltb_spec (B + i - j) B); [lia|].
    replace (t * B + i - j) with (t * B + (i - j)) by lia. destruct (t =? 0); ring.
  - destruct (Nat.eqb_spec t 0) as [->|Ht].
    + destruct (Nat.leb_spec j (0 * B + i)); [lia|]. ring.
    + destruct t; [lia|]. replace (S t - 1) with t by lia. destruct (Nat.leb_spec j (B + i)); [|lia].
      destruct (Nat.ltb_spec (B + i - j) B); [|lia]. destruct (Nat.leb_spec j (S t * B + i)); [|lia].
      replace (S t * B + i - j) with (t * B + (B + i - j)) by lia. ring.
Qed.

(** ** Fixed transfer function *)

Definition last_times (M : nat) (H : list C) (hist : list (list C)) : list C :=
  tab M (fun k => nth k (last hist []) C0 * nth k H C0)%C.

Lemma transfer_spec : forall M H, length H = M ->
  cb_spec M (fun _ (_ : unit) => True) (last_times M H) (transfer_callback H).
Proof.
  intros M H HM hist X st _ HX. exists st. unfold transfer_callback, multiply_c.
  rewrite linalg_binary_ok by (cbn [contents]; lia). cbn [bind contents].
  rewrite (zip_with_tab _ _ _ _ _ _ C0 C0) by lia. unfold last_times. rewrite last_last, HX, tab_length. auto.
Qed.

Lemma last_tab : forall A n (f : nat -> A) d, last (tab (S n) f) d = f n.
Proof. intros. rewrite tab_snoc. apply last_last. Qed.

Theorem save_stream : forall k F h all,
  let B := 2 ^ k in let K := 2 ^ Nat.log2_up (B + F - 1) in
  2 <= B + F - 1 -> B + F - 1 <= 2 ^ max_order -> 0 < F -> length h <= F -> blocks_of B all ->
  exists o o' outs, make_overlap_save B F = Ok o /\
    ov_stream ols (transfer_callback (RDFT_list Forward (pad K h))) o tt all = Ok (o', outs, tt) /\
    concat outs = tab (length (concat all)) (lconv (concat all) h) /\ blocks_of B outs.
Proof.
  intros k F h all B K H2 Hmax HF Hh Hall.
  destruct (make_overlap_save_ok B F H2 Hmax) as (o & Eo & Io).
  assert (HB : 0 < B) by (apply Nat.neq_0_lt_0; apply Nat.pow_nonzero; lia).
  assert (Hfit : B + F - 1 <= K) by (apply log2_up_fits; lia).
  assert (Hpos : 0 < Nat.log2_up (B + F - 1)) by (apply log2_up_pos'; lia).
  assert (Hk : k <= Nat.log2_up (B + F - 1)).
  { rewrite <- (Nat.log2_up_pow2 k) by lia. apply Nat.log2_up_le_mono. fold B. lia. }
  assert (HKq : K = 2 ^ (Nat.log2_up (B + F - 1) - k) * B).
  { unfold K, B. rewrite <- Nat.pow_add_r. f_equal. fold B. lia. }
  destruct (pow2_half _ Hpos) as (m & Hm & HKm & _). fold K in HKm.
  assert (LH : length (RDFT_list Forward (pad K h)) = K / 2 + 1) by now rewrite RDFT_list_length, pad_length.
  destruct (os_stream_all unit B F HB H2 _ HKq ltac:(apply Nat.neq_0_lt_0; apply Nat.pow_nonzero; lia) all Hall
    (transfer_callback (RDFT_list Forward (pad K h))) (fun _ _ => True) (last_times (K / 2 + 1) (RDFT_list Forward (pad K h)))
    (transfer_spec _ _ LH) o tt Io I) as (o' & [] & E).
  exists o, o', (tab (length all) (fun t => tab B (fun i =>
     (fun t i => lconv (concat all) h (t * B + i)) t i))). repeat split; auto.
  - rewrite E. f_equal. f_equal. f_equal. apply tab_ext. intros t Ht. apply tab_ext. intros i Hi.
    fold K. unfold last_times, os_hist. rewrite last_tab. rewrite HKm, half_of_double.
    rewrite synth_mul by (try lia; try (rewrite pad_length; lia); unfold os_win; rewrite tab_length; fold K; lia).
    rewrite <- HKm. unfold os_win. fold K. rewrite save_sum by lia. rewrite (lconv_delayed _ _ _ (length h)) by lia. reflexivity.
  - rewrite (concat_tab_blocks B (length all) (fun t i => lconv (concat all) h (t * B + i))).
    rewrite (concat_blocks_length B) by auto. apply tab_ext. intros j Hj.
    rewrite (Nat.mul_comm (j / B)), <- Nat.div_mod by lia. reflexivity.
  - intros y Hy. unfold tab in Hy at 1. apply in_map_iff in Hy. destruct Hy as (t & <- & _). apply tab_length.
Qed.

Lemma oa_blk_win : forall B F all t j, nth j (oa_win B F all t) 0%R =
  if j <? 2 ^ Nat.log2_up (B + F - 1) then oa_blk B all t j else 0%R.
Proof.
  intros. unfold oa_win. destruct (Nat.ltb_spec j (2 ^ Nat.log2_up (B + F - 1))).
  - now rewrite nth_tab.
  - now rewrite nth_tab_ge.
Qed.

(** Result of one block before it is added to the neighbours. *)
Lemma add_block_conv : forall B F all h t j, 2 <= B + F - 1 -> B + F - 1 <= 2 ^ Nat.log2_up (B + F - 1) -> length h <= F ->
  0 < B -> 0 < F -> j < 2 ^ Nat.log2_up (B + F - 1) ->
  rcconv (2 ^ Nat.log2_up (B + F - 1)) (fun i => nth i (pad (2 ^ Nat.log2_up (B + F - 1)) h) 0%R)
    (fun i => nth i (oa_win B F all t) 0%R) j
  = Rsum (S j) (fun i => nth i h 0 * oa_blk B all t (j - i))%R.
Proof.
  intros B F all h t j H2 Hfit Hh HB HF Hj. set (K := 2 ^ Nat.log2_up (B + F - 1)) in *.
  rewrite (rcconv_linear K F B); try lia.
  - apply Rsum_ext. intros i Hi. rewrite nth_pad0 by lia. rewrite oa_blk_win. fold K.
    destruct (Nat.ltb_spec (j - i) K); [reflexivity|lia].
  - intros i Hi. rewrite nth_pad0 by lia. apply nth_overflow. lia.
  - intros i Hi. rewrite oa_blk_win. fold K. unfold oa_blk. destruct (Nat.ltb_spec i B); [lia|]. destruct (_ <? _); reflexivity.
Qed.

Theorem add_stream : forall B F h all,
  let K := 2 ^ Nat.log2_up (B + F - 1) in
  0 < B -> 0 < F -> F <= B + 1 -> B * 2 <= K -> B + F - 1 <= 2 ^ max_order -> length h <= F -> blocks_of B all ->
  exists o o' outs, make_overlap_add B F = Ok o /\
    ov_stream ola (transfer_callback (RDFT_list Forward (pad K h))) o tt all = Ok (o', outs, tt) /\
    concat outs = tab (length (concat all)) (lconv (concat all) h) /\ blocks_of B outs.
Proof.
  intros B F h all K HB HF HFB HBK Hmax Hh Hall.
  assert (H2 : 2 <= B + F - 1).
  { destruct (le_lt_dec 2 (B + F - 1)); auto. exfalso. assert (B = 1 /\ F = 1) as [-> ->] by lia. cbv in K. subst K. lia. }
  destruct (make_overlap_add_ok B F H2 Hmax) as (o & Eo & Io).
  assert (Hfit : B + F - 1 <= K) by (apply log2_up_fits; lia).
  assert (Hpos : 0 < Nat.log2_up (B + F - 1)) by (apply log2_up_pos'; lia).
  destruct (pow2_half _ Hpos) as (m & Hm & HKm & _). fold K in HKm.
  assert (LH : length (RDFT_list Forward (pad K h)) = K / 2 + 1) by now rewrite RDFT_list_length, pad_length.
  assert (HS : forall t j, j < K -> synth K (last_times (K / 2 + 1) (RDFT_list Forward (pad K h)) (oa_hist B F all (S t))) j =
     Rsum (S j) (fun i => nth i h 0 * oa_blk B all t (j - i))%R).
  { intros t j Hj. unfold last_times, oa_hist. rewrite last_tab. rewrite HKm, half_of_double.
    rewrite synth_mul by (try lia; try (rewrite pad_length; lia); unfold oa_win; rewrite tab_length; fold K; lia).
    rewrite <- HKm. apply add_block_conv; auto. }
  destruct (oa_stream_all unit B F H2 HBK all Hall
    (transfer_callback (RDFT_list Forward (pad K h))) (fun _ _ => True) (last_times (K / 2 + 1) (RDFT_list Forward (pad K h)))
    (transfer_spec _ _ LH)) with (o := o) (st := tt) as (o' & [] & E); auto.
  { intros t j Ht Hj. fold K. rewrite HS by (fold K in Hj; lia). apply Rsum_0. intros i Hi.
    destruct (le_lt_dec F i). { rewrite nth_overflow by lia. ring. }
    unfold oa_blk. destruct (Nat.ltb_spec (j - i) B); [lia|ring]. }
  fold K in E.
  exists o, o', (tab (length all) (fun t => tab B (fun i =>
     (fun t i => lconv (concat all) h (t * B + i)) t i))). repeat split; auto.
  - rewrite E. f_equal. f_equal. f_equal. apply tab_ext. intros t Ht. apply tab_ext. intros i Hi.
    rewrite HS by lia. rewrite (lconv_delayed _ _ _ (B + 1)) by lia.
    rewrite <- add_sum by (auto; intros; apply nth_overflow; lia). f_equal.
    destruct t; [reflexivity|]. cbn [Nat.eqb]. rewrite HS by lia. replace (S t - 1) with t by lia. reflexivity.
  - rewrite (concat_tab_blocks B (length all) (fun t i => lconv (concat all) h (t * B + i))).
    rewrite (concat_blocks_length B) by auto. apply tab_ext. intros j Hj.
    rewrite (Nat.mul_comm (j / B)), <- Nat.div_mod by lia. reflexivity.
  - intros y Hy. unfold tab in Hy at 1. apply in_map_iff in Hy. destruct Hy as (t & <- & _). apply tab_length.
Qed.
