(** Property theorems C36-C46, C48: convolution, STFT, partitioned convolvers.
    Specifications in Spec/Convolution.v, Spec/Stft.v, Spec/FdlIndex.v, Spec/Convolvers.v. *)
From Coq Require Import Reals List Arith ZArith Lia Lra Bool.
From Verif Require Import Base.Outcome Base.OutcomeFacts Base.Sums Base.Alias Base.Cplx Spec.Dft Spec.Transforms
  Spec.Convolution Spec.Stft Spec.FdlIndex Spec.Convolvers.
From Verif Require Import Model.Fft2 Model.Integers Model.FftApps Model.Convolution Model.Stft.
From Verif Require Import Proof.DftTheory Proof.AlgorithmProof Proof.RfftProof Proof.DirectConvProof Proof.FftConvProof Proof.OverlapProof
  Proof.StreamProof Proof.LtiProof Proof.StftProof Proof.UpcProof Proof.UpcInstances Proof.UpcFinal Proof.FdlIndexProof Proof.ConvCorollaries.
Import ListNotations.
Local Arguments Nat.div : simpl never.
Local Arguments Nat.pow : simpl never.
Local Open Scope nat_scope.

Lemma pow_le_max : forall n k, n <= 2 ^ k -> k <= 27 -> n <= 2 ^ max_order.
Proof. intros n k H Hk. etransitivity; [exact H|]. apply Nat.pow_le_mono_r; unfold max_order; lia. Qed.

Ltac fits k := apply (pow_le_max _ k); [apply Nat.leb_le; reflexivity | lia].

(** C36.  Real and complex elements; one operand may be empty. *)
Theorem C36_direct_convolve : forall x h, 0 < length x + length h ->
  direct_convolve R 0%R Rplus Rmult x h = Ok (tab (length x + length h - 1) (lconv x h)).
Proof. exact direct_real. Qed.

Theorem C36_direct_convolve_complex : forall x h, 0 < length x + length h ->
  direct_convolve C C0 Cadd Cmul x h = Ok (tab (length x + length h - 1) (clconv x h)).
Proof. exact direct_complex. Qed.

(** Into an array of the right size, whatever it contained. *)
Theorem C36_into : forall x h out, 0 < length x + length h -> length out = length x + length h - 1 ->
  direct_convolve_into R 0%R Rplus Rmult x h out = Ok (tab (length x + length h - 1) (lconv x h)).
Proof.
  intros x h out H L. rewrite (direct_convolve_into_ok R 0%R 1%R Rplus Rmult Rminus Ropp RTheory) by auto. reflexivity.
Qed.

Theorem C36_commutative : forall x h, direct_convolve R 0%R Rplus Rmult x h = direct_convolve R 0%R Rplus Rmult h x.
Proof.
  intros x h. destruct (Nat.eq_dec (length x + length h) 0) as [E|E].
  - destruct x, h; cbn in E; try lia. reflexivity.
  - rewrite !direct_real by lia. rewrite (Nat.add_comm (length h)). f_equal. apply tab_ext. intros k Hk.
    apply (conv_sum_comm R 0%R 1%R Rplus Rmult Rminus Ropp RTheory).
Qed.

(** Linear in the first operand, hence by commutativity in the second. *)
Theorem C36_bilinear : forall c x y h, length y = length x -> 0 < length x + length h ->
  exists u v, direct_convolve R 0%R Rplus Rmult x h = Ok u /\ direct_convolve R 0%R Rplus Rmult y h = Ok v /\
    direct_convolve R 0%R Rplus Rmult (axpy c x y) h = Ok (axpy c u v) /\
    direct_convolve R 0%R Rplus Rmult h (axpy c x y) = Ok (axpy c u v).
Proof.
  intros c x y h L H. assert (La : length (axpy c x y) = length x) by apply tab_length.
  rewrite (C36_commutative h). rewrite !direct_real by lia. rewrite La, L. do 2 eexists.
  repeat (split; [reflexivity|]).
  assert (E : Ok (tab (length x + length h - 1) (lconv (axpy c x y) h)) =
    Ok (axpy c (tab (length x + length h - 1) (lconv x h)) (tab (length x + length h - 1) (lconv y h)))); [|auto].
  f_equal. unfold axpy at 2. rewrite tab_length. apply tab_ext. intros k Hk. rewrite !nth_tab by auto.
  unfold lconv. rewrite <- Rsum_mul_l, <- Rsum_add. apply Rsum_ext. intros m Hm. unfold axpy.
  destruct (Nat.lt_ge_cases m (length x)).
  - rewrite nth_tab by auto. ring.
  - rewrite !(nth_overflow _ _ (n := m)) by (rewrite ?tab_length; lia). ring.
Qed.

(** Both operands empty. *)
Theorem C36_both_empty : direct_convolve R 0%R Rplus Rmult [] [] = Throw /\
  forall out, direct_convolve_into R 0%R Rplus Rmult [] [] out = UB.
Proof. split; reflexivity. Qed.

Example C36_example : direct_convolve R 0%R Rplus Rmult [1; 2; 3]%R [4; 5]%R = Ok [4; 13; 22; 15]%R.
Proof. rewrite C36_direct_convolve by (cbn; lia). f_equal. cbn. unfold lconv, Rsum. cbn. repeat (f_equal; try ring). Qed.

(** C37. *)
Theorem C37_fft_convolve : forall x h, 0 < length x -> 0 < length h -> 2 <= length x + length h - 1 ->
  length x + length h - 1 <= 2 ^ max_order ->
  fft_convolve x h = direct_convolve R 0%R Rplus Rmult x h.
Proof. intros x h H1 H2 H3 H4. rewrite fft_convolve_ok, direct_real by (auto; lia). reflexivity. Qed.

Theorem C37_empty : forall x h, length x = 0 \/ length h = 0 -> fft_convolve x h = Ok [].
Proof. exact fft_convolve_empty. Qed.

(** A convolver object after any history of calls. *)
Theorem C37_reused : forall s p c x h out, 0 < s -> 0 < p -> 2 <= s + p - 1 -> s + p - 1 <= 2 ^ max_order ->
  fft_convolver_reach s p c -> length x = s -> length h = p -> length out = s + p - 1 ->
  exists c' y, fft_convolver_run c x h out = Ok (c', y) /\ direct_convolve R 0%R Rplus Rmult x h = Ok y.
Proof.
  intros s p c x h out Hs Hp Hn Hm Hc Hx Hh Ho.
  destruct (fft_convolver_run_ok s p c x h out Hs Hp Hn (fc_reach_inv s p c Hn Hm Hc) Hx Hh Ho) as (c' & E & _).
  exists c', (tab (s + p - 1) (lconv x h)). split; auto. subst. apply direct_real. lia.
Qed.

Theorem C37_single_samples_out_of_bounds : forall a b, fft_convolve [a] [b] = UB.
Proof. exact fft_convolve_1x1. Qed.

Example C37_example : exists y, fft_convolve [1; 2; 3]%R [4; 5]%R = Ok y /\ y = [4; 13; 22; 15]%R.
Proof.
  rewrite C37_fft_convolve; [|cbn; lia|cbn; lia|cbn; lia|fits 2]. rewrite C36_example. eauto.
Qed.

(** C38. *)
Theorem C38_num_frames : forall S F O, (1 <= S < 2 ^ 64 -> 0 <= O < F -> F < 2 ^ 64 ->
  num_sftf_frames S F O = Ok ((S - 1) / (F - O) + 1))%Z.
Proof. exact frames_ok. Qed.

(** Every frame starts inside the signal and every sample is in a frame. *)
Theorem C38_covers : forall S F O, 0 < S -> O < F -> (Z.of_nat S < 2 ^ 64)%Z -> (Z.of_nat F < 2 ^ 64)%Z ->
  exists n, num_sftf_frames (Z.of_nat S) (Z.of_nat F) (Z.of_nat O) = Ok (Z.of_nat n) /\ n = ceil_div S (F - O) /\
    (forall f, f < n -> f * (F - O) < S) /\
    (forall i, i < S -> exists f, f < n /\ f * (F - O) <= i < f * (F - O) + F).
Proof.
  intros S F O HS HO H1 H2. exists (ceil_div S (F - O)). split; [apply frames_nat; auto|]. split; [auto|]. split.
  - intros f Hf. apply ceil_div_inside; auto. lia.
  - intros i Hi. destruct (ceil_div_covers S (F - O) i ltac:(lia) Hi). exists (i / (F - O)). split; [auto|]. lia.
Qed.

Theorem C38_empty_signal : forall F O, (0 <= O < F -> F < 2 ^ 64 ->
  num_sftf_frames 0 F O = Ok (((2 ^ 64 - 1) / (F - O) + 1) mod 2 ^ 64))%Z.
Proof. exact frames_zero. Qed.

Theorem C38_no_hop_divides_by_zero : forall S F, (0 <= F < 2 ^ 64)%Z -> num_sftf_frames S F F = UB.
Proof. exact frames_no_hop. Qed.

Example C38_example : num_sftf_frames 10 4 1 = Ok 4%Z.
Proof. rewrite C38_num_frames; [reflexivity| | |]; lia. Qed.

(** C39. *)
Theorem C39_stft : forall o p x channels S, stft_reach o p ->
  let F := so_frame o in let hop := so_frame o - so_overlap o in
  let K := 2 ^ Nat.log2_up (so_transform o) in
  2 <= so_transform o <= 2 ^ max_order -> so_overlap o < F -> F <= K -> 0 < S -> (Z.of_nat S < 2 ^ 64)%Z ->
  matrix_of channels S x ->
  (Z.of_nat channels * Z.of_nat (ceil_div S hop) * Z.of_nat (K / 2 + 1) < max_elements)%Z ->
  exists p', stft_run p channels S x = Ok (p', tab channels (fun c => tab (ceil_div S hop) (fun f =>
    RDFT_list Forward (framed K F hop (fun i => so_window o i K) (nth c x []) f)))).
Proof.
  intros o p x channels S H F hop K HT HO HF HS H64 Hx Hmax.
  destruct (stft_run_ok o p x channels S HT HO HF HS H64 (stft_reach_inv o p HT H) Hx Hmax) as (p' & E & _).
  exists p'. exact E.
Qed.

Theorem C39_constructor : forall o, 2 <= so_transform o <= 2 ^ max_order -> exists p, make_stft_plan o = Ok p.
Proof. intros o H. destruct (make_stft_ok o H) as (p & E & _). eauto. Qed.

(** stft(x, window_size): frames of that size, half of it apart, under a Hann window. *)
Theorem C39_stft_default : forall N x channels S, let K := 2 ^ Nat.log2_up N in
  2 <= N <= 2 ^ max_order -> 0 < S -> (Z.of_nat S < 2 ^ 64)%Z -> matrix_of channels S x ->
  (Z.of_nat channels * Z.of_nat (ceil_div S (N - N / 2)) * Z.of_nat (K / 2 + 1) < max_elements)%Z ->
  stft_size channels S x N = Ok (tab channels (fun c => tab (ceil_div S (N - N / 2)) (fun f =>
    RDFT_list Forward (framed K N (N - N / 2) (fun i => (1 - cos (2 * PI * INR i / INR (K - 1))) / 2)%R (nth c x []) f)))).
Proof.
  intros N x channels S K HN HS H64 Hx Hmax. set (o := StftOptions N N (N / 2) hann_window).
  assert (HK : N <= K) by (apply Nat.log2_up_spec; lia).
  destruct (C39_constructor o HN) as [p E]. unfold stft_size, make_stft_plan_size. fold o. rewrite E. cbn [bind].
  destruct (C39_stft o p x channels S (stft_made _ p E)) as [p' E']; auto. { cbn [so_overlap so_frame o]. apply Nat.div_lt; lia. }
  rewrite E'. cbn [bind so_frame so_overlap so_transform so_window o]. f_equal. apply tab_ext. intros c _. apply tab_ext. intros f _. f_equal.
  unfold framed. apply tab_ext. intros i _. unfold hann_window. fold K. f_equal. unfold Rdiv. ring.
Qed.

(** A frame longer than the transform is written past the end of the buffer. *)
Theorem C39_long_frame_out_of_bounds : forall o p x channels S, 2 <= so_transform o <= 2 ^ max_order -> stft_reach o p ->
  so_overlap o < so_frame o -> (Z.of_nat (so_frame o) < 2 ^ 64)%Z ->
  2 ^ Nat.log2_up (so_transform o) < Nat.min S (so_frame o) -> (Z.of_nat S < 2 ^ 64)%Z ->
  matrix_of channels S x -> 0 < channels ->
  (Z.of_nat channels * Z.of_nat (ceil_div S (so_frame o - so_overlap o)) * Z.of_nat (2 ^ Nat.log2_up (so_transform o) / 2 + 1) < max_elements)%Z ->
  stft_run p channels S x = UB.
Proof. intros o p x channels S HT H. apply stft_frame_oob; auto. apply stft_reach_inv; auto. Qed.

(** A Hann window for a frame of F samples ends at zero; the one used in a longer transform
    does not. *)
Theorem C39_window_cut_off_refuted : forall F K, 2 <= F -> F < K -> hann_window (F - 1) F = 0%R /\ (0 < hann_window (F - 1) K)%R.
Proof. exact hann_cut. Qed.

Example C39_example : exists p p', make_stft_plan (StftOptions 4 4 2 hann_window) = Ok p /\
  stft_run p 1 3 [[1; 2; 3]%R] = Ok (p', [[RDFT_list Forward (framed 4 4 2 (fun i => hann_window i 4) [1; 2; 3]%R 0);
     RDFT_list Forward (framed 4 4 2 (fun i => hann_window i 4) [1; 2; 3]%R 1)]]).
Proof.
  assert (M : 2 <= 4 <= 2 ^ max_order) by (split; [lia|fits 2]).
  destruct (C39_constructor (StftOptions 4 4 2 hann_window) M) as [p E]. exists p.
  destruct (C39_stft _ p [[1; 2; 3]%R] 1 3 (stft_made _ p E)) as [p' E']; cbn [so_transform so_frame so_overlap] in *; auto; try lia.
  - split; [reflexivity|]. intros r [<-|[]]. reflexivity.
  - reflexivity.
  - exists p'. split; [exact E|]. rewrite E'. reflexivity.
Qed.

(** C40: for every channel, the rows are the spectra of the zero-padded partitions ... *)
Theorem C40_partitions : forall k channels len ir, let B := 2 ^ k in k < max_order -> 0 < len ->
  matrix_of channels len ir -> (Z.of_nat len < 2 ^ 64)%Z ->
  (Z.of_nat channels * Z.of_nat (ceil_div len B) * Z.of_nat (B + 1) < max_elements)%Z ->
  uniform_partition channels len ir B = Ok (tab channels (fun c => tab (ceil_div len B) (fun p =>
    RDFT_list Forward (pad (2 * B) (part B (nth c ir []) p))))).
Proof.
  intros k channels len ir B Hk HL Hir H64 Hmax. assert (E : Nat.log2_up B = k) by (apply Nat.log2_up_pow2; lia).
  rewrite uniform_partition_ok; auto.
  - f_equal. apply tab_ext. intros c Hc. unfold B. rewrite partition_spectra_pow2. fold B. rewrite (matrix_row _ _ _ _ c Hir Hc). reflexivity.
  - unfold B. apply Nat.neq_0_lt_0, Nat.pow_nonzero. lia.
  - unfold B. rewrite <- Nat.pow_succ_r'. apply Nat.pow_le_mono_r; lia.
  - rewrite E. exact Hmax.
Qed.

(** ... overlap-adding their inverse transforms at offsets p * B restores the response. *)
Theorem C40_restores : forall k h i, let B := 2 ^ k in i < length h ->
  Rsum (ceil_div (length h) B) (fun p =>
    if (p * B <=? i) && (i <? p * B + 2 * B) then
      (IRDFT B (fun j => nth j (RDFT_list Forward (pad (2 * B) (part B h p))) C0) (i - p * B) / INR (2 * B))%R
    else 0%R) = nth i h 0%R.
Proof.
  intros k h i B Hi. rewrite <- (partition_restores k h i Hi) at 1. apply Rsum_ext. intros p Hp.
  rewrite partition_spectra_pow2. fold B. rewrite (nth_tab _ (ceil_div _ _)) by auto. reflexivity.
Qed.

(** Any block size: the rows are those of a response with zeros between the partitions. *)
Theorem C40_any_block_size : forall channels len ir B, let M := 2 ^ Nat.log2_up B in 0 < B -> 2 * B <= 2 ^ max_order -> 0 < len ->
  matrix_of channels len ir -> (Z.of_nat len < 2 ^ 64)%Z ->
  (Z.of_nat channels * Z.of_nat (ceil_div len B) * Z.of_nat (M + 1) < max_elements)%Z ->
  uniform_partition channels len ir B = Ok (tab channels (fun c => tab (ceil_div (length (nth c ir [])) B) (fun p =>
    RDFT_list Forward (pad (2 * M) (part M (stretched B M (nth c ir [])) p))))).
Proof. intros. rewrite uniform_partition_ok by auto. reflexivity. Qed.

Example C40_example : uniform_partition 1 3 [[1; 2; 3]%R] 2 =
  Ok [[RDFT_list Forward [1; 2; 0; 0]%R; RDFT_list Forward [3; 0; 0; 0]%R]].
Proof.
  pose proof (C40_partitions 1 1 3 [[1; 2; 3]%R]) as E. cbv zeta in E. change (2 ^ 1) with 2 in E. rewrite E; clear E.
  - reflexivity.
  - unfold max_order. lia.
  - lia.
  - split; [reflexivity|]. intros r [<-|[]]. reflexivity.
  - lia.
  - reflexivity.
Qed.

(** C41. *)
Theorem C41_fdl_index : forall n T, 0 < n -> exists x logs, logged_calls n T = Ok (x, logs) /\ length logs = T /\
  forall t, t < T ->
    (exists rest, nth t logs [] = Insert (t mod n) :: rest /\ forall r, ~ In (Insert r) rest) /\
    forall s, s < n -> uses s (nth t logs []) = 1 /\
    forall row, In (Multiply row s) (nth t logs []) -> row < n /\
      (s <= t -> In (Insert row) (nth (t - s) logs []) /\
                 forall u, t - s < u <= t -> ~ In (Insert row) (nth u logs [])) /\
      (t < s -> forall u, u <= t -> ~ In (Insert row) (nth u logs [])).
Proof. exact fdl_history. Qed.

Example C41_example : exists x, logged_calls 3 4 = Ok (x,
  [[Insert 0; Multiply 0 0; Multiply 1 2; Multiply 2 1]; [Insert 1; Multiply 0 1; Multiply 1 0; Multiply 2 2];
   [Insert 2; Multiply 0 2; Multiply 1 1; Multiply 2 0]; [Insert 0; Multiply 0 0; Multiply 1 2; Multiply 2 1]]).
Proof. eexists. reflexivity. Qed.

(** C42: block size 2^k, any filter length that fits the transform. *)
Theorem C42_overlap_save : forall k F h all,
  let B := 2 ^ k in let K := 2 ^ Nat.log2_up (B + F - 1) in
  2 <= B + F - 1 -> B + F - 1 <= 2 ^ max_order -> 0 < F -> length h <= F -> blocks_of B all ->
  exists o o' outs, make_overlap_save B F = Ok o /\
    ov_stream ols (transfer_callback (RDFT_list Forward (pad K h))) o tt all = Ok (o', outs, tt) /\
    concat outs = tab (length (concat all)) (lconv (concat all) h) /\ blocks_of B outs.
Proof. exact save_stream. Qed.

(** Block size 3: the window is shifted by the wrong amount. *)
Theorem C42_block_size_3_refuted : exists o o' y1 y2, make_overlap_save 3 2 = Ok o /\
  ov_stream ols (transfer_callback (RDFT_list Forward (pad 4 [0; 1]%R))) o tt [[1; 1; 1]; [0; 0; 0]]%R = Ok (o', [y1; y2], tt) /\
  y2 = [0; 0; 0]%R /\ lconv (concat [[1; 1; 1]; [0; 0; 0]]%R) [0; 1]%R 3 = 1%R.
Proof. exact save_block3_wrong. Qed.

Example C42_example : exists o o' outs, make_overlap_save 2 3 = Ok o /\
  ov_stream ols (transfer_callback (RDFT_list Forward (pad 4 [1; 0; 5]%R))) o tt [[1; 2]; [3; 4]]%R = Ok (o', outs, tt) /\
  concat outs = [1; 2; 8; 14]%R.
Proof.
  destruct (C42_overlap_save 1 3 [1; 0; 5]%R [[1; 2]; [3; 4]]%R) as (o & o' & outs & E1 & E2 & E3 & _);
    try (change (2 ^ 1) with 2; cbn; lia).
  - fits 2.
  - intros x [<-|[<-|[]]]; reflexivity.
  - exists o, o', outs. split; [exact E1|]. split; [exact E2|]. rewrite E3. unfold lconv, Rsum. cbn. repeat (f_equal; try ring).
Qed.

(** C43. *)
Theorem C43_overlap_add : forall B F h all,
  let K := 2 ^ Nat.log2_up (B + F - 1) in
  0 < B -> 0 < F -> F <= B + 1 -> B * 2 <= K -> B + F - 1 <= 2 ^ max_order -> length h <= F -> blocks_of B all ->
  exists o o' outs, make_overlap_add B F = Ok o /\
    ov_stream ola (transfer_callback (RDFT_list Forward (pad K h))) o tt all = Ok (o', outs, tt) /\
    concat outs = tab (length (concat all)) (lconv (concat all) h) /\ blocks_of B outs.
Proof. exact add_stream. Qed.

(** Transform shorter than two blocks: the first call leaves the window, whatever the block
    and the callback. *)
Theorem C43_short_transform_out_of_bounds : forall B F, 2 <= B + F - 1 -> B + F - 1 <= 2 ^ max_order ->
  2 ^ Nat.log2_up (B + F - 1) < B * 2 ->
  exists o, make_overlap_add B F = Ok o /\
    forall St block (cb : list C -> St -> outcome (list C * St)) st, overlap_add_run o block cb st = UB.
Proof.
  intros B F H1 H2 H3. destruct (make_overlap_add_ok B F H1 H2) as (o & E & I). exists o. split; auto.
  intros. eapply overlap_add_run_oob; eauto.
Qed.

(** Filter longer than block + 1. *)
Theorem C43_long_filter_refuted : exists o o' y1 y2, make_overlap_add 1 3 = Ok o /\
  ov_stream ola (transfer_callback (RDFT_list Forward (pad 4 [0; 0; 1]%R))) o tt [[1]; [0]]%R = Ok (o', [y1; y2], tt) /\
  y2 = [1]%R /\ lconv (concat [[1]; [0]]%R) [0; 0; 1]%R 1 = 0%R.
Proof. exact add_long_filter_wrong. Qed.

Example C43_example : exists o o' outs, make_overlap_add 3 4 = Ok o /\
  ov_stream ola (transfer_callback (RDFT_list Forward (pad 8 [1; 0; 0; 5]%R))) o tt [[1; 2; 3]; [4; 5; 6]]%R = Ok (o', outs, tt) /\
  concat outs = [1; 2; 3; 9; 15; 21]%R.
Proof.
  destruct (C43_overlap_add 3 4 [1; 0; 0; 5]%R [[1; 2; 3]; [4; 5; 6]]%R) as (o & o' & outs & E1 & E2 & E3 & _); try (cbn; lia).
  - change (3 * 2 <= 8). lia.
  - fits 3.
  - intros x [<-|[<-|[]]]; reflexivity.
  - exists o, o', outs. split; [exact E1|]. split; [exact E2|]. rewrite E3. unfold lconv, Rsum. cbn. repeat (f_equal; try ring).
Qed.

(** C44, C45. *)
Theorem C44_upols : forall k h blocks, 0 < k < max_order -> 0 < length h -> (Z.of_nat (length h) < 2 ^ 64)%Z ->
  (Z.of_nat (ceil_div (length h) (2 ^ k)) * Z.of_nat (2 ^ k + 1) < max_elements)%Z -> blocks_of (2 ^ k) blocks ->
  exists outs, partitioned Upols (2 ^ k) h blocks = Ok outs /\
    concat outs = tab (length (concat blocks)) (lconv (concat blocks) h) /\ length outs = length blocks /\ blocks_of (2 ^ k) outs.
Proof. intros. apply partitioned_pow2; cbn; auto. Qed.

Theorem C45_upola : forall k h blocks, 0 < k < max_order -> 0 < length h -> (Z.of_nat (length h) < 2 ^ 64)%Z ->
  (Z.of_nat (ceil_div (length h) (2 ^ k)) * Z.of_nat (2 ^ k + 1) < max_elements)%Z -> blocks_of (2 ^ k) blocks ->
  exists outs, partitioned Upola (2 ^ k) h blocks = Ok outs /\
    concat outs = tab (length (concat blocks)) (lconv (concat blocks) h) /\ length outs = length blocks /\ blocks_of (2 ^ k) outs.
Proof. intros. apply partitioned_pow2; cbn; auto. Qed.

(** Other partition sizes B: the convolver takes blocks of 2^ceil(log2 B) samples and
    convolves with the stretched response. *)
Theorem C44_any_partition_size : forall kd B h blocks, kd = Upols \/ kd = Upola -> 2 <= B -> 0 < length h ->
  let M := 2 ^ Nat.log2_up B in 2 * M <= 2 ^ max_order -> (Z.of_nat (length h) < 2 ^ 64)%Z ->
  (Z.of_nat (ceil_div (length h) B) * Z.of_nat (M + 1) < max_elements)%Z -> blocks_of M blocks ->
  exists outs, partitioned kd B h blocks = Ok outs /\
    concat outs = tab (length (concat blocks)) (lconv (concat blocks) (stretched B M h)) /\ blocks_of M outs.
Proof.
  intros kd B h blocks Hkd HB Hh M HM H64 Hmax Hb. exists (filtered B h blocks).
  destruct (filtered_concat B h HB Hh HM blocks Hb) as (E1 & E2 & E3). split; [|auto].
  apply partitioned_ok; auto; destruct Hkd as [-> | ->]; cbn; auto.
Qed.

(** With B = 3 the output is not the convolution. *)
Theorem C44_partition_size_3_refuted : forall kd, kd = Upols \/ kd = Upola -> exists outs,
  partitioned kd 3 [0; 0; 0; 1]%R [[1; 0; 0; 0]; [0; 0; 0; 0]]%R = Ok outs /\
  nth 3 (concat outs) 0%R = 0%R /\ lconv [1; 0; 0; 0; 0; 0; 0; 0]%R [0; 0; 0; 1]%R 3 = 1%R.
Proof.
  intros kd Hkd. destruct (C44_any_partition_size kd 3 [0; 0; 0; 1]%R [[1; 0; 0; 0]; [0; 0; 0; 0]]%R Hkd) as (outs & E1 & E2 & _); try (cbn; lia).
  - change (2 ^ Nat.log2_up 3) with 4. fits 3.
  - reflexivity.
  - intros x [<-|[<-|[]]]; reflexivity.
  - exists outs. split; [exact E1|]. rewrite E2. change (stretched 3 (2 ^ Nat.log2_up 3) [0; 0; 0; 1]%R) with [0; 0; 0; 0; 1; 0; 0; 0]%R. split; unfold lconv, Rsum; cbn; ring.
Qed.

Theorem C44_partition_size_1_out_of_bounds : forall h v rest, 0 < length h -> (Z.of_nat (length h) * 2 < max_elements)%Z ->
  partitioned Upols 1 h ([v] :: rest) = UB /\ partitioned Upola 1 h ([v] :: rest) = UB.
Proof. exact partitioned_1. Qed.

Lemma convolver_example : forall kd, valid_kind kd ->
  (match kd with SparseUpols p | SparseUpola p => forall i j v, p i j v = true | _ => True end) ->
  exists outs, partitioned kd 2 [1; 0; 5]%R [[1; 2]; [3; 4]]%R = Ok outs /\ concat outs = [1; 2; 8; 14]%R.
Proof.
  intros kd HV Hp. destruct (partitioned_pow2 kd 1 [1; 0; 5]%R [[1; 2]; [3; 4]]%R) as (outs & E1 & E2 & _); auto; try (cbn; lia).
  - unfold max_order. lia.
  - reflexivity.
  - intros x [<-|[<-|[]]]; reflexivity.
  - exists outs. split; [exact E1|]. rewrite E2. unfold lconv, Rsum. cbn. repeat (f_equal; try ring).
Qed.

Example C44_example : exists outs, partitioned Upols 2 [1; 0; 5]%R [[1; 2]; [3; 4]]%R = Ok outs /\ concat outs = [1; 2; 8; 14]%R.
Proof. apply convolver_example; cbn; auto. Qed.

Example C45_example : exists outs, partitioned Upola 2 [1; 0; 5]%R [[1; 2]; [3; 4]]%R = Ok outs /\ concat outs = [1; 2; 8; 14]%R.
Proof. apply convolver_example; cbn; auto. Qed.

(** C46: for every filter matrix. *)
Theorem C46_split : forall lanes k rows mat blocks, (forall l, lanes = Some l -> 0 < l) -> 0 < k < max_order -> 0 < rows ->
  matrix_of rows (2 ^ k + 1) mat -> blocks_of (2 ^ k) blocks ->
  exists outs_s outs_a,
    convolver Upols rows (2 ^ k + 1) mat blocks = Ok outs_s /\
    convolver (SplitUpols lanes) rows (2 ^ k + 1) mat blocks = Ok outs_s /\
    convolver Upola rows (2 ^ k + 1) mat blocks = Ok outs_a /\
    convolver (SplitUpola lanes) rows (2 ^ k + 1) mat blocks = Ok outs_a.
Proof.
  intros lanes k rows mat blocks HL Hk HP Hm Hb. rewrite !convolver_ok by (auto; destruct lanes; cbn; auto).
  do 2 eexists. repeat split.
Qed.

Theorem C46_sparse : forall pred k rows mat blocks, 0 < k < max_order -> 0 < rows ->
  matrix_of rows (2 ^ k + 1) mat -> blocks_of (2 ^ k) blocks ->
  exists outs_s outs_a,
    convolver Upols rows (2 ^ k + 1) (drop_bins pred rows (2 ^ k + 1) mat) blocks = Ok outs_s /\
    convolver (SparseUpols pred) rows (2 ^ k + 1) mat blocks = Ok outs_s /\
    convolver Upola rows (2 ^ k + 1) (drop_bins pred rows (2 ^ k + 1) mat) blocks = Ok outs_a /\
    convolver (SparseUpola pred) rows (2 ^ k + 1) mat blocks = Ok outs_a.
Proof.
  intros pred k rows mat blocks Hk HP Hm Hb. rewrite !convolver_ok by (cbn; auto; apply drop_bins_matrix).
  do 2 eexists. repeat split.
Qed.

Theorem C46_keep_all : forall pred rows cols mat, (forall i j v, pred i j v = true) -> matrix_of rows cols mat ->
  drop_bins pred rows cols mat = mat.
Proof.
  intros pred rows cols mat Hp [L W]. apply (list_eq_nth _ []).
  - unfold drop_bins. rewrite tab_length. auto.
  - intros i Hi. unfold drop_bins in *. rewrite tab_length in Hi. rewrite nth_tab by auto.
    apply (list_eq_nth _ C0); rewrite ?tab_length. { symmetry. apply W, nth_In. lia. }
    intros j Hj. rewrite nth_tab by auto. rewrite Hp. reflexivity.
Qed.

(** With partitioned impulse responses all of them compute the convolution. *)
Theorem C46_convolution : forall kd k h blocks, valid_kind kd ->
  (match kd with SparseUpols p | SparseUpola p => forall i j v, p i j v = true | _ => True end) ->
  0 < k < max_order -> 0 < length h -> (Z.of_nat (length h) < 2 ^ 64)%Z ->
  (Z.of_nat (ceil_div (length h) (2 ^ k)) * Z.of_nat (2 ^ k + 1) < max_elements)%Z -> blocks_of (2 ^ k) blocks ->
  exists outs, partitioned kd (2 ^ k) h blocks = Ok outs /\
    concat outs = tab (length (concat blocks)) (lconv (concat blocks) h) /\ length outs = length blocks /\ blocks_of (2 ^ k) outs.
Proof. intros. apply partitioned_pow2; auto. Qed.

Example C46_example : forall kd, In kd [SplitUpols None; SplitUpola (Some 4); SparseUpols (fun _ _ _ => true)] ->
  exists outs, partitioned kd 2 [1; 0; 5]%R [[1; 2]; [3; 4]]%R = Ok outs /\ concat outs = [1; 2; 8; 14]%R.
Proof. intros kd [<-|[<-|[<-|[]]]]; apply convolver_example; cbn; auto; lia. Qed.

(** C48. *)
Theorem C48_causal : forall kd k rows mat n xs ys, valid_kind kd -> 0 < k < max_order -> 0 < rows -> matrix_of rows (2 ^ k + 1) mat ->
  blocks_of (2 ^ k) xs -> blocks_of (2 ^ k) ys -> firstn n xs = firstn n ys ->
  exists ox oy, convolver kd rows (2 ^ k + 1) mat xs = Ok ox /\ convolver kd rows (2 ^ k + 1) mat ys = Ok oy /\
    firstn n ox = firstn n oy.
Proof. exact convolver_causal. Qed.

(** Filters that come from an impulse response are causal sample by sample: the first n output
    samples depend on the first n input samples only, also within a block. *)
Theorem C48_causal_samples : forall kd k h xs ys n, valid_kind kd ->
  (match kd with SparseUpols p | SparseUpola p => forall i j v, p i j v = true | _ => True end) ->
  0 < k < max_order -> 0 < length h -> (Z.of_nat (length h) < 2 ^ 64)%Z ->
  (Z.of_nat (ceil_div (length h) (2 ^ k)) * Z.of_nat (2 ^ k + 1) < max_elements)%Z ->
  blocks_of (2 ^ k) xs -> blocks_of (2 ^ k) ys -> n <= length (concat xs) -> n <= length (concat ys) ->
  firstn n (concat xs) = firstn n (concat ys) ->
  exists ox oy, partitioned kd (2 ^ k) h xs = Ok ox /\ partitioned kd (2 ^ k) h ys = Ok oy /\
    firstn n (concat ox) = firstn n (concat oy).
Proof.
  intros kd k h xs ys n Hv Hp Hk Hh H64 Hm Bx By Nx Ny E.
  destruct (C46_convolution kd k h xs Hv Hp Hk Hh H64 Hm Bx) as [ox [Ox [Cx _]]].
  destruct (C46_convolution kd k h ys Hv Hp Hk Hh H64 Hm By) as [oy [Oy [Cy _]]].
  exists ox, oy. split; [exact Ox|]. split; [exact Oy|].
  rewrite Cx, Cy. apply (nth_ext _ _ 0%R 0%R).
  { rewrite !firstn_length, !tab_length. lia. }
  intros t Ht. rewrite firstn_length, tab_length in Ht.
  assert (F : forall (l : list R) m, m < n -> nth m l 0%R = nth m (firstn n l) 0%R).
  { intros l m Lm. rewrite <- (firstn_skipn n l) at 1.
    destruct (Nat.lt_ge_cases m (length (firstn n l))) as [L|L].
    - rewrite app_nth1; auto.
    - rewrite firstn_length in L. rewrite app_nth2 by (rewrite firstn_length; lia).
      rewrite (nth_overflow (firstn n l)) by (rewrite firstn_length; lia).
      apply nth_overflow. rewrite skipn_length, firstn_length. lia. }
  rewrite <- !F by lia. rewrite !nth_tab by lia. unfold lconv. apply Rsum_ext. intros m Lm.
  rewrite (F (concat xs)), (F (concat ys)), E by lia. reflexivity.
Qed.

Theorem C48_linear : forall kd k rows mat a b xs ys, valid_kind kd -> 0 < k < max_order -> 0 < rows -> matrix_of rows (2 ^ k + 1) mat ->
  blocks_of (2 ^ k) xs -> blocks_of (2 ^ k) ys -> length ys = length xs ->
  exists ox oy, convolver kd rows (2 ^ k + 1) mat xs = Ok ox /\ convolver kd rows (2 ^ k + 1) mat ys = Ok oy /\
    convolver kd rows (2 ^ k + 1) mat (mix (2 ^ k) a b xs ys) = Ok (mix (2 ^ k) a b ox oy).
Proof. exact convolver_linear. Qed.

Theorem C48_delay : forall kd k rows mat m xs, valid_kind kd -> 0 < k < max_order -> 0 < rows -> matrix_of rows (2 ^ k + 1) mat ->
  blocks_of (2 ^ k) xs ->
  exists ox, convolver kd rows (2 ^ k + 1) mat xs = Ok ox /\
    convolver kd rows (2 ^ k + 1) mat (silence (2 ^ k) m ++ xs) = Ok (silence (2 ^ k) m ++ ox).
Proof. exact convolver_delay. Qed.

(** filter() on a convolver in any state, with any matrix, acts as on a new one. *)
Theorem C48_reset :
  (forall (c : upols_convolver) rows cols mat blocks,
     filter_and_run c rows cols mat tt blocks = convolver Upols rows cols mat blocks) /\
  (forall (c : upola_convolver) rows cols mat blocks,
     filter_and_run c rows cols mat tt blocks = convolver Upola rows cols mat blocks) /\
  (forall l (c : split_upols_convolver l) rows cols mat blocks,
     filter_and_run c rows cols mat tt blocks = convolver (SplitUpols l) rows cols mat blocks) /\
  (forall l (c : split_upola_convolver l) rows cols mat blocks,
     filter_and_run c rows cols mat tt blocks = convolver (SplitUpola l) rows cols mat blocks) /\
  (forall p (c : sparse_upols_convolver) rows cols mat blocks,
     filter_and_run c rows cols mat p blocks = convolver (SparseUpols p) rows cols mat blocks) /\
  (forall p (c : sparse_upola_convolver) rows cols mat blocks,
     filter_and_run c rows cols mat p blocks = convolver (SparseUpola p) rows cols mat blocks).
Proof. exact filter_resets. Qed.

Example C48_example : exists ox oy,
  convolver (SparseUpola (fun _ j _ => j =? 1)) 2 3 [[C1; Ci; C1]; [Ci; C1; C0]] [[1; 2]; [3; 4]]%R = Ok ox /\
  convolver (SparseUpola (fun _ j _ => j =? 1)) 2 3 [[C1; Ci; C1]; [Ci; C1; C0]] [[1; 2]; [7; 8]]%R = Ok oy /\
  firstn 1 ox = firstn 1 oy.
Proof.
  apply (C48_causal _ 1); cbn; auto; try (unfold max_order; lia).
  - split; [reflexivity|]. intros r [<-|[<-|[]]]; reflexivity.
  - intros x [<-|[<-|[]]]; reflexivity.
  - intros x [<-|[<-|[]]]; reflexivity.
Qed.

Print Assumptions C36_direct_convolve.
Print Assumptions C36_direct_convolve_complex.
Print Assumptions C36_into.
Print Assumptions C36_commutative.
Print Assumptions C36_bilinear.
Print Assumptions C36_both_empty.
Print Assumptions C37_fft_convolve.
Print Assumptions C37_empty.
Print Assumptions C37_reused.
Print Assumptions C37_single_samples_out_of_bounds.
Print Assumptions C38_num_frames.
Print Assumptions C38_covers.
Print Assumptions C38_empty_signal.
Print Assumptions C38_no_hop_divides_by_zero.
Print Assumptions C39_stft.
Print Assumptions C39_constructor.
Print Assumptions C39_stft_default.
Print Assumptions C39_long_frame_out_of_bounds.
Print Assumptions C39_window_cut_off_refuted.
Print Assumptions C40_partitions.
Print Assumptions C40_restores.
Print Assumptions C40_any_block_size.
Print Assumptions C41_fdl_index.
Print Assumptions C42_overlap_save.
Print Assumptions C42_block_size_3_refuted.
Print Assumptions C43_overlap_add.
Print Assumptions C43_short_transform_out_of_bounds.
Print Assumptions C43_long_filter_refuted.
Print Assumptions C44_upols.
Print Assumptions C45_upola.
Print Assumptions C44_any_partition_size.
Print Assumptions C44_partition_size_3_refuted.
Print Assumptions C44_partition_size_1_out_of_bounds.
Print Assumptions C46_split.
Print Assumptions C46_sparse.
Print Assumptions C46_keep_all.
Print Assumptions C46_convolution.
Print Assumptions C48_causal.
Print Assumptions C48_causal_samples.
Print Assumptions C48_linear.
Print Assumptions C48_delay.
Print Assumptions C48_reset.
