(** Property theorems C75: real, short-time, cosine and direct transforms in rounded arithmetic.
    Specification: Spec/Rounding.v and Spec/RoundedSums.v (the two formats, [unit_roundoff] = 2^-24
    or 2^-53), Spec/Dft.v, Spec/Transforms.v and Spec/Stft.v (the exact transforms), Spec/RoundedReal.v
    (plans after any calls, the norm of mirrored bins). *)
From Coq Require Import Reals List Arith ZArith Lia Lra.
From Flocq Require Import Core.
From Verif Require Import Base.Outcome Base.OutcomeFacts Base.Alias Base.Sums Base.Cplx Base.VecNorm Spec.Dft Spec.Transforms Spec.Convolution Spec.Stft Spec.Rounding Spec.RoundedSums Spec.RoundedReal
  Model.Fft2 Model.Integers Model.FftApps Model.Convolution Model.Stft Model.RoundedFft Model.RoundedConv Model.RoundedReal
  Proof.DftTheory Proof.AlgorithmProof Proof.RfftProof Proof.StftProof Proof.RoundedPlan Proof.RoundedRfft Proof.RoundedMac Proof.RoundedSynth Proof.RoundedStft Proof.RoundedFftConv Proof.FftConvProof Proof.RoundedReal Proof.RoundedDct Proof.RoundedDft
  Props.RoundedFftProps.
Import ListNotations.
Local Open Scope R_scope.

Lemma ieee_two_pi : forall prec emin emax rnd, ieee prec emin emax -> rounds_to_nearest prec emin emax rnd ->
  is_float prec emin (rtwo_pi rnd) /\ Rabs (rtwo_pi rnd - 2 * PI) <= 82 / 10 * bpow radix2 (- prec).
Proof.
  intros prec emin emax rnd [(-> & -> & ->)|(-> & -> & ->)] Hr; [rewrite (rtwo_pi32 rnd Hr); apply two_pi32_ok|rewrite (rtwo_pi64 rnd Hr); apply two_pi64_ok].
Qed.

Lemma ieee_bounds : forall prec emin emax, ieee prec emin emax -> (24 <= prec <= 53)%Z /\ (emin <= -149)%Z /\ (127 <= emax)%Z /\ (emin + prec <= -120)%Z.
Proof. intros prec emin emax [(-> & -> & ->)|(-> & -> & ->)]; lia. Qed.

Lemma tiny_twice : forall emin, bpow radix2 (emin + 35) = 2 * tiny emin.
Proof. intros emin. unfold tiny. replace (emin + 35)%Z with (1 + (emin + 34))%Z by lia. rewrite bpow_plus. reflexivity. Qed.

(** ** Real transforms *)

(** Every bin of the forward transform, on a plan with any history of calls: within
    28 log2(n) u sqrt(n) norm(x) of the DFT. *)
Theorem C75_rfft : forall prec emin emax rnd fcos fsin order p x out, ieee prec emin emax -> rounds_to_nearest prec emin emax rnd -> accurate prec emin fcos cos -> accurate prec emin fsin sin ->
  (0 < order <= 27)%nat -> rrfft_reach rnd fcos fsin order p -> length x = (2 ^ order)%nat -> (2 ^ order / 2 + 1 <= length out)%nat -> norm_r x <= bpow radix2 (emax - 16) ->
  exists p' y, rrfft_forward rnd p x out = Ok (p', y) /\ length y = length out /\ forall k, (k <= 2 ^ order / 2)%nat ->
    Cabs (nth k y C0 - DFT Forward (2 ^ order) (fun j => RtoC (nth j x 0)) k)%C <= 28 * INR order * unit_roundoff prec * (sqrt (INR (2 ^ order)) * norm_r x) + bpow radix2 (emin + 34).
Proof.
  intros prec emin emax rnd fcos fsin order p x out HF Hr Hc Hs Ho HR Hx Hout Hn. destruct (ieee_two_pi _ _ _ rnd HF Hr) as [T1 T2]. destruct (ieee_bounds _ _ _ HF) as (B1 & B2 & B3 & B4).
  destruct (rrfft_forward_ok rnd fcos fsin order p x out ltac:(lia) (rrfft_reach_inv rnd fcos fsin order p Ho HR) Hx Hout) as (p' & E & _).
  exists p', (RF rnd fcos fsin order x ++ skipn (2 ^ order / 2 + 1) out). split; [exact E|]. split. { rewrite app_length, RF_length, skipn_length. unfold C in *. lia. }
  destruct (pow2_half order ltac:(lia)) as [m [Hm [En Em]]]. assert (H2 : (2 ^ order / 2 = 2 ^ (order - 1))%nat) by (rewrite En, half_of_double; exact Em).
  intros k Hk. rewrite app_nth1 by (rewrite RF_length; lia). unfold norm_r in *. rewrite Hx in *.
  apply (rf_bin prec emin emax ltac:(lia) B2 B3 B4 rnd fcos fsin Hr Hc Hs T1 T2 order Ho x k Hx); auto. lia.
Qed.

(** Every sample of the backward transform of any n/2 + 1 bins. *)
Theorem C75_irfft : forall prec emin emax rnd fcos fsin order p X out, ieee prec emin emax -> rounds_to_nearest prec emin emax rnd -> accurate prec emin fcos cos -> accurate prec emin fsin sin ->
  (0 < order <= 27)%nat -> rrfft_reach rnd fcos fsin order p -> length X = (2 ^ order / 2 + 1)%nat -> length out = (2 ^ order)%nat -> mirrored_norm (2 ^ order) X <= bpow radix2 (emax - 16) ->
  exists p' y, rrfft_backward rnd p X out = Ok (p', y) /\ length y = (2 ^ order)%nat /\ forall j, (j < 2 ^ order)%nat ->
    Rabs (nth j y 0 - IRDFT (2 ^ order / 2) (fun k => nth k X C0) j) <= 28 * INR order * unit_roundoff prec * (sqrt (INR (2 ^ order)) * mirrored_norm (2 ^ order) X) + bpow radix2 (emin + 34).
Proof.
  intros prec emin emax rnd fcos fsin order p X out HF Hr Hc Hs Ho HR HX Hout Hn. destruct (ieee_two_pi _ _ _ rnd HF Hr) as [T1 T2]. destruct (ieee_bounds _ _ _ HF) as (B1 & B2 & B3 & B4).
  destruct (pow2_half order ltac:(lia)) as [m [Hm [En Em]]]. assert (H2 : (2 ^ order / 2 = 2 ^ (order - 1))%nat) by (rewrite En, half_of_double; exact Em).
  destruct (rrfft_backward_ok rnd fcos fsin order p X out ltac:(lia) (rrfft_reach_inv rnd fcos fsin order p Ho HR) ltac:(lia) Hout) as (p' & E & _).
  exists p', (RB rnd fcos fsin order X). split; [exact E|]. split. { apply tab_length. }
  intros j Hj. rewrite mirrored_hnorm in *. rewrite H2. apply (rb_error prec emin emax ltac:(lia) B2 B3 B4 rnd fcos fsin Hr Hc Hs T1 T2 order Ho X j Hj Hn).
Qed.

(** Forward and back returns n times the signal, each sample within 71 log2(n) u n norm(x). *)
Theorem C75_real_roundtrip : forall prec emin emax rnd fcos fsin order p x out out', ieee prec emin emax -> rounds_to_nearest prec emin emax rnd -> accurate prec emin fcos cos -> accurate prec emin fsin sin ->
  (0 < order <= 27)%nat -> rrfft_reach rnd fcos fsin order p -> length x = (2 ^ order)%nat -> length out = (2 ^ order / 2 + 1)%nat -> length out' = (2 ^ order)%nat -> norm_r x <= bpow radix2 (emax - 32) ->
  exists p' p'' y z, rrfft_forward rnd p x out = Ok (p', y) /\ rrfft_backward rnd p' y out' = Ok (p'', z) /\ length z = (2 ^ order)%nat /\ forall j, (j < 2 ^ order)%nat ->
    Rabs (nth j z 0 - INR (2 ^ order) * nth j x 0) <= 71 * INR order * unit_roundoff prec * (INR (2 ^ order) * norm_r x) + bpow radix2 (emin + 49).
Proof.
  intros prec emin emax rnd fcos fsin order p x out out' HF Hr Hc Hs Ho HR Hx Hout Hout' Hn. destruct (ieee_two_pi _ _ _ rnd HF Hr) as [T1 T2]. destruct (ieee_bounds _ _ _ HF) as (B1 & B2 & B3 & B4).
  destruct (pow2_half order ltac:(lia)) as [m [Hm [En Em]]]. assert (H2 : (2 ^ order / 2 = m)%nat) by (rewrite En, half_of_double; reflexivity).
  destruct (rrfft_forward_ok rnd fcos fsin order p x out ltac:(lia) (rrfft_reach_inv rnd fcos fsin order p Ho HR) Hx ltac:(lia)) as (p' & E & I').
  rewrite skipn_all2, app_nil_r in E by (unfold C in *; lia).
  destruct (rrfft_backward_ok rnd fcos fsin order p' (RF rnd fcos fsin order x) out' ltac:(lia) I' ltac:(rewrite RF_length; lia) Hout') as (p'' & E' & _).
  exists p', p'', (RF rnd fcos fsin order x), (RB rnd fcos fsin order (RF rnd fcos fsin order x)). split; [exact E|]. split; [exact E'|]. split; [apply tab_length|].
  intros j Hj. unfold norm_r in *. rewrite Hx in *. apply (roundtrip_sample prec emin emax ltac:(lia) B2 B3 B4 rnd fcos fsin Hr Hc Hs T1 T2 order Ho x j Hx Hj Hn).
Qed.

(** ** Short-time transforms *)

(** Every bin of every frame of every channel, on a plan with any history of calls: within
    (28 log2(K) + 2) u sqrt(K) norm(frame) of the DFT of the windowed frame, K the transform size;
    the window values are those the window function returns. *)
Theorem C75_stft : forall prec emin emax rnd fcos fsin o p x channels S, ieee prec emin emax -> rounds_to_nearest prec emin emax rnd -> accurate prec emin fcos cos -> accurate prec emin fsin sin ->
  rstft_reach rnd fcos fsin o p ->
  let F := so_frame o in let hop := (so_frame o - so_overlap o)%nat in let order := Nat.log2_up (so_transform o) in let K := (2 ^ order)%nat in
  let frame c f := framed K F hop (fun i => so_window o i K) (nth c x []) f in
  (2 <= so_transform o <= 2 ^ max_order)%nat -> (so_overlap o < F)%nat -> (F <= K)%nat -> (0 < S)%nat -> (Z.of_nat S < 2 ^ 64)%Z -> matrix_of channels S x ->
  (Z.of_nat channels * Z.of_nat (ceil_div S hop) * Z.of_nat (K / 2 + 1) < max_elements)%Z ->
  (forall c f, (c < channels)%nat -> (f < ceil_div S hop)%nat -> norm_r (frame c f) <= bpow radix2 (emax - 17)) ->
  exists p' r, rstft_run rnd p channels S x = Ok (p', r) /\ length r = channels /\ forall c, (c < channels)%nat -> length (nth c r []) = ceil_div S hop /\
    forall f, (f < ceil_div S hop)%nat -> length (nth f (nth c r []) []) = (K / 2 + 1)%nat /\ forall k, (k <= K / 2)%nat ->
    Cabs (nth k (nth f (nth c r []) []) C0 - DFT Forward K (fun j => RtoC (nth j (frame c f) 0)) k)%C <=
      (28 * INR order + 2) * unit_roundoff prec * (sqrt (INR K) * norm_r (frame c f)) + bpow radix2 (emin + 35).
Proof.
  intros prec emin emax rnd fcos fsin o p x channels S HF Hr Hc Hs HR F hop order K frame HT HO HFK HS HS64 Hx Hmax Hn.
  destruct (ieee_two_pi _ _ _ rnd HF Hr) as [T1 T2]. destruct (ieee_bounds _ _ _ HF) as (B1 & B2 & B3 & B4).
  destruct (rstft_run_ok rnd fcos fsin o p x channels S HT HO HFK HS HS64 (rstft_reach_inv rnd fcos fsin o p HT HR) Hx Hmax) as (p' & E & _).
  assert (Ho : (0 < order <= 27)%nat) by (split; [apply log2_up_pos'; lia|apply log2_up_max; exact (proj2 HT)]).
  destruct (pow2_half order ltac:(lia)) as [m [Hm [En Em]]]. assert (H2 : (K / 2 = 2 ^ (order - 1))%nat) by (unfold K; rewrite En, half_of_double; exact Em).
  eexists p', _. split; [exact E|]. unfold rstft_result. split; [apply tab_length|]. intros c Hcc. rewrite nth_tab by exact Hcc. split; [apply tab_length|].
  intros f Hf. fold hop F. rewrite nth_tab by exact Hf. split; [apply RF_length|]. intros k Hk. unfold rframe_of. change (frame_of o x c f) with (frame c f).
  assert (Lf : length (frame c f) = K) by apply tab_length. specialize (Hn c f Hcc Hf). unfold norm_r in *. rewrite Lf in *.
  rewrite tiny_twice.
  apply (rframe_bin prec emin emax (conj (proj1 B1) (Z.le_trans _ 53 100 (proj2 B1) ltac:(discriminate))) B2 B3 B4 rnd fcos fsin Hr Hc Hs T1 T2 order Ho (frame c f) k Lf); [rewrite <- H2; exact Hk|exact Hn].
Qed.

(** ** Cosine transform *)

(** Every coefficient of the DCT-II, on a plan with any history of calls: within
    28 (2 log2(n) + 1) u sqrt(n) norm(x). *)
Theorem C75_dct2 : forall prec emin emax rnd fcos fsin order p x, ieee prec emin emax -> rounds_to_nearest prec emin emax rnd -> accurate prec emin fcos cos -> accurate prec emin fsin sin ->
  (0 < order <= 27)%nat -> rdct_reach rnd fcos fsin order p -> length x = (2 ^ order)%nat -> norm_r x <= bpow radix2 (emax - 17) ->
  exists p' y, rdct_run rnd fcos fsin p x = Ok (p', y) /\ length y = (2 ^ order)%nat /\ forall k, (k < 2 ^ order)%nat ->
    Rabs (nth k y 0 - DCT2 (2 ^ order) (fun i => nth i x 0) k) <= 28 * (2 * INR order + 1) * unit_roundoff prec * (sqrt (INR (2 ^ order)) * norm_r x) + 3 * bpow radix2 (emin + 34).
Proof.
  intros prec emin emax rnd fcos fsin order p x HF Hr Hc Hs Ho HR Hx Hn. destruct (ieee_two_pi _ _ _ rnd HF Hr) as [T1 T2]. destruct (ieee_bounds _ _ _ HF) as (B1 & B2 & B3 & B4).
  destruct (rdct_run_ok rnd fcos fsin order p x ltac:(lia) (rdct_reach_inv rnd fcos fsin order p Ho HR) Hx) as (p' & E & _).
  exists p', (RDCT rnd fcos fsin order x). split; [exact E|]. split; [apply tab_length|]. intros k Hk. unfold norm_r in *. rewrite Hx in *.
  apply (dct_error prec emin emax B1 B2 B3 B4 rnd fcos fsin Hr Hc Hs T1 T2 order Ho x k Hx Hk Hn).
Qed.

(** ** Direct transform *)

(** Every bin of the direct DFT, for every size up to 2^18 and both directions: the angles are not
    reduced before rounding, so the bound grows with the size and not with its logarithm. *)
Theorem C75_dft : forall prec emin emax rnd fcos fsin d x out, ieee prec emin emax -> rounds_to_nearest prec emin emax rnd -> accurate prec emin fcos cos -> accurate prec emin fsin sin ->
  (0 < length x)%nat -> INR (length x) <= 2 ^ 18 -> length out = length x -> Rsum (length x) (fun i => Cabs (nth i x C0)) <= bpow radix2 (emax - 2) ->
  exists y, rdft rnd fcos fsin (Other x) out d = Ok y /\ length y = length x /\ forall k, (k < length x)%nat ->
    Cabs (nth k y C0 - DFT d (length x) (fun i => nth i x C0) k)%C <=
      40 * INR (length x) * unit_roundoff prec * Rsum (length x) (fun i => Cabs (nth i x C0)) + INR (length x) * bpow radix2 (emin + 3).
Proof.
  intros prec emin emax rnd fcos fsin d x out HF Hr Hc Hs H0 HN Hout HS. destruct (ieee_two_pi _ _ _ rnd HF Hr) as [T1 T2]. destruct (ieee_bounds _ _ _ HF) as (B1 & B2 & B3 & B4).
  eexists. split; [apply rdft_ok; exact Hout|]. split; [apply tab_length|]. intros k Hk. rewrite nth_tab by exact Hk.
  apply (dft_error prec emin emax B1 B2 B3 B4 rnd fcos fsin Hr Hc Hs T1 T2 (length x) ltac:(split; [exact H0|lra]) d x k eq_refl Hk HS).
Qed.

(** ** The hypotheses can be met *)

(** Fresh plans exist for every order and, for the short-time transform, every transform size. *)
Theorem C75_plans_exist : forall (rnd fcos fsin : R -> R), (forall order, (0 < order <= 27)%nat -> (exists p, rrfft_reach rnd fcos fsin order p) /\ exists p, rdct_reach rnd fcos fsin order p) /\
  forall o, (2 <= so_transform o <= 2 ^ max_order)%nat -> exists p, rstft_reach rnd fcos fsin o p.
Proof.
  intros rnd fcos fsin. split.
  - intros order Ho. split; [destruct (rmake_rfft_ok rnd fcos fsin order Ho) as (p & E & _)|destruct (rmake_dct_ok rnd fcos fsin order Ho) as (p & E & _)]; exists p; constructor; exact E.
  - intros o Ho. destruct (rmake_stft_ok rnd fcos fsin o Ho) as (p & E & _). exists p. constructor. exact E.
Qed.

(** Correctly rounded binary32 arithmetic and a signal of eight samples: the bound on a bin of the
    real transform is below 2^-13. *)
Example C75_example : exists rnd fcos fsin p p' y, let x := [1; -1; 1; 1; -1; 1; -1; 1] in rounds_to_nearest 24 (-149) 127 rnd /\ accurate 24 (-149) fcos cos /\ accurate 24 (-149) fsin sin /\
  rrfft_reach rnd fcos fsin 3 p /\ rrfft_forward rnd p x (repeat C0 5) = Ok (p', y) /\
  forall k, (k <= 4)%nat -> Cabs (nth k y C0 - DFT Forward 8 (fun j => RtoC (nth j x 0)) k)%C <= bpow radix2 (-13).
Proof.
  destruct C63_hypotheses as (rnd & fcos & fsin & _ & Hr & Hc & Hs & _). destruct (proj1 (C75_plans_exist rnd fcos fsin) 3%nat ltac:(lia)) as [(p & HR) _].
  set (x := [1; -1; 1; 1; -1; 1; -1; 1]).
  assert (N8 : norm_r x = sqrt 8) by (unfold norm_r, rnorm, x; f_equal; cbn; ring).
  assert (S8 : sqrt 8 <= 3) by (replace 3 with (sqrt (3 * 3)) by (apply sqrt_square; lra); apply sqrt_le_1_alt; lra).
  destruct (C75_rfft 24 (-149) 127 rnd fcos fsin 3 p x (repeat C0 5) ltac:(left; lia) Hr Hc Hs ltac:(lia) HR eq_refl) as (p' & y & E & _ & B). { cbn. lia. } { rewrite N8. apply Rle_trans with (bpow radix2 2); [cbn; lra|apply bpow_le; lia]. }
  exists rnd, fcos, fsin, p, p', y. cbv zeta. fold x. repeat (split; [assumption|]). intros k Hk. eapply Rle_trans; [apply (B k ltac:(cbn; lia))|]. rewrite N8.
  replace (INR (2 ^ 3)) with 8 by (cbn; ring). rewrite sqrt_sqrt by lra. unfold unit_roundoff. replace (INR 3) with 3 by (cbn; ring).
  assert (T : bpow radix2 (-149 + 34) <= bpow radix2 (-24)) by (apply bpow_le; lia). replace (bpow radix2 (-13)) with (2048 * bpow radix2 (-(24))) by (replace (-13)%Z with (11 + (-(24)))%Z by lia; rewrite bpow_plus; reflexivity). change (-(24))%Z with (-24)%Z. pose proof (bpow_gt_0 radix2 (-24)). lra.
Qed.

(** The same arithmetic: a cosine transform of two samples, a direct transform of three, and the
    short-time transform of three samples in two frames of four. *)
Example C75_more_examples : exists rnd fcos fsin, rounds_to_nearest 24 (-149) 127 rnd /\ accurate 24 (-149) fcos cos /\ accurate 24 (-149) fsin sin /\
  (exists p p' y, rdct_reach rnd fcos fsin 1 p /\ rdct_run rnd fcos fsin p [1; 1] = Ok (p', y) /\ Rabs (nth 0 y 0 - 4) <= bpow radix2 (-15)) /\
  (exists y, rdft rnd fcos fsin (Other [RtoC 1; RtoC 1; RtoC 1]) (repeat C0 3) Forward = Ok y /\ length y = 3%nat /\ Cabs (nth 1 y C0)%C <= bpow radix2 (-15)) /\
  (exists p p' r, rstft_reach rnd fcos fsin (StftOptions 4 4 2 (fun _ _ => 1)) p /\ rstft_run rnd p 1 3 [[1; 1; 1]] = Ok (p', r) /\ Cabs (nth 0 (nth 0 (nth 0 r []) []) C0 - RtoC 3)%C <= bpow radix2 (-14)).
Proof.
  destruct C63_hypotheses as (rnd & fcos & fsin & _ & Hr & Hc & Hs & _). exists rnd, fcos, fsin. split; [exact Hr|]. split; [exact Hc|]. split; [exact Hs|].
  assert (IE : ieee 24 (-149) 127) by (left; lia). destruct (C75_plans_exist rnd fcos fsin) as [PE PS].
  assert (T : bpow radix2 (-149 + 34) <= bpow radix2 (-24) /\ bpow radix2 (-149 + 35) <= bpow radix2 (-24) /\ bpow radix2 (-149 + 3) <= bpow radix2 (-24)) by (repeat split; apply bpow_le; lia).
  assert (T15 : bpow radix2 (-15) = 512 * bpow radix2 (-24)) by (replace (-15)%Z with (9 + -24)%Z by lia; rewrite bpow_plus; reflexivity).
  assert (T14 : bpow radix2 (-14) = 1024 * bpow radix2 (-24)) by (replace (-14)%Z with (10 + -24)%Z by lia; rewrite bpow_plus; reflexivity).
  pose proof (bpow_gt_0 radix2 (-24)) as U0.
  assert (SQ : forall a b, 0 <= b -> a <= b * b -> sqrt a <= b) by (intros a b Hb H; rewrite <- (sqrt_square b Hb); apply sqrt_le_1_alt, H).
  split; [|split].
  - destruct (proj2 (PE 1%nat ltac:(lia))) as (p & HR). assert (N2 : norm_r [1; 1] = sqrt 2) by (unfold norm_r, rnorm; f_equal; cbn; ring).
    destruct (C75_dct2 24 (-149) 127 rnd fcos fsin 1 p [1; 1] IE Hr Hc Hs ltac:(lia) HR eq_refl) as (p' & y & E & _ & B). { rewrite N2. apply Rle_trans with (bpow radix2 1); [apply SQ; cbn; lra|apply bpow_le; lia]. }
    exists p, p', y. split; [exact HR|]. split; [exact E|]. specialize (B 0%nat ltac:(cbn; lia)). rewrite N2 in B.
    replace (DCT2 (2 ^ 1) (fun i => nth i [1; 1] 0) 0) with 4 in B. 2:{ unfold DCT2, Rsum. cbn. replace (PI * 0 * 1 / (1 + 1 + 1 + 1)) with 0 by field. replace (PI * 0 * (1 + 1 + 1) / (1 + 1 + 1 + 1)) with 0 by field. rewrite cos_0. ring. }
    eapply Rle_trans; [exact B|]. replace (INR (2 ^ 1)) with 2 by (cbn; ring). rewrite sqrt_sqrt by lra. unfold unit_roundoff. change (-(24))%Z with (-24)%Z. change (INR 1) with 1. lra.
  - assert (A1 : Cabs (RtoC 1) = 1). { unfold Cabs, Cnorm2, RtoC. cbn [fst snd]. replace (1 * 1 + 0 * 0) with 1 by ring. apply sqrt_1. }
    assert (S3 : Rsum 3 (fun i => Cabs (nth i [RtoC 1; RtoC 1; RtoC 1] C0)) = 3) by (unfold Rsum; cbn [bsum nth]; rewrite !A1; cbn; ring).
    destruct (C75_dft 24 (-149) 127 rnd fcos fsin Forward [RtoC 1; RtoC 1; RtoC 1] (repeat C0 3) IE Hr Hc Hs ltac:(cbn; lia) ltac:(cbn; lra) eq_refl) as (y & E & L & B).
    { cbn [length]. rewrite S3. apply Rle_trans with (bpow radix2 2); [cbn; lra|apply bpow_le; lia]. }
    exists y. split; [exact E|]. split; [exact L|]. specialize (B 1%nat ltac:(cbn; lia)). cbn [length] in B. rewrite S3 in B.
    replace (DFT Forward 3 (fun i => nth i [RtoC 1; RtoC 1; RtoC 1] C0) 1) with C0 in B.
    2:{ symmetry. rewrite (DFT_ext Forward 3 _ (fun _ => C1)). 2:{ intros j Hj. destruct j as [|[|[|j]]]; [reflexivity..|lia]. } unfold DFT. rewrite (Csum_ext _ _ (fun j => W Forward 3 (j * 1))) by (intros; ring). rewrite (W_orth Forward 3 1) by lia. reflexivity. }
    replace (nth 1 y C0 - C0)%C with (nth 1 y C0) in B by ring. eapply Rle_trans; [exact B|]. unfold unit_roundoff. change (-(24))%Z with (-24)%Z. replace (INR 3) with 3 by (cbn; ring). lra.
  - assert (M4 : (2 <= 4 <= 2 ^ max_order)%nat) by (split; [lia|unfold max_order; change 4%nat with (2 ^ 2)%nat; apply Nat.pow_le_mono_r; lia]).
    set (o := StftOptions 4 4 2 (fun _ _ => 1)). destruct (PS o M4) as (p & HR).
    assert (FR0 : norm_r (framed 4 4 2 (fun _ => 1) [1; 1; 1] 0) <= 2 /\ norm_r (framed 4 4 2 (fun _ => 1) [1; 1; 1] 1) <= 2) by (split; apply SQ; cbn; lra).
    assert (CD : ceil_div 3 (4 - 2) = 2%nat) by reflexivity.
    destruct (C75_stft 24 (-149) 127 rnd fcos fsin o p [[1; 1; 1]] 1 3 IE Hr Hc Hs HR M4) as (p' & r & E & _ & B); cbn [so_transform so_frame so_overlap so_window o] in *; try (change (2 ^ Nat.log2_up 4)%nat with 4%nat in * ).
    { lia. } { lia. } { lia. } { reflexivity. } { split; [reflexivity|]. intros r [<-|[]]. reflexivity. } { reflexivity. }
    { intros c f Hcc Hf. rewrite CD in Hf. destruct c; [|lia]. apply Rle_trans with 2; [destruct f as [|[|f]]; [apply FR0|apply FR0|lia]|]. apply Rle_trans with (bpow radix2 1); [cbn; lra|apply bpow_le; lia]. }
    exists p, p', r. split; [exact HR|]. split; [exact E|]. destruct (B 0%nat ltac:(lia)) as [_ B1]. destruct (B1 0%nat ltac:(rewrite CD; lia)) as [_ B2]. specialize (B2 0%nat ltac:(lia)). cbn [nth] in B2. change (4 - 2)%nat with 2%nat in B2.
    replace (DFT Forward 4 (fun j => RtoC (nth j (framed 4 4 2 (fun _ => 1) [1; 1; 1] 0) 0)) 0) with (RtoC 3) in B2.
    2:{ unfold DFT. rewrite (Csum_ext _ _ (fun j => RtoC (nth j (framed 4 4 2 (fun _ => 1) [1; 1; 1] 0) 0))). 2:{ intros j Hj. rewrite Nat.mul_0_r, W_0. ring. } apply C_eq; cbn; ring. }
    eapply Rle_trans; [exact B2|]. replace (INR 4) with (2 * 2) by (cbn; ring). rewrite sqrt_square by lra. unfold unit_roundoff. change (-(24))%Z with (-24)%Z. replace (INR (Nat.log2_up 4)) with 2 by (cbn; ring).
    assert ((28 * 2 + 2) * bpow radix2 (-24) * (2 * norm_r (framed 4 4 2 (fun _ => 1) [1; 1; 1] 0)) <= (28 * 2 + 2) * bpow radix2 (-24) * (2 * 2)) by (apply Rmult_le_compat_l; lra). lra.
Qed.

Print Assumptions C75_rfft.
Print Assumptions C75_irfft.
Print Assumptions C75_real_roundtrip.
Print Assumptions C75_stft.
Print Assumptions C75_dct2.
Print Assumptions C75_dft.
Print Assumptions C75_plans_exist.
