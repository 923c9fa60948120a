(** Property theorems C63: the radix-2 transform in rounded arithmetic.  Specification:
    Spec/Rounding.v (binary32 and binary64 arithmetic, norm and distance of vectors) and the exact
    transform of Spec/Dft.v. *)
From Coq Require Import Reals List Arith ZArith Lia Lra.
From Flocq Require Import Core.
From Verif Require Import Base.Outcome Base.OutcomeFacts Base.Sums Base.Cplx Base.VecNorm Spec.Dft Spec.Rounding Model.Fft2 Model.RoundedFft
  Proof.DftTheory Proof.Fft2Proof Proof.RoundedExec Proof.RoundedPlan.
Import ListNotations.
Local Open Scope R_scope.

(** The exact transform of a list, and a list multiplied by a number. *)
Local Notation spectrum d x := (tab (length x) (DFT d (length x) (fun i => nth i x C0))).
Local Notation times c x := (map (fun z => RtoC c * z)%C x).

(** Any of the four kernels; v4 needs two stages. *)
Local Notation one_of_the_kernels rnd p kernel :=
  (kernel = rdit2_v1 rnd \/ kernel = rdit2_v2 rnd \/ kernel = rdit2_v3 rnd \/ (kernel = rdit2_v4 rnd /\ (2 <= p)%nat)).

Lemma norm_tab : forall n f, norm (tab n f) = vnorm n f.
Proof. intros. unfold norm. rewrite tab_length. apply vnorm_ext. intros. rewrite nth_tab; auto. Qed.

Lemma nth_times : forall c x i, nth i (times c x) C0 = (RtoC c * nth i x C0)%C.
Proof. intros. replace C0 with (RtoC c * C0)%C at 1 by (apply C_eq; cbn; ring). apply (map_nth (fun z => RtoC c * z)%C). Qed.

(** binary32: the spectrum computed for 2^p samples, 1 <= p <= 27, is within 28 p 2^-24 of the
    exact one, relative to its norm; 2^-115 covers underflow.  The cosine and the sine of the C++
    library are assumed to return floats within 2^-24 of the exact values. *)
Theorem C63_fft_float : forall rnd fcos fsin kernel d p x,
  rounds_to_nearest 24 (-149) 127 rnd -> accurate 24 (-149) fcos cos -> accurate 24 (-149) fsin sin ->
  one_of_the_kernels rnd p kernel -> (0 < p <= 27)%nat -> length x = (2 ^ p)%nat -> norm x <= bpow radix2 111 ->
  exists y, rfft_plan_run rnd fcos fsin kernel (rtwo_pi rnd) p x d = Ok y /\ length y = length x /\
    distance y (spectrum d x) <= INR p * (28 * bpow radix2 (-24)) * norm (spectrum d x) + bpow radix2 (-115).
Proof.
  intros rnd fcos fsin kernel d p x Hr Hc Hs Hk Hp Hx Hn. destruct two_pi32_ok as [T1 T2]. rewrite <- (rtwo_pi32 rnd Hr) in T1, T2.
  destruct (format_fft 24 (-149) 127 ltac:(lia) ltac:(lia) ltac:(lia) rnd fcos fsin Hr Hc Hs _ T1 T2 d p x kernel Hp Hx Hk) as (y & Ey & Ly & By).
  { unfold norm in Hn. rewrite Hx in Hn. exact Hn. }
  exists y. split; auto. split; [congruence|]. unfold distance. rewrite Ly, norm_tab, !Hx.
  rewrite (vnorm_ext _ _ (fun i => nth i y C0 - DFT d (2 ^ p) (fun i => nth i x C0) i)%C) by (intros; rewrite nth_tab; auto).
  eapply Rle_trans; [exact By|]. right. unfold tiny. rewrite (Rmult_comm (INR p)). change (-149 + 34)%Z with (-115)%Z. change (- (24))%Z with (-24)%Z. ring.
Qed.

(** The same for each bin: the error of a bin is small against the whole spectrum, not against the
    bin. *)
Theorem C63_fft_float_bins : forall rnd fcos fsin kernel d p x,
  rounds_to_nearest 24 (-149) 127 rnd -> accurate 24 (-149) fcos cos -> accurate 24 (-149) fsin sin ->
  one_of_the_kernels rnd p kernel -> (0 < p <= 27)%nat -> length x = (2 ^ p)%nat -> norm x <= bpow radix2 111 ->
  exists y, rfft_plan_run rnd fcos fsin kernel (rtwo_pi rnd) p x d = Ok y /\ length y = length x /\
    forall k, (k < length x)%nat ->
    Cabs (nth k y C0 - DFT d (length x) (fun i => nth i x C0) k)%C <= INR p * (28 * bpow radix2 (-24)) * (sqrt (INR (length x)) * norm x) + bpow radix2 (-115).
Proof.
  intros rnd fcos fsin kernel d p x Hr Hc Hs Hk Hp Hx Hn. destruct (C63_fft_float rnd fcos fsin kernel d p x Hr Hc Hs Hk Hp Hx Hn) as (y & Ey & Ly & By).
  exists y. split; auto. split; auto. intros k Lk. rewrite norm_tab in By. assert (N : vnorm (length x) (DFT d (length x) (fun i => nth i x C0)) = sqrt (INR (length x)) * norm x) by (unfold norm; rewrite Hx; apply norm_DFT).
  rewrite N in By. eapply Rle_trans; [|exact By]. unfold distance. rewrite Ly. rewrite (vnorm_ext _ _ (fun i => nth i y C0 - DFT d (length x) (fun i => nth i x C0) i)%C) by (intros; rewrite nth_tab; auto).
  apply (Cabs_le_vnorm (length x) (fun i => nth i y C0 - DFT d (length x) (fun i => nth i x C0) i)%C). auto.
Qed.

(** binary64. *)
Theorem C63_fft_double : forall rnd fcos fsin kernel d p x,
  rounds_to_nearest 53 (-1074) 1023 rnd -> accurate 53 (-1074) fcos cos -> accurate 53 (-1074) fsin sin ->
  one_of_the_kernels rnd p kernel -> (0 < p <= 27)%nat -> length x = (2 ^ p)%nat -> norm x <= bpow radix2 1007 ->
  exists y, rfft_plan_run rnd fcos fsin kernel (rtwo_pi rnd) p x d = Ok y /\ length y = length x /\
    distance y (spectrum d x) <= INR p * (28 * bpow radix2 (-53)) * norm (spectrum d x) + bpow radix2 (-1040).
Proof.
  intros rnd fcos fsin kernel d p x Hr Hc Hs Hk Hp Hx Hn. destruct two_pi64_ok as [T1 T2]. rewrite <- (rtwo_pi64 rnd Hr) in T1, T2.
  destruct (format_fft 53 (-1074) 1023 ltac:(lia) ltac:(lia) ltac:(lia) rnd fcos fsin Hr Hc Hs _ T1 T2 d p x kernel Hp Hx Hk) as (y & Ey & Ly & By).
  { unfold norm in Hn. rewrite Hx in Hn. exact Hn. }
  exists y. split; auto. split; [congruence|]. unfold distance. rewrite Ly, norm_tab, !Hx.
  rewrite (vnorm_ext _ _ (fun i => nth i y C0 - DFT d (2 ^ p) (fun i => nth i x C0) i)%C) by (intros; rewrite nth_tab; auto).
  eapply Rle_trans; [exact By|]. right. unfold tiny. rewrite (Rmult_comm (INR p)). change (-1074 + 34)%Z with (-1040)%Z. change (- (53))%Z with (-53)%Z. ring.
Qed.

(** Forward and backward give back the input times its length, within 57 p 2^-24 (binary32) or
    57 p 2^-53 (binary64). *)
Theorem C63_roundtrip_float : forall rnd fcos fsin kernel kernel' d p x,
  rounds_to_nearest 24 (-149) 127 rnd -> accurate 24 (-149) fcos cos -> accurate 24 (-149) fsin sin ->
  one_of_the_kernels rnd p kernel -> one_of_the_kernels rnd p kernel' -> (0 < p <= 27)%nat -> length x = (2 ^ p)%nat -> norm x <= bpow radix2 95 ->
  exists y z, rfft_plan_run rnd fcos fsin kernel (rtwo_pi rnd) p x d = Ok y /\
    rfft_plan_run rnd fcos fsin kernel' (rtwo_pi rnd) p y (flip d) = Ok z /\ length z = length x /\
    distance z (times (INR (length x)) x) <= INR p * (57 * bpow radix2 (-24)) * (INR (length x) * norm x) + bpow radix2 (-101).
Proof.
  intros rnd fcos fsin kernel kernel' d p x Hr Hc Hs Hk Hk' Hp Hx Hn. destruct two_pi32_ok as [T1 T2]. rewrite <- (rtwo_pi32 rnd Hr) in T1, T2.
  destruct (format_roundtrip 24 (-149) 127 ltac:(lia) ltac:(lia) ltac:(lia) rnd fcos fsin Hr Hc Hs _ T1 T2 d p x kernel kernel' Hp Hx Hk Hk') as (y & z & Ey & Ez & Lz & Bz).
  { unfold norm in Hn. rewrite Hx in Hn. exact Hn. }
  exists y, z. split; auto. split; auto. split; [congruence|]. unfold distance, norm. rewrite Lz, !Hx.
  rewrite (vnorm_ext _ _ (fun i => nth i z C0 - RtoC (INR (2 ^ p)) * nth i x C0)%C).
  - eapply Rle_trans; [exact Bz|]. right. unfold tiny. change (-101)%Z with (14 + (-149 + 34))%Z. rewrite (bpow_plus radix2 14). change (bpow radix2 14) with 16384. change (- (24))%Z with (-24)%Z. ring.
  - intros i Hi. rewrite nth_times. auto.
Qed.

Theorem C63_roundtrip_double : forall rnd fcos fsin kernel kernel' d p x,
  rounds_to_nearest 53 (-1074) 1023 rnd -> accurate 53 (-1074) fcos cos -> accurate 53 (-1074) fsin sin ->
  one_of_the_kernels rnd p kernel -> one_of_the_kernels rnd p kernel' -> (0 < p <= 27)%nat -> length x = (2 ^ p)%nat -> norm x <= bpow radix2 991 ->
  exists y z, rfft_plan_run rnd fcos fsin kernel (rtwo_pi rnd) p x d = Ok y /\
    rfft_plan_run rnd fcos fsin kernel' (rtwo_pi rnd) p y (flip d) = Ok z /\ length z = length x /\
    distance z (times (INR (length x)) x) <= INR p * (57 * bpow radix2 (-53)) * (INR (length x) * norm x) + bpow radix2 (-1026).
Proof.
  intros rnd fcos fsin kernel kernel' d p x Hr Hc Hs Hk Hk' Hp Hx Hn. destruct two_pi64_ok as [T1 T2]. rewrite <- (rtwo_pi64 rnd Hr) in T1, T2.
  destruct (format_roundtrip 53 (-1074) 1023 ltac:(lia) ltac:(lia) ltac:(lia) rnd fcos fsin Hr Hc Hs _ T1 T2 d p x kernel kernel' Hp Hx Hk Hk') as (y & z & Ey & Ez & Lz & Bz).
  { unfold norm in Hn. rewrite Hx in Hn. exact Hn. }
  exists y, z. split; auto. split; auto. split; [congruence|]. unfold distance, norm. rewrite Lz, !Hx.
  rewrite (vnorm_ext _ _ (fun i => nth i z C0 - RtoC (INR (2 ^ p)) * nth i x C0)%C).
  - eapply Rle_trans; [exact Bz|]. right. unfold tiny. change (-1026)%Z with (14 + (-1074 + 34))%Z. rewrite (bpow_plus radix2 14). change (bpow radix2 14) with 16384. change (- (53))%Z with (-53)%Z. ring.
  - intros i Hi. rewrite nth_times. auto.
Qed.

(** The four kernels return the same bits, however the arithmetic rounds: for every power of two
    from 2 (v4: from 4), every input and every twiddle table of half the length. *)
Theorem C63_kernels_bit_identical : forall (rnd : R -> R) p x twiddles, (0 < p)%nat -> length x = (2 ^ p)%nat -> length twiddles = (2 ^ (p - 1))%nat ->
  exists y, rdit2_v1 rnd x twiddles = Ok y /\ rdit2_v2 rnd x twiddles = Ok y /\ rdit2_v3 rnd x twiddles = Ok y /\
    ((2 <= p)%nat -> rdit2_v4 rnd x twiddles = Ok y).
Proof.
  intros rnd p x tw Hp Hx Ht. exists (stages rnd p tw p x). split; [apply rv1_ok; auto|]. split; [apply rv2_ok; auto|]. split; [apply rv3_ok; auto|]. intro. apply rv4_ok; auto.
Qed.

(** Without rounding this is the transform of C01: the models describe the same code. *)
Theorem C63_exact : forall p x d, (p <= 27)%nat -> rfft_plan_run (fun r => r) cos sin (rdit2_v3 (fun r => r)) (2 * PI) p x d = fft_plan_run p x d.
Proof.
  intros p x d Hp.
  assert (T : forall n d, rmake_twiddle_lut (fun r => r) cos sin (2 * PI) n d = make_twiddle_lut_radix2 n d).
  { intros n d'. unfold rmake_twiddle_lut, make_twiddle_lut_radix2. cbv zeta. apply for_range_ext. intros i l _. unfold rtwiddle, twiddle. cbv zeta. rewrite !Rmult_1_l. auto. }
  unfold rfft_plan_run, fft_plan_run, make_dit2_plan. unfold check_order, max_order. destruct (Nat.ltb_spec 27 p); [lia|]. cbn [bind]. rewrite T. rewrite bitrevorder_plan_ok. cbn [bind].
  rewrite !make_twiddle_ok. cbn [bind]. destruct d; reflexivity.
Qed.

(** The hypotheses can be met: correctly rounded arithmetic and a correctly rounded library, a
    signal of 2^12 ones. *)
Local Instance prec24 : Prec_gt_0 24 := ltac:(unfold Prec_gt_0; lia).

Example C63_hypotheses : exists rnd fcos fsin x,
  rounds_to_nearest 24 (-149) 127 rnd /\ accurate 24 (-149) fcos cos /\ accurate 24 (-149) fsin sin /\ length x = (2 ^ 12)%nat /\ norm x <= bpow radix2 95.
Proof.
  assert (A : forall g, (forall y, -1 <= g y <= 1) -> accurate 24 (-149) (fun y => nearest 24 (-149) (g y)) g).
  { intros g Hg y. split; [apply generic_format_round; auto with typeclass_instances|]. apply Rle_trans with (/ 2 * ulp radix2 (FLT_exp (-149) 24) (g y)).
    - apply error_le_half_ulp; auto with typeclass_instances.
    - assert (U : ulp radix2 (FLT_exp (-149) 24) (g y) <= ulp radix2 (FLT_exp (-149) 24) 1) by (apply ulp_le; auto with typeclass_instances; rewrite Rabs_R1; apply Rabs_le; apply Hg).
      assert (U1 : ulp radix2 (FLT_exp (-149) 24) 1 = bpow radix2 (-23)) by (change 1 with (bpow radix2 0); rewrite ulp_bpow; auto).
      rewrite U1 in U. change (- (24))%Z with (-1 + -23)%Z. rewrite bpow_plus. change (bpow radix2 (-1)) with (/ 2). apply Rmult_le_compat_l; lra. }
  exists (nearest 24 (-149)), (fun y => nearest 24 (-149) (cos y)), (fun y => nearest 24 (-149) (sin y)), (tab (2 ^ 12) (fun _ => C1)).
  split; [intros y _; auto|]. split; [apply A, COS_bound|]. split; [apply A, SIN_bound|]. split; [apply tab_length|].
  rewrite norm_tab. unfold vnorm. apply sqrt_le_of_sq; [apply bpow_ge_0|]. rewrite Rsum_const, pow_INR. change (INR 2) with 2. unfold Cnorm2. cbn [fst snd C1].
  rewrite <- bpow_plus. apply Rle_trans with (bpow radix2 12); [change (bpow radix2 12) with 4096; lra|apply bpow_le; lia].
Qed.

Print Assumptions C63_fft_float.
Print Assumptions C63_fft_float_bins.
Print Assumptions C63_fft_double.
Print Assumptions C63_roundtrip_float.
Print Assumptions C63_roundtrip_double.
Print Assumptions C63_kernels_bit_identical.
Print Assumptions C63_exact.
