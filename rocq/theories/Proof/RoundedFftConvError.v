(** The error of FFT convolution in rounded arithmetic. *)
From Coq Require Import Reals List Arith Lia Lra Psatz Bool ZArith.
From Flocq Require Import Core.
From Verif Require Import Base.Outcome Base.OutcomeFacts Base.Sums Base.Cplx Base.VecNorm Spec.Dft Spec.Transforms Spec.Rounding
  Spec.Convolution Model.Fft2 Model.FftApps Model.Convolution Model.RoundedFft Model.RoundedConv
  Proof.DftTheory Proof.Fft2Proof Proof.IntegersProof Proof.RfftProof Proof.ConvTheory Proof.FftConvProof Proof.LtiProof
  Proof.RoundedError Proof.RoundedPlan Proof.RoundedRfft Proof.RoundedMac Proof.RoundedSynth Proof.RoundedFftConv.
Import ListNotations.
Local Arguments Nat.div : simpl never.
Local Arguments Nat.modulo : simpl never.
Local Arguments Nat.pow : simpl never.

(** Zeros do not change the energy. *)
Lemma rnorm_zeros : forall n m f, n <= m -> (forall i, n <= i -> f i = 0%R) -> rnorm m f = rnorm n f.
Proof.
  intros n m f H Z. unfold rnorm. f_equal. apply Rsum_le_zero; auto. intros i Hi. rewrite Z by lia. ring.
Qed.

Lemma rnorm_pad : forall n x, length x <= n -> rnorm n (fun i => nth i (pad n x) 0%R) = rnorm (length x) (fun i => nth i x 0%R).
Proof.
  intros n x H. rewrite <- (rnorm_zeros (length x) n (fun i => nth i x 0%R)) by (auto; intros; apply nth_overflow; auto).
  apply rnorm_ext. intros i Hi. apply nth_pad; auto.
Qed.

Lemma hnorm_ext_pow : forall p X Y, 0 < p -> (forall k, k < 2 ^ p / 2 + 1 -> X k = Y k) -> hnorm (2 ^ p) X = hnorm (2 ^ p) Y.
Proof.
  intros p X Y Hp H. destruct (pow2_half p Hp) as (m & Hm & HKm & Em). rewrite HKm in *. rewrite half_of_double in H. apply hnorm_ext; auto. intros. apply H. lia.
Qed.

(** The exact value. *)
Lemma product_lconv : forall p x h i, 0 < p -> 0 < length x -> 0 < length h -> length x + length h - 1 <= 2 ^ p -> i < length x + length h - 1 ->
  (IRDFT (2 ^ (p - 1)) (fun k => DFT Forward (2 ^ p) (fun j => RtoC (nth j (pad (2 ^ p) x) 0%R)) k * DFT Forward (2 ^ p) (fun j => RtoC (nth j (pad (2 ^ p) h) 0%R)) k)%C i / INR (2 ^ p))%R = lconv x h i.
Proof.
  intros p x h i Hp Hx Hh HK Hi. destruct (pow2_half p Hp) as (m & Hm & HKm & Em). rewrite <- Em, HKm in *.
  rewrite (IRDFT_ext m _ (fun k => nth k (RDFT_list Forward (pad (2 * m) x)) C0 * nth k (RDFT_list Forward (pad (2 * m) h)) C0)%C)
    by (try lia; intros k Hk; rewrite !nth_RDFT by (rewrite pad_length, half_of_double; lia); rewrite !pad_length; reflexivity).
  rewrite irdft_rdft_mul by (rewrite ?pad_length; lia).
  rewrite (rcconv_linear _ (length x) (length h)) by (try lia; intros j Hj; rewrite nth_pad0 by lia; apply nth_overflow; lia).
  unfold lconv. unfold Rdiv. rewrite Rmult_comm, <- Rmult_assoc, Rinv_l, Rmult_1_l by (apply INR_nz; lia).
  apply Rsum_ext. intros j Hj. rewrite !nth_pad by lia. reflexivity.
Qed.

Local Open Scope R_scope.

Section Format.
Variables (prec emin emax : Z).
Hypotheses (Hprec : (24 <= prec <= 100)%Z) (Hemin : (emin <= -149)%Z) (Hemax : (127 <= emax)%Z) (Hgap : (emin + prec <= -120)%Z).
Variables (rnd fcos fsin : R -> R).
Hypotheses (Hrnd : rounds_to_nearest prec emin emax rnd) (Hcos : accurate prec emin fcos cos) (Hsin : accurate prec emin fsin sin).
Let u := bpow radix2 (- prec).
Hypotheses (Ht : is_float prec emin (rtwo_pi rnd)) (He : Rabs (rtwo_pi rnd - 2 * PI) <= 82 / 10 * bpow radix2 (- prec)).

Lemma format_fft_convolve : forall x h X H p, (0 < length x)%nat -> (0 < length h)%nat -> (2 <= length x + length h - 1 <= 2 ^ 27)%nat ->
  p = Nat.log2_up (length x + length h - 1) ->
  rnorm (length x) (fun i => nth i x 0) <= X -> rnorm (length h) (fun i => nth i h 0) <= H -> / 2 ^ 20 <= X <= 2 ^ 40 -> / 2 ^ 20 <= H <= 2 ^ 40 ->
  exists y, rfft_convolve rnd fcos fsin x h = Ok y /\ length y = (length x + length h - 1)%nat /\
    forall i, (i < length y)%nat -> Rabs (nth i y 0 - lconv x h i) <= (114 * INR p + 9) * u * (sqrt (INR (2 ^ p)) * (X * H)).
Proof using All.
  intros x h X H p Hx Hh HL Ep HX HH BX BH.
  assert (Hp : (0 < p <= 27)%nat) by (rewrite Ep; split; [apply log2_up_pos'; lia|apply (log2_up_max _ ); exact (proj2 HL)]).
  assert (HK : (length x + length h - 1 <= 2 ^ p)%nat) by (rewrite Ep; apply log2_up_fits; lia).
  eexists. split; [apply rfft_convolve_ok; auto; apply HL|]. split; [apply tab_length|]. intros i Hi. rewrite tab_length in Hi. rewrite nth_tab by auto. rewrite <- Ep.
  pose proof (u_bounds prec emin emax Hprec Hemin Hemax Hgap rnd fcos fsin Hrnd Hcos Hsin Ht He p Hp) as U. fold u in U. pose proof (c_bounds prec emin emax Hprec Hemin Hemax Hgap rnd fcos fsin Hrnd Hcos Hsin Ht He p Hp) as CB. fold u in CB.
  pose proof (sK_bounds prec emin emax Hprec Hemin Hemax Hgap rnd fcos fsin Hrnd Hcos Hsin Ht He p Hp) as [SB SS]. pose proof (K_bounds prec emin emax Hprec Hemin Hemax Hgap rnd fcos fsin Hrnd Hcos Hsin Ht He p Hp) as KB.
  set (K := (2 ^ p)%nat) in *. set (sK := sqrt (INR K)) in *. set (c := 28 * INR p * u) in *.
  set (DX := DFT Forward K (fun j => RtoC (nth j (pad K x) 0))). set (DH := DFT Forward K (fun j => RtoC (nth j (pad K h) 0))).
  assert (P20 : 0 < / 2 ^ 20) by (apply Rinv_0_lt_compat, pow_lt; lra).
  assert (NX : rnorm K (fun i => nth i (pad K x) 0) <= X) by (rewrite rnorm_pad by lia; exact HX).
  assert (NH : rnorm K (fun i => nth i (pad K h) 0) <= H) by (rewrite rnorm_pad by lia; exact HH).
  assert (P40 : 2 ^ 40 <= 2 ^ 50) by (apply Rle_pow; [lra|lia]).
  assert (EX : hnorm K (fun k => nth k (RF rnd fcos fsin p (pad K x)) C0 - DX k)%C <= 151 / 100 * c * (sK * X)).
  { exact (spectrum_error prec emin emax Hprec Hemin Hemax Hgap rnd fcos fsin Hrnd Hcos Hsin Ht He p Hp (pad K x) X (pad_length _ _) NX ltac:(lra)). }
  assert (EH : hnorm K (fun k => nth k (RF rnd fcos fsin p (pad K h)) C0 - DH k)%C <= 151 / 100 * c * (sK * H)).
  { exact (spectrum_error prec emin emax Hprec Hemin Hemax Hgap rnd fcos fsin Hrnd Hcos Hsin Ht He p Hp (pad K h) H (pad_length _ _) NH ltac:(lra)). }
  assert (HDX : hnorm K DX <= sK * X) by (eapply Rle_trans; [right; exact (hnorm_rdft p (fun j => nth j (pad K x) 0) (proj1 Hp))|]; apply Rmult_le_compat_l; [lra|exact NX]).
  assert (HDH : hnorm K DH <= sK * H) by (eapply Rle_trans; [right; exact (hnorm_rdft p (fun j => nth j (pad K h) 0) (proj1 Hp))|]; apply Rmult_le_compat_l; [lra|exact NH]).
  assert (EQ : sK * X * (sK * H) = INR K * (X * H)) by (rewrite <- SS; ring).
  assert (XH0 : / 2 ^ 40 <= X * H). { replace (/ 2 ^ 40) with (/ 2 ^ 20 * / 2 ^ 20) by (rewrite <- Rinv_mult, <- pow_add; reflexivity). apply Rmult_le_compat; lra. }
  assert (XH1 : X * H <= 2 ^ 80). { replace (2 ^ 80) with (2 ^ 40 * 2 ^ 40) by (rewrite <- pow_add; reflexivity). apply Rmult_le_compat; lra. }
  assert (I40 : 0 < / 2 ^ 40) by (apply Rinv_0_lt_compat, pow_lt; lra).
  assert (Q0 : / 2 ^ 40 <= sK * X * (sK * H)). { rewrite EQ. apply Rle_trans with (1 * (X * H)); [lra|apply Rmult_le_compat_r; lra]. }
  assert (Q1 : sK * X * (sK * H) <= 2 ^ 110). { rewrite EQ. apply Rle_trans with (2 ^ 30 * 2 ^ 80); [|rewrite <- pow_add; right; reflexivity]. apply Rmult_le_compat; lra. }
  pose proof (product_spectrum prec emin emax Hprec Hemin Hemax Hgap rnd fcos fsin Hrnd Hcos Hsin Ht He p Hp (fun k => nth k (RF rnd fcos fsin p (pad K x)) C0) (fun k => nth k (RF rnd fcos fsin p (pad K h)) C0) DX DH (sK * X) (sK * H) (151 / 100 * c)
    ltac:(lra) HDX HDH EX EH ltac:(apply Rmult_le_pos; lra) ltac:(apply Rmult_le_pos; lra) Q0 Q1) as PS. fold u in PS. fold K in PS.
  rewrite <- (product_lconv p x h i) by (auto; lia). fold K. fold DX DH.
  eapply Rle_trans; [eapply (samples_error prec emin emax Hprec Hemin Hemax Hgap rnd fcos fsin Hrnd Hcos Hsin Ht He p Hp 1 (rspectra rnd fcos fsin p x h) (fun k => DX k * DH k)%C (sK * X * (sK * H)) i)|].
  - lia.
  - fold u. cbn [INR]. lra.
  - fold K. lia.
  - eapply Rle_trans; [apply hnorm_mul|]. apply Rmult_le_compat; auto; apply rnorm_pos.
  - fold u c K. cbn [INR]. rewrite Rmult_1_r. eapply Rle_trans; [|exact PS]. right. apply hnorm_ext_pow; [apply Hp|]. intros k Hk. unfold rspectra. rewrite nth_tab by auto. reflexivity.
  - lra.
  - fold u K sK. cbn [INR]. rewrite Rmult_1_r. right. f_equal. rewrite EQ. field. lra.
Qed.
End Format.
