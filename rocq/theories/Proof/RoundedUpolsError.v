(** The error of the partitioned convolver in rounded arithmetic. *)
From Coq Require Import Reals List Arith Lia Lra Psatz Bool ZArith.
From Flocq Require Import Core.
From Verif Require Import Base.Outcome Base.OutcomeFacts Base.Sums Base.Cplx Base.VecNorm Spec.Dft Spec.Transforms Spec.Rounding
  Spec.Convolution Spec.Convolvers Spec.Stft Spec.RoundedConvolvers Model.Fft2 Model.FftApps Model.Convolution Model.Stft Model.RoundedFft Model.RoundedConv
  Proof.DftTheory Proof.Fft2Proof Proof.IntegersProof Proof.RfftProof Proof.ConvTheory Proof.FftConvProof Proof.OverlapProof Proof.StreamProof Proof.LtiProof Proof.UpcProof Proof.UpcInstances Proof.StftProof
  Proof.RoundedError Proof.RoundedPlan Proof.RoundedRfft Proof.RoundedMac Proof.RoundedSynth Proof.RoundedFftConv Proof.RoundedFftConvError Proof.RoundedUpols Proof.RoundedStft.
Import ListNotations.
Local Arguments Nat.div : simpl never.
Local Arguments Nat.modulo : simpl never.
Local Arguments Nat.pow : simpl never.

Lemma macc_ext : forall rnd P X X' F F', (forall r, r < P -> X r = X' r) -> (forall r, r < P -> F r = F' r) -> macc rnd P X F = macc rnd P X' F'.
Proof. intros rnd P X X' F F' HX HF. induction P as [|P IH]; [reflexivity|]. cbn [macc]. rewrite IH, HX, HF by (auto; intros; (apply HX || apply HF); lia). reflexivity. Qed.

Local Open Scope R_scope.

Lemma rnorm_bounded : forall n f X, 0 <= X -> (forall i, (i < n)%nat -> Rabs (f i) <= X) -> rnorm n f <= sqrt (INR n) * X.
Proof.
  intros n f X HX H. unfold rnorm. rewrite <- (sqrt_square X) at 1 by auto. rewrite <- sqrt_mult by (try apply pos_INR; nra).
  apply sqrt_le_1_alt. rewrite <- Rsum_const. apply Rsum_mono. intros i Hi. specialize (H i Hi). apply Rabs_le_inv in H. nra.
Qed.

Section Format.
Variables (prec emin emax : Z).
Hypotheses (Hprec : (24 <= prec <= 100)%Z) (Hemin : (emin <= -149)%Z) (Hemax : (127 <= emax)%Z) (Hgap : (emin + prec <= -120)%Z).
Variables (rnd fcos fsin : R -> R).
Hypotheses (Hrnd : rounds_to_nearest prec emin emax rnd) (Hcos : accurate prec emin fcos cos) (Hsin : accurate prec emin fsin sin).
Let u := bpow radix2 (- prec).
Hypotheses (Ht : is_float prec emin (rtwo_pi rnd)) (He : Rabs (rtwo_pi rnd - 2 * PI) <= 82 / 10 * bpow radix2 (- prec)).

(** One sample of the sum over the delay line.  [Wl] are the windows that entered it, [mat] is any
    matrix of filter spectra close enough to the exact ones. *)
Lemma window_error : forall k P h (Wl : nat -> list R) t mat X G j, (0 < k < max_order)%nat -> (0 < P)%nat -> INR P <= 10000 ->
  mat = tab P (fun f => RF rnd fcos fsin (S k) (pad (2 * 2 ^ k) (part (2 ^ k) h f))) ->
  (forall a, length (Wl a) = (2 * 2 ^ k)%nat) -> (forall a i, Rabs (nth i (Wl a) 0) <= X) ->
  (forall a, (a < P)%nat -> norm_r (part (2 ^ k) h a) <= G) -> / 2 ^ 20 <= X <= 2 ^ 20 -> / 2 ^ 20 <= G <= 2 ^ 20 -> (j < 2 * 2 ^ k)%nat ->
  Rabs (rsynth rnd fcos fsin (S k) (rmac_hist rnd P (2 ^ k + 1) (cell mat) (tab (S t) (fun a => RF rnd fcos fsin (S k) (Wl a)))) j -
        synth (2 * 2 ^ k) (mac_hist P (2 ^ k + 1) (part_spec (2 ^ k) h) (tab (S t) (fun a => RDFT_list Forward (Wl a)))) j)
    <= (114 * INR (S k) + 9 * INR P) * u * (INR P * (2 * INR (2 ^ k)) * (X * G)).
Proof using All.
  intros k P h Wl t mat X G j Hk HP P2 Hmat LWl HX HG BX BG Hj.
  set (p := S k). assert (Hp : (0 < p <= 27)%nat) by (unfold p, max_order in *; lia).
  pose proof (u_bounds prec emin emax Hprec Hemin Hemax Hgap rnd fcos fsin Hrnd Hcos Hsin Ht He p Hp) as U. fold u in U. pose proof (c_bounds prec emin emax Hprec Hemin Hemax Hgap rnd fcos fsin Hrnd Hcos Hsin Ht He p Hp) as CB. fold u in CB.
  pose proof (sK_bounds prec emin emax Hprec Hemin Hemax Hgap rnd fcos fsin Hrnd Hcos Hsin Ht He p Hp) as [SB SS]. pose proof (K_bounds prec emin emax Hprec Hemin Hemax Hgap rnd fcos fsin Hrnd Hcos Hsin Ht He p Hp) as KB.
  pose proof (K_is_2B k (proj1 Hk)) as EKB. pose proof (log2_up_2B k (proj1 Hk)) as ELB. assert (EK : (2 ^ p = 2 * 2 ^ k)%nat) by apply Nat.pow_succ_r'.
  set (B := (2 ^ k)%nat) in *. set (K := (2 ^ p)%nat) in *. set (sK := sqrt (INR K)) in *. set (c := 28 * INR p * u) in *.
  set (W := fun a => Wl (t - a)%nat).
  assert (LW : forall a, length (W a) = K) by (intros; unfold W; rewrite LWl, EK; reflexivity).
  set (XS := fun a k => if (a <? S t)%nat then DFT Forward K (fun j => RtoC (nth j (W a) 0)) k else C0).
  set (FS := fun a => DFT Forward K (fun j => RtoC (nth j (pad K (part B h a)) 0))).
  assert (P1 : 1 <= INR P) by (change 1 with (INR 1); apply le_INR; lia).
  assert (P20 : 0 < / 2 ^ 20) by (apply Rinv_0_lt_compat, pow_lt; lra).
  assert (NX : forall a, rnorm K (fun i => nth i (W a) 0) <= sK * X).
  { intros a. apply rnorm_bounded; [lra|]. intros i Hi. apply HX. }
  assert (NG : forall a, (a < P)%nat -> rnorm K (fun i => nth i (pad K (part B h a)) 0) <= G).
  { intros a Ha. rewrite rnorm_pad by (rewrite part_length; lia). apply HG, Ha. }
  assert (X20 : / 2 ^ 20 <= sK * X) by (apply Rle_trans with (1 * X); [lra|apply Rmult_le_compat_r; lra]).
  assert (X50 : sK * X <= 2 ^ 50). { apply Rle_trans with (2 ^ 14 * 2 ^ 20); [apply Rmult_le_compat; lra|]. rewrite <- pow_add. apply Rle_pow; [lra|lia]. }
  assert (G50 : G <= 2 ^ 50) by (apply Rle_trans with (2 ^ 20); [lra|apply Rle_pow; [lra|lia]]).
  set (w := sK * (sK * X)). set (g := sK * G).
  assert (Ew : w = INR K * X) by (unfold w; rewrite <- Rmult_assoc, SS; reflexivity).
  assert (w0 : 0 < w) by (unfold w; apply Rmult_lt_0_compat; [lra|apply Rmult_lt_0_compat; lra]). assert (g0 : 0 < g) by (unfold g; apply Rmult_lt_0_compat; lra).
  assert (Z0 : hnorm K (fun _ => C0) = 0) by (unfold hnorm; rewrite (rnorm_ext _ _ (fun _ => 0)) by (intros; unfold Cabs, Cnorm2; cbn [fst snd C0]; replace (0 * 0 + 0 * 0) with 0 by ring; apply sqrt_0); rewrite rnorm_const by lra; ring).
  assert (HXS : forall a, hnorm K (XS a) <= w).
  { intros a. unfold XS. destruct (a <? S t)%nat; [|rewrite Z0; lra]. eapply Rle_trans; [right; exact (hnorm_rdft p (fun j => nth j (W a) 0) (proj1 Hp))|]. apply Rmult_le_compat_l; [lra|apply NX]. }
  assert (HFS : forall a, (a < P)%nat -> hnorm K (FS a) <= g).
  { intros a Ha. eapply Rle_trans; [right; exact (hnorm_rdft p (fun j => nth j (pad K (part B h a)) 0) (proj1 Hp))|]. apply Rmult_le_compat_l; [lra|apply NG, Ha]. }
  set (hist := tab (S t) (fun a => RF rnd fcos fsin p (Wl a))).
  assert (Lhist : length hist = S t) by apply tab_length.
  set (xs := fun a k => nth k (aged (B + 1) hist a) C0). set (fs := fun a k => cell mat a k).
  assert (Exs : forall a, hnorm K (fun k => xs a k - XS a k)%C <= 151 / 100 * c * w).
  { intros a. unfold xs, XS, aged. rewrite Lhist. destruct (Nat.ltb_spec a (S t)).
    - unfold hist. rewrite nth_tab by lia. replace (S t - 1 - a)%nat with (t - a)%nat by lia. fold (W a).
      exact (spectrum_error prec emin emax Hprec Hemin Hemax Hgap rnd fcos fsin Hrnd Hcos Hsin Ht He p Hp (W a) (sK * X) (LW a) (NX a) (conj X20 X50)).
    - apply Rle_trans with 0; [|apply Rmult_le_pos; lra]. right. rewrite <- Z0. apply rnorm_ext. intros i Hi. rewrite nth_repeat. f_equal. ring. }
  assert (Efs : forall a, (a < P)%nat -> hnorm K (fun k => fs a k - FS a k)%C <= 151 / 100 * c * g).
  { intros a Ha. unfold fs, cell, FS. rewrite Hmat, nth_tab by auto. fold p. rewrite <- EK.
    exact (spectrum_error prec emin emax Hprec Hemin Hemax Hgap rnd fcos fsin Hrnd Hcos Hsin Ht He p Hp (pad K (part B h a)) G (pad_length _ _) (NG a Ha) (conj (proj1 BG) G50)). }
  assert (HPu : INR P * (8 * u) <= 9 / 1000). { apply Rle_trans with (10000 * (8 * / 16777216)); [apply Rmult_le_compat; lra|lra]. }
  assert (XG0 : / 2 ^ 40 <= X * G). { replace (/ 2 ^ 40) with (/ 2 ^ 20 * / 2 ^ 20) by (rewrite <- Rinv_mult, <- pow_add; reflexivity). apply Rmult_le_compat; lra. }
  assert (XG1 : X * G <= 2 ^ 40). { replace (2 ^ 40) with (2 ^ 20 * 2 ^ 20) by (rewrite <- pow_add; reflexivity). apply Rmult_le_compat; lra. }
  assert (I40 : 0 < / 2 ^ 40) by (apply Rinv_0_lt_compat, pow_lt; lra).
  assert (Ewg : w * g = INR K * sK * (X * G)) by (rewrite Ew; unfold g; ring).
  assert (KS : 1 <= INR K * sK <= 2 ^ 41). { split; [apply Rle_trans with (1 * 1); [lra|apply Rmult_le_compat; lra]|]. replace (2 ^ 41) with (2 ^ 27 * 2 ^ 14) by (rewrite <- pow_add; reflexivity). apply Rmult_le_compat; lra. }
  assert (L0 : / 2 ^ 40 <= w * g). { rewrite Ewg. apply Rle_trans with (1 * (X * G)); [lra|apply Rmult_le_compat_r; lra]. }
  assert (L1 : w * g <= 2 ^ 81). { rewrite Ewg. replace (2 ^ 81) with (2 ^ 41 * 2 ^ 40) by (rewrite <- pow_add; reflexivity). apply Rmult_le_compat; lra. }
  assert (L2 : INR P * (w * g) <= 2 ^ 110). { apply Rle_trans with (2 ^ 14 * 2 ^ 81); [apply Rmult_le_compat; lra|]. rewrite <- pow_add. apply Rle_pow; [lra|lia]. }
  set (sg := age_of P t). assert (Sg : forall s, (sg s < P)%nat) by (intros; apply age_of_lt; lia).
  pose proof (mac_spectrum prec emin emax Hprec Hemin Hemax Hgap rnd fcos fsin Hrnd Hcos Hsin Ht He p Hp P (fun s => xs (sg s)) (fun s => fs (sg s)) (fun s => XS (sg s)) (fun s => FS (sg s)) w g (151 / 100 * c)
    HP HPu ltac:(lra) ltac:(intros; apply HXS) ltac:(intros; apply HFS, Sg) ltac:(intros; apply Exs) ltac:(intros; apply Efs, Sg) ltac:(lra) ltac:(lra) L0 L2) as MS. fold u in MS. fold K in MS. cbv beta in MS.
  set (Y := fun k => Csum P (fun a => XS a k * FS a k)%C).
  assert (EY : forall k, Csum P (fun s => XS (sg s) k * FS (sg s) k)%C = Y k).
  { intros k'. unfold Y. rewrite (Csum_reindex P (row_of P t) (fun s => XS (sg s) k' * FS (sg s) k')%C).
    - apply Csum_ext. intros a Ha. unfold sg. rewrite age_of_row by lia. reflexivity.
    - intros. apply row_of_lt. lia. - intros i i' Hi Hi'. apply row_of_inj; lia. }
  assert (HY : hnorm K Y <= INR P * (w * g)).
  { pose proof (exact_products prec emin emax Hprec Hemin Hemax Hgap rnd fcos fsin Hrnd Hcos Hsin Ht He p Hp P (fun s => xs (sg s)) (fun s => fs (sg s)) (fun s => XS (sg s)) (fun s => FS (sg s)) w g (151 / 100 * c)
    HP HPu ltac:(lra) ltac:(intros; apply HXS) ltac:(intros; apply HFS, Sg) ltac:(intros; apply Exs) ltac:(intros; apply Efs, Sg) ltac:(lra) ltac:(lra) L0 L2) as EP. fold K in EP. cbv beta in EP.
    eapply Rle_trans; [|exact EP]. right. apply rnorm_ext. intros i Hi. rewrite EY. reflexivity. }
  match goal with |- Rabs (_ - ?s) <= _ => assert (EO : s = IRDFT (2 ^ (p - 1)) Y j / INR K) end.
  { unfold synth. rewrite half_of_double, <- EK. f_equal. replace (2 ^ (p - 1))%nat with B by (unfold p, B; f_equal; lia).
    apply IRDFT_ext; [lia|]. intros q Hq. unfold mac_hist. rewrite nth_tab by lia. unfold Y. apply Csum_ext. intros a Ha. rewrite tab_length. unfold XS.
    destruct (Nat.ltb_spec a (S t)); [|ring]. rewrite nth_tab by lia. replace (S t - 1 - a)%nat with (t - a)%nat by lia. fold (W a).
    rewrite nth_RDFT by (rewrite LW, EK, half_of_double; lia). rewrite LW. unfold part_spec. rewrite <- EK. rewrite nth_RDFT by (rewrite pad_length, EK, half_of_double; lia). rewrite pad_length. reflexivity. }
  rewrite EO.
  eapply Rle_trans; [apply (samples_error prec emin emax Hprec Hemin Hemax Hgap rnd fcos fsin Hrnd Hcos Hsin Ht He p Hp P (rmac_hist rnd P (B + 1) (cell mat) hist) Y (INR P * (w * g)) j)|].
  - lia.
  - exact HPu.
  - fold K. lia.
  - exact HY.
  - fold u c K. eapply Rle_trans; [|exact MS]. right. apply hnorm_ext_pow; [apply Hp|]. intros q Hq. fold K in Hq. rewrite EK, half_of_double in Hq. rewrite EY. f_equal. unfold rmac_hist. rewrite nth_tab by auto. rewrite Lhist. replace (S t - 1)%nat with t by lia. reflexivity.
  - split; [|exact L2]. apply Rle_trans with (1 * (w * g)); [lra|apply Rmult_le_compat_r; lra].
  - fold u K sK. right. f_equal. rewrite Ewg. assert (EI : 2 * INR B = INR K) by (rewrite EK, mult_INR; reflexivity). rewrite EI. rewrite <- SS. field. lra.
Qed.

Lemma win_bounded : forall (l : list R) X m, 0 <= X -> (forall v, In v l -> Rabs v <= X) -> Rabs (nth m l 0) <= X.
Proof using. intros l X m HX H. destruct (Nat.lt_ge_cases m (length l)); [apply H, nth_In; auto|rewrite nth_overflow by auto; rewrite Rabs_R0; lra]. Qed.

Lemma pos20 : forall X, / 2 ^ 20 <= X <= 2 ^ 20 -> 0 <= X.
Proof using. intros X H. assert (0 < / 2 ^ 20) by (apply Rinv_0_lt_compat, pow_lt; lra). lra. Qed.

Lemma upols_error : forall k P h all mat X G t j, (0 < k < max_order)%nat -> (0 < P)%nat -> INR P <= 10000 -> (length h <= P * 2 ^ k)%nat -> blocks_of (2 ^ k) all ->
  mat = tab P (fun f => RF rnd fcos fsin (S k) (pad (2 * 2 ^ k) (part (2 ^ k) h f))) ->
  (forall v, In v (concat all) -> Rabs v <= X) -> (forall a, (a < P)%nat -> norm_r (part (2 ^ k) h a) <= G) -> / 2 ^ 20 <= X <= 2 ^ 20 -> / 2 ^ 20 <= G <= 2 ^ 20 ->
  (t < length all)%nat -> (j < 2 ^ k)%nat ->
  Rabs (rupols_out rnd fcos fsin k P (cell mat) all t j - lconv (concat all) h (t * 2 ^ k + j)) <= (114 * INR (S k) + 9 * INR P) * u * (INR P * (2 * INR (2 ^ k)) * (X * G)).
Proof using All.
  intros k P h all mat X G t j Hk HP P2 Hh Hall Hmat HX HG BX BG Hlt Hj.
  rewrite <- (upols_out_lconv k P h all t j) by (try lia; auto). pose proof (pos20 X BX) as X0.
  pose proof (K_is_2B k (proj1 Hk)) as EKB. pose proof (log2_up_2B k (proj1 Hk)) as ELB.
  unfold rupols_out, upols_out, ros_hist, os_hist. rewrite ELB. replace (2 * 2 ^ k - 2 ^ k + j)%nat with (2 ^ k + j)%nat by lia.
  apply (window_error k P h (fun a => os_win (2 ^ k) (2 ^ k) all (S a))); auto; try lia.
  - intros a. unfold os_win. rewrite tab_length. exact EKB.
  - intros a i. destruct (Nat.lt_ge_cases i (2 * 2 ^ k)).
    + unfold os_win. rewrite nth_tab by (rewrite EKB; auto). unfold delayed. destruct (_ <=? _)%nat; [|rewrite Rabs_R0; lra]. apply win_bounded; auto.
    + rewrite nth_overflow by (unfold os_win; rewrite tab_length, EKB; auto). rewrite Rabs_R0. exact X0.
Qed.

Lemma float_fixed : forall v, is_float prec emin v -> Rabs v <= bpow radix2 emax -> rnd v = v.
Proof using Hrnd Hprec. intros v Hv Hb. rewrite Hrnd by auto. unfold nearest. apply round_generic; [apply valid_rnd_N || typeclasses eauto|exact Hv]. Qed.

Lemma taps_fixed : forall k P h G, (0 < k < 27)%nat -> (0 < length h)%nat -> P = ceil_div (length h) (2 ^ k) -> INR P <= 10000 ->
  (forall v, In v h -> is_float prec emin v) -> (forall a, (a < P)%nat -> norm_r (part (2 ^ k) h a) <= G) -> / 2 ^ 20 <= G <= 2 ^ 20 ->
  (forall v, v = 0 \/ In v h -> rnd v = v) /\ (Z.of_nat (length h) < 2 ^ 64)%Z /\ (Z.of_nat P * Z.of_nat (2 ^ k + 1) < max_elements)%Z.
Proof using All.
  intros k P h G Hk Hh EP HPm Hfl HG BG.
  assert (B0 : (0 < 2 ^ k)%nat) by (apply Nat.neq_0_lt_0, Nat.pow_nonzero; lia).
  assert (HPB : (length h <= P * 2 ^ k)%nat) by (rewrite EP; apply ceil_div_mul; auto).
  assert (Bm : (2 ^ k <= 2 ^ 26)%nat) by (apply Nat.pow_le_mono_r; lia).
  assert (BZ : (Z.of_nat (2 ^ k) <= 2 ^ 26)%Z) by (change (2 ^ 26)%Z with (Z.of_nat 2 ^ Z.of_nat 26)%Z; rewrite <- Nat2Z.inj_pow; lia).
  assert (PZ : (Z.of_nat P <= 10000)%Z) by (apply le_IZR; rewrite <- INR_IZR_INZ; exact HPm).
  assert (PBZ : (Z.of_nat P * Z.of_nat (2 ^ k) <= 10000 * 2 ^ 26)%Z) by (apply Z.mul_le_mono_nonneg; lia).
  assert (HR : forall v, v = 0 \/ In v h -> rnd v = v).
  { intros v [->|Hv]. { apply float_fixed; [apply generic_format_0|rewrite Rabs_R0; apply bpow_ge_0]. }
    apply float_fixed; [apply Hfl, Hv|]. destruct (In_nth _ _ 0 Hv) as (i & Hi & <-).
    assert (Ha : (i / 2 ^ k < P)%nat) by (apply Nat.div_lt_upper_bound; lia). pose proof (HG _ Ha) as N. unfold norm_r in N. rewrite part_length in N.
    pose proof (Nat.mod_upper_bound i (2 ^ k) ltac:(lia)) as Hm.
    apply Rle_trans with (2 ^ 20). 2:{ rewrite <- bpow_IZR. apply bpow_le. lia. }
    apply Rle_trans with G; [|lra]. eapply Rle_trans; [|exact N]. unfold rnorm.
    replace (nth i h 0) with (nth (i mod 2 ^ k) (part (2 ^ k) h (i / 2 ^ k)) 0) by (rewrite nth_part by auto; f_equal; rewrite (Nat.div_mod i (2 ^ k)) at 3 by lia; lia).
    rewrite <- sqrt_Rsqr_abs. apply sqrt_le_1_alt. unfold Rsqr. apply (Rsum_ge_term (2 ^ k) (fun j => nth j (part (2 ^ k) h (i / 2 ^ k)) 0 * nth j (part (2 ^ k) h (i / 2 ^ k)) 0)); auto. intros. nra. }
  split; [exact HR|]. split; [lia|].
  eapply Z.le_lt_trans with (10000 * (2 ^ 26 + 1))%Z; [apply Z.mul_le_mono_nonneg; lia|]. reflexivity.
Qed.

Lemma format_upols : forall k P h all X G, (0 < k < 27)%nat -> (0 < length h)%nat -> P = ceil_div (length h) (2 ^ k) -> INR P <= 10000 -> blocks_of (2 ^ k) all ->
  (forall v, In v h -> is_float prec emin v) -> (forall v, In v (concat all) -> Rabs v <= X) -> (forall a, (a < P)%nat -> norm_r (part (2 ^ k) h a) <= G) ->
  / 2 ^ 20 <= X <= 2 ^ 20 -> / 2 ^ 20 <= G <= 2 ^ 20 ->
  exists ys, rpartitioned rnd fcos fsin (2 ^ k) h all = Ok ys /\ length (concat ys) = length (concat all) /\
    forall n, (n < length (concat ys))%nat ->
    Rabs (nth n (concat ys) 0 - lconv (concat all) h n) <= (114 * INR (S k) + 9 * INR P) * u * (INR P * (2 * INR (2 ^ k)) * (X * G)).
Proof using All.
  intros k P h all X G Hk Hh EP HPm Hall Hfl HX HG BX BG.
  assert (B0 : (0 < 2 ^ k)%nat) by (apply Nat.neq_0_lt_0, Nat.pow_nonzero; lia).
  assert (HP : (0 < P)%nat) by (rewrite EP, ceil_div_pos by auto; lia).
  assert (HPB : (length h <= P * 2 ^ k)%nat) by (rewrite EP; apply ceil_div_mul; auto).
  destruct (taps_fixed k P h G Hk Hh EP HPm Hfl HG BG) as (HR & H64 & Hmax).
  unfold rpartitioned. rewrite (runiform_partition_ok rnd fcos fsin (length h) h k); auto; try (rewrite <- EP); try (unfold max_order; lia).
  set (mat := tab P (fun f => RF rnd fcos fsin (S k) (pad (2 * 2 ^ k) (part (2 ^ k) h f)))).
  assert (EKK : (2 ^ S k = 2 * 2 ^ k)%nat) by apply Nat.pow_succ_r'.
  assert (Hmat : matrix_of P (2 ^ k + 1) mat).
  { split; [apply tab_length|]. intros r Hr. unfold mat, tab in Hr. apply in_map_iff in Hr. destruct Hr as (f & <- & _). rewrite RF_length, EKK, half_of_double. reflexivity. }
  cbn [bind rd nth_error]. rewrite (rd_ok _ mat 0 []) by (destruct Hmat as [-> _]; exact HP). cbn [bind].
  assert (MU : exists c, make_upc (rols rnd fcos fsin) dense_fdl (rdense_filter rnd) = Ok c).
  { unfold make_upc. cbn [rols ov_make]. unfold rmake_overlap_save. cbn. eexists. reflexivity. }
  destruct MU as (c & Ec). rewrite Ec. cbn [bind]. rewrite (matrix_row _ _ _ _ 0%nat Hmat HP). rewrite (proj1 Hmat).
  rewrite rupols_filter_and_run by (auto; unfold max_order; lia). eexists. split; [reflexivity|].
  assert (LC : length (concat (tab (length all) (fun t => tab (2 ^ k) (rupols_out rnd fcos fsin k P (cell mat) all t)))) = length (concat all)).
  { rewrite concat_tab_blocks, tab_length. symmetry. apply concat_blocks_length. exact Hall. }
  split; [exact LC|]. intros n Hn. rewrite concat_tab_blocks in *. rewrite tab_length in Hn. rewrite nth_tab by auto.
  assert (Hd : (n / 2 ^ k < length all)%nat) by (apply Nat.div_lt_upper_bound; lia). pose proof (Nat.mod_upper_bound n (2 ^ k) ltac:(lia)) as Hm.
  pose proof (upols_error k P h all mat X G (n / 2 ^ k) (n mod 2 ^ k) ltac:(unfold max_order; lia) HP HPm HPB Hall eq_refl HX HG BX BG Hd Hm) as UE.
  replace (n / 2 ^ k * 2 ^ k + n mod 2 ^ k)%nat with n in UE by (rewrite (Nat.div_mod n (2 ^ k)) at 1 by lia; lia). exact UE.
Qed.
End Format.
