(** Rounding errors of spectra, of sums of products of spectra, and of the samples made from them,
    in a floating point format. *)
From Coq Require Import Reals List Arith ZArith Lia Lra Psatz Bool.
From Flocq Require Import Core.
From Verif Require Import Base.Outcome Base.OutcomeFacts Base.Sums Base.Alias Base.Cplx Base.VecNorm Spec.Dft Spec.DigitRev Spec.Transforms Spec.Rounding
  Model.Fft2 Model.Algorithm Model.FftApps Model.RoundedFft Model.RoundedConv
  Proof.DftTheory Proof.Fft2Proof Proof.RfftProof Proof.StreamProof Proof.RoundedExec Proof.RoundedError Proof.RoundedPlan Proof.RoundedRfft Proof.RoundedMac.
Import ListNotations.
Local Open Scope R_scope.
Local Arguments Nat.div : simpl never.
Local Arguments Nat.modulo : simpl never.
Local Arguments Nat.pow : simpl never.

Lemma bpow_IZR : forall n, bpow radix2 (Z.of_nat n) = 2 ^ n.
Proof. intros. rewrite bpow_powerRZ. rewrite <- pow_powerRZ. auto. Qed.

Lemma bpow_neg : forall n, bpow radix2 (- Z.of_nat n) = / 2 ^ n.
Proof. intros. rewrite bpow_opp, bpow_IZR. auto. Qed.

Section Format.
Variables (prec emin emax : Z).
Hypotheses (Hprec : (24 <= prec <= 100)%Z) (Hemin : (emin <= -149)%Z) (Hemax : (127 <= emax)%Z) (Hgap : (emin + prec <= -120)%Z).
Variables (rnd fcos fsin : R -> R).
Hypotheses (Hrnd : rounds_to_nearest prec emin emax rnd) (Hcos : accurate prec emin fcos cos) (Hsin : accurate prec emin fsin sin).
Let u := bpow radix2 (- prec).
Let et := bpow radix2 (emin - 1).
Let Om := bpow radix2 emax.
Hypotheses (Ht : is_float prec emin (rtwo_pi rnd)) (He : Rabs (rtwo_pi rnd - 2 * PI) <= 82 / 10 * bpow radix2 (- prec)).
Variable p : nat.
Hypothesis Hp : (0 < p <= 27)%nat.
Let K := (2 ^ p)%nat.
Let sK := sqrt (INR K).
Let c := 28 * INR p * u.

Lemma u_bounds : 0 < u <= / 16777216.
Proof using All. exact (uu_bounds prec emin emax Hprec Hemin Hemax). Qed.

Lemma eta_bounds : 0 < et <= / 2 ^ 120 * u.
Proof using All.
  unfold et, u. split; [apply bpow_gt_0|]. change 120%nat with (Z.to_nat 120). rewrite <- (bpow_neg (Z.to_nat 120)). rewrite <- bpow_plus. apply bpow_le. lia.
Qed.

Lemma tiny_u : 0 < tiny emin <= / 2 ^ 86 * u.
Proof using All.
  unfold tiny, u. split; [apply bpow_gt_0|]. rewrite <- (bpow_neg 86). rewrite <- bpow_plus. apply bpow_le. lia.
Qed.

Lemma Om_16 : 2 ^ 111 <= bpow radix2 (emax - 16) /\ 65536 * bpow radix2 (emax - 16) = Om.
Proof using All.
  split; [rewrite <- (bpow_IZR 111); apply bpow_le; lia|]. unfold Om. replace emax with (16 + (emax - 16))%Z at 2 by lia. rewrite bpow_plus. f_equal.
Qed.

Lemma sK_bounds : 1 <= sK <= 11600 /\ sK * sK = INR K.
Proof using All. split; [apply sqrt_n; auto|]. unfold sK. apply sqrt_sqrt, pos_INR. Qed.

Lemma c_bounds : 28 * u <= c <= / 10000.
Proof using All.
  pose proof u_bounds. assert (1 <= INR p <= 27). { split; [change 1 with (INR 1); apply le_INR; lia|]. replace 27 with (INR 27) by (cbn; lra). apply le_INR. lia. }
  unfold c. split; nra.
Qed.

Lemma FR_error : forall d x, length x = K -> vnorm K (fun i => nth i x C0) <= bpow radix2 (emax - 16) ->
  vnorm K (fun i => nth i (FR rnd fcos fsin p d x) C0 - DFT d K (fun i => nth i x C0) i)%C <= c * (sK * vnorm K (fun i => nth i x C0)) + tiny emin.
Proof using All.
  intros d x Hx Hn. destruct (format_fft prec emin emax Hprec Hemin Hemax rnd fcos fsin Hrnd Hcos Hsin (rtwo_pi rnd) Ht He d p x (rdit2_v3 rnd) Hp Hx) as (y & Ey & Ly & By); auto.
  { unfold radix2_kernel. auto. }
  rewrite (FR_plan rnd fcos fsin p d x Hp Hx) in Ey. inversion Ey as [E]. rewrite E. rewrite norm_DFT in By. exact By.
Qed.

Lemma rf_error : forall w, length w = K -> rnorm K (fun i => nth i w 0) <= bpow radix2 (emax - 16) ->
  hnorm K (fun k => nth k (RF rnd fcos fsin p w) C0 - DFT Forward K (fun j => RtoC (nth j w 0)) k)%C <= 3 / 2 * (c * (sK * rnorm K (fun i => nth i w 0)) + tiny emin).
Proof using All.
  intros w Hw Hn. destruct (pow2_half p ltac:(lia)) as [m [Hm [En Em]]]. assert (EN : vnorm K (fun i => nth i (map RtoC w) C0) = rnorm K (fun i => nth i w 0)).
  { rewrite <- rnorm_RtoC. apply vnorm_ext. intros. apply nth_RtoC. }
  assert (E := FR_error Forward (map RtoC w) ltac:(rewrite map_length; auto)). rewrite EN in E. specialize (E Hn).
  set (y := FR rnd fcos fsin p Forward (map RtoC w)) in *.
  apply Rle_trans with (hnorm K (fun k => nth k y C0 - DFT Forward K (fun j => nth j (map RtoC w) C0) k)%C).
  - right. unfold K. rewrite En. apply hnorm_ext; auto. intros k Hk. unfold RF. rewrite En, half_of_double. rewrite nth_tab by lia. fold y. f_equal. apply DFT_ext. intros. symmetry. apply nth_RtoC.
  - eapply Rle_trans; [unfold K; rewrite En; apply hnorm_half; auto|]. rewrite <- En. fold K. lra.
Qed.

Lemma rb_error : forall X j, (j < K)%nat -> hnorm K (fun k => nth k X C0) <= bpow radix2 (emax - 16) ->
  Rabs (nth j (RB rnd fcos fsin p X) 0 - IRDFT (2 ^ (p - 1)) (fun k => nth k X C0) j) <= c * (sK * hnorm K (fun k => nth k X C0)) + tiny emin.
Proof using All.
  intros X j Hj Hn. destruct (pow2_half p ltac:(lia)) as [m [Hm [En Em]]]. rewrite hnorm_herm in *. set (h := tab K (herm K (fun k => nth k X C0))).
  assert (EN : vnorm K (fun i => nth i h C0) = vnorm K (herm K (fun k => nth k X C0))) by (apply vnorm_ext; intros; unfold h; rewrite nth_tab by auto; auto).
  assert (E := FR_error Backward h (tab_length _ _ _)). rewrite EN in E. specialize (E Hn). eapply Rle_trans; [|exact E].
  unfold RB. fold K. fold h. rewrite nth_tab by auto. rewrite <- Em, <- herm_idft by auto. rewrite <- En. fold K.
  rewrite (DFT_ext _ K (herm K (fun k => nth k X C0)) (fun i => nth i h C0)) by (intros; unfold h; rewrite nth_tab by auto; auto).
  set (y := FR rnd fcos fsin p Backward h). eapply Rle_trans; [|apply (Cabs_le_vnorm K (fun i => nth i y C0 - DFT Backward K (fun i => nth i h C0) i)%C j Hj)].
  exact (proj1 (Rabs_le_Cabs (nth j y C0 - DFT Backward K (fun i => nth i h C0) j)%C)).
Qed.

Lemma K_bounds : 1 <= INR K <= 134217728.
Proof using All. unfold K. rewrite pow_INR. change (INR 2) with 2. split; [apply pow_R1_Rle; lra|]. replace 134217728 with (2 ^ 27) by lra. apply Rle_pow; [lra|lia]. Qed.

Lemma rinv_exact : rinv_size rnd K = / INR K.
Proof using All.
  pose proof (Om_big prec emin emax Hprec Hemin Hemax rnd fcos fsin Hrnd Hcos Hsin) as OB. pose proof K_bounds as KB. assert (P100 : 134217728 <= 2 ^ 100) by (replace 134217728 with (2 ^ 27) by lra; apply Rle_pow; [lra|lia]).
  unfold rinv_size. rewrite (rnd_exact prec emin emax Hprec Hemin Hemax rnd fcos fsin Hrnd Hcos Hsin (INR K)).
  2:{ rewrite Rabs_pos_eq; lra. } 2:{ apply (float_pow2 prec emin emax Hprec Hemin Hemax rnd fcos fsin Hrnd Hcos Hsin). lia. }
  unfold Rdiv. rewrite Rmult_1_l. apply (rnd_exact prec emin emax Hprec Hemin Hemax rnd fcos fsin Hrnd Hcos Hsin).
  - assert (0 < / INR K <= 1). { split; [apply Rinv_0_lt_compat; lra|]. rewrite <- Rinv_1. apply Rinv_le_contravar; lra. } rewrite Rabs_pos_eq; lra.
  - unfold K. rewrite pow_INR. change (INR 2) with 2. rewrite <- bpow_neg. apply generic_format_bpow. unfold FLT_exp. lia.
Qed.

(** Samples made from a computed spectrum. *)
Lemma synth_error : forall Yh Y Q E j, (j < K)%nat -> hnorm K Y <= Q -> hnorm K (fun k => nth k Yh C0 - Y k)%C <= E * Q -> 0 <= E <= 1 / 100 -> / 2 ^ 40 <= Q <= 2 ^ 110 ->
  Rabs (rnd (nth j (RB rnd fcos fsin p Yh) 0 * rinv_size rnd K) - IRDFT (2 ^ (p - 1)) Y j / INR K) <= (102 / 100 * c + E + 11 / 10 * u) * (sK * Q / INR K).
Proof using All.
  intros Yh Y Q E j Hj HY HE HE1 HQ. pose proof u_bounds as U. pose proof eta_bounds as EB. pose proof tiny_u as TB. pose proof (Om_big prec emin emax Hprec Hemin Hemax rnd fcos fsin Hrnd Hcos Hsin) as OB. pose proof Om_16 as [O1 O2]. pose proof sK_bounds as [SB SS]. pose proof c_bounds as CB. pose proof K_bounds as KB.
  assert (Q0 : 0 < Q). { assert (0 < / 2 ^ 40) by (apply Rinv_0_lt_compat, pow_lt; lra). lra. }
  assert (HYh : hnorm K (fun k => nth k Yh C0) <= 101 / 100 * Q). { eapply Rle_trans; [apply (hnorm_near K _ Y (E * Q) HE)|]. nra. }
  assert (P111 : 2 ^ 111 = 2 * 2 ^ 110) by (change (2 ^ 111) with (2 * 2 ^ 110); auto).
  assert (RBE := rb_error Yh j Hj ltac:(lra)). set (v := nth j (RB rnd fcos fsin p Yh) 0) in *. set (hy := hnorm K (fun k => nth k Yh C0)) in *.
  assert (hy0 : 0 <= hy) by apply hnorm_pos. set (IY := IRDFT (2 ^ (p - 1)) Y j) in *. set (IYh := IRDFT (2 ^ (p - 1)) (fun k => nth k Yh C0) j) in *.
  assert (D1 : Rabs (IYh - IY) <= sK * (E * Q)). { unfold IYh, IY. rewrite <- IRDFT_sub. eapply Rle_trans; [apply irdft_le; [lia|auto]|]. apply Rmult_le_compat_l; [fold K sK; lra|exact HE]. }
  assert (B1 : Rabs IY <= sK * Q). { unfold IY. eapply Rle_trans; [apply irdft_le; [lia|auto]|]. apply Rmult_le_compat_l; [fold K sK; lra|exact HY]. }
  set (sQ := sK * Q) in *. assert (sQ0 : Q <= sQ) by (unfold sQ; nra). assert (sQ1 : sQ <= 11600 * Q) by (unfold sQ; apply Rmult_le_compat_r; lra).
  assert (CH : c * (sK * hy) <= 101 / 100 * (c * sQ)). { unfold sQ. replace (101 / 100 * (c * (sK * Q))) with (c * (sK * (101 / 100 * Q))) by ring. apply Rmult_le_compat_l; [lra|]. apply Rmult_le_compat_l; lra. }
  assert (TQ : tiny emin <= / 2 ^ 40 * (u * Q)). { replace (/ 2 ^ 40 * (u * Q)) with (u * Q * / 2 ^ 40) by ring. assert (H1 : u * / 2 ^ 40 <= u * Q) by (apply Rmult_le_compat_l; lra).
    apply Rle_trans with (u * / 2 ^ 40 * / 2 ^ 40); [|apply Rmult_le_compat_r; [apply Rlt_le, Rinv_0_lt_compat, pow_lt; lra|auto]].
    assert (E80 : / 2 ^ 40 * / 2 ^ 40 = / 2 ^ 80) by (rewrite <- Rinv_mult, <- pow_add; auto). rewrite Rmult_assoc, E80. eapply Rle_trans; [apply TB|]. rewrite Rmult_comm. apply Rmult_le_compat_l; [lra|]. apply Rinv_le_contravar; [apply pow_lt; lra|]. apply Rle_pow; [lra|lia]. }
  assert (uQ : 0 < u * Q) by (apply Rmult_lt_0_compat; lra). assert (uQs : u * Q <= u * sQ) by (apply Rmult_le_compat_l; lra).
  assert (I40 : / 2 ^ 40 <= 1 / 10 ^ 12) by (apply Rle_trans with (/ 10 ^ 12); [apply Rinv_le_contravar; lra|lra]).
  assert (TQ' : tiny emin <= 1 / 1000 * (u * sQ)) by nra.
  assert (cS : 0 <= c * sQ) by (apply Rmult_le_pos; lra). assert (cS2 : c * sQ <= / 10000 * sQ) by (apply Rmult_le_compat_r; lra). assert (ES0 : 0 <= E * sQ) by (apply Rmult_le_pos; lra). assert (ES : E * sQ <= 1 / 100 * sQ) by (apply Rmult_le_compat_r; lra).
  assert (uS : u * sQ <= / 16777216 * sQ) by (apply Rmult_le_compat_r; lra).
  replace (sK * (E * Q)) with (E * sQ) in D1 by (unfold sQ; ring).
  assert (DV : Rabs (v - IY) <= 101 / 100 * (c * sQ) + 1 / 1000 * (u * sQ) + E * sQ). { replace (v - IY) with ((v - IYh) + (IYh - IY)) by ring. eapply Rle_trans; [apply Rabs_triang|]. lra. }
  assert (BV : Rabs v <= 103 / 100 * sQ). { replace v with ((v - IY) + IY) by ring. eapply Rle_trans; [apply Rabs_triang|]. lra. }
  rewrite rinv_exact. assert (iK : 0 < / INR K <= 1). { split; [apply Rinv_0_lt_compat; lra|]. rewrite <- Rinv_1. apply Rinv_le_contravar; lra. }
  assert (AV : Rabs (v * / INR K) = Rabs v * / INR K) by (rewrite Rabs_mult, (Rabs_pos_eq (/ INR K)); lra).
  assert (HA : Rabs (v * / INR K) <= Om). { rewrite AV. apply Rle_trans with (Rabs v * 1); [apply Rmult_le_compat_l; [apply Rabs_pos|lra]|]. lra. }
  assert (ER := acc prec emin emax Hprec Hemin Hemax rnd fcos fsin Hrnd Hcos Hsin _ HA). fold u et in ER. rewrite AV in ER.
  assert (EQ : et <= 1 / 1000 * (u * sQ * / INR K)).
  { assert (KK : / INR K * sK * sK = 1) by (rewrite Rmult_assoc, SS; field; lra). assert (G : Q * / 134217728 <= sQ * / INR K). { apply Rmult_le_compat; try lra. apply Rinv_le_contravar; lra. }
    replace (1 / 1000 * (u * sQ * / INR K)) with (u * (1 / 1000 * (sQ * / INR K))) by ring. eapply Rle_trans; [apply EB|]. rewrite (Rmult_comm (/ 2 ^ 120)). apply Rmult_le_compat_l; [lra|].
    apply Rle_trans with (1 / 1000 * (/ 2 ^ 40 * / 134217728)); [|assert (/ 2 ^ 40 * / 134217728 <= Q * / 134217728) by (apply Rmult_le_compat_r; lra); lra].
    replace 134217728 with (2 ^ 27) by lra. rewrite <- Rinv_mult, <- pow_add. change (40 + 27)%nat with 67%nat. apply Rle_trans with (/ 2 ^ 10 * / 2 ^ 67).
    - rewrite <- Rinv_mult, <- pow_add. apply Rinv_le_contravar; [apply pow_lt; lra|]. apply Rle_pow; [lra|lia].
    - apply Rmult_le_compat_r; [apply Rlt_le, Rinv_0_lt_compat, pow_lt; lra|]. lra. }
  replace (rnd (v * / INR K) - IY / INR K) with ((rnd (v * / INR K) - v * / INR K) + (v - IY) * / INR K) by (unfold Rdiv; ring).
  eapply Rle_trans; [apply Rabs_triang|]. rewrite (Rabs_mult (v - IY)), (Rabs_pos_eq (/ INR K)) by lra.
  set (k1 := / INR K) in *. assert (Rabs (v - IY) * k1 <= (101 / 100 * (c * sQ) + 1 / 1000 * (u * sQ) + E * sQ) * k1) by (apply Rmult_le_compat_r; lra).
  assert (u * (Rabs v * k1) <= u * (103 / 100 * sQ * k1)) by (apply Rmult_le_compat_l; [lra|]; apply Rmult_le_compat_r; lra).
  assert (0 <= c * sQ * k1) by (apply Rmult_le_pos; lra). assert (0 <= u * sQ * k1) by (apply Rmult_le_pos; [apply Rmult_le_pos|]; lra).
  unfold Rdiv. fold k1. replace ((102 / 100 * c + E + 11 / 10 * u) * (sQ * k1)) with (102 / 100 * (c * sQ * k1) + E * sQ * k1 + 11 / 10 * (u * sQ * k1)) by field. lra.
Qed.

(** ** Sums of products of computed spectra *)
Section Products.
Variables (P : nat) (xs fs XS FS : nat -> nat -> C) (w h delta : R).
Hypotheses (HP : (0 < P)%nat) (HPu : INR P * (8 * u) <= 9 / 1000) (Hd : 0 <= delta <= / 1000).
Hypotheses (HX : forall s, (s < P)%nat -> hnorm K (XS s) <= w) (HF : forall s, (s < P)%nat -> hnorm K (FS s) <= h).
Hypotheses (Hx : forall s, (s < P)%nat -> hnorm K (fun k => xs s k - XS s k)%C <= delta * w) (Hf : forall s, (s < P)%nat -> hnorm K (fun k => fs s k - FS s k)%C <= delta * h).
Hypotheses (Hw : 0 <= w) (Hh : 0 <= h) (Hlow : / 2 ^ 40 <= w * h) (Hhigh : INR P * (w * h) <= 2 ^ 110).

Lemma P_ge1 : 1 <= INR P.
Proof using HP. change 1 with (INR 1). apply le_INR. exact HP. Qed.

Lemma xs_norm : forall s, (s < P)%nat -> hnorm K (xs s) <= 1001 / 1000 * w /\ hnorm K (fs s) <= 1001 / 1000 * h.
Proof using All.
  intros s Hs. split.
  - eapply Rle_trans; [apply (hnorm_near K _ (XS s) _ (Hx s Hs))|]. specialize (HX s Hs). nra.
  - eapply Rle_trans; [apply (hnorm_near K _ (FS s) _ (Hf s Hs))|]. specialize (HF s Hs). nra.
Qed.

Lemma exact_products : hnorm K (fun k => Csum P (fun s => XS s k * FS s k)%C) <= INR P * (w * h).
Proof using All.
  unfold hnorm. eapply Rle_trans; [|apply (rnorm_sum K P (fun s k => Cabs (XS s (mir K k)) * Cabs (FS s (mir K k))))].
  - apply rnorm_mono. intros k Hk. split; [apply Cabs_pos|]. clear. induction P as [|q IH]; [change (Csum 0 (fun s => XS s (mir K k) * FS s (mir K k))%C) with C0; rewrite Cabs_0; cbn; lra|].
    rewrite Csum_S, Rsum_S. eapply Rle_trans; [apply Cabs_triang|]. rewrite Cabs_mul. lra.
  - intros. apply Rmult_le_pos; apply Cabs_pos.
  - intros s Hs. eapply Rle_trans; [apply rnorm_mul; intros; apply Cabs_pos|]. apply Rmult_le_compat; try apply rnorm_pos; [apply HX|apply HF]; auto.
Qed.

Lemma computed_products : hnorm K (fun k => Csum P (fun s => xs s k * fs s k) - Csum P (fun s => XS s k * FS s k))%C <= INR P * (2001 / 1000 * delta * (w * h)).
Proof using All.
  unfold hnorm. eapply Rle_trans; [|apply (rnorm_sum K P (fun s k => Cabs (xs s (mir K k) - XS s (mir K k))%C * Cabs (fs s (mir K k)) + Cabs (XS s (mir K k)) * Cabs (fs s (mir K k) - FS s (mir K k))%C))].
  - apply rnorm_mono. intros k Hk. split; [apply Cabs_pos|]. rewrite <- Csum_sub. clear. set (i := mir K k). induction P as [|q IH]; [change (Csum 0 (fun s => xs s i * fs s i - XS s i * FS s i)%C) with C0; rewrite Cabs_0; cbn; lra|].
    rewrite Csum_S, Rsum_S. eapply Rle_trans; [apply Cabs_triang|]. apply Rplus_le_compat; [exact IH|].
    replace (xs q i * fs q i - XS q i * FS q i)%C with ((xs q i - XS q i) * fs q i + XS q i * (fs q i - FS q i))%C by ring. eapply Rle_trans; [apply Cabs_triang|]. rewrite !Cabs_mul. lra.
  - intros. assert (0 <= Cabs (xs s (mir K i) - XS s (mir K i))%C * Cabs (fs s (mir K i))) by (apply Rmult_le_pos; apply Cabs_pos). assert (0 <= Cabs (XS s (mir K i)) * Cabs (fs s (mir K i) - FS s (mir K i))%C) by (apply Rmult_le_pos; apply Cabs_pos). lra.
  - intros s Hs. destruct (xs_norm s Hs) as [N1 N2]. eapply Rle_trans; [apply rnorm_add; intros; apply Rmult_le_pos; apply Cabs_pos|].
    apply Rle_trans with (delta * w * (1001 / 1000 * h) + w * (delta * h)).
    + apply Rplus_le_compat; (eapply Rle_trans; [apply rnorm_mul; intros; apply Cabs_pos|]); apply Rmult_le_compat; try apply rnorm_pos; auto; [apply (Hx s Hs)|apply (HX s Hs)|apply (Hf s Hs)].
    + right. field.
Qed.

Lemma zeta_small : et / u <= / 2 ^ 80 * (w * h) /\ sK * (et / u) <= / 1000 * (w * h).
Proof using All.
  pose proof u_bounds as U. pose proof eta_bounds as EB. pose proof sK_bounds as [SB _].
  assert (Z : et / u <= / 2 ^ 120). { unfold Rdiv. apply Rle_trans with (/ 2 ^ 120 * u * / u); [apply Rmult_le_compat_r; [apply Rlt_le, Rinv_0_lt_compat; lra|lra]|]. right. rewrite Rmult_assoc, Rinv_r by lra. ring. }
  assert (E80 : / 2 ^ 120 = / 2 ^ 80 * / 2 ^ 40) by (rewrite <- Rinv_mult, <- pow_add; auto). assert (I80 : 0 < / 2 ^ 80) by (apply Rinv_0_lt_compat, pow_lt; lra).
  assert (A : et / u <= / 2 ^ 80 * (w * h)). { eapply Rle_trans; [exact Z|]. rewrite E80. apply Rmult_le_compat_l; lra. }
  split; auto. assert (Z0 : 0 <= et / u) by (unfold Rdiv; apply Rmult_le_pos; [lra|apply Rlt_le, Rinv_0_lt_compat; lra]).
  apply Rle_trans with (11600 * (/ 2 ^ 80 * (w * h))); [apply Rmult_le_compat; lra|]. assert (S80 : 11600 * / 2 ^ 80 <= / 1000).
  { apply Rle_trans with (11600 * / 2 ^ 40); [apply Rmult_le_compat_l; [lra|]; apply Rinv_le_contravar; [apply pow_lt; lra|apply Rle_pow; [lra|lia]]|]. lra. }
  assert (0 < w * h) by (assert (0 < / 2 ^ 40) by (apply Rinv_0_lt_compat, pow_lt; lra); lra). rewrite <- Rmult_assoc. apply Rmult_le_compat_r; lra.
Qed.

Lemma bin_le : forall X k, (k < K)%nat -> Cabs (X (mir K k)) <= hnorm K X.
Proof using All.
  intros X k Hk. rewrite hnorm_herm. eapply Rle_trans; [|apply (Cabs_le_vnorm K (herm K X) k Hk)]. right. unfold herm, mir. destruct (K / 2 + 1 <=? k)%nat; auto. rewrite Cabs_conj. auto.
Qed.

Lemma mass_bound : forall k, (k < K)%nat -> 4 * mass u et P (fun s => xs s (mir K k)) (fun s => fs s (mir K k)) + 1 <= Om.
Proof using All.
  intros k Hk. pose proof Om_16 as [O1 O2]. destruct zeta_small as [Z _]. pose proof P_ge1 as P1.
  assert (W0 : 0 < w * h) by (assert (0 < / 2 ^ 40) by (apply Rinv_0_lt_compat, pow_lt; lra); lra).
  assert (B : mass u et P (fun s => xs s (mir K k)) (fun s => fs s (mir K k)) <= INR P * (11 / 10 * (w * h))).
  { unfold mass. assert (T : forall s, (s < P)%nat -> Cabs (xs s (mir K k)) * Cabs (fs s (mir K k)) + et / u <= 11 / 10 * (w * h)).
    { intros s Hs. destruct (xs_norm s Hs) as [N1 N2]. pose proof (bin_le (xs s) k Hk). pose proof (bin_le (fs s) k Hk).
      assert (Cabs (xs s (mir K k)) * Cabs (fs s (mir K k)) <= 1001 / 1000 * w * (1001 / 1000 * h)) by (apply Rmult_le_compat; try apply Cabs_pos; lra).
      assert (/ 2 ^ 80 * (w * h) <= / 1000 * (w * h)). { apply Rmult_le_compat_r; [lra|]. apply Rinv_le_contravar; [lra|]. apply Rle_trans with (2 ^ 10); [lra|apply Rle_pow; [lra|lia]]. } lra. }
    clear - T. induction P as [|q IH]; [cbn; lra|]. rewrite Rsum_S, S_INR. assert (Rsum q (fun s => Cabs (xs s (mir K k)) * Cabs (fs s (mir K k)) + et / u) <= INR q * (11 / 10 * (w * h))) by (apply IH; intros; apply T; lia).
    pose proof (T q ltac:(lia)). lra. }
  assert (2 ^ 111 = 2 * 2 ^ 110) by (change (2 ^ 111) with (2 * 2 ^ 110); auto). assert (1 <= 2 ^ 110) by (apply pow_R1_Rle; lra). lra.
Qed.

Lemma mac_spectrum : hnorm K (fun k => macc rnd P (fun s => xs s k) (fun s => fs s k) - Csum P (fun s => XS s k * FS s k))%C <= (2001 / 1000 * delta + 82 / 10 * INR P * u) * (INR P * (w * h)).
Proof using All.
  pose proof u_bounds as U. pose proof eta_bounds as EB. pose proof P_ge1 as P1. destruct zeta_small as [_ ZS]. pose proof sK_bounds as [SB _].
  assert (W0 : 0 < w * h) by (assert (0 < / 2 ^ 40) by (apply Rinv_0_lt_compat, pow_lt; lra); lra).
  assert (E1 : et <= 1 / 100). { assert (/ 2 ^ 120 <= 1) by (rewrite <- Rinv_1; apply Rinv_le_contravar; [lra|apply pow_R1_Rle; lra]). assert (/ 2 ^ 120 * u <= 1 * u) by (apply Rmult_le_compat_r; lra). lra. }
  destruct (growth (8 * u) P ltac:(lra) HPu) as [G1 G2]. set (g := (1 + 8 * u) ^ P - 1) in *. assert (g0 : 0 <= g) by (unfold g; lra).
  assert (Step : hnorm K (fun k => macc rnd P (fun s => xs s k) (fun s => fs s k) - Csum P (fun s => xs s k * fs s k))%C <= g * (INR P * (1004 / 1000 * (w * h)))).
  { unfold hnorm. apply Rle_trans with (rnorm K (fun k => g * mass u et P (fun s => xs s (mir K k)) (fun s => fs s (mir K k)))).
    - apply rnorm_mono. intros k Hk. split; [apply Cabs_pos|]. apply (macc_error rnd u et Om); auto; [apply (acc prec emin emax Hprec Hemin Hemax rnd fcos fsin Hrnd Hcos Hsin)|lra|apply mass_bound; auto].
    - rewrite rnorm_scale by lra. apply Rmult_le_compat_l; [lra|]. unfold mass. apply rnorm_sum.
      + intros. assert (0 <= Cabs (xs s (mir K i)) * Cabs (fs s (mir K i))) by (apply Rmult_le_pos; apply Cabs_pos). assert (0 <= et / u) by (unfold Rdiv; apply Rmult_le_pos; [lra|apply Rlt_le, Rinv_0_lt_compat; lra]). lra.
      + intros s Hs. destruct (xs_norm s Hs) as [N1 N2]. assert (Z0 : 0 <= et / u) by (unfold Rdiv; apply Rmult_le_pos; [lra|apply Rlt_le, Rinv_0_lt_compat; lra]).
        eapply Rle_trans; [apply rnorm_add; intros; [apply Rmult_le_pos; apply Cabs_pos|auto]|]. rewrite rnorm_const by auto. fold sK. rewrite (Rmult_comm (et / u)).
        assert (rnorm K (fun i => Cabs (xs s (mir K i)) * Cabs (fs s (mir K i))) <= 1001 / 1000 * w * (1001 / 1000 * h)). { eapply Rle_trans; [apply rnorm_mul; intros; apply Cabs_pos|]. apply Rmult_le_compat; auto; apply rnorm_pos. }
        lra. }
  set (Q := INR P * (w * h)). assert (Q0 : 0 <= Q) by (unfold Q; apply Rmult_le_pos; lra).
  assert (Tri : hnorm K (fun k => macc rnd P (fun s => xs s k) (fun s => fs s k) - Csum P (fun s => XS s k * FS s k))%C <= g * (INR P * (1004 / 1000 * (w * h))) + INR P * (2001 / 1000 * delta * (w * h))).
  { eapply Rle_trans; [|apply Rplus_le_compat; [exact Step|apply computed_products]]. eapply Rle_trans; [|apply hnorm_add]. right. apply rnorm_ext. intros. f_equal. ring. }
  eapply Rle_trans; [exact Tri|]. replace (g * (INR P * (1004 / 1000 * (w * h)))) with (1004 / 1000 * g * Q) by (unfold Q; field). replace (INR P * (2001 / 1000 * delta * (w * h))) with (2001 / 1000 * delta * Q) by (unfold Q; field).
  rewrite <- Rmult_plus_distr_r. apply Rmult_le_compat_r; auto. assert (0 <= INR P * u) by (apply Rmult_le_pos; lra). lra.
Qed.

End Products.

(** One product, as in fft_convolver. *)
Lemma product_spectrum : forall (x f X F : nat -> C) w h delta, 0 <= delta <= / 1000 -> hnorm K X <= w -> hnorm K F <= h ->
  hnorm K (fun k => x k - X k)%C <= delta * w -> hnorm K (fun k => f k - F k)%C <= delta * h -> 0 <= w -> 0 <= h -> / 2 ^ 40 <= w * h -> w * h <= 2 ^ 110 ->
  hnorm K (fun k => rmul rnd (x k) (f k) - X k * F k)%C <= (2001 / 1000 * delta + 82 / 10 * u) * (w * h).
Proof using All.
  intros x f X F w h delta Hd HX HF Hx Hf Hw Hh Hlow Hhigh. pose proof u_bounds as U. pose proof eta_bounds as EB.
  assert (E1 : et <= 1 / 100). { assert (/ 2 ^ 120 <= 1) by (rewrite <- Rinv_1; apply Rinv_le_contravar; [lra|apply pow_R1_Rle; lra]). assert (/ 2 ^ 120 * u <= 1 * u) by (apply Rmult_le_compat_r; lra). lra. }
  assert (W0 : 0 < w * h) by (assert (0 < / 2 ^ 40) by (apply Rinv_0_lt_compat, pow_lt; lra); lra).
  assert (A1 : (0 < 1)%nat) by lia. assert (A2 : INR 1 * (8 * u) <= 9 / 1000) by (cbn; lra). assert (A3 : INR 1 * (w * h) <= 2 ^ 110) by (cbn [INR]; lra).
  pose proof (computed_products 1 (fun _ => x) (fun _ => f) (fun _ => X) (fun _ => F) w h delta A1 A2 Hd (fun _ _ => HX) (fun _ _ => HF) (fun _ _ => Hx) (fun _ _ => Hf) Hw Hh Hlow A3) as CP.
  pose proof (mass_bound 1 (fun _ => x) (fun _ => f) (fun _ => X) (fun _ => F) w h delta A1 A2 Hd (fun _ _ => HX) (fun _ _ => HF) (fun _ _ => Hx) (fun _ _ => Hf) Hw Hh Hlow A3) as MB.
  destruct (xs_norm 1 (fun _ => x) (fun _ => f) (fun _ => X) (fun _ => F) w h delta A1 A2 Hd (fun _ _ => HX) (fun _ _ => HF) (fun _ _ => Hx) (fun _ _ => Hf) Hw Hh Hlow A3 0%nat A1) as [N1 N2].
  destruct (zeta_small 1 (fun _ => x) (fun _ => f) (fun _ => X) (fun _ => F) w h delta A1 A2 Hd (fun _ _ => HX) (fun _ _ => HF) (fun _ _ => Hx) (fun _ _ => Hf) Hw Hh Hlow A3) as [_ ZS].
  assert (Step : hnorm K (fun k => rmul rnd (x k) (f k) - x k * f k)%C <= 46 / 10 * u * (1004 / 1000 * (w * h))).
  { unfold hnorm. apply Rle_trans with (rnorm K (fun k => 46 / 10 * u * (Cabs (x (mir K k)) * Cabs (f (mir K k)) + et / u))).
    - apply rnorm_mono. intros k Hk. split; [apply Cabs_pos|]. apply (product_mass rnd u et Om); auto; [apply (acc prec emin emax Hprec Hemin Hemax rnd fcos fsin Hrnd Hcos Hsin)|lra|]. specialize (MB k Hk). rewrite mass_S in MB. unfold mass in MB. change (Rsum 0 (fun s => Cabs (x (mir K k)) * Cabs (f (mir K k)) + et / u)) with 0 in MB.
      assert (0 <= Cabs (x (mir K k)) * Cabs (f (mir K k))) by (apply Rmult_le_pos; apply Cabs_pos). assert (0 <= et / u) by (unfold Rdiv; apply Rmult_le_pos; [lra|apply Rlt_le, Rinv_0_lt_compat; lra]). lra.
    - rewrite rnorm_scale by lra. apply Rmult_le_compat_l; [lra|]. assert (Z0 : 0 <= et / u) by (unfold Rdiv; apply Rmult_le_pos; [lra|apply Rlt_le, Rinv_0_lt_compat; lra]).
      eapply Rle_trans; [apply rnorm_add; intros; [apply Rmult_le_pos; apply Cabs_pos|auto]|]. rewrite rnorm_const by auto. fold sK. rewrite (Rmult_comm (et / u)).
      assert (rnorm K (fun i => Cabs (x (mir K i)) * Cabs (f (mir K i))) <= 1001 / 1000 * w * (1001 / 1000 * h)). { eapply Rle_trans; [apply rnorm_mul; intros; apply Cabs_pos|]. apply Rmult_le_compat; auto; apply rnorm_pos. }
      lra. }
  assert (Tri : hnorm K (fun k => rmul rnd (x k) (f k) - X k * F k)%C <= 46 / 10 * u * (1004 / 1000 * (w * h)) + INR 1 * (2001 / 1000 * delta * (w * h))).
  { eapply Rle_trans; [|apply Rplus_le_compat; [exact Step|exact CP]]. eapply Rle_trans; [|apply hnorm_add]. right. apply rnorm_ext. intros. f_equal. rewrite !Csum_S. change (Csum 0 _) with C0. ring. }
  eapply Rle_trans; [exact Tri|]. cbn [INR]. assert (0 <= u * (w * h)) by (apply Rmult_le_pos; lra). lra.
Qed.
End Format.
