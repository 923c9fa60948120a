(** The errors of real and short-time transforms in rounded arithmetic. *)
From Coq Require Import Reals List Arith Lia Lra Psatz Bool ZArith.
From Flocq Require Import Core.
From Verif Require Import Base.Outcome Base.OutcomeFacts Base.Sums Base.Cplx Base.VecNorm Spec.Dft Spec.Transforms Spec.Rounding
  Spec.Convolution Spec.Stft Spec.RoundedReal Model.Fft2 Model.Integers Model.Algorithm Model.FftApps Model.Convolution Model.Stft Model.RoundedFft Model.RoundedConv
  Proof.DftTheory Proof.Fft2Proof Proof.IntegersProof Proof.AlgorithmProof Proof.RfftProof Proof.FftConvProof Proof.StftProof
  Proof.RoundedError Proof.RoundedPlan Proof.RoundedRfft Proof.RoundedMac Proof.RoundedSynth Proof.RoundedStft.
Import ListNotations.
Local Arguments Nat.div : simpl never.
Local Arguments Nat.modulo : simpl never.
Local Arguments Nat.pow : simpl never.

Section Reach.
Variables rnd fcos fsin : R -> R.
Notation rrf_inv := (rrf_inv rnd fcos fsin).

Lemma rrfft_forward_inv : forall order p x out p' y, 0 < order -> rrf_inv order p -> rrfft_forward rnd p x out = Ok (p', y) -> rrf_inv order p' /\ length y = length out.
Proof using.
  intros order p x out p' y Ho [I1 [I2 I3]] H. unfold rrfft_forward in H.
  apply bind_ok in H. destruct H as [b [E1 H]]. apply copy_length in E1. destruct E1 as [_ L1].
  rewrite (rfft_obj rnd fcos fsin order) in H by (auto; lia). cbn [bind] in H.
  apply bind_ok in H. destruct H as [s [_ H]]. apply bind_ok in H. destruct H as [o [E3 H]]. apply copy_length in E3.
  inversion H. subst. split; [|lia]. unfold RoundedRfft.rrf_inv. cbn [rf_order rf_fft rf_buf]. rewrite FR_length. auto.
Qed.

Lemma rrfft_backward_inv : forall order p x out p' y, 0 < order -> rrf_inv order p -> rrfft_backward rnd p x out = Ok (p', y) -> rrf_inv order p'.
Proof using.
  intros order p x out p' y Ho [I1 [I2 I3]] H. unfold rrfft_backward in H. rewrite I1 in H.
  apply bind_ok in H. destruct H as [b [E1 H]]. apply copy_length in E1. destruct E1 as [_ L1].
  rewrite mirror_loop in H by lia. cbn [bind] in H.
  rewrite (rfft_obj rnd fcos fsin order) in H by (auto; apply tab_length). cbn [bind] in H.
  apply bind_ok in H. destruct H as [o [E3 H]]. inversion H. subst.
  unfold RoundedRfft.rrf_inv. cbn [rf_order rf_fft rf_buf]. rewrite FR_length. auto.
Qed.

Lemma rrfft_reach_inv : forall order p, 0 < order <= 27 -> rrfft_reach rnd fcos fsin order p -> rrf_inv order p.
Proof using.
  intros order p Ho H. induction H.
  - destruct (rmake_rfft_ok rnd fcos fsin order Ho) as (p0 & E & I). rewrite H in E. inversion E. subst. exact I.
  - eapply rrfft_forward_inv; eauto. lia.
  - eapply rrfft_backward_inv; eauto. lia.
Qed.

Lemma rstft_keeps : forall o p c n x p' r, 2 <= so_transform o -> rst_inv rnd fcos fsin o p -> rstft_run rnd p c n x = Ok (p', r) -> rst_inv rnd fcos fsin o p'.
Proof using.
  intros o p c n x p' r HT I E. unfold rstft_run in E.
  destruct (num_sftf_frames _ _ _) as [nf| |]; cbn [bind] in E; try discriminate.
  destruct (_ <=? _)%Z; [discriminate|].
  apply bind_ok in E. destruct E as ([[[rf inp] out] res] & E & E'). inversion E'; subst; clear E'.
  set (K := 2 ^ Nat.log2_up (so_transform o)).
  set (Q := fun s : rfft_plan * list R * list C * list (list (list C)) => let '(rf, inp, out, _) := s in
    rrf_inv (Nat.log2_up (so_transform o)) rf /\ length inp = K /\ length out = K).
  assert (QQ : Q (rf, inp, out, r)).
  { revert E. apply (for_range_keeps _ Q).
    - intros j t t' Ht Et. revert Et. apply (for_range_keeps _ Q); auto.
      clear - HT. intros j' [[[rf inp] out] res] [[[rf' inp'] out'] res'] (A & B & D) E. unfold rstft_frame in E.
      repeat (rewrite usize_arith in E; cbn [bind] in E).
      apply bind_ok in E; destruct E as (ch & _ & E). apply bind_ok in E; destruct E as (blk & _ & E).
      rewrite !fill_ok in E. cbn [bind] in E.
      apply bind_ok in E; destruct E as (i1 & E1 & E). apply copy_into_length in E1. rewrite repeat_length in E1.
      apply bind_ok in E; destruct E as (i2 & E2 & E). apply binary_length in E2.
      apply bind_ok in E; destruct E as ([rf2 o2] & E3 & E).
      apply (rrfft_forward_inv (Nat.log2_up (so_transform o))) in E3; [|apply log2_up_pos'; lia|exact A]. destruct E3 as [E3 L3]. rewrite repeat_length in L3.
      do 6 (apply bind_ok in E; destruct E as (? & _ & E)). inversion E; subst.
      split; [auto|]. split; congruence.
    - split; [apply (rsti_rfft _ _ _ _ _ I)|]. split; [apply (rsti_input _ _ _ _ _ I)|apply (rsti_output _ _ _ _ _ I)]. }
  destruct QQ as (A & B & D). split; cbn; auto. { apply (rsti_options _ _ _ _ _ I). } apply (rsti_window _ _ _ _ _ I).
Qed.

Lemma rstft_reach_inv : forall o p, 2 <= so_transform o <= 2 ^ max_order -> rstft_reach rnd fcos fsin o p -> rst_inv rnd fcos fsin o p.
Proof using.
  intros o p HT H. induction H.
  - destruct (rmake_stft_ok rnd fcos fsin o HT) as (p0 & E & I). rewrite H in E. inversion E. subst. exact I.
  - eapply rstft_keeps; eauto. lia.
Qed.
End Reach.

Local Open Scope R_scope.

Lemma mirrored_hnorm : forall n X, mirrored_norm n X = hnorm n (fun k => nth k X C0).
Proof.
  intros n X. unfold mirrored_norm, hnorm. apply rnorm_ext. intros k Hk. unfold mir.
  destruct (Nat.leb_spec k (n / 2)), (Nat.leb_spec (n / 2 + 1) k); try lia; reflexivity.
Qed.

Section Format.
Variables (prec emin emax : Z).
Hypotheses (Hprec : (24 <= prec <= 100)%Z) (Hemin : (emin <= -149)%Z) (Hemax : (127 <= emax)%Z) (Hgap : (emin + prec <= -120)%Z).
Variables (rnd fcos fsin : R -> R).
Hypotheses (Hrnd : rounds_to_nearest prec emin emax rnd) (Hcos : accurate prec emin fcos cos) (Hsin : accurate prec emin fsin sin).
Let u := bpow radix2 (- prec).
Let et := bpow radix2 (emin - 1).
Let Om := bpow radix2 emax.
Hypotheses (Ht : is_float prec emin (rtwo_pi rnd)) (He : Rabs (rtwo_pi rnd - 2 * PI) <= 82 / 10 * bpow radix2 (- prec)).
Variable p : nat.
Hypothesis Hp : (0 < p <= 27)%nat.
Let K := (2 ^ p)%nat.
Let sK := sqrt (INR K).
Let c := 28 * INR p * u.

Lemma rf_bin : forall w k, length w = K -> (k <= 2 ^ (p - 1))%nat -> rnorm K (fun i => nth i w 0) <= bpow radix2 (emax - 16) ->
  Cabs (nth k (RF rnd fcos fsin p w) C0 - DFT Forward K (fun j => RtoC (nth j w 0)) k)%C <= c * (sK * rnorm K (fun i => nth i w 0)) + tiny emin.
Proof using All.
  intros w k Hw Hk Hn. destruct (pow2_half p ltac:(lia)) as [m [Hm [En Em]]]. rewrite <- Em in Hk. assert (EN : vnorm K (fun i => nth i (map RtoC w) C0) = rnorm K (fun i => nth i w 0)).
  { rewrite <- rnorm_RtoC. apply vnorm_ext. intros. apply nth_RtoC. }
  assert (E := FR_error prec emin emax Hprec Hemin Hemax Hgap rnd fcos fsin Hrnd Hcos Hsin Ht He p Hp Forward (map RtoC w) ltac:(rewrite map_length; auto)). fold K in E. rewrite EN in E. specialize (E Hn). fold u in E. fold c sK in E.
  set (y := FR rnd fcos fsin p Forward (map RtoC w)) in *.
  eapply Rle_trans; [|exact E].
  assert (Hk' : (k < K)%nat) by (unfold K; rewrite En; lia).
  eapply Rle_trans; [|apply (Cabs_le_vnorm K (fun i => nth i y C0 - DFT Forward K (fun i => nth i (map RtoC w) C0) i)%C k Hk')].
  right. f_equal. unfold RF. rewrite En, half_of_double. rewrite nth_tab by lia. fold y. rewrite (DFT_ext Forward K (fun j => RtoC (nth j w 0)) (fun i => nth i (map RtoC w) C0) k); [reflexivity|]. intros. symmetry. apply nth_RtoC.
Qed.

(** Forward then backward. *)
Lemma roundtrip_sample : forall w j, length w = K -> (j < K)%nat -> rnorm K (fun i => nth i w 0) <= bpow radix2 (emax - 32) ->
  Rabs (nth j (RB rnd fcos fsin p (RF rnd fcos fsin p w)) 0 - INR K * nth j w 0) <= 71 * INR p * u * (INR K * rnorm K (fun i => nth i w 0)) + bpow radix2 (emin + 49).
Proof using All.
  intros w j Hw Hj Hn.
  pose proof (u_bounds prec emin emax Hprec Hemin Hemax Hgap rnd fcos fsin Hrnd Hcos Hsin Ht He p Hp) as U. fold u in U. pose proof (c_bounds prec emin emax Hprec Hemin Hemax Hgap rnd fcos fsin Hrnd Hcos Hsin Ht He p Hp) as CB. fold u c in CB.
  pose proof (sK_bounds prec emin emax Hprec Hemin Hemax Hgap rnd fcos fsin Hrnd Hcos Hsin Ht He p Hp) as [SB SS]. fold K sK in SB, SS. pose proof (K_bounds prec emin emax Hprec Hemin Hemax Hgap rnd fcos fsin Hrnd Hcos Hsin Ht He p Hp) as KB. fold K in KB.
  pose proof (tiny_u prec emin emax Hprec Hemin Hemax Hgap rnd fcos fsin Hrnd Hcos Hsin Ht He p Hp) as TU. fold u in TU.
  set (N := rnorm K (fun i => nth i w 0)) in *. assert (N0 : 0 <= N) by apply rnorm_pos.
  assert (T1 : tiny emin <= 1). { eapply Rle_trans; [apply TU|]. assert (0 < / 2 ^ 86 <= 1) by (split; [apply Rinv_0_lt_compat, pow_lt; lra|rewrite <- Rinv_1; apply Rinv_le_contravar; [lra|apply pow_R1_Rle; lra]]). nra. }
  assert (O16 : bpow radix2 (emax - 16) = 65536 * bpow radix2 (emax - 32)). { replace (emax - 16)%Z with (16 + (emax - 32))%Z by lia. rewrite bpow_plus. f_equal. }
  assert (O1 : 2 ^ 95 <= bpow radix2 (emax - 32)) by (rewrite <- (bpow_IZR 95); apply bpow_le; lia).
  assert (O2 : 1 <= 2 ^ 95) by (apply pow_R1_Rle; lra).
  pose proof (rf_error prec emin emax Hprec Hemin Hemax Hgap rnd fcos fsin Hrnd Hcos Hsin Ht He p Hp w Hw) as FE. fold u K in FE. fold sK c N in FE. specialize (FE ltac:(lra)).
  set (y := RF rnd fcos fsin p w) in *. set (X := DFT Forward K (fun j => RtoC (nth j w 0))) in *.
  assert (HX : hnorm K X = sK * N) by exact (hnorm_rdft p (fun j => nth j w 0) (proj1 Hp)).
  assert (sN : 0 <= sK * N <= 11600 * bpow radix2 (emax - 32)) by (split; [apply Rmult_le_pos; lra|apply Rmult_le_compat; lra]).
  assert (cN : 0 <= c * (sK * N) <= / 10000 * (sK * N)) by (split; [apply Rmult_le_pos; lra|apply Rmult_le_compat_r; lra]).
  assert (HY : hnorm K (fun k => nth k y C0) <= sK * N + 3 / 2 * (c * (sK * N) + tiny emin)) by (rewrite <- HX; apply hnorm_near; rewrite HX; exact FE).
  pose proof (rb_error prec emin emax Hprec Hemin Hemax Hgap rnd fcos fsin Hrnd Hcos Hsin Ht He p Hp y j Hj) as BE. fold u K in BE. fold sK c in BE. specialize (BE ltac:(lra)).
  set (hy := hnorm K (fun k => nth k y C0)) in *.
  destruct (pow2_half p ltac:(lia)) as [m [Hm [En Em]]]. fold K in En.
  assert (EI : IRDFT (2 ^ (p - 1)) X j = INR K * nth j w 0).
  { rewrite <- Em. unfold X. rewrite En. apply (irdft_rdft m (fun j => nth j w 0)); auto. rewrite <- En. exact Hj. }
  assert (D : Rabs (IRDFT (2 ^ (p - 1)) (fun k => nth k y C0) j - INR K * nth j w 0) <= sK * (3 / 2 * (c * (sK * N) + tiny emin))).
  { rewrite <- EI, <- IRDFT_sub. eapply Rle_trans; [apply irdft_le; [lia|exact Hj]|]. fold K sK. apply Rmult_le_compat_l; [lra|exact FE]. }
  match goal with |- Rabs (?a - ?b) <= _ => replace (a - b) with ((a - IRDFT (2 ^ (p - 1)) (fun k => nth k y C0) j) + (IRDFT (2 ^ (p - 1)) (fun k => nth k y C0) j - b)) by ring end.
  eapply Rle_trans; [apply Rabs_triang|].
  assert (csy : c * (sK * hy) <= c * (sK * (sK * N + 3 / 2 * (c * (sK * N) + tiny emin)))) by (apply Rmult_le_compat_l; [lra|]; apply Rmult_le_compat_l; lra).
  eapply Rle_trans; [apply Rplus_le_compat; [exact BE|exact D]|].
  assert (T49 : bpow radix2 (emin + 49) = 32768 * tiny emin). { unfold tiny. replace (emin + 49)%Z with (15 + (emin + 34))%Z by lia. rewrite bpow_plus. f_equal. }
  rewrite T49. replace (71 * INR p * u) with (71 / 28 * c) by (unfold c; field).
  set (Q := INR K * N). assert (EQ : sK * (sK * N) = Q) by (unfold Q; rewrite <- Rmult_assoc, SS; reflexivity).
  assert (Q0 : 0 <= Q) by (unfold Q; apply Rmult_le_pos; lra). assert (cQ : 0 <= c * Q) by (apply Rmult_le_pos; lra).
  assert (ccQ : c * (c * Q) <= / 10000 * (c * Q)) by (apply Rmult_le_compat_r; lra).
  replace (sK * (3 / 2 * (c * (sK * N) + tiny emin))) with (3 / 2 * (c * Q) + 3 / 2 * (sK * tiny emin)) by (rewrite <- EQ; ring).
  replace (c * (sK * (sK * N + 3 / 2 * (c * (sK * N) + tiny emin)))) with (c * Q + 3 / 2 * (c * (c * Q)) + 3 / 2 * (c * (sK * tiny emin))) in csy by (rewrite <- EQ; ring).
  assert (sT : 0 <= sK * tiny emin <= 11600 * tiny emin) by (split; [apply Rmult_le_pos; lra|apply Rmult_le_compat_r; lra]).
  assert (csT : c * (sK * tiny emin) <= / 10000 * (sK * tiny emin)) by (apply Rmult_le_compat_r; lra).
  lra.
Qed.

(** One bin of a frame whose samples were multiplied by the window and rounded. *)
Lemma rframe_bin : forall w k, length w = K -> (k <= 2 ^ (p - 1))%nat -> rnorm K (fun i => nth i w 0) <= bpow radix2 (emax - 17) ->
  Cabs (nth k (RF rnd fcos fsin p (map rnd w)) C0 - DFT Forward K (fun j => RtoC (nth j w 0)) k)%C <= (28 * INR p + 2) * u * (sK * rnorm K (fun i => nth i w 0)) + 2 * tiny emin.
Proof using All.
  intros w k Hw Hk Hn.
  pose proof (u_bounds prec emin emax Hprec Hemin Hemax Hgap rnd fcos fsin Hrnd Hcos Hsin Ht He p Hp) as U. fold u in U. pose proof (c_bounds prec emin emax Hprec Hemin Hemax Hgap rnd fcos fsin Hrnd Hcos Hsin Ht He p Hp) as CB. fold u c in CB.
  pose proof (sK_bounds prec emin emax Hprec Hemin Hemax Hgap rnd fcos fsin Hrnd Hcos Hsin Ht He p Hp) as [SB SS]. fold K sK in SB, SS. pose proof (K_bounds prec emin emax Hprec Hemin Hemax Hgap rnd fcos fsin Hrnd Hcos Hsin Ht He p Hp) as KB. fold K in KB.
  pose proof (tiny_u prec emin emax Hprec Hemin Hemax Hgap rnd fcos fsin Hrnd Hcos Hsin Ht He p Hp) as TU. fold u in TU.
  assert (AC : forall x, Rabs x <= Om -> Rabs (rnd x - x) <= u * Rabs x + et) by exact (acc prec emin emax Hprec Hemin Hemax rnd fcos fsin Hrnd Hcos Hsin).
  set (N := rnorm K (fun i => nth i w 0)) in *. assert (N0 : 0 <= N) by apply rnorm_pos.
  assert (O16 : bpow radix2 (emax - 16) = 2 * bpow radix2 (emax - 17)). { replace (emax - 16)%Z with (1 + (emax - 17))%Z by lia. rewrite bpow_plus. f_equal. }
  assert (O1 : 2 ^ 110 <= bpow radix2 (emax - 17)) by (rewrite <- (bpow_IZR 110); apply bpow_le; lia).
  assert (O2 : 1 <= 2 ^ 110) by (apply pow_R1_Rle; lra).
  assert (OO : bpow radix2 (emax - 17) <= Om) by (apply bpow_le; lia).
  assert (ET : et * 134217728 <= tiny emin / 2 /\ 0 < et).
  { split; [|apply bpow_gt_0]. unfold et, tiny. replace (emin + 34)%Z with (35 + (emin - 1))%Z by lia. rewrite bpow_plus. change (bpow radix2 35) with 34359738368. pose proof (bpow_gt_0 radix2 (emin - 1)). lra. }
  set (w' := map rnd w). assert (Lw' : length w' = K) by (unfold w'; rewrite map_length; exact Hw).
  assert (DW : forall i, (i < K)%nat -> Rabs (nth i w' 0 - nth i w 0) <= u * Rabs (nth i w 0) + et).
  { intros i Hi. unfold w'. rewrite (nth_indep _ 0 (rnd 0)) by (rewrite map_length; lia). rewrite map_nth. apply AC.
    apply Rle_trans with N; [|lra]. unfold N, rnorm. rewrite <- sqrt_Rsqr_abs. apply sqrt_le_1_alt. unfold Rsqr. apply (Rsum_ge_term K (fun i => nth i w 0 * nth i w 0)); auto. intros. nra. }
  assert (ND : vnorm K (fun i => RtoC (nth i w' 0) - RtoC (nth i w 0))%C <= u * N + et * sK).
  { unfold N. rewrite <- rnorm_RtoC. apply vnorm_affine; try lra. intros i Hi. replace (RtoC (nth i w' 0) - RtoC (nth i w 0))%C with (RtoC (nth i w' 0 - nth i w 0)) by (apply C_eq; cbn; ring).
    assert (RA : forall v, Cabs (RtoC v) = Rabs v) by (intros v; unfold Cabs, Cnorm2, RtoC; cbn [fst snd]; replace (v * v + 0 * 0) with (v * v) by ring; apply (sqrt_Rsqr_abs v)).
    rewrite !RA. apply DW, Hi. }
  assert (etS : 0 <= et * sK <= et * INR K). { split; [apply Rmult_le_pos; lra|]. apply Rmult_le_compat_l; [lra|]. rewrite <- SS. apply Rle_trans with (sK * 1); [lra|apply Rmult_le_compat_l; lra]. }
  assert (etK : et * INR K <= et * 134217728) by (apply Rmult_le_compat_l; lra).
  assert (uN : 0 <= u * N <= / 16777216 * N) by (split; [apply Rmult_le_pos; lra|apply Rmult_le_compat_r; lra]).
  assert (T1 : tiny emin <= 1). { eapply Rle_trans; [apply TU|]. assert (0 < / 2 ^ 86 <= 1) by (split; [apply Rinv_0_lt_compat, pow_lt; lra|rewrite <- Rinv_1; apply Rinv_le_contravar; [lra|apply pow_R1_Rle; lra]]). nra. }
  assert (NW : rnorm K (fun i => nth i w' 0) <= N + (u * N + et * sK)).
  { assert (EV : vnorm K (fun i => RtoC (nth i w 0)) = N) by (apply rnorm_RtoC). rewrite <- rnorm_RtoC.
    rewrite (vnorm_ext _ _ (fun i => RtoC (nth i w 0) + (RtoC (nth i w' 0) - RtoC (nth i w 0)))%C) by (intros; ring).
    eapply Rle_trans; [apply vnorm_add|]. rewrite EV. apply Rplus_le_compat_l. exact ND. }
  pose proof (rf_bin w' k Lw' Hk ltac:(lra)) as RE.
  set (N' := rnorm K (fun i => nth i w' 0)) in *.
  assert (HkK : (k < K)%nat). { destruct (pow2_half p ltac:(lia)) as [m [Hm [En Em]]]. rewrite <- Em in Hk. unfold K. rewrite En. lia. }
  assert (DD : Cabs (DFT Forward K (fun j => RtoC (nth j w' 0)) k - DFT Forward K (fun j => RtoC (nth j w 0)) k)%C <= sK * (u * N + et * sK)).
  { unfold DFT at 1 2. rewrite <- Csum_sub. rewrite (Csum_ext _ _ (fun j => (RtoC (nth j w' 0) - RtoC (nth j w 0)) * W Forward K (j * k))%C) by (intros; ring).
    change (Cabs (DFT Forward K (fun j => RtoC (nth j w' 0) - RtoC (nth j w 0))%C k) <= sK * (u * N + et * sK)). eapply Rle_trans; [apply (Cabs_le_vnorm K (DFT Forward K (fun i => RtoC (nth i w' 0) - RtoC (nth i w 0))%C) k HkK)|].
    unfold K at 1 2. rewrite norm_DFT. fold K. fold sK. apply Rmult_le_compat_l; [lra|exact ND]. }
  match goal with |- Cabs (?a - ?b)%C <= _ => replace (a - b)%C with ((a - DFT Forward K (fun j => RtoC (nth j w' 0)) k) + (DFT Forward K (fun j => RtoC (nth j w' 0)) k - b))%C by ring end.
  eapply Rle_trans; [apply Cabs_triang|]. eapply Rle_trans; [apply Rplus_le_compat; [exact RE|exact DD]|].
  assert (P1 : 1 <= INR p <= 27) by (split; [change 1 with (INR 1); apply le_INR; lia|replace 27 with (INR 27) by (cbn; lra); apply le_INR; lia]).
  assert (cN : c * (sK * N') <= c * (sK * (N + (u * N + et * sK)))) by (apply Rmult_le_compat_l; [lra|]; apply Rmult_le_compat_l; lra).
  set (Q := sK * N). assert (Q0 : 0 <= Q) by (unfold Q; apply Rmult_le_pos; lra).
  assert (uQ : 0 <= u * Q) by (apply Rmult_le_pos; lra).
  replace (c * (sK * (N + (u * N + et * sK)))) with (c * Q + c * (u * Q) + c * (et * INR K)) in cN by (unfold Q; rewrite <- SS; ring).
  replace (sK * (u * N + et * sK)) with (u * Q + et * INR K) by (unfold Q; rewrite <- SS; ring).
  assert (cuQ : c * (u * Q) <= / 10000 * (u * Q)) by (apply Rmult_le_compat_r; lra).
  assert (ceK : c * (et * INR K) <= / 10000 * (et * INR K)) by (apply Rmult_le_compat_r; lra).
  replace ((28 * INR p + 2) * u * Q) with (c * Q + 2 * (u * Q)) by (unfold c; ring). lra.
Qed.
End Format.
