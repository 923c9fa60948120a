(** The error of the partitioned overlap-add convolver in rounded arithmetic. *)
From Coq Require Import Reals List Arith Lia Lra Psatz Bool ZArith.
From Flocq Require Import Core.
From Verif Require Import Base.Outcome Base.OutcomeFacts Base.Sums Base.Cplx Base.VecNorm Spec.Dft Spec.Transforms Spec.Rounding
  Spec.Convolution Spec.Convolvers Spec.Stft Spec.RoundedConvolvers Model.Fft2 Model.FftApps Model.Convolution Model.Stft Model.RoundedFft Model.RoundedConv
  Proof.DftTheory Proof.Fft2Proof Proof.IntegersProof Proof.RfftProof Proof.ConvTheory Proof.FftConvProof Proof.OverlapProof Proof.StreamProof Proof.LtiProof Proof.UpcProof Proof.UpcInstances Proof.StftProof
  Proof.SensitivityProof Proof.RoundedError Proof.RoundedPlan Proof.RoundedRfft Proof.RoundedMac Proof.RoundedSynth Proof.RoundedFftConv Proof.RoundedFftConvError Proof.RoundedUpols Proof.RoundedStft
  Proof.RoundedUpolsError Proof.RoundedUpola.
Import ListNotations.
Local Arguments Nat.div : simpl never.
Local Arguments Nat.modulo : simpl never.
Local Arguments Nat.pow : simpl never.
Local Open Scope R_scope.

(** A sample of the exact convolution. *)
Lemma lconv_bound : forall P B h x X G n, 0 <= X -> 0 <= G -> (length h <= P * B)%nat -> (forall v, In v x -> Rabs v <= X) ->
  (forall a, (a < P)%nat -> norm_r (part B h a) <= G) -> Rabs (lconv x h n) <= INR P * INR B * (X * G).
Proof.
  intros P B h x X G n HX HG Hh Hx Hg. rewrite <- (parts_sum P B h x n Hh).
  eapply Rle_trans; [apply Rsum_abs|]. rewrite Rmult_assoc, <- Rsum_const. apply Rsum_mono. intros a Ha.
  eapply Rle_trans; [apply Rsum_abs|]. rewrite <- Rsum_const. apply Rsum_mono. intros j Hj. rewrite Rabs_mult, (Rmult_comm X G).
  apply Rmult_le_compat; try apply Rabs_pos.
  - specialize (Hg a Ha). unfold norm_r in Hg. rewrite part_length in Hg. eapply Rle_trans; [|exact Hg]. unfold rnorm.
    rewrite <- sqrt_Rsqr_abs. apply sqrt_le_1_alt. unfold Rsqr. apply (Rsum_ge_term B (fun i => nth i (part B h a) 0 * nth i (part B h a) 0)); auto. intros. nra.
  - unfold delayed. destruct (_ <=? _)%nat; [|rewrite Rabs_R0; auto]. apply win_bounded; auto.
Qed.

Section Format.
Variables (prec emin emax : Z).
Hypotheses (Hprec : (24 <= prec <= 100)%Z) (Hemin : (emin <= -149)%Z) (Hemax : (127 <= emax)%Z) (Hgap : (emin + prec <= -120)%Z).
Variables (rnd fcos fsin : R -> R).
Hypotheses (Hrnd : rounds_to_nearest prec emin emax rnd) (Hcos : accurate prec emin fcos cos) (Hsin : accurate prec emin fsin sin).
Let u := bpow radix2 (- prec).
Hypotheses (Ht : is_float prec emin (rtwo_pi rnd)) (He : Rabs (rtwo_pi rnd - 2 * PI) <= 82 / 10 * bpow radix2 (- prec)).

Lemma upola_error : forall k P h all mat X G t j, (0 < k < max_order)%nat -> (0 < P)%nat -> INR P <= 10000 -> (length h <= P * 2 ^ k)%nat -> blocks_of (2 ^ k) all ->
  mat = tab P (fun f => RF rnd fcos fsin (S k) (pad (2 * 2 ^ k) (part (2 ^ k) h f))) ->
  (forall v, In v (concat all) -> Rabs v <= X) -> (forall a, (a < P)%nat -> norm_r (part (2 ^ k) h a) <= G) -> / 2 ^ 20 <= X <= 2 ^ 20 -> / 2 ^ 20 <= G <= 2 ^ 20 ->
  (t < length all)%nat -> (j < 2 ^ k)%nat ->
  Rabs (rupola_out rnd fcos fsin k P (cell mat) all t j - lconv (concat all) h (t * 2 ^ k + j)) <= (229 * INR (S k) + 19 * INR P) * u * (INR P * (2 * INR (2 ^ k)) * (X * G)).
Proof using All.
  intros k P h all mat X G t j Hk HP P2 Hh Hall Hmat HX HG BX BG Hlt Hj.
  pose proof (pos20 X BX) as X0. pose proof (pos20 G BG) as G0.
  pose proof (K_is_2B k (proj1 Hk)) as EKB. pose proof (log2_up_2B k (proj1 Hk)) as ELB.
  assert (LB : Rabs (lconv (concat all) h (t * 2 ^ k + j)) <= INR P * INR (2 ^ k) * (X * G)) by (apply lconv_bound; auto).
  rewrite <- (upola_out_lconv k P h all t j) in * by (try lia; auto).
  assert (HW : forall a i, Rabs (nth i (oa_win (2 ^ k) (2 ^ k) all a) 0) <= X).
  { intros a i. destruct (Nat.lt_ge_cases i (2 * 2 ^ k)).
    - unfold oa_win. rewrite nth_tab by (rewrite EKB; auto). unfold oa_blk. destruct (_ <? _)%nat; [|rewrite Rabs_R0; lra]. apply win_bounded; auto.
    - rewrite nth_overflow by (unfold oa_win; rewrite tab_length, EKB; auto). rewrite Rabs_R0. exact X0. }
  assert (LW : forall a, length (oa_win (2 ^ k) (2 ^ k) all a) = (2 * 2 ^ k)%nat) by (intros; unfold oa_win; rewrite tab_length; exact EKB).
  assert (WE : forall t j, (j < 2 * 2 ^ k)%nat ->
    Rabs (rsynth rnd fcos fsin (S k) (rmac_hist rnd P (2 ^ k + 1) (cell mat) (roa_hist rnd fcos fsin (2 ^ k) (2 ^ k) all (S t))) j -
          synth (2 * 2 ^ k) (mac_hist P (2 ^ k + 1) (part_spec (2 ^ k) h) (oa_hist (2 ^ k) (2 ^ k) all (S t))) j)
    <= (114 * INR (S k) + 9 * INR P) * u * (INR P * (2 * INR (2 ^ k)) * (X * G))).
  { intros t' j' Hj'. unfold roa_hist, oa_hist. rewrite ELB.
    exact (window_error prec emin emax Hprec Hemin Hemax Hgap rnd fcos fsin Hrnd Hcos Hsin Ht He k P h (oa_win (2 ^ k) (2 ^ k) all) t' mat X G j' Hk HP P2 Hmat LW HW HG BX BG Hj'). }
  assert (Hp : (0 < S k <= 27)%nat) by (unfold max_order in *; lia).
  pose proof (u_bounds prec emin emax Hprec Hemin Hemax Hgap rnd fcos fsin Hrnd Hcos Hsin Ht He (S k) Hp) as U. fold u in U.
  pose proof (eta_bounds prec emin emax Hprec Hemin Hemax Hgap rnd fcos fsin Hrnd Hcos Hsin Ht He (S k) Hp) as EB. fold u in EB.
  pose proof (Om_16 prec emin emax Hprec Hemin Hemax Hgap rnd fcos fsin Hrnd Hcos Hsin Ht He (S k) Hp) as [O1 O2].
  assert (AC : forall x, Rabs x <= bpow radix2 emax -> Rabs (rnd x - x) <= u * Rabs x + bpow radix2 (emin - 1)) by exact (acc prec emin emax Hprec Hemin Hemax rnd fcos fsin Hrnd Hcos Hsin).
  assert (B1 : 1 <= INR (2 ^ k) <= 2 ^ 26).
  { split; [change 1 with (INR 1); apply le_INR; pose proof (Nat.pow_nonzero 2 k ltac:(lia)); lia|]. rewrite pow_INR. apply Rle_pow; [cbn; lra|unfold max_order in *; lia]. }
  assert (P1 : 1 <= INR P) by (change 1 with (INR 1); apply le_INR; lia).
  assert (S1 : 1 <= INR (S k) <= 27) by (split; [change 1 with (INR 1)|replace 27 with (INR 27) by (cbn; lra)]; apply le_INR; lia).
  assert (I20 : / 2 ^ 20 = / 1048576) by (f_equal; lra).
  assert (XG0 : / 2 ^ 40 <= X * G). { replace (/ 2 ^ 40) with (/ 2 ^ 20 * / 2 ^ 20) by (rewrite <- Rinv_mult, <- pow_add; reflexivity). apply Rmult_le_compat; lra. }
  assert (XG1 : X * G <= 2 ^ 40). { replace (2 ^ 40) with (2 ^ 20 * 2 ^ 20) by (rewrite <- pow_add; reflexivity). apply Rmult_le_compat; lra. }
  assert (I40 : 0 < / 2 ^ 40) by (apply Rinv_0_lt_compat, pow_lt; lra).
  set (Q := INR P * (2 * INR (2 ^ k)) * (X * G)) in *.
  assert (Q0 : / 2 ^ 40 <= Q). { unfold Q. apply Rle_trans with (1 * (X * G)); [lra|]. apply Rmult_le_compat_r; [lra|]. apply Rle_trans with (1 * 1); [lra|]. apply Rmult_le_compat; lra. }
  assert (Q1 : Q <= 2 ^ 90).
  { unfold Q. apply Rle_trans with (2 ^ 14 * (2 * 2 ^ 26) * 2 ^ 40).
    - apply Rmult_le_compat; try lra; try (apply Rmult_le_pos; lra). apply Rmult_le_compat; lra.
    - replace (2 ^ 14 * (2 * 2 ^ 26) * 2 ^ 40) with (2 ^ 81) by ring. apply Rle_pow; [lra|lia]. }
  assert (LQ : INR P * INR (2 ^ k) * (X * G) = Q / 2) by (unfold Q; field). rewrite LQ in LB.
  set (E := (114 * INR (S k) + 9 * INR P) * u * Q) in *.
  assert (Eu : (114 * INR (S k) + 9 * INR P) * u <= / 10).
  { apply Rle_trans with (100000 * / 16777216); [apply Rmult_le_compat; lra|lra]. }
  assert (E0 : 0 <= E <= Q / 10). { unfold E. split; [apply Rmult_le_pos; [apply Rmult_le_pos; lra|lra]|]. replace (Q / 10) with (/ 10 * Q) by field. apply Rmult_le_compat_r; lra. }
  set (s := rsynth rnd fcos fsin (S k) (rmac_hist rnd P (2 ^ k + 1) (cell mat) (roa_hist rnd fcos fsin (2 ^ k) (2 ^ k) all (S t))) j +
     (if t =? 0 then 0 else rsynth rnd fcos fsin (S k) (rmac_hist rnd P (2 ^ k + 1) (cell mat) (roa_hist rnd fcos fsin (2 ^ k) (2 ^ k) all t)) (2 ^ k + j))).
  set (e := upola_out k P (part_spec (2 ^ k) h) all t j) in *.
  assert (SE : Rabs (s - e) <= 2 * E).
  { unfold s, e, upola_out. pose proof (WE t j ltac:(lia)) as A1. destruct t as [|t].
    - cbn [Nat.eqb]. rewrite !Rplus_0_r. lra.
    - cbn [Nat.eqb]. pose proof (WE t (2 ^ k + j)%nat ltac:(lia)) as A2.
      match goal with |- Rabs (?a + ?b - (?c + ?d)) <= _ => replace (a + b - (c + d)) with ((a - c) + (b - d)) by ring end.
      eapply Rle_trans; [apply Rabs_triang|]. lra. }
  assert (SA : Rabs s <= 7 / 10 * Q). { replace s with ((s - e) + e) by ring. eapply Rle_trans; [apply Rabs_triang|]. lra. }
  assert (SO : Rabs s <= bpow radix2 emax).
  { rewrite <- O2. apply Rle_trans with (2 ^ 111); [|lra]. apply Rle_trans with (2 ^ 90); [lra|]. apply Rle_pow; [lra|lia]. }
  pose proof (AC s SO) as A.
  assert (ET : bpow radix2 (emin - 1) <= / 10 * (u * Q)).
  { apply Rle_trans with (/ 2 ^ 120 * u); [lra|]. replace (/ 10 * (u * Q)) with (/ 10 * Q * u) by ring. apply Rmult_le_compat_r; [lra|].
    assert (/ 2 ^ 120 <= / 10 * / 2 ^ 40); [|lra]. rewrite <- Rinv_mult. apply Rinv_le_contravar; [apply Rmult_lt_0_compat; [lra|apply pow_lt; lra]|].
    replace (2 ^ 120) with (2 ^ 80 * 2 ^ 40) by (rewrite <- pow_add; reflexivity). apply Rmult_le_compat_r; [apply pow_le; lra|]. apply Rle_trans with (2 ^ 4); [lra|apply Rle_pow; [lra|lia]]. }
  change (Rabs (rnd s - e) <= (229 * INR (S k) + 19 * INR P) * u * Q).
  replace (rnd s - e) with ((rnd s - s) + (s - e)) by ring. eapply Rle_trans; [apply Rabs_triang|].
  assert (us : u * Rabs s <= u * (7 / 10 * Q)) by (apply Rmult_le_compat_l; lra).
  apply Rle_trans with (u * (7 / 10 * Q) + / 10 * (u * Q) + 2 * E); [lra|]. unfold E.
  assert (uQ : 0 <= u * Q) by (apply Rmult_le_pos; lra).
  replace ((229 * INR (S k) + 19 * INR P) * u * Q) with ((229 * INR (S k) + 19 * INR P) * (u * Q)) by ring.
  replace (u * (7 / 10 * Q) + / 10 * (u * Q) + 2 * ((114 * INR (S k) + 9 * INR P) * u * Q)) with ((8 / 10 + 228 * INR (S k) + 18 * INR P) * (u * Q)) by field.
  apply Rmult_le_compat_r; lra.
Qed.

Lemma format_upola : forall k P h all X G, (0 < k < 27)%nat -> (0 < length h)%nat -> P = ceil_div (length h) (2 ^ k) -> INR P <= 10000 -> blocks_of (2 ^ k) all ->
  (forall v, In v h -> is_float prec emin v) -> (forall v, In v (concat all) -> Rabs v <= X) -> (forall a, (a < P)%nat -> norm_r (part (2 ^ k) h a) <= G) ->
  / 2 ^ 20 <= X <= 2 ^ 20 -> / 2 ^ 20 <= G <= 2 ^ 20 ->
  exists ys, rpartitioned_add rnd fcos fsin (2 ^ k) h all = Ok ys /\ length (concat ys) = length (concat all) /\
    forall n, (n < length (concat ys))%nat ->
    Rabs (nth n (concat ys) 0 - lconv (concat all) h n) <= (229 * INR (S k) + 19 * INR P) * u * (INR P * (2 * INR (2 ^ k)) * (X * G)).
Proof using All.
  intros k P h all X G Hk Hh EP HPm Hall Hfl HX HG BX BG.
  assert (B0 : (0 < 2 ^ k)%nat) by (apply Nat.neq_0_lt_0, Nat.pow_nonzero; lia).
  assert (HP : (0 < P)%nat) by (rewrite EP, ceil_div_pos by auto; lia).
  assert (HPB : (length h <= P * 2 ^ k)%nat) by (rewrite EP; apply ceil_div_mul; auto).
  destruct (taps_fixed prec emin emax Hprec Hemin Hemax Hgap rnd fcos fsin Hrnd Hcos Hsin Ht He k P h G Hk Hh EP HPm Hfl HG BG) as (HR & H64 & Hmax).
  unfold rpartitioned_add. rewrite (runiform_partition_ok rnd fcos fsin (length h) h k); auto; try (rewrite <- EP); try (unfold max_order; lia).
  set (mat := tab P (fun f => RF rnd fcos fsin (S k) (pad (2 * 2 ^ k) (part (2 ^ k) h f)))).
  assert (EKK : (2 ^ S k = 2 * 2 ^ k)%nat) by apply Nat.pow_succ_r'.
  assert (Hmat : matrix_of P (2 ^ k + 1) mat).
  { split; [apply tab_length|]. intros r Hr. unfold mat, tab in Hr. apply in_map_iff in Hr. destruct Hr as (f & <- & _). rewrite RF_length, EKK, half_of_double. reflexivity. }
  cbn [bind rd nth_error]. rewrite (rd_ok _ mat 0 []) by (destruct Hmat as [-> _]; exact HP). cbn [bind].
  assert (MU : exists c, make_upc (rola rnd fcos fsin) dense_fdl (rdense_filter rnd) = Ok c).
  { unfold make_upc. cbn [rola ov_make]. unfold rmake_overlap_add. cbn. eexists. reflexivity. }
  destruct MU as (c & Ec). rewrite Ec. cbn [bind]. rewrite (matrix_row _ _ _ _ 0%nat Hmat HP). rewrite (proj1 Hmat).
  rewrite rupola_filter_and_run by (auto; unfold max_order; lia). eexists. split; [reflexivity|].
  assert (LC : length (concat (tab (length all) (fun t => tab (2 ^ k) (rupola_out rnd fcos fsin k P (cell mat) all t)))) = length (concat all)).
  { rewrite concat_tab_blocks, tab_length. symmetry. apply concat_blocks_length. exact Hall. }
  split; [exact LC|]. intros n Hn. rewrite concat_tab_blocks in *. rewrite tab_length in Hn. rewrite nth_tab by auto.
  assert (Hd : (n / 2 ^ k < length all)%nat) by (apply Nat.div_lt_upper_bound; lia). pose proof (Nat.mod_upper_bound n (2 ^ k) ltac:(lia)) as Hm.
  pose proof (upola_error k P h all mat X G (n / 2 ^ k) (n mod 2 ^ k) ltac:(unfold max_order; lia) HP HPm HPB Hall eq_refl HX HG BX BG Hd Hm) as UE.
  replace (n / 2 ^ k * 2 ^ k + n mod 2 ^ k)%nat with n in UE by (rewrite (Nat.div_mod n (2 ^ k)) at 1 by lia; lia). exact UE.
Qed.
End Format.
