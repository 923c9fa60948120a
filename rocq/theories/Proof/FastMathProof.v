(** Rounding errors of the fast logarithm. *)
From Coq Require Import Reals ZArith Lia Lra Psatz.
From Flocq Require Import Core Relative Mult_error IEEE754.Binary IEEE754.Bits.
From Verif Require Import Base.LogBounds Model.FixedPoint Model.Units Model.FastMath Proof.FixedFloat Proof.CompressedFdlProof Proof.FastLogExact.
Local Open Scope R_scope.

Local Instance prec24' : Prec_gt_0 24 := eq_refl.

(** ** Bits *)

Lemma low_bits : forall E M, (0 <= M < 2 ^ 23)%Z -> Z.lor (Z.land (E * 2 ^ 23 + M) 0x007FFFFF) 0x3f000000 = (126 * 2 ^ 23 + M)%Z.
Proof.
  intros E M HM. change 0x007FFFFF%Z with (Z.ones 23). rewrite Z.land_ones by lia. rewrite Z.add_comm, Z_mod_plus_full, Z.mod_small by auto.
  change 0x3f000000%Z with (126 * 2 ^ 23)%Z. assert (N : Z.land M (126 * 2 ^ 23) = 0%Z); [|rewrite <- Z.lxor_lor, <- Z.add_nocarry_lxor by auto; ring].
  apply Z.bits_inj'. intros n Hn. rewrite Z.land_spec, Z.bits_0. rewrite <- Z.shiftl_mul_pow2 by lia.
  destruct (Z.lt_ge_cases n 23) as [L|G].
  - rewrite Z.shiftl_spec_low by lia. apply Bool.andb_false_r.
  - rewrite (Z.bits_above_log2 M n); [reflexivity|lia|]. destruct (Z.eq_dec M 0) as [->|N]; [cbn; lia|]. apply Z.log2_lt_pow2; [lia|]. eapply Z.lt_le_trans; [apply HM|]. apply Z.pow_le_mono_r; lia.
Qed.

Lemma half_bits : forall M, (0 <= M < 2 ^ 23)%Z -> B2R 24 128 (b32_of_bits (126 * 2 ^ 23 + M)) = (1 + IZR M / 2 ^ 23) / 2.
Proof.
  intros M HM. unfold b32_of_bits, binary_float_of_bits. rewrite B2R_FF2B. unfold binary_float_of_bits_aux, split_bits.
  assert (E1 : ((126 * 2 ^ 23 + M) mod 2 ^ 23 = M)%Z) by (rewrite Z.add_comm, Z_mod_plus_full; apply Z.mod_small; auto).
  assert (E2 : ((126 * 2 ^ 23 + M) / 2 ^ 23 mod 2 ^ 8 = 126)%Z) by (rewrite Z.add_comm, Z_div_plus_full, Z.div_small by lia; reflexivity).
  assert (E3 : (2 ^ 23 * 2 ^ 8 <=? 126 * 2 ^ 23 + M)%Z = false) by (apply Z.leb_gt; lia).
  rewrite E1, E2, E3. change (Zeq_bool 126 0) with false. change (Zeq_bool 126 (2 ^ 8 - 1)) with false. cbv iota.
  assert (E4 : exists p, (M + 2 ^ 23)%Z = Zpos p) by (exists (Z.to_pos (M + 2 ^ 23)); rewrite Z2Pos.id; lia). destruct E4 as [p Ep]. rewrite Ep. unfold FF2R, F2R. cbn [Fnum Fexp cond_Zopp]. rewrite <- Ep.
  change (126 + SpecFloat.emin (23 + 1) (2 ^ (8 - 1)) - 1)%Z with (- (24))%Z. rewrite (bpow_opp radix2 24), (bpow_IZR 24) by lia. rewrite plus_IZR. change (IZR (2 ^ 24)) with 16777216. change (IZR (2 ^ 23)) with 8388608.
  replace (2 ^ 23) with 8388608 by lra. field.
Qed.

(** The encoding of a finite positive float. *)
Lemma positive_bits : forall x : binary32, is_finite 24 128 x = true -> 0 < B2R 24 128 x ->
  exists E M, (0 <= E <= 254)%Z /\ (0 <= M < 2 ^ 23)%Z /\ bits_of_b32 x = (E * 2 ^ 23 + M)%Z /\
    (((1 <= E)%Z /\ B2R 24 128 x = (1 + IZR M / 2 ^ 23) * bpow radix2 (E - 127)) \/ (E = 0%Z /\ B2R 24 128 x < bpow radix2 (-126))).
Proof.
  intros x Hf Hx.
  destruct x as [s|s|s pl e|s m e Hb]; try discriminate; [cbn in Hx; lra|].
  assert (Hs : s = false). { destruct s; auto. exfalso. assert (B2R 24 128 (B754_finite 24 128 true m e Hb) < 0); [|lra]. apply F2R_lt_0. cbn. lia. }
  subst s. cbn [B2R cond_Zopp] in *.
  pose proof Hb as Hb'. unfold SpecFloat.bounded in Hb'. apply andb_prop in Hb'. destruct Hb' as [Hc He]. apply Zle_bool_imp_le in He.
  unfold SpecFloat.canonical_mantissa in Hc. apply Zeq_bool_eq in Hc. rewrite Digits.Zpos_digits2_pos in Hc. unfold SpecFloat.fexp, SpecFloat.emin in Hc.
  pose proof (Digits.Zdigits_correct radix2 (Zpos m)) as Hd. set (k := Digits.Zdigits radix2 (Zpos m)) in *. change (Z.abs (Zpos m)) with (Zpos m) in Hd. change (Z.pow radix2) with (Z.pow 2) in Hd.
  assert (Hk : (k <= 24)%Z) by lia.
  assert (Hm24 : (Zpos m < 2 ^ 24)%Z) by (eapply Z.lt_le_trans; [apply Hd|apply Z.pow_le_mono_r; lia]).
  unfold bits_of_b32, bits_of_binary_float. cbv zeta. destruct (Z.leb_spec 0 (Zpos m - 2 ^ 23)) as [G|L].
  - assert (Hk' : k = 24%Z). { destruct (Z.eq_dec k 24); auto. exfalso. assert (2 ^ k <= 2 ^ 23)%Z by (apply Z.pow_le_mono_r; lia). lia. }
    exists (e + 150)%Z, (Zpos m - 2 ^ 23)%Z. split; [lia|]. split; [lia|]. split.
    { unfold join_bits. rewrite Z.shiftl_mul_pow2 by lia. change (SpecFloat.emin (23 + 1) (2 ^ (8 - 1))) with (-149)%Z. ring. }
    left. split; [lia|]. unfold F2R. cbn [Fnum Fexp]. replace (e + 150 - 127)%Z with (e + 23)%Z by ring. rewrite bpow_plus, (bpow_IZR 23) by lia. rewrite minus_IZR. change (IZR (2 ^ 23)) with 8388608. change (IZR (2 ^ 23)) with 8388608.
    replace (2 ^ 23) with 8388608 by lra. field.
  - assert (Hk' : (k <= 23)%Z). { destruct (Z_le_gt_dec k 23); auto. exfalso. assert (2 ^ 23 <= 2 ^ (k - 1))%Z by (apply Z.pow_le_mono_r; lia). lia. }
    exists 0%Z, (Zpos m). split; [lia|]. split; [lia|]. split; [unfold join_bits; rewrite Z.shiftl_0_l; ring|].
    right. split; auto. assert (Ee : e = (-149)%Z) by lia. rewrite Ee. unfold F2R. cbn [Fnum Fexp]. change (-126)%Z with (23 + -149)%Z. rewrite bpow_plus, (bpow_IZR 23) by lia. apply Rmult_lt_compat_r; [apply bpow_gt_0|]. apply IZR_lt. lia.
Qed.

(** ** Rounding *)

Lemma scaled_exact : forall v, (0 <= v < 2 ^ 31)%Z -> rnd32 (rnd32 (IZR v) * rnd32 (11920928955078125 / 10 ^ 23)) = rnd32 (IZR v) / 2 ^ 23.
Proof.
  intros v Hv. assert (E : 11920928955078125 / 10 ^ 23 = bpow radix2 (-23)).
  { change (-23)%Z with (Z.opp 23). rewrite (bpow_opp radix2 23), (bpow_IZR 23) by lia. change (IZR (2 ^ 23)) with 8388608. field. }
  assert (F : float32 (bpow radix2 (-23))). { rewrite <- (Rmult_1_l (bpow radix2 (-23))). apply (float32_scaled 1); [reflexivity|lia]. }
  rewrite E, (rnd32_id (bpow radix2 (-23))) by auto. set (r := rnd32 (IZR v)).
  assert (Er : r * bpow radix2 (-23) = r / 2 ^ 23). { change (-23)%Z with (Z.opp 23). rewrite (bpow_opp radix2 23), (bpow_IZR 23) by lia. change (IZR (2 ^ 23)) with 8388608. field. }
  rewrite <- Er. apply rnd32_id.
  destruct (Z.eq_dec v 0) as [->|N].
  - assert (r = 0) by (unfold r; apply round_0; auto with typeclass_instances). rewrite H, Rmult_0_l. apply generic_format_0.
  - apply mult_bpow_exact_FLT; [apply rnd32_float32|].
    assert (1 <= r). { unfold r. rewrite <- (rnd32_id 1); [|apply (int_float32 1); reflexivity]. apply rnd32_le. apply IZR_le. lia. }
    assert (1 <= mag radix2 r)%Z. { apply mag_ge_bpow. cbn. rewrite Rabs_right by lra. auto. } lia.
Qed.

Local Notation u := (/ 16777216).

Lemma err : forall x B, Rabs x <= B -> Rabs (rnd32 x - x) <= B * u + / 2 ^ 60.
Proof. intros x B H. pose proof (rnd32_err x B H) as E. replace (2 ^ 24) with 16777216 in E by lra. exact E. Qed.

Lemma abs_split : forall x a, Rabs x <= a -> - a <= x <= a.
Proof. intros x a H. unfold Rabs in H. destruct (Rcase_abs x); lra. Qed.

Lemma arith_error : forall E M, (0 <= E <= 254)%Z -> (0 <= M < 2 ^ 23)%Z -> let x := 1 + IZR M / 2 ^ 23 in
  Rabs (fast_log2_arith (E * 2 ^ 23 + M) (x / 2) - (IZR E - 127 + flog x)) <= 48 / 1000000.
Proof.
  intros E M HE HM x. unfold fast_log2_arith. cbv zeta. rewrite scaled_exact by lia.
  assert (Hx : 1 <= x < 2). { unfold x. destruct HM as [M1 M2]. apply IZR_le in M1. apply IZR_lt in M2. change (IZR (2 ^ 23)) with 8388608 in M2. replace (2 ^ 23) with 8388608 by lra. lra. }
  set (m := x / 2). assert (Hm : 1 / 2 <= m < 1) by (unfold m; lra).
  assert (HE' : 0 <= IZR E <= 254) by (split; apply IZR_le; lia).
  assert (Ev : IZR (E * 2 ^ 23 + M) = 8388608 * (IZR E + x - 1)). { rewrite plus_IZR, mult_IZR. unfold x. change (IZR (2 ^ 23)) with 8388608. replace (2 ^ 23) with 8388608 by lra. field. }
  assert (T : 0 < / 2 ^ 60 <= / 1000000000000000) by (split; [apply Rinv_0_lt_compat; lra|apply Rinv_le_contravar; lra]). set (t := / 2 ^ 60) in *.
  assert (H1 : Rabs (rnd32 (IZR (E * 2 ^ 23 + M)) - IZR (E * 2 ^ 23 + M)) <= (8388608 * 255) * u + t) by (apply err; rewrite Ev, Rabs_right; lra).
  rewrite Ev in *. set (Y := rnd32 (8388608 * (IZR E + x - 1))) in *. apply abs_split in H1. replace (Y / 2 ^ 23) with (Y / 8388608) by (f_equal; lra).
  set (y := Y / 8388608). assert (Hy : Rabs (y - (IZR E + x - 1)) <= 255 * u + t). { unfold y. apply Rabs_le. split; lra. }
  apply abs_split in Hy.
  assert (HA := err (12422551499 / 100000000) 125 ltac:(rewrite Rabs_right; lra)). set (A := rnd32 (12422551499 / 100000000)) in *. fold t in HA. apply abs_split in HA.
  assert (H2 := err (y - A) 132 ltac:(apply Rabs_le; lra)). set (s1 := rnd32 (y - A)) in *. fold t in H2. apply abs_split in H2.
  assert (HB := err (1498030302 / 1000000000) 2 ltac:(rewrite Rabs_right; lra)). set (B := rnd32 (1498030302 / 1000000000)) in *. fold t in HB. apply abs_split in HB.
  assert (HBm : 0 <= B * m <= 2). { split; [apply Rmult_le_pos; lra|]. apply Rle_trans with (2 * 1); [apply Rmult_le_compat; lra|lra]. }
  assert (H3 := err (B * m) 2 ltac:(rewrite Rabs_right; lra)). set (p := rnd32 (B * m)) in *. fold t in H3. apply abs_split in H3.
  assert (HD := err (3520887068 / 10000000000) 1 ltac:(rewrite Rabs_right; lra)). set (D := rnd32 (3520887068 / 10000000000)) in *. fold t in HD. apply abs_split in HD.
  assert (H4 := err (D + m) 2 ltac:(rewrite Rabs_right; lra)). set (q := rnd32 (D + m)) in *. fold t in H4. apply abs_split in H4.
  assert (HC := err (172587999 / 100000000) 2 ltac:(rewrite Rabs_right; lra)). set (C := rnd32 (172587999 / 100000000)) in *. fold t in HC. apply abs_split in HC.
  set (q0 := 3520887068 / 10000000000 + m). assert (Hq : Rabs (q - q0) <= 4 * u) by (unfold q0; apply Rabs_le; lra). apply abs_split in Hq.
  assert (Hq0 : 85 / 100 <= q0 <= 136 / 100) by (unfold q0; lra).
  assert (Hiq : 0 < / q <= 12 / 10). { split; [apply Rinv_0_lt_compat; lra|]. replace (12 / 10) with (/ (10 / 12)) by field. apply Rinv_le_contravar; lra. }
  assert (Hiq0 : 0 < / q0 <= 12 / 10). { split; [apply Rinv_0_lt_compat; lra|]. replace (12 / 10) with (/ (10 / 12)) by field. apply Rinv_le_contravar; lra. }
  assert (Hdiv : Rabs (C / q - 172587999 / 100000000 / q0) <= 14 * u).
  { replace (C / q - 172587999 / 100000000 / q0) with ((C - 172587999 / 100000000) * / q + 172587999 / 100000000 * (q0 - q) * (/ q * / q0)) by (field; lra).
    eapply Rle_trans; [apply Rabs_triang|]. rewrite !Rabs_mult, (Rabs_right (/ q)), (Rabs_right (/ q0)), (Rabs_right (172587999 / 100000000)) by lra.
    assert (Rabs (C - 172587999 / 100000000) <= 3 * u) by (apply Rabs_le; lra). assert (Rabs (q0 - q) <= 4 * u) by (apply Rabs_le; lra).
    assert (0 <= / q * / q0 <= 144 / 100). { split; [apply Rmult_le_pos; lra|]. apply Rle_trans with (12 / 10 * (12 / 10)); [apply Rmult_le_compat; lra|lra]. }
    apply Rle_trans with (3 * u * (12 / 10) + 172587999 / 100000000 * (4 * u) * (144 / 100)); [|lra].
    apply Rplus_le_compat; [apply Rmult_le_compat; try apply Rabs_pos; lra|]. assert (0 <= 172587999 / 100000000 * Rabs (q0 - q)) by (apply Rmult_le_pos; [lra|apply Rabs_pos]). apply Rmult_le_compat; lra. }
  assert (Hcq : 0 <= C / q <= 3). { unfold Rdiv. split; [apply Rmult_le_pos; lra|]. apply Rle_trans with (2 * (12 / 10)); [apply Rmult_le_compat; lra|lra]. }
  apply abs_split in Hdiv.
  assert (H5 := err (C / q) 3 ltac:(rewrite Rabs_right; lra)). set (r := rnd32 (C / q)) in *. fold t in H5. apply abs_split in H5.
  assert (H6 := err (s1 - p) 134 ltac:(apply Rabs_le; lra)). set (s2 := rnd32 (s1 - p)) in *. fold t in H6. apply abs_split in H6.
  assert (H7 := err (s2 - r) 137 ltac:(apply Rabs_le; lra)). set (s3 := rnd32 (s2 - r)) in *. fold t in H7. apply abs_split in H7.
  unfold flog. fold m. fold q0.
  assert (Hbm : Rabs (B * m - 1498030302 / 1000000000 * m) <= 2 * u + t).
  { replace (B * m - 1498030302 / 1000000000 * m) with ((B - 1498030302 / 1000000000) * m) by ring. rewrite Rabs_mult, (Rabs_right m) by lra.
    assert (Rabs (B - 1498030302 / 1000000000) <= 2 * u + t) by (apply Rabs_le; lra). pose proof (Rabs_pos (B - 1498030302 / 1000000000)). apply Rle_trans with ((2 * u + t) * 1); [apply Rmult_le_compat; lra|lra]. }
  apply abs_split in Hbm. apply Rabs_le. split; lra.
Qed.

(** fast_log2 of a positive finite float. *)
Lemma fast_log2_bits : forall x E M, (0 <= E <= 254)%Z -> (0 <= M < 2 ^ 23)%Z -> bits_of_b32 x = (E * 2 ^ 23 + M)%Z ->
  Rabs (fast_log2 x - (IZR E - 127 + ln (1 + IZR M / 2 ^ 23) / ln 2)) <= 198 / 1000000.
Proof.
  intros x E M HE HM Hb. unfold fast_log2. cbv zeta. rewrite Hb, low_bits, half_bits by auto. pose proof (arith_error E M HE HM) as A. cbv zeta in A. set (v := 1 + IZR M / 2 ^ 23) in *.
  assert (Hv : 1 <= v <= 2). { unfold v. destruct HM as [M1 M2]. apply IZR_le in M1. apply IZR_lt in M2. change (IZR (2 ^ 23)) with 8388608 in M2. replace (2 ^ 23) with 8388608 by lra. lra. }
  pose proof (flog_error v Hv) as F. apply abs_split in A. apply Rabs_le. lra.
Qed.

Lemma log_normal : forall M E, (0 <= M)%Z -> ln ((1 + IZR M / 2 ^ 23) * bpow radix2 E) / ln 2 = IZR E + ln (1 + IZR M / 2 ^ 23) / ln 2.
Proof.
  intros M E HM. apply IZR_le in HM. assert (0 < 1 + IZR M / 2 ^ 23) by (replace (2 ^ 23) with 8388608 by lra; lra).
  rewrite ln_mult by (auto; apply bpow_gt_0). assert (L : ln (bpow radix2 E) = IZR E * ln 2).
  { rewrite bpow_exp. change (IZR radix2) with 2. apply ln_exp. }
  rewrite L. pose proof ln2_bounds. field. lra.
Qed.

(** ** Decibels *)

Lemma pow_pos_ln : forall a n, 0 < a -> ln (a ^ n) = INR n * ln a.
Proof.
  intros a n Ha. induction n as [|n IH]; [cbn [pow INR]; rewrite ln_1; ring|]. cbn [pow]. rewrite ln_mult by (auto; apply pow_lt; auto). rewrite IH, S_INR. ring.
Qed.

Lemma pow_lt_Z : forall a b n m, (a ^ Z.of_nat n <? b ^ Z.of_nat m)%Z = true -> IZR a ^ n < IZR b ^ m.
Proof. intros a b n m H. rewrite !pow_IZR. apply IZR_lt. apply Z.ltb_lt. auto. Qed.

Lemma log10_2 : 301029 / 1000000 <= ln 2 / ln 10 <= 301031 / 1000000 /\ Rabs (ln 2 / ln 10 - 30102999566 / 10 ^ 11) <= 2 / 10 ^ 7.
Proof.
  assert (L10 : 0 < ln 10) by (rewrite <- ln_1; apply ln_increasing; lra).
  assert (A : INR 643 * ln 10 < INR 2136 * ln 2).
  { rewrite <- !pow_pos_ln by lra. apply ln_increasing; [apply pow_lt; lra|]. apply pow_lt_Z. vm_compute. reflexivity. }
  assert (B : INR 2621 * ln 2 < INR 789 * ln 10).
  { rewrite <- !pow_pos_ln by lra. apply ln_increasing; [apply pow_lt; lra|]. apply pow_lt_Z. vm_compute. reflexivity. }
  rewrite !INR_IZR_INZ in A, B. cbv [Z.of_nat Pos.of_succ_nat Pos.succ] in A, B.
  assert (E : ln 2 = ln 2 / ln 10 * ln 10) by (field; lra). set (q := ln 2 / ln 10) in *. rewrite E in A, B.
  assert (643 < 2136 * q) by (apply Rmult_lt_reg_r with (ln 10); lra). assert (2621 * q < 789) by (apply Rmult_lt_reg_r with (ln 10); lra).
  split; [split; lra|]. apply Rabs_le. split; lra.
Qed.

Lemma decibels_error : forall L l, Rabs (L - l) <= 198 / 1000000 -> Rabs l <= 129 ->
  Rabs (rnd32 (20 * rnd32 (L * rnd32 (30102999566 / 10 ^ 11))) - 20 * (l * (ln 2 / ln 10))) <= 2 / 1000.
Proof.
  intros L l HL Hl. destruct log10_2 as [K1 K2]. set (k := ln 2 / ln 10) in *. replace (10 ^ 11) with 100000000000 in * by lra. replace (10 ^ 7) with 10000000 in * by lra.
  assert (T : 0 < / 2 ^ 60 <= / 1000000000000000) by (split; [apply Rinv_0_lt_compat; lra|apply Rinv_le_contravar; lra]). set (t := / 2 ^ 60) in *.
  assert (HK := err (30102999566 / 100000000000) 1 ltac:(rewrite Rabs_right; lra)). set (K := rnd32 (30102999566 / 100000000000)) in *. fold t in HK.
  apply abs_split in HK, K2, HL, Hl.
  assert (HKk : Rabs (K - k) <= 26 / 100000000) by (apply Rabs_le; lra).
  assert (HP : Rabs (L * K - l * k) <= 130 * (26 / 100000000) + 198 / 1000000 * (301031 / 1000000)).
  { replace (L * K - l * k) with (L * (K - k) + (L - l) * k) by ring. eapply Rle_trans; [apply Rabs_triang|]. rewrite !Rabs_mult, (Rabs_right k) by lra.
    assert (Rabs L <= 130) by (apply Rabs_le; lra). assert (Rabs (L - l) <= 198 / 1000000) by (apply Rabs_le; lra).
    apply Rplus_le_compat; apply Rmult_le_compat; try apply Rabs_pos; lra. }
  apply abs_split in HP.
  assert (Hlk : Rabs (l * k) <= 39). { rewrite Rabs_mult, (Rabs_right k) by lra. apply Rle_trans with (129 * (301031 / 1000000)); [|lra]. apply Rmult_le_compat; try apply Rabs_pos; try lra. apply Rabs_le; lra. }
  apply abs_split in Hlk.
  assert (H1 := err (L * K) 40 ltac:(apply Rabs_le; lra)). set (p := rnd32 (L * K)) in *. fold t in H1. apply abs_split in H1.
  assert (H2 := err (20 * p) 800 ltac:(apply Rabs_le; lra)). set (r := rnd32 (20 * p)) in *. fold t in H2. apply abs_split in H2.
  apply Rabs_le. split; lra.
Qed.

Lemma log10_split : forall x, log10 x = ln x / ln 2 * (ln 2 / ln 10).
Proof.
  intros x. unfold log10. pose proof ln2_bounds. assert (L10 : 0 < ln 10) by (rewrite <- ln_1; apply ln_increasing; lra). field. lra.
Qed.

Lemma max_close : forall i a b e, Rabs (a - b) <= e -> Rabs (Rmax i a - Rmax i b) <= e.
Proof. intros i a b e H. apply abs_split in H. apply Rabs_le. unfold Rmax. destruct (Rle_dec i a), (Rle_dec i b); lra. Qed.

Lemma ln_mono : forall x y, 0 < x -> x <= y -> ln x <= ln y.
Proof. intros x y H0 H. destruct (Rle_lt_or_eq_dec _ _ H) as [L| ->]; [left; apply ln_increasing; auto|lra]. Qed.

Lemma fraction_range : forall M, (0 <= M < 2 ^ 23)%Z -> 0 <= ln (1 + IZR M / 2 ^ 23) / ln 2 <= 1.
Proof.
  intros M [M1 M2]. apply IZR_le in M1. apply IZR_lt in M2. change (IZR (2 ^ 23)) with 8388608 in M2. replace (2 ^ 23) with 8388608 by lra. pose proof ln2_bounds as L2.
  assert (0 <= ln (1 + IZR M / 8388608) <= ln 2).
  { split; [rewrite <- ln_1; apply ln_mono; lra|apply ln_mono; lra]. }
  split; [apply Rmult_le_pos; [lra|left; apply Rinv_0_lt_compat; lra]|]. apply Rmult_le_reg_r with (ln 2); [lra|]. unfold Rdiv. rewrite Rmult_assoc, Rinv_l by lra. lra.
Qed.

Lemma positive_error : forall x, is_finite 24 128 x = true -> 0 < B2R 24 128 x ->
  (bpow radix2 (-126) <= B2R 24 128 x /\ Rabs (fast_log2 x - ln (B2R 24 128 x) / ln 2) <= 198 / 1000000 /\ Rabs (ln (B2R 24 128 x) / ln 2) <= 129) \/
  (B2R 24 128 x < bpow radix2 (-126) /\ exists l, Rabs (fast_log2 x - l) <= 198 / 1000000 /\ -127 <= l <= -126).
Proof.
  intros x Hf Hx. destruct (positive_bits x Hf Hx) as (E & M & HE & HM & Hb & [[E1 Ev]|[-> Lt]]); [left|right].
  - pose proof (fraction_range M HM) as Fr. assert (B1 : 1 <= 1 + IZR M / 2 ^ 23). { destruct HM as [M1 _]. apply IZR_le in M1. replace (2 ^ 23) with 8388608 by lra. lra. }
    pose proof (fast_log2_bits x E M HE HM Hb) as F. split.
    { rewrite Ev. apply Rle_trans with (1 * bpow radix2 (-126)); [lra|]. apply Rmult_le_compat; [lra|left; apply bpow_gt_0|auto|]. apply bpow_le. lia. }
    rewrite Ev, log_normal by lia. rewrite minus_IZR. split; auto.
    assert (1 <= IZR E <= 254) by (split; apply IZR_le; lia). apply Rabs_le. lra.
  - split; auto. exists (-127 + ln (1 + IZR M / 2 ^ 23) / ln 2). pose proof (fraction_range M HM). pose proof (fast_log2_bits x 0 M HE HM Hb) as F. split; [|lra]. replace (IZR 0 - 127) with (-127) in F by (cbn; ring). auto.
Qed.

Lemma log2_below : forall x, 0 < x -> x < bpow radix2 (-126) -> ln x / ln 2 <= -126.
Proof.
  intros x H0 H. pose proof ln2_bounds as L2. assert (ln x < ln (bpow radix2 (-126))) by (apply ln_increasing; auto). rewrite bpow_exp in H1. change (IZR radix2) with 2 in H1. rewrite ln_exp in H1.
  apply Rmult_le_reg_r with (ln 2); [lra|]. unfold Rdiv. rewrite Rmult_assoc, Rinv_l by lra. lra.
Qed.

Lemma decibel_floor_error : forall g inf, is_finite 24 128 g = true ->
  B2R 24 128 g <= 0 \/ bpow radix2 (-126) <= B2R 24 128 g \/ -700 <= inf ->
  Rabs (amplitude_to_db_estimate_floor g inf - amplitude_to_db_floor (B2R 24 128 g) inf) <= 2 / 1000.
Proof.
  intros g inf Hf Hg. unfold amplitude_to_db_estimate_floor, amplitude_to_db_floor, fast_log10.
  destruct (Rle_dec (B2R 24 128 g) 0) as [L|P]; [rewrite Rminus_diag_eq by auto; rewrite Rabs_R0; lra|].
  assert (Hx : 0 < B2R 24 128 g) by lra. rewrite log10_split. destruct (positive_error g Hf Hx) as [(_ & F & Fl)|(Lt & l & F & Fl)].
  - apply max_close. apply decibels_error; auto.
  - assert (Hi : -700 <= inf) by (destruct Hg as [?|[?|?]]; lra). pose proof (log2_below _ Hx Lt) as U. destruct log10_2 as [K _].
    pose proof (decibels_error (fast_log2 g) l F ltac:(apply Rabs_le; lra)) as D. apply abs_split in D. assert (l * (ln 2 / ln 10) <= -126 * (301029 / 1000000)) by nra.
    assert (ln (B2R 24 128 g) / ln 2 * (ln 2 / ln 10) <= -126 * (301029 / 1000000)) by nra.
    rewrite !Rmax_left by lra. rewrite Rminus_diag_eq by auto. rewrite Rabs_R0. lra.
Qed.
