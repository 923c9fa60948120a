(** Property theorems C72: statistics and normalisation in rounded arithmetic.  Specification:
    Spec/Rounding.v, Spec/RoundedSums.v (the two formats, growth of k roundings) and
    Spec/Statistics.v (average, population variance, energy, peak). *)
From Coq Require Import Reals List Arith ZArith Lia Lra.
From Flocq Require Import Core.
From Verif Require Import Base.Outcome Base.OutcomeFacts Base.Alias Base.Sums Base.Cplx Base.VecNorm Spec.Rounding Spec.RoundedSums Spec.Statistics Model.Algorithm Model.Statistics Model.RoundedStats
  Proof.AlgorithmProof Proof.StatisticsProof Proof.RoundedSums Proof.RoundedDirect Proof.RoundedStatsProof Proof.RoundedNormalize Props.RoundedDirectProps.
From Verif Require Proof.RoundedPlan.
Import ListNotations.
Local Open Scope R_scope.

Lemma size_in_range : forall prec emin emax (x : object R), ieee prec emin emax -> well_formed x -> int_extents x -> INR (length (entries x)) <= bpow radix2 emax.
Proof.
  intros prec emin emax x HF Hw Hi. rewrite entries_length by auto. apply Rle_trans with (bpow radix2 62); [|apply bpow_le; destruct HF as [(-> & -> & ->)|(-> & -> & ->)]; lia].
  rewrite INR_IZR_INZ, <- pow2_IZR by lia. apply IZR_le. destruct x as [v|r c m]; cbn [obj_size int_extents] in *; [lia|]. destruct Hi as [A B]. rewrite Nat2Z.inj_mul. change (2 ^ 62)%Z with (2 ^ 31 * 2 ^ 31)%Z. apply Z.mul_le_mono_nonneg; lia.
Qed.

Lemma entries_nonempty : forall (x : object R), well_formed x -> (0 < obj_size x)%nat -> entries x <> [].
Proof. intros x Hw H E. rewrite <- entries_length, E in H by auto. cbn in H. lia. Qed.

(** Constants. *)
Lemma growth_bound : forall prec emin emax k, ieee prec emin emax -> INR k * unit_roundoff prec <= 9 / 1000 ->
  growth prec k - 1 <= 101 / 100 * (INR k * unit_roundoff prec) /\ 1 <= growth prec k <= 101 / 100.
Proof. intros prec emin emax k HF Hk. pose proof (u_pos prec emin emax HF). apply RoundedPlan.growth; auto. lra. Qed.

Lemma tiny_eta : forall prec emin emax n, ieee prec emin emax -> INR n * unit_roundoff prec <= 9 / 1000 -> 0 < underflow emin <= 1 / 1000000 /\ INR n * underflow emin <= 1 / 1000000.
Proof.
  intros prec emin emax n HF Hn. pose proof (u_pos prec emin emax HF) as U. pose proof (eta_pos emin) as E0. pose proof (pos_INR n) as N0. assert (B20 : bpow radix2 (-20) <= 1 / 1000000) by (cbn; lra).
  assert (S : underflow emin <= unit_roundoff prec * bpow radix2 (-20)) by (unfold underflow, unit_roundoff; rewrite <- bpow_plus; apply bpow_le; destruct HF as [(-> & -> & ->)|(-> & -> & ->)]; lia).
  split; [split; auto; nra|]. apply Rle_trans with (INR n * (unit_roundoff prec * bpow radix2 (-20))); [apply Rmult_le_compat_l; auto|]. rewrite <- Rmult_assoc. pose proof (bpow_gt_0 radix2 (-20)). nra.
Qed.

Lemma count_mono : forall prec emin emax j k, ieee prec emin emax -> (j <= k)%nat -> INR k * unit_roundoff prec <= 9 / 1000 -> INR j * unit_roundoff prec <= 9 / 1000.
Proof. intros prec emin emax j k HF H Hk. pose proof (u_pos prec emin emax HF). apply le_INR in H. nra. Qed.

(** ** The mean *)

(** Empty for an empty object.  Otherwise within (1 + u)^(n + 2) - 1, about (n + 2) u, of the
    average, relative to the average magnitude, unless the sum is out of range. *)
Theorem C72_mean : forall prec emin emax rnd x n, ieee prec emin emax -> rounds_to_nearest prec emin emax rnd -> well_formed x -> int_extents x -> n = obj_size x ->
  (n = 0%nat -> rmean rnd x = Ok None) /\
  ((0 < n)%nat -> (forall v, In v (entries x) -> is_float prec emin v) -> growth prec (n + 1) * total (map Rabs (entries x)) <= bpow radix2 emax ->
    exists m, rmean rnd x = Ok (Some m) /\ is_float prec emin m /\
      Rabs (m - average (entries x)) <= (growth prec (n + 2) - 1) * average (map Rabs (entries x)) + underflow emin).
Proof.
  intros prec emin emax rnd x n HF Hr Hw Hi Hn. rewrite rmean_ok by auto. split; intros H.
  - destruct (Nat.eqb_spec (obj_size x) 0); [auto|lia].
  - intros Hf Ho. destruct (Nat.eqb_spec (obj_size x) 0); [lia|]. eexists. split; [reflexivity|]. rewrite <- entries_length in Hn by auto.
    destruct (mean_error prec emin emax rnd HF Hr (entries x)) as (F & _ & E); auto.
    + apply entries_nonempty; auto. lia.
    + apply (size_in_range prec emin emax); auto.
    + rewrite <- Hn. auto.
    + rewrite <- Hn in E. auto.
Qed.

Lemma average_abs_le : forall l X, l <> [] -> (forall v, In v l -> Rabs v <= X) -> 0 <= total (map Rabs l) <= INR (length l) * X /\ 0 <= average (map Rabs l) <= X.
Proof.
  intros l X Hl H. assert (P : 0 < INR (length l)) by (apply lt_0_INR; destruct l; [congruence|cbn; lia]).
  assert (T : 0 <= total (map Rabs l) <= INR (length l) * X).
  { split; [apply (total_abs_nonneg R (fun v => v))|]. rewrite <- (map_length Rabs l). apply (total_bounds (map Rabs l) 0 X). intros v Hv. apply in_map_iff in Hv. destruct Hv as (w & <- & Hw). split; [apply Rabs_pos|auto]. }
  split; auto. unfold average. rewrite map_length. split; [apply Rmult_le_pos; [lra|left; apply Rinv_0_lt_compat; auto]|]. apply Rmult_le_reg_r with (INR (length l)); auto. unfold Rdiv. rewrite Rmult_assoc, Rinv_l by lra. lra.
Qed.

(** For at most 9/1000 / u elements (150000 floats, 8 * 10^13 doubles) of magnitude at most X. *)
Theorem C72_mean_practical : forall prec emin emax rnd x n X, ieee prec emin emax -> rounds_to_nearest prec emin emax rnd -> well_formed x -> int_extents x -> n = obj_size x ->
  (0 < n)%nat -> (forall v, In v (entries x) -> is_float prec emin v /\ Rabs v <= X) -> INR (n + 2) * unit_roundoff prec <= 9 / 1000 -> INR n * X <= bpow radix2 (emax - 1) ->
  exists m, rmean rnd x = Ok (Some m) /\ Rabs (m - average (entries x)) <= 101 / 100 * INR (n + 2) * unit_roundoff prec * X + underflow emin.
Proof.
  intros prec emin emax rnd x n X HF Hr Hw Hi Hn Hp Hx Hs Ho. destruct (C72_mean prec emin emax rnd x n HF Hr Hw Hi Hn) as [_ H]. assert (NE : entries x <> []) by (apply entries_nonempty; auto; lia).
  destruct (average_abs_le (entries x) X NE ltac:(apply Hx)) as [T A]. rewrite entries_length, <- Hn in T by auto.
  destruct (growth_bound prec emin emax (n + 1) HF ltac:(apply (count_mono prec emin emax _ (n + 2)); auto; lia)) as [_ G1]. destruct (growth_bound prec emin emax (n + 2) HF Hs) as [G2 G3].
  assert (O2 : bpow radix2 emax = 2 * bpow radix2 (emax - 1)). { change 2 with (bpow radix2 1). rewrite <- bpow_plus. f_equal. lia. }
  destruct H as (m & E & _ & B); auto.
  - apply Hx.
  - rewrite O2. pose proof (bpow_gt_0 radix2 (emax - 1)). nra.
  - exists m. split; auto. eapply Rle_trans; [exact B|]. apply Rplus_le_compat_r. apply Rle_trans with ((growth prec (n + 2) - 1) * X); [apply Rmult_le_compat_l; lra|]. apply Rmult_le_compat_r; [lra|]. lra.
Qed.

(** Elements that are multiples of one power of two, with a sum of magnitudes within the
    precision: the result is the average itself, rounded once. *)
Theorem C72_mean_multiples : forall prec emin emax rnd x n i, ieee prec emin emax -> rounds_to_nearest prec emin emax rnd -> well_formed x -> int_extents x -> n = obj_size x ->
  (0 < n)%nat -> INR n <= bpow radix2 prec -> (forall v, In v (entries x) -> exists z, v = IZR z * bpow radix2 i) -> (emin <= i <= emax - prec)%Z ->
  total (map Rabs (entries x)) <= bpow radix2 (prec + i) ->
  rmean rnd x = Ok (Some (rnd (average (entries x)))).
Proof.
  intros prec emin emax rnd x n i HF Hr Hw Hi Hn Hp Hs Hm He Ho. rewrite rmean_ok by auto. destruct (Nat.eqb_spec (obj_size x) 0); [lia|]. do 2 f_equal. unfold avg_of, average. f_equal. pose proof (prec_range prec emin emax HF) as P. rewrite <- entries_length in Hn by auto.
  rewrite (rsum_exact prec emin emax rnd HF Hr R (fun v => v) (entries x)).
  - rewrite map_id. f_equal. rewrite <- Hn. apply (rnd_id prec emin emax HF rnd Hr).
    + rewrite Rabs_pos_eq by apply pos_INR. eapply Rle_trans; [exact Hs|]. apply bpow_le. lia.
    + apply (multiple_float prec emin emax HF 0); [lia| |].
      * exists (Z.of_nat n). rewrite INR_IZR_INZ. cbn [bpow]. ring.
      * rewrite Rabs_pos_eq by apply pos_INR. rewrite Z.add_0_r. auto.
  - intros p s E. rewrite map_id. assert (B : Rabs (total p) <= bpow radix2 (prec + i)).
    { eapply Rle_trans; [|exact Ho]. rewrite E, map_app, total_app. pose proof (total_abs R (fun v => v) p) as A. rewrite map_id in A. change (map (fun v => Rabs v) p) with (map Rabs p) in A. pose proof (total_abs_nonneg R (fun v => v) s) as B. change (0 <= total (map Rabs s)) in B. lra. }
    split.
    + apply (multiple_float prec emin emax HF i); auto; [lia|]. assert (Hp' : forall v, In v p -> exists z, v = IZR z * bpow radix2 i) by (intros v Hv; apply Hm; rewrite E; apply in_or_app; auto).
      clear - Hp'. induction p as [|v p IH]; [exists 0%Z; cbn; ring|]. destruct (Hp' v (or_introl eq_refl)) as (z & ->). destruct IH as (z' & E); [intros w Hw; apply Hp'; right; auto|]. exists (z + z')%Z. cbn [total]. rewrite E, plus_IZR. ring.
    + eapply Rle_trans; [exact B|]. apply bpow_le. lia.
Qed.

(** Finding: a running float sum of ones stops growing at 2^24. *)
Lemma sum_of_ones : forall rnd n, rounds_to_nearest 24 (-149) 127 rnd -> rsum rnd R (fun v => v) (repeat 1 n) = IZR (Z.min (Z.of_nat n) 16777216).
Proof.
  intros rnd n Hr. unfold rsum. induction n as [|n IH]; [reflexivity|]. replace (repeat 1 (S n)) with (repeat 1 n ++ [1]) by (symmetry; apply repeat_cons). rewrite fold_left_app, IH. cbn [fold_left].
  assert (B : forall z, (Z.abs z <= 2 ^ 25)%Z -> Rabs (IZR z) <= bpow radix2 127). { intros z Hz. rewrite <- abs_IZR. apply Rle_trans with (IZR (2 ^ 25)); [apply IZR_le; auto|]. change (IZR (2 ^ 25)) with (bpow radix2 25). apply bpow_le. lia. }
  destruct (Z_lt_ge_dec (Z.of_nat n) 16777216) as [L|L].
  - rewrite !Z.min_l by lia. rewrite <- plus_IZR. replace (Z.of_nat n + 1)%Z with (Z.of_nat (S n)) by lia. rewrite Hr by (apply B; lia). apply integer_float32. lia.
  - rewrite !Z.min_r by lia. rewrite Hr by (change (16777216 + 1) with (IZR 16777216 + IZR 1); rewrite <- plus_IZR; apply B; lia). apply stuck_at_two_24.
Qed.

(** The mean of 2^k ones in float, k from 24 to 30, is 2^(24 - k): outside the range of the
    elements for k > 24. *)
Theorem C72_mean_within_range_refuted : forall rnd k, rounds_to_nearest 24 (-149) 127 rnd -> (24 <= k < 31)%nat ->
  rmean rnd (Vec (repeat 1 (2 ^ k))) = Ok (Some (/ 2 ^ (k - 24))).
Proof.
  intros rnd k Hr Hk. assert (HF : ieee 24 (-149) 127) by (left; lia). assert (Zk : Z.of_nat (2 ^ k) = (2 ^ Z.of_nat k)%Z) by (rewrite Nat2Z.inj_pow; reflexivity).
  assert (K24 : (2 ^ 24 <= 2 ^ Z.of_nat k)%Z) by (apply Z.pow_le_mono_r; lia). assert (K31 : (2 ^ Z.of_nat k < 2 ^ 31)%Z) by (apply Z.pow_lt_mono_r; lia).
  rewrite rmean_ok; [|exact I|cbn; rewrite repeat_length; lia]. cbn [obj_size entries]. rewrite repeat_length. destruct (Nat.eqb_spec (2 ^ k) 0); [lia|]. do 2 f_equal. unfold avg_of. rewrite repeat_length, sum_of_ones by auto.
  rewrite Zk, Z.min_r by lia. rewrite INR_IZR_INZ, Zk, pow2_IZR by lia.
  assert (Fb : forall e, (-149 <= e <= 127)%Z -> rnd (bpow radix2 e) = bpow radix2 e). { intros e He. apply (rnd_id 24 (-149) 127 HF rnd Hr); [rewrite Rabs_pos_eq by apply bpow_ge_0; apply bpow_le; lia|]. apply generic_format_FLT_bpow; [unfold Prec_gt_0; lia|lia]. }
  rewrite Fb by lia. change (IZR 16777216) with (bpow radix2 24). unfold Rdiv. rewrite <- bpow_opp, <- bpow_plus, Fb by lia. replace (24 + - Z.of_nat k)%Z with (- Z.of_nat (k - 24))%Z by lia. rewrite bpow_opp. f_equal. rewrite <- pow2_IZR by lia. rewrite <- pow_IZR. reflexivity.
Qed.

(** ** Variance and standard deviation *)

Lemma pvariance_le : forall l X, l <> [] -> (forall v, In v l -> Rabs v <= X) -> 0 <= pvariance l <= X * X.
Proof.
  intros l X Hl H. split; [apply pvariance_nonneg; auto|]. assert (P : 0 < INR (length l)) by (apply lt_0_INR; destruct l; [congruence|cbn; lia]).
  pose proof (square_shift 0 (average l) l) as S. assert (T : total l = INR (length l) * average l) by (unfold average; field; lra). rewrite T in S.
  assert (B : total (map (fun v => (v - 0) * (v - 0)) l) <= INR (length l) * (X * X)).
  { rewrite <- (map_length (fun v => (v - 0) * (v - 0)) l). apply (total_bounds _ 0 (X * X)). intros w Hw. apply in_map_iff in Hw. destruct Hw as (v & <- & Hv). split; [apply Rle_0_sqr|]. rewrite Rminus_0_r. specialize (H v Hv). replace (v * v) with (Rabs v * Rabs v) by (rewrite <- Rabs_mult; apply Rabs_pos_eq, Rle_0_sqr). apply Rmult_le_compat; auto using Rabs_pos. }
  assert (Q : 0 <= INR (length l) * ((0 - average l) * (0 - average l))) by (apply Rmult_le_pos; [lra|apply Rle_0_sqr]).
  unfold pvariance. unfold average at 1. rewrite map_length. apply Rmult_le_reg_r with (INR (length l)); auto. unfold Rdiv. rewrite Rmult_assoc, Rinv_l, Rmult_1_r by lra. lra.
Qed.

(** The error of the average, for [n] elements. *)
Definition mean_error_bound (prec emin : Z) (n : nat) (l : list R) : R := 101 / 100 * INR (n + 2) * unit_roundoff prec * average (map Rabs l) + underflow emin.

(** Empty for fewer than two elements.  Otherwise never negative, and within about (n + 5) u of
    the population variance, plus twice the square of the error of the average. *)
Theorem C72_variance : forall prec emin emax rnd x n X, ieee prec emin emax -> rounds_to_nearest prec emin emax rnd -> well_formed x -> int_extents x -> n = obj_size x ->
  ((n < 2)%nat -> rvariance rnd x = Ok None /\ rstandard_deviation rnd x = Ok None) /\
  ((2 <= n)%nat -> (forall v, In v (entries x) -> is_float prec emin v /\ Rabs v <= X) -> INR (n + 6) * unit_roundoff prec <= 9 / 1000 -> INR n * ((X + 1) * (X + 1)) <= bpow radix2 (emax - 1) ->
    let E := mean_error_bound prec emin n (entries x) in
    exists s d, rvariance rnd x = Ok (Some s) /\ rstandard_deviation rnd x = Ok (Some d) /\ 0 <= s /\ 0 <= d /\
      Rabs (s - pvariance (entries x)) <= 101 / 100 * INR (n + 5) * unit_roundoff prec * pvariance (entries x) + 2 * (E * E) + 3 * underflow emin /\
      Rabs (d - sqrt (pvariance (entries x))) <= 101 / 100 * INR (n + 6) * unit_roundoff prec * sqrt (pvariance (entries x)) + 2 * E + 2 * sqrt (underflow emin)).
Proof.
  intros prec emin emax rnd x n X HF Hr Hw Hi Hn. unfold rstandard_deviation. rewrite rvariance_ok by auto. split; intros H.
  - destruct (Nat.ltb_spec (obj_size x) 2); [auto|lia].
  - intros Hx Hs Ho. cbv zeta. set (E := mean_error_bound prec emin n (entries x)). destruct (Nat.ltb_spec (obj_size x) 2); [lia|]. cbn [bind]. exists (var_of rnd (entries x)). exists (rnd (sqrt (var_of rnd (entries x)))). split; auto. split; auto.
    assert (NE : entries x <> []) by (apply entries_nonempty; auto; lia). rewrite <- entries_length in Hn by auto. set (l := entries x) in *. pose proof (u_pos prec emin emax HF) as U. set (u := unit_roundoff prec) in *.
    assert (Gr : forall k, (k <= n + 6)%nat -> growth prec k - 1 <= 101 / 100 * (INR k * u) /\ 1 <= growth prec k <= 101 / 100) by (intros k Hk; apply (growth_bound prec emin emax); auto; apply (count_mono prec emin emax _ (n + 6)); auto).
    destruct (tiny_eta prec emin emax n HF ltac:(apply (count_mono prec emin emax _ (n + 6)); auto; lia)) as [E0 EN]. set (eta := underflow emin) in *.
    destruct (average_abs_le l X NE ltac:(apply Hx)) as [T A]. destruct (pvariance_le l X NE ltac:(apply Hx)) as [V0 V1]. rewrite <- Hn in T.
    assert (X0 : 0 <= X) by lra. assert (N1 : 1 <= INR n) by (apply (le_INR 1); lia).
    assert (O2 : bpow radix2 emax = 2 * bpow radix2 (emax - 1)). { change 2 with (bpow radix2 1). rewrite <- bpow_plus. f_equal. lia. }
    pose proof (Gr (n + 1)%nat ltac:(lia)) as G1. pose proof (Gr (n + 2)%nat ltac:(lia)) as G2. pose proof (Gr (n + 4)%nat ltac:(lia)) as G4. pose proof (Gr (n + 5)%nat ltac:(lia)) as G5. pose proof (Gr (n + 6)%nat ltac:(lia)) as G6.
    assert (MB : 0 <= mean_bound prec emin l <= E).
    { unfold mean_bound, E, mean_error_bound. fold u eta. rewrite <- Hn. split; [apply Rplus_le_le_0_compat; [apply Rmult_le_pos; lra|lra]|]. apply Rplus_le_compat_r, Rmult_le_compat_r; lra. }
    assert (EB : E <= / 50 * X + 1 / 1000000).
    { unfold E, mean_error_bound. fold u eta. assert (INR (n + 2) * u <= 9 / 1000) by (apply (count_mono prec emin emax _ (n + 6)); auto; lia). apply Rplus_le_compat; [|lra]. apply Rle_trans with (101 / 100 * INR (n + 2) * u * X); [|nra]. apply Rmult_le_compat_l; [|lra]. pose proof (pos_INR (n + 2)). nra. }
    assert (EE : mean_bound prec emin l * mean_bound prec emin l <= E * E) by (apply Rmult_le_compat; lra). assert (E00 : 0 <= E) by lra.
    assert (E2 : E * E <= (/ 50 * X + 1 / 1000000) * (/ 50 * X + 1 / 1000000)) by (apply Rmult_le_compat; lra). pose proof (Rle_0_sqr X) as XX. unfold Rsqr in XX.
    assert (Q : pvariance l + E * E + eta <= 3 / 2 * ((X + 1) * (X + 1))) by lra. assert (MM : 0 <= mean_bound prec emin l * mean_bound prec emin l) by (apply Rmult_le_pos; lra).
    assert (GM : growth prec (n + 5) * (mean_bound prec emin l * mean_bound prec emin l) <= 101 / 100 * (E * E)) by (apply Rmult_le_compat; lra). assert (GE : (growth prec (n + 2) + 1) * eta <= 201 / 100 * eta) by (apply Rmult_le_compat_r; lra).
    destruct (var_error prec emin emax rnd HF Hr l) as (F & VN & VE); auto.
    + apply Hx.
    + apply (size_in_range prec emin emax); auto.
    + rewrite <- Hn, O2. apply Rle_trans with (101 / 100 * (INR n * X)); [apply Rmult_le_compat; lra|]. assert (INR n * X <= INR n * ((X + 1) * (X + 1))) by (apply Rmult_le_compat_l; lra). pose proof (bpow_gt_0 radix2 (emax - 1)). lra.
    + rewrite <- Hn. fold eta. apply Rle_trans with (101 / 100 * (INR n * (3 / 2 * ((X + 1) * (X + 1))))).
      * apply Rmult_le_compat; try lra; [apply Rmult_le_pos; lra|]. apply Rmult_le_compat_l; lra.
      * rewrite O2. replace (101 / 100 * (INR n * (3 / 2 * ((X + 1) * (X + 1))))) with (303 / 200 * (INR n * ((X + 1) * (X + 1)))) by field. pose proof (bpow_gt_0 radix2 (emax - 1)). lra.
    + rewrite <- Hn in VE. fold eta in VE. set (V := var_of rnd l) in *. set (P := pvariance l) in *.
      assert (SO : sqrt V <= bpow radix2 emax). { assert (1 <= bpow radix2 emax) by (change 1 with (bpow radix2 0); apply bpow_le; pose proof (prec_range prec emin emax HF); lia). apply sqrt_le_of_sq; [lra|]. nra. }
      split; [apply VN|]. split; [apply (rnd_nonneg prec emin emax HF rnd Hr); [rewrite Rabs_pos_eq by apply sqrt_pos; auto|apply sqrt_pos]|]. split.
      * eapply Rle_trans; [exact VE|]. assert ((growth prec (n + 5) - 1) * P <= 101 / 100 * INR (n + 5) * u * P) by (apply Rmult_le_compat_r; lra). lra.
      * set (sl := growth prec (n + 5) * (mean_bound prec emin l * mean_bound prec emin l) + (growth prec (n + 2) + 1) * eta) in *.
        assert (S0 : 0 <= sl). { unfold sl. apply Rplus_le_le_0_compat; apply Rmult_le_pos; lra. }
        pose proof (rsqrt_error prec emin emax rnd HF Hr V P (growth prec (n + 5)) sl (proj1 VN) V0 (proj1 (proj2 G5)) S0 ltac:(unfold sl; lra) SO) as RE. fold u eta in RE.
        eapply Rle_trans; [exact RE|]. replace (growth prec (n + 5) * (1 + u)) with (growth prec (n + 6)) by (replace (n + 6)%nat with (S (n + 5)) by lia; apply growth_S).
        pose proof (sqrt_pos P) as SP. assert (A1 : (growth prec (n + 6) - 1) * sqrt P <= 101 / 100 * INR (n + 6) * u * sqrt P) by (apply Rmult_le_compat_r; lra).
        pose proof (sqrt_pos eta) as SE. pose proof (sqrt_sqrt eta ltac:(lra)) as SEE.
        assert (SB : sqrt sl <= 101 / 100 * E + 3 / 2 * sqrt eta).
        { apply sqrt_le_of_sq; [lra|]. apply Rle_trans with (101 / 100 * (E * E) + 201 / 100 * eta); [unfold sl; lra|]. assert (0 <= E * sqrt eta) by (apply Rmult_le_pos; lra). assert (0 <= E * E) by apply Rle_0_sqr. lra. }
        assert (SE1 : sqrt eta <= 1 / 1000). { apply sqrt_le_of_sq; lra. }
        assert (Et : eta <= / 1000 * sqrt eta) by (rewrite <- SEE at 1; apply Rmult_le_compat_r; lra). assert (UE : u * sqrt eta <= / 1000 * sqrt eta) by (apply Rmult_le_compat_r; lra). assert (UEE : u * E <= / 1000 * E) by (apply Rmult_le_compat_r; lra). assert ((1 + u) * sqrt sl <= (1 + u) * (101 / 100 * E + 3 / 2 * sqrt eta)) by (apply Rmult_le_compat_l; lra). lra.
Qed.

(** ** Mean squared error *)

Lemma mse_swap : forall prec emin emax rnd l, ieee prec emin emax -> rounds_to_nearest prec emin emax rnd -> (forall q, In q l -> Rabs (fst q - snd q) <= bpow radix2 emax) ->
  mse_of rnd (map (fun q => (snd q, fst q)) l) = mse_of rnd l.
Proof.
  intros prec emin emax rnd l HF Hr. unfold mse_of. rewrite map_length. intros H. do 2 f_equal. unfold rsum. generalize 0. induction l as [|q l IH]; intros s; [reflexivity|]. cbn [map fold_left fst snd]. rewrite IH by (intros; apply H; right; auto). do 3 f_equal.
  replace (snd q - fst q) with (- (fst q - snd q)) by ring. rewrite (rnd_opp prec emin emax HF rnd Hr) by (apply H; left; auto). f_equal. ring.
Qed.

(** For n elements of magnitude at most X: within about (n + 5) u of the mean of the squared
    differences, never negative, the same bits when the operands are exchanged, zero for equal
    operands; and the square root of it. *)
Theorem C72_mean_squared_error : forall prec emin emax rnd x y n X, ieee prec emin emax -> rounds_to_nearest prec emin emax rnd -> well_formed x -> well_formed y -> same_shape x y -> int_extents x -> n = obj_size x ->
  (0 < n)%nat -> (forall v, In v (entries x ++ entries y) -> is_float prec emin v /\ Rabs v <= X) -> INR (n + 6) * unit_roundoff prec <= 9 / 1000 -> INR n * ((2 * X + 1) * (2 * X + 1)) <= bpow radix2 (emax - 1) ->
  let exact := average (map (fun q => (fst q - snd q) * (fst q - snd q)) (combine (entries x) (entries y))) in
  exists e r, rmean_squared_error rnd x y = Ok e /\ rroot_mean_squared_error rnd x y = Ok r /\ 0 <= e /\ 0 <= r /\
    rmean_squared_error rnd y x = Ok e /\ rroot_mean_squared_error rnd y x = Ok r /\ (x = y -> e = 0 /\ r = 0) /\
    Rabs (e - exact) <= 101 / 100 * INR (n + 5) * unit_roundoff prec * exact + 3 * underflow emin /\
    Rabs (r - sqrt exact) <= 101 / 100 * INR (n + 6) * unit_roundoff prec * sqrt exact + 2 * sqrt (underflow emin).
Proof.
  intros prec emin emax rnd x y n X HF Hr Wx Wy Hs Hi Hn Hp Hx Hu Ho. cbv zeta. pose proof (same_entries _ _ x y Wx Wy Hs) as Lxy. set (q := combine (entries x) (entries y)).
  assert (Lq : length q = n) by (unfold q; rewrite combine_length, <- Lxy, Nat.min_id, entries_length; auto). assert (N1 : 1 <= INR n) by (apply (le_INR 1); lia).
  assert (Hq : forall p, In p q -> (is_float prec emin (fst p) /\ is_float prec emin (snd p)) /\ Rabs (fst p - snd p) <= 2 * X).
  { intros [a b] Hab. cbn [fst snd]. unfold q in Hab. pose proof (in_combine_l _ _ _ _ Hab) as I1. pose proof (in_combine_r _ _ _ _ Hab) as I2. destruct (Hx a ltac:(apply in_or_app; auto)) as [Fa Xa]. destruct (Hx b ltac:(apply in_or_app; auto)) as [Fb Xb].
    split; auto. unfold Rminus. eapply Rle_trans; [apply Rabs_triang|]. rewrite Rabs_Ropp. lra. }
  pose proof (u_pos prec emin emax HF) as U. set (u := unit_roundoff prec) in *.
  assert (Gr : forall k, (k <= n + 6)%nat -> growth prec k - 1 <= 101 / 100 * (INR k * u) /\ 1 <= growth prec k <= 101 / 100) by (intros k Hk; apply (growth_bound prec emin emax); auto; apply (count_mono prec emin emax _ (n + 6)); auto).
  destruct (tiny_eta prec emin emax n HF ltac:(apply (count_mono prec emin emax _ (n + 6)); auto; lia)) as [E0 EN]. set (eta := underflow emin) in *.
  pose proof (Gr (n + 2)%nat ltac:(lia)) as G2. pose proof (Gr (n + 4)%nat ltac:(lia)) as G4. pose proof (Gr (n + 5)%nat ltac:(lia)) as G5. pose proof (Gr (n + 6)%nat ltac:(lia)) as G6.
  assert (O2 : bpow radix2 emax = 2 * bpow radix2 (emax - 1)). { change 2 with (bpow radix2 1). rewrite <- bpow_plus. f_equal. lia. }
  assert (X0 : 0 <= X). { destruct (entries x) as [|a l] eqn:E; [rewrite <- entries_length, E in Hn by auto; cbn in Hn; lia|]. destruct (Hx a ltac:(left; auto)) as [_ A]. pose proof (Rabs_pos a). lra. }
  assert (SB : 0 <= sq_sum q <= INR n * ((2 * X) * (2 * X))).
  { split; [apply sq_sum_nonneg|]. unfold sq_sum. rewrite <- Lq, <- (map_length (fun q => (fst q - snd q) * (fst q - snd q)) q). apply (total_bounds _ 0). intros w Hw'. apply in_map_iff in Hw'. destruct Hw' as (p & <- & Hpq). split; [apply Rle_0_sqr|].
    destruct (Hq p Hpq) as [_ B]. set (d := fst p - snd p) in *. replace (d * d) with (Rabs d * Rabs d) by (rewrite <- Rabs_mult; apply Rabs_pos_eq, Rle_0_sqr). apply Rmult_le_compat; auto using Rabs_pos. }
  assert (MX : average (map (fun q => (fst q - snd q) * (fst q - snd q)) q) = sq_sum q / INR (length q)) by (unfold average, sq_sum; rewrite map_length; auto). rewrite MX.
  destruct (mse_error prec emin emax rnd HF Hr q) as (F & VN & VE).
  - intros E. rewrite E in Lq. cbn in Lq. lia.
  - intros p Hp'. apply (Hq p Hp').
  - rewrite Lq, Hn, <- entries_length by auto. apply (size_in_range prec emin emax); auto.
  - rewrite Lq. fold eta. apply Rle_trans with (101 / 100 * (INR n * ((2 * X + 1) * (2 * X + 1)))).
    + apply Rmult_le_compat; try lra; [apply Rplus_le_le_0_compat; [lra|apply Rmult_le_pos; lra]|]. apply Rle_trans with (INR n * (2 * X * (2 * X)) + 1 / 1000000); [lra|]. nra.
    + rewrite O2. pose proof (bpow_gt_0 radix2 (emax - 1)). lra.
  - rewrite Lq in VE |- *. fold eta in VE. set (P := sq_sum q / INR n) in *. assert (P0 : 0 <= P) by (apply Rmult_le_pos; [lra|left; apply Rinv_0_lt_compat; lra]).
    assert (O1 : 1 <= bpow radix2 emax) by (change 1 with (bpow radix2 0); apply bpow_le; pose proof (prec_range prec emin emax HF); lia).
    assert (SO : sqrt (mse_of rnd q) <= bpow radix2 emax) by (apply sqrt_le_of_sq; [lra|]; nra).
    assert (X2 : 2 * X <= bpow radix2 emax) by nra.
    assert (Sw : mse_of rnd (combine (entries y) (entries x)) = mse_of rnd q). { rewrite (combine_swap _ _ (entries x) (entries y)). apply (mse_swap prec emin emax); auto. intros p Hpq. destruct (Hq p Hpq) as [_ B]. lra. }
    exists (mse_of rnd q), (rnd (sqrt (mse_of rnd q))). unfold rroot_mean_squared_error. rewrite rmse_ok by auto. rewrite (rmse_ok rnd y x) by auto using shape_sym. rewrite Sw. fold q. cbn [bind]. split; auto. split; auto. split; [apply VN|].
    split; [apply (rnd_nonneg prec emin emax HF rnd Hr); [rewrite Rabs_pos_eq by apply sqrt_pos; auto|apply sqrt_pos]|]. split; auto. split; auto. split; [|split].
    + intros <-. assert (Z : mse_of rnd q = 0).
      { assert (Dg : forall p, In p q -> fst p = snd p). { unfold q. clear. induction (entries x); cbn [combine]; [intros p []|]. intros p [<-|H]; auto. }
        assert (RS : rsum rnd (R * R) (fun q => rnd (rnd (fst q - snd q) * rnd (fst q - snd q))) q = 0).
        { clear - Dg HF Hr. unfold rsum. induction q as [|p l IH]; [reflexivity|]. cbn [fold_left]. rewrite (Dg p (or_introl eq_refl)). replace (snd p - snd p) with 0 by ring. rewrite !(rnd_0 prec emin emax HF rnd Hr), Rmult_0_l, (rnd_0 prec emin emax HF rnd Hr), Rplus_0_l, (rnd_0 prec emin emax HF rnd Hr). apply IH. intros p' Hp'. apply Dg. right. auto. }
        unfold mse_of. rewrite RS. unfold Rdiv. rewrite Rmult_0_l. apply (rnd_0 prec emin emax HF rnd Hr). }
      rewrite Z. split; auto. rewrite sqrt_0. apply (rnd_0 prec emin emax HF rnd Hr).
    + eapply Rle_trans; [exact VE|]. assert ((growth prec (n + 5) - 1) * P <= 101 / 100 * INR (n + 5) * u * P) by (apply Rmult_le_compat_r; lra). assert (GE : (growth prec (n + 2) + 1) * eta <= 201 / 100 * eta) by (apply Rmult_le_compat_r; lra). lra.
    + set (sl := (growth prec (n + 2) + 1) * eta) in *. assert (S0 : 0 <= sl) by (apply Rmult_le_pos; lra).
      pose proof (rsqrt_error prec emin emax rnd HF Hr _ P (growth prec (n + 5)) sl (proj1 VN) P0 (proj1 (proj2 G5)) S0 VE SO) as RE. fold u eta in RE.
      eapply Rle_trans; [exact RE|]. replace (growth prec (n + 5) * (1 + u)) with (growth prec (n + 6)) by (replace (n + 6)%nat with (S (n + 5)) by lia; apply growth_S).
      pose proof (sqrt_pos P) as SP. assert (A1 : (growth prec (n + 6) - 1) * sqrt P <= 101 / 100 * INR (n + 6) * u * sqrt P) by (apply Rmult_le_compat_r; lra).
      pose proof (sqrt_pos eta) as SE. pose proof (sqrt_sqrt eta ltac:(lra)) as SEE.
      assert (GE : (growth prec (n + 2) + 1) * eta <= 201 / 100 * eta) by (apply Rmult_le_compat_r; lra). assert (SBq : sqrt sl <= 3 / 2 * sqrt eta) by (apply sqrt_le_of_sq; [lra|]; unfold sl; lra). assert (SE1 : sqrt eta <= 1 / 1000) by (apply sqrt_le_of_sq; lra). assert (Et : eta <= / 1000 * sqrt eta) by (rewrite <- SEE at 1; apply Rmult_le_compat_r; lra). assert (UE : u * sqrt eta <= / 1000 * sqrt eta) by (apply Rmult_le_compat_r; lra).
      assert ((1 + u) * sqrt sl <= (1 + u) * (3 / 2 * sqrt eta)) by (apply Rmult_le_compat_l; lra). lra.
Qed.

Lemma tiny_square : nearest 24 (-149) (bpow radix2 (-80) * bpow radix2 (-80)) = 0.
Proof.
  rewrite <- bpow_plus. unfold nearest. apply (round_N_small_pos radix2 (FLT_exp (-149) 24) (fun n => negb (Z.even n)) _ (-159)); [|unfold FLT_exp; lia].
  split; [apply bpow_le; lia|apply bpow_lt; lia].
Qed.

(** Finding: the error of different signals can be zero: the squares underflow. *)
Theorem C72_mse_zero_refuted : exists rnd x y, rounds_to_nearest 24 (-149) 127 rnd /\ is_float 24 (-149) x /\ is_float 24 (-149) y /\ x <> y /\ rmean_squared_error rnd (Vec [x]) (Vec [y]) = Ok 0.
Proof.
  exists (nearest 24 (-149)), (bpow radix2 (-80)), 0. assert (Hr : rounds_to_nearest 24 (-149) 127 (nearest 24 (-149))) by (intros y _; auto). assert (HF : ieee 24 (-149) 127) by (left; lia). split; auto.
  assert (Fb : is_float 24 (-149) (bpow radix2 (-80))) by (apply generic_format_FLT_bpow; [unfold Prec_gt_0; lia|lia]).
  split; auto. split; [apply generic_format_0|]. split; [pose proof (bpow_gt_0 radix2 (-80)); lra|]. rewrite rmse_ok by (cbn; auto). f_equal. unfold mse_of, rsum. cbn [entries combine fold_left fst snd length].
  rewrite Rminus_0_r, (rnd_id 24 (-149) 127 HF _ Hr (bpow radix2 (-80))), tiny_square; auto; [|rewrite Rabs_pos_eq by apply bpow_ge_0; apply bpow_le; lia]. rewrite Rplus_0_r, (rnd_0 24 (-149) 127 HF _ Hr). unfold Rdiv. rewrite Rmult_0_l. apply (rnd_0 24 (-149) 127 HF _ Hr).
Qed.

(** ** Peak *)

(** With a peak from 2^-126 to 2^126 (float) or 2^-1022 to 2^1022 (double): one factor is applied;
    afterwards no sample is above 1 and the peak is 1 or the number just below it.  Silence stays. *)
Theorem C72_normalize_peak : forall prec emin emax rnd x p, ieee prec emin emax -> rounds_to_nearest prec emin emax rnd -> well_formed x ->
  ((forall v, In v (entries x) -> v = 0) -> rnormalize_peak rnd x = Ok x) /\
  (is_peak (entries x) p -> bpow radix2 (emin + prec - 1) <= p <= bpow radix2 (- (emin + prec - 1)) ->
    exists f, 0 < f /\ rnormalize_peak rnd x = Ok (obj_map (fun v => rnd (v * f)) x) /\
      (forall v, In v (entries x) -> Rabs (rnd (v * f)) <= 1 /\ Rabs (rnd (v * f) - v / p) <= 3 * unit_roundoff prec * (Rabs v / p) + underflow emin) /\
      (exists v, In v (entries x) /\ 1 - unit_roundoff prec <= Rabs (rnd (v * f)) <= 1)).
Proof.
  intros prec emin emax rnd x p HF Hr Hw. rewrite rnormalize_peak_ok by auto. split.
  - intros Z. f_equal. apply obj_map_same. intros v Hv. rewrite (Z v Hv), Rmult_0_l. apply (rnd_0 prec emin emax HF rnd Hr).
  - intros Hp Hb. assert (NE : entries x <> []) by (destruct Hp as [_ (v & Hv & _)]; intros E; rewrite E in Hv; destruct Hv). assert (E : peak_of (entries x) = p) by (apply (is_peak_unique (entries x)); auto; apply peak_of_spec; auto).
    assert (P0 : 0 < p) by (eapply Rlt_le_trans; [apply bpow_gt_0|apply Hb]). assert (Ff : rpeak_factor rnd (entries x) = rnd (1 / p)). { unfold rpeak_factor. rewrite E. destruct (exact p 0) eqn:X; auto. apply exact_true in X. lra. }
    rewrite Ff. destruct (peak_factor_error prec emin emax rnd HF Hr p Hb) as (F0 & _ & FU). pose proof (u_pos prec emin emax HF) as U. exists (rnd (1 / p)). split; auto. split; auto. split.
    + intros v Hv. destruct (peak_out prec emin emax rnd HF Hr p v Hb ltac:(apply Hp; auto)) as [B _]. split; auto.
      pose proof (scale_error prec emin emax rnd HF Hr 1 v (/ p) (rnd (1 / p)) ltac:(apply Rinv_0_lt_compat; auto) FU) as SE. change (v / p) with (v * / p). replace (Rabs v / p) with (Rabs (v * / p)) by (rewrite Rabs_mult, (Rabs_pos_eq (/ p)); auto; left; apply Rinv_0_lt_compat; auto).
      eapply Rle_trans; [apply SE|].
      * apply Rmult_le_reg_r with p; auto. rewrite Rmult_assoc, Rinv_l by lra. destruct Hp as [Hp _]. specialize (Hp v Hv). lra.
      * unfold growth. cbn [pow]. lra.
      * apply Rplus_le_compat_r, Rmult_le_compat_r; [apply Rabs_pos|]. unfold growth. cbn [pow Nat.add]. nra.
    + destruct Hp as [Hp (v & Hv & Ev)]. exists v. split; auto. destruct (peak_out prec emin emax rnd HF Hr p v Hb ltac:(apply Hp; auto)) as [B C]. auto.
Qed.

(** Finding: the peak need not become exactly 1. *)
Theorem C72_peak_exactly_one_refuted : exists rnd, rounds_to_nearest 24 (-149) 127 rnd /\ is_float 24 (-149) 41 /\ exists v, rnormalize_peak rnd (Vec [41]) = Ok (Vec [v]) /\ v = 1 - / 2 ^ 24.
Proof.
  exists (nearest 24 (-149)). assert (Hr : rounds_to_nearest 24 (-149) 127 (nearest 24 (-149))) by (intros y _; auto). assert (HF : ieee 24 (-149) 127) by (left; lia). split; auto.
  split. { rewrite <- (integer_float32 41) by lia. apply (rnd_float 24 (-149) 127 HF _ Hr). rewrite Rabs_pos_eq by lra. apply Rle_trans with (bpow radix2 10); [cbn; lra|apply bpow_le; lia]. }
  rewrite rnormalize_peak_ok by exact I. cbn [obj_map map entries]. eexists. split; [reflexivity|]. unfold rpeak_factor. replace (peak_of [41]) with 41 by (unfold peak_of; cbn [fold_left]; rewrite (Rabs_pos_eq 41), Rmax_right by lra; auto).
  destruct (exact 41 0) eqn:X; [apply exact_true in X; lra|]. rewrite (nearest_value 24 (-149) (-29) 13094412 (1 / 41)); try lia.
  - rewrite (nearest_value 24 (-149) (-24) 16777215); try lia.
    + cbn. lra.
    + cbn. rewrite Rabs_pos_eq; lra.
    + cbn. apply Rabs_def1; lra.
  - cbn. rewrite Rabs_pos_eq; lra.
  - cbn. apply Rabs_def1; lra.
Qed.

(** ** Energy *)

(** The energy is not too small for the format and not too large: n 2^emin <= u * energy (about
    n * 2^-125 for float). *)
Definition energy_in_range (prec emin emax : Z) (l : list R) : Prop :=
  INR (length l) * bpow radix2 emin <= unit_roundoff prec * energy l /\ 0 < energy l <= bpow radix2 (emax - 1).

Lemma renergy_silent : forall prec emin emax rnd l, ieee prec emin emax -> rounds_to_nearest prec emin emax rnd -> (forall v, In v l -> v = 0) -> renergy_factor rnd l = 1.
Proof.
  intros prec emin emax rnd l HF Hr Z. unfold renergy_factor. assert (S : rsum rnd R (fun v => rnd (v * v)) l = 0).
  { unfold rsum. induction l as [|v l IH]; [reflexivity|]. cbn [fold_left]. rewrite (Z v (or_introl eq_refl)), Rmult_0_l, (rnd_0 prec emin emax HF rnd Hr), Rplus_0_l, (rnd_0 prec emin emax HF rnd Hr). apply IH. intros w Hw. apply Z. right. auto. }
  rewrite S. destruct (exact 0 0) eqn:X; auto. assert (exact 0 0 = true) by (apply exact_true; auto). congruence.
Qed.

(** Scaling with a factor between 0 and the channel's own. *)
Lemma scaled_norm : forall prec emin emax rnd l f k, ieee prec emin emax -> rounds_to_nearest prec emin emax rnd -> 0 < energy l -> growth prec k <= 101 / 100 ->
  up_to_roundings prec k (/ sqrt (energy l)) f ->
  (forall v, In v l -> Rabs (rnd (v * f) - v / sqrt (energy l)) <= (growth prec (k + 1) - 1) * Rabs (v / sqrt (energy l)) + underflow emin) /\
  Rabs (sqrt (energy (map (fun v => rnd (v * f)) l)) - 1) <= (growth prec (k + 1) - 1) + underflow emin * sqrt (INR (length l)).
Proof.
  intros prec emin emax rnd l f k HF Hr Ep Hg Hf. assert (S0 : 0 < sqrt (energy l)) by (apply sqrt_lt_R0; auto). pose proof (Rinv_0_lt_compat _ S0) as I0.
  assert (A : forall v, In v l -> Rabs (rnd (v * f) - v / sqrt (energy l)) <= (growth prec (k + 1) - 1) * Rabs (v / sqrt (energy l)) + underflow emin).
  { intros v Hv. apply (scale_error prec emin emax rnd HF Hr); auto; [|lra]. apply Rmult_le_reg_r with (sqrt (energy l)); auto. rewrite Rmult_assoc, Rinv_l by lra. pose proof (energy_ge l v Hv). lra. }
  split; auto. pose proof (norm_change R l (fun v => rnd (v * f)) (fun v => v / sqrt (energy l)) (growth prec (k + 1) - 1) (underflow emin)) as N.
  assert (E1 : energy (map (fun v => v / sqrt (energy l)) l) = 1). { change (map (fun v => v / sqrt (energy l)) l) with (map (fun v => v * / sqrt (energy l)) l). rewrite energy_scale. replace (/ sqrt (energy l) * / sqrt (energy l) * energy l) with (/ (sqrt (energy l) * sqrt (energy l)) * energy l) by (rewrite Rinv_mult; ring). rewrite sqrt_sqrt by lra. apply Rinv_l. lra. }
  rewrite E1, sqrt_1, Rmult_1_r in N. apply N; auto; [pose proof (growth_1 prec emin emax HF (k + 1)); lra|left; apply eta_pos].
Qed.

(** One factor is applied; every sample is within about (n + 5) u of the sample divided by the
    root of the energy, and the root of the energy of the result is as close to 1.  Silence
    stays. *)
Theorem C72_normalize_energy : forall prec emin emax rnd x n, ieee prec emin emax -> rounds_to_nearest prec emin emax rnd -> well_formed x -> n = obj_size x ->
  ((forall v, In v (entries x) -> v = 0) -> rnormalize_energy rnd x = Ok x) /\
  (INR (n + 5) * unit_roundoff prec <= 9 / 1000 -> energy_in_range prec emin emax (entries x) ->
    exists f, 0 < f /\ rnormalize_energy rnd x = Ok (obj_map (fun v => rnd (v * f)) x) /\
      (forall v, In v (entries x) -> Rabs (rnd (v * f) - v / sqrt (energy (entries x))) <= 101 / 100 * INR (n + 5) * unit_roundoff prec * Rabs (v / sqrt (energy (entries x))) + underflow emin) /\
      Rabs (sqrt (energy (entries (obj_map (fun v => rnd (v * f)) x))) - 1) <= 101 / 100 * INR (n + 5) * unit_roundoff prec + underflow emin * sqrt (INR n)).
Proof.
  intros prec emin emax rnd x n HF Hr Hw Hn. rewrite rnormalize_energy_ok by auto. split.
  - intros Z. f_equal. apply obj_map_same. intros v Hv. rewrite (Z v Hv), Rmult_0_l. apply (rnd_0 prec emin emax HF rnd Hr).
  - intros Hu (H1 & H2 & H3). rewrite <- entries_length in Hn by auto. destruct (growth_bound prec emin emax (n + 5) HF Hu) as [G5 G5']. destruct (growth_bound prec emin emax (n + 4) HF ltac:(apply (count_mono prec emin emax _ (n + 5)); auto; lia)) as [_ G4].
    assert (UF := energy_factor_error prec emin emax rnd HF Hr (entries x) H2 H1 ltac:(rewrite <- Hn; lra) H3). rewrite <- Hn in UF. set (f := renergy_factor rnd (entries x)) in *. exists f.
    assert (I0 : 0 < / sqrt (energy (entries x))) by (apply Rinv_0_lt_compat, sqrt_lt_R0; auto). split; [apply (up_to_pos prec emin emax HF _ _ _ UF I0)|]. split; auto.
    destruct (scaled_norm prec emin emax rnd (entries x) f (n + 4) HF Hr H2 (proj2 G4) UF) as [A B]. rewrite <- Nat.add_assoc in A, B. cbn [Nat.add] in A, B. split.
    + intros v Hv. eapply Rle_trans; [apply A; auto|]. apply Rplus_le_compat_r, Rmult_le_compat_r; [apply Rabs_pos|lra].
    + rewrite obj_map_entries. rewrite <- Hn in B. lra.
Qed.

(** Finding: a quiet signal is not normalised at all: [2^-80] stays, although it is far above the
    smallest float. *)
Theorem C72_quiet_energy_refuted : exists rnd, rounds_to_nearest 24 (-149) 127 rnd /\ is_float 24 (-149) (bpow radix2 (-80)) /\
  rnormalize_energy rnd (Vec [bpow radix2 (-80)]) = Ok (Vec [bpow radix2 (-80)]).
Proof.
  exists (nearest 24 (-149)). assert (Hr : rounds_to_nearest 24 (-149) 127 (nearest 24 (-149))) by (intros y _; auto). assert (HF : ieee 24 (-149) 127) by (left; lia). split; auto.
  assert (Fb : is_float 24 (-149) (bpow radix2 (-80))) by (apply generic_format_FLT_bpow; [unfold Prec_gt_0; lia|lia]). split; auto. rewrite rnormalize_energy_ok by exact I. cbn [obj_map map entries]. do 3 f_equal.
  unfold renergy_factor, rsum. cbn [fold_left]. rewrite tiny_square, Rplus_0_l, (rnd_0 24 (-149) 127 HF _ Hr). destruct (exact 0 0) eqn:X; [|assert (exact 0 0 = true) by (apply exact_true; auto); congruence]. rewrite Rmult_1_r. apply (rnd_id 24 (-149) 127 HF _ Hr); auto. rewrite Rabs_pos_eq by apply bpow_ge_0. apply bpow_le. lia.
Qed.

(** ** Impulse responses *)

(** All channels are scaled by one factor, the smallest of the channels' own (1 for a silent
    channel): no channel's root energy ends above 1 by more than the rounding, and some channel
    reaches its own. *)
Theorem C72_normalize_impulse : forall prec emin emax rnd r c m, ieee prec emin emax -> rounds_to_nearest prec emin emax rnd -> well_formed (Mat r c m) -> (0 < r)%nat ->
  INR (c + 5) * unit_roundoff prec <= 9 / 1000 -> (forall ch, In ch m -> (forall v, In v ch -> v = 0) \/ energy_in_range prec emin emax ch) ->
  let bound := 101 / 100 * INR (c + 5) * unit_roundoff prec + underflow emin * sqrt (INR c) in
  exists f, 0 < f /\ rnormalize_impulse rnd (Mat r c m) = Ok (Mat r c (map (map (fun v => rnd (v * f))) m)) /\
    (forall ch, In ch m -> energy ch <> 0 -> sqrt (energy (map (fun v => rnd (v * f)) ch)) <= 1 + bound) /\
    ((exists ch, In ch m /\ energy ch = 0) -> f <= 1) /\
    ((exists ch, In ch m /\ energy ch <> 0 /\ Rabs (sqrt (energy (map (fun v => rnd (v * f)) ch)) - 1) <= bound) \/ (f = 1 /\ exists ch, In ch m /\ energy ch = 0)).
Proof.
  intros prec emin emax rnd r c m HF Hr Hw Hp Hu Hm. cbv zeta. assert (NE : m <> []) by (destruct Hw as [L _]; intros ->; cbn in L; lia).
  destruct (rimpulse_factor_spec rnd m NE) as [Hmin (c0 & Hc0 & E0)]. rewrite rnormalize_impulse_ok by auto. set (f := rimpulse_factor rnd m) in *.
  assert (Lc : forall ch, In ch m -> length ch = c) by (destruct Hw as [_ L]; auto).
  destruct (growth_bound prec emin emax (c + 5) HF Hu) as [G5 G5']. destruct (growth_bound prec emin emax (c + 4) HF ltac:(apply (count_mono prec emin emax _ (c + 5)); auto; lia)) as [_ G4].
  assert (Z0 : forall ch, (forall v, In v ch -> v = 0) -> energy ch = 0) by (intros ch Z; apply energy_zero; auto).
  assert (Cases : forall ch, In ch m -> (energy ch = 0 /\ renergy_factor rnd ch = 1) \/ (0 < energy ch /\ up_to_roundings prec (c + 4) (/ sqrt (energy ch)) (renergy_factor rnd ch))).
  { intros ch Hch. destruct (Hm ch Hch) as [Z|(H1 & H2 & H3)]; [left; split; [auto|apply (renergy_silent prec emin emax); auto]|]. right. split; auto. rewrite <- (Lc ch Hch). apply (energy_factor_error prec emin emax rnd HF Hr); auto. rewrite Lc by auto. lra. }
  assert (Pos : forall ch, In ch m -> 0 < renergy_factor rnd ch). { intros ch Hch. destruct (Cases ch Hch) as [[_ ->]|[Ep UF]]; [lra|]. apply (up_to_pos prec emin emax HF _ _ _ UF). apply Rinv_0_lt_compat, sqrt_lt_R0. auto. }
  exists f. split; [rewrite E0; auto|]. split; auto. split; [|split].
  - intros ch Hch N. destruct (Cases ch Hch) as [[Z _]|[Ep UF]]; [congruence|]. pose proof (Hmin ch Hch) as Lf. assert (F0 : 0 < f) by (rewrite E0; auto). assert (S0 : 0 < sqrt (energy ch)) by (apply sqrt_lt_R0; auto).
    pose proof (u_pos prec emin emax HF) as U. pose proof (eta_pos emin) as Et. pose proof (prec_range prec emin emax HF) as Pr.
    pose proof (norm_change R ch (fun v => rnd (v * f)) (fun v => v * f) (unit_roundoff prec) (underflow emin) ltac:(lra) ltac:(lra)) as NC. rewrite (Lc ch Hch) in NC.
    assert (O2 : 2 <= bpow radix2 emax) by (change 2 with (bpow radix2 1); apply bpow_le; lia).
    assert (FE : f * sqrt (energy ch) <= growth prec (c + 4)). { destruct UF as [_ UF]. apply Rle_trans with (/ sqrt (energy ch) * growth prec (c + 4) * sqrt (energy ch)); [apply Rmult_le_compat_r; lra|]. right. field. lra. }
    assert (EF : sqrt (energy (map (fun v => v * f) ch)) = f * sqrt (energy ch)). { rewrite energy_scale. rewrite sqrt_mult by (try apply Rle_0_sqr; lra). rewrite sqrt_square by lra. auto. }
    assert (NC' := NC ltac:(intros v Hv; apply (rnd_error prec emin emax HF rnd Hr); rewrite Rabs_mult, (Rabs_pos_eq f) by lra; pose proof (energy_ge ch v Hv); pose proof (Rabs_pos v); nra)). rewrite EF in NC'.
    pose proof (Rle_abs (sqrt (energy (map (fun v => rnd (v * f)) ch)) - f * sqrt (energy ch))) as RA. assert (GS : growth prec (c + 5) = growth prec (c + 4) * (1 + unit_roundoff prec)) by (replace (c + 5)%nat with (S (c + 4)) by lia; apply growth_S). nra.
  - intros (ch & Hch & Z). destruct (Cases ch Hch) as [[_ E]|[Ep _]]; [|lra]. rewrite <- E. auto.
  - destruct (Cases c0 Hc0) as [[Z E]|[Ep UF]]; [right; split; [congruence|eauto]|]. left. exists c0. split; auto. split; [lra|]. rewrite <- E0 in UF. destruct (scaled_norm prec emin emax rnd c0 f (c + 4) HF Hr Ep (proj2 G4) UF) as [_ B]. rewrite (Lc c0 Hc0), <- Nat.add_assoc in B. cbn [Nat.add] in B. lra.
Qed.

(** The hypotheses are met: two float vectors. *)
Example C72_hypotheses : let x := Vec [3; 4] in let y := Vec [1; 2] in
  ieee 24 (-149) 127 /\ rounds_to_nearest 24 (-149) 127 (nearest 24 (-149)) /\ well_formed x /\ well_formed y /\ same_shape x y /\ int_extents x /\ obj_size x = 2%nat /\
  (forall v, In v (entries x ++ entries y) -> is_float 24 (-149) v /\ Rabs v <= 4) /\ INR (2 + 6) * unit_roundoff 24 <= 9 / 1000 /\ INR 2 * ((2 * 4 + 1) * (2 * 4 + 1)) <= bpow radix2 (127 - 1) /\
  growth 24 (2 + 1) * total (map Rabs (entries x)) <= bpow radix2 127 /\
  is_peak (entries x) 4 /\ bpow radix2 (-149 + 24 - 1) <= 4 <= bpow radix2 (- (-149 + 24 - 1)) /\ energy_in_range 24 (-149) 127 (entries x) /\
  (forall v, In v (entries x) -> exists z, v = IZR z * bpow radix2 0) /\ total (map Rabs (entries x)) <= bpow radix2 (24 + 0) /\ average (entries x) = 7 / 2 /\ pvariance (entries x) = 1 / 4.
Proof.
  cbv zeta. assert (HF : ieee 24 (-149) 127) by (left; lia). assert (Hr : rounds_to_nearest 24 (-149) 127 (nearest 24 (-149))) by (intros y _; auto).
  assert (B8 : 256 <= bpow radix2 (127 - 1)). { apply Rle_trans with (bpow radix2 8); [cbn; lra|apply bpow_le; lia]. } assert (B7 : bpow radix2 (127 - 1) <= bpow radix2 127) by (apply bpow_le; lia).
  assert (Fi : forall z, (Z.abs z <= 4)%Z -> is_float 24 (-149) (IZR z)). { intros z Hz. rewrite <- (integer_float32 z) by lia. apply (rnd_float 24 (-149) 127 HF _ Hr). rewrite <- abs_IZR. apply Rle_trans with (IZR 4); [apply IZR_le; auto|]. apply Rle_trans with (bpow radix2 2); [cbn; lra|apply bpow_le; lia]. }
  split; auto. split; auto. split; [exact I|]. split; [exact I|]. split; [reflexivity|]. split; [cbn; lia|]. split; auto. split.
  { cbn. intros v [<-|[<-|[<-|[<-|[]]]]]; (split; [apply Fi; lia|rewrite Rabs_pos_eq; lra]). }
  split; [unfold unit_roundoff; cbn; lra|]. split; [cbn [INR]; lra|]. split. { destruct (growth_bound 24 (-149) 127 (2 + 1) HF ltac:(unfold unit_roundoff; cbn; lra)) as [_ G]. cbn [entries map total]. rewrite !Rabs_pos_eq by lra. lra. }
  split. { split; [cbn; intros v [<-|[<-|[]]]; rewrite Rabs_pos_eq; lra|]. exists 4. split; [cbn; auto|rewrite Rabs_pos_eq; lra]. }
  split. { split; [apply Rle_trans with (bpow radix2 0); [apply bpow_le; lia|cbn; lra]|]. apply Rle_trans with (bpow radix2 2); [cbn; lra|apply bpow_le; lia]. }
  split. { unfold energy_in_range, energy. cbn [entries map total length]. split; [|split; lra]. apply Rle_trans with (INR 2 * bpow radix2 (-24)); [apply Rmult_le_compat_l; [cbn; lra|apply bpow_le; lia]|]. unfold unit_roundoff. change (bpow radix2 (-24)) with (bpow radix2 (- (24))). pose proof (bpow_gt_0 radix2 (- (24))). cbn [INR]. nra. }
  split. { cbn. intros v [<-|[<-|[]]]; [exists 3%Z|exists 4%Z]; lra. } split; [cbn [entries map total]; rewrite !Rabs_pos_eq by lra; cbn; lra|]. split; [unfold average; cbn; lra|]. unfold pvariance, average. cbn. lra.
Qed.

Print Assumptions C72_mean.
Print Assumptions C72_mean_practical.
Print Assumptions C72_mean_multiples.
Print Assumptions C72_mean_within_range_refuted.
Print Assumptions C72_variance.
Print Assumptions C72_mean_squared_error.
Print Assumptions C72_mse_zero_refuted.
Print Assumptions C72_normalize_peak.
Print Assumptions C72_peak_exactly_one_refuted.
Print Assumptions C72_normalize_energy.
Print Assumptions C72_quiet_energy_refuted.
Print Assumptions C72_normalize_impulse.
