(** The rounded transform of a plan: twiddles, permutation, kernel. *)
From Coq Require Import Reals List Arith ZArith Lia Lra Psatz Bool.
From Flocq Require Import Core Relative Mult_error.
From Verif Require Import Base.Outcome Base.OutcomeFacts Base.Sums Base.Cplx Base.VecNorm Spec.Dft Spec.DigitRev Spec.Rounding Model.Fft2 Model.RoundedFft
  Proof.DftTheory Proof.BitrevProof Proof.Fft2Proof Proof.RoundedExec Proof.RoundedError.
Import ListNotations.
Local Open Scope R_scope.
Local Arguments Nat.div : simpl never.
Local Arguments Nat.modulo : simpl never.
Local Arguments Nat.pow : simpl never.

Lemma rmake_twiddle_ok : forall rnd fcos fsin two_pi k d,
  rmake_twiddle_lut rnd fcos fsin two_pi (2 ^ S k) d = Ok (tab (2 ^ k) (fun i => rtwiddle rnd fcos fsin two_pi (2 ^ S k) i d)).
Proof.
  intros. unfold rmake_twiddle_lut. cbv zeta. assert (E : (2 ^ S k / 2 = 2 ^ k)%nat) by (rewrite Nat.pow_succ_r', (Nat.mul_comm 2), Nat.div_mul by lia; auto).
  rewrite E. replace (2 ^ k * 2)%nat with (2 ^ S k)%nat by (rewrite Nat.pow_succ_r'; lia).
  apply for_range_tab with (d := C0); [rewrite repeat_length; auto|]. intros j l Hj HL _. rewrite repeat_length in HL. apply wr_ok. lia.
Qed.

Lemma sqrt_pow2 : forall p, sqrt 2 ^ p = sqrt (INR (2 ^ p)).
Proof.
  induction p as [|p IH]; [change (INR (2 ^ 0)) with 1; rewrite sqrt_1; auto|]. cbn [pow]. rewrite IH, Nat.pow_succ_r', mult_INR. rewrite sqrt_mult by (apply pos_INR || (cbn; lra)). auto.
Qed.

Section Plan.
Variables (rnd fcos fsin : R -> R) (two_pi u eta Om tau : R).
Hypothesis Hacc : forall x, Rabs x <= Om -> Rabs (rnd x - x) <= u * Rabs x + eta.
Hypotheses (Hu : 0 <= u <= 1 / 100) (Heta : 0 <= eta <= 1 / 100) (Htau : 0 <= tau <= 1 / 100).
Variables (d : direction) (p : nat) (x : list C) (kernel : list C -> list C -> outcome (list C)).
Hypotheses (Hp : (0 < p <= 27)%nat) (Hx : length x = (2 ^ p)%nat).
Hypothesis Hk : forall y twl, length y = (2 ^ p)%nat -> length twl = (2 ^ (p - 1))%nat -> kernel y twl = Ok (stages rnd p twl p y).
Hypothesis Htw : forall k, (k < 2 ^ (p - 1))%nat -> Cabs (rtwiddle rnd fcos fsin two_pi (2 ^ p) k d - W d (2 ^ p) k)%C <= tau.
Let e := eps u tau.
Let Y := DFT d (2 ^ p) (fun i => nth i x C0).
Hypothesis Hom : 3 * ((1 + e) ^ p * (vnorm (2 ^ p) Y + INR p * (beta eta * INR (2 ^ p)))) + 1 <= Om.

Lemma plan_error : exists y, rfft_plan_run rnd fcos fsin kernel two_pi p x d = Ok y /\ length y = (2 ^ p)%nat /\
  vnorm (2 ^ p) (fun i => nth i y C0 - Y i)%C <= ((1 + e) ^ p - 1) * vnorm (2 ^ p) Y + INR p * ((1 + e) ^ p * (beta eta * INR (2 ^ p))).
Proof using All.
  unfold rfft_plan_run, check_order, max_order. destruct (Nat.ltb_spec 27 p); [lia|]. cbn [bind]. rewrite bitrevorder_plan_ok. cbn [bind].
  destruct p as [|k]; [lia|]. replace (S k - 1)%nat with k in * by lia. rewrite rmake_twiddle_ok. set (P := S k) in *. cbn [bind].
  rewrite (bitrev_apply_rev C C0 P x Hx). cbn [bind]. set (xr := tab (2 ^ P) _). set (twl := tab (2 ^ k) _).
  assert (Lr : length xr = (2 ^ P)%nat) by apply tab_length. rewrite (Hk xr twl Lr) by apply tab_length.
  eexists. split; [reflexivity|]. split; [rewrite stages_length; auto|].
  assert (Hr : forall i, (i < 2 ^ P)%nat -> nth i xr C0 = nth (digit_rev 2 P i) x C0) by (intros i Hi; unfold xr; rewrite nth_tab by auto; auto).
  set (v := fun i => nth i xr C0).
  assert (EY : forall i, (i < 2 ^ P)%nat -> exact_stages d P v i = Y i).
  { intros i Hi. assert (Ext : forall s i, (s <= P)%nat -> (i < 2 ^ P)%nat -> exact_stages d s v i = exact_stages d s (fun i => nth (digit_rev 2 P i) x C0) i).
    { induction s as [|s IH]; intros j Hs Hj; cbn [exact_stages]; [apply Hr; auto|]. unfold stagef. cbv zeta. pose proof (half_split P s ltac:(lia)) as HS. pose proof (pow2_pos s).
      pose proof (Nat.div_mod j (2 * 2 ^ s) ltac:(lia)) as DM. pose proof (Nat.mod_upper_bound j (2 * 2 ^ s) ltac:(lia)) as MB.
      assert (j / (2 * 2 ^ s) < 2 ^ (P - s - 1))%nat by (apply Nat.div_lt_upper_bound; lia).
      destruct (Nat.ltb_spec (j mod (2 * 2 ^ s)) (2 ^ s)); rewrite !IH by nia; auto. }
    rewrite Ext by auto. pose proof (exact_dit d P (fun i => nth i x C0) P ltac:(lia)) as D. apply (dit_inv_end d 2 P (fun i => nth i x C0) _ D). auto. }
  assert (EN : vnorm (2 ^ P) Y = sqrt 2 ^ P * vnorm (2 ^ P) v) by (rewrite <- (vnorm_ext _ _ _ EY); apply exact_stages_norm; auto).
  assert (ES : sqrt 2 ^ P * sqrt (INR (2 ^ P)) = INR (2 ^ P)) by (rewrite sqrt_pow2; apply sqrt_sqrt, pos_INR).
  assert (Htw' : forall j, (j < 2 ^ (P - 1))%nat -> Cabs (nth j twl C0 - W d (2 ^ P) j)%C <= tau).
  { intros j Hj. unfold P in Hj. replace (S k - 1)%nat with k in Hj by lia. unfold twl. rewrite nth_tab by auto. apply Htw. auto. }
  pose proof (run_ok rnd u eta Om tau Hacc Hu Heta Htau d P twl xr Lr Htw') as RO. fold v in RO.
  assert (Hom' : 3 * (sqrt 2 ^ P * ((1 + eps u tau) ^ P * (vnorm (2 ^ P) v + INR P * (beta eta * sqrt (INR (2 ^ P)))))) + 1 <= Om).
  { eapply Rle_trans; [|exact Hom]. apply Rplus_le_compat_r, Rmult_le_compat_l; [lra|]. right. rewrite EN. fold e. rewrite <- ES at 2. ring. }
  specialize (RO Hom'). unfold run_error, run_bound in RO. fold v in RO. fold e in RO.
  rewrite (vnorm_ext _ _ (fun i => nth i (stages rnd P twl P xr) C0 - exact_stages d P v i)%C) by (intros i Hi; rewrite EY by auto; auto).
  eapply Rle_trans; [exact RO|]. right. rewrite EN. rewrite <- ES at 2. ring.
Qed.

End Plan.

(** ** Numbers *)

Lemma bernoulli : forall e k, 0 <= e -> (1 + e) ^ k * (1 - INR k * e) <= 1.
Proof.
  intros e k He. induction k as [|k IH]; [cbn; lra|]. eapply Rle_trans; [|exact IH]. cbn [pow].
  assert (P : 0 <= (1 + e) ^ k) by (apply pow_le; lra). rewrite S_INR. pose proof (pos_INR k).
  replace ((1 + e) * (1 + e) ^ k * (1 - (INR k + 1) * e)) with ((1 + e) ^ k * ((1 + e) * (1 - (INR k + 1) * e))) by ring. apply Rmult_le_compat_l; auto.
  assert (0 <= (INR k + 1) * (e * e)) by (apply Rmult_le_pos; [lra|nra]). nra.
Qed.

Lemma growth : forall e k, 0 <= e -> INR k * e <= 9 / 1000 -> (1 + e) ^ k - 1 <= 101 / 100 * (INR k * e) /\ 1 <= (1 + e) ^ k <= 101 / 100.
Proof.
  intros e k He Hk. pose proof (bernoulli e k He) as B. set (q := (1 + e) ^ k) in *. pose proof (pos_INR k). set (t := INR k * e) in *. assert (0 <= t) by (apply Rmult_le_pos; auto).
  assert (1 <= q) by (apply pow_R1_Rle; lra). split; [nra|nra].
Qed.

Lemma sin_abs_le : forall x, Rabs (sin x) <= Rabs x.
Proof.
  assert (P : forall x, 0 < x -> Rabs (sin x) <= x).
  { intros x Hx. destruct (Rle_lt_dec x PI) as [L|G].
    - rewrite Rabs_right; [left; apply sin_lt_x; auto|]. apply Rle_ge, sin_ge_0; lra.
    - pose proof (SIN_bound x). pose proof PI2_1. apply Rabs_le. lra. }
  intros x. destruct (Rtotal_order x 0) as [L|[->|G]].
  - replace (sin x) with (- sin (- x)) by (rewrite sin_neg; ring). rewrite Rabs_Ropp, (Rabs_left x) by auto. apply P. lra.
  - rewrite sin_0. lra.
  - rewrite (Rabs_right x) by lra. apply P. auto.
Qed.

Lemma chord : forall a b, Cabs (Cexp a - Cexp b)%C <= Rabs (a - b).
Proof.
  intros a b. unfold Cabs. apply sqrt_le_of_sq; [apply Rabs_pos|]. unfold Cnorm2, Cexp. cbn [Csub fst snd].
  assert (E : (cos a - cos b) * (cos a - cos b) + (sin a - sin b) * (sin a - sin b) = 4 * (sin ((a - b) / 2) * sin ((a - b) / 2))).
  { pose proof (sin2_cos2 a) as Ha. pose proof (sin2_cos2 b) as Hb. unfold Rsqr in Ha, Hb. assert (C := cos_minus a b).
    replace (a - b) with (2 * ((a - b) / 2)) in C by field. rewrite cos_2a_sin in C. lra. }
  rewrite E. pose proof (sin_abs_le ((a - b) / 2)) as S. set (s := sin ((a - b) / 2)) in *. assert (R : Rabs ((a - b) / 2) = Rabs (a - b) / 2) by (unfold Rdiv; rewrite Rabs_mult, (Rabs_right (/ 2)) by lra; auto).
  rewrite R in S. assert (Q : s * s = Rabs s * Rabs s) by (rewrite <- Rabs_mult; symmetry; apply Rabs_pos_eq, Rle_0_sqr). rewrite Q. pose proof (Rabs_pos s). nra.
Qed.

(** ** Formats *)

Section Format.
Variables (prec emin emax : Z).
Hypotheses (Hprec : (24 <= prec <= 100)%Z) (Hemin : (emin <= -149)%Z) (Hemax : (127 <= emax)%Z).
Let uu := bpow radix2 (- prec).
Let et := bpow radix2 (emin - 1).
Local Instance prec_pos : Prec_gt_0 prec := ltac:(unfold Prec_gt_0; lia).

Lemma uu_bounds : 0 < uu <= / 16777216.
Proof using All.
  split; [apply bpow_gt_0|]. unfold uu. apply Rle_trans with (bpow radix2 (-24)); [apply bpow_le; lia|]. change (-24)%Z with (Z.opp 24). rewrite bpow_opp. change (bpow radix2 24) with 16777216. lra.
Qed.

Lemma et_bounds : 0 < et /\ et <= uu / 10 ^ 9.
Proof using All.
  split; [apply bpow_gt_0|]. unfold et, uu. apply Rle_trans with (bpow radix2 (- prec + -50)); [apply bpow_le; lia|]. rewrite bpow_plus. apply Rmult_le_compat_l; [apply bpow_ge_0|].
  change (-50)%Z with (Z.opp 50). rewrite bpow_opp. change (bpow radix2 50) with (IZR (2 ^ 50)). apply Rinv_le_contravar; [lra|]. replace (10 ^ 9) with (IZR (10 ^ 9)) by (cbn; lra). apply IZR_le. lia.
Qed.

Lemma nearest_error : forall x, Rabs (nearest prec emin x - x) <= uu * Rabs x + et.
Proof using All.
  intros x. destruct (error_N_FLT radix2 emin prec ltac:(lia) (fun n => negb (Z.even n)) x) as (ep & h & He & Hh & _ & E).
  unfold nearest. rewrite E. replace (x * (1 + ep) + h - x) with (x * ep + h) by ring. eapply Rle_trans; [apply Rabs_triang|]. rewrite Rabs_mult.
  assert (E1 : / 2 * bpow radix2 (- prec + 1) = uu). { rewrite bpow_plus. fold uu. change (bpow radix2 1) with 2. field. }
  assert (E2 : / 2 * bpow radix2 emin = et). { replace emin with (emin - 1 + 1)%Z by ring. rewrite bpow_plus. fold et. change (bpow radix2 1) with 2. field. }
  rewrite E1 in He. rewrite E2 in Hh. apply Rplus_le_compat; auto. rewrite Rmult_comm. apply Rmult_le_compat_r; [apply Rabs_pos|auto].
Qed.

Variables (rnd fcos fsin : R -> R).
Hypotheses (Hrnd : rounds_to_nearest prec emin emax rnd) (Hcos : accurate prec emin fcos cos) (Hsin : accurate prec emin fsin sin).
Let Om := bpow radix2 emax.

Lemma Om_big : 2 ^ 100 <= Om.
Proof using All.
  unfold Om. apply Rle_trans with (bpow radix2 100); [right|apply bpow_le; lia]. change (bpow radix2 100) with (IZR (2 ^ 100)). rewrite pow_IZR. f_equal.
Qed.

Lemma acc : forall x, Rabs x <= Om -> Rabs (rnd x - x) <= uu * Rabs x + et.
Proof using All. intros x Hx. rewrite Hrnd by auto. apply nearest_error. Qed.

Lemma rnd_exact : forall x, Rabs x <= Om -> is_float prec emin x -> rnd x = x.
Proof using All. intros x Hx Hf. rewrite Hrnd by auto. apply round_generic; auto with typeclass_instances. Qed.

Lemma float_pow2 : forall k, (k <= 60)%nat -> is_float prec emin (INR (2 ^ k)).
Proof using All.
  intros k Hk. replace (INR (2 ^ k)) with (bpow radix2 (Z.of_nat k)). 
  - apply generic_format_bpow. unfold FLT_exp. lia.
  - rewrite INR_IZR_INZ, Nat2Z.inj_pow. symmetry. change (Z.of_nat 2) with (radix_val radix2). apply IZR_Zpower. lia.
Qed.

Variable two_pi : R.
Hypotheses (Ht : is_float prec emin two_pi) (He : Rabs (two_pi - 2 * PI) <= 82 / 10 * uu).

Lemma pow2_60 : forall k, (k <= 60)%nat -> INR (2 ^ k) <= 2 ^ 60.
Proof. intros k Hk. rewrite pow_INR. change (INR 2) with 2. apply Rle_pow; [lra|auto]. Qed.

Definition tau0 : R := 138 / 10 * uu.

Lemma twiddle_error : forall d p k, (0 < p <= 27)%nat -> (k < 2 ^ (p - 1))%nat -> Cabs (rtwiddle rnd fcos fsin two_pi (2 ^ p) k d - W d (2 ^ p) k)%C <= tau0.
Proof using All.
  intros d p k Hp Hk. unfold rtwiddle. cbv zeta. set (sign := match d with Forward => -1 | Backward => 1 end).
  assert (Hs : (sign = 1 \/ sign = -1) /\ sign = dsign d) by (unfold sign; destruct d; cbn; auto). destruct Hs as [Hs Hd].
  pose proof uu_bounds as U. pose proof et_bounds as ET. assert (ET' : et <= uu / 1000000000) by (replace 1000000000 with (10 ^ 9) by lra; apply ET).
  pose proof Om_big as OB. assert (OB' : 1000000000000000000 <= Om) by lra. pose proof PI_4 as P4. pose proof PI2_1 as P2.
  assert (Ht' : 2 * PI - 82 / 10 * uu <= two_pi <= 2 * PI + 82 / 10 * uu). { unfold Rabs in He. destruct (Rcase_abs (two_pi - 2 * PI)); lra. }
  assert (Es : rnd (sign * two_pi) = sign * two_pi).
  { apply rnd_exact; [destruct Hs as [->| ->]; apply Rabs_le; lra|]. destruct Hs as [->| ->]; [rewrite Rmult_1_l; auto|]. replace (-1 * two_pi) with (- two_pi) by ring. apply generic_format_opp. auto. }
  assert (Hn : 1 <= INR (2 ^ p) <= 134217728). { rewrite pow_INR. change (INR 2) with 2. split; [apply pow_R1_Rle; lra|]. replace 134217728 with (2 ^ 27) by lra. apply Rle_pow; [lra|lia]. }
  assert (En : rnd (INR (2 ^ p)) = INR (2 ^ p)) by (apply rnd_exact; [rewrite Rabs_right; lra|apply float_pow2; lia]).
  assert (Hk2 : 2 * INR k <= INR (2 ^ p)). { replace 2 with (INR 2) by reflexivity. rewrite <- mult_INR. apply le_INR. replace p with (S (p - 1)) by lia. rewrite Nat.pow_succ_r'. lia. }
  pose proof (pos_INR k) as K0. set (n := INR (2 ^ p)) in *. rewrite Es, En. set (kk := rnd (INR k)).
  assert (Hkk : Rabs (kk - INR k) <= uu * INR k + et). { pose proof (acc (INR k) ltac:(rewrite Rabs_right; lra)) as A. rewrite (Rabs_right (INR k)) in A by lra. exact A. }
  assert (Bkk : - (uu * INR k + et) <= kk - INR k <= uu * INR k + et) by (unfold Rabs in Hkk; destruct (Rcase_abs (kk - INR k)); lra).
  set (P := rnd (sign * two_pi * kk)). assert (Uk : 0 <= uu * INR k) by (apply Rmult_le_pos; lra). assert (Uk1 : uu * INR k <= 5) by nra.
  assert (Uk2 : uu * INR k <= INR k / 100) by nra.
  assert (Akk : Rabs kk <= 101 / 100 * INR k + et) by (apply Rabs_le; lra).
  assert (Asg : Rabs (sign * two_pi * kk) <= 801 / 100 * (101 / 100 * INR k + et)).
  { rewrite !Rabs_mult. assert (Rabs sign = 1) by (destruct Hs as [->| ->]; [apply Rabs_R1|rewrite Rabs_left; lra]). rewrite H, Rmult_1_l. apply Rmult_le_compat; try apply Rabs_pos; auto. rewrite Rabs_right; lra. }
  assert (HP : Rabs (P - sign * two_pi * kk) <= uu * (801 / 100 * (101 / 100 * INR k + et)) + et).
  { unfold P. eapply Rle_trans; [apply acc; lra|]. apply Rplus_le_compat_r. apply Rmult_le_compat_l; lra. }
  (* the division is exact *)
  assert (Ea : rnd (P / n) = P / n).
  { destruct (Nat.eq_dec k 0) as [->|N0].
    - assert (Z0 : forall y, y = 0 -> rnd y = 0) by (intros y ->; apply rnd_exact; [rewrite Rabs_R0; lra|apply generic_format_0]).
      assert (P = 0) as ->. { unfold P, kk. change (INR 0) with 0. rewrite (Z0 0) by auto. rewrite Rmult_0_r. apply Z0. auto. } rewrite (Z0 (0 / n)) by (unfold Rdiv; ring). unfold Rdiv. ring.
    - assert (K1 : 1 <= INR k) by (change 1 with (INR 1); apply le_INR; lia).
      assert (Pf : is_float prec emin P). { unfold P. rewrite Hrnd by (fold Om; lra). apply generic_format_round; auto with typeclass_instances. }
      assert (Kk : 98 / 100 <= kk) by lra.
      assert (Ps : 1 <= Rabs P).
      { assert (3 * (98 / 100) <= Rabs (sign * two_pi * kk)). { rewrite !Rabs_mult. assert (Rabs sign = 1) by (destruct Hs as [->| ->]; [apply Rabs_R1|rewrite Rabs_left; lra]). rewrite H, Rmult_1_l, !Rabs_right by lra. apply Rmult_le_compat; lra. }
        pose proof (Rabs_triang_inv (sign * two_pi * kk) (sign * two_pi * kk - P)) as T. replace (sign * two_pi * kk - (sign * two_pi * kk - P)) with P in T by ring. rewrite Rabs_minus_sym in HP. 
        assert (uu * (801 / 100 * (101 / 100 * INR k + et)) <= Rabs (sign * two_pi * kk) / 2).
        { rewrite !Rabs_mult. assert (Rabs sign = 1) by (destruct Hs as [->| ->]; [apply Rabs_R1|rewrite Rabs_left; lra]). rewrite H0, Rmult_1_l, !Rabs_right by lra. assert (98 / 100 * INR k <= kk) by lra. assert (3 * kk <= two_pi * kk) by (apply Rmult_le_compat_r; lra).
          assert (uu * (801 / 100 * (101 / 100 * INR k + et)) <= 1 / 100 * (801 / 100 * (101 / 100 * INR k + et))) by (apply Rmult_le_compat_r; lra). lra. }
        lra. }
      assert (En' : P / n = P * bpow radix2 (- Z.of_nat p)). { unfold Rdiv. f_equal. rewrite bpow_opp. f_equal. unfold n. rewrite INR_IZR_INZ, Nat2Z.inj_pow. change (Z.of_nat 2) with (radix_val radix2). apply IZR_Zpower. lia. }
      apply rnd_exact.
      + assert (Rabs P <= 2 ^ 60). { replace P with ((P - sign * two_pi * kk) + sign * two_pi * kk) by ring. eapply Rle_trans; [apply Rabs_triang|]. assert (uu * (801 / 100 * (101 / 100 * INR k + et)) <= 1 * (801 / 100 * (101 / 100 * INR k + et))) by (apply Rmult_le_compat_r; lra). lra. }
        unfold Rdiv. rewrite Rabs_mult. rewrite (Rabs_right (/ n)) by (apply Rle_ge; left; apply Rinv_0_lt_compat; lra). assert (/ n <= 1) by (rewrite <- Rinv_1; apply Rinv_le_contravar; lra). assert (0 < / n) by (apply Rinv_0_lt_compat; lra). pose proof (Rabs_pos P). nra.
      + rewrite En'. apply mult_bpow_exact_FLT; auto. assert (1 <= mag radix2 P)%Z by (apply mag_ge_bpow; cbn; auto). lia. }
  rewrite Ea. set (angle := P / n). set (theta := dsign d * (2 * PI) * INR k / INR (2 ^ p)). fold n in theta.
  assert (HA : Rabs (angle - theta) <= 122 / 10 * uu).
  { unfold angle, theta. rewrite <- Hd. replace (P / n - sign * (2 * PI) * INR k / n) with (((P - sign * two_pi * kk) + (sign * two_pi * (kk - INR k) + sign * (two_pi - 2 * PI) * INR k)) * / n) by (field; lra).
    rewrite Rabs_mult, (Rabs_right (/ n)) by (apply Rle_ge; left; apply Rinv_0_lt_compat; lra).
    assert (A1 : Rabs sign = 1) by (destruct Hs as [->| ->]; [apply Rabs_R1|rewrite Rabs_left; lra]).
    assert (S1 : Rabs (sign * two_pi * (kk - INR k)) <= 801 / 100 * (uu * INR k + et)). { rewrite !Rabs_mult, A1, Rmult_1_l. apply Rmult_le_compat; try apply Rabs_pos; auto. rewrite Rabs_right; lra. }
    assert (S2 : Rabs (sign * (two_pi - 2 * PI) * INR k) <= 82 / 10 * uu * INR k). { rewrite !Rabs_mult, A1, Rmult_1_l, (Rabs_right (INR k)) by lra. apply Rmult_le_compat_r; auto. }
    apply Rle_trans with ((2431 / 100 * uu * INR k + 10 * et) * / n).
    - apply Rmult_le_compat_r; [left; apply Rinv_0_lt_compat; lra|]. eapply Rle_trans; [apply Rabs_triang|]. eapply Rle_trans; [apply Rplus_le_compat_l, Rabs_triang|]. assert (uu * et <= et) by nra. nra.
    - assert (I1 : INR k * / n <= 1 / 2). { apply Rmult_le_reg_r with n; [lra|]. rewrite Rmult_assoc, Rinv_l by lra. lra. } assert (I2 : / n <= 1 / 2).
      { apply Rmult_le_reg_r with n; [lra|]. rewrite Rinv_l by lra. assert (2 <= n); [|lra]. unfold n. replace p with (S (p - 1)) by lia. rewrite Nat.pow_succ_r', mult_INR. change (INR 2) with 2. assert (Q : (1 <= 2 ^ (p - 1))%nat) by (pose proof (pow2_pos (p - 1)); lia). apply le_INR in Q. change (INR 1) with 1 in Q. lra. }
      replace ((2431 / 100 * uu * INR k + 10 * et) * / n) with (2431 / 100 * uu * (INR k * / n) + 10 * et * / n) by ring.
      assert (2431 / 100 * uu * (INR k * / n) <= 2431 / 100 * uu * (1 / 2)) by (apply Rmult_le_compat_l; lra). assert (10 * et * / n <= 10 * et * (1 / 2)) by (apply Rmult_le_compat_l; lra). lra. }
  assert (HC : forall f g y, accurate prec emin f g -> Rabs (g y) <= 1 -> rnd (1 * f y) = f y /\ Rabs (f y - g y) <= uu).
  { intros f g y A G. destruct (A y) as [F1 F2]. fold uu in F2. split; auto. rewrite Rmult_1_l. apply rnd_exact; auto. replace (f y) with ((f y - g y) + g y) by ring. eapply Rle_trans; [apply Rabs_triang|]. lra. }
  destruct (HC fcos cos angle Hcos ltac:(apply Rabs_le; destruct (COS_bound angle); lra)) as [-> C1].
  destruct (HC fsin sin angle Hsin ltac:(apply Rabs_le; destruct (SIN_bound angle); lra)) as [-> S1].
  replace ((fcos angle, fsin angle) - W d (2 ^ p) k)%C with (((fcos angle, fsin angle) - Cexp angle) + (Cexp angle - W d (2 ^ p) k))%C by (apply C_eq; unfold Csub, Cadd, Copp; cbn; ring).
  eapply Rle_trans; [apply Cabs_triang|]. unfold tau0. replace (138 / 10 * uu) with (3 / 2 * uu + 123 / 10 * uu) by lra. apply Rplus_le_compat.
  - apply Cabs_box; unfold Cexp; cbn [Csub Cadd Copp fst snd]; auto.
  - replace (W d (2 ^ p) k) with (Cexp theta). eapply Rle_trans; [apply chord|]. lra. unfold W, theta, n. f_equal. 
Qed.

Definition radix2_kernel (p : nat) (kernel : list C -> list C -> outcome (list C)) : Prop :=
  kernel = rdit2_v1 rnd \/ kernel = rdit2_v2 rnd \/ kernel = rdit2_v3 rnd \/ (kernel = rdit2_v4 rnd /\ (2 <= p)%nat).

Lemma kernel_ok : forall p kernel y twl, (0 < p)%nat -> radix2_kernel p kernel -> length y = (2 ^ p)%nat -> length twl = (2 ^ (p - 1))%nat -> kernel y twl = Ok (stages rnd p twl p y).
Proof using.
  intros p kernel y twl Hp [->|[->|[->|[-> H2]]]] Hy Ht'; [apply rv1_ok|apply rv2_ok|apply rv3_ok|apply rv4_ok]; auto.
Qed.

Lemma sqrt_n : forall p, (0 < p <= 27)%nat -> 1 <= sqrt (INR (2 ^ p)) <= 11600.
Proof using.
  intros p Hp. assert (Hn : 1 <= INR (2 ^ p) <= 134217728). { rewrite pow_INR. change (INR 2) with 2. split; [apply pow_R1_Rle; lra|]. replace 134217728 with (2 ^ 27) by lra. apply Rle_pow; [lra|lia]. }
  split; [rewrite <- sqrt_1; apply sqrt_le_1; lra|]. apply Rle_trans with (sqrt (11600 * 11600)); [apply sqrt_le_1; lra|rewrite sqrt_square; lra].
Qed.

Lemma norm_DFT : forall d p f, vnorm (2 ^ p) (DFT d (2 ^ p) f) = sqrt (INR (2 ^ p)) * vnorm (2 ^ p) f.
Proof using.
  intros d p f. unfold vnorm. rewrite DFT_parseval by (pose proof (pow2_pos p); lia). apply sqrt_mult; [apply pos_INR|]. apply Rsum_nonneg. intros. apply Cnorm2_pos.
Qed.

Definition tiny : R := bpow radix2 (emin + 34).

Lemma tiny_et : tiny = 34359738368 * et.
Proof using. unfold tiny, et. replace (emin + 34)%Z with (emin - 1 + 35)%Z by ring. rewrite bpow_plus. change (bpow radix2 35) with 34359738368. ring. Qed.

Lemma tiny_bounds : 0 < tiny /\ 1000 * tiny <= uu.
Proof using All.
  rewrite tiny_et. destruct et_bounds as [E1 _]. fold et in E1. split; [apply Rmult_lt_0_compat; [lra|exact E1]|]. unfold uu, et. apply Rle_trans with (bpow radix2 (50 + (emin - 1))); [rewrite bpow_plus; apply Rle_trans with (bpow radix2 50 * et); [|right; auto]|apply bpow_le; lia].
  change (bpow radix2 50) with 1125899906842624. fold et. lra.
Qed.

Theorem format_fft : forall d p x kernel, (0 < p <= 27)%nat -> length x = (2 ^ p)%nat -> radix2_kernel p kernel -> vnorm (2 ^ p) (fun i => nth i x C0) <= bpow radix2 (emax - 16) ->
  exists y, rfft_plan_run rnd fcos fsin kernel two_pi p x d = Ok y /\ length y = (2 ^ p)%nat /\
    vnorm (2 ^ p) (fun i => nth i y C0 - DFT d (2 ^ p) (fun i => nth i x C0) i)%C <= 28 * INR p * uu * vnorm (2 ^ p) (DFT d (2 ^ p) (fun i => nth i x C0)) + tiny.
Proof using All.
  intros d p x kernel Hp Hx Hk Hn. pose proof uu_bounds as U. pose proof et_bounds as ET. pose proof Om_big as OB. pose proof tiny_bounds as TB. pose proof (sqrt_n p Hp) as SN.
  set (N := vnorm (2 ^ p) (fun i => nth i x C0)) in *. set (Y := DFT d (2 ^ p) (fun i => nth i x C0)).
  assert (EY : vnorm (2 ^ p) Y = sqrt (INR (2 ^ p)) * N) by apply norm_DFT. set (NY := vnorm (2 ^ p) Y) in *.
  assert (N0 : 0 <= N) by apply vnorm_pos. assert (NY0 : 0 <= NY) by apply vnorm_pos. assert (Om16 : bpow radix2 (emax - 16) = Om / 65536).
  { unfold Om, Rdiv. unfold Z.sub. rewrite bpow_plus. f_equal. }
  assert (HNY : NY <= 11600 * (Om / 65536)) by (rewrite EY; apply Rmult_le_compat; lra).
  assert (Ip : 1 <= INR p <= 27). { split; [change 1 with (INR 1); apply le_INR; lia|]. replace 27 with (INR 27) by (cbn; lra). apply le_INR. lia. }
  assert (Ee : eps uu tau0 = 2745 / 100 * uu) by (unfold eps, alpha, tau0; field).
  assert (Pe : INR p * (2745 / 100 * uu) <= 9 / 1000) by nra.
  destruct (growth (2745 / 100 * uu) p ltac:(lra) Pe) as [G1 G2].
  assert (Hnn : 1 <= INR (2 ^ p) <= 134217728). { rewrite pow_INR. change (INR 2) with 2. split; [apply pow_R1_Rle; lra|]. replace 134217728 with (2 ^ 27) by lra. apply Rle_pow; [lra|lia]. }
  assert (Bt : INR p * (101 / 100 * (beta et * INR (2 ^ p))) <= tiny).
  { rewrite tiny_et. unfold beta. apply Rle_trans with (27 * (101 / 100 * (7 * et * 134217728))); [|lra]. apply Rmult_le_compat; try lra; repeat apply Rmult_le_pos; try lra. apply Rmult_le_compat_l; [lra|]. apply Rmult_le_compat_l; lra. }
  assert (B0 : 0 <= beta et * INR (2 ^ p)) by (unfold beta; repeat apply Rmult_le_pos; lra).
  destruct (plan_error rnd fcos fsin two_pi uu et Om tau0 acc) with (d := d) (p := p) (x := x) (kernel := kernel) as (y & Ey & Ly & By); auto; try lra.
  - unfold tau0. lra.
  - intros. apply kernel_ok; auto. lia.
  - intros. apply twiddle_error; auto.
  - rewrite Ee. fold Y. fold NY. set (q := (1 + 2745 / 100 * uu) ^ p) in *. set (bb := beta et * INR (2 ^ p)) in *.
    assert (q * (NY + INR p * bb) <= 101 / 100 * (NY + INR p * bb)) by (apply Rmult_le_compat_r; [assert (0 <= INR p * bb) by (apply Rmult_le_pos; lra); lra|lra]).
    assert (0 <= INR p * bb) by (apply Rmult_le_pos; lra). lra.
  - exists y. split; auto. split; auto. fold Y. eapply Rle_trans; [exact By|]. rewrite Ee. fold Y. fold NY. set (q := (1 + 2745 / 100 * uu) ^ p) in *. set (bb := beta et * INR (2 ^ p)) in *. apply Rplus_le_compat.
    + apply Rmult_le_compat_r; auto. eapply Rle_trans; [exact G1|]. assert (0 <= INR p * uu) by (apply Rmult_le_pos; lra). lra.
    + eapply Rle_trans; [|exact Bt]. apply Rmult_le_compat_l; [lra|]. apply Rmult_le_compat_r; lra.
Qed.

Theorem format_roundtrip : forall d p x kernel kernel', (0 < p <= 27)%nat -> length x = (2 ^ p)%nat -> radix2_kernel p kernel -> radix2_kernel p kernel' -> vnorm (2 ^ p) (fun i => nth i x C0) <= bpow radix2 (emax - 32) ->
  exists y z, rfft_plan_run rnd fcos fsin kernel two_pi p x d = Ok y /\ rfft_plan_run rnd fcos fsin kernel' two_pi p y (flip d) = Ok z /\ length z = (2 ^ p)%nat /\
    vnorm (2 ^ p) (fun i => nth i z C0 - RtoC (INR (2 ^ p)) * nth i x C0)%C <= 57 * INR p * uu * (INR (2 ^ p) * vnorm (2 ^ p) (fun i => nth i x C0)) + 16384 * tiny.
Proof using All.
  intros d p x kernel kernel' Hp Hx Hk Hk' Hn. pose proof uu_bounds as U. pose proof Om_big as OB. pose proof tiny_bounds as TB. pose proof (sqrt_n p Hp) as SN.
  assert (Om16 : bpow radix2 (emax - 16) = Om / 65536). { unfold Om, Rdiv. unfold Z.sub. rewrite bpow_plus. f_equal. }
  assert (Om32 : bpow radix2 (emax - 32) = Om / 4294967296). { unfold Om, Rdiv. unfold Z.sub. rewrite bpow_plus. f_equal. }
  destruct (format_fft d p x kernel Hp Hx Hk) as (y & Ey & Ly & By). { lra. }
  set (N := vnorm (2 ^ p) (fun i => nth i x C0)) in *. set (Y := DFT d (2 ^ p) (fun i => nth i x C0)) in *.
  assert (EY : vnorm (2 ^ p) Y = sqrt (INR (2 ^ p)) * N) by apply norm_DFT. set (NY := vnorm (2 ^ p) Y) in *. set (r := sqrt (INR (2 ^ p))) in *.
  assert (N0 : 0 <= N) by apply vnorm_pos. assert (NY0 : 0 <= NY) by apply vnorm_pos.
  assert (Ip : 1 <= INR p <= 27). { split; [change 1 with (INR 1); apply le_INR; lia|]. replace 27 with (INR 27) by (cbn; lra). apply le_INR. lia. }
  set (c := 28 * INR p * uu) in *. assert (Hc : 0 < c <= 1 / 1000) by (unfold c; split; [apply Rmult_lt_0_compat; lra|nra]).
  set (E := vnorm (2 ^ p) (fun i => nth i y C0 - Y i)%C) in *.
  assert (Hy : vnorm (2 ^ p) (fun i => nth i y C0) <= NY + E).
  { rewrite (vnorm_ext _ _ (fun i => Y i + (nth i y C0 - Y i))%C) by (intros; ring). apply vnorm_add. }
  assert (HNY : NY <= 11600 * (Om / 4294967296)) by (rewrite EY; apply Rmult_le_compat; lra).
  assert (HcN : c * NY <= NY / 1000) by (assert (c * NY <= 1 / 1000 * NY) by (apply Rmult_le_compat_r; lra); lra).
  destruct (format_fft (flip d) p y kernel' Hp Ly Hk') as (z & Ez & Lz & Bz). { lra. }
  exists y, z. split; auto. split; auto. split; auto.
  assert (Ed : vnorm (2 ^ p) (fun i => nth i z C0 - RtoC (INR (2 ^ p)) * nth i x C0)%C <= vnorm (2 ^ p) (fun i => nth i z C0 - DFT (flip d) (2 ^ p) (fun i => nth i y C0) i)%C + r * E).
  { unfold E, r. rewrite <- (norm_DFT (flip d) p). eapply Rle_trans; [|apply vnorm_add]. right. apply vnorm_ext. intros i Hi. rewrite <- (DFT_inv d (2 ^ p) (fun i => nth i x C0) i Hi). fold Y.
    rewrite (DFT_ext (flip d) (2 ^ p) (fun i => nth i y C0) (fun i => Y i + (nth i y C0 - Y i))%C) by (intros; ring). rewrite DFT_add. ring. }
  rewrite norm_DFT in Bz. fold r in Bz. fold c in Bz. set (M := vnorm (2 ^ p) (fun i => nth i y C0)) in *. assert (M0 : 0 <= M) by apply vnorm_pos. assert (E0 : 0 <= E) by apply vnorm_pos.
  eapply Rle_trans; [exact Ed|]. eapply Rle_trans; [apply Rplus_le_compat_r; exact Bz|].
  assert (Hrr : r * r = INR (2 ^ p)) by (apply sqrt_sqrt, pos_INR). rewrite <- Hrr.
  assert (B1 : r * E <= r * (c * NY + tiny)) by (apply Rmult_le_compat_l; lra).
  assert (B2 : M <= 1001 / 1000 * NY + tiny) by lra.
  assert (B3 : c * (r * M) <= c * (r * (1001 / 1000 * NY + tiny))) by (apply Rmult_le_compat_l; [lra|]; apply Rmult_le_compat_l; lra).
  apply Rle_trans with (c * (r * (1001 / 1000 * NY + tiny)) + tiny + r * (c * NY + tiny)); [lra|]. rewrite EY.
  assert (X0 : 0 <= c * (r * (r * N))) by (repeat apply Rmult_le_pos; lra).
  assert (T1 : r * tiny <= 11600 * tiny) by (apply Rmult_le_compat_r; lra). assert (T2 : c * (r * tiny) <= 1 / 1000 * (11600 * tiny)) by (apply Rmult_le_compat; try lra; apply Rmult_le_pos; lra).
  replace (57 * INR p * uu * (r * r * N)) with (57 / 28 * (c * (r * (r * N)))) by (unfold c; field). lra.
Qed.

End Format.

(** The constant 2 pi of twiddle.hpp in the two formats. *)
Local Instance prec_pos24 : Prec_gt_0 24 := ltac:(unfold Prec_gt_0; lia).
Local Instance prec_pos53 : Prec_gt_0 53 := ltac:(unfold Prec_gt_0; lia).

Lemma pi_double : is_float 53 (-1074) (nearest 53 (-1074) PI * 2) /\ Rabs (nearest 53 (-1074) PI * 2 - 2 * PI) <= 81 / 10 * bpow radix2 (- (53)).
Proof.
  pose proof PI_4. pose proof PI2_1. split.
  - change 2 with (bpow radix2 1). apply mult_bpow_pos_exact_FLT; [apply generic_format_round; auto with typeclass_instances|lia].
  - pose proof (nearest_error 53 (-1074) 1023 ltac:(lia) ltac:(lia) ltac:(lia) PI) as A. destruct (et_bounds 53 (-1074) 1023 ltac:(lia) ltac:(lia) ltac:(lia)) as [_ B]. rewrite (Rabs_right PI) in A by lra.
    set (u := bpow radix2 (- (53))) in *. assert (0 < u) by apply bpow_gt_0. set (e := bpow radix2 (-1074 - 1)) in *. replace (u / 10 ^ 9) with (u / 1000000000) in B by lra.
    replace (nearest 53 (-1074) PI * 2 - 2 * PI) with ((nearest 53 (-1074) PI - PI) * 2) by ring. rewrite Rabs_mult, (Rabs_right 2) by lra. assert (u * PI <= u * 4) by (apply Rmult_le_compat_l; lra). lra.
Qed.

Definition two_pi64 : R := nearest 53 (-1074) (nearest 53 (-1074) PI * 2).
Definition two_pi32 : R := nearest 24 (-149) two_pi64.

Lemma two_pi64_eq : two_pi64 = nearest 53 (-1074) PI * 2.
Proof. apply round_generic; auto with typeclass_instances. apply pi_double. Qed.

Lemma two_pi64_ok : is_float 53 (-1074) two_pi64 /\ Rabs (two_pi64 - 2 * PI) <= 82 / 10 * bpow radix2 (- (53)).
Proof. rewrite two_pi64_eq. destruct pi_double as [A B]. split; auto. pose proof (bpow_gt_0 radix2 (- (53))). lra. Qed.

Lemma two_pi32_ok : is_float 24 (-149) two_pi32 /\ Rabs (two_pi32 - 2 * PI) <= 82 / 10 * bpow radix2 (- (24)).
Proof.
  destruct two_pi64_ok as [_ A]. split; [apply generic_format_round; auto with typeclass_instances|]. pose proof PI_4. pose proof PI2_1.
  pose proof (nearest_error 24 (-149) 127 ltac:(lia) ltac:(lia) ltac:(lia) two_pi64) as B. destruct (et_bounds 24 (-149) 127 ltac:(lia) ltac:(lia) ltac:(lia)) as [_ B']. fold two_pi32 in B.
  set (u := bpow radix2 (- (24))) in *. assert (U : bpow radix2 (- (53)) <= u / 500000000). { replace (- (53))%Z with (- (24) + -29)%Z by lia. rewrite bpow_plus. fold u. apply Rmult_le_compat_l; [apply bpow_ge_0|]. change (-29)%Z with (Z.opp 29). rewrite bpow_opp. change (bpow radix2 29) with 536870912. lra. }
  assert (U0 : 0 < u) by apply bpow_gt_0. assert (U1 : u <= 1 / 100). { unfold u. rewrite bpow_opp. change (bpow radix2 24) with 16777216. lra. }
  set (e := bpow radix2 (-149 - 1)) in *. replace (u / 10 ^ 9) with (u / 1000000000) in B' by lra.
  assert (T : Rabs two_pi64 <= 801 / 100). { replace two_pi64 with ((two_pi64 - 2 * PI) + 2 * PI) by ring. eapply Rle_trans; [apply Rabs_triang|]. rewrite (Rabs_right (2 * PI)) by lra. lra. }
  replace (two_pi32 - 2 * PI) with ((two_pi32 - two_pi64) + (two_pi64 - 2 * PI)) by ring. eapply Rle_trans; [apply Rabs_triang|]. assert (u * Rabs two_pi64 <= u * (801 / 100)) by (apply Rmult_le_compat_l; lra). lra.
Qed.

Lemma rtwo_pi32 : forall rnd, rounds_to_nearest 24 (-149) 127 rnd -> rtwo_pi rnd = two_pi32.
Proof.
  intros rnd H. unfold rtwo_pi. fold two_pi64. apply H. destruct two_pi64_ok as [_ A]. pose proof PI_4. pose proof PI2_1. assert (bpow radix2 (- (53)) <= 1) by (change 1 with (bpow radix2 0); apply bpow_le; lia).
  replace two_pi64 with ((two_pi64 - 2 * PI) + 2 * PI) by ring. eapply Rle_trans; [apply Rabs_triang|]. rewrite (Rabs_right (2 * PI)) by lra. apply Rle_trans with (bpow radix2 8); [change (bpow radix2 8) with 256; lra|apply bpow_le; lia].
Qed.

Lemma rtwo_pi64 : forall rnd, rounds_to_nearest 53 (-1074) 1023 rnd -> rtwo_pi rnd = two_pi64.
Proof.
  intros rnd H. unfold rtwo_pi. fold two_pi64. destruct two_pi64_ok as [F A]. rewrite H. apply round_generic; auto with typeclass_instances. pose proof PI_4. pose proof PI2_1. assert (bpow radix2 (- (53)) <= 1) by (change 1 with (bpow radix2 0); apply bpow_le; lia).
  replace two_pi64 with ((two_pi64 - 2 * PI) + 2 * PI) by ring. eapply Rle_trans; [apply Rabs_triang|]. rewrite (Rabs_right (2 * PI)) by lra. apply Rle_trans with (bpow radix2 8); [change (bpow radix2 8) with 256; lra|apply bpow_le; lia].
Qed.
