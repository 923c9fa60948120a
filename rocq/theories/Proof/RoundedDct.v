(** The cosine transform in rounded arithmetic. *)
From Coq Require Import Reals List Arith Lia Lra Psatz Bool ZArith.
From Flocq Require Import Core Mult_error.
From Verif Require Import Base.Outcome Base.OutcomeFacts Base.Sums Base.Cplx Base.VecNorm Spec.Dft Spec.Transforms Spec.Rounding Spec.RoundedReal
  Model.Fft2 Model.Algorithm Model.FftApps Model.RoundedFft Model.RoundedConv Model.RoundedReal
  Proof.DftTheory Proof.Fft2Proof Proof.AlgorithmProof Proof.RfftProof Proof.DctProof
  Proof.RoundedError Proof.RoundedPlan Proof.RoundedRfft Proof.RoundedMac Proof.RoundedSynth.
Import ListNotations.
Local Arguments Nat.div : simpl never.
Local Arguments Nat.modulo : simpl never.
Local Arguments Nat.pow : simpl never.

Section Structure.
Variables rnd fcos fsin : R -> R.

Definition rdc_inv (order : nat) (p : dct_plan) : Prop :=
  dc_order p = order /\ rmake_dit2_plan rnd fcos fsin order = Ok (dc_fft p) /\ length (dc_buf p) = 2 ^ order.

Lemma rmake_dct_ok : forall order, 0 < order <= 27 -> exists p, rmake_dct_plan rnd fcos fsin order = Ok p /\ rdc_inv order p.
Proof using.
  intros order Ho. destruct (rmake_rfft_ok rnd fcos fsin order Ho) as (q & E & I). destruct I as (_ & I & _). unfold rmake_dct_plan. rewrite I. cbn [bind].
  eexists. split; [reflexivity|]. unfold rdc_inv. cbn [dc_order dc_fft dc_buf]. rewrite repeat_length. auto.
Qed.

Lemma rdct_run_inv : forall order p x p' x', 0 < order -> rdc_inv order p -> rdct_run rnd fcos fsin p x = Ok (p', x') -> rdc_inv order p'.
Proof using.
  intros order p x p' x' Ho [I1 [I2 I3]] H. unfold rdct_run in H.
  apply bind_ok in H. destruct H as [b [E H]].
  assert (Lb : length b = 2 ^ order).
  { refine (for_range_keeps _ (fun b => length b = 2 ^ order) _ _ _ _ _ _ I3 E).
    intros j t t' Ht Hb. cbv zeta in Hb. apply bind_ok in Hb. destruct Hb as [v [_ Hb]].
    apply bind_ok in Hb. destruct Hb as [u [E1 Hb]]. apply wr_inv in E1. destruct E1 as [_ E1].
    apply bind_ok in Hb. destruct Hb as [v' [_ Hb]]. apply wr_inv in Hb. destruct Hb as [_ Hb]. subst.
    rewrite !upd_length. auto. }
  rewrite (rfft_obj rnd fcos fsin order) in H by auto. cbn [bind] in H. apply bind_ok in H. destruct H as [o [_ H]].
  inversion H. subst. unfold rdc_inv. cbn [dc_order dc_fft dc_buf]. rewrite FR_length. auto.
Qed.

Lemma rdct_reach_inv : forall order p, 0 < order <= 27 -> rdct_reach rnd fcos fsin order p -> rdc_inv order p.
Proof using.
  intros order p Ho H. induction H.
  - destruct (rmake_dct_ok order Ho) as (p0 & E & I). rewrite H in E. inversion E. subst. exact I.
  - eapply rdct_run_inv; eauto. lia.
Qed.

Definition dct_in (p : nat) (x : list R) : list R := tab (2 ^ p) (dct_perm (2 ^ (p - 1)) (fun j => nth j x 0%R)).
Definition RDCT (p : nat) (x : list R) : list R :=
  tab (2 ^ p) (fun i => fst (rmul rnd (nth i (FR rnd fcos fsin p Forward (map RtoC (dct_in p x))) C0) (rdct_scale rnd fcos fsin (2 ^ p) i))).

Lemma rdct_run_ok : forall order p x, 0 < order -> rdc_inv order p -> length x = 2 ^ order ->
  exists p', rdct_run rnd fcos fsin p x = Ok (p', RDCT order x) /\ rdc_inv order p'.
Proof using.
  intros order p x Ho [I1 [I2 I3]] Hx. destruct (pow2_half order Ho) as [m [Hm [En Em]]].
  assert (EB : map RtoC (dct_in order x) = tab (2 * m) (fun i => RtoC (dct_perm m (fun j => nth j x 0%R) i))) by (unfold dct_in, tab; rewrite map_map, <- Em, En; reflexivity).
  unfold rdct_run. rewrite Hx. rewrite En in *. rewrite half_of_double. rewrite dct_load by auto. cbn [bind].
  rewrite (rfft_obj rnd fcos fsin order) by (auto; rewrite En; apply tab_length). cbn [bind].
  unfold RDCT. rewrite En, EB.
  match goal with |- context [tab (2 * m) ?f] => rewrite (for_range_tab _ 0%R (2 * m) _ x f) end; auto.
  - cbn [bind]. eexists. split; [reflexivity|]. unfold rdc_inv. cbn [dc_order dc_fft dc_buf]. rewrite FR_length. rewrite En. auto.
  - intros j l Hj Hl _. rewrite (rd_ok _ _ j C0) by (rewrite FR_length; lia). cbn [bind]. rewrite wr_ok by lia. reflexivity.
Qed.
End Structure.

Local Open Scope R_scope.

Lemma Cabs_Cexp : forall a, Cabs (Cexp a) = 1.
Proof. intros a. unfold Cabs, Cnorm2, Cexp. cbn [fst snd]. pose proof (sin2_cos2 a) as S. unfold Rsqr in S. replace (cos a * cos a + sin a * sin a) with 1 by lra. apply sqrt_1. Qed.

Lemma rnorm_dct_in : forall p x, (0 < p)%nat -> rnorm (2 ^ p) (fun i => nth i (dct_in p x) 0) = rnorm (2 ^ p) (fun i => nth i x 0).
Proof.
  intros p x Hp. destruct (pow2_half p Hp) as [m [Hm [En Em]]]. unfold rnorm. f_equal. rewrite En.
  rewrite (Rsum_ext _ _ (fun i => dct_perm m (fun j => nth j x 0) i * dct_perm m (fun j => nth j x 0) i)).
  2:{ intros i Hi. unfold dct_in. rewrite nth_tab by lia. rewrite <- Em. reflexivity. }
  rewrite (Rsum_even_odd m (fun i => nth i x 0 * nth i x 0)). replace (2 * m)%nat with (m + m)%nat by lia. rewrite Rsum_split. f_equal.
  - apply Rsum_ext. intros i Hi. unfold dct_perm. rewrite (proj2 (Nat.ltb_lt i m)) by auto. reflexivity.
  - rewrite Rsum_rev. apply Rsum_ext. intros i Hi. unfold dct_perm. rewrite (proj2 (Nat.ltb_ge _ m)) by lia. replace (2 * m - 1 - (m + (m - 1 - i)))%nat with i by lia. reflexivity.
Qed.

Section Format.
Variables (prec emin emax : Z).
Hypotheses (Hprec : (24 <= prec <= 53)%Z) (Hemin : (emin <= -149)%Z) (Hemax : (127 <= emax)%Z) (Hgap : (emin + prec <= -120)%Z).
Variables (rnd fcos fsin : R -> R).
Hypotheses (Hrnd : rounds_to_nearest prec emin emax rnd) (Hcos : accurate prec emin fcos cos) (Hsin : accurate prec emin fsin sin).
Let u := bpow radix2 (- prec).
Let et := bpow radix2 (emin - 1).
Let Om := bpow radix2 emax.
Hypotheses (Ht : is_float prec emin (rtwo_pi rnd)) (He : Rabs (rtwo_pi rnd - 2 * PI) <= 82 / 10 * bpow radix2 (- prec)).

Local Lemma Hprec' : (24 <= prec <= 100)%Z. Proof using Hprec. lia. Qed.
Local Lemma U : 0 < u <= / 16777216. Proof using All. exact (uu_bounds prec emin emax Hprec' Hemin Hemax). Qed.
Local Lemma E9 : 0 < et /\ et <= u / 1000000000. Proof using All. destruct (et_bounds prec emin emax Hprec' Hemin Hemax) as [A B]. fold u et in A, B. split; auto. replace 1000000000 with (10 ^ 9) by lra. exact B. Qed.
Local Lemma AC : forall x, Rabs x <= Om -> Rabs (rnd x - x) <= u * Rabs x + et. Proof using All. exact (acc prec emin emax Hprec' Hemin Hemax rnd fcos fsin Hrnd Hcos Hsin). Qed.
Local Lemma OB : 1000000000000000000 <= Om. Proof using All. pose proof (Om_big prec emin emax Hprec' Hemin Hemax rnd fcos fsin Hrnd Hcos Hsin) as B. fold Om in B. eapply Rle_trans; [|exact B]. lra. Qed.
Local Lemma RE : forall x, Rabs x <= Om -> is_float prec emin x -> rnd x = x. Proof using All. exact (rnd_exact prec emin emax Hprec' Hemin Hemax rnd fcos fsin Hrnd Hcos Hsin). Qed.

Lemma rpi_ok : is_float prec emin (rpi rnd) /\ Rabs (rpi rnd - PI) <= 81 / 10 * u.
Proof using All.
  pose proof U as U. pose proof E9 as E9. pose proof OB as OB. pose proof PI_4. pose proof PI2_1.
  pose proof (nearest_error 53 (-1074) 1023 ltac:(lia) ltac:(lia) ltac:(lia) PI) as A. destruct (et_bounds 53 (-1074) 1023 ltac:(lia) ltac:(lia) ltac:(lia)) as [B0 B]. rewrite (Rabs_right PI) in A by lra.
  assert (U53 : bpow radix2 (- (53)) <= u) by (apply bpow_le; lia). set (v := bpow radix2 (- (53))) in *. assert (V0 : 0 < v) by apply bpow_gt_0. set (e := bpow radix2 (-1074 - 1)) in *. replace (v / 10 ^ 9) with (v / 1000000000) in B by lra.
  set (q := nearest 53 (-1074) PI) in *. assert (vP : v * PI <= v * 4) by (apply Rmult_le_compat_l; lra).
  assert (Q : - (4 * v + e) <= q - PI <= 4 * v + e) by (unfold Rabs in A; destruct (Rcase_abs (q - PI)); lra).
  assert (Aq : Rabs q <= 4001 / 1000) by (apply Rabs_le; lra). split.
  - unfold rpi. fold q. rewrite Hrnd by (fold Om; lra). apply generic_format_round; auto with typeclass_instances.
    apply FLT_exp_valid. red. lia.
  - unfold rpi. fold q. replace (rnd q - PI) with ((rnd q - q) + (q - PI)) by ring. eapply Rle_trans; [apply Rabs_triang|]. pose proof (AC q ltac:(lra)).
    assert (u * Rabs q <= u * (4001 / 1000)) by (apply Rmult_le_compat_l; lra). lra.
Qed.

(** The cosine and sine of a computed angle. *)
Lemma weight_error : forall angle theta A, Rabs (angle - theta) <= A ->
  rnd (1 * fcos angle) = fcos angle /\ rnd (1 * fsin angle) = fsin angle /\ Cabs ((fcos angle, fsin angle) - Cexp angle)%C <= 3 / 2 * u /\ Cabs ((fcos angle, fsin angle) - Cexp theta)%C <= 3 / 2 * u + A.
Proof using All.
  intros angle theta A HA. pose proof U as U. pose proof OB as OB.
  assert (HC : forall f g y, accurate prec emin f g -> Rabs (g y) <= 1 -> rnd (1 * f y) = f y /\ Rabs (f y - g y) <= u).
  { intros f g y AA G. destruct (AA y) as [F1 F2]. fold u in F2. split; auto. rewrite Rmult_1_l. apply RE; auto. replace (f y) with ((f y - g y) + g y) by ring. eapply Rle_trans; [apply Rabs_triang|]. lra. }
  destruct (HC fcos cos angle Hcos ltac:(apply Rabs_le; destruct (COS_bound angle); lra)) as [C0' C1].
  destruct (HC fsin sin angle Hsin ltac:(apply Rabs_le; destruct (SIN_bound angle); lra)) as [S0' S1].
  assert (B : Cabs ((fcos angle, fsin angle) - Cexp angle)%C <= 3 / 2 * u) by (apply Cabs_box; unfold Cexp; cbn [Csub Cadd Copp fst snd]; auto).
  repeat split; auto. replace ((fcos angle, fsin angle) - Cexp theta)%C with (((fcos angle, fsin angle) - Cexp angle) + (Cexp angle - Cexp theta))%C by (apply C_eq; unfold Csub, Cadd, Copp; cbn; ring).
  eapply Rle_trans; [apply Cabs_triang|]. apply Rplus_le_compat; auto. eapply Rle_trans; [apply chord|]. exact HA.
Qed.

Variable p : nat.
Hypothesis Hp : (0 < p <= 27)%nat.
Let K := (2 ^ p)%nat.
Let sK := sqrt (INR K).
Let c := 28 * INR p * u.

Lemma scale_error : forall k, (k < K)%nat ->
  Cabs (rdct_scale rnd fcos fsin K k - RtoC 2 * Cexp (-1 * PI * INR k / (2 * INR K)))%C <= 236 / 10 * u /\ Cabs (rdct_scale rnd fcos fsin K k) <= 2001 / 1000.
Proof using All.
  intros k Hk. pose proof U as U. pose proof E9 as E9. pose proof OB as OB. pose proof PI_4 as P4. pose proof PI2_1 as P2. destruct rpi_ok as [Fp Ep].
  assert (Hn : 1 <= INR K <= 134217728). { unfold K. rewrite pow_INR. change (INR 2) with 2. split; [apply pow_R1_Rle; lra|]. replace 134217728 with (2 ^ 27) by lra. apply Rle_pow; [lra|lia]. }
  set (pi' := rpi rnd) in *. assert (Bp : - (81 / 10 * u) <= pi' - PI <= 81 / 10 * u) by (unfold Rabs in Ep; destruct (Rcase_abs (pi' - PI)); lra).
  unfold rdct_scale. fold pi'.
  rewrite (RE (-1 * pi')). 2:{ apply Rabs_le. lra. } 2:{ replace (-1 * pi') with (- pi') by ring. apply generic_format_opp. exact Fp. }
  rewrite (RE (INR K)). 2:{ rewrite Rabs_right; lra. } 2:{ apply (float_pow2 prec emin emax Hprec' Hemin Hemax rnd fcos fsin Hrnd Hcos Hsin); lia. }
  rewrite (RE (2 * INR K)). 2:{ rewrite Rabs_right; lra. } 2:{ unfold K. replace 2 with (INR 2) by reflexivity. rewrite <- mult_INR. rewrite <- Nat.pow_succ_r'. apply (float_pow2 prec emin emax Hprec' Hemin Hemax rnd fcos fsin Hrnd Hcos Hsin); lia. }
  set (n := INR K) in *. pose proof (pos_INR k) as K0. assert (K1 : INR k <= n) by (apply le_INR; lia).
  set (kk := rnd (INR k)). assert (Hkk := AC (INR k) ltac:(rewrite Rabs_right; lra)). fold kk in Hkk. rewrite (Rabs_right (INR k)) in Hkk by lra.
  assert (uk : 0 <= u * INR k <= / 16777216 * INR k) by (split; [apply Rmult_le_pos; lra|apply Rmult_le_compat_r; lra]).
  assert (Akk : Rabs kk <= 1001 / 1000 * INR k + et). { replace kk with ((kk - INR k) + INR k) by ring. eapply Rle_trans; [apply Rabs_triang|]. rewrite (Rabs_right (INR k)) by lra. lra. }
  assert (Api : Rabs pi' <= 4001 / 1000) by (apply Rabs_le; lra).
  assert (A1 : Rabs (-1 * pi' * kk) <= 4006 / 1000 * INR k + 5 * et).
  { rewrite !Rabs_mult. replace (Rabs (-1)) with 1 by (rewrite Rabs_left; lra). rewrite Rmult_1_l. eapply Rle_trans; [apply Rmult_le_compat; [apply Rabs_pos|apply Rabs_pos|exact Api|exact Akk]|]. lra. }
  set (P := rnd (-1 * pi' * kk)). assert (HP := AC (-1 * pi' * kk) ltac:(lra)). fold P in HP.
  assert (uA1 : u * Rabs (-1 * pi' * kk) <= u * (4006 / 1000 * INR k + 5 * et)) by (apply Rmult_le_compat_l; lra).
  assert (uet : 0 <= u * et <= et / 100) by (split; [apply Rmult_le_pos; lra|]; replace (et / 100) with (/ 100 * et) by field; apply Rmult_le_compat_r; lra).
  assert (i0 : 0 < / (2 * n)) by (apply Rinv_0_lt_compat; lra). assert (i1 : / (2 * n) <= / 2) by (apply Rinv_le_contravar; lra).
  assert (ik : 0 <= INR k * / (2 * n) <= / 2). { split; [apply Rmult_le_pos; lra|]. apply Rmult_le_reg_r with (2 * n); [lra|]. rewrite Rmult_assoc, Rinv_l by lra. lra. }
  assert (D1 : Rabs (P / (2 * n) - -1 * PI * INR k / (2 * n)) <= 811 / 100 * u).
  { replace (P / (2 * n) - -1 * PI * INR k / (2 * n)) with (((P - -1 * pi' * kk) + (-1 * pi' * (kk - INR k) + -1 * (pi' - PI) * INR k)) * / (2 * n)) by (field; lra).
    rewrite Rabs_mult, (Rabs_right (/ (2 * n))) by lra.
    assert (S1 : Rabs (-1 * pi' * (kk - INR k)) <= 4001 / 1000 * (u * INR k + et)). { rewrite !Rabs_mult. replace (Rabs (-1)) with 1 by (rewrite Rabs_left; lra). rewrite Rmult_1_l. apply Rmult_le_compat; auto; apply Rabs_pos. }
    assert (S2 : Rabs (-1 * (pi' - PI) * INR k) <= 81 / 10 * u * INR k). { rewrite !Rabs_mult. replace (Rabs (-1)) with 1 by (rewrite Rabs_left; lra). rewrite Rmult_1_l, (Rabs_right (INR k)) by lra. apply Rmult_le_compat_r; auto. }
    apply Rle_trans with ((16108 / 1000 * (u * INR k) + 6 * et) * / (2 * n)).
    - apply Rmult_le_compat_r; [lra|]. eapply Rle_trans; [apply Rabs_triang|]. eapply Rle_trans; [apply Rplus_le_compat_l, Rabs_triang|]. lra.
    - replace ((16108 / 1000 * (u * INR k) + 6 * et) * / (2 * n)) with (16108 / 1000 * u * (INR k * / (2 * n)) + 6 * (et * / (2 * n))) by ring.
      assert (16108 / 1000 * u * (INR k * / (2 * n)) <= 16108 / 1000 * u * / 2) by (apply Rmult_le_compat_l; lra). assert (et * / (2 * n) <= et * / 2) by (apply Rmult_le_compat_l; lra). lra. }
  assert (D2 : Rabs (-1 * PI * INR k / (2 * n)) <= 2).
  { replace (-1 * PI * INR k / (2 * n)) with (- (PI * (INR k * / (2 * n)))) by (field; lra). rewrite Rabs_Ropp, Rabs_right by (apply Rle_ge, Rmult_le_pos; lra).
    apply Rle_trans with (4 * / 2); [apply Rmult_le_compat; lra|lra]. }
  assert (A2 : Rabs (P / (2 * n)) <= 2001 / 1000). { replace (P / (2 * n)) with ((P / (2 * n) - -1 * PI * INR k / (2 * n)) + -1 * PI * INR k / (2 * n)) by ring. eapply Rle_trans; [apply Rabs_triang|]. lra. }
  set (angle := rnd (P / (2 * n))). assert (HA := AC (P / (2 * n)) ltac:(lra)). fold angle in HA.
  assert (uA2 : u * Rabs (P / (2 * n)) <= u * (2001 / 1000)) by (apply Rmult_le_compat_l; lra).
  assert (HAT : Rabs (angle - -1 * PI * INR k / (2 * n)) <= 102 / 10 * u).
  { replace (angle - -1 * PI * INR k / (2 * n)) with ((angle - P / (2 * n)) + (P / (2 * n) - -1 * PI * INR k / (2 * n))) by ring. eapply Rle_trans; [apply Rabs_triang|]. lra. }
  destruct (weight_error angle _ _ HAT) as (W1 & W2 & W3 & W4). rewrite W1, W2.
  assert (AB : Cabs (fcos angle, fsin angle) <= 1 + 3 / 2 * u).
  { replace (fcos angle, fsin angle) with (Cexp angle + ((fcos angle, fsin angle) - Cexp angle))%C by (apply C_eq; unfold Csub, Cadd, Copp, Cexp; cbn; ring). eapply Rle_trans; [apply Cabs_triang|]. rewrite Cabs_Cexp. lra. }
  assert (Ex : forall f g, accurate prec emin f g -> (forall y, Rabs (g y) <= 1) -> rnd (2 * f angle) = 2 * f angle).
  { intros f g AA G. destruct (AA angle) as [F1 F2]. fold u in F2. apply RE.
    - rewrite Rabs_mult, (Rabs_right 2) by lra. replace (f angle) with ((f angle - g angle) + g angle) by ring. pose proof (Rabs_triang (f angle - g angle) (g angle)). specialize (G angle). lra.
    - rewrite Rmult_comm. change 2 with (bpow radix2 1). apply mult_bpow_pos_exact_FLT; [exact F1|lia]. }
  rewrite (Ex fcos cos Hcos), (Ex fsin sin Hsin). 2:{ intros y. apply Rabs_le. destruct (SIN_bound y). lra. } 2:{ intros y. apply Rabs_le. destruct (COS_bound y). lra. }
  replace (2 * fcos angle, 2 * fsin angle) with (RtoC 2 * (fcos angle, fsin angle))%C by (apply C_eq; unfold Cmul, RtoC; cbn; ring).
  assert (R2 : Cabs (RtoC 2) = 2). { unfold Cabs, Cnorm2, RtoC. cbn [fst snd]. replace (2 * 2 + 0 * 0) with (2 * 2) by ring. apply sqrt_square. lra. }
  split.
  - match goal with |- Cabs ?a <= _ => replace a with (RtoC 2 * ((fcos angle, fsin angle) - Cexp (-1 * PI * INR k / (2 * n))))%C by ring end. rewrite Cabs_mul, R2. lra.
  - rewrite Cabs_mul, R2. lra.
Qed.

Theorem dct_error : forall x k, length x = K -> (k < K)%nat -> rnorm K (fun i => nth i x 0) <= bpow radix2 (emax - 17) ->
  Rabs (nth k (RDCT rnd fcos fsin p x) 0 - DCT2 K (fun i => nth i x 0) k) <= 28 * (2 * INR p + 1) * u * (sK * rnorm K (fun i => nth i x 0)) + 3 * tiny emin.
Proof using All.
  intros x k Hx Hk Hn. pose proof U as U. pose proof E9 as E9. pose proof OB as OB. pose proof Hprec' as Hp100.
  pose proof (c_bounds prec emin emax Hp100 Hemin Hemax Hgap rnd fcos fsin Hrnd Hcos Hsin Ht He p Hp) as CB. fold u c in CB.
  pose proof (sK_bounds prec emin emax Hp100 Hemin Hemax Hgap rnd fcos fsin Hrnd Hcos Hsin Ht He p Hp) as [SB SS]. fold K sK in SB, SS.
  pose proof (tiny_u prec emin emax Hp100 Hemin Hemax Hgap rnd fcos fsin Hrnd Hcos Hsin Ht He p Hp) as TU. fold u in TU.
  assert (T1 : tiny emin <= 1). { eapply Rle_trans; [apply TU|]. assert (0 < / 2 ^ 86 <= 1) by (split; [apply Rinv_0_lt_compat, pow_lt; lra|rewrite <- Rinv_1; apply Rinv_le_contravar; [lra|apply pow_R1_Rle; lra]]). nra. }
  assert (ET : et * 1000 <= tiny emin). { unfold et, tiny. replace (emin + 34)%Z with (35 + (emin - 1))%Z by lia. rewrite bpow_plus. change (bpow radix2 35) with 34359738368. pose proof (bpow_gt_0 radix2 (emin - 1)). lra. }
  assert (O17 : Om = 131072 * bpow radix2 (emax - 17)). { unfold Om. replace emax with (17 + (emax - 17))%Z at 1 by lia. rewrite bpow_plus. f_equal. }
  assert (O16 : bpow radix2 (emax - 16) = 2 * bpow radix2 (emax - 17)). { replace (emax - 16)%Z with (1 + (emax - 17))%Z by lia. rewrite bpow_plus. f_equal. }
  set (w := dct_in p x). assert (Lw : length w = K) by apply tab_length.
  assert (EN : rnorm K (fun i => nth i w 0) = rnorm K (fun i => nth i x 0)) by (apply rnorm_dct_in; lia).
  set (N := rnorm K (fun i => nth i x 0)) in *. assert (N0 : 0 <= N) by apply rnorm_pos.
  assert (EV : vnorm K (fun i => nth i (map RtoC w) C0) = N). { rewrite <- EN, <- rnorm_RtoC. apply vnorm_ext. intros. apply nth_RtoC. }
  assert (E := FR_error prec emin emax Hp100 Hemin Hemax Hgap rnd fcos fsin Hrnd Hcos Hsin Ht He p Hp Forward (map RtoC w) ltac:(rewrite map_length; auto)). fold K in E. rewrite EV in E. specialize (E ltac:(lra)). fold u in E. fold c sK in E.
  destruct (pow2_half p ltac:(lia)) as [m [Hm [En Em]]]. fold K in En.
  unfold RDCT. fold K. rewrite nth_tab by exact Hk. fold w. set (y := FR rnd fcos fsin p Forward (map RtoC w)) in *.
  set (Y := DFT Forward K (fun i => nth i (map RtoC w) C0)) in *.
  assert (Bk : Cabs (nth k y C0 - Y k)%C <= c * (sK * N) + tiny emin) by (eapply Rle_trans; [apply (Cabs_le_vnorm K (fun i => nth i y C0 - Y i)%C k Hk)|exact E]).
  assert (By : Cabs (Y k) <= sK * N). { eapply Rle_trans; [apply (Cabs_le_vnorm K Y k Hk)|]. unfold Y. unfold K at 1 2. rewrite norm_DFT. fold K. rewrite EV. right. reflexivity. }
  set (b := nth k y C0) in *. set (s := rdct_scale rnd fcos fsin K k). set (e := (RtoC 2 * Cexp (-1 * PI * INR k / (2 * INR K)))%C).
  destruct (scale_error k Hk) as [SE SA]. fold s e in SE, SA.
  assert (ED : DCT2 K (fun i => nth i x 0) k = fst (Y k * e)%C).
  { unfold e. rewrite En. rewrite <- (dct_math m (fun i => nth i x 0) k Hm). f_equal. f_equal. unfold Y. rewrite En. apply DFT_ext. intros i Hi. rewrite nth_RtoC. unfold w, dct_in. rewrite nth_tab by (fold K; lia). rewrite <- Em. reflexivity. }
  rewrite ED. set (Q := sK * N) in *. assert (Q0 : 0 <= Q) by (apply Rmult_le_pos; lra). assert (Q1 : Q <= 11600 * bpow radix2 (emax - 17)) by (apply Rmult_le_compat; lra).
  assert (cQ : 0 <= c * Q <= / 10000 * Q) by (split; [apply Rmult_le_pos; lra|apply Rmult_le_compat_r; lra]).
  assert (Ab : Cabs b <= Q + (c * Q + tiny emin)). { replace b with (Y k + (b - Y k))%C by ring. eapply Rle_trans; [apply Cabs_triang|]. lra. }
  pose proof (Cabs_pos b) as b0. pose proof (Cabs_pos s) as s0.
  assert (bs : Cabs b * Cabs s <= 2001 / 1000 * Cabs b) by (rewrite (Rmult_comm (2001 / 1000)); apply Rmult_le_compat_l; lra).
  destruct (cauchy_products b s) as [CP _].
  destruct (dot_error rnd u et Om 0 AC ltac:(lra) ltac:(lra) ltac:(lra) (fst b * fst s) (snd b * snd s) (Cabs b * Cabs s) CP ltac:(lra)) as [_ DE].
  change (fst (rmul rnd b s)) with (rnd (rnd (fst b * fst s) - rnd (snd b * snd s))).
  change (fst b * fst s - snd b * snd s) with (fst (b * s)%C) in DE.
  assert (D2 : Rabs (fst (b * s)%C - fst (Y k * e)%C) <= Cabs b * (236 / 10 * u) + (c * Q + tiny emin) * 2).
  { replace (fst (b * s)%C - fst (Y k * e)%C) with (fst (b * (s - e) + (b - Y k) * e)%C) by (unfold Cmul, Csub, Cadd, Copp; cbn; ring).
    eapply Rle_trans; [apply (proj1 (Rabs_le_Cabs _))|]. eapply Rle_trans; [apply Cabs_triang|]. rewrite !Cabs_mul. apply Rplus_le_compat.
    - apply Rmult_le_compat_l; auto.
    - apply Rmult_le_compat; auto; try apply Cabs_pos. unfold e. rewrite Cabs_mul, Cabs_Cexp. unfold Cabs, Cnorm2, RtoC. cbn [fst snd]. replace (2 * 2 + 0 * 0) with (2 * 2) by ring. rewrite sqrt_square by lra. lra. }
  match goal with |- Rabs (?a - ?d) <= _ => replace (a - d) with ((a - fst (b * s)%C) + (fst (b * s)%C - d)) by ring end.
  eapply Rle_trans; [apply Rabs_triang|]. eapply Rle_trans; [apply Rplus_le_compat; [exact DE|exact D2]|].
  replace (28 * (2 * INR p + 1) * u * Q) with (2 * (c * Q) + 28 * (u * Q)) by (unfold c; ring).
  assert (uQ : 0 <= u * Q) by (apply Rmult_le_pos; lra).
  assert (H1 : 201 / 100 * u * (Cabs b * Cabs s) <= 201 / 100 * u * (2001 / 1000 * Cabs b)) by (apply Rmult_le_compat_l; lra).
  assert (H2 : u * Cabs b <= u * (Q + (/ 10000 * Q + tiny emin))) by (apply Rmult_le_compat_l; lra).
  assert (H3 : u * tiny emin <= / 16777216 * tiny emin) by (apply Rmult_le_compat_r; lra).
  replace (201 / 100 * u * (2001 / 1000 * Cabs b)) with (4022010 / 1000000 * (u * Cabs b)) in H1 by field.
  replace (Cabs b * (236 / 10 * u)) with (236 / 10 * (u * Cabs b)) by ring.
  replace (u * (Q + (/ 10000 * Q + tiny emin))) with (10001 / 10000 * (u * Q) + u * tiny emin) in H2 by field. lra.
Qed.
End Format.
