(** Variance, energy and peak in rounded arithmetic: errors. *)
From Coq Require Import Reals List Arith ZArith Lia Lra Bool.
From Flocq Require Import Core.
From Verif Require Import Base.Outcome Base.OutcomeFacts Base.Alias Base.Sums Base.Cplx Base.VecNorm Spec.Rounding Spec.RoundedSums Spec.Statistics Model.Algorithm Model.Statistics Model.RoundedStats
  Proof.AlgorithmProof Proof.StatisticsProof Proof.RoundedSums Proof.RoundedDirect Proof.RoundedStatsProof.
Import ListNotations.
Local Open Scope R_scope.

(** ** The variance as a mean squared difference from the computed average *)
Lemma var_of_mse : forall rnd l, var_of rnd l = mse_of rnd (map (fun v => (v, avg_of rnd l)) l).
Proof.
  intros rnd l. unfold var_of, mse_of. rewrite map_length. do 2 f_equal. unfold rsum. generalize (avg_of rnd l) as a. intros a. generalize 0. induction l as [|v l IH]; intros s; [reflexivity|]. cbn [map fold_left fst snd]. apply IH.
Qed.

Lemma square_shift : forall a m l, total (map (fun v => (v - a) * (v - a)) l) = total (map (fun v => (v - m) * (v - m)) l) + 2 * (m - a) * (total l - INR (length l) * m) + INR (length l) * ((a - m) * (a - m)).
Proof. intros a m. induction l as [|v l IH]; [cbn; ring|]. cbn [map total length]. rewrite S_INR, IH. ring. Qed.

Lemma var_shift : forall a l, l <> [] -> sq_sum (map (fun v => (v, a)) l) / INR (length l) = pvariance l + (a - average l) * (a - average l).
Proof.
  intros a l Hl. assert (P : 0 < INR (length l)) by (apply lt_0_INR; destruct l; [congruence|cbn; lia]).
  unfold sq_sum. rewrite map_map. cbn [fst snd]. assert (T : total l = INR (length l) * average l) by (unfold average; field; lra). rewrite (square_shift a (average l)), T. unfold pvariance. set (m := average l). unfold average. rewrite map_length. field. lra.
Qed.

(** ** Euclidean norms of lists *)
Lemma energy_norm : forall l, sqrt (energy l) = vnorm (length l) (fun i => (nth i l 0, 0)).
Proof.
  intros l. unfold vnorm. f_equal. induction l as [|v l IH] using rev_ind; [reflexivity|]. unfold energy in *. rewrite map_app, total_app, app_length. cbn [length map total]. rewrite Nat.add_1_r, IH. unfold Rsum at 2. cbn [bsum]. fold (Rsum (length l) (fun i => Cnorm2 (nth i (l ++ [v]) 0, 0))).
  rewrite app_nth2, Nat.sub_diag by lia. cbn [nth]. rewrite (Rsum_ext (length l) (fun i => Cnorm2 (nth i (l ++ [v]) 0, 0)) (fun i => Cnorm2 (nth i l 0, 0))); [|intros i Hi; rewrite app_nth1 by auto; auto]. f_equal. unfold Cnorm2. cbn [fst snd]. ring.
Qed.

Lemma Cabs_real : forall x, Cabs (x, 0) = Rabs x.
Proof. intros x. unfold Cabs, Cnorm2. cbn [fst snd]. rewrite Rmult_0_l, Rplus_0_r. apply sqrt_Rsqr_abs. Qed.

Lemma norm_change : forall A (l : list A) (f g : A -> R) c h, 0 <= c -> 0 <= h -> (forall v, In v l -> Rabs (f v - g v) <= c * Rabs (g v) + h) ->
  Rabs (sqrt (energy (map f l)) - sqrt (energy (map g l))) <= c * sqrt (energy (map g l)) + h * sqrt (INR (length l)).
Proof.
  intros A l f g c h Hc Hh H. rewrite !energy_norm, !map_length. set (n := length l).
  set (F := fun i => (nth i (map f l) 0, 0) : C). set (G := fun i => (nth i (map g l) 0, 0) : C).
  assert (D : vnorm n (fun i => F i - G i)%C <= c * vnorm n G + h * sqrt (INR n)).
  { apply vnorm_affine; auto. intros i Hi. unfold F, G. destruct l as [|a l']; [cbn in Hi; lia|]. set (k := a :: l') in *.
    rewrite (nth_indep (map f k) 0 (f a)), (nth_indep (map g k) 0 (g a)) by (rewrite map_length; auto). rewrite (map_nth f), (map_nth g). unfold Csub, Cadd, Copp. cbn [fst snd]. replace (0 - 0) with 0 by ring. rewrite !Cabs_real.
    apply H. apply nth_In. auto. }
  assert (T1 : vnorm n F <= vnorm n G + vnorm n (fun i => F i - G i)%C). { rewrite (vnorm_ext n F (fun i => G i + (F i - G i))%C) by (intros; ring). apply (vnorm_add n G (fun i => F i - G i)%C). }
  assert (T2 : vnorm n G <= vnorm n F + vnorm n (fun i => F i - G i)%C). { rewrite (vnorm_ext n G (fun i => F i - (F i - G i))%C) by (intros; ring). apply (vnorm_sub n F (fun i => F i - G i)%C). }
  apply Rabs_le. split; lra.
Qed.

Lemma energy_ge : forall l v, In v l -> Rabs v <= sqrt (energy l).
Proof.
  intros l v Hv. rewrite <- sqrt_Rsqr_abs. apply sqrt_le_1_alt. unfold Rsqr, energy. induction l as [|w l IH]; [destruct Hv|]. cbn [map total].
  assert (0 <= total (map (fun v => v * v) l)) by (apply total_nonneg; intros x Hx; apply in_map_iff in Hx; destruct Hx as (y & <- & _); apply Rle_0_sqr). pose proof (Rle_0_sqr w) as W. unfold Rsqr in W. destruct Hv as [-> |Hv]; [lra|]. specialize (IH Hv). lra.
Qed.

Section Format.
Variables (prec emin emax : Z) (rnd : R -> R).
Hypotheses (HF : ieee prec emin emax) (Hrnd : rounds_to_nearest prec emin emax rnd).
Let u := unit_roundoff prec.
Let eta := underflow emin.
Let Om := bpow radix2 emax.

(** The error bound of the average. *)
Definition mean_bound (l : list R) : R := (growth prec (length l + 2) - 1) * average (map Rabs l) + underflow emin.

Lemma average_abs_nonneg : forall l, l <> [] -> 0 <= average (map Rabs l).
Proof using.
  intros l Hl. unfold average. rewrite map_length. apply Rmult_le_pos; [apply (total_abs_nonneg R (fun v => v))|]. left. apply Rinv_0_lt_compat, lt_0_INR. destruct l; [congruence|cbn; lia].
Qed.

Lemma var_error : forall l, l <> [] -> (forall v, In v l -> is_float prec emin v) -> INR (length l) <= Om ->
  growth prec (length l + 1) * total (map Rabs l) <= Om ->
  growth prec (length l + 4) * (INR (length l) * (pvariance l + mean_bound l * mean_bound l + eta)) <= Om ->
  is_float prec emin (var_of rnd l) /\ 0 <= var_of rnd l <= Om /\
  Rabs (var_of rnd l - pvariance l) <= (growth prec (length l + 5) - 1) * pvariance l + growth prec (length l + 5) * (mean_bound l * mean_bound l) + (growth prec (length l + 2) + 1) * eta.
Proof using All.
  intros l Hl Hf Hn H1 H2. pose proof (u_pos prec emin emax HF) as U. pose proof (eta_pos emin) as E0. fold eta in E0. set (n := length l) in *. assert (Ln : (0 < n)%nat) by (unfold n; destruct l; [congruence|cbn; lia]).
  assert (P : 0 < INR n) by (apply lt_0_INR; lia). destruct (mean_error prec emin emax rnd HF Hrnd l Hl Hf Hn H1) as (Fa & _ & Ea). fold n eta in Ea. set (a := avg_of rnd l) in *.
  assert (V0 : 0 <= pvariance l) by (apply pvariance_nonneg; auto). assert (E2 : (a - average l) * (a - average l) <= mean_bound l * mean_bound l).
  { assert (B0 : Rabs (a - average l) <= mean_bound l) by exact Ea. apply Rsqr_le_abs_1. eapply Rle_trans; [exact B0|]. apply Rle_abs. }
  pose proof (var_shift a l Hl) as VS. fold n in VS. set (q := map (fun v => (v, a)) l) in *. assert (Lq : length q = n) by apply map_length.
  assert (SQ : sq_sum q = INR n * (pvariance l + (a - average l) * (a - average l))). { rewrite <- VS. field. lra. }
  pose proof (growth_1 prec emin emax HF (n + 4)) as G4. pose proof (growth_1 prec emin emax HF (n + 5)) as G5.
  destruct (mse_error prec emin emax rnd HF Hrnd q) as (F & N & E).
  - unfold q. destruct l; [congruence|discriminate].
  - intros p Hp. apply in_map_iff in Hp. destruct Hp as (v & <- & Hv). split; auto.
  - rewrite Lq. auto.
  - rewrite Lq, SQ. eapply Rle_trans; [|exact H2]. apply Rmult_le_compat_l; [lra|]. fold eta. rewrite <- Rmult_plus_distr_l. apply Rmult_le_compat_l; lra.
  - rewrite var_of_mse. fold a q. rewrite Lq, VS in E. fold eta in E. split; auto. split; auto. set (M := mse_of rnd q) in *. set (d := (a - average l) * (a - average l)) in *. assert (d0 : 0 <= d) by apply Rle_0_sqr.
    assert ((growth prec (n + 5)) * d <= growth prec (n + 5) * (mean_bound l * mean_bound l)) by (apply Rmult_le_compat_l; lra).
    replace (M - pvariance l) with ((M - (pvariance l + d)) + d) by ring. eapply Rle_trans; [apply Rabs_triang|]. rewrite (Rabs_pos_eq d) by auto. lra.
Qed.

(** ** The energy *)
Lemma squares_up_to : forall l, INR (length l) * bpow radix2 emin <= u * energy l ->
  (forall v, In v l -> v * v <= Om) ->
  up_to_roundings prec 2 (energy l) (total (map (fun v => rnd (v * v)) l)).
Proof using All.
  intros l Hn Ho. pose proof (u_pos prec emin emax HF) as U. fold u in U. assert (E0 : 0 <= energy l) by (apply total_nonneg; intros x Hx; apply in_map_iff in Hx; destruct Hx as (y & <- & _); apply Rle_0_sqr).
  assert (D : Rabs (total (map (fun v => rnd (v * v)) l) - energy l) <= u * energy l + INR (length l) * eta).
  { clear - Ho HF Hrnd u eta Om. unfold energy. induction l as [|v l IH]; [cbn; rewrite Rminus_0_r, Rabs_R0; lra|]. cbn [map total length]. rewrite S_INR.
    assert (IH' := IH (fun w Hw => Ho w (or_intror Hw))). assert (Q : 0 <= v * v) by apply Rle_0_sqr. pose proof (rnd_error prec emin emax HF rnd Hrnd (v * v) ltac:(rewrite Rabs_pos_eq by auto; apply Ho; left; auto)) as RE. fold u eta in RE. rewrite (Rabs_pos_eq (v * v)) in RE by auto.
    set (T := total (map (fun v => rnd (v * v)) l)) in *. set (S := total (map (fun v => v * v) l)) in *. replace (rnd (v * v) + T - (v * v + S)) with ((rnd (v * v) - v * v) + (T - S)) by ring. eapply Rle_trans; [apply Rabs_triang|]. lra. }
  assert (Ne : INR (length l) * eta <= u / 2 * energy l).
  { replace (bpow radix2 emin) with (2 * eta) in Hn. lra. unfold eta, underflow. change 2 with (bpow radix2 1). rewrite <- bpow_plus. f_equal. lia. }
  assert (B : - (3 / 2 * u * energy l) <= total (map (fun v => rnd (v * v)) l) - energy l <= 3 / 2 * u * energy l). { unfold Rabs in D. destruct (Rcase_abs _); lra. }
  unfold up_to_roundings, growth. cbn [pow]. fold u. rewrite Rmult_1_r. split.
  - apply Rmult_le_reg_r with ((1 + u) * (1 + u)); [nra|]. unfold Rdiv. rewrite Rmult_assoc, Rinv_l by nra. apply Rle_trans with (energy l * (1 - 3 / 2 * u) * ((1 + u) * (1 + u))).
    + rewrite Rmult_assoc. apply Rmult_le_compat_l; auto. nra.
    + apply Rmult_le_compat_r; [nra|]. lra.
  - apply Rle_trans with (energy l * (1 + 3 / 2 * u)); [lra|]. apply Rmult_le_compat_l; auto. nra.
Qed.

(** The factor: at least half of the precision's range for the energy. *)
Lemma energy_factor_error : forall l, 0 < energy l -> INR (length l) * bpow radix2 emin <= u * energy l -> growth prec (length l + 4) <= 2 -> energy l <= bpow radix2 (emax - 1) ->
  up_to_roundings prec (length l + 4) (/ sqrt (energy l)) (renergy_factor rnd l).
Proof using All.
  intros l Ep Hn Hg Ho. pose proof (u_pos prec emin emax HF) as U. fold u in U. pose proof (prec_range prec emin emax HF) as P. set (n := length l) in *. set (E := energy l) in *.
  assert (O2 : bpow radix2 emax = 2 * bpow radix2 (emax - 1)). { change 2 with (bpow radix2 1). rewrite <- bpow_plus. f_equal. lia. }
  assert (Eg : forall k, (k <= n + 4)%nat -> E * growth prec k <= Om). { intros k Hk. unfold Om. rewrite O2. pose proof (growth_mono prec emin emax HF k (n + 4) Hk) as G. pose proof (growth_pos prec emin emax HF k). nra. }
  assert (Sq : forall v, In v l -> v * v <= Om).
  { intros v Hv. pose proof (energy_ge l v Hv) as G. fold E in G. replace (v * v) with (Rabs v * Rabs v) by (rewrite <- Rabs_mult; apply Rabs_pos_eq, Rle_0_sqr). pose proof (sqrt_sqrt E ltac:(lra)) as S2. pose proof (Rabs_pos v) as V0. specialize (Eg 0%nat ltac:(lia)). unfold growth in Eg. cbn [pow] in Eg. nra. }
  assert (UT := squares_up_to l Hn Sq). fold E in UT.
  destruct (rsum_up_to prec emin emax HF rnd Hrnd R (fun v => rnd (v * v)) (fun v => rnd (v * v)) 0 l) as [Fs US].
  - intros v Hv. assert (Q : 0 <= v * v) by apply Rle_0_sqr. assert (Qo : Rabs (v * v) <= Om) by (rewrite Rabs_pos_eq; auto). split; [apply (rnd_float prec emin emax HF rnd Hrnd); auto|]. split; [apply (rnd_nonneg prec emin emax HF rnd Hrnd); auto|apply up_to_refl].
  - rewrite Nat.add_0_r. fold n. destruct UT as [_ UT]. pose proof (growth_pos prec emin emax HF n). apply Rle_trans with (E * growth prec 2 * growth prec n); [apply Rmult_le_compat_r; lra|]. rewrite Rmult_assoc, <- growth_plus. apply Eg. lia.
  - rewrite Nat.add_0_r in US. fold n in US. assert (UE := up_to_trans prec emin emax HF _ _ _ _ _ UT US). set (eh := rsum rnd R (fun v => rnd (v * v)) l) in *.
    assert (EH : 0 < eh) by (apply (up_to_pos prec emin emax HF _ _ _ UE Ep)). pose proof (up_to_sqrt prec emin emax HF _ E eh ltac:(lra) UE) as USq.
    assert (SE : 0 < sqrt E) by (apply sqrt_lt_R0; auto). assert (SH : 0 < sqrt eh) by (apply sqrt_lt_R0; auto).
    assert (EHO : eh <= Om). { destruct UE as [_ UE]. eapply Rle_trans; [exact UE|]. apply Eg. lia. }
    assert (EHL : bpow radix2 (emin + prec - 1) <= eh).
    { destruct UE as [UE _]. eapply Rle_trans; [|exact UE]. apply Rle_trans with (E / 2).
      - assert (N1 : 1 <= INR n). { apply (le_INR 1). unfold n. destruct l; [unfold E, energy in Ep; cbn in Ep; lra|cbn; lia]. }
        assert (L : bpow radix2 (emin + prec) <= E).
        { apply Rmult_le_reg_r with u; [lra|]. unfold u at 1, unit_roundoff. rewrite <- bpow_plus. replace (emin + prec + - prec)%Z with emin by lia. pose proof (bpow_gt_0 radix2 emin). nra. }
        replace (bpow radix2 (emin + prec)) with (2 * bpow radix2 (emin + prec - 1)) in L. lra. change 2 with (bpow radix2 1). rewrite <- bpow_plus. f_equal. lia.
      - unfold Rdiv. apply Rmult_le_compat_l; [lra|]. apply Rinv_le_contravar; [apply (growth_pos prec emin emax HF)|]. eapply Rle_trans; [apply (growth_mono prec emin emax HF)|exact Hg]. lia. }
    assert (Hh : forall k, (0 <= k)%Z -> bpow radix2 (- k) <= eh <= bpow radix2 k -> bpow radix2 (- k) <= sqrt eh <= bpow radix2 k).
    { intros k Hk [A B]. assert (K1 : bpow radix2 (- k) <= 1) by (change 1 with (bpow radix2 0); apply bpow_le; lia). assert (K2 : 1 <= bpow radix2 k) by (change 1 with (bpow radix2 0); apply bpow_le; lia). pose proof (bpow_gt_0 radix2 (- k)). split.
      - rewrite <- (sqrt_square (bpow radix2 (- k))) by lra. apply sqrt_le_1_alt. nra.
      - apply sqrt_le_of_sq; [lra|]. nra. }
    assert (Kr : (- (emin + prec - 1) < emax)%Z) by (destruct HF as [(-> & -> & ->)|(-> & -> & ->)]; lia).
    destruct (Hh emax) as [H1 H2]; [lia|split; [|exact EHO]; eapply Rle_trans; [|exact EHL]; apply bpow_le; destruct HF as [(-> & -> & ->)|(-> & -> & ->)]; lia|].
    assert (SL : bpow radix2 (emin + prec - 1) <= sqrt eh).
    { apply Rle_trans with (sqrt (bpow radix2 (emin + prec - 1))); [|apply sqrt_le_1_alt; auto]. rewrite <- (sqrt_square (bpow radix2 (emin + prec - 1))) at 1 by apply bpow_ge_0. apply sqrt_le_1_alt.
      rewrite <- bpow_plus. apply bpow_le. destruct HF as [(-> & -> & ->)|(-> & -> & ->)]; lia. }
    assert (UR : up_to_roundings prec 1 (sqrt eh) (rnd (sqrt eh))). { apply (normal_up_to prec emin emax HF rnd Hrnd); [right; rewrite Rabs_pos_eq by lra; auto|fold Om; split; [lra|exact H2]]. }
    assert (US3 := up_to_trans prec emin emax HF _ _ _ _ _ USq UR). set (sh := rnd (sqrt eh)) in *. assert (SHp : 0 < sh) by (apply (up_to_pos prec emin emax HF _ _ _ US3 SE)).
    assert (UI := up_to_inv prec emin emax HF _ _ _ SE US3).
    assert (IH : bpow radix2 (emin + prec - 1) <= / sh <= Om).
    { destruct UR as [R1 R2]. assert (G1 : growth prec 1 <= 2) by (unfold growth; cbn [pow]; fold u; lra). pose proof (growth_pos prec emin emax HF 1) as G1p. pose proof (bpow_gt_0 radix2 (emin + prec - 1)) as Bp. split.
      - apply Rmult_le_reg_r with sh; auto. rewrite Rinv_l by lra.
        assert (SU : sqrt eh <= bpow radix2 (emax / 2 + 1)).
        { apply sqrt_le_of_sq; [apply bpow_ge_0|]. rewrite <- bpow_plus. eapply Rle_trans; [exact EHO|]. apply bpow_le. pose proof (Z.div_mod emax 2 ltac:(lia)). pose proof (Z.mod_pos_bound emax 2 ltac:(lia)). lia. }
        apply Rle_trans with (bpow radix2 (emin + prec - 1) * (bpow radix2 (emax / 2 + 1) * 2)). { apply Rmult_le_compat_l; [lra|]. eapply Rle_trans; [exact R2|]. apply Rmult_le_compat; lra. }
        change 2 with (bpow radix2 1). rewrite <- !bpow_plus. change 1 with (bpow radix2 0). apply bpow_le. destruct HF as [(-> & -> & ->)|(-> & -> & ->)]; [change (127 / 2)%Z with 63%Z|change (1023 / 2)%Z with 511%Z]; lia.
      - apply Rmult_le_reg_r with sh; auto. rewrite Rinv_l by lra. apply Rle_trans with (Om * (bpow radix2 (emin + prec - 1) / 2)).
        + unfold Rdiv, Om. replace (/ 2) with (bpow radix2 (-1)) by (cbn; lra). rewrite <- !bpow_plus. change 1 with (bpow radix2 0) at 1. apply bpow_le. destruct HF as [(-> & -> & ->)|(-> & -> & ->)]; lia.
        + apply Rmult_le_compat_l; [apply bpow_ge_0|]. eapply Rle_trans; [|exact R1]. unfold Rdiv. apply Rmult_le_compat; try lra. apply Rinv_le_contravar; auto. }
    assert (UF : up_to_roundings prec 1 (/ sh) (rnd (/ sh))). { apply (normal_up_to prec emin emax HF rnd Hrnd); [right; rewrite Rabs_pos_eq; [apply IH|pose proof (Rinv_0_lt_compat _ SHp); lra]|pose proof (Rinv_0_lt_compat _ SHp); fold Om; split; [lra|apply IH]]. }
    assert (US4 := up_to_trans prec emin emax HF _ _ _ _ _ UI UF). unfold renergy_factor. cbv zeta. fold eh. destruct (exact eh 0) eqn:X; [apply exact_true in X; lra|]. fold sh. replace (1 / sh) with (/ sh) by (unfold Rdiv; ring).
    replace (n + 4)%nat with (2 + n + 1 + 1)%nat by lia. exact US4.
Qed.

(** Scaling by a factor that is right up to k roundings. *)
Lemma scale_error : forall k v s f, 0 < s -> up_to_roundings prec k s f -> Rabs v * s <= 1 -> growth prec k <= 2 ->
  Rabs (rnd (v * f) - v * s) <= (growth prec (k + 1) - 1) * Rabs (v * s) + eta.
Proof using All.
  intros k v s f Hs Hf Hv Hg. pose proof (u_pos prec emin emax HF) as U. fold u in U. pose proof (prec_range prec emin emax HF) as P. pose proof (up_to_error prec emin emax HF k s f ltac:(lra) Hf) as D. pose proof (Rabs_pos v) as V0. pose proof (growth_1 prec emin emax HF k) as G.
  assert (F0 : 0 < f) by (apply (up_to_pos prec emin emax HF _ _ _ Hf Hs)). destruct Hf as [_ Fu].
  assert (VF : Rabs (v * f) <= growth prec k * (Rabs v * s)). { rewrite Rabs_mult, (Rabs_pos_eq f) by lra. rewrite (Rmult_comm (growth prec k)), Rmult_assoc. apply Rmult_le_compat_l; lra. }
  assert (O2 : 2 <= Om) by (change 2 with (bpow radix2 1); apply bpow_le; lia). assert (VS : 0 <= Rabs v * s) by (apply Rmult_le_pos; lra).
  assert (VO : Rabs (v * f) <= Om) by nra. pose proof (rnd_error prec emin emax HF rnd Hrnd _ VO) as RE. fold u eta in RE.
  rewrite (Rabs_mult v s), (Rabs_pos_eq s) by lra.
  assert (DV : Rabs (v * f - v * s) <= (growth prec k - 1) * (Rabs v * s)). { replace (v * f - v * s) with (v * (f - s)) by ring. rewrite Rabs_mult. replace ((growth prec k - 1) * (Rabs v * s)) with (Rabs v * ((growth prec k - 1) * s)) by ring. apply Rmult_le_compat_l; auto. }
  replace (rnd (v * f) - v * s) with ((rnd (v * f) - v * f) + (v * f - v * s)) by ring. eapply Rle_trans; [apply Rabs_triang|]. rewrite Nat.add_1_r, growth_S. fold u.
  assert (u * Rabs (v * f) <= u * (growth prec k * (Rabs v * s))) by (apply Rmult_le_compat_l; lra). lra.
Qed.

(** ** The peak *)
Lemma pow2_IZR : forall e, (0 <= e)%Z -> IZR (2 ^ e) = bpow radix2 e.
Proof using. intros e He. exact (IZR_Zpower radix2 e He). Qed.

Lemma float_next_1 : is_float prec emin (1 - u) /\ nearest prec emin (1 + u) = 1.
Proof using All.
  split.
  - apply (multiple_float prec emin emax HF (- prec)); [destruct HF as [(-> & -> & ->)|(-> & -> & ->)]; lia| |].
    + exists (2 ^ prec - 1)%Z. rewrite minus_IZR, pow2_IZR by (destruct HF as [(-> & -> & ->)|(-> & -> & ->)]; lia). unfold u, unit_roundoff. rewrite Rmult_minus_distr_r, <- bpow_plus. replace (prec + - prec)%Z with 0%Z by lia. cbn [bpow]. ring.
    + replace (prec + - prec)%Z with 0%Z by lia. change (bpow radix2 0) with 1. pose proof (u_pos prec emin emax HF) as U. fold u in U. rewrite Rabs_pos_eq; lra.
  - pose proof (u_pos prec emin emax HF) as U. fold u in U. rewrite (nearest_tie prec emin (1 - prec) (2 ^ (prec - 1))).
    + rewrite pow2_IZR by (destruct HF as [(-> & -> & ->)|(-> & -> & ->)]; lia). rewrite <- bpow_plus. replace (prec - 1 + (1 - prec))%Z with 0%Z by lia. reflexivity.
    + destruct HF as [(-> & -> & ->)|(-> & -> & ->)]; lia.
    + destruct HF as [(-> & -> & ->)|(-> & -> & ->)]; lia.
    + replace (1 - prec + prec - 1)%Z with 0%Z by lia. replace (1 - prec + prec)%Z with 1%Z by lia. change (bpow radix2 0) with 1. change (bpow radix2 1) with 2. rewrite Rabs_pos_eq; lra.
    + rewrite pow2_IZR by (destruct HF as [(-> & -> & ->)|(-> & -> & ->)]; lia). replace (- (1 - prec))%Z with (prec - 1)%Z by lia. rewrite Rmult_plus_distr_r, Rmult_1_l. f_equal. unfold u, unit_roundoff. rewrite <- bpow_plus. replace (- prec + (prec - 1))%Z with (-1)%Z by lia. cbn. lra.
    + rewrite Z.even_pow by (destruct HF as [(-> & -> & ->)|(-> & -> & ->)]; lia). reflexivity.
Qed.

Lemma peak_factor_error : forall p, bpow radix2 (emin + prec - 1) <= p <= bpow radix2 (- (emin + prec - 1)) -> 0 < rnd (1 / p) /\ Rabs (rnd (1 / p) - / p) <= u * / p /\ up_to_roundings prec 1 (/ p) (rnd (1 / p)).
Proof using All.
  intros p [L H]. pose proof (u_pos prec emin emax HF) as U. fold u in U. assert (P0 : 0 < p) by (eapply Rlt_le_trans; [apply bpow_gt_0|exact L]). pose proof (Rinv_0_lt_compat _ P0) as I0. replace (1 / p) with (/ p) by (unfold Rdiv; ring).
  assert (L' : bpow radix2 (emin + prec - 1) <= / p). { rewrite <- (Z.opp_involutive (emin + prec - 1)), bpow_opp. apply Rinv_le_contravar; auto. }
  assert (H' : / p <= Om). { apply Rle_trans with (bpow radix2 (- (emin + prec - 1))); [rewrite bpow_opp; apply Rinv_le_contravar; auto using bpow_gt_0|]. apply bpow_le. destruct HF as [(-> & -> & ->)|(-> & -> & ->)]; lia. }
  assert (UT : up_to_roundings prec 1 (/ p) (rnd (/ p))) by (apply (normal_up_to prec emin emax HF rnd Hrnd); [right; rewrite Rabs_pos_eq by lra; auto|fold Om; lra]).
  split; [apply (up_to_pos prec emin emax HF _ _ _ UT I0)|]. split; auto.
  pose proof (normal_error prec emin emax HF rnd Hrnd (/ p) ltac:(right; rewrite Rabs_pos_eq by lra; auto) ltac:(rewrite Rabs_pos_eq by lra; auto)) as E. rewrite (Rabs_pos_eq (/ p)) in E by lra. eapply Rle_trans; [exact E|]. apply (weaken_u prec emin emax HF). lra.
Qed.

Lemma peak_out : forall p v, bpow radix2 (emin + prec - 1) <= p <= bpow radix2 (- (emin + prec - 1)) -> Rabs v <= p ->
  Rabs (rnd (v * rnd (1 / p))) <= 1 /\ (Rabs v = p -> 1 - u <= Rabs (rnd (v * rnd (1 / p)))).
Proof using All.
  intros p v Hp Hv. pose proof (u_pos prec emin emax HF) as U. fold u in U. pose proof (prec_range prec emin emax HF) as P. destruct (peak_factor_error p Hp) as (F0 & FE & _). assert (P0 : 0 < p) by (eapply Rlt_le_trans; [apply bpow_gt_0|apply Hp]).
  set (f := rnd (1 / p)) in *. assert (FB : / p * (1 - u) <= f <= / p * (1 + u)) by (unfold Rabs in FE; destruct (Rcase_abs _); lra).
  assert (PF : 1 - u <= p * f <= 1 + u). { split; [apply Rle_trans with (p * (/ p * (1 - u)))|apply Rle_trans with (p * (/ p * (1 + u)))]; try (apply Rmult_le_compat_l; lra); right; field; lra. }
  assert (O2 : 2 <= Om) by (change 2 with (bpow radix2 1); apply bpow_le; lia).
  assert (AR : forall w, Rabs w <= Om -> Rabs (rnd w) = rnd (Rabs w)).
  { intros w Hw. unfold Rabs at 2. destruct (Rcase_abs w) as [N|N].
    - rewrite (rnd_opp prec emin emax HF rnd Hrnd) by auto. apply Rabs_left1. rewrite <- (rnd_0 prec emin emax HF rnd Hrnd). apply (rnd_mono prec emin emax HF rnd Hrnd); auto; [|lra]. rewrite Rabs_R0. apply bpow_ge_0.
    - apply Rabs_pos_eq. apply (rnd_nonneg prec emin emax HF rnd Hrnd); auto. lra. }
  pose proof (Rabs_pos v) as V0. assert (VF : Rabs (v * f) <= 1 + u) by (rewrite Rabs_mult, (Rabs_pos_eq f) by lra; eapply Rle_trans; [apply Rmult_le_compat_r; [lra|exact Hv]|lra]).
  rewrite AR by lra. pose proof (Rabs_pos (v * f)) as W0. destruct float_next_1 as [F1 N1]. split.
  - assert (E1 : rnd (1 + u) = 1) by (rewrite Hrnd; auto; rewrite Rabs_pos_eq by lra; fold Om; lra). rewrite <- E1. apply (rnd_mono prec emin emax HF rnd Hrnd); fold Om; [rewrite (Rabs_pos_eq (Rabs (v * f))) by auto; lra|rewrite Rabs_pos_eq by lra; lra|auto].
  - intros E. assert (E1 : rnd (1 - u) = 1 - u) by (apply (rnd_id prec emin emax HF rnd Hrnd); auto; rewrite Rabs_pos_eq by lra; fold Om; lra). rewrite <- E1. apply (rnd_mono prec emin emax HF rnd Hrnd); fold Om.
    + rewrite Rabs_pos_eq by lra. lra.
    + rewrite (Rabs_pos_eq (Rabs (v * f))) by auto. lra.
    + rewrite Rabs_mult, E, (Rabs_pos_eq f); lra.
Qed.
End Format.
