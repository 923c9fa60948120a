(** Sums, products and quotients of floats. *)
From Coq Require Import Reals List Arith ZArith Lia Lra.
From Flocq Require Import Core Plus_error Relative.
From Verif Require Import Base.Outcome Base.OutcomeFacts Base.Sums Base.Cplx Spec.Rounding Spec.RoundedSums Spec.Statistics Proof.StatisticsProof.
Import ListNotations.
Local Open Scope R_scope.

Lemma rel_interval : forall u x y, 0 < u -> 0 <= x -> Rabs (y - x) <= u / (1 + u) * x -> x / (1 + u) <= y <= x * (1 + u).
Proof.
  intros u x y Hu Hx H. apply Rabs_def2b in H || (unfold Rabs in H).
  assert (B : - (u / (1 + u) * x) <= y - x <= u / (1 + u) * x) by (destruct (Rcase_abs (y - x)); lra). clear H.
  replace (x / (1 + u)) with (x - u / (1 + u) * x) by (field; lra). split; [lra|].
  apply Rle_trans with (x + u / (1 + u) * x); [lra|]. replace (x * (1 + u)) with (x + u * x) by ring. apply Rplus_le_compat_l. apply Rmult_le_compat_r; auto.
  apply Rmult_le_reg_r with (1 + u); [lra|]. unfold Rdiv. rewrite Rmult_assoc, Rinv_l by lra. nra.
Qed.

Section Format.
Variables (prec emin emax : Z).
Hypothesis HF : ieee prec emin emax.
Let u := unit_roundoff prec.
Let eta := underflow emin.
Let Om := bpow radix2 emax.

Lemma prec_range : (24 <= prec <= 100 /\ emin <= -149 /\ 127 <= emax /\ emin + prec <= -125 /\ emin + emax <= 0)%Z.
Proof using HF. destruct HF as [(-> & -> & ->)|(-> & -> & ->)]; lia. Qed.
Local Instance prec_pos' : Prec_gt_0 prec := ltac:(unfold Prec_gt_0; pose proof prec_range; lia).

Lemma u_ro_eq : u_ro radix2 prec = u.
Proof using. unfold u_ro, u, unit_roundoff. rewrite bpow_plus. change (bpow radix2 1) with 2. field. Qed.

Lemma u_pos : 0 < u <= / 16777216.
Proof using HF.
  split; [apply bpow_gt_0|]. unfold u, unit_roundoff. pose proof prec_range. apply Rle_trans with (bpow radix2 (-24)); [apply bpow_le; lia|]. change (-24)%Z with (Z.opp 24). rewrite bpow_opp. change (bpow radix2 24) with 16777216. lra.
Qed.

Lemma eta_pos : 0 < eta.
Proof using. apply bpow_gt_0. Qed.

Lemma growth_1 : forall k, 1 <= growth prec k.
Proof using HF. intros k. apply pow_R1_Rle. pose proof u_pos. unfold u in *. lra. Qed.
Lemma growth_pos : forall k, 0 < growth prec k.
Proof using HF. intros k. pose proof (growth_1 k). lra. Qed.
Lemma growth_S : forall k, growth prec (S k) = growth prec k * (1 + u).
Proof using. intros k. unfold growth, u. cbn [pow]. ring. Qed.
Lemma growth_plus : forall j k, growth prec (j + k) = growth prec j * growth prec k.
Proof using. intros. unfold growth. apply pow_add. Qed.
Lemma growth_mono : forall j k, (j <= k)%nat -> growth prec j <= growth prec k.
Proof using HF. intros j k H. unfold growth. apply Rle_pow; auto. pose proof u_pos. unfold u in *. lra. Qed.

(** Intervals of roundings. *)
Lemma up_to_refl : forall x, up_to_roundings prec 0 x x.
Proof using. intros x. unfold up_to_roundings, growth. cbn [pow]. split; lra. Qed.

Lemma up_to_mono : forall j k x y, 0 <= x -> (j <= k)%nat -> up_to_roundings prec j x y -> up_to_roundings prec k x y.
Proof using HF.
  intros j k x y Hx H [A B]. pose proof (growth_mono j k H) as G. pose proof (growth_pos j). pose proof (growth_pos k). split.
  - eapply Rle_trans; [|exact A]. apply Rmult_le_compat_l; auto. apply Rinv_le_contravar; auto.
  - eapply Rle_trans; [exact B|]. apply Rmult_le_compat_l; auto.
Qed.

Lemma up_to_trans : forall j k x y z, up_to_roundings prec j x y -> up_to_roundings prec k y z -> up_to_roundings prec (j + k) x z.
Proof using HF.
  intros j k x y z [A B] [A' B']. unfold up_to_roundings. rewrite growth_plus. pose proof (growth_pos j). pose proof (growth_pos k). split.
  - eapply Rle_trans; [|exact A']. unfold Rdiv. rewrite Rinv_mult. rewrite <- Rmult_assoc. apply Rmult_le_compat_r; auto. left. apply Rinv_0_lt_compat. auto.
  - eapply Rle_trans; [exact B'|]. rewrite <- Rmult_assoc. apply Rmult_le_compat_r; lra.
Qed.

Lemma up_to_nonneg : forall k x y, up_to_roundings prec k x y -> 0 <= x -> 0 <= y.
Proof using HF. intros k x y [A B] Hx. eapply Rle_trans; [|exact A]. apply Rmult_le_pos; auto. left. apply Rinv_0_lt_compat, growth_pos. Qed.

Lemma up_to_pos : forall k x y, up_to_roundings prec k x y -> 0 < x -> 0 < y.
Proof using HF. intros k x y [A B] Hx. eapply Rlt_le_trans; [|exact A]. apply Rmult_lt_0_compat; auto. apply Rinv_0_lt_compat, growth_pos. Qed.

Lemma up_to_sym : forall k x y, up_to_roundings prec k x y -> up_to_roundings prec k y x.
Proof using HF.
  intros k x y [A B]. pose proof (growth_pos k). split.
  - apply Rmult_le_reg_r with (growth prec k); auto. unfold Rdiv. rewrite Rmult_assoc, Rinv_l by lra. lra.
  - apply Rmult_le_reg_r with (/ growth prec k); [apply Rinv_0_lt_compat; auto|]. rewrite Rmult_assoc, Rinv_r by lra. lra.
Qed.

Lemma up_to_add : forall k x y x' y', up_to_roundings prec k x y -> up_to_roundings prec k x' y' -> up_to_roundings prec k (x + x') (y + y').
Proof using. intros k x y x' y' [A B] [A' B']. unfold up_to_roundings, Rdiv in *. rewrite !Rmult_plus_distr_r. lra. Qed.

Lemma up_to_mul : forall j k x y x' y', 0 <= x -> 0 <= x' -> up_to_roundings prec j x y -> up_to_roundings prec k x' y' -> up_to_roundings prec (j + k) (x * x') (y * y').
Proof using HF.
  intros j k x y x' y' Hx Hx' H H'. pose proof (up_to_nonneg _ _ _ H Hx) as Y. pose proof (up_to_nonneg _ _ _ H' Hx') as Y'. destruct H as [A B], H' as [A' B'].
  unfold up_to_roundings. rewrite growth_plus. pose proof (growth_pos j) as G. pose proof (growth_pos k) as G'. split.
  - replace (x * x' / (growth prec j * growth prec k)) with (x / growth prec j * (x' / growth prec k)) by (field; lra). apply Rmult_le_compat; auto; apply Rmult_le_pos; auto; left; apply Rinv_0_lt_compat; auto.
  - replace (x * x' * (growth prec j * growth prec k)) with (x * growth prec j * (x' * growth prec k)) by ring. apply Rmult_le_compat; auto.
Qed.

Lemma up_to_inv : forall k x y, 0 < x -> up_to_roundings prec k x y -> up_to_roundings prec k (/ x) (/ y).
Proof using HF.
  intros k x y Hx H. pose proof (up_to_pos _ _ _ H Hx) as Y. destruct H as [A B]. pose proof (growth_pos k) as G. split.
  - unfold Rdiv. rewrite <- Rinv_mult. apply Rinv_le_contravar; auto.
  - replace (/ x * growth prec k) with (/ (x / growth prec k)) by (field; lra). apply Rinv_le_contravar; auto. apply Rmult_lt_0_compat; auto. apply Rinv_0_lt_compat; auto.
Qed.

Lemma up_to_div : forall j k x y x' y', 0 <= x -> 0 < x' -> up_to_roundings prec j x y -> up_to_roundings prec k x' y' -> up_to_roundings prec (j + k) (x / x') (y / y').
Proof using HF. intros. unfold Rdiv. apply up_to_mul; auto. left. apply Rinv_0_lt_compat. auto. apply up_to_inv; auto. Qed.

Lemma up_to_sqrt : forall k x y, 0 <= x -> up_to_roundings prec k x y -> up_to_roundings prec k (sqrt x) (sqrt y).
Proof using HF.
  intros k x y Hx [A B]. pose proof (growth_1 k) as G. assert (S0 : 0 <= sqrt x) by apply sqrt_pos. split.
  - apply Rle_trans with (sqrt (x / growth prec k)); [|apply sqrt_le_1_alt; auto]. rewrite sqrt_div_alt by lra. apply Rmult_le_compat_l; auto. apply Rinv_le_contravar; [apply sqrt_lt_R0; lra|].
    rewrite <- (sqrt_square (growth prec k)) at 2 by lra. apply sqrt_le_1_alt. nra.
  - apply Rle_trans with (sqrt (x * growth prec k)); [apply sqrt_le_1_alt; auto|]. rewrite sqrt_mult by lra. apply Rmult_le_compat_l; auto.
    rewrite <- (sqrt_square (growth prec k)) at 2 by lra. apply sqrt_le_1_alt. nra.
Qed.

(** As an error. *)
Lemma up_to_error : forall k x y, 0 <= x -> up_to_roundings prec k x y -> Rabs (y - x) <= (growth prec k - 1) * x.
Proof using HF.
  intros k x y Hx [A B]. pose proof (growth_1 k) as G. apply Rabs_le. split; [|lra].
  assert (2 * x <= x / growth prec k + x * growth prec k); [|lra].
  apply Rmult_le_reg_r with (growth prec k); [lra|]. unfold Rdiv. rewrite Rmult_plus_distr_r, (Rmult_assoc x (/ _)), Rinv_l by lra. assert (0 <= x * ((growth prec k - 1) * (growth prec k - 1))) by (apply Rmult_le_pos; auto; nra). nra.
Qed.

Variable rnd : R -> R.
Hypothesis Hrnd : rounds_to_nearest prec emin emax rnd.

Lemma rnd_float : forall x, Rabs x <= Om -> is_float prec emin (rnd x).
Proof using All. intros x Hx. rewrite Hrnd by auto. apply generic_format_round; auto with typeclass_instances. Qed.

Lemma rnd_id : forall x, Rabs x <= Om -> is_float prec emin x -> rnd x = x.
Proof using All. intros x Hx Hf. rewrite Hrnd by auto. apply round_generic; auto with typeclass_instances. Qed.

Lemma rnd_mono : forall x y, Rabs x <= Om -> Rabs y <= Om -> x <= y -> rnd x <= rnd y.
Proof using All. intros x y Hx Hy H. rewrite !Hrnd by auto. apply round_le; auto with typeclass_instances. Qed.

Lemma rnd_0 : rnd 0 = 0.
Proof using All. rewrite Hrnd by (rewrite Rabs_R0; apply bpow_ge_0). apply round_0. auto with typeclass_instances. Qed.

Lemma rnd_opp : forall x, Rabs x <= Om -> rnd (- x) = - rnd x.
Proof using All. intros x Hx. rewrite !Hrnd by (rewrite ?Rabs_Ropp; auto). unfold nearest. apply round_NE_opp. Qed.

Lemma rnd_nonneg : forall x, Rabs x <= Om -> 0 <= x -> 0 <= rnd x.
Proof using All. intros x Hx H. rewrite <- rnd_0. apply rnd_mono; auto. rewrite Rabs_R0. apply bpow_ge_0. Qed.

(** Any operation. *)
Lemma rnd_error : forall x, Rabs x <= Om -> Rabs (rnd x - x) <= u * Rabs x + eta.
Proof using All.
  intros x Hx. rewrite Hrnd by auto. destruct (error_N_FLT radix2 emin prec ltac:(pose proof prec_range; lia) (fun n => negb (Z.even n)) x) as (ep & h & He & Hh & _ & E).
  unfold nearest. rewrite E. replace (x * (1 + ep) + h - x) with (x * ep + h) by ring. eapply Rle_trans; [apply Rabs_triang|]. rewrite Rabs_mult.
  fold (u_ro radix2 prec) in He. rewrite u_ro_eq in He. assert (E2 : / 2 * bpow radix2 emin = eta). { unfold eta, underflow. replace emin with (emin - 1 + 1)%Z at 1 by ring. rewrite bpow_plus. change (bpow radix2 1) with 2. field. }
  rewrite E2 in Hh. apply Rplus_le_compat; auto. rewrite Rmult_comm. apply Rmult_le_compat_r; [apply Rabs_pos|auto].
Qed.

(** A sum of floats does not underflow. *)
Lemma add_error : forall x y, is_float prec emin x -> is_float prec emin y -> Rabs (x + y) <= Om -> Rabs (rnd (x + y) - (x + y)) <= u / (1 + u) * Rabs (x + y).
Proof using All.
  intros x y Fx Fy Hx. rewrite Hrnd by auto. destruct (FLT_plus_error_N_ex radix2 emin prec (fun n => negb (Z.even n)) x y Fx Fy) as (ep & He & E). rewrite u_ro_eq in He.
  unfold nearest. rewrite E. replace ((x + y) * (1 + ep) - (x + y)) with (ep * (x + y)) by ring. rewrite Rabs_mult. apply Rmult_le_compat_r; [apply Rabs_pos|auto].
Qed.

(** An operation whose result does not underflow. *)
Lemma normal_error : forall x, no_underflow prec emin x -> Rabs x <= Om -> Rabs (rnd x - x) <= u / (1 + u) * Rabs x.
Proof using All.
  intros x [-> |Hn] Hx.
  - rewrite rnd_0. rewrite Rminus_0_r, Rabs_R0. lra.
  - rewrite Hrnd by auto. unfold nearest. rewrite round_FLT_FLX by auto. destruct (relative_error_N_FLX'_ex radix2 prec ltac:(pose proof prec_range; lia) (fun n => negb (Z.even n)) x) as (ep & He & E). rewrite u_ro_eq in He.
    rewrite E. replace (x * (1 + ep) - x) with (ep * x) by ring. rewrite Rabs_mult. apply Rmult_le_compat_r; [apply Rabs_pos|auto].
Qed.

Lemma add_up_to : forall x y, is_float prec emin x -> is_float prec emin y -> 0 <= x + y <= Om -> up_to_roundings prec 1 (x + y) (rnd (x + y)).
Proof using All.
  intros x y Fx Fy H. unfold up_to_roundings, growth. rewrite pow_1. fold u. apply rel_interval; [apply u_pos|lra|].
  rewrite <- (Rabs_pos_eq (x + y)) at 3 by lra. apply add_error; auto. rewrite Rabs_pos_eq; lra.
Qed.

Lemma normal_up_to : forall x, no_underflow prec emin x -> 0 <= x <= Om -> up_to_roundings prec 1 x (rnd x).
Proof using All.
  intros x Hn H. unfold up_to_roundings, growth. rewrite pow_1. fold u. apply rel_interval; [apply u_pos|lra|].
  rewrite <- (Rabs_pos_eq x) at 3 by lra. apply normal_error; auto. rewrite Rabs_pos_eq; lra.
Qed.

Lemma weaken_u : forall x, 0 <= x -> u / (1 + u) * x <= u * x.
Proof using HF.
  intros x Hx. pose proof u_pos. apply Rmult_le_compat_r; auto. apply Rmult_le_reg_r with (1 + u); [lra|]. unfold Rdiv. rewrite Rmult_assoc, Rinv_l by lra. nra.
Qed.

(** ** Sums in the order of a list; [g] is what is added, [t] what should have been. *)
Section Terms.
Variables (A : Type) (g t : A -> R).

Definition rsum (l : list A) : R := fold_left (fun s v => rnd (s + g v)) l 0.

Lemma total_app : forall l k, total (l ++ k) = total l + total k.
Proof using. intros l k. induction l; cbn [app total]; [lra|]. rewrite IHl. ring. Qed.

Lemma total_abs_nonneg : forall l : list A, 0 <= total (map (fun v => Rabs (t v)) l).
Proof using. intros. apply total_nonneg. intros v Hv. apply in_map_iff in Hv. destruct Hv as (a & <- & _). apply Rabs_pos. Qed.

Lemma total_abs : forall l : list A, Rabs (total (map t l)) <= total (map (fun v => Rabs (t v)) l).
Proof using. induction l; cbn [map total]; [rewrite Rabs_R0; lra|]. eapply Rle_trans; [apply Rabs_triang|]. lra. Qed.

Lemma rsum_error : forall e h l, 0 <= e -> 0 <= h -> (forall v, In v l -> is_float prec emin (g v) /\ Rabs (g v - t v) <= e * Rabs (t v) + h) ->
  growth prec (length l) * ((1 + e) * total (map (fun v => Rabs (t v)) l) + INR (length l) * h) <= Om ->
  is_float prec emin (rsum l) /\
  Rabs (rsum l - total (map t l)) <= (growth prec (length l) * (1 + e) - 1) * total (map (fun v => Rabs (t v)) l) + INR (length l) * growth prec (length l) * h.
Proof using All.
  intros e h l He Hh. induction l as [|v l IH] using rev_ind; intros Ht Ho.
  - split; [apply generic_format_0|]. cbn. unfold growth. rewrite Rminus_0_r, Rabs_R0. lra.
  - unfold rsum in *. rewrite fold_left_app. cbn [fold_left]. rewrite !map_app, !total_app. cbn [map total]. rewrite !map_app, !total_app in Ho. cbn [map total] in Ho.
    rewrite app_length in *. cbn [length] in *. rewrite Nat.add_1_r in *. rewrite S_INR in *. rewrite growth_S in *. rewrite Rplus_0_r in Ho |- *. rewrite (Rplus_0_r (Rabs (t v))).
    pose proof u_pos as U. pose proof (growth_1 (length l)) as G. pose proof (total_abs_nonneg l) as A0. pose proof (pos_INR (length l)) as N0. pose proof (Rabs_pos (t v)) as T0.
    set (n := INR (length l)) in *. set (a := total (map (fun v => Rabs (t v)) l)) in *. set (c := growth prec (length l)) in *. set (s := total (map t l)) in *. set (sh := fold_left _ l 0) in *.
    destruct (Ht v) as [Fv Ev]; [apply in_or_app; right; left; auto|].
    assert (X0 : 0 <= (1 + e) * a) by (apply Rmult_le_pos; lra). assert (X1 : 0 <= n * h) by (apply Rmult_le_pos; auto). assert (X2 : 0 <= (1 + e) * Rabs (t v)) by (apply Rmult_le_pos; lra).
    assert (X3 : 0 <= (1 + e) * a + n * h) by lra. assert (X4 : (1 + e) * a + n * h <= (1 + e) * (a + Rabs (t v)) + (n + 1) * h) by (rewrite Rmult_plus_distr_l, (Rmult_plus_distr_r n 1 h); lra).
    assert (Cu : c <= c * (1 + u)) by nra.
    assert (Ho' : c * ((1 + e) * (a + Rabs (t v)) + (n + 1) * h) <= Om). { eapply Rle_trans; [|exact Ho]. apply Rmult_le_compat_r; [lra|auto]. }
    destruct IH as [Fs Es].
    { intros w Hw. apply Ht. apply in_or_app. auto. }
    { eapply Rle_trans; [|exact Ho']. apply Rmult_le_compat_l; lra. }
    assert (S1 : Rabs s <= a) by apply total_abs.
    assert (D : Rabs (sh + g v - (s + t v)) <= (c * (1 + e) - 1) * a + n * c * h + (e * Rabs (t v) + h)).
    { replace (sh + g v - (s + t v)) with ((sh - s) + (g v - t v)) by ring. eapply Rle_trans; [apply Rabs_triang|]. lra. }
    assert (B : Rabs (sh + g v) <= (a + Rabs (t v)) + ((c * (1 + e) - 1) * a + n * c * h + (e * Rabs (t v) + h))).
    { replace (sh + g v) with ((s + t v) + (sh + g v - (s + t v))) by ring. eapply Rle_trans; [apply Rabs_triang|]. apply Rplus_le_compat; auto. eapply Rle_trans; [apply Rabs_triang|]. lra. }
    assert (C1 : (1 + e) * Rabs (t v) <= c * ((1 + e) * Rabs (t v))) by nra. assert (C2 : h <= c * h) by nra.
    assert (B' : Rabs (sh + g v) <= Om) by (eapply Rle_trans; [exact B|]; eapply Rle_trans; [|exact Ho']; nra).
    pose proof (add_error _ _ Fs Fv B') as E. pose proof (weaken_u _ (Rabs_pos (sh + g v))) as W. assert (E' : Rabs (rnd (sh + g v) - (sh + g v)) <= u * Rabs (sh + g v)) by lra.
    split; [apply rnd_float; auto|].
    replace (rnd (sh + g v) - (s + t v)) with ((rnd (sh + g v) - (sh + g v)) + (sh + g v - (s + t v))) by ring. eapply Rle_trans; [apply Rabs_triang|].
    set (D0 := (c * (1 + e) - 1) * a + n * c * h + (e * Rabs (t v) + h)) in *.
    apply Rle_trans with (u * (a + Rabs (t v) + D0) + D0). { apply Rplus_le_compat; auto. eapply Rle_trans; [exact E'|]. apply Rmult_le_compat_l; lra. }
    assert (C3 : (1 + u) * ((1 + e) * Rabs (t v)) <= (1 + u) * (c * ((1 + e) * Rabs (t v)))) by (apply Rmult_le_compat_l; lra). assert (C4 : (1 + u) * h <= (1 + u) * (c * h)) by (apply Rmult_le_compat_l; lra).
    unfold D0. nra.
Qed.

(** Non-negative terms. *)
Lemma rsum_up_to : forall k l, (forall v, In v l -> is_float prec emin (g v) /\ 0 <= t v /\ up_to_roundings prec k (t v) (g v)) ->
  total (map t l) * growth prec (length l + k) <= Om ->
  is_float prec emin (rsum l) /\ up_to_roundings prec (length l + k) (total (map t l)) (rsum l).
Proof using All.
  intros k l. induction l as [|v l IH] using rev_ind; intros Ht Ho.
  - split; [apply generic_format_0|]. cbn. unfold up_to_roundings, Rdiv. rewrite !Rmult_0_l. lra.
  - unfold rsum in *. rewrite fold_left_app. cbn [fold_left]. rewrite !map_app, !total_app in *. cbn [map total] in *. rewrite app_length in *. cbn [length] in *. rewrite Nat.add_1_r in *.
    rewrite Rplus_0_r in *. destruct (Ht v) as (Fv & Pv & Uv); [apply in_or_app; right; left; auto|].
    assert (T0 : 0 <= total (map t l)). { apply total_nonneg. intros w Hw. apply in_map_iff in Hw. destruct Hw as (q & <- & Hq). apply Ht. apply in_or_app. auto. }
    pose proof (growth_1 (length l + k)) as G. cbn [plus] in Ho |- *. rewrite growth_S in Ho. pose proof u_pos as U.
    assert (Ho' : (total (map t l) + t v) * growth prec (length l + k) <= Om).
    { eapply Rle_trans; [|exact Ho]. apply Rmult_le_compat_l; [lra|]. nra. }
    destruct IH as [Fs Us].
    { intros w Hw. apply Ht. apply in_or_app. auto. }
    { eapply Rle_trans; [|exact Ho']. apply Rmult_le_compat_r; lra. }
    assert (Ua := up_to_add _ _ _ _ _ Us (up_to_mono k (length l + k) _ _ Pv ltac:(lia) Uv)).
    assert (B : 0 <= fold_left (fun s v => rnd (s + g v)) l 0 + g v <= Om). { split; [apply (up_to_nonneg _ _ _ Ua); lra|]. eapply Rle_trans; [apply Ua|]. auto. }
    split; [apply rnd_float; rewrite Rabs_pos_eq; apply B|]. replace (S (length l + k)) with ((length l + k) + 1)%nat by lia. apply up_to_trans with (1 := Ua). apply add_up_to; auto.
Qed.
End Terms.
End Format.

(** ** Particular values *)

Lemma nearest_scaled : forall prec emin e x, (0 < prec)%Z -> (emin <= e)%Z -> bpow radix2 (e + prec - 1) <= Rabs x < bpow radix2 (e + prec) ->
  nearest prec emin x = IZR (ZnearestE (x * bpow radix2 (- e))) * bpow radix2 e.
Proof.
  intros prec emin e x Hp He Hx. unfold nearest, round, F2R, scaled_mantissa, cexp. rewrite (mag_unique radix2 x (e + prec)) by auto. unfold FLT_exp. replace (Z.max (e + prec - prec) emin) with e by lia. reflexivity.
Qed.

Lemma nearest_value : forall prec emin e m x, (0 < prec)%Z -> (emin <= e)%Z -> bpow radix2 (e + prec - 1) <= Rabs x < bpow radix2 (e + prec) ->
  Rabs (x * bpow radix2 (- e) - IZR m) < / 2 -> nearest prec emin x = IZR m * bpow radix2 e.
Proof. intros prec emin e m x Hp He Hx Hm. rewrite (nearest_scaled prec emin e) by auto. rewrite (Znearest_imp _ _ m) by auto. auto. Qed.

Lemma nearest_tie : forall prec emin e m x, (0 < prec)%Z -> (emin <= e)%Z -> bpow radix2 (e + prec - 1) <= Rabs x < bpow radix2 (e + prec) ->
  x * bpow radix2 (- e) = IZR m + / 2 -> Z.even m = true -> nearest prec emin x = IZR m * bpow radix2 e.
Proof.
  intros prec emin e m x Hp He Hx Hm Ev. rewrite (nearest_scaled prec emin e), Hm by auto. do 2 f_equal. unfold Znearest. rewrite (Zfloor_imp m) by (rewrite plus_IZR; lra).
  replace (IZR m + / 2 - IZR m) with (/ 2) by ring. rewrite Rcompare_Eq by auto. rewrite Ev. reflexivity.
Qed.
