(** Windows, decibels, mel, bin frequencies, A-weighting. *)
From Coq Require Import Reals List Arith Lia Lra Bool ZArith.
From Verif Require Import Base.Outcome Base.OutcomeFacts Model.Integers Model.Stft Model.Statistics Model.Units.
Import ListNotations.
Local Open Scope R_scope.

(** ** Windows *)
Lemma INR_pred : forall n, (1 <= n)%nat -> INR n - 1 = INR (n - 1).
Proof. intros n H. rewrite minus_INR by lia. reflexivity. Qed.

Lemma INR_pred_pos : forall n, (2 <= n)%nat -> 0 < INR (n - 1).
Proof. intros n H. apply lt_0_INR. lia. Qed.

Definition phase (i n : nat) : R := 2 * PI * INR i / INR (n - 1).

Lemma hann_phase : forall i n, hann_window i n = 0.5 * (1 - cos (phase i n)).
Proof. intros. unfold hann_window, phase. lra. Qed.

Lemma hamming_phase : forall i n, hamming_window i n = 0.54 - 0.46 * cos (phase i n).
Proof. intros. unfold hamming_window, phase. lra. Qed.

Lemma phase_mirror : forall i n, (2 <= n)%nat -> (i < n)%nat -> cos (phase (n - 1 - i) n) = cos (phase i n).
Proof.
  intros i n Hn Hi. pose proof (INR_pred_pos n Hn). unfold phase. rewrite minus_INR by lia.
  replace (2 * PI * (INR (n - 1) - INR i) / INR (n - 1)) with (- (2 * PI * INR i / INR (n - 1)) + 2 * INR 1 * PI) by (cbn [INR]; field; lra).
  rewrite cos_period, cos_neg. reflexivity.
Qed.

Lemma phase_0 : forall n, phase 0 n = 0.
Proof. intros n. unfold phase. cbn [INR]. unfold Rdiv. ring. Qed.

Lemma phase_end : forall n, (2 <= n)%nat -> cos (phase (n - 1) n) = 1.
Proof. intros n H. unfold phase. pose proof (INR_pred_pos n H).
  replace (2 * PI * INR (n - 1) / INR (n - 1)) with (2 * PI) by (field; lra). apply cos_2PI. Qed.

Lemma phase_rising : forall i j n, (2 <= n)%nat -> (i <= j)%nat -> (2 * j <= n - 1)%nat -> cos (phase j n) <= cos (phase i n).
Proof.
  intros i j n Hn Hij Hj. pose proof (INR_pred_pos n Hn) as P. pose proof PI_RGT_0.
  apply le_INR in Hij. apply le_INR in Hj. rewrite mult_INR in Hj. cbn [INR] in Hj.
  assert (G : forall k, INR k <= INR j -> 0 <= phase k n <= PI).
  { intros k Hk. unfold phase. pose proof (pos_INR k). split.
    - apply Rmult_le_pos; [|apply Rlt_le, Rinv_0_lt_compat; lra]. apply Rmult_le_pos; lra.
    - apply (Rmult_le_reg_r (INR (n - 1))); auto. replace (2 * PI * INR k / INR (n - 1) * INR (n - 1)) with (PI * (2 * INR k)) by (field; lra).
      apply Rmult_le_compat_l; lra. }
  destruct (G j ltac:(lra)), (G i ltac:(lra)). apply cos_decr_1; try lra.
  unfold phase. apply Rmult_le_compat_r; [apply Rlt_le, Rinv_0_lt_compat; lra|]. apply Rmult_le_compat_l; lra.
Qed.

Lemma generate_window_ok : forall w n, generate_window w n = Ok (tab n (fun i => w i n)).
Proof.
  intros w n. unfold generate_window, fill_window. rewrite repeat_length. apply (for_range_tab _ 0). { now rewrite repeat_length. }
  intros j l Hj Ll _. rewrite wr_ok; auto. rewrite Ll, repeat_length. auto.
Qed.

Lemma fill_window_ok : forall w v, fill_window v w = Ok (tab (length v) (fun i => w i (length v))).
Proof.
  intros w v. unfold fill_window. apply (for_range_tab _ 0); auto.
  intros j l Hj Ll _. rewrite wr_ok; auto. lia.
Qed.

(** ** Logarithms *)
Lemma ln10_pos : 0 < ln 10.
Proof. rewrite <- ln_1. apply ln_increasing; lra. Qed.

Lemma log10_incr : forall x y, 0 < x -> x < y -> log10 x < log10 y.
Proof. intros x y Hx H. unfold log10. apply Rmult_lt_compat_r; [apply Rinv_0_lt_compat, ln10_pos|]. apply ln_increasing; auto. Qed.

Lemma log10_le : forall x y, 0 < x -> x <= y -> log10 x <= log10 y.
Proof. intros x y Hx [H|H]; [left; apply log10_incr; auto|right; congruence]. Qed.

Lemma log10_mult : forall x y, 0 < x -> 0 < y -> log10 (x * y) = log10 x + log10 y.
Proof. intros. unfold log10. rewrite ln_mult by auto. unfold Rdiv. ring. Qed.

Lemma log10_div : forall x y, 0 < x -> 0 < y -> log10 (x / y) = log10 x - log10 y.
Proof. intros. unfold log10, Rdiv. rewrite ln_mult, ln_Rinv; auto; [ring|]. apply Rinv_0_lt_compat; auto. Qed.

Lemma log10_Rpower : forall a, log10 (Rpower 10 a) = a.
Proof. intros a. unfold log10, Rpower. rewrite ln_exp. pose proof ln10_pos. field. lra. Qed.

Lemma Rpower_log10 : forall x, 0 < x -> Rpower 10 (log10 x) = x.
Proof. intros x H. unfold log10, Rpower. pose proof ln10_pos. replace (ln x / ln 10 * ln 10) with (ln x) by (field; lra). apply exp_ln; auto. Qed.

Lemma log10_1 : log10 1 = 0.
Proof. unfold log10. rewrite ln_1. unfold Rdiv. ring. Qed.

Lemma log10_half : forall x, 0 < x -> 0.5 * log10 x = log10 (sqrt x).
Proof. intros x H. assert (0 < sqrt x) by (apply sqrt_lt_R0; auto). rewrite <- (sqrt_sqrt x) at 1 by lra. rewrite log10_mult by auto. lra. Qed.

(** ** Mel *)
Lemma mel_inverse1 : forall h, -700 < h -> mel_to_hertz (hertz_to_mel h) = h.
Proof.
  intros h H. unfold mel_to_hertz, hertz_to_mel. replace (2595 * log10 (1 + h / 700) / 2595) with (log10 (1 + h / 700)) by field.
  rewrite Rpower_log10 by lra. field.
Qed.

Lemma mel_inverse2 : forall m, hertz_to_mel (mel_to_hertz m) = m.
Proof.
  intros m. unfold mel_to_hertz, hertz_to_mel. replace (1 + 700 * (Rpower 10 (m / 2595) - 1) / 700) with (Rpower 10 (m / 2595)) by field.
  rewrite log10_Rpower. field.
Qed.

Lemma hertz_to_mel_incr : forall x y, -700 < x -> x < y -> hertz_to_mel x < hertz_to_mel y.
Proof. intros x y Hx H. unfold hertz_to_mel. apply Rmult_lt_compat_l; [lra|]. apply log10_incr; lra. Qed.

Lemma mel_to_hertz_incr : forall x y, x < y -> mel_to_hertz x < mel_to_hertz y.
Proof. intros x y H. unfold mel_to_hertz. pose proof (Rpower_lt 10 (x / 2595) (y / 2595)). lra. Qed.

Lemma mel_to_hertz_range : forall m, -700 < mel_to_hertz m.
Proof. intros m. unfold mel_to_hertz. pose proof (exp_pos (m / 2595 * ln 10)). unfold Rpower. lra. Qed.

Lemma for_int_tab : forall n body (l0 : list R) F, n = length l0 -> (Z.of_nat n < 2 ^ 31)%Z ->
  (forall j l, (j < n)%nat -> length l = length l0 -> body j l = Ok (upd l j (F j))) -> for_int n body l0 = Ok (tab n F).
Proof.
  intros n body l0 F En Hn Hb. unfold for_int. apply (for_range_tab _ 0); auto. intros j l Hj Ll _. rewrite Hb by auto. cbn [bind].
  replace (Z.of_nat j + 1 <? 2 ^ 31)%Z with true by (symmetry; apply Z.ltb_lt; lia). reflexivity.
Qed.

Lemma mel_frequencies_ok : forall out fmin fmax, (2 <= length out)%nat -> (Z.of_nat (length out) < 2 ^ 31)%Z ->
  mel_frequencies out fmin fmax = Ok (tab (length out) (fun i =>
    mel_to_hertz (hertz_to_mel fmin + (hertz_to_mel fmax - hertz_to_mel fmin) / INR (length out - 1) * INR i))).
Proof.
  intros out fmin fmax Hn H31. unfold mel_frequencies.
  destruct (Nat.eqb_spec (length out) 0); [lia|]. destruct (Nat.eqb_spec (length out) 1); [lia|]. cbv zeta.
  apply for_int_tab; auto. intros j l Hj Ll. apply wr_ok. lia.
Qed.

(** ** A-weighting *)
Lemma aw_ln : forall f, a_weighting f = 2 + 20 * (log10 (nth 0 aw_constants 0) + 2 * log10 (f * f) - log10 (f * f + nth 0 aw_constants 0)
   - log10 (f * f + nth 1 aw_constants 0) - 0.5 * log10 (f * f + nth 2 aw_constants 0) - 0.5 * log10 (f * f + nth 3 aw_constants 0)).
Proof. reflexivity. Qed.

Lemma aw_pos : 0 < nth 0 aw_constants 0 /\ 0 < nth 1 aw_constants 0 /\ 0 < nth 2 aw_constants 0 /\ 0 < nth 3 aw_constants 0.
Proof. unfold aw_constants. cbn [map nth]. repeat split; lra. Qed.

(** The logarithmic gain as a function of the squared frequency. *)
Definition awl (a b c d u : R) : R := 2 * ln u - ln (u + a) - ln (u + b) - 0.5 * ln (u + c) - 0.5 * ln (u + d).
Definition awd (a b c d u : R) : R := 2 / u - 1 / (u + a) - 1 / (u + b) - 0.5 / (u + c) - 0.5 / (u + d).
(** u times awd is 2 minus this increasing function. *)
Definition aws (a b c d u : R) : R := u / (u + a) + u / (u + b) + 0.5 * (u / (u + c)) + 0.5 * (u / (u + d)).

Section Awl.
Variables a b c d : R.
Hypotheses (Ha : 0 < a) (Hb : 0 < b) (Hc : 0 < c) (Hd : 0 < d).

Lemma awl_deriv : forall u, 0 < u -> derivable_pt_lim (awl a b c d) u (awd a b c d u).
Proof.
  intros u Hu. unfold awl.
  assert (L : forall k, 0 <= k -> derivable_pt_lim (fun u => ln (u + k)) u (1 / (u + k))).
  { intros k Hk. replace (1 / (u + k)) with (/ (u + k) * (1 + 0)) by (field; lra).
    apply (derivable_pt_lim_comp (fun u => u + k) ln u).
    - apply (derivable_pt_lim_plus (fun u => u) (fun _ => k)); [apply derivable_pt_lim_id|apply derivable_pt_lim_const].
    - apply derivable_pt_lim_ln. lra. }
  unfold awd.
  replace (2 / u) with (2 * / u) by reflexivity. replace (0.5 / (u + c)) with (0.5 * (1 / (u + c))) by (field; lra).
  replace (0.5 / (u + d)) with (0.5 * (1 / (u + d))) by (field; lra).
  apply (derivable_pt_lim_minus (fun u => 2 * ln u - ln (u + a) - ln (u + b) - 0.5 * ln (u + c)) (fun u => 0.5 * ln (u + d))).
  2:{ apply (derivable_pt_lim_scal (fun u => ln (u + d))). apply L. lra. }
  apply (derivable_pt_lim_minus (fun u => 2 * ln u - ln (u + a) - ln (u + b)) (fun u => 0.5 * ln (u + c))).
  2:{ apply (derivable_pt_lim_scal (fun u => ln (u + c))). apply L. lra. }
  apply (derivable_pt_lim_minus (fun u => 2 * ln u - ln (u + a)) (fun u => ln (u + b))); [|apply L; lra].
  apply (derivable_pt_lim_minus (fun u => 2 * ln u) (fun u => ln (u + a))); [|apply L; lra].
  apply (derivable_pt_lim_scal ln). apply derivable_pt_lim_ln. auto.
Qed.

Lemma frac_mono : forall k u v, 0 < k -> 0 < u -> u <= v -> u / (u + k) <= v / (v + k).
Proof.
  intros k u v Hk Hu H. apply Rminus_le. replace (u / (u + k) - v / (v + k)) with (- ((v - u) * k / ((u + k) * (v + k)))) by (field; split; lra).
  assert (0 <= (v - u) * k / ((u + k) * (v + k))); [|lra].
  apply Rmult_le_pos; [apply Rmult_le_pos; lra|]. apply Rlt_le, Rinv_0_lt_compat. apply Rmult_lt_0_compat; lra.
Qed.

Lemma aws_mono : forall u v, 0 < u -> u <= v -> aws a b c d u <= aws a b c d v.
Proof.
  intros u v Hu H. unfold aws. pose proof (frac_mono a u v Ha Hu H). pose proof (frac_mono b u v Hb Hu H).
  pose proof (frac_mono c u v Hc Hu H). pose proof (frac_mono d u v Hd Hu H). lra.
Qed.

Lemma awd_aws : forall u, 0 < u -> awd a b c d u = (2 - aws a b c d u) / u.
Proof. intros u H. unfold awd, aws. field. repeat split; lra. Qed.

Lemma awl_mvt : forall u v, 0 < u -> u < v -> exists m, u < m < v /\ awl a b c d v - awl a b c d u = (2 - aws a b c d m) / m * (v - u).
Proof.
  intros u v Hu H. destruct (MVT_cor2 (awl a b c d) (awd a b c d) u v H) as (m & E & Hm).
  - intros x Hx. apply awl_deriv. lra.
  - exists m. split; auto. rewrite E, awd_aws by lra. reflexivity.
Qed.

Lemma awl_incr : forall u v w, 0 < u -> u < v -> v <= w -> aws a b c d w <= 2 -> awl a b c d u < awl a b c d v.
Proof.
  intros u v w Hu H Hw HS. destruct (awl_mvt u v Hu H) as (m & Hm & E).
  assert (aws a b c d m < aws a b c d w).
  { assert (F : forall k, 0 < k -> m / (m + k) < w / (w + k)).
    { intros k Hk. apply Rminus_lt. replace (m / (m + k) - w / (w + k)) with (- ((w - m) * k / ((m + k) * (w + k)))) by (field; split; lra).
      assert (0 < (w - m) * k / ((m + k) * (w + k))); [|lra].
      apply Rmult_lt_0_compat; [apply Rmult_lt_0_compat; lra|]. apply Rinv_0_lt_compat. apply Rmult_lt_0_compat; lra. }
    unfold aws. pose proof (F a Ha). pose proof (F b Hb). pose proof (F c Hc). pose proof (F d Hd). lra. }
  assert (0 < (2 - aws a b c d m) / m * (v - u)); [|lra].
  apply Rmult_lt_0_compat; [|lra]. apply Rmult_lt_0_compat; [lra|]. apply Rinv_0_lt_compat. lra.
Qed.

Lemma awl_decr : forall u v w, 0 < w -> w <= u -> u < v -> 2 <= aws a b c d w -> awl a b c d v < awl a b c d u.
Proof.
  intros u v w Hw Hu H HS. destruct (awl_mvt u v ltac:(lra) H) as (m & Hm & E).
  assert (aws a b c d w < aws a b c d m).
  { assert (F : forall k, 0 < k -> w / (w + k) < m / (m + k)).
    { intros k Hk. apply Rminus_lt. replace (w / (w + k) - m / (m + k)) with (- ((m - w) * k / ((m + k) * (w + k)))) by (field; split; lra).
      assert (0 < (m - w) * k / ((m + k) * (w + k))); [|lra].
      apply Rmult_lt_0_compat; [apply Rmult_lt_0_compat; lra|]. apply Rinv_0_lt_compat. apply Rmult_lt_0_compat; lra. }
    unfold aws. pose proof (F a Ha). pose proof (F b Hb). pose proof (F c Hc). pose proof (F d Hd). lra. }
  assert (0 < (aws a b c d m - 2) / m * (v - u)).
  { apply Rmult_lt_0_compat; [|lra]. apply Rmult_lt_0_compat; [lra|]. apply Rinv_0_lt_compat. lra. }
  replace ((2 - aws a b c d m) / m * (v - u)) with (- ((aws a b c d m - 2) / m * (v - u))) in E by (field; lra). lra.
Qed.
End Awl.

Lemma aw_awl : forall f, a_weighting f = 2 + 20 * (log10 (nth 0 aw_constants 0) +
  awl (nth 0 aw_constants 0) (nth 1 aw_constants 0) (nth 2 aw_constants 0) (nth 3 aw_constants 0) (f * f) / ln 10).
Proof. intros f. rewrite aw_ln. unfold awl, log10. pose proof ln10_pos. field. lra. Qed.

Lemma aws_2000 : aws (nth 0 aw_constants 0) (nth 1 aw_constants 0) (nth 2 aw_constants 0) (nth 3 aw_constants 0) (2000 * 2000) <= 2.
Proof.
  unfold aw_constants. cbn [map nth]. unfold aws.
  assert (K : forall u k q, 0 < u + k -> u <= q * (u + k) -> u / (u + k) <= q).
  { intros u k q P H. apply (Rmult_le_reg_r (u + k)); auto. replace (u / (u + k) * (u + k)) with u by (field; lra). auto. }
  pose proof (K (2000 * 2000) (12194.217 * 12194.217) 0.03 ltac:(lra) ltac:(lra)).
  pose proof (K (2000 * 2000) (20.598997 * 20.598997) 1 ltac:(lra) ltac:(lra)).
  pose proof (K (2000 * 2000) (107.65265 * 107.65265) 1 ltac:(lra) ltac:(lra)).
  pose proof (K (2000 * 2000) (737.86223 * 737.86223) 0.9 ltac:(lra) ltac:(lra)). lra.
Qed.

Lemma aws_3000 : 2 <= aws (nth 0 aw_constants 0) (nth 1 aw_constants 0) (nth 2 aw_constants 0) (nth 3 aw_constants 0) (3000 * 3000).
Proof.
  unfold aw_constants. cbn [map nth]. unfold aws.
  assert (K : forall u k q, 0 < u + k -> q * (u + k) <= u -> q <= u / (u + k)).
  { intros u k q P H. apply (Rmult_le_reg_r (u + k)); auto. replace (u / (u + k) * (u + k)) with u by (field; lra). auto. }
  pose proof (K (3000 * 3000) (12194.217 * 12194.217) 0.05 ltac:(lra) ltac:(lra)).
  pose proof (K (3000 * 3000) (20.598997 * 20.598997) 0.999 ltac:(lra) ltac:(lra)).
  pose proof (K (3000 * 3000) (107.65265 * 107.65265) 0.99 ltac:(lra) ltac:(lra)).
  pose proof (K (3000 * 3000) (737.86223 * 737.86223) 0.94 ltac:(lra) ltac:(lra)). lra.
Qed.
