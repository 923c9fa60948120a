(** Property theorems C50 - C52 and C57: windows, decibels, mel, bin frequencies, A-weighting. *)
From Coq Require Import Reals List Arith ZArith Lia Lra Bool.
From Verif Require Import Base.Outcome Base.OutcomeFacts Model.Integers Model.Stft Model.Statistics Model.Units Proof.UnitsProof.
Import ListNotations.
Local Open Scope R_scope.

(** ** C50 *)

Theorem C50_hann : forall n i, (2 <= n)%nat -> (i < n)%nat ->
  0 <= hann_window i n <= 1 /\ hann_window (n - 1 - i) n = hann_window i n /\
  hann_window 0 n = 0 /\ hann_window (n - 1) n = 0 /\
  (forall j, (i <= j)%nat -> (2 * j <= n - 1)%nat -> hann_window i n <= hann_window j n) /\
  ((2 * i = n - 1)%nat -> hann_window i n = 1).
Proof.
  intros n i Hn Hi. rewrite !hann_phase, phase_mirror, phase_end, phase_0, cos_0 by auto. pose proof (COS_bound (phase i n)).
  split; [lra|]. split; [lra|]. split; [lra|]. split; [lra|]. split.
  - intros j Hij Hj. rewrite hann_phase. pose proof (phase_rising i j n Hn Hij Hj). lra.
  - intros E. assert (P : phase i n = PI).
    { unfold phase. rewrite <- E, mult_INR. cbn [INR]. field. apply not_0_INR. lia. }
    rewrite P, cos_PI. lra.
Qed.

(** Two hann windows half a window apart add up to 1 (odd sizes, hop (n - 1) / 2). *)
Theorem C50_hann_overlap : forall h i, (1 <= h)%nat -> (i <= h)%nat ->
  hann_window i (2 * h + 1) + hann_window (i + h) (2 * h + 1) = 1.
Proof.
  intros h i Hh Hi. rewrite !hann_phase. assert (P : phase (i + h) (2 * h + 1) = phase i (2 * h + 1) + PI).
  { unfold phase. replace (2 * h + 1 - 1)%nat with (2 * h)%nat by lia. rewrite plus_INR, mult_INR. cbn [INR]. field. apply not_0_INR. lia. }
  rewrite P, neg_cos. lra.
Qed.

Theorem C50_hamming : forall n i, (2 <= n)%nat -> (i < n)%nat ->
  0.08 <= hamming_window i n <= 1 /\ hamming_window (n - 1 - i) n = hamming_window i n /\
  hamming_window 0 n = 0.08 /\ hamming_window (n - 1) n = 0.08 /\
  (forall j, (i <= j)%nat -> (2 * j <= n - 1)%nat -> hamming_window i n <= hamming_window j n) /\
  ((2 * i = n - 1)%nat -> hamming_window i n = 1).
Proof.
  intros n i Hn Hi. rewrite !hamming_phase, phase_mirror, phase_end, phase_0, cos_0 by auto. pose proof (COS_bound (phase i n)).
  split; [lra|]. split; [lra|]. split; [lra|]. split; [lra|]. split.
  - intros j Hij Hj. rewrite hamming_phase. pose proof (phase_rising i j n Hn Hij Hj). lra.
  - intros E. assert (P : phase i n = PI).
    { unfold phase. rewrite <- E, mult_INR. cbn [INR]. field. apply not_0_INR. lia. }
    rewrite P, cos_PI. lra.
Qed.

(** Every sample is written, whatever the array held before. *)
Theorem C50_generate_window : forall w n v,
  (exists out, generate_window w n = Ok out /\ length out = n /\ forall i, (i < n)%nat -> nth i out 0 = w i n) /\
  (exists out, fill_window v w = Ok out /\ length out = length v /\ forall i, (i < length v)%nat -> nth i out 0 = w i (length v)).
Proof.
  intros w n v. split.
  - exists (tab n (fun i => w i n)). split; [apply generate_window_ok|]. split; [apply tab_length|]. intros i Hi. rewrite (nth_tab _ n) by auto. reflexivity.
  - exists (tab (length v) (fun i => w i (length v))). split; [apply fill_window_ok|]. split; [apply tab_length|].
    intros i Hi. rewrite (nth_tab _ (length v)) by auto. reflexivity.
Qed.

Theorem C50_rectangular : forall i n, rectangular_window i n = 1.
Proof. reflexivity. Qed.

(** Size 1: the divisor size - 1 is zero and its only index is 0: the code evaluates cos(0/0). *)
Theorem C50_size_one_refuted : window_finite 1 = false /\ forall n, (2 <= n)%nat -> window_finite n = true.
Proof. split; [reflexivity|]. intros n H. unfold window_finite. destruct (Nat.eqb_spec n 1); [lia|reflexivity]. Qed.

Example C50_instance : hann_window 1 5 = 1 / 2 /\ hamming_window 2 5 = 1.
Proof.
  split.
  - rewrite hann_phase. replace (phase 1 5) with (PI / 2) by (unfold phase; cbn; field). rewrite cos_PI2. lra.
  - apply (C50_hamming 5 2); lia.
Qed.

(** ** C51 *)

Theorem C51_decibel : forall gain floor,
  floor <= amplitude_to_db_floor gain floor /\
  (gain <= 0 -> amplitude_to_db_floor gain floor = floor) /\
  (0 < gain -> floor <= 20 * log10 gain -> amplitude_to_db_floor gain floor = 20 * log10 gain) /\
  (0 < gain -> 20 * log10 gain <= floor -> amplitude_to_db_floor gain floor = floor) /\
  (forall gain', gain <= gain' -> amplitude_to_db_floor gain floor <= amplitude_to_db_floor gain' floor) /\
  amplitude_to_db gain = amplitude_to_db_floor gain (-144).
Proof.
  intros gain floor. unfold amplitude_to_db, amplitude_to_db_floor. destruct (Rle_dec gain 0).
  - repeat split; intros; try lra. destruct (Rle_dec gain' 0); [lra|]. apply Rmax_l.
  - split; [apply Rmax_l|]. split; [intros; contradiction|]. split; [intros; apply Rmax_right; auto|]. split; [intros; apply Rmax_left; auto|]. split; auto.
    intros gain' H. destruct (Rle_dec gain' 0); [lra|]. apply Rle_max_compat_l. apply Rmult_le_compat_l; [lra|]. apply log10_le; lra.
Qed.

(** Powers of ten: 20 dB per decade. *)
Theorem C51_decades : forall e, -7.2 <= e -> amplitude_to_db (Rpower 10 e) = 20 * e.
Proof.
  intros e H. destruct (C51_decibel (Rpower 10 e) (-144)) as (_ & _ & K & _).
  unfold amplitude_to_db. rewrite log10_Rpower in K. apply K; [apply exp_pos|lra].
Qed.

Theorem C51_mel_inverse : (forall h, -700 < h -> mel_to_hertz (hertz_to_mel h) = h) /\ (forall m, hertz_to_mel (mel_to_hertz m) = m).
Proof. split; [exact mel_inverse1|exact mel_inverse2]. Qed.

Theorem C51_mel_increasing :
  (forall x y, -700 < x -> x < y -> hertz_to_mel x < hertz_to_mel y) /\ (forall x y, x < y -> mel_to_hertz x < mel_to_hertz y) /\
  hertz_to_mel 0 = 0 /\ mel_to_hertz 0 = 0.
Proof.
  split; [exact hertz_to_mel_incr|]. split; [exact mel_to_hertz_incr|].
  assert (Z : hertz_to_mel 0 = 0). { unfold hertz_to_mel. replace (1 + 0 / 700) with 1 by field. rewrite log10_1. ring. }
  split; auto. rewrite <- Z at 1. apply mel_inverse1. lra.
Qed.

(** The table: from fmin to fmax, in equal mel steps, increasing. *)
Theorem C51_mel_frequencies : forall out fmin fmax, -700 < fmin -> -700 < fmax -> (2 <= length out)%nat -> (Z.of_nat (length out) < 2 ^ 31)%Z ->
  exists res, mel_frequencies out fmin fmax = Ok res /\ length res = length out /\
    nth 0 res 0 = fmin /\ nth (length out - 1) res 0 = fmax /\
    (forall i, (i + 1 < length out)%nat ->
       hertz_to_mel (nth (i + 1) res 0) - hertz_to_mel (nth i res 0) = (hertz_to_mel fmax - hertz_to_mel fmin) / INR (length out - 1)) /\
    (fmin < fmax -> forall i j, (i < j)%nat -> (j < length out)%nat -> nth i res 0 < nth j res 0).
Proof.
  intros out fmin fmax H1 H2 Hn H31. eexists. split; [apply mel_frequencies_ok; auto|].
  pose proof (INR_pred_pos (length out) Hn) as P. set (n := length out) in *.
  split; [apply tab_length|]. split; [|split; [|split]].
  - rewrite (nth_tab _ n) by lia. cbn [INR]. rewrite Rmult_0_r, Rplus_0_r. apply mel_inverse1; auto.
  - rewrite (nth_tab _ n) by lia.
    replace (hertz_to_mel fmin + (hertz_to_mel fmax - hertz_to_mel fmin) / INR (n - 1) * INR (n - 1)) with (hertz_to_mel fmax) by (field; lra).
    apply mel_inverse1; auto.
  - intros i Hi. rewrite !(nth_tab _ n) by lia. rewrite !mel_inverse2, plus_INR. cbn [INR]. ring.
  - intros Hf i j Hij Hj. rewrite !(nth_tab _ n) by lia. apply mel_to_hertz_incr. apply Rplus_lt_compat_l. apply Rmult_lt_compat_l.
    + apply Rmult_lt_0_compat; [|apply Rinv_0_lt_compat; auto]. pose proof (hertz_to_mel_incr fmin fmax H1 Hf). lra.
    + apply lt_INR. auto.
Qed.

(** One band gets fmin, none nothing. *)
Theorem C51_mel_frequencies_small : forall v fmin fmax,
  mel_frequencies [] fmin fmax = Ok [] /\ mel_frequencies [v] fmin fmax = Ok [fmin].
Proof. intros; split; reflexivity. Qed.

Example C51_instance : amplitude_to_db (Rpower 10 (-3)) = -60 /\ amplitude_to_db (-1) = -144 /\
  exists res, mel_frequencies [0; 0; 0] 0 8000 = Ok res /\ nth 0 res 0 = 0 /\ nth 2 res 0 = 8000.
Proof.
  split; [rewrite C51_decades; lra|]. split; [destruct (C51_decibel (-1) (-144)) as (_ & H & _); apply H; lra|].
  destruct (C51_mel_frequencies [0; 0; 0] 0 8000) as (res & E & _ & E0 & E2 & _); cbn in *; try lra; try lia; eauto.
Qed.

(** ** C52 *)

Theorem C52_rfftfreq : forall size d, (0 < size)%Z -> 0 < d ->
  (forall index, rfftfreq size index d = IZR index / (IZR size * d)) /\
  rfftfreq size 0 d = 0 /\ (forall h, size = (2 * h)%Z -> rfftfreq size h d = (1 / d) / 2) /\
  (forall i j, (i < j)%Z -> rfftfreq size i d < rfftfreq size j d) /\
  (forall i, rfftfreq size (i + 1) d - rfftfreq size i d = (1 / d) / IZR size).
Proof.
  intros size d Hs Hd. assert (P : 0 < IZR size) by (apply IZR_lt; auto).
  assert (E : forall index, rfftfreq size index d = IZR index / (IZR size * d)). { intros. unfold rfftfreq. field. split; lra. }
  split; auto. rewrite E. split; [unfold Rdiv; ring|]. split; [|split].
  - intros h ->. rewrite E. rewrite mult_IZR in *. field. split; lra.
  - intros i j H. rewrite !E. apply Rmult_lt_compat_r; [apply Rinv_0_lt_compat, Rmult_lt_0_compat; auto|]. apply IZR_lt; auto.
  - intros i. rewrite !E, plus_IZR. field. split; lra.
Qed.

(** The vector overload: bin i of an array of n elements gets i / (n d), as if the transform
    had n points ... *)
Theorem C52_rfftfreq_vector : forall vec d, (0 < length vec)%nat -> (Z.of_nat (length vec) < 2 ^ 31)%Z -> 0 < d ->
  exists res, rfftfreq_vec vec d = Ok res /\ length res = length vec /\
    forall i, (i < length vec)%nat -> nth i res 0 = INR i / (INR (length vec) * d).
Proof.
  intros vec d H0 H31 Hd. unfold rfftfreq_vec.
  assert (E : iconv int32 (Z.of_nat (length vec)) = Z.of_nat (length vec)).
  { unfold iconv, int32. cbn [isigned iwidth]. rewrite Z.mod_small by lia. lia. }
  rewrite E, Nat2Z.id. exists (tab (length vec) (fun i => rfftfreq (Z.of_nat (length vec)) (Z.of_nat i) d)). split.
  { apply (for_range_tab _ 0); auto. intros j l Hj Ll _. apply wr_ok. lia. }
  split; [apply tab_length|]. intros i Hi. rewrite (nth_tab _ (length vec)) by auto.
  destruct (C52_rfftfreq (Z.of_nat (length vec)) d ltac:(lia) Hd) as (F & _). rewrite F, <- !INR_IZR_INZ. reflexivity.
Qed.

(** ... so for the n/2 + 1 bins of an n-point real transform every bin but the first differs
    from the bin's frequency. *)
Theorem C52_vector_overload_refuted : forall h d vec i res, (1 < h)%nat -> (Z.of_nat (h + 1) < 2 ^ 31)%Z -> 0 < d -> length vec = (h + 1)%nat ->
  (0 < i <= h)%nat -> rfftfreq_vec vec d = Ok res -> nth i res 0 <> rfftfreq (Z.of_nat (2 * h)) (Z.of_nat i) d.
Proof.
  intros h d vec i res Hh H31 Hd Hv Hi E. destruct (C52_rfftfreq_vector vec d ltac:(lia) ltac:(rewrite Hv; auto) Hd) as (r & Er & _ & V).
  rewrite E in Er. injection Er as <-. rewrite V by lia. destruct (C52_rfftfreq (Z.of_nat (2 * h)) d ltac:(lia) Hd) as (F & _).
  rewrite F, <- !INR_IZR_INZ, Hv. assert (0 < INR i) by (apply lt_0_INR; lia). assert (P1 : 0 < INR (h + 1)) by (apply lt_0_INR; lia).
  assert (P2 : INR (h + 1) < INR (2 * h)) by (apply lt_INR; lia). intros Q.
  apply (f_equal (fun x => x * (INR (h + 1) * d) * (INR (2 * h) * d) / INR i / d)) in Q.
  replace (INR i / (INR (h + 1) * d) * (INR (h + 1) * d) * (INR (2 * h) * d) / INR i / d) with (INR (2 * h)) in Q by (field; repeat split; lra).
  replace (INR i / (INR (2 * h) * d) * (INR (h + 1) * d) * (INR (2 * h) * d) / INR i / d) with (INR (h + 1)) in Q by (field; repeat split; lra).
  lra.
Qed.

Example C52_instance : rfftfreq 8 2 (1 / 8) = 2 /\ exists res, rfftfreq_vec [0; 0; 0; 0; 0] (1 / 8) = Ok res /\ nth 2 res 0 = 16 / 5.
Proof.
  split; [unfold rfftfreq; field|].
  destruct (C52_rfftfreq_vector [0; 0; 0; 0; 0] (1 / 8)) as (res & E & _ & V); cbn [length] in *; try lia; try lra.
  exists res. split; auto. rewrite V by lia. cbn. field.
Qed.

(** ** C57 *)

(** 2 dB plus 20 log10 of the A-weighting gain. *)
Theorem C57_a_weighting : forall f, f <> 0 ->
  let k1 := 12194.217 * 12194.217 in let k2 := 20.598997 * 20.598997 in
  let k3 := 107.65265 * 107.65265 in let k4 := 737.86223 * 737.86223 in let u := f * f in
  a_weighting f = 2 + 20 * log10 (k1 * (u * u) / ((u + k1) * (u + k2) * sqrt (u + k3) * sqrt (u + k4))) /\
  a_weighting f < 2 /\ a_weighting (- f) = a_weighting f.
Proof.
  intros f Hf k1 k2 k3 k4 u. assert (Pu : 0 < u) by (unfold u; pose proof (Rsqr_pos_lt f Hf); unfold Rsqr in *; lra).
  assert (Q1 : 0 < k1) by (unfold k1; lra). assert (Q2 : 0 < k2) by (unfold k2; lra).
  assert (Q3 : 0 < k3) by (unfold k3; lra). assert (Q4 : 0 < k4) by (unfold k4; lra).
  assert (S3 : 0 < sqrt (u + k3)) by (apply sqrt_lt_R0; lra). assert (S4 : 0 < sqrt (u + k4)) by (apply sqrt_lt_R0; lra).
  assert (D : 0 < (u + k1) * (u + k2) * sqrt (u + k3) * sqrt (u + k4)) by (repeat first [assumption | apply Rmult_lt_0_compat]; lra).
  assert (N : 0 < k1 * (u * u)) by (repeat first [assumption | apply Rmult_lt_0_compat]; lra).
  assert (E : a_weighting f = 2 + 20 * log10 (k1 * (u * u) / ((u + k1) * (u + k2) * sqrt (u + k3) * sqrt (u + k4)))).
  { rewrite aw_ln. unfold aw_constants. cbn [map nth]. fold u k1 k2 k3 k4. rewrite log10_div, !log10_half by lra.
    rewrite !log10_mult by (repeat first [assumption | apply Rmult_lt_0_compat]; lra). lra. }
  split; auto. split.
  - rewrite E. assert (R1 : k1 * (u * u) / ((u + k1) * (u + k2) * sqrt (u + k3) * sqrt (u + k4)) < 1).
    { apply (Rmult_lt_reg_r ((u + k1) * (u + k2) * sqrt (u + k3) * sqrt (u + k4))); auto. rewrite Rmult_1_l.
      replace (k1 * (u * u) / ((u + k1) * (u + k2) * sqrt (u + k3) * sqrt (u + k4)) * ((u + k1) * (u + k2) * sqrt (u + k3) * sqrt (u + k4))) with (k1 * (u * u)) by (field; repeat split; lra).
      assert (SU : 0 < sqrt u) by (apply sqrt_lt_R0; auto).
      assert (A1 : u < sqrt (u + k3) * sqrt (u + k4)).
      { rewrite <- (sqrt_sqrt u) at 1 by lra. apply Rmult_gt_0_lt_compat; try lra; apply sqrt_lt_1; lra. }
      assert (A2 : k1 * u < (u + k1) * (u + k2)) by nra.
      replace (k1 * (u * u)) with (k1 * u * u) by ring.
      replace ((u + k1) * (u + k2) * sqrt (u + k3) * sqrt (u + k4)) with ((u + k1) * (u + k2) * (sqrt (u + k3) * sqrt (u + k4))) by ring.
      apply Rmult_gt_0_lt_compat; auto. apply Rmult_lt_0_compat; lra. }
    assert (P : 0 < k1 * (u * u) / ((u + k1) * (u + k2) * sqrt (u + k3) * sqrt (u + k4))).
    { apply Rmult_lt_0_compat; auto. apply Rinv_0_lt_compat; auto. }
    pose proof (log10_incr _ 1 P R1). rewrite log10_1 in *. lra.
  - rewrite !aw_ln. replace (- f * - f) with (f * f) by ring. reflexivity.
Qed.

(** Strictly increasing up to 2 kHz, strictly decreasing from 3 kHz. *)
Theorem C57_a_weighting_shape :
  (forall f g, 0 < f -> f < g -> g <= 2000 -> a_weighting f < a_weighting g) /\
  (forall f g, 3000 <= f -> f < g -> a_weighting g < a_weighting f).
Proof.
  destruct aw_pos as (P1 & P2 & P3 & P4). pose proof ln10_pos as L.
  split.
  - intros f g Hf Hg H. rewrite !aw_awl.
    pose proof (awl_incr _ _ _ _ P1 P2 P3 P4 (f * f) (g * g) (2000 * 2000) ltac:(nra) ltac:(nra) ltac:(nra) aws_2000) as I.
    apply (Rmult_lt_compat_r (/ ln 10)) in I; [|apply Rinv_0_lt_compat; auto]. unfold Rdiv. lra.
  - intros f g Hf Hg. rewrite !aw_awl.
    pose proof (awl_decr _ _ _ _ P1 P2 P3 P4 (f * f) (g * g) (3000 * 3000) ltac:(lra) ltac:(nra) ltac:(nra) aws_3000) as I.
    apply (Rmult_lt_compat_r (/ ln 10)) in I; [|apply Rinv_0_lt_compat; auto]. unfold Rdiv. lra.
Qed.

(** 0 dB at 1 kHz, to a thousandth of a decibel. *)
Theorem C57_a_weighting_reference : Rabs (a_weighting 1000) <= 0.001.
Proof.
  destruct (C57_a_weighting 1000 ltac:(lra)) as (E & _ & _). cbv zeta in E. rewrite E. clear E.
  set (p := sqrt (1000 * 1000 + 107.65265 * 107.65265)). set (q := sqrt (1000 * 1000 + 737.86223 * 737.86223)).
  assert (Hp : p * p = 1000 * 1000 + 107.65265 * 107.65265) by (apply sqrt_sqrt; lra).
  assert (Hq : q * q = 1000 * 1000 + 737.86223 * 737.86223) by (apply sqrt_sqrt; lra).
  assert (Pp : 0 < p) by (apply sqrt_lt_R0; lra). assert (Pq : 0 < q) by (apply sqrt_lt_R0; lra). clearbody p q.
  set (n := 12194.217 * 12194.217 * (1000 * 1000 * (1000 * 1000))).
  set (d := (1000 * 1000 + 12194.217 * 12194.217) * (1000 * 1000 + 20.598997 * 20.598997)).
  assert (Pn : 0 < n) by (unfold n; lra). assert (Pd : 0 < d) by (unfold d; lra).
  set (r := n / (d * p * q)).
  assert (Pr : 0 < r) by (apply Rdiv_lt_0_compat; auto; apply Rmult_lt_0_compat; auto; apply Rmult_lt_0_compat; auto).
  assert (S : r * r = n * n / (d * d * (1000 * 1000 + 107.65265 * 107.65265) * (1000 * 1000 + 737.86223 * 737.86223))).
  { rewrite <- Hp, <- Hq. unfold r. field. lra. }
  assert (between : forall a b x y : R, 0 < y -> a * y <= x <= b * y -> a <= x / y <= b).
  { intros a b x y Hy [H1 H2]. split; apply Rmult_le_reg_r with y; auto; replace (x / y * y) with x by (field; lra); auto. }
  assert (B : 0.631 <= r * r <= 0.63102) by (rewrite S; apply between; unfold n, d; lra).
  replace (n / (d * p * q)) with r by reflexivity. clearbody r. clear S Hp Hq Pp Pq between. revert Pr B. clear. intros Pr B.
  set (t := r * r) in *. assert (Pt : 0 < t) by lra.
  assert (L : 2 + 20 * log10 r = 2 * log10 (10 * (t * t * (t * t) * t))).
  { assert (Lt : log10 t = 2 * log10 r) by (unfold t; rewrite log10_mult by auto; ring).
    assert (T2 : 0 < t * t) by (apply Rmult_lt_0_compat; auto). assert (T4 : 0 < t * t * (t * t)) by (apply Rmult_lt_0_compat; auto).
    rewrite !log10_mult by (auto; try lra; apply Rmult_lt_0_compat; auto). rewrite Lt.
    replace (log10 10) with 1 by (unfold log10; pose proof ln10_pos; field; lra). ring. }
  rewrite L. clear L. assert (Q : 1 <= 10 * (t * t * (t * t) * t) <= 1.0005).
  { assert (T2 : 0.631 * 0.631 <= t * t <= 0.63102 * 0.63102) by (split; apply Rmult_le_compat; lra).
    assert (T4 : 0.631 * 0.631 * (0.631 * 0.631) <= t * t * (t * t) <= 0.63102 * 0.63102 * (0.63102 * 0.63102)) by (split; apply Rmult_le_compat; lra).
    assert (T5 : 0.631 * 0.631 * (0.631 * 0.631) * 0.631 <= t * t * (t * t) * t <= 0.63102 * 0.63102 * (0.63102 * 0.63102) * 0.63102) by (split; apply Rmult_le_compat; lra).
    lra. }
  set (v := 10 * (t * t * (t * t) * t)) in *. clearbody v. clear - Q. pose proof (log10_le 1 v ltac:(lra) ltac:(lra)) as Lo. rewrite log10_1 in Lo.
  assert (Ln : ln v <= 0.0005). { pose proof (exp_ineq1_le (ln v)) as I. rewrite exp_ln in I by lra. lra. }
  assert (L2 : 2 <= ln 10).
  { rewrite <- (ln_exp 2). left. apply ln_increasing; [apply exp_pos|]. replace 2 with (1 + 1) by ring. rewrite exp_plus.
    pose proof exp_le_3. pose proof (exp_pos 1). nra. }
  assert (Up : log10 v <= 0.0005).
  { unfold log10. apply Rmult_le_reg_r with (ln 10); [lra|]. replace (ln v / ln 10 * ln 10) with (ln v) by (field; lra). lra. }
  rewrite Rabs_pos_eq by lra. lra.
Qed.

Example C57_instance : a_weighting 100 < a_weighting 1000 /\ a_weighting 1000 < 2.
Proof. split; [apply (proj1 C57_a_weighting_shape); lra|apply (C57_a_weighting 1000); lra]. Qed.

Print Assumptions C50_hann.
Print Assumptions C50_hann_overlap.
Print Assumptions C50_hamming.
Print Assumptions C50_generate_window.
Print Assumptions C50_rectangular.
Print Assumptions C50_size_one_refuted.
Print Assumptions C51_decibel.
Print Assumptions C51_decades.
Print Assumptions C51_mel_inverse.
Print Assumptions C51_mel_increasing.
Print Assumptions C51_mel_frequencies.
Print Assumptions C51_mel_frequencies_small.
Print Assumptions C52_rfftfreq.
Print Assumptions C52_rfftfreq_vector.
Print Assumptions C52_vector_overload_refuted.
Print Assumptions C57_a_weighting.
Print Assumptions C57_a_weighting_shape.
Print Assumptions C57_a_weighting_reference.
