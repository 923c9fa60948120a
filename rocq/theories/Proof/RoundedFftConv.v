(** FFT convolution in rounded arithmetic. *)
From Coq Require Import Reals List Arith Lia Lra Psatz Bool ZArith.
From Flocq Require Import Core.
From Verif Require Import Base.Outcome Base.OutcomeFacts Base.Sums Base.Cplx Base.Alias Base.VecNorm Spec.Dft Spec.Transforms Spec.Rounding
  Spec.Convolution Model.Fft2 Model.Integers Model.Algorithm Model.FftApps Model.Convolution Model.RoundedFft Model.RoundedConv
  Proof.DftTheory Proof.Fft2Proof Proof.IntegersProof Proof.AlgorithmProof Proof.RfftProof Proof.ConvTheory Proof.FftConvProof
  Proof.RoundedError Proof.RoundedPlan Proof.RoundedRfft Proof.RoundedMac Proof.RoundedSynth.
Import ListNotations.
Local Arguments Nat.div : simpl never.
Local Arguments Nat.modulo : simpl never.
Local Arguments Nat.pow : simpl never.

Section Structure.
Variables rnd fcos fsin : R -> R.
Notation RF := (RF rnd fcos fsin). Notation RB := (RB rnd fcos fsin). Notation rrf_inv := (rrf_inv rnd fcos fsin).

Record rfc_inv (s p : nat) (c : fft_convolver) : Prop := RFcInv {
  rfci_s : fc_signal c = s; rfci_p : fc_patch c = p;
  rfci_plan : rrf_inv (Nat.log2_up (s + p - 1)) (fc_plan c);
  rfci_tmp : length (fc_tmp c) = 2 ^ Nat.log2_up (s + p - 1);
  rfci_ss : length (fc_sspec c) = 2 ^ Nat.log2_up (s + p - 1) / 2 + 1;
  rfci_ps : length (fc_pspec c) = 2 ^ Nat.log2_up (s + p - 1) / 2 + 1 }.

Lemma rmake_fft_convolver_ok : forall s p, 2 <= s + p - 1 -> s + p - 1 <= 2 ^ max_order ->
  exists c, rmake_fft_convolver rnd fcos fsin s p = Ok c /\ rfc_inv s p c.
Proof using.
  intros s p H1 H2. unfold rmake_fft_convolver.
  replace (0 <? s + p) with true by (symmetry; apply Nat.ltb_lt; lia). cbn [guard bind].
  rewrite next_order_ok by (apply Z_fits; exact H2). cbn [bind].
  destruct (rmake_rfft_ok rnd fcos fsin (Nat.log2_up (s + p - 1))) as (pl & E & I).
  { split. apply log2_up_pos'; lia. apply log2_up_max. exact H2. }
  rewrite E. cbn [bind]. eexists; split; [reflexivity|].
  constructor; cbn; rewrite ?repeat_length; auto.
Qed.

Lemma RF_length : forall order x, length (RF order x) = 2 ^ order / 2 + 1.
Proof using. intros. unfold RoundedRfft.RF. apply tab_length. Qed.

Lemma RB_length : forall order X, length (RB order X) = 2 ^ order.
Proof using. intros. unfold RoundedRfft.RB. apply tab_length. Qed.

Lemma rfc_forward_ok : forall order pl tmp inp out, 0 < order -> rrf_inv order pl -> length tmp = 2 ^ order ->
  length inp <= 2 ^ order -> length out = 2 ^ order / 2 + 1 ->
  exists pl', rfc_forward rnd pl tmp inp out = Ok (pl', pad (2 ^ order) inp, RF order (pad (2 ^ order) inp)) /\ rrf_inv order pl'.
Proof using.
  intros order pl tmp inp out Ho I Ht Hi Hl. unfold rfc_forward.
  rewrite (copy_into_ok _ 0%R) by lia. cbn [bind].
  rewrite (fill_into_ok _ 0%R) by (rewrite ?tab_length; lia). cbn [bind]. rewrite !tab_length.
  match goal with |- context [rrfft_forward rnd pl ?t out] => replace t with (pad (2 ^ order) inp) end.
  2:{ unfold pad. rewrite Ht. apply tab_ext. intros i Hi'. rewrite nth_tab by lia.
      destruct (Nat.leb_spec (length inp) i), (Nat.ltb_spec i (2 ^ order)); cbn [andb]; try lia.
      - rewrite nth_overflow; auto.
      - cbn [Nat.leb andb]. rewrite Nat.sub_0_r. cbn [Nat.add].
        destruct (Nat.ltb_spec i (length inp)); [reflexivity|lia]. }
  destruct (rrfft_forward_ok rnd fcos fsin order pl (pad (2 ^ order) inp) out Ho I) as (pl' & E & I').
  { apply pad_length. } { lia. }
  rewrite skipn_all2 in E by lia. rewrite app_nil_r in E.
  rewrite E. cbn [bind]. eexists; split; [reflexivity|exact I'].
Qed.

Lemma rscale_map : forall alpha obj, rscale_r rnd alpha obj = Ok (map (fun v => rnd (v * alpha)%R) obj).
Proof using. intros. unfold rscale_r. apply linalg_unary_ok. Qed.

(** The computed product of the spectra, and the samples made from it. *)
Definition rspectra (order : nat) (x h : list R) : list C :=
  tab (2 ^ order / 2 + 1) (fun k => rmul rnd (nth k (RF order (pad (2 ^ order) x)) C0) (nth k (RF order (pad (2 ^ order) h)) C0)).
Definition rsynth (order : nat) (Y : list C) (i : nat) : R := rnd (nth i (RB order Y) 0%R * rinv_size rnd (2 ^ order))%R.

Lemma rfft_convolver_run_ok : forall s p c x h out, 0 < s -> 0 < p -> 2 <= s + p - 1 -> rfc_inv s p c ->
  length x = s -> length h = p -> length out = s + p - 1 ->
  exists c', rfft_convolver_run rnd c x h out = Ok (c', tab (s + p - 1) (rsynth (Nat.log2_up (s + p - 1)) (rspectra (Nat.log2_up (s + p - 1)) x h))) /\ rfc_inv s p c'.
Proof using.
  intros s p c x h out Hs Hp H2 [Is Ip Ipl It Iss Ips] Hx Hh Hout.
  set (order := Nat.log2_up (s + p - 1)) in *.
  assert (Hpos : 0 < order) by (apply log2_up_pos'; lia).
  assert (HK : s + p - 1 <= 2 ^ order) by (apply log2_up_fits; lia).
  unfold rfft_convolver_run.
  destruct (rfc_forward_ok order (fc_plan c) (fc_tmp c) x (fc_sspec c)) as (p1 & E1 & I1); try lia; auto.
  rewrite E1. cbn [bind].
  destruct (rfc_forward_ok order p1 (pad (2 ^ order) x) h (fc_pspec c)) as (p2 & E2 & I2); try lia; auto.
  { apply pad_length. }
  rewrite E2. cbn [bind]. unfold rmultiply_c.
  rewrite linalg_binary_ok by (cbn [contents]; rewrite !RF_length; reflexivity).
  cbn [bind contents].
  destruct (pow2_half order Hpos) as (m & Hm & HKm & Em).
  rewrite (zip_with_tab _ _ _ _ _ _ C0 C0) by (rewrite !RF_length; reflexivity).
  rewrite RF_length. fold (rspectra order x h).
  match goal with |- context [rrfft_backward rnd p2 ?X ?o] =>
    destruct (rrfft_backward_ok rnd fcos fsin order p2 X o Hpos I2) as (p3 & E3 & I3) end.
  { unfold rspectra. rewrite tab_length. rewrite HKm, half_of_double. lia. } { apply pad_length. }
  rewrite E3. cbn [bind]. rewrite rscale_map. cbn [bind].
  rewrite (slice_spec _ 0%R) by (rewrite ?map_length, ?RB_length; lia). cbn [bind].
  rewrite copy_full by (rewrite tab_length, Is, Ip, Hout; lia). cbn [bind]. rewrite map_id.
  eexists; split.
  - f_equal. f_equal. rewrite Nat.sub_0_r, Is, Ip. apply tab_ext. intros i Hi. cbn [Nat.add].
    destruct I3 as (R1 & _ & _). rewrite R1. unfold rsynth.
    rewrite (nth_indep _ 0%R (rnd (0 * rinv_size rnd (2 ^ order))%R)) by (rewrite map_length, RB_length; lia).
    rewrite (map_nth (fun v => rnd (v * rinv_size rnd (2 ^ order))%R)). reflexivity.
  - constructor; cbn [fc_signal fc_patch fc_plan fc_tmp fc_sspec fc_pspec]; auto.
    + now rewrite map_length, RB_length.
    + unfold rspectra. now rewrite tab_length.
    + now rewrite RF_length.
Qed.

Lemma rfft_convolve_ok : forall x h, 0 < length x -> 0 < length h -> 2 <= length x + length h - 1 ->
  length x + length h - 1 <= 2 ^ max_order ->
  rfft_convolve rnd fcos fsin x h = Ok (tab (length x + length h - 1) (rsynth (Nat.log2_up (length x + length h - 1)) (rspectra (Nat.log2_up (length x + length h - 1)) x h))).
Proof using.
  intros x h Hx Hh H2 Hm. unfold rfft_convolve.
  destruct (Nat.eqb_spec (length x) 0); [lia|]. destruct (Nat.eqb_spec (length h) 0); [lia|]. cbn [orb].
  destruct (rmake_fft_convolver_ok (length x) (length h) H2 Hm) as (c & E & I). rewrite E. cbn [bind].
  destruct (rfft_convolver_run_ok _ _ c x h (repeat 0%R (length x + length h - 1)) Hx Hh H2 I eq_refl eq_refl) as (c' & E' & _).
  { apply repeat_length. }
  rewrite E'. reflexivity.
Qed.
End Structure.

Local Open Scope R_scope.

Section Format.
Variables (prec emin emax : Z).
Hypotheses (Hprec : (24 <= prec <= 100)%Z) (Hemin : (emin <= -149)%Z) (Hemax : (127 <= emax)%Z) (Hgap : (emin + prec <= -120)%Z).
Variables (rnd fcos fsin : R -> R).
Hypotheses (Hrnd : rounds_to_nearest prec emin emax rnd) (Hcos : accurate prec emin fcos cos) (Hsin : accurate prec emin fsin sin).
Let u := bpow radix2 (- prec).
Hypotheses (Ht : is_float prec emin (rtwo_pi rnd)) (He : Rabs (rtwo_pi rnd - 2 * PI) <= 82 / 10 * bpow radix2 (- prec)).
Variable p : nat.
Hypothesis Hp : (0 < p <= 27)%nat.
Let K := (2 ^ p)%nat.
Let sK := sqrt (INR K).
Let c := 28 * INR p * u.

(** A computed spectrum, relative to a bound on the energy of the signal. *)
Lemma spectrum_error : forall w N, length w = K -> rnorm K (fun i => nth i w 0) <= N -> / 2 ^ 20 <= N <= 2 ^ 50 ->
  hnorm K (fun k => nth k (RF rnd fcos fsin p w) C0 - DFT Forward K (fun j => RtoC (nth j w 0)) k)%C <= 151 / 100 * c * (sK * N).
Proof using All.
  intros w N Hw HN HB. pose proof (u_bounds prec emin emax Hprec Hemin Hemax Hgap rnd fcos fsin Hrnd Hcos Hsin Ht He p Hp) as U. fold u in U. pose proof (tiny_u prec emin emax Hprec Hemin Hemax Hgap rnd fcos fsin Hrnd Hcos Hsin Ht He p Hp) as TB. fold u in TB. pose proof (Om_16 prec emin emax Hprec Hemin Hemax Hgap rnd fcos fsin Hrnd Hcos Hsin Ht He p Hp) as [O1 _].
  pose proof (sK_bounds prec emin emax Hprec Hemin Hemax Hgap rnd fcos fsin Hrnd Hcos Hsin Ht He p Hp) as [SB _]. fold K sK in SB. pose proof (c_bounds prec emin emax Hprec Hemin Hemax Hgap rnd fcos fsin Hrnd Hcos Hsin Ht He p Hp) as CB. fold u in CB. fold c in CB.
  assert (P50 : 2 ^ 50 <= 2 ^ 111) by (apply Rle_pow; [lra|lia]).
  eapply Rle_trans; [apply (rf_error prec emin emax Hprec Hemin Hemax Hgap rnd fcos fsin Hrnd Hcos Hsin Ht He p Hp w Hw); apply Rle_trans with N; [exact HN|lra]|]. fold u. fold c. fold K sK.
  assert (N0 : 0 < N) by (assert (0 < / 2 ^ 20) by (apply Rinv_0_lt_compat, pow_lt; lra); lra).
  assert (A : c * (sK * rnorm K (fun i => nth i w 0)) <= c * (sK * N)) by (apply Rmult_le_compat_l; [lra|apply Rmult_le_compat_l; lra]).
  assert (B : / 2 ^ 20 <= sK * N) by nra. assert (D : 28 * u * (/ 2 ^ 20) <= c * (sK * N)). { apply Rmult_le_compat; lra. }
  assert (I86 : / 2 ^ 86 <= / 1000 * / 2 ^ 20). { apply Rle_trans with (/ 2 ^ 10 * / 2 ^ 20); [|apply Rmult_le_compat_r; [apply Rlt_le, Rinv_0_lt_compat, pow_lt; lra|lra]]. rewrite <- Rinv_mult, <- pow_add. apply Rinv_le_contravar; [apply pow_lt; lra|apply Rle_pow; [lra|lia]]. }
  assert (T : tiny emin <= / 1000 * / 2 ^ 20 * u) by (eapply Rle_trans; [apply TB|]; apply Rmult_le_compat_r; lra).
  set (q := / 2 ^ 20) in *. clearbody q. nra.
Qed.

(** Samples made from a computed spectrum: the error in units of the format. *)
Lemma samples_error : forall P Yh Y Q j, (0 < P)%nat -> INR P * (8 * u) <= 9 / 1000 -> (j < K)%nat -> hnorm K Y <= Q ->
  hnorm K (fun k => nth k Yh C0 - Y k)%C <= (2001 / 1000 * (151 / 100 * c) + 82 / 10 * INR P * u) * Q -> / 2 ^ 40 <= Q <= 2 ^ 110 ->
  Rabs (rsynth rnd fcos fsin p Yh j - IRDFT (2 ^ (p - 1)) Y j / INR K) <= (114 * INR p + 9 * INR P) * u * (sK * Q / INR K).
Proof using All.
  intros P Yh Y Q j HP HPu Hj HY HE HQ. pose proof (u_bounds prec emin emax Hprec Hemin Hemax Hgap rnd fcos fsin Hrnd Hcos Hsin Ht He p Hp) as U. fold u in U. pose proof (c_bounds prec emin emax Hprec Hemin Hemax Hgap rnd fcos fsin Hrnd Hcos Hsin Ht He p Hp) as CB. fold u in CB. fold c in CB.
  assert (P1 : 1 <= INR P) by (change 1 with (INR 1); apply le_INR; lia). assert (p1 : 1 <= INR p) by (change 1 with (INR 1); apply le_INR; lia).
  pose proof (sK_bounds prec emin emax Hprec Hemin Hemax Hgap rnd fcos fsin Hrnd Hcos Hsin Ht He p Hp) as [SB _]. fold K sK in SB. pose proof (K_bounds prec emin emax Hprec Hemin Hemax Hgap rnd fcos fsin Hrnd Hcos Hsin Ht He p Hp) as KB. fold K in KB.
  assert (Pu : 0 <= INR P * u) by (apply Rmult_le_pos; lra). assert (Q0 : 0 < Q) by (assert (0 < / 2 ^ 40) by (apply Rinv_0_lt_compat, pow_lt; lra); lra).
  unfold rsynth. eapply Rle_trans; [apply (synth_error prec emin emax Hprec Hemin Hemax Hgap rnd fcos fsin Hrnd Hcos Hsin Ht He p Hp Yh Y Q _ j Hj HY HE); [lra|exact HQ]|]. fold u. fold c. fold K sK.
  apply Rmult_le_compat_r. { unfold Rdiv. apply Rmult_le_pos; [apply Rmult_le_pos; lra|apply Rlt_le, Rinv_0_lt_compat; lra]. }
  unfold c. assert (0 <= INR p * u) by (apply Rmult_le_pos; lra). assert (u <= INR P * u) by nra. assert (u <= INR p * u) by nra. lra.
Qed.
End Format.
