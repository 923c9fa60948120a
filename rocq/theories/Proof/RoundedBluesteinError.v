(** Rounding error of Bluestein's algorithm. *)
From Coq Require Import Reals List Arith Lia Lra Psatz Bool ZArith.
From Flocq Require Import Core.
From Verif Require Import Base.Outcome Base.OutcomeFacts Base.Sums Base.Cplx Base.VecNorm Spec.Dft Spec.Transforms Spec.Rounding Spec.RoundedReal
  Model.Fft2 Model.Algorithm Model.FftApps Model.RoundedFft Model.RoundedConv Model.RoundedReal Model.RoundedBluestein
  Proof.DftTheory Proof.Fft2Proof Proof.AlgorithmProof Proof.RfftProof Proof.DctProof Proof.BluesteinProof
  Proof.RoundedError Proof.RoundedPlan Proof.RoundedRfft Proof.RoundedMac Proof.RoundedSynth Proof.RoundedDct Proof.RoundedBluestein.
Import ListNotations.
Local Arguments Nat.div : simpl never.
Local Arguments Nat.modulo : simpl never.
Local Arguments Nat.pow : simpl never.
Local Open Scope R_scope.

Lemma vnorm_le : forall n m f, (n <= m)%nat -> vnorm n f <= vnorm m f.
Proof.
  intros n m f H. unfold vnorm. apply sqrt_le_1_alt. replace m with (n + (m - n))%nat by lia. rewrite Rsum_split.
  assert (0 <= Rsum (m - n) (fun i => Cnorm2 (f (n + i)%nat))); [|lra].
  generalize (m - n)%nat. intros k. induction k as [|k IH]; [cbn; lra|]. rewrite Rsum_S.
  assert (0 <= Cnorm2 (f (n + k)%nat)) by (unfold Cnorm2; nra). lra.
Qed.

Lemma vnorm_cut : forall n m f, (n <= m)%nat -> vnorm m (fun i => if i <? n then f i else C0)%nat = vnorm n f.
Proof.
  intros n m f H. unfold vnorm. f_equal. replace m with (n + (m - n))%nat by lia. rewrite Rsum_split.
  rewrite (Rsum_ext n _ (fun i => Cnorm2 (f i))) by (intros i Hi; rewrite (proj2 (Nat.ltb_lt i n)) by auto; auto).
  rewrite (Rsum_ext (m - n) _ (fun _ => 0)).
  2:{ intros i Hi. rewrite (proj2 (Nat.ltb_ge (n + i) n)) by lia. unfold Cnorm2, C0, RtoC. cbn. ring. }
  assert (Z : forall k, Rsum k (fun _ => 0) = 0) by (induction k as [|k IH]; [reflexivity|rewrite Rsum_S, IH; ring]). rewrite Z. ring.
Qed.

Lemma DFT_minus : forall d n x y k, (DFT d n x k - DFT d n y k)%C = DFT d n (fun i => x i - y i)%C k.
Proof. intros. unfold DFT. rewrite <- Csum_sub. apply Csum_ext. intros. ring. Qed.

Lemma Cmul_swap : forall a b : C, (a * b)%C = (b * a)%C.
Proof. intros. ring. Qed.

Lemma Cabs_of_real : forall r, Cabs (RtoC r) = Rabs r.
Proof. intros r. unfold Cabs, Cnorm2, RtoC. cbn [fst snd]. replace (r * r + 0 * 0) with (Rsqr r) by (unfold Rsqr; ring). apply sqrt_Rsqr_abs. Qed.

Lemma rmul_comm : forall rnd a b, rmul rnd a b = rmul rnd b a.
Proof.
  intros rnd a b. unfold rmul. f_equal; f_equal; [f_equal; f_equal; ring|]. rewrite Rplus_comm. f_equal; f_equal; ring.
Qed.

(** The nonzero entries of the filter. *)
Definition ind (N K i : nat) : R := if (i <? N)%nat then 1 else if (K - N <? i)%nat then 1 else 0.
Lemma ind_sum : forall N K, (2 * N + 1 <= K)%nat -> Rsum K (ind N K) <= 2 * INR N.
Proof.
  intros N K H.
  assert (S : forall m, (N <= m)%nat -> Rsum m (fun i => if (i <? N)%nat then 1 else 0) = INR N).
  { intros m Hm. replace m with (N + (m - N))%nat by lia. rewrite Rsum_split.
    rewrite (Rsum_ext N _ (fun _ => 1)) by (intros i Hi; rewrite (proj2 (Nat.ltb_lt i N)) by auto; auto).
    rewrite (Rsum_ext (m - N) _ (fun _ => 0)) by (intros i Hi; rewrite (proj2 (Nat.ltb_ge (N + i) N)) by lia; auto).
    assert (Z : forall c k, Rsum k (fun _ => c) = INR k * c) by (intros c; induction k as [|k IH]; [cbn; ring|rewrite Rsum_S, IH, S_INR; ring]). rewrite !Z. ring. }
  apply Rle_trans with (Rsum K (fun i => (if (i <? N)%nat then 1 else 0) + (if (K - N <? i)%nat then 1 else 0))).
  - apply Rsum_mono. intros i Hi. unfold ind. destruct (i <? N)%nat; destruct (K - N <? i)%nat; lra.
  - rewrite Rsum_add. rewrite S by lia. rewrite Rsum_rev.
    assert (Rsum K (fun i => if (K - N <? K - 1 - i)%nat then 1 else 0) <= Rsum K (fun i => if (i <? N)%nat then 1 else 0)); [|rewrite S in H0 by lia; lra].
    apply Rsum_mono. intros i Hi. destruct (Nat.ltb_spec (K - N) (K - 1 - i)); destruct (Nat.ltb_spec i N); try lra; lia.
Qed.
Lemma ind_norm : forall N K, (2 * N + 1 <= K)%nat -> rnorm K (ind N K) <= sqrt (2 * INR N).
Proof.
  intros N K H. unfold rnorm. apply sqrt_le_1_alt. eapply Rle_trans; [|apply (ind_sum N K H)]. right. apply Rsum_ext. intros i _. unfold ind. destruct (i <? N)%nat; destruct (K - N <? i)%nat; ring.
Qed.

Lemma Cabs_chirp : forall d n i, Cabs (chirp d n i) = 1.
Proof. intros. apply W_abs. Qed.
Lemma Cabs_Cconj : forall z, Cabs (Cconj z) = Cabs z.
Proof. intros z. unfold Cabs, Cnorm2, Cconj. cbn. f_equal. ring. Qed.

Section Format.
Variables (prec emin emax : Z).
Hypotheses (Hprec : (24 <= prec <= 53)%Z) (Hemin : (emin <= -149)%Z) (Hemax : (127 <= emax)%Z) (Hgap : (emin + prec <= -120)%Z).
Variables (rnd fcos fsin : R -> R).
Hypotheses (Hrnd : rounds_to_nearest prec emin emax rnd) (Hcos : accurate prec emin fcos cos) (Hsin : accurate prec emin fsin sin).
Let u := bpow radix2 (- prec).
Let et := bpow radix2 (emin - 1).
Let Om := bpow radix2 emax.
Hypotheses (Ht : is_float prec emin (rtwo_pi rnd)) (He : Rabs (rtwo_pi rnd - 2 * PI) <= 82 / 10 * bpow radix2 (- prec)).
Local Lemma Hprec' : (24 <= prec <= 100)%Z. Proof using Hprec. lia. Qed.
Local Lemma U : 0 < u <= / 16777216. Proof using All. exact (uu_bounds prec emin emax Hprec' Hemin Hemax). Qed.
Local Lemma AC : forall x, Rabs x <= Om -> Rabs (rnd x - x) <= u * Rabs x + et. Proof using All. exact (acc prec emin emax Hprec' Hemin Hemax rnd fcos fsin Hrnd Hcos Hsin). Qed.
Local Lemma OB : 2 ^ 127 <= Om. Proof using All. unfold Om. rewrite <- (bpow_IZR 127). apply bpow_le. lia. Qed.
Local Lemma RE : forall x, Rabs x <= Om -> is_float prec emin x -> rnd x = x. Proof using All. exact (rnd_exact prec emin emax Hprec' Hemin Hemax rnd fcos fsin Hrnd Hcos Hsin). Qed.
Local Lemma Rf : forall x, Rabs x <= Om -> is_float prec emin (rnd x).
Proof using All. intros x Hx. rewrite Hrnd by exact Hx. apply generic_format_round; auto with typeclass_instances. apply FLT_exp_valid. red. lia. Qed.

Variable N : nat.
Hypothesis HN : (0 < N)%nat.
Hypothesis HN27 : (N * 2 + 1 <= 2 ^ 27)%nat.
Let p := border N.
Let K := (2 ^ p)%nat.
Let sK := sqrt (INR K).
Let c := 28 * INR p * u.
Local Lemma Hp : (0 < p <= 27)%nat. Proof using All. split; [pose proof (border_pos N HN); unfold p; lia|apply border_max; exact HN27]. Qed.
Local Lemma E120 : 0 < et <= / 2 ^ 120 * u. Proof using All. exact (eta_bounds prec emin emax Hprec' Hemin Hemax Hgap rnd fcos fsin Hrnd Hcos Hsin Ht He p Hp). Qed.
Local Lemma NB : 1 <= INR N <= 67108864.
Proof using All.
  split; [change 1 with (INR 1); apply le_INR; lia|]. apply le_INR in HN27. rewrite plus_INR, mult_INR, pow_INR in HN27. change (INR 2) with 2 in HN27. change (INR 1) with 1 in HN27.
  replace (2 ^ 27) with 134217728 in HN27 by lra. lra.
Qed.

Lemma rchirp_error : forall d i, (i < N)%nat -> Cabs (rchirp rnd fcos fsin d N i - chirp d N i)%C <= 51 * u.
Proof using All.
  intros d i Hi. pose proof U as U. pose proof E120 as E. pose proof OB as OB. pose proof NB as NB. pose proof PI_4 as P4. pose proof PI2_1 as P2.
  assert (OB' : 1000000000000 <= Om) by (eapply Rle_trans; [|exact OB]; lra).
  assert (EE : et <= u / 1000000000000). { eapply Rle_trans; [apply E|]. unfold Rdiv. rewrite Rmult_comm. apply Rmult_le_compat_l; [lra|]. apply Rinv_le_contravar; lra. }
  destruct (rpi_ok prec emin emax Hprec Hemin Hemax Hgap rnd fcos fsin Hrnd Hcos Hsin Ht He) as [_ Ep]. fold u in Ep.
  rewrite <- chirp_exp by exact HN. unfold rchirp, rchirp_coef.
  set (n := INR N) in *. set (pi' := rpi rnd) in *.
  assert (Bp : - (81 / 10 * u) <= pi' - PI <= 81 / 10 * u) by (unfold Rabs in Ep; destruct (Rcase_abs (pi' - PI)); lra).
  assert (Hn := AC n ltac:(rewrite Rabs_right; lra)). rewrite (Rabs_right n) in Hn by lra. set (n' := rnd n) in *.
  assert (un : 0 <= u * n <= / 16777216 * n) by (split; [apply Rmult_le_pos; lra|apply Rmult_le_compat_r; lra]).
  assert (Bn : - (u * n + et) <= n' - n <= u * n + et) by (unfold Rabs in Hn; destruct (Rcase_abs (n' - n)); lra).
  assert (n'l : 999 / 1000 * n <= n') by lra.
  assert (i0 : 0 < / n) by (apply Rinv_0_lt_compat; lra). assert (i1 : / n <= 1) by (rewrite <- Rinv_1; apply Rinv_le_contravar; lra).
  assert (i'0 : 0 < / n') by (apply Rinv_0_lt_compat; lra).
  assert (i'1 : / n' <= 1002 / 1000 * / n). { apply Rmult_le_reg_r with (n' * n); [apply Rmult_lt_0_compat; lra|]. replace (/ n' * (n' * n)) with n by (field; lra). replace (1002 / 1000 * / n * (n' * n)) with (1002 / 1000 * n') by (field; lra). lra. }
  assert (nin : n * / n = 1) by (field; lra).
  (* pi / n *)
  assert (D1 : Rabs (pi' / n' - PI / n) <= 122 / 10 * u * / n).
  { replace (pi' / n' - PI / n) with (((pi' - PI) + PI * (n - n') * / n) * / n') by (field; lra).
    rewrite Rabs_mult, (Rabs_right (/ n')) by lra.
    assert (X1 : Rabs (PI * (n - n') * / n) <= 4 * (u + et)).
    { rewrite !Rabs_mult, (Rabs_right PI), (Rabs_right (/ n)) by lra. rewrite Rmult_assoc. apply Rmult_le_compat; [lra|apply Rmult_le_pos; [apply Rabs_pos|lra]|lra|].
      apply Rle_trans with ((u * n + et) * / n); [apply Rmult_le_compat_r; [lra|]; apply Rabs_le; lra|]. replace ((u * n + et) * / n) with (u * (n * / n) + et * / n) by ring. rewrite nin.
      assert (et * / n <= et * 1) by (apply Rmult_le_compat_l; lra). lra. }
    apply Rle_trans with ((1211 / 100 * u) * (1002 / 1000 * / n)).
    - apply Rmult_le_compat; try apply Rabs_pos; try lra. eapply Rle_trans; [apply Rabs_triang|]. lra.
    - assert (0 <= u * / n) by (apply Rmult_le_pos; lra). nra. }
  assert (A0 : Rabs (PI / n) <= 4 * / n). { unfold Rdiv. rewrite Rabs_mult, (Rabs_right PI), (Rabs_right (/ n)) by lra. apply Rmult_le_compat_r; lra. }
  assert (uin : 0 <= u * / n <= / 16777216 * / n) by (split; [apply Rmult_le_pos; lra|apply Rmult_le_compat_r; lra]).
  assert (A1 : Rabs (pi' / n') <= 4001 / 1000 * / n). { replace (pi' / n') with ((pi' / n' - PI / n) + PI / n) by ring. eapply Rle_trans; [apply Rabs_triang|]. lra. }
  assert (Hq := AC (pi' / n') ltac:(lra)). set (q := rnd (pi' / n')) in *.
  assert (uA1 : u * Rabs (pi' / n') <= u * (4001 / 1000 * / n)) by (apply Rmult_le_compat_l; lra).
  assert (etn : et <= / 1000 * (u * / n)).
  { apply Rle_trans with (u / 1000000000000); auto. apply Rmult_le_reg_r with n; [lra|]. replace (/ 1000 * (u * / n) * n) with (/ 1000 * u) by (field; lra).
    apply Rle_trans with (u / 1000000000000 * 67108864); [apply Rmult_le_compat_l; [|lra]; lra|lra]. }
  assert (Dq : Rabs (q - PI / n) <= 163 / 10 * (u * / n)). { replace (q - PI / n) with ((q - pi' / n') + (pi' / n' - PI / n)) by ring. eapply Rle_trans; [apply Rabs_triang|]. lra. }
  set (s := match d with Forward => -1 | Backward => 1 end).
  assert (Aq : Rabs q <= 4001 / 1000 * / n). { replace q with ((q - PI / n) + PI / n) by ring. eapply Rle_trans; [apply Rabs_triang|]. lra. }
  assert (Es : rnd (q * s) = q * s).
  { assert (Fq : is_float prec emin q) by (apply Rf; lra). apply RE.
    - unfold s. rewrite Rabs_mult. destruct d; [rewrite (Rabs_left (-1)) by lra|rewrite Rabs_R1]; lra.
    - unfold s. destruct d; [replace (q * -1) with (- q) by ring; apply generic_format_opp; exact Fq|rewrite Rmult_1_r; exact Fq]. }
  rewrite Es. change (dsign d) with s.
  assert (As : Rabs s = 1) by (unfold s; destruct d; [rewrite Rabs_left; lra|apply Rabs_R1]).
  set (j := INR ((i * i) mod (N * 2))).
  assert (j0 : 0 <= j) by apply pos_INR. assert (j1 : j <= 2 * n). { unfold j, n. replace (2 * INR N) with (INR (N * 2)) by (rewrite mult_INR; cbn; ring). apply le_INR. apply Nat.lt_le_incl, Nat.mod_upper_bound. lia. }
  assert (Hj := AC j ltac:(rewrite Rabs_right; lra)). rewrite (Rabs_right j) in Hj by lra. set (j' := rnd j) in *.
  assert (uj : u * j <= u * (2 * n)) by (apply Rmult_le_compat_l; lra).
  assert (Aj : Rabs j' <= 2001 / 1000 * n). { replace j' with ((j' - j) + j) by ring. eapply Rle_trans; [apply Rabs_triang|]. rewrite (Rabs_right j) by lra. lra. }
  set (th := j * (PI / n * s)).
  assert (D2 : Rabs (j' * (q * s) - th) <= 4063 / 100 * u).
  { unfold th. replace (j' * (q * s) - j * (PI / n * s)) with ((j' * (q - PI / n) + (j' - j) * (PI / n)) * s) by ring. rewrite Rabs_mult, As, Rmult_1_r.
    eapply Rle_trans; [apply Rabs_triang|]. rewrite !Rabs_mult.
    assert (T1 : Rabs j' * Rabs (q - PI / n) <= 2001 / 1000 * n * (163 / 10 * (u * / n))) by (apply Rmult_le_compat; auto; apply Rabs_pos).
    assert (T2 : Rabs (j' - j) * Rabs (PI / n) <= (u * (2 * n) + et) * (4 * / n)) by (apply Rmult_le_compat; try apply Rabs_pos; auto; lra).
    replace (2001 / 1000 * n * (163 / 10 * (u * / n))) with (2001 / 1000 * (163 / 10) * u * (n * / n)) in T1 by ring.
    replace ((u * (2 * n) + et) * (4 * / n)) with (8 * u * (n * / n) + 4 * (et * / n)) in T2 by ring. rewrite nin in T1, T2.
    assert (et * / n <= et * 1) by (apply Rmult_le_compat_l; lra). lra. }
  assert (Ath : Rabs th <= 8). { unfold th. rewrite !Rabs_mult, As, Rmult_1_r, (Rabs_right j) by lra. apply Rle_trans with (2 * n * (4 * / n)); [apply Rmult_le_compat; auto; apply Rabs_pos|]. replace (2 * n * (4 * / n)) with (8 * (n * / n)) by ring. rewrite nin. lra. }
  assert (A2 : Rabs (j' * (q * s)) <= 8001 / 1000). { replace (j' * (q * s)) with ((j' * (q * s) - th) + th) by ring. eapply Rle_trans; [apply Rabs_triang|]. lra. }
  assert (HA := AC (j' * (q * s)) ltac:(lra)). set (angle := rnd (j' * (q * s))) in *.
  assert (uA2 : u * Rabs (j' * (q * s)) <= u * (8001 / 1000)) by (apply Rmult_le_compat_l; lra).
  assert (HAT : Rabs (angle - th) <= 487 / 10 * u). { replace (angle - th) with ((angle - j' * (q * s)) + (j' * (q * s) - th)) by ring. eapply Rle_trans; [apply Rabs_triang|]. lra. }
  destruct (weight_error prec emin emax Hprec Hemin Hemax Hgap rnd fcos fsin Hrnd Hcos Hsin Ht He angle _ _ HAT) as (W1 & W2 & W3 & W4). fold u in W4.
  rewrite W1, W2. eapply Rle_trans; [exact W4|]. lra.
Qed.

Local Lemma CB : 28 * u <= c <= / 10000. Proof using All. exact (c_bounds prec emin emax Hprec' Hemin Hemax Hgap rnd fcos fsin Hrnd Hcos Hsin Ht He p Hp). Qed.
Local Lemma SB : 1 <= sK <= 11600 /\ sK * sK = INR K. Proof using All. exact (sK_bounds prec emin emax Hprec' Hemin Hemax Hgap rnd fcos fsin Hrnd Hcos Hsin Ht He p Hp). Qed.
Local Lemma TU : 0 < tiny emin <= / 2 ^ 86 * u. Proof using All. exact (tiny_u prec emin emax Hprec' Hemin Hemax Hgap rnd fcos fsin Hrnd Hcos Hsin Ht He p Hp). Qed.
Local Lemma small_et : et <= / 1000000000000000000000000 * u.
Proof using All. pose proof E120. pose proof U. eapply Rle_trans; [apply H|]. apply Rmult_le_compat_r; [lra|]. apply Rinv_le_contravar; lra. Qed.
Local Lemma KN : (2 * N + 1 <= K /\ K <= 4 * N)%nat.
Proof using All.
  split; [apply log2_up_odd_pow|]. unfold K, p, border. pose proof (Nat.log2_up_spec (N * 2 + 1) ltac:(lia)) as [A _]. pose proof (border_pos N HN) as B. unfold border in B.
  destruct (Nat.log2_up (N * 2 + 1)) as [|k]; [lia|]. cbn [Nat.pred] in A. rewrite Nat.pow_succ_r'. lia.
Qed.

(** A transform of a vector near [V] is near the transform of [V]. *)
Lemma transform_error : forall d v V E Y, length v = K -> vnorm K V <= Y -> vnorm K (fun i => nth i v C0 - V i)%C <= E * Y -> 0 <= E <= / 1000 -> / 1000000000000 <= Y <= 2 ^ 110 ->
  vnorm K (fun i => nth i (FR rnd fcos fsin p d v) C0 - DFT d K V i)%C <= (1001 / 1000 * c + E + / 10 * u) * (sK * Y).
Proof using All.
  intros d v V E Y Lv HV HE E1 HY. pose proof U as U. pose proof CB as CB. pose proof SB as [SB _]. pose proof TU as TU.
  assert (Nv : vnorm K (fun i => nth i v C0) <= 1001 / 1000 * Y).
  { apply Rle_trans with (vnorm K (fun i => V i + (nth i v C0 - V i))%C). { right. apply vnorm_ext. intros. ring. }
    eapply Rle_trans; [apply vnorm_add|]. assert (E * Y <= / 1000 * Y) by (apply Rmult_le_compat_r; lra). lra. }
  assert (B16 : 2 ^ 111 <= bpow radix2 (emax - 16)) by (rewrite <- (bpow_IZR 111); apply bpow_le; lia).
  assert (P111 : 2 ^ 111 = 2 * 2 ^ 110) by (change (2 ^ 111) with (2 * 2 ^ 110); auto).
  assert (F := FR_error prec emin emax Hprec' Hemin Hemax Hgap rnd fcos fsin Hrnd Hcos Hsin Ht He p Hp d v Lv ltac:(fold K; lra)). fold K u in F. fold sK c in F.
  apply Rle_trans with (vnorm K (fun i => (nth i (FR rnd fcos fsin p d v) C0 - DFT d K (fun i => nth i v C0) i) + DFT d K (fun i => nth i v C0 - V i) i)%C).
  { right. apply vnorm_ext. intros i Hi. rewrite <- DFT_minus. ring. }
  eapply Rle_trans; [apply vnorm_add|]. unfold K at 3 4. rewrite norm_DFT. fold K sK.
  assert (A1 : sK * vnorm K (fun i => (nth i v C0 - V i)%C) <= sK * (E * Y)) by (apply Rmult_le_compat_l; lra).
  assert (A2 : c * (sK * vnorm K (fun i => nth i v C0)) <= c * (sK * (1001 / 1000 * Y))) by (apply Rmult_le_compat_l; [lra|]; apply Rmult_le_compat_l; lra).
  assert (SY : / 1000000000000 <= sK * Y). { apply Rle_trans with (1 * Y); [lra|]. apply Rmult_le_compat_r; lra. }
  assert (A3 : tiny emin <= / 10 * u * (sK * Y)).
  { apply Rle_trans with (/ 2 ^ 86 * u); [apply TU|]. apply Rle_trans with (/ 10 * u * / 1000000000000); [|apply Rmult_le_compat_l; lra]. replace (/ 10 * u * / 1000000000000) with (/ 10000000000000 * u) by field. apply Rmult_le_compat_r; [lra|]. apply Rinv_le_contravar; lra. }
  replace ((1001 / 1000 * c + E + / 10 * u) * (sK * Y)) with (c * (sK * (1001 / 1000 * Y)) + sK * (E * Y) + / 10 * u * (sK * Y)) by ring. lra.
Qed.

Variables (d : direction) (x : list C) (X : R).
Hypothesis Hx : length x = N.
Hypothesis HX : vnorm N (fun i => nth i x C0) <= X.
Hypothesis HXr : / 2 ^ 20 <= X <= 2 ^ 40.
Let Hb := sqrt (2 * INR N).
Let xf := fun i => nth i x C0.
Let av := fun i => if (i <? N)%nat then (xf i * chirp d N i)%C else C0.
Let bv := bspec d N K.
Local Lemma XB : / 1048576 <= X <= 1099511627776. Proof using HXr. assert (2 ^ 20 = 1048576) by lra. assert (2 ^ 40 = 1099511627776) by lra. rewrite H, H0 in HXr. exact HXr. Qed.
Local Lemma HB : 1 <= Hb <= 11600.
Proof using All.
  pose proof NB as NB. unfold Hb. split; [rewrite <- sqrt_1 at 1; apply sqrt_le_1_alt; lra|]. replace 11600 with (sqrt (11600 * 11600)) by (apply sqrt_square; lra). apply sqrt_le_1_alt. lra.
Qed.

Lemma av_norm : vnorm K av <= X.
Proof using All.
  pose proof KN as [K1 _]. unfold av. rewrite (vnorm_cut N K) by lia. eapply Rle_trans; [|exact HX]. right.
  apply vnorm_isometry. intros i Hi. change (Cnorm2 (xf i * chirp d N i)%C = Cnorm2 (xf i)). rewrite <- !Cabs_sq, Cabs_mul, Cabs_chirp. ring.
Qed.

Lemma ra_error : vnorm K (fun i => nth i (tab K (ra rnd fcos fsin d N K xf)) C0 - av i)%C <= 543 / 10 * u * X.
Proof using All.
  pose proof KN as [K1 _]. pose proof U as U. pose proof E120 as E1. pose proof small_et as E2. pose proof SB as [SB _]. pose proof XB as XB. pose proof OB as OB.
  assert (OB' : 1000000000000000 <= Om) by (eapply Rle_trans; [|exact OB]; lra).
  assert (A : vnorm K (fun i => nth i (tab K (ra rnd fcos fsin d N K xf)) C0 - av i)%C <= 542 / 10 * u * vnorm K (fun i => if (i <? N)%nat then xf i else C0) + 46 / 10 * et * sK).
  { apply vnorm_affine; [lra|lra|]. intros i Hi. rewrite nth_tab by exact Hi. unfold ra, av. destruct (Nat.ltb_spec i N) as [L|L].
    - rewrite rmul_comm. rewrite (Cmul_swap (xf i)).
      assert (Ax : Cabs (xf i) <= X) by (eapply Rle_trans; [apply (Cabs_le_vnorm N (fun i => nth i x C0) i L)|exact HX]).
      eapply Rle_trans; [apply (product_error rnd u et Om (51 * u) AC ltac:(lra) ltac:(lra) ltac:(lra) _ _ (xf i) (Cabs_chirp d N i) (rchirp_error d i L) ltac:(lra))|].
      replace (32 / 10 * u + 51 * u) with (542 / 10 * u) by field. lra.
    - replace (C0 - C0)%C with C0 by ring. rewrite Cabs_0. lra. }
  rewrite (vnorm_cut N K) in A by lia. fold xf in HX.
  assert (542 / 10 * u * vnorm N xf <= 542 / 10 * u * X) by (apply Rmult_le_compat_l; lra).
  assert (et * sK <= (/ 1000000000000000000000000 * u) * 11600) by (apply Rmult_le_compat; lra).
  assert (u * (/ 1048576) <= u * X) by (apply Rmult_le_compat_l; lra). lra.
Qed.

Lemma bv_abs : forall i, (i < K)%nat -> Cabs (bv i) = ind N K i.
Proof using All.
  intros i Hi. unfold bv, bspec, ind. destruct (i <? N)%nat; [rewrite Cabs_Cconj; apply Cabs_chirp|]. destruct (K - N <? i)%nat; [rewrite Cabs_Cconj; apply Cabs_chirp|apply Cabs_0].
Qed.
Lemma bv_norm : vnorm K bv <= Hb.
Proof using All.
  rewrite vnorm_rnorm. rewrite (rnorm_ext K _ (ind N K)) by (intros; apply bv_abs; auto). apply ind_norm. apply KN.
Qed.

Lemma rb_error : vnorm K (fun i => nth i (tab K (rb rnd fcos fsin d N K)) C0 - bv i)%C <= 51 * u * Hb.
Proof using All.
  pose proof KN as [K1 _]. pose proof U as U. rewrite vnorm_rnorm. apply Rle_trans with (rnorm K (fun i => 51 * u * ind N K i)).
  - apply rnorm_mono. intros i Hi. split; [apply Cabs_pos|]. rewrite nth_tab by exact Hi. unfold rb, bv, bspec, ind.
    assert (S : forall j, (j < N)%nat -> Cabs (Cconj (rchirp rnd fcos fsin d N j) - Cconj (chirp d N j))%C <= 51 * u * 1).
    { intros j Hj. replace (Cconj (rchirp rnd fcos fsin d N j) - Cconj (chirp d N j))%C with (Cconj (rchirp rnd fcos fsin d N j - chirp d N j)) by (apply C_eq; unfold Cconj, Csub, Cadd, Copp; cbn; ring).
      rewrite Cabs_Cconj. pose proof (rchirp_error d j Hj). lra. }
    destruct (Nat.eqb_spec i 0) as [->|Hz].
    + rewrite (proj2 (Nat.ltb_lt 0 N)) by lia. replace (Cconj (chirp d N 0)) with (chirp d N 0) by (unfold chirp; rewrite W_0; symmetry; apply Cconj_1). pose proof (rchirp_error d 0 HN). lra.
    + destruct (Nat.ltb_spec i N); [apply S; auto|]. destruct (Nat.ltb_spec (K - N) i); [apply S; lia|]. replace (C0 - C0)%C with C0 by ring. rewrite Cabs_0. lra.
  - rewrite rnorm_scale by lra. apply Rmult_le_compat_l; [lra|]. apply ind_norm. exact K1.
Qed.

Let Af := FR rnd fcos fsin p Forward (tab K (ra rnd fcos fsin d N K xf)).
Let Bf := FR rnd fcos fsin p Forward (tab K (rb rnd fcos fsin d N K)).
Let AF := DFT Forward K av.
Let BF := DFT Forward K bv.
Let w := sK * X.
Let h := sK * Hb.
Let del := 1001 / 1000 * c + 544 / 10 * u.

Lemma Af_error : vnorm K (fun k => nth k Af C0 - AF k)%C <= del * w.
Proof using All.
  pose proof U as U. pose proof XB as XB. unfold Af, AF, w. eapply Rle_trans; [apply (transform_error Forward _ av (543 / 10 * u) X)|].
  - apply tab_length.
  - exact av_norm.
  - exact ra_error.
  - lra.
  - split; [lra|]. apply Rle_trans with (2 ^ 40); [apply HXr|]. apply Rle_pow; [lra|lia].
  - unfold del. right. f_equal. field.
Qed.

Lemma Bf_error : vnorm K (fun k => nth k Bf C0 - BF k)%C <= del * h.
Proof using All.
  pose proof U as U. pose proof HB as HB. pose proof SB as [SB _]. unfold Bf, BF, h. eapply Rle_trans; [apply (transform_error Forward _ bv (51 * u) Hb)|].
  - apply tab_length.
  - exact bv_norm.
  - exact rb_error.
  - lra.
  - split; [lra|]. apply Rle_trans with (2 ^ 40); [lra|]. apply Rle_pow; [lra|lia].
  - apply Rmult_le_compat_r; [apply Rmult_le_pos; lra|]. unfold del. lra.
Qed.

Lemma AF_norm : vnorm K AF <= w.
Proof using All. pose proof SB as [SB _]. unfold AF. unfold K at 1 2. rewrite norm_DFT. fold K sK. unfold w. apply Rmult_le_compat_l; [lra|apply av_norm]. Qed.
Lemma BF_norm : vnorm K BF <= h.
Proof using All. pose proof SB as [SB _]. unfold BF. unfold K at 1 2. rewrite norm_DFT. fold K sK. unfold h. apply Rmult_le_compat_l; [lra|apply bv_norm]. Qed.
Lemma del_bounds : 0 <= del <= / 2000.
Proof using All. pose proof U. pose proof CB. unfold del. lra. Qed.
Lemma vnorm_mul : forall n f g, vnorm n (fun i => f i * g i)%C <= vnorm n f * vnorm n g.
Proof using. intros n f g. rewrite !vnorm_rnorm. rewrite (rnorm_ext n _ (fun i => Cabs (f i) * Cabs (g i))) by (intros; apply Cabs_mul). apply rnorm_mul; intros; apply Cabs_pos. Qed.
Lemma wh_bounds : / 1048576 <= w * h <= 2 ^ 100 /\ 0 < w /\ 0 < h.
Proof using All.
  pose proof XB as XB. pose proof HB as HB. pose proof SB as [SB _].
  assert (w1 : 1 * / 1048576 <= w) by (unfold w; apply Rmult_le_compat; lra). assert (h1 : 1 * 1 <= h) by (unfold h; apply Rmult_le_compat; lra).
  assert (w2 : w <= 11600 * 1099511627776) by (unfold w; apply Rmult_le_compat; lra). assert (h2 : h <= 11600 * 11600) by (unfold h; apply Rmult_le_compat; lra).
  split; [|lra]. split.
  - replace (/ 1048576) with (1 * / 1048576 * (1 * 1)) by ring. apply Rmult_le_compat; lra.
  - eapply Rle_trans; [apply Rmult_le_compat; [lra|lra|exact w2|exact h2]|]. lra.
Qed.

Let Pf := tab K (fun k => rmul rnd (nth k Af C0) (nth k Bf C0)).
Let eP := 2001 / 1000 * del + 312 / 100 * u.

Lemma product_norm : vnorm K (fun k => AF k * BF k)%C <= w * h.
Proof using All.
  eapply Rle_trans; [apply vnorm_mul|]. apply Rmult_le_compat; try apply vnorm_pos; [apply AF_norm|apply BF_norm].
Qed.

Lemma Pf_error : vnorm K (fun k => nth k Pf C0 - AF k * BF k)%C <= eP * (w * h).
Proof using All.
  pose proof U as U. pose proof E120 as E1. pose proof small_et as E2. pose proof SB as [SB _]. pose proof OB as OB. pose proof del_bounds as DB. destruct wh_bounds as (WH & w0 & h0).
  assert (O100 : 2 * 2 ^ 100 + 1 <= Om) by (eapply Rle_trans; [|exact OB]; lra).
  pose proof Af_error as EA. pose proof Bf_error as EB. pose proof AF_norm as NA. pose proof BF_norm as NB'.
  assert (dw : del * w <= / 2000 * w) by (apply Rmult_le_compat_r; lra). assert (dh : del * h <= / 2000 * h) by (apply Rmult_le_compat_r; lra).
  assert (Na : vnorm K (fun k => nth k Af C0) <= 10005 / 10000 * w).
  { apply Rle_trans with (vnorm K (fun i => AF i + (nth i Af C0 - AF i))%C). { right. apply vnorm_ext. intros. ring. } eapply Rle_trans; [apply vnorm_add|]. lra. }
  assert (Nb : vnorm K (fun k => nth k Bf C0) <= 10005 / 10000 * h).
  { apply Rle_trans with (vnorm K (fun i => BF i + (nth i Bf C0 - BF i))%C). { right. apply vnorm_ext. intros. ring. } eapply Rle_trans; [apply vnorm_add|]. lra. }
  assert (Nab : vnorm K (fun k => nth k Af C0 * nth k Bf C0)%C <= 1002 / 1000 * (w * h)).
  { eapply Rle_trans; [apply vnorm_mul|]. apply Rle_trans with (10005 / 10000 * w * (10005 / 10000 * h)); [apply Rmult_le_compat; auto; apply vnorm_pos|].
    replace (10005 / 10000 * w * (10005 / 10000 * h)) with (10005 / 10000 * (10005 / 10000) * (w * h)) by ring. apply Rmult_le_compat_r; lra. }
  assert (S1 : vnorm K (fun k => nth k Pf C0 - nth k Af C0 * nth k Bf C0)%C <= 31 / 10 * u * vnorm K (fun k => nth k Af C0 * nth k Bf C0)%C + 46 / 10 * et * sK).
  { apply vnorm_affine; [lra|lra|]. intros k Hk. unfold Pf. rewrite nth_tab by exact Hk. rewrite Cabs_mul. apply (rmul_error rnd u et Om 0 AC); try lra.
    rewrite <- Cabs_mul. pose proof (Cabs_le_vnorm K (fun k => nth k Af C0 * nth k Bf C0)%C k Hk) as Q. cbv beta in Q. lra. }
  apply Rle_trans with (vnorm K (fun k => (nth k Pf C0 - nth k Af C0 * nth k Bf C0) + ((nth k Af C0 - AF k) * nth k Bf C0 + AF k * (nth k Bf C0 - BF k)))%C).
  { right. apply vnorm_ext. intros. ring. }
  eapply Rle_trans; [apply vnorm_add|]. eapply Rle_trans; [apply Rplus_le_compat; [exact S1|apply vnorm_add]|].
  assert (T1 : vnorm K (fun k => (nth k Af C0 - AF k) * nth k Bf C0)%C <= del * w * (10005 / 10000 * h)). { eapply Rle_trans; [apply vnorm_mul|]. apply Rmult_le_compat; auto; apply vnorm_pos. }
  assert (T2 : vnorm K (fun k => AF k * (nth k Bf C0 - BF k))%C <= w * (del * h)). { eapply Rle_trans; [apply vnorm_mul|]. apply Rmult_le_compat; auto; apply vnorm_pos. }
  assert (T3 : 31 / 10 * u * vnorm K (fun k => nth k Af C0 * nth k Bf C0)%C <= 31 / 10 * u * (1002 / 1000 * (w * h))) by (apply Rmult_le_compat_l; lra).
  assert (T4 : et * sK <= (/ 1000000000000000000000000 * u) * 11600) by (apply Rmult_le_compat; lra).
  assert (T5 : u * (/ 1048576) <= u * (w * h)) by (apply Rmult_le_compat_l; lra).
  assert (T6 : 0 <= del * (w * h)) by (apply Rmult_le_pos; lra).
  replace (del * w * (10005 / 10000 * h)) with (10005 / 10000 * (del * (w * h))) in T1 by ring. replace (w * (del * h)) with (del * (w * h)) in T2 by ring.
  replace (31 / 10 * u * (1002 / 1000 * (w * h))) with (31062 / 10000 * (u * (w * h))) in T3 by field.
  replace (eP * (w * h)) with (2001 / 1000 * (del * (w * h)) + 312 / 100 * (u * (w * h))) by (unfold eP; ring). lra.
Qed.

Let Zf := FR rnd fcos fsin p Backward Pf.
Let cv := cconv K av bv.
Let Q := sK * X * Hb.
Let eZ := 3006 / 1000 * c + 1122 / 10 * u.

Lemma K_pos : 1 <= INR K.
Proof using All. pose proof SB as [S1 S2]. rewrite <- S2. assert (1 * 1 <= sK * sK) by (apply Rmult_le_compat; lra). lra. Qed.

Lemma Zf_error : vnorm K (fun i => nth i Zf C0 - RtoC (INR K) * cv i)%C <= eZ * (INR K * Q).
Proof using All.
  pose proof U as U. pose proof CB as CB. pose proof SB as [S1 S2]. destruct wh_bounds as (WH & w0 & h0). pose proof K_pos as KP.
  assert (Kn : (0 < K)%nat) by (apply INR_lt; cbn; lra).
  assert (F := transform_error Backward Pf (fun k => AF k * BF k)%C eP (w * h)). cbv beta in F.
  specialize (F (tab_length _ K _) product_norm Pf_error). eapply Rle_trans; [|eapply Rle_trans; [apply F|]].
  - right. apply vnorm_ext. intros i Hi. f_equal. unfold AF, BF.
    rewrite (DFT_ext Backward K (fun k => DFT Forward K av k * DFT Forward K bv k)%C (DFT Forward K cv)) by (intros k Hk; unfold cv; rewrite DFT_cconv by exact Kn; reflexivity).
    change Backward with (flip Forward). rewrite DFT_inv by exact Hi. reflexivity.
  - unfold eP, del. lra.
  - split; [lra|]. eapply Rle_trans; [apply WH|]. apply Rle_pow; [lra|lia].
  - replace (INR K * Q) with (sK * (w * h)) by (unfold Q, w, h; rewrite <- S2; ring). apply Rmult_le_compat_r; [apply Rmult_le_pos; lra|]. unfold eP, del, eZ. lra.
Qed.

Lemma cv_norm : vnorm K cv <= Q.
Proof using All.
  pose proof SB as [S1 S2]. pose proof K_pos as KP. assert (Kn : (0 < K)%nat) by (apply INR_lt; cbn; lra).
  assert (E : sK * vnorm K cv <= sK * Q).
  { replace (sK * Q) with (w * h) by (unfold Q, w, h; ring). eapply Rle_trans; [|apply product_norm]. right. unfold sK. unfold K at 1 2. rewrite <- (norm_DFT Forward). fold K. apply vnorm_ext. intros k Hk. unfold cv, AF, BF. apply DFT_cconv. exact Kn. }
  apply Rmult_le_reg_l with sK; lra.
Qed.

Lemma Q_bounds : / 1048576 <= Q <= 2 ^ 80.
Proof using All.
  pose proof XB as XB. pose proof HB as HB. pose proof SB as [SB _].
  assert (w1 : 1 * / 1048576 <= sK * X) by (apply Rmult_le_compat; lra). assert (w2 : sK * X <= 11600 * 1099511627776) by (apply Rmult_le_compat; lra). unfold Q. split.
  - replace (/ 1048576) with (1 * / 1048576 * 1) by ring. apply Rmult_le_compat; lra.
  - eapply Rle_trans; [apply Rmult_le_compat; [lra|lra|exact w2|apply HB]|]. lra.
Qed.

(** The scaled vector. *)
Let sv : nat -> C := fun i => let v := nth i Zf C0 in (rnd (fst v * rinv_size rnd K), rnd (snd v * rinv_size rnd K)).
Lemma sv_error : vnorm K (fun i => sv i - cv i)%C <= (eZ + 102 / 100 * u) * Q.
Proof using All.
  pose proof U as U. pose proof CB as CB. pose proof E120 as E1. pose proof small_et as E2. pose proof SB as [S1 S2]. pose proof K_pos as KP. pose proof Q_bounds as QB. pose proof OB as OB.
  assert (O100 : 2 * 2 ^ 100 + 1 <= Om) by (eapply Rle_trans; [|exact OB]; lra). assert (Q100 : Q <= 2 ^ 99) by (eapply Rle_trans; [apply QB|]; apply Rle_pow; [lra|lia]). assert (P99 : 2 ^ 100 = 2 * 2 ^ 99) by (change (2 ^ 100) with (2 * 2 ^ 99); auto). assert (P0 : 0 < 2 ^ 99) by (apply pow_lt; lra).
  assert (RI : rinv_size rnd K = / INR K) by exact (rinv_exact prec emin emax Hprec' Hemin Hemax Hgap rnd fcos fsin Hrnd Hcos Hsin Ht He p Hp).
  assert (eZb : 0 <= eZ <= / 1000) by (unfold eZ; lra).
  set (zs := fun i => (RtoC (/ INR K) * nth i Zf C0)%C).
  assert (A1 : vnorm K (fun i => zs i - cv i)%C <= eZ * Q).
  { apply Rmult_le_reg_l with (INR K); [lra|]. eapply Rle_trans; [|eapply Rle_trans; [apply Zf_error|right; ring]]. right.
    rewrite !vnorm_rnorm. rewrite <- rnorm_scale by lra. apply rnorm_ext. intros i Hi. rewrite <- (Rabs_right (INR K)) at 1 by lra. rewrite <- Cabs_of_real, <- Cabs_mul. f_equal. unfold zs.
    apply C_eq; unfold Cmul, Csub, Cadd, Copp, RtoC; cbn; field; lra. }
  assert (eQ : eZ * Q <= / 1000 * Q) by (apply Rmult_le_compat_r; lra).
  assert (A2 : vnorm K zs <= 1001 / 1000 * Q).
  { apply Rle_trans with (vnorm K (fun i => cv i + (zs i - cv i))%C). { right. apply vnorm_ext. intros. ring. } eapply Rle_trans; [apply vnorm_add|]. pose proof cv_norm. lra. }
  assert (A3 : vnorm K (fun i => sv i - zs i)%C <= u * vnorm K zs + 3 / 2 * et * sK).
  { apply vnorm_affine; [lra|lra|]. intros i Hi. pose proof (Cabs_le_vnorm K zs i Hi) as B. pose proof (Rabs_le_Cabs (zs i)) as [B1 B2].
    assert (Z1 : fst (zs i) = fst (nth i Zf C0) * rinv_size rnd K) by (rewrite RI; unfold zs, Cmul, RtoC; cbn; ring).
    assert (Z2 : snd (zs i) = snd (nth i Zf C0) * rinv_size rnd K) by (rewrite RI; unfold zs, Cmul, RtoC; cbn; ring).
    apply Cabs_affine; [lra|lra| |].
    - change (fst (sv i - zs i)%C) with (rnd (fst (nth i Zf C0) * rinv_size rnd K) - fst (zs i)). rewrite Z1 in *. apply AC. lra.
    - change (snd (sv i - zs i)%C) with (rnd (snd (nth i Zf C0) * rinv_size rnd K) - snd (zs i)). rewrite Z2 in *. apply AC. lra. }
  apply Rle_trans with (vnorm K (fun i => (sv i - zs i) + (zs i - cv i))%C). { right. apply vnorm_ext. intros. ring. }
  eapply Rle_trans; [apply vnorm_add|].
  assert (T3 : u * vnorm K zs <= u * (1001 / 1000 * Q)) by (apply Rmult_le_compat_l; lra).
  assert (T4 : et * sK <= (/ 1000000000000000000000000 * u) * 11600) by (apply Rmult_le_compat; lra).
  assert (T5 : u * (/ 1048576) <= u * Q) by (apply Rmult_le_compat_l; lra).
  rewrite Rmult_plus_distr_r. lra.
Qed.

Theorem bluestein_error : vnorm N (fun k => nth k (RBL rnd fcos fsin d x) C0 - DFT d N (fun i => nth i x C0) k)%C <= 481 * INR p * u * (INR N * X).
Proof using All.
  pose proof U as U. pose proof CB as CB. pose proof E120 as E1. pose proof small_et as E2. pose proof SB as [S1 S2]. pose proof K_pos as KP. pose proof Q_bounds as QB. pose proof OB as OB. pose proof KN as [K1 K2].
  assert (O100 : 2 * 2 ^ 100 + 1 <= Om) by (eapply Rle_trans; [|exact OB]; lra). assert (Q100 : Q <= 2 ^ 90) by (eapply Rle_trans; [apply QB|]; apply Rle_pow; [lra|lia]). assert (P99 : 2 ^ 100 = 1024 * 2 ^ 90) by lra. assert (P0 : 0 < 2 ^ 90) by (apply pow_lt; lra).
  assert (p2 : 2 <= INR p). { change 2 with (INR 2). apply le_INR. apply border_pos. exact HN. }
  pose proof sv_error as SE. pose proof cv_norm as CN.
  assert (eZb : 0 <= eZ + 102 / 100 * u <= / 1000) by (unfold eZ; lra).
  assert (eQ : (eZ + 102 / 100 * u) * Q <= / 1000 * Q) by (apply Rmult_le_compat_r; lra).
  assert (Ns : vnorm K sv <= 1001 / 1000 * Q).
  { apply Rle_trans with (vnorm K (fun i => cv i + (sv i - cv i))%C). { right. apply vnorm_ext. intros. ring. } eapply Rle_trans; [apply vnorm_add|]. lra. }
  assert (Nn : vnorm N sv <= 1001 / 1000 * Q) by (eapply Rle_trans; [apply (vnorm_le N K); lia|exact Ns]).
  assert (A1 : vnorm N (fun k => nth k (RBL rnd fcos fsin d x) C0 - sv k * chirp d N k)%C <= 542 / 10 * u * vnorm N sv + 46 / 10 * et * sqrt (INR N)).
  { apply vnorm_affine; [lra|lra|]. intros k Hk. unfold RBL. rewrite Hx. rewrite nth_tab by exact Hk. cbv zeta. fold p K. unfold RP. rewrite Hx. cbv zeta. fold p K. fold xf.
    change (FR rnd fcos fsin p Forward (tab K (ra rnd fcos fsin d N K xf))) with Af. change (FR rnd fcos fsin p Forward (tab K (rb rnd fcos fsin d N K))) with Bf. fold Pf. fold Zf.
    change (rnd (fst (nth k Zf C0) * rinv_size rnd K), rnd (snd (nth k Zf C0) * rinv_size rnd K)) with (sv k).
    rewrite rmul_comm. rewrite (Cmul_swap (sv k)). pose proof (Cabs_le_vnorm N sv k Hk) as B.
    eapply Rle_trans; [apply (product_error rnd u et Om (51 * u) AC ltac:(lra) ltac:(lra) ltac:(lra) _ _ (sv k) (Cabs_chirp d N k) (rchirp_error d k Hk) ltac:(lra))|].
    replace (32 / 10 * u + 51 * u) with (542 / 10 * u) by field. lra. }
  assert (A2 : vnorm N (fun k => sv k * chirp d N k - DFT d N (fun i => nth i x C0) k)%C <= (eZ + 102 / 100 * u) * Q).
  { eapply Rle_trans; [|exact SE]. eapply Rle_trans; [|apply (vnorm_le N K (fun i => sv i - cv i)%C); lia]. right. apply vnorm_isometry. intros k Hk.
    rewrite <- (bluestein_sum d N K (fun i => nth i x C0) k HN K1 Hk). change (cconv K (fun i => if (i <? N)%nat then (nth i x C0 * chirp d N i)%C else C0) (bspec d N K) k) with (cv k).
    replace (sv k * chirp d N k - cv k * chirp d N k)%C with ((sv k - cv k) * chirp d N k)%C by ring. rewrite <- !Cabs_sq, Cabs_mul, Cabs_chirp. ring. }
  assert (A : vnorm N (fun k => nth k (RBL rnd fcos fsin d x) C0 - DFT d N (fun i => nth i x C0) k)%C <= 170 * INR p * u * Q).
  { apply Rle_trans with (vnorm N (fun k => (nth k (RBL rnd fcos fsin d x) C0 - sv k * chirp d N k) + (sv k * chirp d N k - DFT d N (fun i => nth i x C0) k))%C). { right. apply vnorm_ext. intros. ring. }
    eapply Rle_trans; [apply vnorm_add|].
    assert (T3 : u * vnorm N sv <= u * (1001 / 1000 * Q)) by (apply Rmult_le_compat_l; lra).
    assert (sN : 0 <= sqrt (INR N) <= 11600). { split; [apply sqrt_pos|]. apply Rle_trans with sK; [|lra]. unfold sK. apply sqrt_le_1_alt. apply le_INR. lia. }
    assert (T4 : et * sqrt (INR N) <= (/ 1000000000000000000000000 * u) * 11600) by (apply Rmult_le_compat; lra).
    assert (T5 : u * (/ 1048576) <= u * Q) by (apply Rmult_le_compat_l; lra).
    assert (T6 : 2 * (u * Q) <= INR p * (u * Q)) by (apply Rmult_le_compat_r; lra).
    replace (170 * INR p * u * Q) with (170 * (INR p * (u * Q))) by ring. unfold eZ, c in A2.
    replace ((3006 / 1000 * (28 * INR p * u) + 1122 / 10 * u + 102 / 100 * u) * Q) with (3006 / 1000 * 28 * (INR p * (u * Q)) + (1122 / 10 + 102 / 100) * (u * Q)) in A2 by ring. lra. }
  eapply Rle_trans; [exact A|].
  assert (QN : Q <= 2829 / 1000 * (INR N * X)).
  { pose proof XB as XB. pose proof NB as NB. unfold Q. replace (sK * X * Hb) with (sK * Hb * X) by ring. rewrite <- Rmult_assoc. apply Rmult_le_compat_r; [lra|].
    unfold sK, Hb. rewrite <- sqrt_mult by lra. replace (2829 / 1000 * INR N) with (sqrt (2829 / 1000 * INR N * (2829 / 1000 * INR N))) by (apply sqrt_square; lra). apply sqrt_le_1_alt.
    apply le_INR in K2. rewrite mult_INR in K2. change (INR 4) with (2 + 1 + 1) in K2. assert (INR K * (2 * INR N) <= (2 + 1 + 1) * INR N * (2 * INR N)) by (apply Rmult_le_compat_r; lra).
    assert (0 <= INR N * INR N) by (apply Rmult_le_pos; lra). lra. }
  assert (H : 170 * INR p * u * Q <= 170 * INR p * u * (2829 / 1000 * (INR N * X))). { apply Rmult_le_compat_l; [|exact QN]. apply Rmult_le_pos; lra. }
  eapply Rle_trans; [exact H|]. replace (170 * INR p * u * (2829 / 1000 * (INR N * X))) with (48093 / 100 * (INR p * u * (INR N * X))) by field. replace (481 * INR p * u * (INR N * X)) with (481 * (INR p * u * (INR N * X))) by ring.
  apply Rmult_le_compat_r; [|lra]. pose proof XB. pose proof NB. apply Rmult_le_pos; [apply Rmult_le_pos; lra|apply Rmult_le_pos; lra].
Qed.
End Format.
