(** The direct transform in rounded arithmetic. *)
From Coq Require Import Reals List Arith Lia Lra Psatz Bool ZArith.
From Flocq Require Import Core.
From Verif Require Import Base.Outcome Base.OutcomeFacts Base.Sums Base.Alias Base.Cplx Base.VecNorm Spec.Dft Spec.Rounding
  Model.Fft2 Model.Algorithm Model.FftApps Model.RoundedFft Model.RoundedConv Model.RoundedReal
  Proof.DftTheory Proof.Fft2Proof Proof.AlgorithmProof Proof.RoundedError Proof.RoundedPlan Proof.RoundedDct.
Import ListNotations.
Local Arguments Nat.div : simpl never.
Local Arguments Nat.modulo : simpl never.
Local Arguments Nat.pow : simpl never.

Section Structure.
Variables rnd fcos fsin : R -> R.

(** The running sum over the first [j] samples. *)
Fixpoint rdft_acc (d : direction) (x : list C) (k j : nat) : C :=
  match j with
  | O => C0
  | S j' => radd rnd (rdft_acc d x k j') (rmul rnd (nth j' x C0) (rdft_weight rnd fcos fsin d (length x) j' k))
  end.

Lemma rdft_inner : forall d x k, for_range 0 (length x) (fun n tmp =>
      input <- rd x n ;;
      Ok (radd rnd tmp (rmul rnd input (rdft_weight rnd fcos fsin d (length x) n k)))) C0 = Ok (rdft_acc d x k (length x)).
Proof using.
  intros d x k. destruct (for_range_inv _ (fun j s => s = rdft_acc d x k j) 0 (length x) (fun n tmp =>
      input <- rd x n ;;
      Ok (radd rnd tmp (rmul rnd input (rdft_weight rnd fcos fsin d (length x) n k)))) C0) as (s & E & ->); auto.
  - lia.
  - intros j s Hj ->. rewrite (rd_ok _ _ j C0) by lia. cbn [bind]. eexists. split; reflexivity.
Qed.

Lemma rdft_ok : forall d x out, length out = length x ->
  rdft rnd fcos fsin (Other x) out d = Ok (tab (length x) (fun k => rdft_acc d x k (length x))).
Proof using.
  intros d x out Ho. unfold rdft. cbn [contents].
  apply (for_range_tab _ C0); auto. intros j l Hj Hl _. rewrite rdft_inner. cbn [bind]. apply wr_ok. lia.
Qed.
End Structure.

Local Open Scope R_scope.

Section Format.
Variables (prec emin emax : Z).
Hypotheses (Hprec : (24 <= prec <= 53)%Z) (Hemin : (emin <= -149)%Z) (Hemax : (127 <= emax)%Z) (Hgap : (emin + prec <= -120)%Z).
Variables (rnd fcos fsin : R -> R).
Hypotheses (Hrnd : rounds_to_nearest prec emin emax rnd) (Hcos : accurate prec emin fcos cos) (Hsin : accurate prec emin fsin sin).
Let u := bpow radix2 (- prec).
Let et := bpow radix2 (emin - 1).
Let Om := bpow radix2 emax.
Hypotheses (Ht : is_float prec emin (rtwo_pi rnd)) (He : Rabs (rtwo_pi rnd - 2 * PI) <= 82 / 10 * bpow radix2 (- prec)).

Local Lemma U : 0 < u <= / 16777216. Proof using All. exact (RoundedDct.U prec emin emax Hprec Hemin Hemax Hgap rnd fcos fsin Hrnd Hcos Hsin Ht He). Qed.
Local Lemma E9 : 0 < et /\ et <= u / 1000000000. Proof using All. exact (RoundedDct.E9 prec emin emax Hprec Hemin Hemax Hgap rnd fcos fsin Hrnd Hcos Hsin Ht He). Qed.
Local Lemma AC : forall x, Rabs x <= Om -> Rabs (rnd x - x) <= u * Rabs x + et. Proof using All. exact (RoundedDct.AC prec emin emax Hprec Hemin Hemax Hgap rnd fcos fsin Hrnd Hcos Hsin Ht He). Qed.
Local Lemma OB : 1000000000000000000 <= Om. Proof using All. exact (RoundedDct.OB prec emin emax Hprec Hemin Hemax Hgap rnd fcos fsin Hrnd Hcos Hsin Ht He). Qed.
Local Lemma RE : forall x, Rabs x <= Om -> is_float prec emin x -> rnd x = x. Proof using All. exact (RoundedDct.RE prec emin emax Hprec Hemin Hemax Hgap rnd fcos fsin Hrnd Hcos Hsin Ht He). Qed.

Lemma rnd_nat : forall n, INR n <= 262144 -> rnd (INR n) = INR n.
Proof using All.
  intros n Hn. pose proof OB as OB. pose proof (pos_INR n). apply RE; [rewrite Rabs_right; lra|].
  apply generic_format_FLT. exists (Float radix2 (Z.of_nat n) 0).
  - unfold F2R. cbn [Fnum Fexp]. rewrite INR_IZR_INZ. cbn [bpow]. ring.
  - cbn [Fnum]. rewrite Z.abs_eq by lia. assert (Z.of_nat n <= 262144)%Z by (apply le_IZR; rewrite <- INR_IZR_INZ; exact Hn).
    apply Z.lt_le_trans with (Z.pow (radix_val radix2) 24); [change (Z.pow (radix_val radix2) 24) with 16777216%Z; lia|]. apply Z.pow_le_mono_r; [reflexivity|lia].
  - cbn [Fexp]. lia.
Qed.

Variable N : nat.
Hypothesis HN : (0 < N)%nat /\ INR N <= 262144.
Let tau := 328 / 10 * INR N * u + 3 / 2 * u.

Lemma dft_weight_error : forall d n k, (n < N)%nat -> (k < N)%nat ->
  Cabs (rdft_weight rnd fcos fsin d N n k - W d N (n * k))%C <= tau /\ Cabs (rdft_weight rnd fcos fsin d N n k) <= 1 + 3 / 2 * u.
Proof using All.
  intros d n k Hn Hk. pose proof U as U. pose proof E9 as E9. pose proof OB as OB. pose proof PI_4 as P4. pose proof PI2_1 as P2.
  unfold rdft_weight. cbv zeta. set (sign := match d with Forward => -1 | Backward => 1 end).
  assert (Hs : (sign = 1 \/ sign = -1) /\ sign = dsign d) by (unfold sign; destruct d; cbn; auto). destruct Hs as [Hs Hd].
  assert (As : Rabs sign = 1) by (destruct Hs as [->| ->]; [apply Rabs_R1|rewrite Rabs_left; lra]).
  set (tp := rtwo_pi rnd) in *. fold u in He.
  assert (Ht' : 2 * PI - 82 / 10 * u <= tp <= 2 * PI + 82 / 10 * u) by (unfold Rabs in He; destruct (Rcase_abs (tp - 2 * PI)); lra).
  assert (Atp : Rabs (sign * tp) <= 8001 / 1000) by (rewrite Rabs_mult, As, Rmult_1_l, Rabs_right; lra).
  destruct HN as [N0 NB]. assert (NR : INR n <= INR N) by (apply le_INR; lia). assert (KR : INR k <= INR N) by (apply le_INR; lia). pose proof (pos_INR n) as n0. pose proof (pos_INR k) as k0.
  assert (N1 : 1 <= INR N) by (change 1 with (INR 1); apply le_INR; lia).
  rewrite (RE (sign * tp)). 2:{ lra. } 2:{ destruct Hs as [->| ->]; [rewrite Rmult_1_l; exact Ht|]. replace (-1 * tp) with (- tp) by ring. apply generic_format_opp. exact Ht. }
  rewrite !rnd_nat by lra.
  set (nn := INR n) in *. set (kk := INR k) in *. set (M := INR N) in *. set (s := sign * tp) in *.
  assert (T1 : Rabs (s * nn) <= 8001 / 1000 * nn) by (rewrite Rabs_mult, (Rabs_right nn) by lra; apply Rmult_le_compat_r; lra).
  set (P := rnd (s * nn)). assert (HP := AC (s * nn) ltac:(lra)). fold P in HP.
  assert (uT1 : u * Rabs (s * nn) <= u * (8001 / 1000 * nn)) by (apply Rmult_le_compat_l; lra).
  assert (un : 0 <= u * nn <= / 16777216 * nn) by (split; [apply Rmult_le_pos; lra|apply Rmult_le_compat_r; lra]).
  assert (AP : Rabs P <= 8002 / 1000 * nn + et). { replace P with ((P - s * nn) + s * nn) by ring. eapply Rle_trans; [apply Rabs_triang|]. lra. }
  assert (nk : 0 <= nn * kk <= M * M) by (split; [apply Rmult_le_pos; lra|apply Rmult_le_compat; lra]).
  assert (MM : 0 <= M * M <= 262144 * 262144) by (split; [apply Rmult_le_pos; lra|apply Rmult_le_compat; lra]).
  assert (T2 : Rabs (P * kk) <= 8002 / 1000 * (nn * kk) + et * kk).
  { rewrite Rabs_mult, (Rabs_right kk) by lra. replace (8002 / 1000 * (nn * kk) + et * kk) with ((8002 / 1000 * nn + et) * kk) by ring. apply Rmult_le_compat_r; lra. }
  assert (etk : 0 <= et * kk <= et * M) by (split; [apply Rmult_le_pos; lra|apply Rmult_le_compat_l; lra]).
  assert (etM : et * M <= u / 1000000000 * 262144) by (apply Rmult_le_compat; lra).
  set (Q := rnd (P * kk)). assert (HQ := AC (P * kk) ltac:(lra)). fold Q in HQ.
  assert (uT2 : u * Rabs (P * kk) <= u * (8002 / 1000 * (nn * kk) + et * kk)) by (apply Rmult_le_compat_l; lra).
  assert (unk : 0 <= u * (nn * kk) <= u * (M * M)) by (split; [apply Rmult_le_pos; lra|apply Rmult_le_compat_l; lra]).
  assert (uek : u * (et * kk) <= / 16777216 * (et * M)) by (apply Rmult_le_compat; lra).
  assert (D1 : Rabs (Q - sign * (2 * PI) * (nn * kk)) <= 244 / 10 * (u * (M * M)) + 2 * (et * M) + et).
  { replace (Q - sign * (2 * PI) * (nn * kk)) with ((Q - P * kk) + ((P - s * nn) * kk + sign * (tp - 2 * PI) * (nn * kk))) by (unfold s; ring).
    assert (S1 : Rabs ((P - s * nn) * kk) <= 8001 / 1000 * (u * (nn * kk)) + et * kk).
    { rewrite Rabs_mult, (Rabs_right kk) by lra. replace (8001 / 1000 * (u * (nn * kk)) + et * kk) with ((u * (8001 / 1000 * nn) + et) * kk) by ring. apply Rmult_le_compat_r; lra. }
    assert (S2 : Rabs (sign * (tp - 2 * PI) * (nn * kk)) <= 82 / 10 * (u * (nn * kk))).
    { rewrite !Rabs_mult, As, Rmult_1_l. rewrite <- Rabs_mult, (Rabs_right (nn * kk)) by lra. replace (82 / 10 * (u * (nn * kk))) with (82 / 10 * u * (nn * kk)) by ring. apply Rmult_le_compat_r; lra. }
    eapply Rle_trans; [apply Rabs_triang|]. eapply Rle_trans; [apply Rplus_le_compat_l, Rabs_triang|]. lra. }
  assert (i0 : 0 < / M) by (apply Rinv_0_lt_compat; lra). assert (i1 : / M <= 1) by (rewrite <- Rinv_1; apply Rinv_le_contravar; lra).
  assert (D2 : Rabs (Q / M - sign * (2 * PI) * (nn * kk) / M) <= 244 / 10 * (u * M) + 3 * et).
  { replace (Q / M - sign * (2 * PI) * (nn * kk) / M) with ((Q - sign * (2 * PI) * (nn * kk)) * / M) by (field; lra). rewrite Rabs_mult, (Rabs_right (/ M)) by lra.
    apply Rle_trans with ((244 / 10 * (u * (M * M)) + 2 * (et * M) + et) * / M); [apply Rmult_le_compat_r; lra|].
    replace ((244 / 10 * (u * (M * M)) + 2 * (et * M) + et) * / M) with (244 / 10 * (u * M) + 2 * et + et * / M) by (field; lra).
    assert (et * / M <= et * 1) by (apply Rmult_le_compat_l; lra). lra. }
  assert (D3 : Rabs (sign * (2 * PI) * (nn * kk) / M) <= 8 * M).
  { unfold Rdiv. rewrite !Rabs_mult, As, Rmult_1_l, <- !Rabs_mult. rewrite Rabs_right by (apply Rle_ge, Rmult_le_pos; [apply Rmult_le_pos; lra|lra]).
    apply Rmult_le_reg_r with M; [lra|]. replace (2 * PI * (nn * kk) * / M * M) with (2 * PI * (nn * kk)) by (field; lra). replace (8 * M * M) with (8 * (M * M)) by ring. apply Rmult_le_compat; lra. }
  assert (uM : 0 <= u * M <= / 16777216 * M) by (split; [apply Rmult_le_pos; lra|apply Rmult_le_compat_r; lra]).
  assert (A2 : Rabs (Q / M) <= 8001 / 1000 * M). { replace (Q / M) with ((Q / M - sign * (2 * PI) * (nn * kk) / M) + sign * (2 * PI) * (nn * kk) / M) by ring. eapply Rle_trans; [apply Rabs_triang|]. lra. }
  set (angle := rnd (Q / M)). assert (HA := AC (Q / M) ltac:(lra)). fold angle in HA.
  assert (uA2 : u * Rabs (Q / M) <= u * (8001 / 1000 * M)) by (apply Rmult_le_compat_l; lra).
  assert (uM1 : u <= u * M) by (rewrite <- (Rmult_1_r u) at 1; apply Rmult_le_compat_l; lra).
  assert (HAT : Rabs (angle - sign * (2 * PI) * (nn * kk) / M) <= 328 / 10 * M * u).
  { replace (angle - sign * (2 * PI) * (nn * kk) / M) with ((angle - Q / M) + (Q / M - sign * (2 * PI) * (nn * kk) / M)) by ring. eapply Rle_trans; [apply Rabs_triang|]. lra. }
  destruct (weight_error prec emin emax Hprec Hemin Hemax Hgap rnd fcos fsin Hrnd Hcos Hsin Ht He angle _ _ HAT) as (W1 & W2 & W3 & W4). fold u in W3, W4. rewrite W1, W2. split.
  - replace (W d N (n * k)) with (Cexp (sign * (2 * PI) * (nn * kk) / M)). { unfold tau. fold M. lra. }
    unfold W. rewrite Hd, mult_INR. reflexivity.
  - replace (fcos angle, fsin angle) with (Cexp angle + ((fcos angle, fsin angle) - Cexp angle))%C by (apply C_eq; unfold Csub, Cadd, Copp, Cexp; cbn; ring). eapply Rle_trans; [apply Cabs_triang|]. rewrite Cabs_Cexp. lra.
Qed.

Theorem dft_error : forall d x k, length x = N -> (k < N)%nat -> Rsum N (fun i => Cabs (nth i x C0)) <= bpow radix2 (emax - 2) ->
  Cabs (rdft_acc rnd fcos fsin d x k N - DFT d N (fun i => nth i x C0) k)%C <= 40 * INR N * u * Rsum N (fun i => Cabs (nth i x C0)) + INR N * bpow radix2 (emin + 3).
Proof using All.
  intros d x k Hx Hk HS. pose proof U as U. pose proof E9 as E9. pose proof OB as OB. destruct HN as [N0 NB].
  assert (N1 : 1 <= INR N) by (change 1 with (INR 1); apply le_INR; lia). set (S := Rsum N (fun i => Cabs (nth i x C0))) in *.
  assert (OS : Om = 4 * bpow radix2 (emax - 2)). { unfold Om. replace emax with (2 + (emax - 2))%Z at 1 by lia. rewrite bpow_plus. f_equal. }
  assert (uN : 0 <= u * INR N <= / 16777216 * 262144) by (split; [apply Rmult_le_pos; lra|apply Rmult_le_compat; lra]).
  assert (tB : 0 <= tau <= 52 / 100) by (unfold tau; lra).
  assert (S0 : 0 <= S) by (apply Rsum_nonneg; intros; apply Cabs_pos).
  assert (etN : 0 <= et * INR N <= u / 1000000000 * 262144) by (split; [apply Rmult_le_pos; lra|apply Rmult_le_compat; lra]).
  assert (Mono : forall j, (j <= N)%nat -> Rsum j (fun i => Cabs (nth i x C0)) <= S).
  { intros j Hj. unfold S. replace N with (j + (N - j))%nat by lia. rewrite Rsum_split. assert (0 <= Rsum (N - j) (fun i => Cabs (nth (j + i) x C0))) by (apply Rsum_nonneg; intros; apply Cabs_pos). lra. }
  assert (Part : forall j, (j <= N)%nat -> Cabs (Csum j (fun i => nth i x C0 * W d N (i * k))%C) <= Rsum j (fun i => Cabs (nth i x C0))).
  { intros j _. induction j. { cbn. unfold Cabs, Cnorm2, C0. cbn. rewrite Rmult_0_l, Rplus_0_l, sqrt_0. lra. }
    rewrite Csum_S, Rsum_S. eapply Rle_trans; [apply Cabs_triang|]. rewrite Cabs_mul, W_abs, Rmult_1_r. lra. }
  assert (Inv : forall j, (j <= N)%nat -> Cabs (rdft_acc rnd fcos fsin d x k j - Csum j (fun i => nth i x C0 * W d N (i * k))%C)%C
     <= (32 / 10 * u + tau) * Rsum j (fun i => Cabs (nth i x C0)) + INR j * (2 * u * S + 8 * et)).
  { induction j; intros Hj.
    - cbn [rdft_acc Csum]. change (Csum 0 _) with C0. replace (C0 - C0)%C with C0 by (apply C_eq; cbn; ring). unfold Cabs, Cnorm2, C0, Rsum. cbn. rewrite !Rmult_0_l, Rplus_0_l, sqrt_0. lra.
    - specialize (IHj ltac:(lia)). cbn [rdft_acc]. rewrite Csum_S, Rsum_S, Hx. set (a := rdft_acc rnd fcos fsin d x k j) in *. set (A := Csum j (fun i => nth i x C0 * W d N (i * k))%C) in *.
      set (b := nth j x C0) in *. set (w := rdft_weight rnd fcos fsin d N j k). destruct (dft_weight_error d j k ltac:(lia) Hk) as [WE WB]. fold w in WE, WB.
      set (V := W d N (j * k)) in *. set (Sj := Rsum j (fun i => Cabs (nth i x C0))) in *.
      assert (Sj0 : 0 <= Sj) by (apply Rsum_nonneg; intros; apply Cabs_pos). pose proof (Cabs_pos b) as b0. pose proof (Cabs_pos w) as w0.
      pose proof (Mono (Datatypes.S j) Hj) as M1. rewrite Rsum_S in M1. fold Sj in M1. change (nth j x C0) with b in M1. fold b in M1.
      assert (bw : Cabs b * Cabs w <= Cabs b * (1 + 3 / 2 * u)) by (apply Rmult_le_compat_l; lra). assert (bu : 0 <= Cabs b * u <= Cabs b * / 16777216) by (split; [apply Rmult_le_pos; lra|apply Rmult_le_compat_l; lra]).
      assert (T1 : Cabs (rmul rnd b w - b * w)%C <= 31 / 10 * u * (Cabs b * Cabs w) + 46 / 10 * et). { apply (rmul_error rnd u et Om 0 AC); lra. }
      assert (T2 : Cabs (rmul rnd b w - b * V)%C <= (32 / 10 * u + tau) * Cabs b + 46 / 10 * et).
      { replace (rmul rnd b w - b * V)%C with ((rmul rnd b w - b * w) + b * (w - V))%C by ring. eapply Rle_trans; [apply Cabs_triang|]. rewrite Cabs_mul.
        assert (Cabs b * Cabs (w - V)%C <= Cabs b * tau) by (apply Rmult_le_compat_l; lra).
        assert (31 / 10 * u * (Cabs b * Cabs w) <= 31 / 10 * u * (Cabs b * (1 + 3 / 2 * u))) by (apply Rmult_le_compat_l; lra).
        assert (Cabs b * u * u <= Cabs b * u * / 16777216) by (apply Rmult_le_compat_l; lra). 
        replace (31 / 10 * u * (Cabs b * (1 + 3 / 2 * u))) with (31 / 10 * (Cabs b * u) + 465 / 100 * (Cabs b * u * u)) in * by field. lra. }
      set (t := rmul rnd b w) in *.
      assert (jN : 0 <= INR j <= INR N) by (split; [apply pos_INR|apply le_INR; lia]).
      assert (uS0 : 0 <= u * S) by (apply Rmult_le_pos; lra).
      assert (J1 : INR j * (2 * u * S + 8 * et) <= INR N * (2 * u * S + 8 * et)) by (apply Rmult_le_compat_r; lra).
      assert (J2 : INR N * (2 * u * S + 8 * et) <= 32 / 1000 * S + 8 * (et * INR N)).
      { replace (INR N * (2 * u * S + 8 * et)) with (2 * (u * INR N) * S + 8 * (et * INR N)) by ring. apply Rplus_le_compat_r. apply Rmult_le_compat_r; lra. }
      assert (J3 : (32 / 10 * u + tau) * (Sj + Cabs b) <= 521 / 1000 * S). { apply Rmult_le_compat; lra. }
      assert (B1 : Cabs (a + t)%C <= 16 / 10 * S + 8 * (et * INR N) + 5 * et).
      { replace (a + t)%C with ((A + b * V) + ((a - A) + (t - b * V)))%C by ring. eapply Rle_trans; [apply Cabs_triang|].
        assert (Cabs (A + b * V)%C <= S). { eapply Rle_trans; [|exact M1]. eapply Rle_trans; [apply Cabs_triang|]. rewrite Cabs_mul. unfold V. rewrite W_abs, Rmult_1_r. pose proof (Part j ltac:(lia)). fold A Sj in H. lra. }
        pose proof (Cabs_triang (a - A) (t - b * V)). lra. }
      assert (B2 : Cabs (a + t)%C <= Om) by lra.
      pose proof (radd_error rnd u et Om 0 AC ltac:(lra) ltac:(lra) ltac:(lra) a t B2) as RA.
      assert (uB : u * Cabs (a + t)%C <= u * (16 / 10 * S + 8 * (et * INR N) + 5 * et)) by (apply Rmult_le_compat_l; lra).
      assert (u1 : u * (et * INR N) <= / 50 * et). { replace (u * (et * INR N)) with ((u * INR N) * et) by ring. apply Rmult_le_compat_r; lra. }
      assert (u2 : u * et <= / 100 * et) by (apply Rmult_le_compat_r; lra).
      replace (radd rnd a t - (A + b * V))%C with ((radd rnd a t - (a + t)) + ((a - A) + (t - b * V)))%C by ring.
      eapply Rle_trans; [apply Cabs_triang|]. eapply Rle_trans; [apply Rplus_le_compat; [exact RA|apply Cabs_triang]|].
      rewrite S_INR. lra. }
  specialize (Inv N (le_n N)). unfold DFT. eapply Rle_trans; [exact Inv|]. fold S.
  replace (bpow radix2 (emin + 3)) with (16 * et) by (unfold et; replace (emin + 3)%Z with (4 + (emin - 1))%Z by lia; rewrite bpow_plus; reflexivity).
  unfold tau. assert (uS : 0 <= u * S) by (apply Rmult_le_pos; lra). assert (uSN : u * S <= u * S * INR N) by (rewrite <- (Rmult_1_r (u * S)) at 1; apply Rmult_le_compat_l; lra). lra.
Qed.
End Format.
