(** Errors of products of computed spectra, their sums, and the samples made from them. *)
From Coq Require Import Reals List Arith ZArith Lia Lra Psatz Bool.
From Flocq Require Import Core.
From Verif Require Import Base.Outcome Base.OutcomeFacts Base.Sums Base.Alias Base.Cplx Base.VecNorm Spec.Dft Spec.DigitRev Spec.Transforms Spec.Rounding
  Model.Fft2 Model.Algorithm Model.FftApps Model.RoundedFft Model.RoundedConv
  Proof.DftTheory Proof.Fft2Proof Proof.RfftProof Proof.StreamProof Proof.RoundedExec Proof.RoundedError Proof.RoundedPlan Proof.RoundedRfft.
Import ListNotations.
Local Open Scope R_scope.
Local Arguments Nat.div : simpl never.
Local Arguments Nat.modulo : simpl never.
Local Arguments Nat.pow : simpl never.

(** ** Norm of the conjugate symmetric spectrum with given bins 0 .. n/2 *)
Definition mir (n k : nat) : nat := if (n / 2 + 1 <=? k)%nat then (n - k)%nat else k.
Definition hnorm (n : nat) (X : nat -> C) : R := rnorm n (fun k => Cabs (X (mir n k))).

Lemma Cabs_conj : forall z, Cabs (Cconj z) = Cabs z.
Proof. intros [a b]. unfold Cabs, Cnorm2, Cconj. cbn [fst snd]. f_equal. ring. Qed.

Lemma hnorm_herm : forall n X, hnorm n X = vnorm n (herm n X).
Proof.
  intros n X. rewrite vnorm_rnorm. apply rnorm_ext. intros k Hk. unfold mir, herm. destruct (n / 2 + 1 <=? k)%nat; auto. rewrite Cabs_conj. auto.
Qed.

Lemma mir_le : forall m k, (0 < m)%nat -> (k < 2 * m)%nat -> (mir (2 * m) k <= m)%nat.
Proof. intros m k Hm Hk. unfold mir. rewrite half_of_double. destruct (Nat.leb_spec (m + 1) k); lia. Qed.

Lemma hnorm_pos : forall n X, 0 <= hnorm n X.
Proof. intros. apply rnorm_pos. Qed.

Lemma hnorm_ext : forall m X Y, (0 < m)%nat -> (forall k, (k <= m)%nat -> X k = Y k) -> hnorm (2 * m) X = hnorm (2 * m) Y.
Proof. intros m X Y Hm H. apply rnorm_ext. intros k Hk. rewrite H by (apply mir_le; auto). auto. Qed.

Lemma hnorm_add : forall n X Y, hnorm n (fun k => X k + Y k)%C <= hnorm n X + hnorm n Y.
Proof.
  intros n X Y. unfold hnorm. eapply Rle_trans; [|apply rnorm_add; intros; apply Cabs_pos]. apply rnorm_mono. intros i Hi. split; [apply Cabs_pos|apply Cabs_triang].
Qed.

Lemma hnorm_near : forall n X Y e, hnorm n (fun k => X k - Y k)%C <= e -> hnorm n X <= hnorm n Y + e.
Proof.
  intros n X Y e H. eapply Rle_trans; [|apply Rplus_le_compat_l, H]. eapply Rle_trans; [|apply hnorm_add]. right. apply rnorm_ext. intros k Hk. f_equal. ring.
Qed.

Lemma rnorm_mul : forall n f g, (forall i, (i < n)%nat -> 0 <= f i) -> (forall i, (i < n)%nat -> 0 <= g i) -> rnorm n (fun i => f i * g i) <= rnorm n f * rnorm n g.
Proof.
  intros n f g Hf Hg. assert (P : forall i, (i < n)%nat -> g i <= rnorm n g).
  { clear f Hf. induction n as [|n IH]; intros i Hi; [lia|]. rewrite rnorm_S. pose proof (rnorm_pos n g). destruct (Nat.eq_dec i n) as [->|].
    - rewrite <- (sqrt_square (g n)) at 1 by (apply Hg; lia). apply sqrt_le_1_alt. nra.
    - eapply Rle_trans; [apply IH; [intros; apply Hg; lia|lia]|]. rewrite <- (sqrt_square (rnorm n g)) at 1 by auto. apply sqrt_le_1_alt. pose proof (Rle_0_sqr (g n)) as Q. unfold Rsqr in Q. lra. }
  pose proof (rnorm_pos n g). rewrite (Rmult_comm (rnorm n f)). rewrite <- rnorm_scale by auto. apply rnorm_mono. intros i Hi. split; [apply Rmult_le_pos; auto|]. rewrite (Rmult_comm (f i)). apply Rmult_le_compat_r; auto.
Qed.

Lemma rnorm_sum : forall n P (f : nat -> nat -> R) b, (forall s i, (s < P)%nat -> (i < n)%nat -> 0 <= f s i) -> (forall s, (s < P)%nat -> rnorm n (f s) <= b) ->
  rnorm n (fun i => Rsum P (fun s => f s i)) <= INR P * b.
Proof.
  intros n P f b Hf Hb. induction P as [|P IH].
  - rewrite (rnorm_ext _ _ (fun _ => 0)) by reflexivity. rewrite rnorm_const by lra. cbn. lra.
  - rewrite S_INR. assert (E : rnorm n (fun i => Rsum (S P) (fun s => f s i)) <= rnorm n (fun i => Rsum P (fun s => f s i)) + rnorm n (f P)).
    { rewrite (rnorm_ext n (fun i => Rsum (S P) (fun s => f s i)) (fun i => Rsum P (fun s => f s i) + f P i)) by (intros i _; exact (Rsum_S P (fun s => f s i))). apply rnorm_add; intros i Hi; [|apply Hf; lia].
      assert (G : forall q, (q <= P)%nat -> 0 <= Rsum q (fun s => f s i)) by (induction q as [|q IQ]; intros Hq; [cbn; lra|rewrite Rsum_S; assert (0 <= f q i) by (apply Hf; lia); assert (0 <= Rsum q (fun s => f s i)) by (apply IQ; lia); lra]). apply G. lia. }
    assert (rnorm n (fun i => Rsum P (fun s => f s i)) <= INR P * b) by (apply IH; intros; [apply Hf|apply Hb]; lia). assert (rnorm n (f P) <= b) by (apply Hb; lia). lra.
Qed.

Lemma hnorm_mul : forall n X Y, hnorm n (fun k => X k * Y k)%C <= hnorm n X * hnorm n Y.
Proof.
  intros n X Y. unfold hnorm. eapply Rle_trans; [|apply rnorm_mul; intros; apply Cabs_pos]. right. apply rnorm_ext. intros. apply Cabs_mul.
Qed.

(** Bins 0 .. n/2 of a full vector. *)
Lemma hnorm_half : forall m e, (0 < m)%nat -> hnorm (2 * m) e <= 3 / 2 * vnorm (2 * m) e.
Proof.
  intros m e Hm. unfold hnorm. apply sqrt_le_of_sq; [pose proof (vnorm_pos (2 * m) e); lra|].
  replace (3 / 2 * vnorm (2 * m) e * (3 / 2 * vnorm (2 * m) e)) with (9 / 4 * (vnorm (2 * m) e * vnorm (2 * m) e)) by field. rewrite vnorm_sq.
  set (S := Rsum (2 * m) (fun i => Cnorm2 (e i))).
  assert (Pos : forall n (f : nat -> R), (forall i, (i < n)%nat -> 0 <= f i) -> 0 <= Rsum n f).
  { induction n as [|n IH]; intros f Hf; [cbn; lra|]. rewrite Rsum_S. assert (0 <= f n) by (apply Hf; lia). assert (0 <= Rsum n f) by (apply IH; intros; apply Hf; lia). lra. }
  assert (Spl : S = Cnorm2 (e 0%nat) + Rsum (m - 1) (fun i => Cnorm2 (e (1 + i)%nat)) + Cnorm2 (e m) + Rsum (m - 1) (fun i => Cnorm2 (e (m + 1 + i)%nat))).
  { unfold S. replace (2 * m)%nat with (1 + (m - 1) + 1 + (m - 1))%nat at 1 by lia. rewrite !Rsum_split. cbn [Rsum bsum]. replace (1 + (m - 1) + 0)%nat with m by lia. rewrite !Rplus_0_l.
    f_equal. apply Rsum_ext. intros i Hi. f_equal. f_equal. lia. }
  assert (Her : Rsum (2 * m) (fun i => Cabs (e (mir (2 * m) i)) * Cabs (e (mir (2 * m) i))) = Cnorm2 (e 0%nat) + Rsum (m - 1) (fun i => Cnorm2 (e (1 + i)%nat)) + Cnorm2 (e m) + Rsum (m - 1) (fun i => Cnorm2 (e (1 + i)%nat))).
  { replace (2 * m)%nat with (1 + (m - 1) + 1 + (m - 1))%nat at 1 by lia. rewrite !Rsum_split. unfold mir. rewrite half_of_double.
    assert (B : forall k, (k <= m)%nat -> (m + 1 <=? k)%nat = false) by (intros; apply Nat.leb_gt; lia). assert (B' : forall k, (m < k)%nat -> (m + 1 <=? k)%nat = true) by (intros; apply Nat.leb_le; lia).
    f_equal; [f_equal; [f_equal|]|].
    - cbn [Rsum bsum]. rewrite B by lia. rewrite Cabs_sq. ring.
    - apply Rsum_ext. intros i Hi. rewrite B by lia. apply Cabs_sq.
    - cbn [Rsum bsum]. replace (1 + (m - 1) + 0)%nat with m by lia. rewrite B by lia. rewrite Cabs_sq. ring.
    - unfold Rsum. rewrite (bsum_rev _ _ _ _ _ _ _ R_ring). apply Rsum_ext. intros i Hi. rewrite B' by lia. rewrite Cabs_sq. f_equal. f_equal. lia. }
  rewrite Her. assert (0 <= Rsum (m - 1) (fun i => Cnorm2 (e (m + 1 + i)%nat))) by (apply Pos; intros; apply Cnorm2_pos).
  assert (0 <= Rsum (m - 1) (fun i => Cnorm2 (e (1 + i)%nat))) by (apply Pos; intros; apply Cnorm2_pos).
  pose proof (Cnorm2_pos (e 0%nat)). pose proof (Cnorm2_pos (e m)). lra.
Qed.

Lemma rnorm_RtoC : forall n (x : nat -> R), vnorm n (fun i => RtoC (x i)) = rnorm n x.
Proof. intros. unfold vnorm, rnorm. f_equal. apply Rsum_ext. intros. unfold Cnorm2, RtoC. cbn [fst snd]. ring. Qed.

Lemma hnorm_rdft : forall p (x : nat -> R), (0 < p)%nat -> hnorm (2 ^ p) (DFT Forward (2 ^ p) (fun j => RtoC (x j))) = sqrt (INR (2 ^ p)) * rnorm (2 ^ p) x.
Proof.
  intros p x Hp. rewrite hnorm_herm, <- rnorm_RtoC, <- (norm_DFT Forward). apply vnorm_ext. intros k Hk. unfold herm. destruct (Nat.leb_spec (2 ^ p / 2 + 1) k); auto.
  rewrite <- DFT_real_sym by lia. f_equal. lia.
Qed.

Lemma irdft_le : forall p X j, (0 < p)%nat -> (j < 2 ^ p)%nat -> Rabs (IRDFT (2 ^ (p - 1)) X j) <= sqrt (INR (2 ^ p)) * hnorm (2 ^ p) X.
Proof.
  intros p X j Hp Hj. destruct (pow2_half p Hp) as [m [Hm [En Em]]]. rewrite <- Em, <- herm_idft by auto. rewrite <- En. rewrite hnorm_herm, <- (norm_DFT Backward).
  eapply Rle_trans; [apply Rabs_le_Cabs|]. apply (Cabs_le_vnorm (2 ^ p) (DFT Backward (2 ^ p) (herm (2 ^ p) X)) j Hj).
Qed.

Lemma IRDFT_sub : forall m X Y j, IRDFT m (fun k => X k - Y k)%C j = IRDFT m X j - IRDFT m Y j.
Proof.
  intros m X Y j. unfold IRDFT.
  rewrite (Rsum_ext (m - 1) _ (fun k => (fst (X (S k)) * cos (2 * PI * INR j * INR (S k) / INR (2 * m)) - snd (X (S k)) * sin (2 * PI * INR j * INR (S k) / INR (2 * m))) -
     (fst (Y (S k)) * cos (2 * PI * INR j * INR (S k) / INR (2 * m)) - snd (Y (S k)) * sin (2 * PI * INR j * INR (S k) / INR (2 * m))))).
  2:{ intros. unfold Csub. cbn [fst snd]. ring. }
  rewrite Rsum_sub. unfold Csub. cbn [fst snd]. ring.
Qed.

(** ** Multiply-accumulate of one bin *)
Section Mac.
Variables (rnd : R -> R) (u eta Om : R).
Hypothesis Hacc : forall x, Rabs x <= Om -> Rabs (rnd x - x) <= u * Rabs x + eta.
Hypotheses (Hu : 0 < u <= / 16777216) (Heta : 0 <= eta <= 1 / 100).

Fixpoint macc (P : nat) (X F : nat -> C) : C :=
  match P with O => C0 | S r => radd rnd (rmul rnd (X r) (F r)) (macc r X F) end.

Let zeta := eta / u.
Definition mass (P : nat) (X F : nat -> C) : R := Rsum P (fun s => Cabs (X s) * Cabs (F s) + eta / u).

Lemma zeta_pos : 0 <= zeta.
Proof using All. unfold zeta, Rdiv. apply Rmult_le_pos; [lra|]. apply Rlt_le, Rinv_0_lt_compat. lra. Qed.

Lemma eta_zeta : eta = u * zeta.
Proof using All. unfold zeta. field. lra. Qed.

Lemma mass_pos : forall P X F, 0 <= mass P X F.
Proof using All.
  intros. unfold mass. apply Rsum_nonneg. intros s Hs. assert (0 <= Cabs (X s) * Cabs (F s)) by (apply Rmult_le_pos; apply Cabs_pos). pose proof zeta_pos as Z. fold zeta. lra.
Qed.

Lemma mass_S : forall P X F, mass (S P) X F = mass P X F + (Cabs (X P) * Cabs (F P) + zeta).
Proof using. intros. unfold mass. rewrite Rsum_S. auto. Qed.

Lemma sum_mass : forall P X F, Cabs (Csum P (fun s => X s * F s)%C) <= mass P X F.
Proof using All.
  intros P X F. induction P as [|P IH]; [change (Csum 0 (fun s => X s * F s)%C) with C0; rewrite Cabs_0; apply mass_pos|].
  rewrite Csum_S, mass_S. eapply Rle_trans; [apply Cabs_triang|]. rewrite Cabs_mul. pose proof zeta_pos. lra.
Qed.

Lemma product_mass : forall x f, 2 * (Cabs x * Cabs f) + 1 <= Om -> Cabs (rmul rnd x f - x * f)%C <= 46 / 10 * u * (Cabs x * Cabs f + zeta).
Proof using All.
  intros x f H. assert (0 <= Cabs x * Cabs f) by (apply Rmult_le_pos; apply Cabs_pos). eapply Rle_trans; [eapply (rmul_error rnd u eta Om 0 Hacc); lra|]. rewrite eta_zeta at 1. pose proof zeta_pos. nra.
Qed.

Lemma macc_error : forall P X F, 4 * mass P X F + 1 <= Om -> INR P * (8 * u) <= 9 / 1000 ->
  Cabs (macc P X F - Csum P (fun s => X s * F s))%C <= ((1 + 8 * u) ^ P - 1) * mass P X F.
Proof using All.
  intros P X F. induction P as [|P IH]; intros HO HP.
  - cbn [macc]. change (Csum 0 (fun s => X s * F s)%C) with C0. replace (C0 - C0)%C with C0 by ring. rewrite Cabs_0. cbn [pow]. lra.
  - rewrite mass_S in *. set (q := Cabs (X P) * Cabs (F P) + zeta) in *. set (A := mass P X F) in *. pose proof zeta_pos as Z0.
    assert (A0 : 0 <= A) by apply mass_pos. assert (B0 : 0 <= Cabs (X P) * Cabs (F P)) by (apply Rmult_le_pos; apply Cabs_pos). assert (q0 : 0 <= q) by (unfold q; lra).
    rewrite S_INR in HP. pose proof (pos_INR P) as IP. assert (HPu : INR P * (8 * u) <= 9 / 1000) by nra.
    assert (I := IH ltac:(lra) HPu). destruct (growth (8 * u) P ltac:(lra) HPu) as [G1 G2]. set (g := (1 + 8 * u) ^ P) in *.
    cbn [macc]. rewrite Csum_S. set (m := rmul rnd (X P) (F P)). set (a := macc P X F) in *. set (S0 := Csum P (fun s => X s * F s)%C) in *.
    assert (SM : Cabs S0 <= A) by apply sum_mass.
    assert (EM : Cabs (m - X P * F P)%C <= 46 / 10 * u * q) by (apply product_mass; unfold q in HO; lra).
    assert (MM : Cabs m <= 1001 / 1000 * q). { replace m with ((m - X P * F P) + X P * F P)%C by ring. eapply Rle_trans; [apply Cabs_triang|]. rewrite Cabs_mul. unfold q in *. nra. }
    assert (dA : Cabs (a - S0)%C <= 1 / 100 * A) by (eapply Rle_trans; [exact I|]; apply Rmult_le_compat_r; lra).
    assert (MA : Cabs (m + a)%C <= 1001 / 1000 * q + A + Cabs (a - S0)%C).
    { replace (m + a)%C with (m + (S0 + (a - S0)))%C by ring. eapply Rle_trans; [apply Cabs_triang|]. pose proof (Cabs_triang S0 (a - S0)%C). lra. }
    assert (ER : Cabs (radd rnd m a - (m + a))%C <= u * Cabs (m + a)%C + 3 / 2 * eta) by (eapply (radd_error rnd u eta Om 0 Hacc); lra).
    rewrite eta_zeta in ER.
    replace (radd rnd m a - (S0 + X P * F P))%C with ((radd rnd m a - (m + a)) + ((m - X P * F P) + (a - S0)))%C by ring.
    eapply Rle_trans; [apply Cabs_triang|]. pose proof (Cabs_triang (m - X P * F P)%C (a - S0)%C) as T.
    assert (uq : zeta <= q) by (unfold q; lra). set (dd := Cabs (a - S0)%C) in *.
    assert (U1 : u * Cabs (m + a)%C <= u * (1001 / 1000 * q + A + dd)) by (apply Rmult_le_compat_l; lra).
    assert (U2 : u * zeta <= u * q) by (apply Rmult_le_compat_l; lra).
    assert (U3 : u * dd <= u * (1 / 100 * A)) by (apply Rmult_le_compat_l; lra).
    change ((1 + 8 * u) ^ S P) with ((1 + 8 * u) * g).
    assert (L : ((1 + 8 * u) * g - 1) * (A + q) = (g - 1) * A + 8 * u * g * A + ((1 + 8 * u) * g - 1) * q) by ring. rewrite L.
    assert (uA : 0 <= u * A) by (apply Rmult_le_pos; lra). assert (uq0 : 0 <= u * q) by (apply Rmult_le_pos; lra).
    assert (L1 : 8 * (u * A) <= 8 * u * g * A) by (replace (8 * u * g * A) with (8 * ((u * A) * g)) by ring; nra).
    assert (L2 : 8 * (u * q) <= ((1 + 8 * u) * g - 1) * q) by (replace (8 * (u * q)) with ((8 * u) * q) by ring; apply Rmult_le_compat_r; [auto|nra]).
    lra.
Qed.
End Mac.
