(** Theory of the discrete Fourier transform. *)
From Coq Require Import Reals Lra Lia Arith List Ring Field.
From Verif Require Import Base.Outcome Base.OutcomeFacts Base.Sums Base.Cplx Spec.Dft.
Local Open Scope R_scope.

Lemma INR_pos : forall n, (0 < n)%nat -> 0 < INR n.
Proof. intros. apply lt_0_INR. auto. Qed.

Lemma INR_nz : forall n, (0 < n)%nat -> INR n <> 0.
Proof. intros. apply INR_pos in H. lra. Qed.

Lemma W_0 : forall d n, W d n 0 = C1.
Proof.
  intros. unfold W. replace (dsign d * (2 * PI) * INR 0 / INR n) with 0.
  apply Cexp_0. simpl. unfold Rdiv. ring.
Qed.

Lemma W_add : forall d n a b, W d n (a + b) = (W d n a * W d n b)%C.
Proof.
  intros. unfold W. rewrite <- Cexp_add. f_equal. rewrite plus_INR. unfold Rdiv. ring.
Qed.

Lemma W_scale : forall d r n k, (0 < r)%nat -> W d (r * n) (r * k) = W d n k.
Proof.
  intros. unfold W. rewrite !mult_INR. f_equal.
  destruct (Nat.eq_dec n 0).
  - subst. simpl. rewrite Rmult_0_r. unfold Rdiv. rewrite Rinv_0. ring.
  - field. split; apply INR_nz; lia.
Qed.

Lemma W_scale_r : forall d r n k, (0 < r)%nat -> W d (n * r) (k * r) = W d n k.
Proof. intros. rewrite (Nat.mul_comm n), (Nat.mul_comm k). apply W_scale; auto. Qed.

Lemma W_conj : forall d n k, Cconj (W d n k) = W (flip d) n k.
Proof.
  intros. unfold W. rewrite <- Cexp_opp. f_equal. destruct d; simpl; unfold Rdiv; ring.
Qed.

Lemma flip_flip : forall d, flip (flip d) = d.
Proof. destruct d; auto. Qed.

Lemma W_flip_mul : forall d n k, (W d n k * W (flip d) n k)%C = C1.
Proof. intros. rewrite <- W_conj. apply Cexp_mul_conj. Qed.

Lemma W_nz : forall d n k, W d n k <> C0.
Proof. intros. apply Cexp_nz. Qed.

Lemma W_full : forall d n k, (0 < n)%nat -> W d n (n * k) = C1.
Proof.
  intros. unfold W. rewrite mult_INR.
  replace (dsign d * (2 * PI) * (INR n * INR k) / INR n) with (dsign d * (INR k * (2 * PI))).
  2:{ field. apply INR_nz; auto. }
  destruct d; simpl.
  - replace (-1 * (INR k * (2 * PI))) with (- (INR k * (2 * PI))) by ring.
    rewrite Cexp_opp, Cexp_2PI_nat. apply Cconj_1.
  - rewrite Rmult_1_l. apply Cexp_2PI_nat.
Qed.

Lemma W_mod : forall d n k, (0 < n)%nat -> W d n (k mod n) = W d n k.
Proof.
  intros. rewrite (Nat.div_mod k n) at 2 by lia.
  rewrite W_add, W_full by auto. ring.
Qed.

Lemma W_period : forall d n k m, (0 < n)%nat -> W d n (k + n * m) = W d n k.
Proof. intros. rewrite W_add, W_full by auto. ring. Qed.

Lemma W_cong : forall d n a b, (0 < n)%nat -> (a mod n = b mod n)%nat -> W d n a = W d n b.
Proof. intros. rewrite <- (W_mod d n a), <- (W_mod d n b) by auto. rewrite H0. auto. Qed.

Lemma W_pow : forall d n k j, W d n (j * k) = Cpow (W d n k) j.
Proof.
  intros. unfold Cpow. induction j; simpl.
  - apply W_0.
  - rewrite Nat.add_comm, W_add, IHj. auto.
Qed.

Lemma W_half : forall d n, (0 < n)%nat -> W d (2 * n) n = (- C1)%C.
Proof.
  intros. unfold W. rewrite mult_INR.
  replace (dsign d * (2 * PI) * INR n / (INR 2 * INR n)) with (dsign d * PI).
  2:{ simpl. field. apply INR_nz; auto. }
  destruct d; simpl.
  - replace (-1 * PI) with (- PI) by ring. rewrite Cexp_opp, Cexp_PI. apply C_eq; simpl; ring.
  - rewrite Rmult_1_l. apply Cexp_PI.
Qed.

Lemma W_2_1 : forall d, W d 2 1 = (- C1)%C.
Proof. intros. apply (W_half d 1). lia. Qed.

(** The imaginary unit with the sign of the direction. *)
Definition Cid (d : direction) : C := (0, dsign d).

Lemma W_4_1 : forall d, W d 4 1 = Cid d.
Proof.
  intros. unfold W. simpl INR.
  replace (dsign d * (2 * PI) * 1 / (1 + 1 + 1 + 1)) with (dsign d * (PI / 2)) by field.
  destruct d; simpl.
  - replace (-1 * (PI / 2)) with (- (PI / 2)) by ring.
    rewrite Cexp_opp, Cexp_PI2. apply C_eq; simpl; ring.
  - rewrite Rmult_1_l, Cexp_PI2. auto.
Qed.

Lemma W_quarter : forall d n, (0 < n)%nat -> W d (4 * n) n = Cid d.
Proof.
  intros. rewrite <- (W_4_1 d). rewrite <- (W_scale d n 4 1) by auto. f_equal; lia.
Qed.

Lemma W_n_1 : forall d k, W d 1 k = C1.
Proof. intros. rewrite <- (Nat.mul_1_l k). apply W_full. lia. Qed.

(** Primitivity. *)
Lemma Cexp_neq_1 : forall a, 0 < a < 2 * PI -> Cexp a <> C1.
Proof.
  intros a Ha H. unfold Cexp, C1 in H. inversion H.
  assert (Hs : 0 < sin (a / 2)) by (apply sin_gt_0; lra).
  replace a with (2 * (a / 2)) in H1 by field.
  rewrite cos_2a_sin in H1. nra.
Qed.

Lemma W_neq_1 : forall d n k, (0 < k < n)%nat -> W d n k <> C1.
Proof.
  intros d n k Hk H.
  assert (Hn : 0 < INR n) by (apply INR_pos; lia).
  assert (Hk0 : 0 < INR k) by (apply INR_pos; lia).
  assert (Hkn : INR k < INR n) by (apply lt_INR; lia).
  assert (Hp := PI_RGT_0).
  assert (Hr : 0 < 2 * PI * INR k / INR n < 2 * PI).
  { split.
    - apply Rdiv_lt_0_compat; auto. nra.
    - apply Rmult_lt_reg_r with (INR n); auto.
      unfold Rdiv. rewrite Rmult_assoc, Rinv_l by lra. nra. }
  apply (Cexp_neq_1 _ Hr).
  unfold W in H. destruct d; simpl in H.
  - rewrite <- (Cconj_conj (Cexp (2 * PI * INR k / INR n))). rewrite <- Cexp_opp.
    replace (- (2 * PI * INR k / INR n)) with (-1 * (2 * PI) * INR k / INR n) by (unfold Rdiv; ring).
    rewrite H. apply Cconj_1.
  - rewrite Rmult_1_l in H. auto.
Qed.

Lemma RtoC_nz : forall r, r <> 0 -> RtoC r <> C0.
Proof. intros r H E. inversion E. contradiction. Qed.

Lemma Cmul_reg_l : forall a b c, a <> C0 -> (a * b = a * c)%C -> b = c.
Proof.
  intros a b c H E.
  transitivity (Cinv a * (a * b))%C. field; auto.
  rewrite E. field; auto.
Qed.

(** Orthogonality of the characters. *)
Lemma W_orth : forall d n k, (0 < n)%nat ->
  Csum n (fun j => W d n (j * k)) = if (k mod n =? 0)%nat then RtoC (INR n) else C0.
Proof.
  intros d n k Hn.
  destruct (Nat.eqb_spec (k mod n) 0) as [E|E].
  - rewrite (Csum_ext n _ (fun _ => C1)).
    + rewrite Csum_const. ring.
    + intros j Hj. apply Nat.div_exact in E; [|lia]. rewrite E.
      replace (j * (n * (k / n)))%nat with (n * (j * (k / n)))%nat by lia.
      apply W_full; auto.
  - assert (Hm : (k mod n < n)%nat) by (apply Nat.mod_upper_bound; lia).
    assert (Hne : W d n k <> C1).
    { rewrite <- W_mod by auto. apply W_neq_1. lia. }
    pose proof (bsum_geom _ _ _ _ _ _ _ C_ring (W d n k) n) as G.
    rewrite (Csum_ext n _ (rpow C1 Cmul (W d n k))) by (intros; apply W_pow).
    apply Cmul_reg_l with (a := (W d n k - C1)%C).
    + intro H. apply Hne. transitivity ((W d n k - C1) + C1)%C. ring. rewrite H. ring.
    + unfold Csum. rewrite G.
      change (rpow C1 Cmul (W d n k) n) with (Cpow (W d n k) n).
      rewrite <- W_pow. rewrite W_full by auto. ring.
Qed.

Lemma DFT_ext : forall d n x y k, (forall j, (j < n)%nat -> x j = y j) -> DFT d n x k = DFT d n y k.
Proof. intros. unfold DFT. apply Csum_ext. intros. rewrite H; auto. Qed.

(** Inversion. *)
Lemma DFT_inv : forall d n x i, (i < n)%nat ->
  DFT (flip d) n (DFT d n x) i = (RtoC (INR n) * x i)%C.
Proof.
  intros d n x i Hi. unfold DFT.
  rewrite (Csum_ext n _ (fun k => Csum n (fun j => x j * (W d n (j * k) * W (flip d) n (k * i)))%C)).
  2:{ intros k Hk. rewrite <- Csum_mul_r. apply Csum_ext. intros. ring. }
  rewrite Csum_swap.
  rewrite (Csum_ext n _ (fun j => x j * Csum n (fun k => W d n (k * ((j + (n - i))))))%C).
  2:{ intros j Hj. rewrite Csum_mul_l. f_equal. apply Csum_ext. intros k Hk.
      rewrite Nat.mul_add_distr_l, W_add, (Nat.mul_comm j k). f_equal.
      assert (E : (W d n (k * (n - i)) * W d n (k * i))%C = C1).
      { rewrite <- W_add, <- Nat.mul_add_distr_l.
        replace (n - i + i)%nat with n by lia. rewrite Nat.mul_comm. apply W_full. lia. }
      transitivity (W d n (k * (n - i)) * W d n (k * i) * W (flip d) n (k * i))%C.
      rewrite E. ring.
      transitivity (W d n (k * (n - i)) * (W d n (k * i) * W (flip d) n (k * i)))%C. ring.
      rewrite W_flip_mul. ring. }
  rewrite (Csum_single n i); auto.
  - rewrite W_orth by lia.
    replace ((i + (n - i)) mod n)%nat with 0%nat.
    2:{ replace (i + (n - i))%nat with (1 * n)%nat by lia. rewrite Nat.mod_mul; lia. }
    simpl. ring.
  - intros j Hj Hne. rewrite W_orth by lia.
    destruct (Nat.eqb_spec ((j + (n - i)) mod n) 0) as [E|E]; [|ring].
    exfalso. apply Nat.mod_divides in E; [|lia]. destruct E as [q E].
    assert (q = 1)%nat by nia. nia.
Qed.

Lemma DFT_inv' : forall d n x i, (i < n)%nat ->
  DFT d n (DFT (flip d) n x) i = (RtoC (INR n) * x i)%C.
Proof. intros. rewrite <- (flip_flip d) at 1. apply DFT_inv. auto. Qed.

Lemma DFT_inj : forall d n x y, (0 < n)%nat ->
  (forall k, (k < n)%nat -> DFT d n x k = DFT d n y k) -> forall i, (i < n)%nat -> x i = y i.
Proof.
  intros d n x y Hn H i Hi.
  apply Cmul_reg_l with (a := RtoC (INR n)).
  - apply RtoC_nz. apply INR_nz; auto.
  - rewrite <- (DFT_inv d n x i), <- (DFT_inv d n y i) by auto. apply DFT_ext. auto.
Qed.

Lemma DFT_add : forall d n x y k,
  DFT d n (fun i => x i + y i)%C k = (DFT d n x k + DFT d n y k)%C.
Proof. intros. unfold DFT. rewrite <- Csum_add. apply Csum_ext. intros. ring. Qed.

Lemma DFT_scale : forall d n c x k,
  DFT d n (fun i => c * x i)%C k = (c * DFT d n x k)%C.
Proof. intros. unfold DFT. rewrite <- Csum_mul_l. apply Csum_ext. intros. ring. Qed.

Lemma DFT_periodic : forall d n x k m, (0 < n)%nat -> DFT d n x (k + n * m) = DFT d n x k.
Proof.
  intros. unfold DFT. apply Csum_ext. intros. f_equal.
  rewrite Nat.mul_add_distr_l.
  replace (i * (n * m))%nat with (n * (i * m))%nat by lia. apply W_period; auto.
Qed.

Lemma DFT_mod : forall d n x k, (0 < n)%nat -> DFT d n x (k mod n) = DFT d n x k.
Proof.
  intros. rewrite (Nat.div_mod k n) at 2 by lia.
  rewrite Nat.add_comm. symmetry. apply DFT_periodic; auto.
Qed.

(** Conjugate symmetry. *)
Lemma DFT_conj : forall d n x k, Cconj (DFT d n x k) = DFT (flip d) n (fun i => Cconj (x i)) k.
Proof.
  intros. unfold DFT. rewrite Cconj_sum. apply Csum_ext. intros.
  rewrite Cconj_mul, W_conj. auto.
Qed.

Lemma W_neg : forall d n j k, (k <= n)%nat -> (0 < n)%nat -> W d n (j * (n - k)) = W (flip d) n (j * k).
Proof.
  intros.
  assert (E : (W d n (j * (n - k)) * W d n (j * k))%C = C1).
  { rewrite <- W_add, <- Nat.mul_add_distr_l. replace (n - k + k)%nat with n by lia.
    rewrite Nat.mul_comm. apply W_full; auto. }
  transitivity (W d n (j * (n - k)) * (W d n (j * k) * W (flip d) n (j * k)))%C.
  - rewrite W_flip_mul. ring.
  - transitivity (W d n (j * (n - k)) * W d n (j * k) * W (flip d) n (j * k))%C. ring.
    rewrite E. ring.
Qed.

Lemma DFT_neg : forall d n x k, (k <= n)%nat -> (0 < n)%nat -> DFT d n x (n - k) = DFT (flip d) n x k.
Proof. intros. unfold DFT. apply Csum_ext. intros. rewrite W_neg; auto. Qed.

Lemma DFT_real_sym : forall d n (x : nat -> R) k, (k <= n)%nat -> (0 < n)%nat ->
  DFT d n (fun i => RtoC (x i)) (n - k) = Cconj (DFT d n (fun i => RtoC (x i)) k).
Proof.
  intros. rewrite DFT_neg by auto. rewrite DFT_conj.
  apply DFT_ext. intros. rewrite Cconj_RtoC. auto.
Qed.

(** Circular convolution theorem. *)
Lemma DFT_cconv : forall d n x y k, (0 < n)%nat ->
  DFT d n (cconv n x y) k = (DFT d n x k * DFT d n y k)%C.
Proof.
  intros d n x y k Hn. unfold DFT, cconv.
  rewrite (Csum_ext n _ (fun i => Csum n (fun j => (x j * y ((i + (n - j)) mod n)%nat * W d n (i * k))%C))).
  2:{ intros. rewrite <- Csum_mul_r. auto. }
  rewrite Csum_swap.
  rewrite <- Csum_mul_r. apply Csum_ext. intros j Hj.
  (* fix j, shift i by j *)
  rewrite (Csum_cyclic n j _ Hn).
  rewrite <- Csum_mul_l. apply Csum_ext. intros i Hi.
  replace (((i + j) mod n + (n - j)) mod n)%nat with i.
  2:{ rewrite Nat.add_mod_idemp_l by lia.
      replace (i + j + (n - j))%nat with (i + 1 * n)%nat by lia.
      rewrite Nat.mod_add by lia. rewrite Nat.mod_small; auto. }
  assert (E : W d n ((i + j) mod n * k) = (W d n (j * k) * W d n (i * k))%C).
  { rewrite <- W_add. apply W_cong; auto.
    rewrite Nat.mul_mod_idemp_l by lia. f_equal. lia. }
  rewrite E. ring.
Qed.

(** Parseval. *)
Lemma DFT_parseval : forall d n x,
  Rsum n (fun k => Cnorm2 (DFT d n x k)) = INR n * Rsum n (fun i => Cnorm2 (x i)).
Proof.
  intros d n x. apply RtoC_inj.
  rewrite RtoC_mul, <- !Csum_RtoC, <- Csum_mul_l.
  rewrite (Csum_ext n _ (fun k => DFT d n x k * Csum n (fun i => Cconj (x i) * W (flip d) n (i * k)))%C).
  2:{ intros. rewrite <- Cmul_conj, DFT_conj. auto. }
  rewrite (Csum_ext n _ (fun k => Csum n (fun i => DFT d n x k * W (flip d) n (k * i) * Cconj (x i))%C)).
  2:{ intros. rewrite <- Csum_mul_l. apply Csum_ext. intros j Hj. rewrite (Nat.mul_comm i j). ring. }
  rewrite Csum_swap. apply Csum_ext. intros i Hi.
  rewrite Csum_mul_r.
  change (Csum n (fun k => (DFT d n x k * W (flip d) n (k * i))%C)) with (DFT (flip d) n (DFT d n x) i).
  rewrite DFT_inv by auto. rewrite <- Cmul_conj. ring.
Qed.

(** Decimation in time: radix [r] step, n = r*m. *)
Lemma DFT_dit : forall d r m x k, (0 < r)%nat -> (0 < m)%nat ->
  DFT d (r * m) x k =
  Csum r (fun t => (W d (r * m) (t * k) * DFT d m (fun j => x (r * j + t)%nat) k)%C).
Proof.
  intros d r m x k Hr Hm. unfold DFT.
  rewrite (Nat.mul_comm r m) at 1. rewrite Csum_stride.
  apply Csum_ext. intros t Ht. rewrite <- Csum_mul_l. apply Csum_ext. intros j Hj.
  rewrite (Nat.mul_comm r j).
  rewrite Nat.mul_add_distr_r, W_add.
  replace (j * r * k)%nat with (r * (j * k))%nat by lia.
  rewrite W_scale by auto. ring.
Qed.

(** Decimation in frequency: radix [r] step, n = r*m. *)
Lemma DFT_dif : forall d r m x t q, (0 < r)%nat -> (0 < m)%nat ->
  DFT d (r * m) x (t + r * q) =
  DFT d m (fun j => W d (r * m) (t * j) * Csum r (fun c => x (j + c * m)%nat * W d r (c * t)))%C q.
Proof.
  intros d r m x t q Hr Hm. unfold DFT.
  rewrite Csum_stride.
  apply Csum_ext. intros j Hj.
  transitivity (W d m (j * q) * W d (r * m) (t * j) * Csum r (fun c => x (j + c * m)%nat * W d r (c * t)))%C; [|ring].
  rewrite <- Csum_mul_l. apply Csum_ext. intros c Hc.
  rewrite (Nat.add_comm (c * m) j).
  replace ((j + c * m) * (t + r * q))%nat with (t * j + (r * (j * q) + (m * (c * t) + (r * m) * (c * q))))%nat by lia.
  rewrite !W_add. rewrite W_full by nia.
  rewrite W_scale by auto.
  rewrite (Nat.mul_comm r m), W_scale by auto. ring.
Qed.
