(** Theory of the sign-twisted DFT: recursions, symmetry, inverse. *)
From Coq Require Import List Arith Bool Reals Lia.
From Verif Require Import Base.Outcome Base.OutcomeFacts Base.Sums Base.Cplx Spec.Dft Spec.DigitRev Spec.Twisted.
From Verif Require Import Proof.DftTheory Proof.DigitRevTheory.
Import ListNotations.
Local Arguments Nat.div : simpl never.
Local Arguments Nat.modulo : simpl never.
Local Arguments Nat.pow : simpl never.

Lemma nsum_ext : forall n f g, (forall i, i < n -> f i = g i) -> nsum n f = nsum n g.
Proof. induction n; simpl; intros; auto. rewrite (IHn f g), (H n) by auto. auto. Qed.

Lemma nsum_first : forall n f, nsum (S n) f = f 0 + nsum n (fun i => f (S i)).
Proof. induction n; intros; simpl in *; try lia. rewrite IHn. lia. Qed.

Lemma nsum_rev : forall n f, nsum n f = nsum n (fun i => f (n - 1 - i)).
Proof.
  induction n; intros; auto.
  rewrite nsum_first. simpl. rewrite Nat.sub_0_r, Nat.sub_diag.
  rewrite (IHn (fun i => f (S i))).
  rewrite (nsum_ext n (fun i => f (S (n - 1 - i))) (fun i => f (n - i))); [lia|].
  intros. f_equal. lia.
Qed.

Lemma dot4_sym : forall p K J, dot4 p K J = dot4 p J K.
Proof.
  intros. unfold dot4. rewrite nsum_rev. apply nsum_ext. intros a Ha.
  replace (p - 1 - (p - 1 - a)) with a by lia. lia.
Qed.

Lemma digit4_low : forall s a q k, a < s -> digit4 a (q * 4 ^ s + k) = digit4 a k.
Proof.
  intros. unfold digit4.
  assert (0 < 4 ^ a) by (apply pow_pos; lia).
  replace s with ((s - a - 1) + 1 + a) by lia. rewrite !Nat.pow_add_r.
  replace (q * (4 ^ (s - a - 1) * 4 ^ 1 * 4 ^ a) + k) with (q * 4 ^ (s - a - 1) * 4 * 4 ^ a + k)
    by (change (4 ^ 1) with 4; lia).
  rewrite Nat.div_add_l by lia. rewrite Nat.add_comm, Nat.mod_add; lia.
Qed.

Lemma digit4_top : forall s q k, q < 4 -> k < 4 ^ s -> digit4 s (q * 4 ^ s + k) = q.
Proof.
  intros. unfold digit4. rewrite Nat.div_add_l by lia.
  rewrite (Nat.div_small k) by auto. rewrite Nat.add_0_r. apply Nat.mod_small; auto.
Qed.

Lemma digit4_0 : forall j t, t < 4 -> digit4 0 (4 * j + t) = t.
Proof.
  intros. unfold digit4. change (4 ^ 0) with 1. rewrite Nat.div_1_r.
  symmetry. apply Nat.mod_unique with j; auto.
Qed.

Lemma digit4_S : forall a j t, t < 4 -> digit4 (S a) (4 * j + t) = digit4 a j.
Proof.
  intros. unfold digit4. rewrite Nat.pow_succ_r', <- Nat.div_div; try lia.
  2:{ assert (0 < 4 ^ a) by (apply pow_pos; lia). lia. }
  f_equal. f_equal. symmetry. apply Nat.div_unique with t; lia.
Qed.

Lemma dot4_dit : forall s q k j t, k < 4 ^ s -> q < 4 -> t < 4 ->
  dot4 (S s) (q * 4 ^ s + k) (4 * j + t) = q * t + dot4 s k j.
Proof.
  intros. unfold dot4. cbn [nsum].
  rewrite digit4_top by auto. replace (S s - 1 - s) with 0 by lia. rewrite digit4_0 by auto.
  rewrite Nat.add_comm. f_equal. apply nsum_ext. intros a Ha.
  rewrite digit4_low by auto. replace (S s - 1 - a) with (S (s - 1 - a)) by lia.
  rewrite digit4_S by auto. auto.
Qed.

Lemma dot4_dif : forall s q t c j, j < 4 ^ s -> c < 4 -> t < 4 ->
  dot4 (S s) (4 * q + t) (c * 4 ^ s + j) = c * t + dot4 s q j.
Proof. intros. rewrite dot4_sym, dot4_dit by auto. rewrite (dot4_sym s). auto. Qed.

Lemma sgn_add : forall a b, sgn (a + b) = (sgn a * sgn b)%C.
Proof.
  intros. unfold sgn. rewrite Nat.even_add. destruct (Nat.even a), (Nat.even b); simpl; ring.
Qed.

Lemma sgn_W : forall d m, sgn m = W d 2 m.
Proof.
  induction m.
  - rewrite W_0. reflexivity.
  - replace (S m) with (m + 1) by lia. rewrite sgn_add, W_add, <- IHm, W_2_1. reflexivity.
Qed.

Lemma W_4_flip : forall d m, (sgn m * W d 4 m)%C = W (flip d) 4 m.
Proof.
  intros. rewrite (sgn_W d). rewrite <- (W_scale d 2 2) by lia. change (2 * 2) with 4.
  rewrite <- W_add.
  pose proof (W_neg d 4 m 1 ltac:(lia) ltac:(lia)). rewrite Nat.mul_1_r in H. rewrite <- H.
  f_equal. simpl. lia.
Qed.

Lemma TDFT_ext : forall d p x y k, (forall j, j < 4 ^ p -> x j = y j) -> TDFT d p x k = TDFT d p y k.
Proof. intros. unfold TDFT. apply Csum_ext. intros. rewrite H by auto. auto. Qed.

Lemma TDFT_dit : forall d s x q k, q < 4 -> k < 4 ^ s ->
  TDFT d (S s) x (q * 4 ^ s + k) =
  Csum 4 (fun t => (W (flip d) 4 (q * t) * W d (4 ^ S s) (t * k) * TDFT d s (fun j => x (4 * j + t)%nat) k)%C).
Proof.
  intros d s x q k Hq Hk. unfold TDFT.
  rewrite Nat.pow_succ_r', (Nat.mul_comm 4 (4 ^ s)). rewrite Csum_stride.
  apply Csum_ext. intros t Ht. rewrite <- Csum_mul_l. apply Csum_ext. intros j Hj.
  rewrite (Nat.mul_comm j 4).
  rewrite dot4_dit by auto. rewrite sgn_add.
  replace ((4 * j + t) * (q * 4 ^ s + k)) with (q * t * 4 ^ s + (t * k + (k * j * 4 + 4 ^ s * 4 * (j * q)))) by lia.
  rewrite !W_add.
  rewrite W_full by (assert (0 < 4 ^ s) by (apply pow_pos; lia); lia).
  assert (Hp : 0 < 4 ^ s) by (apply pow_pos; lia).
  rewrite (Nat.mul_comm (4 ^ s) 4) at 1. rewrite W_scale_r by auto.
  rewrite (W_scale_r d 4 (4 ^ s)) by lia.
  rewrite <- W_4_flip. rewrite (Nat.mul_comm k j). ring.
Qed.

Lemma TDFT_dif : forall d s x t q, t < 4 ->
  TDFT d (S s) x (4 * q + t) =
  TDFT d s (fun j => W d (4 ^ S s) (t * j) * Csum 4 (fun c => x (c * 4 ^ s + j)%nat * W (flip d) 4 (c * t)))%C q.
Proof.
  intros d s x t q Ht. unfold TDFT.
  rewrite Nat.pow_succ_r'. rewrite Csum_stride.
  apply Csum_ext. intros j Hj.
  transitivity (sgn (dot4 s q j) * W d (4 ^ s) (j * q) * W d (4 * 4 ^ s) (t * j)
     * Csum 4 (fun c => x (c * 4 ^ s + j)%nat * W (flip d) 4 (c * t)))%C; [|ring].
  rewrite <- Csum_mul_l. apply Csum_ext. intros c Hc.
  rewrite dot4_dif by auto. rewrite sgn_add.
  replace ((c * 4 ^ s + j) * (4 * q + t)) with (c * t * 4 ^ s + (t * j + (4 * (j * q) + 4 * 4 ^ s * (c * q)))) by lia.
  rewrite !W_add.
  assert (Hp : 0 < 4 ^ s) by (apply pow_pos; lia).
  rewrite W_full by lia.
  rewrite W_scale_r by auto.
  rewrite W_scale by lia.
  rewrite <- W_4_flip. ring.
Qed.

(** The twisted transforms of opposite directions are inverse to each other up to n. *)
Lemma TDFT_inv : forall p d x i, i < 4 ^ p ->
  TDFT (flip d) p (TDFT d p x) i = (RtoC (INR (4 ^ p)) * x i)%C.
Proof.
  induction p; intros d x i Hi.
  - change (4 ^ 0) with 1 in *. assert (i = 0) by lia. subst i.
    unfold TDFT. change (4 ^ 0) with 1. unfold Csum. cbn [bsum].
    rewrite !Nat.mul_0_l, !W_0. unfold dot4. cbn [nsum]. unfold sgn. simpl. change (RtoC 1) with C1. ring.
  - assert (Hp : 0 < 4 ^ p) by (apply pow_pos; lia).
    rewrite (Nat.div_mod i 4) by lia.
    set (q := i / 4). set (t := i mod 4).
    assert (Ht : t < 4) by (apply Nat.mod_upper_bound; lia).
    assert (Hq : q < 4 ^ p). { apply Nat.div_lt_upper_bound; try lia. rewrite Nat.pow_succ_r' in Hi. lia. }
    rewrite TDFT_dif by auto.
    transitivity (TDFT (flip d) p (fun j => RtoC (INR 4) * TDFT d p (fun j => x (4 * j + t)%nat) j)%C q).
    { apply TDFT_ext. intros j Hj.
      rewrite (Csum_ext 4 _ (fun c => Csum 4 (fun u => W (flip (flip d)) 4 (c * t) * W (flip d) 4 (c * u) *
         (W d (4 ^ S p) (u * j) * TDFT d p (fun j => x (4 * j + u)%nat) j)))%C).
      2:{ intros c Hc. rewrite TDFT_dit by auto. rewrite <- Csum_mul_r. apply Csum_ext. intros. ring. }
      rewrite Csum_swap.
      rewrite (Csum_ext 4 _ (fun u => if u =? t then (RtoC (INR 4) * (W d (4 ^ S p) (t * j) * TDFT d p (fun j => x (4 * j + t)%nat) j))%C else C0)).
      2:{ intros u Hu. rewrite Csum_mul_r. rewrite flip_flip.
          assert (E : Csum 4 (fun i0 => (W d 4 (i0 * t) * W (flip d) 4 (i0 * u))%C)
                  = Csum 4 (fun i0 => W d 4 (i0 * (t + (4 - u))))).
          { apply Csum_ext. intros c Hc. rewrite Nat.mul_add_distr_l, W_add. f_equal.
            symmetry. apply W_neg; lia. }
          rewrite E, W_orth by lia.
          destruct (Nat.eqb_spec u t).
          - subst u. replace (t + (4 - t)) with 4 by lia. reflexivity.
          - assert (H : (t + (4 - u)) mod 4 <> 0).
            { intro H. apply Nat.mod_divides in H; [|lia]. destruct H as [z Hz].
              assert (z = 0 \/ z = 1 \/ 2 <= z) by lia. lia. }
            destruct (Nat.eqb_spec ((t + (4 - u)) mod 4) 0); [contradiction|]. ring. }
      rewrite (Csum_single 4 t) by (first [exact Ht | intros u Hu Hne; destruct (Nat.eqb_spec u t); [lia|auto]]).
      rewrite Nat.eqb_refl.
      pose proof (W_flip_mul d (4 ^ S p) (t * j)) as HW.
      transitivity (RtoC (INR 4) * ((W d (4 ^ S p) (t * j) * W (flip d) (4 ^ S p) (t * j)) * TDFT d p (fun j0 => x (4 * j0 + t)%nat) j))%C; [ring|].
      rewrite HW. ring. }
    transitivity (RtoC (INR 4) * TDFT (flip d) p (TDFT d p (fun j => x (4 * j + t)%nat)) q)%C.
    { unfold TDFT at 1 3. rewrite <- Csum_mul_l. apply Csum_ext. intros. ring. }
    rewrite IHp by auto. rewrite Nat.pow_succ_r', mult_INR, RtoC_mul. ring.
Qed.
