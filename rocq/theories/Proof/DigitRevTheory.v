(** Facts about digit reversal. *)
From Coq Require Import Arith Lia.
From Verif Require Import Spec.DigitRev.

Lemma pow_pos : forall r k, 0 < r -> 0 < r ^ k.
Proof. intros. induction k; simpl; nia. Qed.

Lemma div_lt_pow : forall r k i, 0 < r -> i < r ^ S k -> i / r < r ^ k.
Proof. intros. apply Nat.div_lt_upper_bound; simpl in *; lia. Qed.

Lemma digit_rev_lt : forall r k i, 0 < r -> digit_rev r k i < r ^ k.
Proof.
  induction k; intros; simpl; [lia|].
  specialize (IHk (i / r) H).
  assert (i mod r < r) by (apply Nat.mod_upper_bound; lia).
  pose proof (pow_pos r k H). nia.
Qed.

(** Reversal peels the most significant digit into the least significant place. *)
Lemma digit_rev_top : forall r k i, 0 < r ->
  i < r ^ S k -> digit_rev r (S k) i = digit_rev r k (i mod r ^ k) * r + i / r ^ k.
Proof.
  induction k; intros i Hr Hi.
  - change (r ^ 1) with (r * 1) in Hi. change (r ^ 0) with 1. rewrite !Nat.div_1_r.
    change (digit_rev r 1 i) with ((i mod r) * 1 + 0). change (digit_rev r 0 (i mod 1)) with 0.
    rewrite Nat.mod_small by lia. lia.
  - change (digit_rev r (S (S k)) i) with ((i mod r) * r ^ S k + digit_rev r (S k) (i / r)).
    rewrite (IHk (i / r)); auto. 2:{ apply div_lt_pow; auto. }
    change (digit_rev r (S k) (i mod r ^ S k)) with
      (((i mod r ^ S k) mod r) * r ^ k + digit_rev r k ((i mod r ^ S k) / r)).
    assert (Hp := pow_pos r k Hr).
    assert (E1 : (i mod r ^ S k) mod r = i mod r).
    { change (r ^ S k) with (r * r ^ k). rewrite Nat.mod_mul_r by lia.
      rewrite (Nat.mul_comm r), Nat.mod_add by lia. apply Nat.mod_mod. lia. }
    assert (E2 : (i mod r ^ S k) / r = (i / r) mod r ^ k).
    { change (r ^ S k) with (r * r ^ k). rewrite Nat.mod_mul_r by lia.
      rewrite (Nat.mul_comm r), Nat.div_add by lia.
      rewrite Nat.div_small; auto. apply Nat.mod_upper_bound. lia. }
    assert (E3 : i / r / r ^ k = i / r ^ S k).
    { rewrite Nat.div_div by lia. auto. }
    rewrite E1, E2, E3. change (r ^ S k) with (r * r ^ k). nia.
Qed.

Lemma digit_rev_invol : forall r k i, 0 < r -> i < r ^ k -> digit_rev r k (digit_rev r k i) = i.
Proof.
  induction k; intros i Hr Hi.
  - simpl in *. lia.
  - rewrite (digit_rev_top r k (digit_rev r (S k) i)); auto.
    2:{ apply digit_rev_lt; auto. }
    change (digit_rev r (S k) i) with ((i mod r) * r ^ k + digit_rev r k (i / r)).
    assert (Hb := digit_rev_lt r k (i / r) Hr).
    assert (Hp := pow_pos r k Hr).
    rewrite (Nat.add_comm ((i mod r) * r ^ k)), Nat.mod_add by lia. rewrite Nat.mod_small by auto.
    rewrite Nat.div_add by lia. rewrite (Nat.div_small (digit_rev r k (i / r))) by auto.
    rewrite IHk; auto.
    + pose proof (Nat.div_mod i r). lia.
    + apply div_lt_pow; auto.
Qed.

Lemma digit_rev_inj : forall r k i j, 0 < r -> i < r ^ k -> j < r ^ k ->
  digit_rev r k i = digit_rev r k j -> i = j.
Proof.
  intros. rewrite <- (digit_rev_invol r k i), <- (digit_rev_invol r k j) by auto. congruence.
Qed.

Lemma digit_rev_snoc : forall r k b t, t < r ->
  digit_rev r (S k) (b * r + t) = t * r ^ k + digit_rev r k b.
Proof.
  intros. simpl. rewrite (Nat.add_comm (b * r)), Nat.mod_add by lia.
  rewrite Nat.mod_small by auto. rewrite Nat.div_add by lia.
  rewrite Nat.div_small by auto. auto.
Qed.

Lemma digit_rev_0 : forall r k, 0 < r -> digit_rev r k 0 = 0.
Proof.
  induction k; intros; simpl; auto. rewrite Nat.div_0_l, Nat.mod_0_l by lia. rewrite IHk; auto.
Qed.
