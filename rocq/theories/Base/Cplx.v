(** Complex numbers over the standard library's reals. *)
From Coq Require Import Reals Lra Lia Ring Field.
From Verif Require Import Base.Sums.
Local Open Scope R_scope.

Definition C : Type := (R * R)%type.

Declare Scope C_scope.
Delimit Scope C_scope with C.
Bind Scope C_scope with C.

Definition RtoC (r : R) : C := (r, 0).
Definition C0 : C := (0, 0).
Definition C1 : C := (1, 0).
Definition Ci : C := (0, 1).
Definition Cadd (x y : C) : C := (fst x + fst y, snd x + snd y).
Definition Copp (x : C) : C := (- fst x, - snd x).
Definition Csub (x y : C) : C := (fst x - fst y, snd x - snd y).
Definition Cmul (x y : C) : C :=
  (fst x * fst y - snd x * snd y, fst x * snd y + snd x * fst y).
Definition Cconj (x : C) : C := (fst x, - snd x).
Definition Cnorm2 (x : C) : R := fst x * fst x + snd x * snd x.
Definition Cabs (x : C) : R := sqrt (Cnorm2 x).
Definition Cscale (r : R) (x : C) : C := (r * fst x, r * snd x).
Definition Cinv (x : C) : C := (fst x / Cnorm2 x, - snd x / Cnorm2 x).
Definition Cdiv (x y : C) : C := Cmul x (Cinv y).

Infix "+" := Cadd : C_scope.
Infix "-" := Csub : C_scope.
Infix "*" := Cmul : C_scope.
Infix "/" := Cdiv : C_scope.
Notation "- x" := (Copp x) : C_scope.

(** e^{i a} *)
Definition Cexp (a : R) : C := (cos a, sin a).

Lemma C_eq : forall x y : C, fst x = fst y -> snd x = snd y -> x = y.
Proof. intros [a b] [c d]; simpl; intros; subst; auto. Qed.

Lemma C_ring : ring_theory C0 C1 Cadd Cmul Csub Copp (@eq C).
Proof.
  constructor; intros; apply C_eq;
    unfold Cadd, Cmul, Csub, Copp, C0, C1; simpl; ring.
Qed.
Add Ring CRing : C_ring.

Lemma Cnorm2_pos : forall x, 0 <= Cnorm2 x.
Proof. intros. unfold Cnorm2. nra. Qed.

Lemma Cnorm2_0 : forall x, Cnorm2 x = 0 -> x = C0.
Proof. intros [a b] H. unfold Cnorm2 in H; simpl in H. apply C_eq; simpl; nra. Qed.

Lemma Cnorm2_nz : forall x, x <> C0 -> Cnorm2 x <> 0.
Proof. intros x H E. apply H. apply Cnorm2_0. auto. Qed.

Lemma C1_neq_0 : C1 <> C0.
Proof. intro H. inversion H. lra. Qed.

Lemma C_field : field_theory C0 C1 Cadd Cmul Csub Copp Cdiv Cinv (@eq C).
Proof.
  constructor.
  - apply C_ring.
  - apply C1_neq_0.
  - auto.
  - intros p H. apply Cnorm2_nz in H. destruct p as [a b].
    unfold Cnorm2 in H. simpl in H.
    unfold Cmul, Cinv, C1, Cnorm2; simpl. apply C_eq; simpl; field; auto.
Qed.
Add Field CField : C_field.

Lemma RtoC_add : forall a b, RtoC (a + b) = (RtoC a + RtoC b)%C.
Proof. intros. apply C_eq; simpl; ring. Qed.
Lemma RtoC_sub : forall a b, RtoC (a - b) = (RtoC a - RtoC b)%C.
Proof. intros. apply C_eq; simpl; ring. Qed.
Lemma RtoC_mul : forall a b, RtoC (a * b) = (RtoC a * RtoC b)%C.
Proof. intros. apply C_eq; simpl; ring. Qed.
Lemma RtoC_opp : forall a, RtoC (- a) = (- RtoC a)%C.
Proof. intros. apply C_eq; simpl; ring. Qed.
Lemma RtoC_0 : RtoC 0 = C0. Proof. auto. Qed.
Lemma RtoC_1 : RtoC 1 = C1. Proof. auto. Qed.
Lemma RtoC_inj : forall a b, RtoC a = RtoC b -> a = b.
Proof. intros a b H. inversion H; auto. Qed.

Lemma Cscale_RtoC : forall r x, Cscale r x = (RtoC r * x)%C.
Proof. intros. apply C_eq; simpl; ring. Qed.

Lemma Cconj_add : forall x y, Cconj (x + y) = (Cconj x + Cconj y)%C.
Proof. intros. apply C_eq; simpl; ring. Qed.
Lemma Cconj_sub : forall x y, Cconj (x - y) = (Cconj x - Cconj y)%C.
Proof. intros. apply C_eq; simpl; ring. Qed.
Lemma Cconj_mul : forall x y, Cconj (x * y) = (Cconj x * Cconj y)%C.
Proof. intros. apply C_eq; simpl; ring. Qed.
Lemma Cconj_conj : forall x, Cconj (Cconj x) = x.
Proof. intros. apply C_eq; simpl; ring. Qed.
Lemma Cconj_RtoC : forall r, Cconj (RtoC r) = RtoC r.
Proof. intros. apply C_eq; simpl; ring. Qed.
Lemma Cconj_0 : Cconj C0 = C0.
Proof. apply C_eq; simpl; ring. Qed.
Lemma Cconj_1 : Cconj C1 = C1.
Proof. apply C_eq; simpl; ring. Qed.
Lemma Cmul_conj : forall x, (x * Cconj x)%C = RtoC (Cnorm2 x).
Proof. intros. unfold Cnorm2. apply C_eq; simpl; ring. Qed.
Lemma Cnorm2_mul : forall x y, Cnorm2 (x * y) = Cnorm2 x * Cnorm2 y.
Proof. intros. unfold Cnorm2. simpl. ring. Qed.
Lemma Cabs_mul : forall x y, Cabs (x * y) = Cabs x * Cabs y.
Proof. intros. unfold Cabs. rewrite Cnorm2_mul. apply sqrt_mult; apply Cnorm2_pos. Qed.
Lemma Cabs_conj : forall x, Cabs (Cconj x) = Cabs x.
Proof. intros. unfold Cabs, Cnorm2. simpl. f_equal. ring. Qed.

Lemma Cexp_add : forall a b, Cexp (a + b) = (Cexp a * Cexp b)%C.
Proof.
  intros. unfold Cexp. apply C_eq; simpl.
  - apply cos_plus.
  - rewrite sin_plus. ring.
Qed.

Lemma Cexp_0 : Cexp 0 = C1.
Proof. unfold Cexp. rewrite cos_0, sin_0. auto. Qed.

Lemma Cexp_opp : forall a, Cexp (- a) = Cconj (Cexp a).
Proof. intros. unfold Cexp, Cconj. rewrite cos_neg, sin_neg. auto. Qed.

Lemma Cexp_norm2 : forall a, Cnorm2 (Cexp a) = 1.
Proof.
  intros. unfold Cnorm2, Cexp; simpl.
  pose proof (sin2_cos2 a). unfold Rsqr in H. lra.
Qed.

Lemma Cexp_mul_conj : forall a, (Cexp a * Cconj (Cexp a))%C = C1.
Proof. intros. rewrite Cmul_conj, Cexp_norm2. auto. Qed.

Lemma Cexp_nz : forall a, Cexp a <> C0.
Proof.
  intros a H. pose proof (Cexp_norm2 a). rewrite H in H0. unfold Cnorm2 in H0. simpl in H0. lra.
Qed.

Lemma Cexp_2PI : Cexp (2 * PI) = C1.
Proof. unfold Cexp. rewrite cos_2PI, sin_2PI. auto. Qed.

Lemma Cexp_PI : Cexp PI = (- C1)%C.
Proof. unfold Cexp. rewrite cos_PI, sin_PI. apply C_eq; simpl; ring. Qed.

Lemma Cexp_PI2 : Cexp (PI / 2) = Ci.
Proof. unfold Cexp. rewrite cos_PI2, sin_PI2. auto. Qed.

Definition Cpow (x : C) (n : nat) : C := rpow C1 Cmul x n.

Lemma Cexp_pow : forall n a, Cpow (Cexp a) n = Cexp (INR n * a).
Proof.
  induction n; intros.
  - simpl. rewrite Rmult_0_l, Cexp_0. auto.
  - unfold Cpow in *. simpl rpow. rewrite IHn, <- Cexp_add. f_equal.
    rewrite S_INR. ring.
Qed.

Lemma Cexp_2PI_nat : forall k, Cexp (INR k * (2 * PI)) = C1.
Proof.
  intros. rewrite <- Cexp_pow, Cexp_2PI. unfold Cpow.
  induction k; simpl; auto. rewrite IHk. ring.
Qed.

(** Sums of complex and of real numbers. *)
Definition Csum (n : nat) (f : nat -> C) : C := bsum C0 Cadd n f.
Definition Rsum (n : nat) (f : nat -> R) : R := bsum 0 Rplus n f.

Lemma R_ring : ring_theory 0 1 Rplus Rmult Rminus Ropp (@eq R).
Proof. exact (F_R Rfield). Qed.

Lemma Csum_ext : forall n f g, (forall i, (i < n)%nat -> f i = g i) -> Csum n f = Csum n g.
Proof. intros. apply bsum_ext; auto. Qed.
Lemma Rsum_ext : forall n f g, (forall i, (i < n)%nat -> f i = g i) -> Rsum n f = Rsum n g.
Proof. intros. apply bsum_ext; auto. Qed.
Lemma Csum_S : forall n f, Csum (S n) f = (Csum n f + f n)%C.
Proof. auto. Qed.
Lemma Rsum_S : forall n f, Rsum (S n) f = Rsum n f + f n.
Proof. auto. Qed.
Lemma Csum_first : forall n f, Csum (S n) f = (f O + Csum n (fun i => f (S i)))%C.
Proof. intros. apply (bsum_first _ _ _ _ _ _ _ C_ring). Qed.
Lemma Csum_add : forall n f g, Csum n (fun i => f i + g i)%C = (Csum n f + Csum n g)%C.
Proof. intros. apply (bsum_add _ _ _ _ _ _ _ C_ring). Qed.
Lemma Csum_sub : forall n f g, Csum n (fun i => f i - g i)%C = (Csum n f - Csum n g)%C.
Proof. intros. apply (bsum_sub _ _ _ _ _ _ _ C_ring). Qed.
Lemma Csum_mul_l : forall n c f, Csum n (fun i => c * f i)%C = (c * Csum n f)%C.
Proof. intros. apply (bsum_mul_l _ _ _ _ _ _ _ C_ring). Qed.
Lemma Csum_mul_r : forall n c f, Csum n (fun i => f i * c)%C = (Csum n f * c)%C.
Proof. intros. apply (bsum_mul_r _ _ _ _ _ _ _ C_ring). Qed.
Lemma Csum_0 : forall n f, (forall i, (i < n)%nat -> f i = C0) -> Csum n f = C0.
Proof. intros. apply (bsum_0 _ _ _ _ _ _ _ C_ring); auto. Qed.
Lemma Csum_split : forall n m f, Csum (n + m) f = (Csum n f + Csum m (fun i => f (n + i)%nat))%C.
Proof. intros. apply (bsum_split _ _ _ _ _ _ _ C_ring). Qed.
Lemma Csum_le : forall n m f, (n <= m)%nat -> (forall i, (n <= i < m)%nat -> f i = C0) -> Csum m f = Csum n f.
Proof. intros. apply (bsum_le _ _ _ _ _ _ _ C_ring); auto. Qed.
Lemma Csum_swap : forall n m (f : nat -> nat -> C),
  Csum n (fun i => Csum m (fun j => f i j)) = Csum m (fun j => Csum n (fun i => f i j)).
Proof. intros. apply (bsum_swap _ _ _ _ _ _ _ C_ring). Qed.
Lemma Csum_single : forall n k f, (k < n)%nat -> (forall i, (i < n)%nat -> i <> k -> f i = C0) -> Csum n f = f k.
Proof. intros. apply (bsum_single _ _ _ _ _ _ _ C_ring); auto. Qed.
Lemma Csum_stride : forall a b f,
  Csum (a * b) f = Csum b (fun j => Csum a (fun i => f (i * b + j)%nat)).
Proof. intros. apply (bsum_stride _ _ _ _ _ _ _ C_ring). Qed.
Lemma Csum_block : forall a b f,
  Csum (a * b) f = Csum a (fun i => Csum b (fun j => f (i * b + j)%nat)).
Proof. intros. apply (bsum_block _ _ _ _ _ _ _ C_ring). Qed.
Lemma Csum_reindex : forall n (s : nat -> nat) f,
  (forall i, (i < n)%nat -> (s i < n)%nat) ->
  (forall i j, (i < n)%nat -> (j < n)%nat -> s i = s j -> i = j) ->
  Csum n f = Csum n (fun i => f (s i)).
Proof. intros. apply (bsum_reindex _ _ _ _ _ _ _ C_ring); auto. Qed.
Lemma Csum_cyclic : forall n k f, (0 < n)%nat -> Csum n f = Csum n (fun i => f ((i + k) mod n)%nat).
Proof. intros. apply (bsum_cyclic _ _ _ _ _ _ _ C_ring); auto. Qed.
Lemma Csum_prod : forall n m f g,
  (Csum n f * Csum m g)%C = Csum n (fun i => Csum m (fun j => f i * g j)%C).
Proof. intros. apply (bsum_prod _ _ _ _ _ _ _ C_ring). Qed.

Lemma Rsum_add : forall n f g, Rsum n (fun i => f i + g i) = Rsum n f + Rsum n g.
Proof. intros. apply (bsum_add _ _ _ _ _ _ _ R_ring). Qed.
Lemma Rsum_sub : forall n f g, Rsum n (fun i => f i - g i) = Rsum n f - Rsum n g.
Proof. intros. apply (bsum_sub _ _ _ _ _ _ _ R_ring). Qed.
Lemma Rsum_mul_l : forall n c f, Rsum n (fun i => c * f i) = c * Rsum n f.
Proof. intros. apply (bsum_mul_l _ _ _ _ _ _ _ R_ring). Qed.
Lemma Rsum_mul_r : forall n c f, Rsum n (fun i => f i * c) = Rsum n f * c.
Proof. intros. apply (bsum_mul_r _ _ _ _ _ _ _ R_ring). Qed.
Lemma Rsum_0 : forall n f, (forall i, (i < n)%nat -> f i = 0) -> Rsum n f = 0.
Proof. intros. apply (bsum_0 _ _ _ _ _ _ _ R_ring); auto. Qed.
Lemma Rsum_split : forall n m f, Rsum (n + m) f = Rsum n f + Rsum m (fun i => f (n + i)%nat).
Proof. intros. apply (bsum_split _ _ _ _ _ _ _ R_ring). Qed.
Lemma Rsum_first : forall n f, Rsum (S n) f = f O + Rsum n (fun i => f (S i)).
Proof. intros. apply (bsum_first _ _ _ _ _ _ _ R_ring). Qed.
Lemma Rsum_le_zero : forall n m f, (n <= m)%nat -> (forall i, (n <= i < m)%nat -> f i = 0) -> Rsum m f = Rsum n f.
Proof. intros. apply (bsum_le _ _ _ _ _ _ _ R_ring); auto. Qed.
Lemma Rsum_swap : forall n m (f : nat -> nat -> R),
  Rsum n (fun i => Rsum m (fun j => f i j)) = Rsum m (fun j => Rsum n (fun i => f i j)).
Proof. intros. apply (bsum_swap _ _ _ _ _ _ _ R_ring). Qed.
Lemma Rsum_single : forall n k f, (k < n)%nat -> (forall i, (i < n)%nat -> i <> k -> f i = 0) -> Rsum n f = f k.
Proof. intros. apply (bsum_single _ _ _ _ _ _ _ R_ring); auto. Qed.

Lemma Rsum_nonneg : forall n f, (forall i, (i < n)%nat -> 0 <= f i) -> 0 <= Rsum n f.
Proof.
  induction n; intros; unfold Rsum in *; simpl; try lra.
  pose proof (IHn f). pose proof (H n). assert (0 <= bsum 0 Rplus n f) by auto.
  assert (0 <= f n) by auto. lra.
Qed.

Lemma Rsum_mono : forall n f g, (forall i, (i < n)%nat -> f i <= g i) -> Rsum n f <= Rsum n g.
Proof.
  intros. assert (0 <= Rsum n (fun i => g i - f i)).
  { apply Rsum_nonneg. intros. specialize (H i H0). lra. }
  rewrite Rsum_sub in H0. lra.
Qed.

Lemma Rsum_const : forall n c, Rsum n (fun _ => c) = INR n * c.
Proof.
  induction n; intros; unfold Rsum in *; simpl bsum.
  - simpl. ring.
  - rewrite IHn, S_INR. ring.
Qed.

Lemma Rsum_0_all : forall n f, (forall i, (i < n)%nat -> 0 <= f i) -> Rsum n f = 0 ->
  forall i, (i < n)%nat -> f i = 0.
Proof.
  induction n; intros; try lia.
  rewrite Rsum_S in H0.
  assert (0 <= Rsum n f) by (apply Rsum_nonneg; auto).
  assert (0 <= f n) by auto.
  destruct (Nat.eq_dec i n).
  - subst. lra.
  - apply IHn; auto; try lia. lra.
Qed.

Lemma Rsum_ge_term : forall n f k, (k < n)%nat -> (forall i, (i < n)%nat -> 0 <= f i) -> f k <= Rsum n f.
Proof.
  induction n; intros; try lia. rewrite Rsum_S.
  assert (0 <= Rsum n f) by (apply Rsum_nonneg; auto).
  assert (0 <= f n) by auto.
  destruct (Nat.eq_dec k n).
  - subst. lra.
  - assert (f k <= Rsum n f) by (apply IHn; auto; lia). lra.
Qed.

Lemma fst_Csum : forall n f, fst (Csum n f) = Rsum n (fun i => fst (f i)).
Proof. induction n; intros; auto. rewrite Csum_S, Rsum_S. simpl. rewrite IHn. auto. Qed.
Lemma snd_Csum : forall n f, snd (Csum n f) = Rsum n (fun i => snd (f i)).
Proof. induction n; intros; auto. rewrite Csum_S, Rsum_S. simpl. rewrite IHn. auto. Qed.

Lemma Csum_RtoC : forall n f, Csum n (fun i => RtoC (f i)) = RtoC (Rsum n f).
Proof.
  intros. apply C_eq.
  - rewrite fst_Csum. auto.
  - rewrite snd_Csum. simpl. apply Rsum_0. auto.
Qed.

Lemma Cconj_sum : forall n f, Cconj (Csum n f) = Csum n (fun i => Cconj (f i)).
Proof.
  induction n; intros; unfold Csum in *; simpl.
  - apply Cconj_0.
  - rewrite Cconj_add, IHn. auto.
Qed.

Lemma Csum_const : forall n c, Csum n (fun _ => c) = (RtoC (INR n) * c)%C.
Proof.
  intros. apply C_eq.
  - rewrite fst_Csum, Rsum_const. simpl. ring.
  - rewrite snd_Csum, Rsum_const. simpl. ring.
Qed.
