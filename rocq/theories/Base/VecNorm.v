(** The Euclidean norm of vectors of real and complex numbers. *)
From Coq Require Import Reals Lra Lia Psatz Arith.
From Verif Require Import Base.Sums Base.Cplx.
Local Open Scope R_scope.

Definition rnorm (n : nat) (f : nat -> R) : R := sqrt (Rsum n (fun i => f i * f i)).
Definition vnorm (n : nat) (f : nat -> C) : R := sqrt (Rsum n (fun i => Cnorm2 (f i))).

Lemma sqrt_le_of_sq : forall a b, 0 <= b -> a <= b * b -> sqrt a <= b.
Proof. intros a b Hb H. rewrite <- (sqrt_square b) by auto. apply sqrt_le_1_alt. auto. Qed.

Lemma Cabs_pos : forall x, 0 <= Cabs x.
Proof. intros. apply sqrt_pos. Qed.

Lemma Cabs_sq : forall x, Cabs x * Cabs x = Cnorm2 x.
Proof. intros. apply sqrt_sqrt, Cnorm2_pos. Qed.

Lemma cauchy2 : forall a b c d, 0 <= a -> 0 <= b -> 0 <= c -> 0 <= d -> sqrt ((a + c) * (a + c) + (b + d) * (b + d)) <= sqrt (a * a + b * b) + sqrt (c * c + d * d).
Proof.
  intros a b c d Ha Hb Hc Hd. set (p := sqrt (a * a + b * b)). set (q := sqrt (c * c + d * d)).
  assert (Hp : p * p = a * a + b * b) by (apply sqrt_sqrt; nra). assert (Hq : q * q = c * c + d * d) by (apply sqrt_sqrt; nra).
  assert (P : 0 <= p) by apply sqrt_pos. assert (Q : 0 <= q) by apply sqrt_pos.
  apply sqrt_le_of_sq; [lra|]. assert (H : a * c + b * d <= p * q); [|nra].
  apply Rsqr_incr_0_var; [|nra]. unfold Rsqr. replace (p * q * (p * q)) with ((p * p) * (q * q)) by ring. rewrite Hp, Hq. pose proof (Rle_0_sqr (a * d - b * c)) as S. unfold Rsqr in S. nra.
Qed.

Lemma rnorm_pos : forall n f, 0 <= rnorm n f.
Proof. intros. apply sqrt_pos. Qed.

Lemma rsum_sq_pos : forall n f, 0 <= Rsum n (fun i => f i * f i).
Proof. intros. apply Rsum_nonneg. intros. nra. Qed.

Lemma rnorm_sq : forall n f, rnorm n f * rnorm n f = Rsum n (fun i => f i * f i).
Proof. intros. apply sqrt_sqrt, rsum_sq_pos. Qed.

Lemma rnorm_S : forall n f, rnorm (S n) f = sqrt (rnorm n f * rnorm n f + f n * f n).
Proof. intros. unfold rnorm at 1. rewrite Rsum_S, rnorm_sq. auto. Qed.

Lemma rnorm_ext : forall n f g, (forall i, (i < n)%nat -> f i = g i) -> rnorm n f = rnorm n g.
Proof. intros n f g H. unfold rnorm. f_equal. apply Rsum_ext. intros. rewrite H by auto. auto. Qed.

Lemma rnorm_mono : forall n f g, (forall i, (i < n)%nat -> 0 <= f i <= g i) -> rnorm n f <= rnorm n g.
Proof. intros n f g H. apply sqrt_le_1_alt. apply Rsum_mono. intros i Hi. destruct (H i Hi). nra. Qed.

Lemma rnorm_add : forall n f g, (forall i, (i < n)%nat -> 0 <= f i) -> (forall i, (i < n)%nat -> 0 <= g i) -> rnorm n (fun i => f i + g i) <= rnorm n f + rnorm n g.
Proof.
  induction n as [|n IH]; intros f g Hf Hg.
  - unfold rnorm. cbn [Rsum bsum]. rewrite sqrt_0. lra.
  - rewrite !rnorm_S. eapply Rle_trans; [|apply cauchy2; auto using rnorm_pos]. apply sqrt_le_1_alt.
    specialize (IH f g ltac:(auto) ltac:(auto)). pose proof (rnorm_pos n (fun i => f i + g i)). apply Rplus_le_compat_r. apply Rmult_le_compat; auto.
Qed.

Lemma rnorm_scale : forall n c f, 0 <= c -> rnorm n (fun i => c * f i) = c * rnorm n f.
Proof.
  intros n c f Hc. unfold rnorm. rewrite (Rsum_ext n _ (fun i => (c * c) * (f i * f i))) by (intros; ring). rewrite Rsum_mul_l.
  rewrite sqrt_mult by (nra || apply rsum_sq_pos). rewrite sqrt_square by auto. auto.
Qed.

Lemma rnorm_const : forall n c, 0 <= c -> rnorm n (fun _ => c) = c * sqrt (INR n).
Proof.
  intros n c Hc. unfold rnorm. rewrite Rsum_const. rewrite sqrt_mult by (apply pos_INR || nra). rewrite sqrt_square by auto. ring.
Qed.

Lemma vnorm_pos : forall n f, 0 <= vnorm n f.
Proof. intros. apply sqrt_pos. Qed.

Lemma vnorm_rnorm : forall n f, vnorm n f = rnorm n (fun i => Cabs (f i)).
Proof. intros. unfold vnorm, rnorm. f_equal. apply Rsum_ext. intros. rewrite Cabs_sq. auto. Qed.

Lemma vnorm_sq : forall n f, vnorm n f * vnorm n f = Rsum n (fun i => Cnorm2 (f i)).
Proof. intros. apply sqrt_sqrt. apply Rsum_nonneg. intros. apply Cnorm2_pos. Qed.

Lemma vnorm_ext : forall n f g, (forall i, (i < n)%nat -> f i = g i) -> vnorm n f = vnorm n g.
Proof. intros n f g H. unfold vnorm. f_equal. apply Rsum_ext. intros. rewrite H by auto. auto. Qed.

Lemma Cabs_le_vnorm : forall n f i, (i < n)%nat -> Cabs (f i) <= vnorm n f.
Proof. intros n f i Hi. apply sqrt_le_1_alt. apply (Rsum_ge_term n (fun i => Cnorm2 (f i))); auto. intros. apply Cnorm2_pos. Qed.

Lemma Cabs_triang : forall x y, Cabs (x + y)%C <= Cabs x + Cabs y.
Proof.
  intros [a b] [c d]. unfold Cabs, Cnorm2. cbn [Cadd fst snd].
  eapply Rle_trans; [|eapply Rle_trans; [apply (cauchy2 (Rabs a) (Rabs b) (Rabs c) (Rabs d)); apply Rabs_pos|]].
  - apply sqrt_le_1_alt. assert (H : forall x y, (x + y) * (x + y) <= (Rabs x + Rabs y) * (Rabs x + Rabs y)).
    { intros x y. apply Rsqr_le_abs_1. rewrite (Rabs_pos_eq (Rabs x + Rabs y)); [apply Rabs_triang|]. pose proof (Rabs_pos x). pose proof (Rabs_pos y). lra. }
    apply Rplus_le_compat; apply H.
  - assert (H : forall x, Rabs x * Rabs x = x * x) by (intros x; rewrite <- Rabs_mult; apply Rabs_pos_eq, Rle_0_sqr). rewrite !H. lra.
Qed.

Lemma Cabs_opp : forall x, Cabs (- x)%C = Cabs x.
Proof. intros [a b]. unfold Cabs, Cnorm2. cbn [Copp fst snd]. f_equal. ring. Qed.

Lemma Cabs_triang_sub : forall x y, Cabs (x - y)%C <= Cabs x + Cabs y.
Proof. intros x y. replace (x - y)%C with (x + - y)%C by ring. rewrite <- (Cabs_opp y). apply Cabs_triang. Qed.

Lemma vnorm_add : forall n f g, vnorm n (fun i => f i + g i)%C <= vnorm n f + vnorm n g.
Proof.
  intros n f g. rewrite !vnorm_rnorm. eapply Rle_trans; [|apply rnorm_add; intros; apply Cabs_pos].
  apply rnorm_mono. intros i Hi. split; [apply Cabs_pos|apply Cabs_triang].
Qed.

Lemma vnorm_sub : forall n f g, vnorm n (fun i => f i - g i)%C <= vnorm n f + vnorm n g.
Proof.
  intros n f g. rewrite !vnorm_rnorm. eapply Rle_trans; [|apply rnorm_add; intros; apply Cabs_pos].
  apply rnorm_mono. intros i Hi. split; [apply Cabs_pos|apply Cabs_triang_sub].
Qed.

Lemma vnorm_affine : forall n (e g : nat -> C) u h, 0 <= u -> 0 <= h -> (forall i, (i < n)%nat -> Cabs (e i) <= u * Cabs (g i) + h) -> vnorm n e <= u * vnorm n g + h * sqrt (INR n).
Proof.
  intros n e g u h Hu Hh H. rewrite !vnorm_rnorm.
  eapply Rle_trans; [apply (rnorm_mono n _ (fun i => u * Cabs (g i) + h))|].
  - intros i Hi. split; [apply Cabs_pos|auto].
  - eapply Rle_trans; [apply rnorm_add|].
    + intros. apply Rmult_le_pos; auto using Cabs_pos.
    + auto.
    + rewrite rnorm_scale, rnorm_const by auto. lra.
Qed.

Lemma vnorm_isometry : forall n f g, (forall i, (i < n)%nat -> Cnorm2 (f i) = Cnorm2 (g i)) -> vnorm n f = vnorm n g.
Proof. intros n f g H. unfold vnorm. f_equal. apply Rsum_ext. auto. Qed.

Lemma Cabs_0 : Cabs C0 = 0.
Proof. unfold Cabs, Cnorm2, C0. cbn [fst snd]. rewrite Rmult_0_l, Rplus_0_l. apply sqrt_0. Qed.

Lemma Cabs_box : forall x h, Rabs (fst x) <= h -> Rabs (snd x) <= h -> Cabs x <= 3 / 2 * h.
Proof.
  intros [a b] h Ha Hb. cbn [fst snd] in *. pose proof (Rabs_pos a). unfold Cabs, Cnorm2. cbn [fst snd]. apply sqrt_le_of_sq; [lra|].
  assert (Q : forall x, Rabs x <= h -> x * x <= h * h). { intros x Hx. apply Rsqr_le_abs_1. rewrite (Rabs_pos_eq h) by lra. auto. }
  pose proof (Q a Ha). pose proof (Q b Hb). nra.
Qed.

Lemma Rabs_le_Cabs : forall x, Rabs (fst x) <= Cabs x /\ Rabs (snd x) <= Cabs x.
Proof.
  intros [a b]. unfold Cabs, Cnorm2. cbn [fst snd]. split; rewrite <- sqrt_Rsqr_abs; apply sqrt_le_1_alt; unfold Rsqr; nra.
Qed.
