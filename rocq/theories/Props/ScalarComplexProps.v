(** Property theorems C53: scalar_complex and the real/imag accessors. *)
From Coq Require Import Reals Lra Field.
From Verif Require Import Model.ScalarComplex.
Local Open Scope R_scope.

(** A complex number is determined by its two components. *)
Lemma sc_eq : forall z w, sc_re z = sc_re w -> sc_im z = sc_im w -> z = w.
Proof. intros [a b] [c d]; cbn; intros -> ->; reflexivity. Qed.

Lemma sum_sq_nz : forall a b, ~ (a = 0 /\ b = 0) -> a * a + b * b <> 0.
Proof.
  intros a b H E. apply H. pose proof (Rle_0_sqr a). pose proof (Rle_0_sqr b). unfold Rsqr in *.
  split; apply Rsqr_0_uniq; unfold Rsqr; lra.
Qed.

(** The operators form a field (Coq's [field_theory]: commutative ring laws for + - * unary -,
    z / w = z * (1 / w), and (1 / w) * w = 1 for w <> 0) ... *)
Theorem C53_field : field_theory (sc_of 0) (sc_of 1) sc_add sc_mul sc_sub sc_neg sc_div (sc_div (sc_of 1)) eq.
Proof.
  constructor.
  - constructor; intros; apply sc_eq; cbn; ring.
  - intros E. injection E. lra.
  - intros p q. apply sc_eq; cbn; unfold Rdiv; ring.
  - intros [a b] H. assert (N : a * a + b * b <> 0).
    { apply sum_sq_nz. intros [-> ->]. apply H. reflexivity. }
    apply sc_eq; cbn; field; auto.
Qed.

(** ... generated over the reals by a square root of -1: the complex numbers. *)
Theorem C53_complex : sc_mul (Sc 0 1) (Sc 0 1) = sc_neg (sc_of 1) /\
  (forall z, z = sc_add (sc_of (sc_re z)) (sc_mul (sc_of (sc_im z)) (Sc 0 1))) /\
  (forall x y, sc_add (sc_of x) (sc_of y) = sc_of (x + y) /\ sc_mul (sc_of x) (sc_of y) = sc_of (x * y) /\ sc_pos (sc_of x) = sc_of x).
Proof. split; [|split]; intros; repeat split; try (apply sc_eq; cbn; ring). Qed.

(** Compound assignment is the operator, also when both sides are the same object; scalar
    right-hand sides act as real numbers. *)
Theorem C53_compound_assignment : forall z w s,
  sc_assign sc_add z (Some w) = sc_add z w /\ sc_assign sc_sub z (Some w) = sc_sub z w /\
  sc_assign sc_mul z (Some w) = sc_mul z w /\ sc_assign sc_div z (Some w) = sc_div z w /\
  sc_assign sc_add z None = sc_mul (sc_of 2) z /\ sc_assign sc_sub z None = sc_of 0 /\
  sc_assign sc_mul z None = sc_mul z z /\ (z <> sc_of 0 -> sc_assign sc_div z None = sc_of 1) /\
  sc_mul_scalar z s = sc_mul z (sc_of s) /\ (s <> 0 -> sc_div_scalar z s = sc_div z (sc_of s)).
Proof.
  intros z w s. do 4 (split; [reflexivity|]). split; [apply sc_eq; cbn; ring|]. split; [apply sc_eq; cbn; ring|].
  split; [reflexivity|]. split; [|split].
  - intros H. destruct z as [a b]. assert (N : a * a + b * b <> 0).
    { apply sum_sq_nz. intros [-> ->]. apply H. reflexivity. }
    apply sc_eq; cbn; field; auto.
  - apply sc_eq; cbn; ring.
  - intros H. apply sc_eq; cbn; field; auto; intros E; apply H; nra.
Qed.

(** conj is an involutive field homomorphism with z * conj z = |z|^2. *)
Theorem C53_conj : forall z w,
  sc_conj (sc_conj z) = z /\ sc_conj (sc_add z w) = sc_add (sc_conj z) (sc_conj w) /\
  sc_conj (sc_sub z w) = sc_sub (sc_conj z) (sc_conj w) /\ sc_conj (sc_neg z) = sc_neg (sc_conj z) /\
  sc_conj (sc_mul z w) = sc_mul (sc_conj z) (sc_conj w) /\ sc_conj (sc_div z w) = sc_div (sc_conj z) (sc_conj w) /\
  sc_mul z (sc_conj z) = sc_of (sc_abs z * sc_abs z).
Proof.
  intros z w. do 5 (split; [apply sc_eq; cbn; ring|]). split.
  - apply sc_eq; cbn; replace (- sc_im w * - sc_im w) with (sc_im w * sc_im w) by ring; unfold Rdiv; ring.
  - unfold sc_abs. rewrite sqrt_sqrt by (pose proof (Rle_0_sqr (sc_re z)); pose proof (Rle_0_sqr (sc_im z)); unfold Rsqr in *; lra).
    apply sc_eq; cbn; ring.
Qed.

(** abs is a multiplicative norm. *)
Theorem C53_abs : forall z w,
  0 <= sc_abs z /\ (sc_abs z = 0 <-> z = sc_of 0) /\ sc_abs (sc_mul z w) = sc_abs z * sc_abs w /\
  sc_abs (sc_conj z) = sc_abs z /\ sc_abs (sc_neg z) = sc_abs z /\ sc_abs (sc_add z w) <= sc_abs z + sc_abs w /\
  sc_abs (sc_of (sc_re z)) = Rabs (sc_re z).
Proof.
  intros z w. assert (NN : forall a b, 0 <= a * a + b * b).
  { intros a b. pose proof (Rle_0_sqr a). pose proof (Rle_0_sqr b). unfold Rsqr in *. lra. }
  split; [apply sqrt_pos|]. split.
  { split.
    - intros E. apply sqrt_eq_0 in E; auto. destruct z as [a b]. cbn in E. pose proof (Rle_0_sqr a). pose proof (Rle_0_sqr b).
      unfold Rsqr in *. apply sc_eq; cbn; apply Rsqr_0_uniq; unfold Rsqr; lra.
    - intros ->. unfold sc_abs. cbn. replace (0 * 0 + 0 * 0) with 0 by ring. apply sqrt_0. }
  split. { unfold sc_abs. rewrite <- sqrt_mult by auto. f_equal. cbn. ring. }
  split. { unfold sc_abs. f_equal. cbn. ring. }
  split. { unfold sc_abs. f_equal. cbn. ring. }
  split.
  - unfold sc_abs. cbn. set (a := sc_re z). set (b := sc_im z). set (c := sc_re w). set (d := sc_im w).
    apply Rsqr_incr_0_var. 2:{ pose proof (sqrt_pos (a * a + b * b)). pose proof (sqrt_pos (c * c + d * d)). lra. }
    unfold Rsqr. rewrite sqrt_sqrt by auto.
    replace ((sqrt (a * a + b * b) + sqrt (c * c + d * d)) * (sqrt (a * a + b * b) + sqrt (c * c + d * d))) with
      (sqrt (a * a + b * b) * sqrt (a * a + b * b) + sqrt (c * c + d * d) * sqrt (c * c + d * d) + 2 * (sqrt (a * a + b * b) * sqrt (c * c + d * d))) by ring.
    rewrite !sqrt_sqrt by auto. rewrite <- sqrt_mult by auto.
    assert (H : a * c + b * d <= sqrt ((a * a + b * b) * (c * c + d * d))); [|lra].
    apply Rle_trans with (Rabs (a * c + b * d)); [apply Rle_abs|]. rewrite <- sqrt_Rsqr_abs. apply sqrt_le_1_alt. unfold Rsqr.
    pose proof (Rle_0_sqr (a * d - b * c)). unfold Rsqr in *. lra.
  - unfold sc_abs. cbn. replace (sc_re z * sc_re z + 0 * 0) with (Rsqr (sc_re z)) by (unfold Rsqr; ring). apply sqrt_Rsqr_abs.
Qed.

(** Accessors. *)
Theorem C53_components : forall z re im,
  math_real z = sc_get false z /\ math_imag z = sc_get true z /\ sc_set_im (sc_set_re z re) im = Sc re im /\
  sc_get true (sc_set_re z re) = sc_get true z /\ sc_get false (sc_set_im z im) = sc_get false z /\ math_real_float re = math_real (sc_of re).
Proof. intros; repeat split. Qed.

(** Finding: math::imag of a real number is the number, not its imaginary part 0. *)
Theorem C53_imag_of_real_refuted : exists x, math_imag_float x <> math_imag (sc_of x).
Proof. exists 1. cbn. unfold math_imag_float. lra. Qed.

Example C53_instance : sc_div (Sc 3 1) (Sc 1 2) = Sc 1 (-1) /\ sc_abs (Sc 3 4) = 5.
Proof.
  split; [apply sc_eq; cbn; field|]. unfold sc_abs. cbn. replace (3 * 3 + 4 * 4) with (5 * 5) by ring. apply sqrt_square. lra.
Qed.

Print Assumptions C53_field.
Print Assumptions C53_complex.
Print Assumptions C53_compound_assignment.
Print Assumptions C53_conj.
Print Assumptions C53_abs.
Print Assumptions C53_components.
Print Assumptions C53_imag_of_real_refuted.
