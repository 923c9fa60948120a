(** Bounds of the logarithm by the series of the inverse hyperbolic tangent. *)
From Coq Require Import Reals Lra.
Local Open Scope R_scope.

(** The first five terms of 2 artanh(z). *)
Definition atanh5 (z : R) : R := 2 * (z + z ^ 3 / 3 + z ^ 5 / 5 + z ^ 7 / 7 + z ^ 9 / 9).

Lemma nondecreasing : forall (f f' : R -> R) b, (forall x, 0 <= x <= b -> derivable_pt_lim f x (f' x)) -> (forall x, 0 <= x <= b -> 0 <= f' x) ->
  forall x, 0 <= x <= b -> f 0 <= f x.
Proof.
  intros f f' b Hd Hp x [H0 Hb]. destruct (Req_dec x 0) as [->|N]; [lra|].
  destruct (MVT_cor2 f f' 0 x) as (c & E & Hc); [lra|intros; apply Hd; lra|]. assert (0 <= f' c) by (apply Hp; lra). nra.
Qed.

Lemma dplus : forall f g x a b, derivable_pt_lim f x a -> derivable_pt_lim g x b -> derivable_pt_lim (fun z => f z + g z) x (a + b).
Proof. intros f g x a b H1 H2. exact (derivable_pt_lim_plus f g x a b H1 H2). Qed.
Lemma dminus : forall f g x a b, derivable_pt_lim f x a -> derivable_pt_lim g x b -> derivable_pt_lim (fun z => f z - g z) x (a - b).
Proof. intros f g x a b H1 H2. exact (derivable_pt_lim_minus f g x a b H1 H2). Qed.

Lemma deriv_atanh : forall z, 0 <= z <= 1 / 3 -> derivable_pt_lim (fun z => ln (1 + z) - ln (1 - z)) z (2 / (1 - z ^ 2)).
Proof.
  intros z H.
  assert (A : derivable_pt_lim (fun z => ln (1 + z)) z (/ (1 + z) * (0 + 1))).
  { apply (derivable_pt_lim_comp (fun z => 1 + z) ln); [|apply derivable_pt_lim_ln; lra].
    apply dplus; [apply derivable_pt_lim_const|apply derivable_pt_lim_id]. }
  assert (B : derivable_pt_lim (fun z => ln (1 - z)) z (/ (1 - z) * (0 - 1))).
  { apply (derivable_pt_lim_comp (fun z => 1 - z) ln); [|apply derivable_pt_lim_ln; lra].
    apply dminus; [apply derivable_pt_lim_const|apply derivable_pt_lim_id]. }
  replace (2 / (1 - z ^ 2)) with (/ (1 + z) * (0 + 1) - / (1 - z) * (0 - 1)) by (field; repeat split; try lra; nra).
  apply dminus; auto.
Qed.

Lemma deriv_term : forall n c z, derivable_pt_lim (fun z => c * z ^ S n) z (c * (INR (S n) * z ^ n)).
Proof. intros n c z. apply (derivable_pt_lim_scal (fun z => z ^ S n)). apply derivable_pt_lim_pow. Qed.

Lemma deriv_poly : forall z, derivable_pt_lim atanh5 z (2 * (1 + z ^ 2 + z ^ 4 + z ^ 6 + z ^ 8)).
Proof.
  intros z.
  assert (D : derivable_pt_lim (fun z => 2 * z ^ 1 + 2 / 3 * z ^ 3 + 2 / 5 * z ^ 5 + 2 / 7 * z ^ 7 + 2 / 9 * z ^ 9) z
    (2 * (INR 1 * z ^ 0) + 2 / 3 * (INR 3 * z ^ 2) + 2 / 5 * (INR 5 * z ^ 4) + 2 / 7 * (INR 7 * z ^ 6) + 2 / 9 * (INR 9 * z ^ 8))).
  { repeat apply dplus; apply deriv_term. }
  replace (2 * (1 + z ^ 2 + z ^ 4 + z ^ 6 + z ^ 8)) with (2 * (INR 1 * z ^ 0) + 2 / 3 * (INR 3 * z ^ 2) + 2 / 5 * (INR 5 * z ^ 4) + 2 / 7 * (INR 7 * z ^ 6) + 2 / 9 * (INR 9 * z ^ 8)).
  - intros eps He. destruct (D eps He) as [d Hd]. exists d. intros h Hn Hh. specialize (Hd h Hn Hh).
    replace ((atanh5 (z + h) - atanh5 z) / h) with ((2 * (z + h) ^ 1 + 2 / 3 * (z + h) ^ 3 + 2 / 5 * (z + h) ^ 5 + 2 / 7 * (z + h) ^ 7 + 2 / 9 * (z + h) ^ 9 -
      (2 * z ^ 1 + 2 / 3 * z ^ 3 + 2 / 5 * z ^ 5 + 2 / 7 * z ^ 7 + 2 / 9 * z ^ 9)) / h); auto. unfold atanh5. field. auto.
  - rewrite !INR_IZR_INZ. cbn [Z.of_nat Pos.of_succ_nat Pos.succ]. field.
Qed.

Theorem ln_bounds : forall z, 0 <= z <= 1 / 3 -> atanh5 z <= ln ((1 + z) / (1 - z)) <= atanh5 z + 9 / 4 * (z ^ 11 / 11).
Proof.
  intros z Hz. assert (E : ln ((1 + z) / (1 - z)) = ln (1 + z) - ln (1 - z)) by (unfold Rdiv; rewrite ln_mult, ln_Rinv by (try apply Rinv_0_lt_compat; lra); ring). rewrite E.
  assert (Z0 : ln (1 + 0) - ln (1 - 0) = 0) by (rewrite Rplus_0_r, Rminus_0_r; ring).
  assert (Q : forall x, 0 <= x <= 1 / 3 -> 2 / (1 - x ^ 2) - 2 * (1 + x ^ 2 + x ^ 4 + x ^ 6 + x ^ 8) = 2 * x ^ 10 / (1 - x ^ 2)) by (intros; field; nra).
  assert (P10 : forall x, 0 <= x -> 0 <= x ^ 10) by (intros; apply pow_le; auto).
  split.
  - pose proof (nondecreasing (fun z => (ln (1 + z) - ln (1 - z)) - atanh5 z) (fun z => 2 / (1 - z ^ 2) - 2 * (1 + z ^ 2 + z ^ 4 + z ^ 6 + z ^ 8)) (1 / 3)) as N.
    cbv beta in N. assert (T : atanh5 0 = 0) by (unfold atanh5; field). rewrite Z0, T in N.
    assert (0 - 0 <= ln (1 + z) - ln (1 - z) - atanh5 z); [|lra]. apply N; auto.
    + intros x Hx. apply dminus; [apply deriv_atanh; auto|apply deriv_poly].
    + intros x Hx. rewrite Q by auto. apply Rmult_le_pos; [|left; apply Rinv_0_lt_compat; nra]. specialize (P10 x). lra.
  - pose proof (nondecreasing (fun z => atanh5 z + 9 / 44 * z ^ 11 - (ln (1 + z) - ln (1 - z))) (fun z => 2 * (1 + z ^ 2 + z ^ 4 + z ^ 6 + z ^ 8) + 9 / 44 * (INR 11 * z ^ 10) - 2 / (1 - z ^ 2)) (1 / 3)) as N.
    cbv beta in N. assert (T : atanh5 0 = 0) by (unfold atanh5; field). rewrite Z0, T in N. rewrite pow_ne_zero in N by discriminate.
    assert (0 + 9 / 44 * 0 - 0 <= atanh5 z + 9 / 44 * z ^ 11 - (ln (1 + z) - ln (1 - z))); [|lra]. apply N; auto.
    + intros x Hx. apply dminus; [|apply deriv_atanh; auto].
      apply dplus; [apply deriv_poly|apply deriv_term].
    + intros x Hx. specialize (Q x Hx). specialize (P10 x (proj1 Hx)).
      replace (2 * (1 + x ^ 2 + x ^ 4 + x ^ 6 + x ^ 8) + 9 / 44 * (INR 11 * x ^ 10) - 2 / (1 - x ^ 2)) with (9 / 4 * x ^ 10 - (2 / (1 - x ^ 2) - 2 * (1 + x ^ 2 + x ^ 4 + x ^ 6 + x ^ 8))) by (replace (INR 11) with 11 by (cbn; ring); field; nra).
      rewrite Q. assert (/ (1 - x ^ 2) <= 9 / 8). { replace (9 / 8) with (/ (8 / 9)) by field. apply Rinv_le_contravar; [lra|]. nra. }
      unfold Rdiv. nra.
Qed.

Theorem ln2_bounds : 693146 / 1000000 <= ln 2 <= 693148 / 1000000.
Proof.
  pose proof (ln_bounds (1 / 3)) as H. replace ((1 + 1 / 3) / (1 - 1 / 3)) with 2 in H by field. destruct H as [A B]; [lra|]. unfold atanh5 in *. split; lra.
Qed.
