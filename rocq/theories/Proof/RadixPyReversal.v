(** radix4.py: the seed-table digit reversal. *)
From Coq Require Import List Arith Bool Lia.
From Verif Require Import Base.Outcome Base.OutcomeFacts Base.Cplx Spec.Dft Spec.DigitRev Model.RadixPy.
From Verif Require Import Proof.DigitRevTheory.
Import ListNotations.
Open Scope outcome_scope.
Local Arguments Nat.div : simpl never.
Local Arguments Nat.modulo : simpl never.
Local Arguments Nat.pow : simpl never.

Lemma py_get_ok : forall T (l : list T) i d, i < length l -> py_get l i = Ok (nth i l d).
Proof. intros T l i d H. unfold py_get. rewrite (nth_error_nth' l d H). auto. Qed.

Lemma py_get_throw : forall T (l : list T) i, length l <= i -> py_get l i = Throw.
Proof. intros T l i H. unfold py_get. rewrite (proj2 (nth_error_None l i) H). auto. Qed.

Lemma py_set_ok : forall T (l : list T) i v, i < length l -> py_set l i v = Ok (upd l i v).
Proof. intros T l i v H. unfold py_set. destruct (Nat.ltb_spec i (length l)); auto. lia. Qed.

Lemma py_swap_ok : forall T (d : T) (x : list T) i j, i < length x -> j < length x -> i <> j ->
  exists y, py_swap x i j = Ok y /\ length y = length x /\ nth i y d = nth j x d /\ nth j y d = nth i x d /\
    forall a, a <> i -> a <> j -> nth a y d = nth a x d.
Proof.
  intros T d x i j Hi Hj Hne. unfold py_swap.
  rewrite (py_get_ok _ x i d), (py_get_ok _ x j d) by auto. cbn [bind].
  rewrite py_set_ok by auto. cbn [bind]. rewrite py_set_ok by (rewrite upd_length; auto).
  eexists. split; [reflexivity|]. rewrite !upd_length. split; auto. split.
  { rewrite nth_upd_neq by auto. apply nth_upd_eq. auto. }
  split. { apply nth_upd_eq. rewrite upd_length. auto. }
  intros a Ha Hb. rewrite !nth_upd_neq by auto. auto.
Qed.

(** Digits of a sum of a low and a high part. *)
Lemma digit_rev_cat : forall r a b i J, 0 < r -> i < r ^ a ->
  digit_rev r (a + b) (i + r ^ a * J) = digit_rev r b J + r ^ b * digit_rev r a i.
Proof.
  intros r a b. induction a; intros i J Hr Hi.
  - change (r ^ 0) with 1 in *. assert (i = 0) by lia. subst i. cbn [digit_rev Nat.add].
    rewrite Nat.mul_1_l. lia.
  - rewrite Nat.pow_succ_r' in *. cbn [Nat.add digit_rev].
    replace (i + r * r ^ a * J) with (i + (r ^ a * J) * r) by lia.
    rewrite Nat.mod_add, Nat.div_add by lia. rewrite IHa by (auto; apply Nat.div_lt_upper_bound; lia).
    rewrite Nat.pow_add_r. lia.
Qed.

Section Rev.
Variables r m e : nat.
Hypothesis Hr : 1 < r.
Hypothesis Hm : 0 < m.
Hypothesis He : e <= 1.

Let P := m + (e + m).
Let n1 := r ^ m.
Let Z := r ^ e.

Lemma n1_pos : 0 < n1.
Proof. apply pow_pos. lia. Qed.

Lemma Z_pos : 0 < Z.
Proof. apply pow_pos. lia. Qed.

Lemma n1_r : n1 = r * r ^ (m - 1).
Proof. unfold n1. rewrite <- Nat.pow_succ_r'. f_equal. lia. Qed.

Lemma r_le_n1 : r <= n1.
Proof. rewrite n1_r. pose proof (pow_pos r (m - 1)). nia. Qed.

Lemma rev_e : forall z, z < Z -> digit_rev r e z = z.
Proof.
  intros z Hz. unfold Z in Hz. assert (E : e = 0 \/ e = 1) by lia. destruct E as [E|E]; rewrite E in *.
  - change (r ^ 0) with 1 in Hz. cbn. lia.
  - rewrite Nat.pow_1_r in Hz. cbn [digit_rev]. rewrite Nat.mod_small by auto. change (r ^ 0) with 1. lia.
Qed.

Lemma rev_low : forall j, j < n1 -> digit_rev r P j = n1 * Z * digit_rev r m j.
Proof.
  intros j Hj. unfold P. replace j with (j + r ^ m * 0) at 1 by lia.
  rewrite digit_rev_cat by (auto; lia). rewrite digit_rev_0 by lia.
  rewrite Nat.pow_add_r. unfold n1, Z. lia.
Qed.

Lemma rev_lt : forall j, digit_rev r m j < n1.
Proof. intros. apply digit_rev_lt. lia. Qed.

(** Position i + reverse[j] + z * n1. *)
Definition pos (i j z : nat) : nat := i + digit_rev r P j + z * n1.

Lemma pos_form : forall i j z, j < n1 -> pos i j z = i + n1 * (z + Z * digit_rev r m j).
Proof. intros. unfold pos. rewrite rev_low by auto. lia. Qed.

Lemma total : r ^ P = n1 * (Z * n1).
Proof. unfold P, n1, Z. rewrite !Nat.pow_add_r. auto. Qed.

Lemma pos_lt : forall i j z, i < n1 -> j < n1 -> z < Z -> pos i j z < r ^ P.
Proof.
  intros i j z Hi Hj Hz. rewrite pos_form, total by auto. pose proof (rev_lt j). pose proof Z_pos.
  assert (z + Z * digit_rev r m j < Z * n1) by nia. nia.
Qed.

Lemma pos_rev : forall i j z, i < n1 -> j < n1 -> z < Z -> digit_rev r P (pos i j z) = pos j i z.
Proof.
  intros i j z Hi Hj Hz. rewrite !pos_form by auto. unfold P, n1 at 1.
  rewrite digit_rev_cat by (auto; lia). unfold Z at 1.
  rewrite digit_rev_cat by (auto; lia). rewrite rev_e by auto.
  rewrite digit_rev_invol by (auto; lia). rewrite Nat.pow_add_r. fold n1. fold Z. lia.
Qed.

Lemma pos_inj : forall i j z i' j' z', i < n1 -> j < n1 -> z < Z -> i' < n1 -> j' < n1 -> z' < Z ->
  pos i j z = pos i' j' z' -> i = i' /\ j = j' /\ z = z'.
Proof.
  intros i j z i' j' z' Hi Hj Hz Hi' Hj' Hz' E. rewrite !pos_form in E by auto.
  assert (Q : forall a b c, a < n1 -> b < Z -> (a + n1 * (b + Z * c)) mod n1 = a /\ (a + n1 * (b + Z * c)) / n1 = b + Z * c).
  { intros a b c Ha Hb. split.
    - symmetry. apply Nat.mod_unique with (b + Z * c); lia.
    - symmetry. apply Nat.div_unique with a; lia. }
  assert (Q2 : forall b c, b < Z -> (b + Z * c) mod Z = b /\ (b + Z * c) / Z = c).
  { intros b c Hb. split.
    - symmetry. apply Nat.mod_unique with c; lia.
    - symmetry. apply Nat.div_unique with b; lia. }
  destruct (Q i z (digit_rev r m j) Hi Hz) as [A1 A2]. destruct (Q i' z' (digit_rev r m j') Hi' Hz') as [B1 B2].
  rewrite E in A1, A2. rewrite A2 in B2.
  destruct (Q2 z (digit_rev r m j) Hz) as [A3 A4]. destruct (Q2 z' (digit_rev r m j') Hz') as [B3 B4].
  rewrite B2 in A3, A4. split; [congruence|]. split; [|congruence].
  apply (digit_rev_inj r m); auto; try lia; congruence.
Qed.

Lemma pos_surj : forall a, a < r ^ P -> exists i j z, i < n1 /\ j < n1 /\ z < Z /\ a = pos i j z.
Proof.
  intros a Ha. rewrite total in Ha. pose proof n1_pos. pose proof Z_pos.
  set (J := a / n1 / Z).
  assert (HJ : J < n1). { unfold J. rewrite Nat.div_div by lia. apply Nat.div_lt_upper_bound; nia. }
  exists (a mod n1), (digit_rev r m J), ((a / n1) mod Z).
  split; [apply Nat.mod_upper_bound; lia|]. split; [apply rev_lt|]. split; [apply Nat.mod_upper_bound; lia|].
  rewrite pos_form by apply rev_lt. rewrite digit_rev_invol by (auto; lia).
  pose proof (Nat.div_mod a n1 ltac:(lia)). pose proof (Nat.div_mod (a / n1) Z ltac:(lia)). fold J in H2. nia.
Qed.

(** ** The seed table *)
Lemma rev_snoc_low : forall i t, i < r ^ (m - 1) -> t < r ->
  digit_rev r P (r * i + t) = digit_rev r P i / r + t * r ^ (P - 1).
Proof.
  intros i t Hi Ht. replace P with (S (P - 1)) at 1 2 by (unfold P; lia).
  rewrite (Nat.mul_comm r i), digit_rev_snoc by auto.
  replace (digit_rev r (S (P - 1)) i) with (r * digit_rev r (P - 1) i).
  { rewrite (Nat.mul_comm r), Nat.div_mul by lia. lia. }
  assert (Hi' : i < r ^ (P - 1)).
  { apply Nat.lt_le_trans with (r ^ (m - 1)); auto. apply Nat.pow_le_mono_r; unfold P; lia. }
  rewrite digit_rev_top; try lia.
  - rewrite Nat.mod_small, Nat.div_small by auto. lia.
  - rewrite Nat.pow_succ_r'. nia.
Qed.

Lemma rev_digit : forall t, t < r -> digit_rev r P t = t * r ^ (P - 1).
Proof.
  intros t Ht. pose proof (rev_snoc_low 0 t (pow_pos r (m - 1) ltac:(lia)) Ht) as E.
  rewrite Nat.mul_0_r, Nat.add_0_l, digit_rev_0, Nat.div_0_l in E by lia. lia.
Qed.

Lemma seed_inner_ok : forall l, length l = n1 ->
  exists l', py_seed_inner r n1 l = Ok l' /\ length l' = n1 /\
    (forall t, t < r -> nth t l' 0 = nth t l 0) /\
    ((forall t, t < r -> nth t l 0 = digit_rev r P t) -> forall a, a < n1 -> nth a l' 0 = digit_rev r P a).
Proof.
  intros l Hl. unfold py_seed_inner.
  pose proof (pow_pos r (m - 1) ltac:(lia)) as Hp.
  assert (Q : n1 / r = r ^ (m - 1)). { rewrite n1_r, Nat.mul_comm, Nat.div_mul; lia. }
  rewrite Q.
  match goal with |- exists l', for_range 1 ?N ?B l = _ /\ _ =>
    destruct (for_range_inv _ (fun i y => length y = n1 /\ (forall t, t < r -> nth t y 0 = nth t l 0) /\
      ((forall t, t < r -> nth t l 0 = digit_rev r P t) -> forall a, a < r * i -> nth a y 0 = digit_rev r P a))
      1 N B l) as [y [E [L [LO G]]]] end.
  - lia.
  - split; auto. split; auto. intros H a Ha. apply H. lia.
  - intros i y Hi [L [LO G]].
    assert (Hri : r * i + r <= n1). { rewrite n1_r. nia. }
    rewrite (py_get_ok _ y i 0) by nia. cbn [bind].
    rewrite py_set_ok by lia. cbn [bind].
    set (y0 := upd y (r * i) (nth i y 0 / r)).
    match goal with |- exists s', for_range 1 r ?B y0 = _ /\ _ =>
      destruct (for_range_inv _ (fun t w => length w = n1 /\ (forall a, a < r * i + 1 -> nth a w 0 = nth a y0 0) /\
        (forall u, 0 < u < t -> nth (r * i + u) w 0 = nth (r * i) y0 0 + nth u y0 0))
        1 r B y0) as [w [Ew [Lw [Flow Gw]]]] end.
    + lia.
    + split. { unfold y0. rewrite upd_length. auto. } split; auto. intros; lia.
    + intros t w Ht [Lw [Flow Gw]].
      rewrite (py_get_ok _ w (r * i) 0), (py_get_ok _ w t 0) by nia. cbn [bind].
      rewrite py_set_ok by lia. eexists. split; [reflexivity|]. rewrite upd_length. split; auto. split.
      * intros a Ha. rewrite nth_upd_neq by lia. auto.
      * intros u Hu. destruct (Nat.eq_dec u t) as [->|Ne].
        { rewrite nth_upd_eq by lia. rewrite !Flow by nia. auto. }
        rewrite nth_upd_neq by lia. apply Gw. lia.
    + exists w. split; auto. split; auto. split.
      { intros t Ht. rewrite Flow by nia. unfold y0. rewrite nth_upd_neq by nia. auto. }
      intros H a Ha. specialize (G H).
      destruct (Nat.lt_ge_cases a (r * i)) as [Hlt|Hge].
      { rewrite Flow by lia. unfold y0. rewrite nth_upd_neq by lia. auto. }
      set (u := a - r * i). assert (Ea : a = r * i + u) by (unfold u; lia). assert (Hu : u < r) by (unfold u; nia).
      rewrite Ea. rewrite rev_snoc_low by (auto; lia).
      assert (B0 : nth (r * i) y0 0 = digit_rev r P i / r).
      { unfold y0. rewrite nth_upd_eq by lia. rewrite G by nia. auto. }
      destruct (Nat.eq_dec u 0) as [E0|E0].
      { rewrite E0, Nat.add_0_r, Flow, B0 by lia. lia. }
      rewrite Gw by lia. rewrite B0. f_equal. unfold y0. rewrite nth_upd_neq by nia.
      rewrite LO, H by auto. apply rev_digit. auto.
  - exists y. split; auto. split; auto. split; auto. intros H a Ha. apply G; auto. rewrite n1_r in Ha. lia.
Qed.

Lemma seed_ok : exists l, py_seed r (r ^ P) n1 = Ok l /\ length l = n1 /\
  forall a, a < n1 -> nth a l 0 = digit_rev r P a.
Proof.
  unfold py_seed. pose proof r_le_n1.
  rewrite py_set_ok by (rewrite repeat_length; lia). cbn [bind].
  assert (Q : r ^ P / r = r ^ (P - 1)).
  { replace P with (S (P - 1)) at 1 by (unfold P; lia). rewrite Nat.pow_succ_r', Nat.mul_comm, Nat.div_mul; lia. }
  rewrite Q.
  match goal with |- exists l, for_range 1 r ?B ?S = _ /\ _ =>
    destruct (for_range_inv _ (fun J y => length y = n1 /\ nth 1 y 0 = r ^ (P - 1) /\
      (forall t, t < J -> nth t y 0 = digit_rev r P t) /\
      (J = r -> forall a, a < n1 -> nth a y 0 = digit_rev r P a)) 1 r B S) as [y [E [L [_ [_ G]]]]] end.
  - lia.
  - rewrite upd_length, repeat_length. split; auto. split. { rewrite nth_upd_eq by (rewrite repeat_length; lia). auto. }
    split; [|lia]. intros t Ht. assert (t = 0) by lia. subst t. rewrite nth_upd_neq by lia.
    rewrite nth_repeat, digit_rev_0 by lia. auto.
  - intros J y HJ [L [E1 [G _]]].
    rewrite (py_get_ok _ y (J - 1) 0), (py_get_ok _ y 1 0) by lia. cbn [bind].
    rewrite py_set_ok by lia. cbn [bind].
    set (y0 := upd y J (nth (J - 1) y 0 + nth 1 y 0)).
    assert (V : forall t, t < S J -> nth t y0 0 = digit_rev r P t).
    { intros t Ht. unfold y0. destruct (Nat.eq_dec t J) as [->|Ne].
      - rewrite nth_upd_eq by lia. rewrite E1, G by lia. rewrite !rev_digit by lia. nia.
      - rewrite nth_upd_neq by auto. apply G. lia. }
    destruct (seed_inner_ok y0) as [w [Ew [Lw [LO Gw]]]]. { unfold y0. rewrite upd_length. auto. }
    exists w. split; auto. split; auto. split.
    { rewrite LO by lia. rewrite V by lia. rewrite rev_digit by lia. lia. }
    split. { intros t Ht. rewrite LO by lia. auto. }
    intros EJ a Ha. apply Gw; auto. intros t Ht. apply V. lia.
  - exists y. auto.
Qed.

(** ** The swaps *)
Section Swaps.
Variable T : Type.
Variable d : T.
Variable x0 : list T.
Hypothesis Lx : length x0 = r ^ P.

Let F (a : nat) : T := nth (digit_rev r P a) x0 d.

Lemma swap_pos : forall i j z y, i < n1 -> j < n1 -> i <> j -> z < Z -> length y = length x0 ->
  nth (pos i j z) y d = nth (pos i j z) x0 d -> nth (pos j i z) y d = nth (pos j i z) x0 d ->
  exists y', py_swap y (pos i j z) (pos j i z) = Ok y' /\ length y' = length x0 /\
    (forall a, a = pos i j z \/ a = pos j i z -> nth a y' d = F a) /\
    (forall a, ~ (a = pos i j z \/ a = pos j i z) -> nth a y' d = nth a y d).
Proof.
  intros i j z y Hi Hj Hne Hz Ly H1 H2.
  destruct (py_swap_ok T d y (pos i j z) (pos j i z)) as [y' [E [L [V1 [V2 Fr]]]]].
  - rewrite Ly, Lx. apply pos_lt; auto.
  - rewrite Ly, Lx. apply pos_lt; auto.
  - intros E. apply pos_inj in E; auto. lia.
  - exists y'. split; auto. split; [congruence|]. split.
    + intros a [->| ->]; unfold F; rewrite pos_rev by auto; congruence.
    + intros a Ha. apply Fr; intros ->; apply Ha; auto.
Qed.

Lemma z_loop : forall i j y, i < n1 -> j < n1 -> i <> j -> length y = length x0 ->
  (forall a, (exists z, z < Z /\ (a = pos i j z \/ a = pos j i z)) -> nth a y d = nth a x0 d) ->
  exists y', for_range 0 Z (fun z y => py_swap y (pos i j z) (pos j i z)) y = Ok y' /\ length y' = length x0 /\
    (forall a, (exists z, z < Z /\ (a = pos i j z \/ a = pos j i z)) -> nth a y' d = F a) /\
    (forall a, ~ (exists z, z < Z /\ (a = pos i j z \/ a = pos j i z)) -> nth a y' d = nth a y d).
Proof.
  intros i j y Hi Hj Hne Ly Hy. unfold for_range. rewrite Nat.sub_0_r.
  destruct (loop_touch T d Z 0 1 (fun z y => py_swap y (pos i j z) (pos j i z)) y
    (fun z a => a = pos i j z \/ a = pos j i z) (fun _ a => F a)) as [y' [E [L [V Fr]]]].
  - intros z z' a Hz Hz' Nz [H|H] [H'|H']; rewrite H in H'; apply pos_inj in H'; auto; lia.
  - intros z w Hz Lw Hw. cbn [Nat.add]. rewrite Nat.mul_1_r.
    destruct (swap_pos i j z w) as [w' [E [L [V Fr]]]]; auto; try congruence.
    + rewrite Hw by auto. apply Hy. exists z. auto.
    + rewrite Hw by auto. apply Hy. exists z. auto.
    + exists w'. split; auto. split; [congruence|]. auto.
  - exists y'. split; auto. split; [congruence|]. split.
    + intros a [z [Hz Ha]]. apply (V z a); auto.
    + intros a Ha. apply Fr. intros z Hz Hc. apply Ha. exists z. auto.
Qed.

Lemma swaps_ok : forall reverse, length reverse = n1 -> (forall a, a < n1 -> nth a reverse 0 = digit_rev r P a) ->
  py_reversal_swaps r P n1 reverse x0 = Ok (tab (r ^ P) F).
Proof.
  intros reverse LR HR. unfold py_reversal_swaps. pose proof n1_pos as Hn.
  assert (Body : forall i j (y : list T), i < n1 -> j < n1 ->
    (rj <- py_get reverse j ;; ri <- py_get reverse i ;;
     x <- py_swap y (i + rj) (j + ri) ;;
     (if Nat.odd P then for_range 1 r (fun z x => py_swap x (i + rj + z * n1) (j + ri + z * n1)) x else Ok x))
    = for_range 0 Z (fun z y => py_swap y (pos i j z) (pos j i z)) y).
  { intros i j y Hi Hj. rewrite (py_get_ok _ reverse j 0), (py_get_ok _ reverse i 0) by lia. cbn [bind].
    rewrite !HR by auto. rewrite (for_range_S _ 0 Z) by apply Z_pos. unfold pos at 1 2.
    rewrite Nat.mul_0_l, !Nat.add_0_r.
    destruct (py_swap y (i + digit_rev r P j) (j + digit_rev r P i)); auto. cbn [bind].
    assert (OP : Nat.odd P = (e =? 1)).
    { unfold P. replace (m + (e + m)) with (e + 2 * m) by lia. rewrite Nat.odd_add_mul_2.
      assert (E : e = 0 \/ e = 1) by lia. destruct E as [-> | ->]; auto. }
    rewrite OP. unfold Z. destruct (Nat.eqb_spec e 1) as [Ee|Ee].
    - rewrite Ee, Nat.pow_1_r. reflexivity.
    - assert (e = 0) by lia. rewrite H. reflexivity. }
  unfold for_range at 1. rewrite Nat.sub_0_r.
  match goal with |- loop _ _ _ ?B _ = _ => set (body := B) end.
  destruct (loop_touch T d (n1 - 1) 0 1 body x0
    (fun i a => exists j z, i < j < n1 /\ z < Z /\ (a = pos i j z \/ a = pos j i z)) (fun _ a => F a)) as [y' [E [L [V Fr]]]].
  - intros i i' a Hi Hi' Ne [j [z [Hj [Hz H]]]] [j' [z' [Hj' [Hz' H']]]].
    destruct H as [H|H]; destruct H' as [H'|H']; rewrite H in H'; apply pos_inj in H'; auto; lia.
  - intros i y Hi Ly Hy. unfold body. cbn [Nat.add]. rewrite Nat.mul_1_r.
    unfold for_range at 1.
    match goal with |- exists y', loop _ _ _ ?B _ = _ /\ _ => set (jb := B) end.
    destruct (loop_touch T d (n1 - (i + 1)) (i + 1) 1 jb y
      (fun jj a => exists z, z < Z /\ (a = pos i (i + 1 + jj) z \/ a = pos (i + 1 + jj) i z)) (fun _ a => F a))
      as [w [Ew [Lw [Vw Fw]]]].
    + intros j j' a Hj Hj' Ne [z [Hz H]] [z' [Hz' H']].
      destruct H as [H|H]; destruct H' as [H'|H']; rewrite H in H'; apply pos_inj in H'; auto; lia.
    + intros j w Hj Lw Hw. rewrite Nat.mul_1_r. unfold jb. rewrite Body by lia.
      destruct (z_loop i (i + 1 + j) w) as [w' [E [L [V Fr]]]]; try lia.
      * intros a [z [Hz Ha]]. rewrite Hw by (exists z; auto). apply Hy. exists (i + 1 + j), z. split; [lia|]. auto.
      * exists w'. split; auto. split; [congruence|]. auto.
    + exists w. split; auto. split; [congruence|]. split.
      * intros a [j [z [Hj [Hz Ha]]]]. apply (Vw (j - (i + 1)) a); [lia|].
        exists z. replace (i + 1 + (j - (i + 1))) with j by lia. auto.
      * intros a Ha. apply Fw. intros j Hj [z [Hz Hc]]. apply Ha. exists (i + 1 + j), z. split; [lia|]. auto.
  - rewrite E. f_equal. apply list_eq_tab with (d := d). { congruence. }
    intros a Ha. destruct (pos_surj a Ha) as [i [j [z [Hi [Hj [Hz Ea]]]]]].
    destruct (Nat.lt_trichotomy i j) as [Hl|[Hl|Hl]].
    + apply (V i a); [lia|]. exists j, z. split; [lia|]. auto.
    + subst j. rewrite Fr.
      * unfold F. rewrite Ea, pos_rev by auto. auto.
      * intros i' Hi' [j' [z' [Hj' [Hz' Hc]]]]. rewrite Ea in Hc.
        destruct Hc as [Hc|Hc]; apply pos_inj in Hc; auto; lia.
    + apply (V j a); [lia|]. exists i, z. split; [lia|]. auto.
Qed.

Lemma digitreversal_form : py_digitreversal x0 r P (r ^ P) = Ok (tab (r ^ P) F).
Proof.
  unfold py_digitreversal. rewrite Lx, Nat.eqb_refl. cbn [negb].
  destruct (Nat.eqb_spec r 0); [lia|].
  assert (N1 : (if Nat.even P then Nat.sqrt (r ^ P) else Nat.sqrt (r ^ P / r)) = n1).
  { assert (Sq : Nat.sqrt (r ^ m * r ^ m) = r ^ m) by apply Nat.sqrt_square.
    unfold P, n1. replace (m + (e + m)) with (e + 2 * m) by lia. rewrite Nat.even_add_mul_2.
    assert (E : e = 0 \/ e = 1) by lia. destruct E as [-> | ->]; cbn [Nat.even].
    - rewrite Nat.add_0_l. replace (2 * m) with (m + m) by lia. rewrite Nat.pow_add_r. auto.
    - change (1 + 2 * m) with (S (2 * m)). rewrite Nat.pow_succ_r', Nat.mul_comm, Nat.div_mul by lia.
      replace (2 * m) with (m + m) by lia. rewrite Nat.pow_add_r. auto. }
  rewrite N1. cbv zeta. destruct seed_ok as [l [E [L V]]]. rewrite E. cbn [bind]. apply swaps_ok; auto.
Qed.

End Swaps.
End Rev.

Theorem digitreversal_ok : forall T (d : T) r p (x : list T), 1 < r -> 2 <= p -> length x = r ^ p ->
  py_digitreversal x r p (r ^ p) = Ok (tab (r ^ p) (fun a => nth (digit_rev r p a) x d)).
Proof.
  intros T d r p x Hr Hp Hx.
  assert (E : p = p / 2 + (p mod 2 + p / 2)). { pose proof (Nat.div_mod p 2 ltac:(lia)). lia. }
  assert (0 < p / 2) by (apply Nat.div_str_pos; lia).
  assert (p mod 2 <= 1) by (pose proof (Nat.mod_upper_bound p 2); lia).
  pose proof (digitreversal_form r (p / 2) (p mod 2) Hr H H0 T d x) as G. rewrite <- E in G. auto.
Qed.

Lemma digitreversal_short : forall T r p (x : list T), 1 < r -> p <= 1 -> length x = r ^ p ->
  py_digitreversal x r p (r ^ p) = Throw.
Proof.
  intros T r p x Hr Hp Hx. unfold py_digitreversal. rewrite Hx, Nat.eqb_refl. cbn [negb].
  destruct (Nat.eqb_spec r 0); [lia|].
  assert (E : p = 0 \/ p = 1) by lia. destruct E as [-> | ->]; cbn [Nat.even].
  - reflexivity.
  - rewrite Nat.pow_1_r, Nat.div_same by lia. reflexivity.
Qed.
