(** The split-radix FFT of the snippets: what it computes in each direction. *)
From Coq Require Import List Arith Bool Reals Lra Lia.
From Verif Require Import Base.Outcome Base.OutcomeFacts Base.Sums Base.Cplx Spec.Dft.
From Verif Require Import Proof.DftTheory Model.Fft2 Proof.Fft2Proof Proof.RadixProof Model.Snippets.
Import ListNotations.
Open Scope outcome_scope.
Local Arguments Nat.div : simpl never.
Local Arguments Nat.modulo : simpl never.
Local Arguments Nat.pow : simpl never.

(** Four values of one group. *)
Definition sr_val (u u2 a b : C) (q : nat) : C :=
  match q with
  | 0 => (u + (a + b))%C
  | 1 => (u2 - Ci * (a - b))%C
  | 2 => (u - (a + b))%C
  | _ => (u2 + Ci * (a - b))%C
  end.

(** The values splitfft computes, as a recursive function of the input sequence. *)
Fixpoint SR (d : direction) (q : nat) (x : nat -> C) (k : nat) : C :=
  match q with
  | O => x 0
  | S q1 =>
    match q1 with
    | O => if k =? 0 then (x 0 + x 1)%C else (x 0 - x 1)%C
    | S q2 =>
      let m := 2 ^ q2 in
      let r := k mod m in
      let U := SR d q1 (fun j => x (2 * j)) in
      sr_val (U r) (U (r + m))
        (W d (4 * m) r * SR d q2 (fun j => x (4 * j + 1)%nat) r)%C
        (W d (4 * m) (3 * r) * SR d q2 (fun j => x (4 * j + 3)%nat) r)%C (k / m)
    end
  end.

Lemma SR_step : forall d q x k, SR d (S (S q)) x k =
  sr_val (SR d (S q) (fun j => x (2 * j)) (k mod 2 ^ q)) (SR d (S q) (fun j => x (2 * j)) (k mod 2 ^ q + 2 ^ q))
    (W d (4 * 2 ^ q) (k mod 2 ^ q) * SR d q (fun j => x (4 * j + 1)%nat) (k mod 2 ^ q))%C
    (W d (4 * 2 ^ q) (3 * (k mod 2 ^ q)) * SR d q (fun j => x (4 * j + 3)%nat) (k mod 2 ^ q))%C (k / 2 ^ q).
Proof. reflexivity. Qed.

Lemma pow2_pos : forall q, 0 < 2 ^ q.
Proof. intros. apply Nat.neq_0_lt_0, Nat.pow_nonzero. lia. Qed.

Lemma two_step : forall P : nat -> Prop, P 0 -> P 1 -> (forall q, P q -> P (S q) -> P (S (S q))) -> forall q, P q.
Proof.
  intros P H0 H1 HS q. enough (P q /\ P (S q)) by tauto. induction q; [auto|]. destruct IHq. auto.
Qed.

Lemma SR_ext : forall d q x y k, (forall j, x j = y j) -> SR d q x k = SR d q y k.
Proof.
  intros d q. induction q using two_step; intros x y k H.
  - apply H.
  - cbn [SR]. rewrite !H. auto.
  - rewrite !SR_step. rewrite (IHq0 (fun j => x (2 * j)) (fun j => y (2 * j))) by (intros; apply H).
    rewrite (IHq0 (fun j => x (2 * j)) (fun j => y (2 * j))) by (intros; apply H).
    rewrite (IHq (fun j => x (4 * j + 1)) (fun j => y (4 * j + 1))) by (intros; apply H).
    rewrite (IHq (fun j => x (4 * j + 3)) (fun j => y (4 * j + 3))) by (intros; apply H). auto.
Qed.

(** * The combination step *)
Lemma sr_none : forall N ob out, sr_combine N 0 None ob out = sr_combine N 0 (Some (C1, C1)) ob out.
Proof.
  intros. unfold sr_combine. destruct (rd out (ob + 0)); auto. cbn [bind].
  destruct (rd out (ob + (0 + N / 2))); auto. cbn [bind].
  destruct (rd out (ob + (0 + N / 4))); auto. cbn [bind].
  destruct (rd out (ob + (0 + 3 * N / 4))); auto. cbn [bind].
  replace (C1 * a0)%C with a0 by ring. replace (C1 * a2)%C with a2 by ring. auto.
Qed.

Lemma sr_quarters : forall m, 4 * m / 2 = 2 * m /\ 4 * m / 4 = m /\ 3 * (4 * m) / 4 = 3 * m.
Proof.
  intros. split; [|split]; symmetry; apply Nat.div_unique with 0; lia.
Qed.

Lemma sr_combine_ok : forall m k w1 w3 ob out, k < m -> ob + 4 * m <= length out ->
  exists out', sr_combine (4 * m) k (Some (w1, w3)) ob out = Ok out' /\ length out' = length out /\
    (forall t, t < 4 -> nth (ob + (k + t * m)) out' C0 =
       sr_val (nth (ob + k) out C0) (nth (ob + (k + m)) out C0)
         (w1 * nth (ob + (k + 2 * m)) out C0)%C (w3 * nth (ob + (k + 3 * m)) out C0)%C t) /\
    (forall i, (forall t, t < 4 -> i <> ob + (k + t * m)) -> nth i out' C0 = nth i out C0).
Proof.
  intros m k w1 w3 ob out Hk Hl. destruct (sr_quarters m) as [Q2 [Q4 Q3]].
  unfold sr_combine. rewrite Q2, Q4, Q3.
  rewrite !(rd_ok _ out _ C0) by lia. cbn [bind].
  repeat (rewrite wr_ok by (upd_len; lia); cbn [bind]).
  eexists. split; [reflexivity|]. upd_len. split; auto. split.
  - intros t Ht. rewrite !nth_upd. upd_len.
    destruct t as [|[|[|[|t]]]]; try lia; eqb_cases; auto.
  - intros i Hi. rewrite !nth_upd. upd_len.
    generalize (Hi 0), (Hi 1), (Hi 2), (Hi 3). intros H0 H1 H2 H3.
    eqb_cases; auto.
Qed.

(** The whole recombination: group 0, then groups 1 .. m-1. *)
Lemma sr_groups_ok : forall m (w1 w3 : nat -> C) (body : nat -> list C -> outcome (list C)) ob out, 0 < m ->
  w1 0 = C1 -> w3 0 = C1 -> ob + 4 * m <= length out ->
  (forall k o, 1 <= k < m -> body k o = sr_combine (4 * m) k (Some (w1 k, w3 k)) ob o) ->
  exists out', (out <- sr_combine (4 * m) 0 None ob out ;; for_range 1 m body out) = Ok out' /\
    length out' = length out /\
    (forall k t, k < m -> t < 4 -> nth (ob + (k + t * m)) out' C0 =
       sr_val (nth (ob + k) out C0) (nth (ob + (k + m)) out C0)
         (w1 k * nth (ob + (k + 2 * m)) out C0)%C (w3 k * nth (ob + (k + 3 * m)) out C0)%C t) /\
    (forall i, i < ob \/ ob + 4 * m <= i -> nth i out' C0 = nth i out C0).
Proof.
  intros m w1 w3 body ob out Hm H1 H3 Hl Hb.
  rewrite sr_none.
  destruct (sr_combine_ok m 0 C1 C1 ob out) as [o1 [E1 [L1 [V1 F1]]]]; auto.
  rewrite E1. cbn [bind].
  set (I := fun K (o : list C) => length o = length out /\
    (forall k t, k < K -> t < 4 -> nth (ob + (k + t * m)) o C0 =
       sr_val (nth (ob + k) out C0) (nth (ob + (k + m)) out C0)
         (w1 k * nth (ob + (k + 2 * m)) out C0)%C (w3 k * nth (ob + (k + 3 * m)) out C0)%C t) /\
    (forall k t, K <= k < m -> t < 4 -> nth (ob + (k + t * m)) o C0 = nth (ob + (k + t * m)) out C0) /\
    (forall i, i < ob \/ ob + 4 * m <= i -> nth i o C0 = nth i out C0)).
  destruct (for_range_inv (list C) I 1 m body o1) as [o [E [L [V [_ F]]]]]; try lia.
  - unfold I. split; [lia|]. split; [|split].
    + intros k t Hk Ht. replace k with 0 by lia. rewrite V1 by auto. rewrite H1, H3. auto.
    + intros k t Hk Ht. apply F1. intros t' Ht' Heq.
      assert (k + t * m = t' * m) by lia.
      destruct (Nat.eq_dec t t') as [->|N]; [lia|].
      destruct (Nat.lt_ge_cases t t'); nia.
    + intros i Hi. apply F1. intros t' Ht' ->. nia.
  - intros k o Hk [L [V [R F]]]. rewrite Hb by auto.
    destruct (sr_combine_ok m k (w1 k) (w3 k) ob o) as [o' [E' [L' [V' F']]]]; try lia.
    exists o'. split; [exact E'|]. unfold I. split; [lia|]. split; [|split].
    + intros k' t Hk' Ht. destruct (Nat.eq_dec k' k) as [->|N].
      * rewrite V' by auto.
        generalize (R k 0), (R k 1), (R k 2), (R k 3). intros R0 R1 R2 R3.
        rewrite Nat.mul_0_l, Nat.add_0_r in R0. rewrite Nat.mul_1_l in R1.
        rewrite R0, R1, R2, R3 by lia. auto.
      * rewrite F'. { apply V; lia. }
        intros t' Ht' Heq. assert (k' + t * m = k + t' * m) by lia.
        destruct (Nat.eq_dec t t') as [->|N']; [lia|].
        destruct (Nat.lt_ge_cases t t'); nia.
    + intros k' t Hk' Ht. rewrite F'. { apply R; lia. }
      intros t' Ht' Heq. assert (k' + t * m = k + t' * m) by lia.
      destruct (Nat.eq_dec t t') as [->|N']; [lia|].
      destruct (Nat.lt_ge_cases t t'); nia.
    + intros i Hi. rewrite F'. { apply F; auto. }
      intros t' Ht' ->. nia.
  - exists o. auto.
Qed.

Lemma shiftl_pow : forall a k, Nat.shiftl a k = a * 2 ^ k.
Proof. intros. apply Nat.shiftl_mul_pow2. Qed.

Lemma pow2_SS : forall q, 2 ^ S (S q) = 4 * 2 ^ q.
Proof. intros. rewrite !Nat.pow_succ_r'. lia. Qed.

Lemma splitfft_ok : forall d n lut1 lut3 (inp : list C) q,
  forall s fuel ib out ob, n = 2 ^ (s + q) ->
  lut1 = tab (n / 4) (fun i => W d n i) -> lut3 = tab (n / 4) (fun i => W d n (3 * i)) ->
  q <= fuel -> ib + (2 ^ q - 1) * 2 ^ s < length inp -> ob + 2 ^ q <= length out ->
  exists out', splitfft fuel inp ib out ob s (2 ^ s) (2 ^ q) lut1 lut3 = Ok out' /\
    length out' = length out /\
    (forall k, k < 2 ^ q -> nth (ob + k) out' C0 = SR d q (fun j => nth (ib + j * 2 ^ s) inp C0) k) /\
    (forall i, i < ob \/ ob + 2 ^ q <= i -> nth i out' C0 = nth i out C0).
Proof.
  intros d n lut1 lut3 inp q. induction q using two_step; intros s fuel ib out ob Hn H1 H3 Hf Hi Ho.
  - change (2 ^ 0) with 1 in *. destruct fuel; cbn [splitfft]; cbn [Nat.eqb];
      rewrite (rd_ok _ inp ib C0) by lia; cbn [bind]; rewrite wr_ok by lia;
      (eexists; split; [reflexivity|]; upd_len; split; [auto|]; split; intros i Hii; rewrite nth_upd;
       [replace i with 0 by lia; cbn [SR]; rewrite Nat.mul_0_l, !Nat.add_0_r; eqb_cases; auto | eqb_cases; auto]).
  - change (2 ^ 1) with 2 in *. change (2 - 1) with 1 in Hi. rewrite Nat.mul_1_l in Hi.
    destruct fuel; cbn [splitfft]; cbn [Nat.eqb]; change (2 / 2) with 1;
      rewrite !(rd_ok _ inp _ C0) by lia; cbn [bind]; rewrite wr_ok by lia; cbn [bind]; rewrite wr_ok by (upd_len; lia);
      (eexists; split; [reflexivity|]; upd_len; split; [auto|]; split; intros i Hii; rewrite !nth_upd; upd_len;
       [cbn [SR]; rewrite Nat.mul_0_l, Nat.mul_1_l, !Nat.add_0_r; eqb_cases; auto | eqb_cases; auto]).
  - destruct fuel as [|fuel]; [lia|].
    assert (HM := pow2_pos q). assert (HS := pow2_pos s).
    set (m := 2 ^ q) in *. rewrite pow2_SS in *. fold m in Hi, Ho |- *.
    destruct (sr_quarters m) as [Q2 [Q4 Q3]].
    cbn [splitfft]. destruct (Nat.eqb_spec (4 * m) 1); [lia|]. destruct (Nat.eqb_spec (4 * m) 2); [lia|].
    rewrite !Nat.shiftl_mul_pow2, !Nat.shiftr_div_pow2. change (2 ^ 1) with 2. change (2 ^ 2) with 4.
    rewrite Q2, Q4, Q3.
    replace (2 ^ s * 2) with (2 ^ (s + 1)) by (rewrite Nat.pow_add_r; auto).
    replace (2 ^ s * 4) with (2 ^ (s + 2)) by (rewrite Nat.pow_add_r; auto).
    assert (P1 : 2 ^ (s + 1) = 2 ^ s * 2) by (rewrite Nat.pow_add_r; auto).
    assert (P2 : 2 ^ (s + 2) = 2 ^ s * 4) by (rewrite Nat.pow_add_r; auto).
    assert (EQ1 : 2 ^ S q = 2 * m) by (rewrite Nat.pow_succ_r'; auto).
    destruct (IHq0 (s + 1) fuel ib out ob) as [o1 [E1 [L1 [V1 F1]]]]; auto; try lia.
    { rewrite Hn. f_equal. lia. }
    rewrite EQ1 in *. rewrite E1. cbn [bind].
    destruct (IHq (s + 2) fuel (ib + 2 ^ s) o1 (ob + 2 * m)) as [o2 [E2 [L2 [V2 F2]]]]; auto; try lia.
    { rewrite Hn. f_equal. lia. }
    { rewrite P2. nia. }
    fold m in E2, V2, F2. rewrite E2. cbn [bind].
    destruct (IHq (s + 2) fuel (ib + 3 * 2 ^ s) o2 (ob + 3 * m)) as [o3 [E3 [L3 [V3 F3]]]]; auto; try lia.
    { rewrite Hn. f_equal. lia. }
    { rewrite P2. nia. }
    fold m in E3, V3, F3. rewrite E3. cbn [bind].
    assert (En : n = 4 * m * 2 ^ s).
    { rewrite Hn, Nat.pow_add_r, pow2_SS. unfold m. lia. }
    assert (En4 : n / 4 = m * 2 ^ s).
    { rewrite En. symmetry. apply Nat.div_unique with 0; lia. }
    destruct (sr_groups_ok m (fun k => W d (4 * m) k) (fun k => W d (4 * m) (3 * k))
      (fun k out => w1 <- rd lut1 (Nat.shiftl k s) ;; w3 <- rd lut3 (Nat.shiftl k s) ;;
                    sr_combine (4 * m) k (Some (w1, w3)) ob out) ob o3) as [o4 [E4 [L4 [V4 F4]]]]; auto; try lia.
    { apply W_0. }
    { apply W_0. }
    { intros k o Hk. rewrite Nat.shiftl_mul_pow2.
      assert (Hb : k * 2 ^ s < m * 2 ^ s) by (apply Nat.mul_lt_mono_pos_r; lia).
      rewrite H1, H3, !(rd_ok _ _ _ C0) by (rewrite tab_length; lia). cbn [bind].
      rewrite !nth_tab by lia. rewrite En.
      rewrite W_scale_r by auto.
      replace (3 * (k * 2 ^ s)) with ((3 * k) * 2 ^ s) by lia.
      rewrite W_scale_r by auto. auto. }
    exists o4. split; [exact E4|]. split; [lia|]. split.
    + intros k Hk. rewrite SR_step. fold m.
      assert (Hr : k mod m < m) by (apply Nat.mod_upper_bound; lia).
      assert (Ht : k / m < 4) by (apply Nat.div_lt_upper_bound; lia).
      assert (Hk' := Nat.div_mod k m ltac:(lia)).
      replace (ob + k) with (ob + (k mod m + k / m * m)) by lia.
      rewrite V4 by auto. set (r := k mod m) in *.
      assert (G : forall u, u < 2 * m -> nth (ob + u) o3 C0 = SR d (S q) (fun j => nth (ib + 2 * j * 2 ^ s) inp C0) u).
      { intros u Hu. rewrite F3, F2 by lia. rewrite V1 by auto. apply SR_ext. intros j. f_equal. rewrite P1. lia. }
      f_equal.
      * apply G. lia.
      * apply G. lia.
      * f_equal. rewrite F3 by lia. replace (ob + (r + 2 * m)) with (ob + 2 * m + r) by lia. rewrite V2 by auto.
        apply SR_ext. intros j. f_equal. rewrite P2. lia.
      * f_equal. replace (ob + (r + 3 * m)) with (ob + 3 * m + r) by lia. rewrite V3 by auto.
        apply SR_ext. intros j. f_equal. rewrite P2. lia.
    + intros i Hii. rewrite F4, F3, F2, F1 by lia. auto.
Qed.

(** * Forward: the recursion is the DFT *)
Lemma DFT_split_radix : forall d m x k, 0 < m ->
  DFT d (4 * m) x k =
  (DFT d (2 * m) (fun j => x (2 * j)%nat) k
   + (W d (4 * m) k * DFT d m (fun j => x (4 * j + 1)%nat) k
      + W d (4 * m) (3 * k) * DFT d m (fun j => x (4 * j + 3)%nat) k))%C.
Proof.
  intros d m x k Hm.
  rewrite (DFT_dit d 4 m) by lia.
  rewrite (DFT_dit d 2 m (fun j => x (2 * j))) by lia.
  unfold Csum, bsum; cbn -[DFT W Nat.mul Nat.add].
  assert (E2 : W d (2 * m) (1 * k) = W d (4 * m) (2 * k)).
  { rewrite <- (W_scale d 2 (2 * m)) by lia. f_equal; lia. }
  rewrite E2.
  rewrite !Nat.mul_0_l, !W_0.
  rewrite (DFT_ext d m (fun j => x (4 * j + 0)) (fun j => x (2 * (2 * j + 0)))) by (intros; f_equal; lia).
  rewrite (DFT_ext d m (fun j => x (2 * (2 * j + 1))) (fun j => x (4 * j + 2))) by (intros; f_equal; lia).
  rewrite Nat.mul_1_l. ring.
Qed.

Lemma W_m : forall d m t r, 0 < m -> W d (4 * m) (r + t * m) = (W d (4 * m) r * W d 4 t)%C.
Proof.
  intros. rewrite W_add. f_equal. rewrite <- (W_scale_r d m 4 t) by auto. auto.
Qed.

Lemma SR_forward : forall q x k, k < 2 ^ q -> SR Forward q x k = DFT Forward (2 ^ q) x k.
Proof.
  intros q. induction q using two_step; intros x k Hk.
  - change (2 ^ 0) with 1 in *. cbn [SR]. unfold DFT, Csum, bsum. cbn. rewrite W_0. ring.
  - change (2 ^ 1) with 2 in *. cbn [SR]. unfold DFT, Csum, bsum. cbn -[W].
    rewrite W_0. destruct k as [|[|k]]; try lia; cbn -[W].
    + rewrite W_0. ring.
    + rewrite W_2_1. ring.
  - rewrite SR_step. rewrite pow2_SS in *. assert (HM := pow2_pos q). set (m := 2 ^ q) in *.
    assert (E1 : 2 ^ S q = 2 * m) by (rewrite Nat.pow_succ_r'; auto).
    rewrite E1 in *.
    assert (Hr : k mod m < m) by (apply Nat.mod_upper_bound; lia).
    assert (Ht : k / m < 4) by (apply Nat.div_lt_upper_bound; lia).
    assert (Hk' := Nat.div_mod k m ltac:(lia)).
    set (r := k mod m) in *. set (t := k / m) in *.
    rewrite !IHq0, !IHq by lia.
    rewrite DFT_split_radix by auto.
    replace k with (r + t * m) by lia.
    rewrite <- (DFT_mod Forward m _ (r + t * m)) by auto.
    rewrite <- (DFT_mod Forward m (fun j => x (4 * j + 3)) (r + t * m)) by auto.
    rewrite Nat.mod_add by lia. rewrite (Nat.mod_small r m) by lia.
    replace (3 * (r + t * m)) with (3 * r + (3 * t) * m) by lia.
    rewrite !W_m by auto.
    rewrite <- (DFT_mod Forward (2 * m) _ (r + t * m)) by lia.
    assert (W2 : W Forward 4 2 = (- C1)%C) by apply (W_half Forward 2 ltac:(lia)).
    assert (W1 : W Forward 4 1 = (- Ci)%C).
    { rewrite W_4_1. apply C_eq; simpl; ring. }
    assert (W3 : W Forward 4 3 = Ci).
    { change (W Forward 4 3) with (W Forward 4 (1 + 2)). rewrite W_add, W1, W2. ring. }
    destruct t as [|[|[|[|t]]]]; try lia; cbn [sr_val].
    + rewrite Nat.mul_0_l, Nat.add_0_r, (Nat.mod_small r) by lia. change (3 * 0) with 0. rewrite !W_0. ring.
    + rewrite Nat.mul_1_l, (Nat.mod_small (r + m)) by lia. change (3 * 1) with 3. rewrite W1, W3. ring.
    + replace (r + 2 * m) with (r + 1 * (2 * m)) by lia. rewrite Nat.mod_add, (Nat.mod_small r) by lia.
      change (3 * 2) with (2 + 4 * 1). rewrite W_period by lia. rewrite W2. ring.
    + replace (r + 3 * m) with (r + m + 1 * (2 * m)) by lia. rewrite Nat.mod_add, (Nat.mod_small (r + m)) by lia.
      change (3 * 3) with (1 + 4 * 2). rewrite W_period by lia. rewrite W1, W3. ring.
Qed.

(** * Backward: an impulse at position 1 *)
Lemma SR_zero : forall d q x k, (forall j, x j = C0) -> SR d q x k = C0.
Proof.
  intros d q. induction q using two_step; intros x k H.
  - apply H.
  - cbn [SR]. rewrite !H. destruct (k =? 0); ring.
  - rewrite SR_step. rewrite !IHq0, !IHq by (intros; apply H).
    destruct (k / 2 ^ q) as [|[|[|t]]]; cbn [sr_val]; ring.
Qed.

Lemma SR_impulse0 : forall d q k, k < 2 ^ q -> SR d q (fun j => if j =? 0 then C1 else C0) k = C1.
Proof.
  intros d q. induction q using two_step; intros k Hk.
  - reflexivity.
  - cbn [SR]. cbn [Nat.eqb]. destruct (k =? 0); ring.
  - rewrite SR_step. rewrite pow2_SS in Hk. assert (HM := pow2_pos q). set (m := 2 ^ q) in *.
    assert (E1 : 2 ^ S q = 2 * m) by (rewrite Nat.pow_succ_r'; auto).
    assert (Hr : k mod m < m) by (apply Nat.mod_upper_bound; lia).
    rewrite (SR_zero d q (fun j => if 4 * j + 1 =? 0 then C1 else C0)).
    2:{ intros j. destruct (Nat.eqb_spec (4 * j + 1) 0); auto; lia. }
    rewrite (SR_zero d q (fun j => if 4 * j + 3 =? 0 then C1 else C0)).
    2:{ intros j. destruct (Nat.eqb_spec (4 * j + 3) 0); auto; lia. }
    assert (G : forall u, u < 2 * m -> SR d (S q) (fun j => if 2 * j =? 0 then C1 else C0) u = C1).
    { intros u Hu. rewrite <- (IHq0 u) by lia. apply SR_ext. intros j.
      destruct (Nat.eqb_spec (2 * j) 0), (Nat.eqb_spec j 0); auto; lia. }
    rewrite !G by lia.
    destruct (k / m) as [|[|[|t]]]; cbn [sr_val]; ring.
Qed.

Lemma SR_impulse1 : forall d q,
  SR d (S (S q)) (fun j => if j =? 1 then C1 else C0) (2 ^ q) = (- Ci)%C.
Proof.
  intros d q. rewrite SR_step. assert (HM := pow2_pos q). set (m := 2 ^ q) in *.
  rewrite Nat.mod_same by lia. rewrite Nat.div_same by lia. cbn [sr_val].
  rewrite (SR_zero d (S q)).
  2:{ intros j. destruct (Nat.eqb_spec (2 * j) 1); auto; lia. }
  rewrite (SR_zero d q (fun j => if 4 * j + 3 =? 1 then C1 else C0)).
  2:{ intros j. destruct (Nat.eqb_spec (4 * j + 3) 1); auto; lia. }
  rewrite (SR_ext d q _ (fun j => if j =? 0 then C1 else C0)).
  2:{ intros j. destruct (Nat.eqb_spec (4 * j + 1) 1), (Nat.eqb_spec j 0); auto; lia. }
  rewrite SR_impulse0 by auto. change (3 * 0) with 0. rewrite !W_0. ring.
Qed.

(** * The plan *)
Lemma sr_w_W : forall n i, sr_w n i = W Forward n i.
Proof. intros. unfold sr_w, W, Cexp. cbn [dsign]. rewrite (Rmult_comm PI 2). auto. Qed.

Lemma make_split_radix_ok : forall n, make_split_radix_plan n = Ok
  {| sr_size := n;
     sr_lut1_f := tab (n / 4) (fun i => W Forward n i);
     sr_lut3_f := tab (n / 4) (fun i => W Forward n (3 * i));
     sr_lut1_b := tab (n / 4) (fun i => W Backward n i);
     sr_lut3_b := tab (n / 4) (fun i => W Backward n (3 * i)) |}.
Proof.
  intros n. unfold make_split_radix_plan.
  set (J := fun i (f : nat -> C) (l : list C) => length l = n / 4 /\ forall k, k < i -> nth k l C0 = f k).
  destruct (for_range_inv split_radix_plan (fun i p => sr_size p = n /\
    J i (fun i => W Forward n i) (sr_lut1_f p) /\ J i (fun i => W Forward n (3 * i)) (sr_lut3_f p) /\
    J i (fun i => W Backward n i) (sr_lut1_b p) /\ J i (fun i => W Backward n (3 * i)) (sr_lut3_b p)) 0 (n / 4)
    (fun i p =>
    l1 <- wr (sr_lut1_f p) i (sr_w n i) ;;
    l3 <- wr (sr_lut3_f p) i (sr_w n (3 * i)) ;;
    a <- rd l1 i ;;
    b1 <- wr (sr_lut1_b p) i (Cconj a) ;;
    c <- rd l3 i ;;
    b3 <- wr (sr_lut3_b p) i (Cconj c) ;;
    Ok {| sr_size := sr_size p; sr_lut1_f := l1; sr_lut3_f := l3; sr_lut1_b := b1; sr_lut3_b := b3 |})
    {| sr_size := n; sr_lut1_f := repeat C0 (n / 4); sr_lut3_f := repeat C0 (n / 4);
       sr_lut1_b := repeat C0 (n / 4); sr_lut3_b := repeat C0 (n / 4) |})
    as [p [E [S [[L1 V1] [[L2 V2] [[L3 V3] [L4 V4]]]]]]].
  - lia.
  - cbn. unfold J. rewrite repeat_length. repeat split; auto; intros; lia.
  - intros i p Hi [S [[L1 V1] [[L2 V2] [[L3 V3] [L4 V4]]]]].
    rewrite !wr_ok by lia. cbn [bind].
    rewrite (rd_ok _ _ i C0) by (upd_len; lia). cbn [bind]. rewrite wr_ok by lia. cbn [bind].
    rewrite (rd_ok _ _ i C0) by (upd_len; lia). cbn [bind]. rewrite wr_ok by lia. cbn [bind].
    eexists. split; [reflexivity|]. cbn [sr_size sr_lut1_f sr_lut3_f sr_lut1_b sr_lut3_b].
    split; auto. unfold J. upd_len.
    repeat split; auto; intros k Hk; rewrite !nth_upd; rewrite !sr_w_W;
      (destruct (Nat.eq_dec k i) as [->|N]; eqb_cases; auto; try (rewrite W_conj; reflexivity);
       first [apply V1 | apply V2 | apply V3 | apply V4]; lia).
  - cbv zeta. rewrite E. f_equal. destruct p. cbn in *. f_equal; auto;
      (apply list_eq_tab with (d := C0); auto).
Qed.

Lemma split_radix_SR : forall d p (inp out : list C), length inp = 2 ^ p -> length out = 2 ^ p ->
  split_radix_fft (2 ^ p) inp out d = Ok (tab (2 ^ p) (SR d p (fun j => nth j inp C0))).
Proof.
  intros d p inp out Li Lo. unfold split_radix_fft. rewrite make_split_radix_ok. cbn [bind].
  unfold run_split_radix. cbn [sr_size sr_lut1_f sr_lut3_f sr_lut1_b sr_lut3_b].
  assert (HP := pow2_pos p).
  destruct (splitfft_ok d (2 ^ p) _ _ inp p 0 (2 ^ p) 0 out 0 eq_refl eq_refl eq_refl) as [o [E [L [V _]]]].
  - apply le_pow2.
  - change (2 ^ 0) with 1. lia.
  - lia.
  - change (2 ^ 0) with 1 in E, V.
    assert (G : Ok o = Ok (tab (2 ^ p) (SR d p (fun j => nth j inp C0)))).
    { f_equal. apply list_eq_tab with (d := C0); [lia|]. intros k Hk.
      change (nth k o C0) with (nth (0 + k) o C0). rewrite V by auto. apply SR_ext. intros j. f_equal. lia. }
    rewrite <- G. destruct d; exact E.
Qed.

Lemma split_radix_forward : forall p (inp out : list C), length inp = 2 ^ p -> length out = 2 ^ p ->
  split_radix_fft (2 ^ p) inp out Forward = Ok (DFT_list Forward inp).
Proof.
  intros p inp out Li Lo. rewrite split_radix_SR by auto. f_equal. unfold DFT_list. rewrite Li.
  apply tab_ext. intros k Hk. apply SR_forward. auto.
Qed.
