(** Proofs about the integer helpers. *)
From Coq Require Import ZArith List Bool Lia Arith.
From Verif Require Import Base.Outcome Base.OutcomeFacts Model.Fft2 Model.Integers.
Local Open Scope Z_scope.

(** ** bit_ceil *)
(** Bit [i] of [v] is set iff one of the bits i .. i+n-1 of [y] is. *)
Definition smeared (n y v : Z) : Prop :=
  0 <= v /\ forall i, 0 <= i -> (Z.testbit v i = true <-> exists m, 0 <= m < n /\ Z.testbit y (i + m) = true).

Lemma smeared_1 : forall y, 0 <= y -> smeared 1 y y.
Proof.
  intros y Hy. split; auto. intros i Hi. split.
  - intros H. exists 0. rewrite Z.add_0_r. split; auto. lia.
  - intros [m [H E]]. replace m with 0 in E by lia. rewrite Z.add_0_r in E. auto.
Qed.

Lemma smeared_step : forall n y v, 0 < n -> smeared n y v -> smeared (2 * n) y (Z.lor v (Z.shiftr v n)).
Proof.
  intros n y v Hn [H0 H]. split.
  { apply Z.lor_nonneg. split; auto. apply Z.shiftr_nonneg. auto. }
  intros i Hi. rewrite Z.lor_spec, Z.shiftr_spec by auto. rewrite orb_true_iff.
  rewrite (H i Hi), (H (i + n)) by lia. split.
  - intros [[m [A B]]|[m [A B]]].
    + exists m. split; auto. lia.
    + exists (n + m). split; [lia|]. rewrite Z.add_assoc. auto.
  - intros [m [A B]]. destruct (Z.lt_ge_cases m n).
    + left. exists m. split; auto. lia.
    + right. exists (m - n). split; [lia|]. replace (i + n + (m - n)) with (i + m) by lia. auto.
Qed.

Lemma smeared_full : forall w y v, 0 < y < 2 ^ w -> smeared w y v -> v = 2 ^ (Z.log2 y + 1) - 1.
Proof.
  intros w y v Hy [H0 H].
  assert (Hw : 0 <= w). { destruct (Z.lt_ge_cases w 0); auto. rewrite Z.pow_neg_r in Hy by auto. lia. }
  assert (L := Z.log2_nonneg y).
  assert (L2 : Z.log2 y < w) by (apply Z.log2_lt_pow2; lia).
  rewrite Z.sub_1_r, <- Z.ones_equiv. apply Z.bits_inj'. intros i Hi.
  destruct (Z.lt_ge_cases i (Z.log2 y + 1)).
  - rewrite Z.ones_spec_low by lia. apply H; auto. exists (Z.log2 y - i). split; [lia|].
    replace (i + (Z.log2 y - i)) with (Z.log2 y) by lia. apply Z.bit_log2. lia.
  - rewrite Z.ones_spec_high by lia. apply not_true_is_false. intros E. apply H in E; auto.
    destruct E as [m [A B]]. rewrite Z.bits_above_log2 in B by lia. discriminate.
Qed.

Definition std_width (w : Z) : Prop := w = 8 \/ w = 16 \/ w = 32 \/ w = 64.

Lemma bit_ceil_fallback_smear : forall w x, std_width w ->
  exists v, smeared w ((x - 1) mod 2 ^ w) v /\ bit_ceil_fallback w x = (v + 1) mod 2 ^ w.
Proof.
  intros w x Hw. unfold bit_ceil_fallback.
  assert (S1 : smeared 1 ((x - 1) mod 2 ^ w) ((x - 1) mod 2 ^ w)).
  { apply smeared_1. apply Z.mod_pos_bound. apply Z.pow_pos_nonneg; [lia|]. destruct Hw as [|[|[|]]]; lia. }
  assert (S2 := smeared_step 1 _ _ ltac:(lia) S1).
  assert (S3 := smeared_step 2 _ _ ltac:(lia) S2).
  assert (S4 := smeared_step 4 _ _ ltac:(lia) S3).
  destruct Hw as [|[|[|]]]; subst w; cbv zeta;
    repeat (match goal with |- context [?a <? ?b] => let r := eval compute in (a <? b) in change (a <? b) with r end; cbv iota).
  - eexists. split; [exact S4|]. reflexivity.
  - assert (S5 := smeared_step 8 _ _ ltac:(lia) S4). eexists. split; [exact S5|]. reflexivity.
  - assert (S5 := smeared_step 8 _ _ ltac:(lia) S4). assert (S6 := smeared_step 16 _ _ ltac:(lia) S5).
    eexists. split; [exact S6|]. reflexivity.
  - assert (S5 := smeared_step 8 _ _ ltac:(lia) S4). assert (S6 := smeared_step 16 _ _ ltac:(lia) S5).
    assert (S7 := smeared_step 32 _ _ ltac:(lia) S6).
    eexists. split; [exact S7|]. reflexivity.
Qed.

Lemma smeared_0 : forall w v, smeared w 0 v -> v = 0.
Proof.
  intros w v [H0 H]. apply Z.bits_inj'. intros i Hi. rewrite Z.bits_0.
  apply not_true_is_false. intros E. apply H in E; auto. destruct E as [m [_ E]]. rewrite Z.bits_0 in E. discriminate.
Qed.

Lemma bit_ceil_fallback_ok : forall w x, std_width w -> 1 <= x <= 2 ^ (w - 1) ->
  bit_ceil_fallback w x = 2 ^ Z.log2_up x.
Proof.
  intros w x Hw Hx.
  assert (P : 2 ^ w = 2 * 2 ^ (w - 1)).
  { rewrite <- Z.pow_succ_r by (destruct Hw as [|[|[|]]]; lia). f_equal. lia. }
  destruct (bit_ceil_fallback_smear w x Hw) as [v [S E]]. rewrite E.
  rewrite Z.mod_small in S by lia.
  destruct (Z.eq_dec x 1) as [->|N].
  - change (1 - 1) with 0 in S. apply smeared_0 in S. subst v. change (2 ^ Z.log2_up 1) with 1.
    apply Z.mod_small. lia.
  - rewrite (smeared_full w (x - 1) v) by (auto; lia).
    rewrite Z.log2_up_eqn by lia. rewrite <- Z.sub_1_r, <- Z.add_1_r.
    rewrite Z.sub_add. apply Z.mod_small.
    split. { apply Z.pow_nonneg. lia. }
    assert (Z.log2 (x - 1) + 1 <= w - 1).
    { assert (Z.log2 (x - 1) < w - 1); [|lia]. apply Z.log2_lt_pow2; lia. }
    assert (2 ^ (Z.log2 (x - 1) + 1) <= 2 ^ (w - 1)) by (apply Z.pow_le_mono_r; lia). lia.
Qed.

Lemma bit_ceil_fallback_out : forall w x, std_width w -> x = 0 \/ 2 ^ (w - 1) < x < 2 ^ w ->
  bit_ceil_fallback w x = 0.
Proof.
  intros w x Hw Hx.
  assert (W0 : 0 < w) by (destruct Hw as [|[|[|]]]; lia).
  assert (P : 2 ^ w = 2 * 2 ^ (w - 1)).
  { rewrite <- Z.pow_succ_r by lia. f_equal. lia. }
  assert (PP : 0 < 2 ^ (w - 1)) by (apply Z.pow_pos_nonneg; lia).
  destruct (bit_ceil_fallback_smear w x Hw) as [v [S E]]. rewrite E.
  assert (Y : 2 ^ (w - 1) <= (x - 1) mod 2 ^ w < 2 ^ w).
  { destruct Hx as [->|Hx].
    - replace ((0 - 1) mod 2 ^ w) with (2 ^ w - 1). lia.
      apply Z.mod_unique_pos with (-1); lia.
    - rewrite Z.mod_small; lia. }
  rewrite (smeared_full w _ v) with (2 := S) by lia.
  assert (Z.log2 ((x - 1) mod 2 ^ w) = w - 1).
  { apply Z.log2_unique; [lia|]. replace (Z.succ (w - 1)) with w by lia. auto. }
  rewrite H. replace (w - 1 + 1) with w by lia. rewrite Z.sub_add. apply Z.mod_same. lia.
Qed.

Lemma log2_up_least : forall x k, 1 <= x -> 0 <= k -> x <= 2 ^ k -> 2 ^ Z.log2_up x <= 2 ^ k.
Proof.
  intros. apply Z.pow_le_mono_r; [lia|]. apply Z.log2_up_le_pow2; lia.
Qed.

Lemma log2_up_ge : forall x, 1 <= x -> x <= 2 ^ Z.log2_up x.
Proof.
  intros x H. destruct (Z.eq_dec x 1) as [->|N]. { simpl. lia. }
  apply Z.log2_up_spec. lia.
Qed.

Lemma bit_ceil_spec : forall w x, std_width w -> 1 <= x <= 2 ^ (w - 1) ->
  exists r, bit_ceil_fallback w x = r /\ bit_ceil w x = Ok r /\
    (exists k, 0 <= k /\ r = 2 ^ k) /\ x <= r /\
    (forall k, 0 <= k -> x <= 2 ^ k -> r <= 2 ^ k).
Proof.
  intros w x Hw Hx. exists (2 ^ Z.log2_up x).
  assert (P : 2 ^ w = 2 * 2 ^ (w - 1)).
  { rewrite <- Z.pow_succ_r by (destruct Hw as [|[|[|]]]; lia). f_equal. lia. }
  split. { apply bit_ceil_fallback_ok; auto. }
  split. { unfold bit_ceil.
    assert (2 ^ Z.log2_up x <= 2 ^ (w - 1)). { apply log2_up_least; try lia. destruct Hw as [|[|[|]]]; lia. }
    destruct (Z.ltb_spec (2 ^ Z.log2_up x) (2 ^ w)); auto. lia. }
  split. { exists (Z.log2_up x). split; auto. apply Z.log2_up_nonneg. }
  split. { apply log2_up_ge. lia. }
  intros. apply log2_up_least; auto. lia.
Qed.

(** ** bit_log2, next_order *)
Lemma bit_log2_loop_gen : forall fuel x r, (Nat.log2 x <= fuel)%nat ->
  exists y, while_fuel fuel (fun s : nat * nat => Nat.ltb 1 (snd s))
    (fun s => Ok (fst s + 1, snd s / 2)%nat) (r, x) = Ok ((r + Nat.log2 x)%nat, y).
Proof.
  induction fuel; intros x r H.
  - exists x. rewrite while_stop.
    + do 2 f_equal. lia.
    + simpl. destruct (Nat.ltb_spec 1 x); auto.
      assert (1 <= Nat.log2 x)%nat; [|lia]. change 1%nat with (Nat.log2 2). apply Nat.log2_le_mono. lia.
  - destruct (Nat.ltb_spec 1 x).
    + rewrite while_step. 2:{ simpl. destruct (Nat.ltb_spec 1 x); auto; lia. }
      cbn [bind fst snd].
      assert (E : Nat.log2 x = S (Nat.log2 (x / 2))).
      { rewrite (Nat.div_mod x 2) at 1 by lia.
        assert (x mod 2 < 2)%nat by (apply Nat.mod_upper_bound; lia).
        assert (0 < x / 2)%nat by (apply Nat.div_str_pos; lia).
        destruct (x mod 2)%nat as [|[|]]; [| |lia].
        - rewrite Nat.add_0_r. apply Nat.log2_double. auto.
        - apply Nat.log2_succ_double. auto. }
      destruct (IHfuel (x / 2)%nat (r + 1)%nat) as [y Hy]. { lia. }
      exists y. rewrite Hy. do 2 f_equal. lia.
    + exists x. rewrite while_stop.
      * do 2 f_equal. assert (Nat.log2 x = 0)%nat; [|lia]. apply Nat.log2_null. lia.
      * simpl. destruct (Nat.ltb_spec 1 x); auto. lia.
Qed.

Lemma bit_log2_ok : forall x, bit_log2 x = Ok (Nat.log2 x).
Proof.
  intros x. unfold bit_log2.
  destruct (bit_log2_loop_gen x x 0) as [y Hy].
  { destruct x; [apply Nat.le_refl|]. apply Nat.lt_le_incl, Nat.log2_lt_lin. lia. }
  rewrite Hy. reflexivity.
Qed.

Lemma Zlog2_up_of_nat : forall n, Z.log2_up (Z.of_nat n) = Z.of_nat (Nat.log2_up n).
Proof.
  intros n. destruct n as [|[|n]]; auto.
  assert (0 < Nat.log2_up (S (S n)))%nat by (apply Nat.log2_up_pos; lia).
  apply Z.log2_up_unique. { lia. }
  assert (S := Nat.log2_up_spec (S (S n)) ltac:(lia)). destruct S as [A B].
  split.
  - replace (Z.pred (Z.of_nat (Nat.log2_up (S (S n))))) with (Z.of_nat (Nat.pred (Nat.log2_up (S (S n))))) by lia.
    change 2 with (Z.of_nat 2). rewrite <- Nat2Z.inj_pow. apply inj_lt. exact A.
  - change 2 with (Z.of_nat 2). rewrite <- Nat2Z.inj_pow. apply inj_le. exact B.
Qed.

Lemma next_order_ok : forall n, Z.of_nat n <= 2 ^ 63 -> next_order n = Ok (Nat.log2_up n).
Proof.
  intros n H. unfold next_order, bit_ceil.
  assert (B : 2 ^ Z.log2_up (Z.of_nat n) < 2 ^ 64).
  { destruct n. { reflexivity. }
    assert (2 ^ Z.log2_up (Z.of_nat (S n)) <= 2 ^ 63) by (apply log2_up_least; lia).
    assert (2 ^ 63 < 2 ^ 64) by reflexivity. lia. }
  destruct (Z.ltb_spec (2 ^ Z.log2_up (Z.of_nat n)) (2 ^ 64)); [|lia]. cbn [bind].
  rewrite Zlog2_up_of_nat. replace 2 with (Z.of_nat 2) by lia. rewrite <- Nat2Z.inj_pow, Nat2Z.id.
  rewrite bit_log2_ok. rewrite Nat.log2_pow2 by lia. auto.
Qed.

Lemma next_order_least : forall n, (1 <= n)%nat -> Z.of_nat n <= 2 ^ 63 ->
  exists k, next_order n = Ok k /\ (n <= 2 ^ k)%nat /\ (forall j, n <= 2 ^ j -> k <= j)%nat /\
    (2 <= n -> 2 ^ k < 2 * n)%nat.
Proof.
  intros n Hn H. exists (Nat.log2_up n). split. { apply next_order_ok; auto. }
  split. { destruct (Nat.eq_dec n 1) as [->|]; [simpl; lia|]. apply Nat.log2_up_spec. lia. }
  split. { intros j Hj. apply Nat.log2_up_le_pow2; lia. }
  intros H2. destruct (Nat.log2_up_spec n ltac:(lia)) as [A B].
  assert (0 < Nat.log2_up n)%nat by (apply Nat.log2_up_pos; lia).
  replace (Nat.log2_up n) with (S (Nat.pred (Nat.log2_up n))) by lia. rewrite Nat.pow_succ_r'. lia.
Qed.

(** ** ipow *)
Definition valid_ity (t : ity) : Prop := std_width (iwidth t).

Lemma iconv_fits : forall t v, valid_ity t -> fits t v -> iconv t v = v.
Proof.
  intros [w s] v Hw. unfold fits, iconv, imin, imax, valid_ity in *. simpl in *. intros H.
  assert (P : 2 ^ w = 2 * 2 ^ (w - 1)).
  { rewrite <- Z.pow_succ_r by (destruct Hw as [|[|[|]]]; lia). f_equal. lia. }
  destruct s; rewrite Z.mod_small; lia.
Qed.

Lemma fits_promote : forall t v, valid_ity t -> fits t v -> fits (promote t) v.
Proof.
  intros [w s] v Hw. unfold promote. simpl. destruct (Z.ltb_spec w 32); auto.
  unfold valid_ity, fits, imin, imax in *. simpl in *.
  destruct Hw as [|[|[|]]]; subst; try lia; destruct s; simpl; lia.
Qed.

Lemma valid_promote : forall t, valid_ity t -> valid_ity (promote t).
Proof.
  intros [w s] Hw. unfold promote. simpl. destruct (Z.ltb_spec w 32); auto.
  unfold valid_ity, int32, std_width. simpl. auto.
Qed.

Lemma iarith_fits : forall t v, valid_ity t -> fits (promote t) v -> iarith t v = Ok v.
Proof.
  intros t v Hw H. unfold iarith. destruct (isigned (promote t)) eqn:E.
  - unfold fitsb. unfold fits in H. destruct H.
    rewrite (proj2 (Z.leb_le _ _)), (proj2 (Z.leb_le _ _)) by auto. auto.
  - rewrite iconv_fits; auto. apply valid_promote; auto.
Qed.

Lemma pow_abs_mono : forall b i e, 0 <= i -> i < e -> (2 <= Z.abs b) -> 2 * Z.abs (b ^ i) <= Z.abs (b ^ e).
Proof.
  intros b i e Hi He Hb.
  replace e with (i + (e - i)) by lia. rewrite Z.pow_add_r by lia. rewrite Z.abs_mul.
  assert (2 <= Z.abs (b ^ (e - i))).
  { rewrite Z.abs_pow. assert (2 ^ 1 <= Z.abs b ^ (e - i)); [|lia].
    transitivity (Z.abs b ^ 1). { rewrite !Z.pow_1_r. auto. } apply Z.pow_le_mono_r; lia. }
  assert (0 <= Z.abs (b ^ i)) by apply Z.abs_nonneg. nia.
Qed.

Lemma pow_small_base : forall b i, 0 <= i -> Z.abs b <= 1 -> b ^ i = 0 \/ b ^ i = 1 \/ b ^ i = -1.
Proof.
  intros b i Hi Hb. revert i Hi. apply natlike_ind. { auto. }
  intros x Hx IH. rewrite Z.pow_succ_r by auto.
  assert (b = 0 \/ b = 1 \/ b = -1) by lia.
  destruct H as [ -> | [ -> | -> ] ]; lia.
Qed.

Lemma pow_fits_below : forall t b i e, valid_ity t -> fits t b -> 0 <= i <= e -> fits t (b ^ e) -> fits t (b ^ i).
Proof.
  intros t b i e Hw Hb Hi He.
  destruct (Z.eq_dec i e) as [->|N]; auto.
  assert (P0 : 8 <= iwidth t) by (destruct Hw as [|[|[|]]]; lia).
  assert (P1 : 128 <= 2 ^ (iwidth t - 1)). { change 128 with (2 ^ 7). apply Z.pow_le_mono_r; lia. }
  assert (P : 2 ^ iwidth t = 2 * 2 ^ (iwidth t - 1)).
  { rewrite <- Z.pow_succ_r by lia. f_equal. lia. }
  unfold fits, imin, imax in *. destruct (isigned t).
  - destruct (Z.lt_ge_cases (Z.abs b) 2).
    + destruct (pow_small_base b i) as [H1|[H1|H1]]; lia.
    + pose proof (pow_abs_mono b i e). lia.
  - assert (0 <= b ^ i) by (apply Z.pow_nonneg; lia).
    destruct (Z.lt_ge_cases (Z.abs b) 2).
    + destruct (pow_small_base b i) as [H1|[H1|H1]]; lia.
    + pose proof (pow_abs_mono b i e). lia.
Qed.

Lemma ipow_ok : forall t b e, valid_ity t -> fits t b -> 0 <= e -> fits t (b ^ e) -> ipow t b e = Ok (b ^ e).
Proof.
  intros t b e Hw Hb He Hf. unfold ipow.
  destruct (for_range_inv Z (fun i r => r = b ^ Z.of_nat i) 0 (Z.to_nat e)
    (fun _ result => v <- iarith t (result * b) ;; Ok (iconv t v)) 1) as [r [E HI]]; try lia.
  - intros i r Hi ->.
    assert (F : fits t (b ^ Z.of_nat (S i))) by (apply pow_fits_below with e; auto; lia).
    assert (E : b ^ Z.of_nat i * b = b ^ Z.of_nat (S i)).
    { rewrite Nat2Z.inj_succ, Z.pow_succ_r by lia. lia. }
    rewrite E, iarith_fits by (auto; apply fits_promote; auto). cbn [bind].
    rewrite iconv_fits by auto. eauto.
  - rewrite E, HI. rewrite Z2Nat.id by auto. auto.
Qed.

Lemma pow_small_exp : forall t k e, valid_ity t -> 1 <= k -> 0 <= e -> fits t (2 ^ (k * e)) -> k * e < iwidth t.
Proof.
  intros t k e Hw Hk He [_ H].
  assert (W0 : 8 <= iwidth t) by (destruct Hw as [|[|[|]]]; lia).
  destruct (Z.lt_ge_cases (k * e) (iwidth t)) as [|G]; auto. exfalso.
  assert (2 ^ iwidth t <= 2 ^ (k * e)) by (apply Z.pow_le_mono_r; lia).
  assert (2 ^ (iwidth t - 1) <= 2 ^ iwidth t) by (apply Z.pow_le_mono_r; lia).
  unfold imax in H. destruct (isigned t); lia.
Qed.

Lemma width_small : forall w, std_width w -> w < 2 ^ (w - 1).
Proof. intros w H. destruct H as [|[|[|]]]; subst; reflexivity. Qed.

Lemma ipow_shift_ok : forall t k e, valid_ity t -> 1 <= k -> 0 <= e -> fits t (2 ^ (k * e)) ->
  ipow_shift t k e = Ok (2 ^ (k * e)).
Proof.
  intros t k e Hw Hk He Hf.
  assert (B := pow_small_exp t k e Hw Hk He Hf).
  assert (WS := width_small _ Hw).
  assert (W0 : 8 <= iwidth t) by (destruct Hw as [|[|[|]]]; lia).
  assert (P : 2 ^ iwidth t = 2 * 2 ^ (iwidth t - 1)).
  { rewrite <- Z.pow_succ_r by lia. f_equal. lia. }
  assert (F : fits t (k * e)). { unfold fits, imin, imax. destruct (isigned t); nia. }
  unfold ipow_shift.
  assert (E : (if k =? 1 then Ok e else iarith t (e * k)) = Ok (k * e)).
  { destruct (Z.eqb_spec k 1). { f_equal. lia. }
    rewrite (Z.mul_comm e k). apply iarith_fits; auto. apply fits_promote; auto. }
  rewrite E. cbn [bind].
  assert (Hc : iconv (Ity (iwidth t) false) (k * e) = k * e). { unfold iconv. simpl. apply Z.mod_small. nia. }
  rewrite Hc.
  assert (iwidth t <= iwidth (promote t)).
  { unfold promote. destruct (Z.ltb_spec (iwidth t) 32); simpl; lia. }
  destruct (Z.ltb_spec (k * e) (iwidth (promote t))); [|lia].
  rewrite iconv_fits by auto. auto.
Qed.

Lemma ipow_const_ok : forall t b e, valid_ity t -> fits t b -> 0 <= e -> fits t (b ^ e) ->
  ipow_const t b e = Ok (b ^ e).
Proof.
  intros t b e Hw Hb He Hf. unfold ipow_const.
  destruct (Z.eqb_spec b 2). { subst. rewrite ipow_shift_ok; rewrite ?Z.mul_1_l; auto; lia. }
  assert (G : forall k, 1 <= k -> b = 2 ^ k -> ipow_shift t k e = Ok (b ^ e)).
  { intros k Hk ->. rewrite <- Z.pow_mul_r in * by lia. apply ipow_shift_ok; auto. }
  destruct (Z.eqb_spec b 4); [apply G; [lia|subst; reflexivity]|].
  destruct (Z.eqb_spec b 8); [apply G; [lia|subst; reflexivity]|].
  destruct (Z.eqb_spec b 16); [apply G; [lia|subst; reflexivity]|].
  destruct (Z.eqb_spec b 32); [apply G; [lia|subst; reflexivity]|].
  apply ipow_ok; auto.
Qed.

(** Outside that range: the loop on a signed int/long overflows (UB). *)
Lemma ipow_overflow : forall t b e, valid_ity t -> isigned t = true -> 32 <= iwidth t ->
  fits t b -> 0 <= e -> ~ fits t (b ^ e) -> ipow t b e = UB.
Proof.
  intros t b e Hw Hs H32 Hfb He Hf. unfold ipow.
  assert (PT : promote t = t). { unfold promote. destruct (Z.ltb_spec (iwidth t) 32); auto. lia. }
  (* the first exponent that does not fit *)
  assert (X : exists n, (n < Z.to_nat e)%nat /\ fits t (b ^ Z.of_nat n) /\ ~ fits t (b ^ Z.of_nat (S n))).
  { assert (G : forall m, ~ fits t (b ^ Z.of_nat m) ->
      exists n, (n < m)%nat /\ fits t (b ^ Z.of_nat n) /\ ~ fits t (b ^ Z.of_nat (S n))).
    { induction m; intros Hm.
      - exfalso. apply Hm. simpl. unfold fits, imin, imax. rewrite Hs.
        assert (2 ^ 7 <= 2 ^ (iwidth t - 1)) by (apply Z.pow_le_mono_r; lia). lia.
      - assert (D : fits t (b ^ Z.of_nat m) \/ ~ fits t (b ^ Z.of_nat m)).
        { unfold fits. lia. }
        destruct D as [D|D]. { exists m. auto. }
        destruct (IHm D) as [n [A B]]. exists n. split; auto. }
    apply G. rewrite Z2Nat.id by auto. auto. }
  destruct X as [n [Hn [F NF]]].
  rewrite (for_range_split _ 0 n (Z.to_nat e)) by lia.
  assert (E := ipow_ok t b (Z.of_nat n) Hw Hfb ltac:(lia) F). unfold ipow in E. rewrite Nat2Z.id in E.
  rewrite E. cbn [bind]. rewrite for_range_S by auto.
  unfold iarith. rewrite PT, Hs.
  replace (b ^ Z.of_nat n * b) with (b ^ Z.of_nat (S n)).
  2:{ rewrite Nat2Z.inj_succ, Z.pow_succ_r by lia. lia. }
  destruct (fitsb t (b ^ Z.of_nat (S n))) eqn:FB; auto.
  exfalso. apply NF. unfold fitsb in FB. apply andb_prop in FB. destruct FB as [A B].
  apply Z.leb_le in A, B. split; auto.
Qed.

(** ** idiv *)
Lemma idiv_ok : forall t x y, valid_ity t -> fits t x -> fits t y -> 0 <= x -> 0 < y ->
  fits (promote t) (x + y) ->
  exists q, idiv t x y = Ok q /\ q * y >= x /\ (q - 1) * y < x.
Proof.
  intros t x y Hw Fx Fy Hx Hy F.
  assert (V := valid_promote t Hw).
  assert (F1 : fits (promote t) (x + y - 1)).
  { unfold fits in *. destruct F. split; [|lia]. unfold imin. destruct (isigned (promote t)).
    - assert (0 <= 2 ^ (iwidth (promote t) - 1)) by (apply Z.pow_nonneg; lia). lia.
    - lia. }
  unfold idiv. rewrite iarith_fits by auto. cbn [bind]. rewrite iarith_fits by auto. cbn [bind].
  destruct (Z.eqb_spec y 0); [lia|].
  rewrite Z.quot_div_nonneg by lia.
  assert (Q : 0 <= (x + y - 1) / y <= x).
  { split. { apply Z.div_pos; lia. }
    destruct (Z.eq_dec x 0) as [->|]. { rewrite Z.div_small by lia. lia. }
    assert ((x + y - 1) / y < x + 1); [|lia]. apply Z.div_lt_upper_bound; nia. }
  assert (FQ : fits t ((x + y - 1) / y)).
  { unfold fits in *. split; [|lia]. unfold imin. destruct (isigned t).
    - assert (0 <= 2 ^ (iwidth t - 1)) by (apply Z.pow_nonneg; lia). lia.
    - lia. }
  rewrite iarith_fits by (auto; apply fits_promote; auto). cbn [bind]. rewrite iconv_fits by auto.
  eexists. split; [reflexivity|].
  pose proof (Z.div_mod (x + y - 1) y ltac:(lia)). pose proof (Z.mod_pos_bound (x + y - 1) y ltac:(lia)).
  split; nia.
Qed.

(** Unsigned operands: only x + y - 1 has to fit; x + y may wrap to 0 on the way. *)
Lemma idiv_ok_unsigned : forall t x y, valid_ity t -> isigned (promote t) = false -> fits t x -> fits t y -> 0 < y ->
  fits (promote t) (x + y - 1) ->
  exists q, idiv t x y = Ok q /\ q * y >= x /\ (q - 1) * y < x.
Proof.
  intros t x y Hw Hs Fx Fy Hy F.
  assert (Hx : 0 <= x).
  { assert (isigned t = false). { unfold promote in Hs. destruct (iwidth t <? 32); auto. discriminate. }
    unfold fits, imin in Fx. rewrite H in Fx. lia. }
  assert (V := valid_promote t Hw).
  assert (F' := F). unfold fits, imin, imax in F'. rewrite Hs in F'.
  destruct (Z.eq_dec (x + y) (2 ^ iwidth (promote t))) as [E|NE].
  2:{ apply idiv_ok; auto. unfold fits, imin, imax. rewrite Hs. lia. }
  assert (PW : 1 < 2 ^ iwidth (promote t)) by (apply Z.pow_gt_1; destruct V as [|[|[|]]]; lia).
  unfold idiv, iarith at 1 2. rewrite Hs. cbn [bind].
  assert (C1 : iconv (promote t) (x + y) = 0).
  { unfold iconv. rewrite Hs, E. apply Z.mod_same. lia. }
  assert (C2 : iconv (promote t) (0 - 1) = x + y - 1).
  { unfold iconv. rewrite Hs. symmetry. apply Z.mod_unique_pos with (-1); lia. }
  rewrite C1, C2.
  destruct (Z.eqb_spec y 0); [lia|].
  rewrite Z.quot_div_nonneg by lia.
  assert (Q : 0 <= (x + y - 1) / y <= x).
  { split. { apply Z.div_pos; lia. }
    destruct (Z.eq_dec x 0) as [->|]. { rewrite Z.div_small by lia. lia. }
    assert ((x + y - 1) / y < x + 1); [|lia]. apply Z.div_lt_upper_bound; nia. }
  assert (FQ : fits t ((x + y - 1) / y)).
  { unfold fits in *. split; [|lia]. unfold imin. destruct (isigned t).
    - assert (0 <= 2 ^ (iwidth t - 1)) by (apply Z.pow_nonneg; lia). lia.
    - lia. }
  rewrite iarith_fits by (auto; apply fits_promote; auto). cbn [bind]. rewrite iconv_fits by auto.
  eexists. split; [reflexivity|].
  pose proof (Z.div_mod (x + y - 1) y ltac:(lia)). pose proof (Z.mod_pos_bound (x + y - 1) y ltac:(lia)).
  split; nia.
Qed.

(** Signed operands: the sum x + y itself must fit. *)
Lemma idiv_signed_overflow : forall t x y, isigned (promote t) = true -> ~ fits (promote t) (x + y) ->
  idiv t x y = UB.
Proof.
  intros t x y Hs F. unfold idiv, iarith at 1. rewrite Hs.
  destruct (fitsb (promote t) (x + y)) eqn:FB; auto.
  exfalso. apply F. unfold fitsb in FB. apply andb_prop in FB. destruct FB as [A B].
  apply Z.leb_le in A, B. split; auto.
Qed.

(** 8- and 16-bit operands are promoted to int: no restriction at all. *)
Lemma idiv_narrow : forall t x y, valid_ity t -> iwidth t < 32 -> fits t x -> fits t y -> 0 <= x -> 0 < y ->
  exists q, idiv t x y = Ok q /\ q * y >= x /\ (q - 1) * y < x.
Proof.
  intros t x y Hw H32 Fx Fy Hx Hy. apply idiv_ok; auto.
  unfold promote. destruct (Z.ltb_spec (iwidth t) 32); [|lia].
  unfold fits, imin, imax, int32 in *. simpl.
  assert (2 ^ iwidth t <= 2 ^ 16). { apply Z.pow_le_mono_r; [lia|]. destruct Hw as [|[|[|]]]; lia. }
  assert (2 ^ (iwidth t - 1) <= 2 ^ 16). { apply Z.pow_le_mono_r; [lia|]. destruct Hw as [|[|[|]]]; lia. }
  destruct (isigned t); simpl in *; lia.
Qed.

(** Unsigned wrap: the quotient is too small. *)
Lemma idiv_wrap : forall t x y, valid_ity t -> isigned t = false -> 32 <= iwidth t ->
  fits t x -> fits t y -> 0 < y -> 2 ^ iwidth t < x + y ->
  exists q, idiv t x y = Ok q /\ q * y < x.
Proof.
  intros t x y Hw Hs H32 Fx Fy Hy H.
  assert (PT : promote t = t). { unfold promote. destruct (Z.ltb_spec (iwidth t) 32); auto. lia. }
  assert (Fx' := Fx). assert (Fy' := Fy).
  unfold fits, imin, imax in Fx', Fy'. rewrite Hs in Fx', Fy'.
  unfold idiv, iarith. rewrite PT, Hs. cbn [bind]. unfold iconv. rewrite Hs.
  destruct (Z.eqb_spec y 0); [lia|].
  assert (E1 : (x + y) mod 2 ^ iwidth t = x + y - 2 ^ iwidth t).
  { symmetry. apply Z.mod_unique_pos with 1; lia. }
  rewrite E1. rewrite (Z.mod_small (x + y - 2 ^ iwidth t - 1)) by lia.
  rewrite Z.quot_div_nonneg by lia.
  set (s := x + y - 2 ^ iwidth t - 1).
  assert (0 <= s < 2 ^ iwidth t) by (unfold s; lia).
  assert (Q : 0 <= s / y <= s). { split. { apply Z.div_pos; lia. } apply Z.div_le_upper_bound; nia. }
  rewrite !(Z.mod_small (s / y)) by lia. eexists. split; [reflexivity|].
  pose proof (Z.div_mod s y ltac:(lia)). pose proof (Z.mod_pos_bound s y ltac:(lia)). unfold s in *. nia.
Qed.

(** ** is_even, is_odd *)
Lemma is_even_ok : forall x, is_even x = Z.even x /\ is_odd x = Z.odd x.
Proof.
  intros x. unfold is_even, is_odd. change 1 with (Z.ones 1). rewrite Z.land_ones by lia.
  change (2 ^ 1) with 2. rewrite Zmod_odd, <- Z.negb_odd. destruct (Z.odd x); auto.
Qed.
