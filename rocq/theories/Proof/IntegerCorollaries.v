(** Statements of C01-C09 in final form. *)
From Coq Require Import ZArith List Bool Lia Arith Reals.
From Verif Require Import Base.Outcome Base.OutcomeFacts Base.Alias.
From Verif Require Import Model.Fft2 Model.Integers Model.FixedPoint Model.Simd.
From Verif Require Import Proof.IntegersProof Proof.FixedProof Proof.FixedFloat.
Import ListNotations.
Local Open Scope Z_scope.

Lemma fft_size_ok : forall t k, valid_ity t -> 0 <= k -> fits t (2 ^ k) -> fft_size t k = Ok (2 ^ k).
Proof.
  intros t k V Hk H. unfold fft_size. apply ipow_const_ok; auto.
  unfold fits, imin, imax. destruct (isigned t).
  - assert (2 ^ 2 <= 2 ^ (iwidth t - 1)); [|lia]. apply Z.pow_le_mono_r; [lia|]. destruct V as [V|[V|[V|V]]]; rewrite V; lia.
  - assert (2 ^ 2 <= 2 ^ iwidth t); [|lia]. apply Z.pow_le_mono_r; [lia|]. destruct V as [V|[V|[V|V]]]; rewrite V; lia.
Qed.

Lemma order_size_inverse : forall k, (k < 64)%nat ->
  fft_size (Ity 64 false) (Z.of_nat k) = Ok (2 ^ Z.of_nat k) /\
  next_order (Z.to_nat (2 ^ Z.of_nat k)) = Ok k.
Proof.
  intros k Hk. split.
  - apply fft_size_ok.
    + unfold valid_ity, std_width. simpl. auto.
    + lia.
    + unfold fits, imin, imax. cbn [isigned iwidth]. split. { apply Z.pow_nonneg; lia. }
      assert (2 ^ Z.of_nat k < 2 ^ 64); [|lia]. apply Z.pow_lt_mono_r; lia.
  - rewrite next_order_ok.
    + f_equal. replace (Z.to_nat (2 ^ Z.of_nat k)) with (2 ^ k)%nat.
      * apply Nat.log2_up_pow2. lia.
      * apply Nat2Z.inj. rewrite Z2Nat.id by (apply Z.pow_nonneg; lia). rewrite Nat2Z.inj_pow. auto.
    + rewrite Z2Nat.id by (apply Z.pow_nonneg; lia). apply Z.pow_le_mono_r; lia.
Qed.

Lemma bit_log2_floor : forall x, (1 <= x)%nat ->
  exists k, bit_log2 x = Ok k /\ (2 ^ k <= x < 2 ^ (k + 1))%nat.
Proof.
  intros x Hx. exists (Nat.log2 x). split. apply bit_log2_ok.
  rewrite Nat.add_1_r. apply Nat.log2_spec. lia.
Qed.

(** Overflowing shifts do not all stop: some exponents give a wrong value. *)
Lemma ipow_shift_wrong_value :
  ipow_const int32 2 31 = Ok (-2147483648) /\ ipow int32 2 31 = UB /\
  (forall e, 8 <= e < 32 -> ipow_const (Ity 8 false) 2 e = Ok 0).
Proof.
  split; [reflexivity|]. split.
  - apply ipow_overflow; try reflexivity; try (unfold fits, imin, imax; simpl; lia); try (simpl; lia).
    unfold valid_ity, std_width; simpl; auto.
  - intros e He.
    assert (C : e = 8 \/ e = 9 \/ e = 10 \/ e = 11 \/ e = 12 \/ e = 13 \/ e = 14 \/ e = 15 \/ e = 16 \/ e = 17 \/
      e = 18 \/ e = 19 \/ e = 20 \/ e = 21 \/ e = 22 \/ e = 23 \/ e = 24 \/ e = 25 \/ e = 26 \/ e = 27 \/
      e = 28 \/ e = 29 \/ e = 30 \/ e = 31) by lia.
    repeat (destruct C as [->|C]; [reflexivity|]). subst. reflexivity.
Qed.

Lemma fp_mul_error : forall t F a b, narrow t -> 0 <= F -> fits t a -> fits t b ->
  imin t <= a * b / 2 ^ F <= imax t ->
  exists r, fp_mul t F a b = Ok r /\
    (0 <= (IZR a / IZR (2 ^ F)) * (IZR b / IZR (2 ^ F)) - IZR r / IZR (2 ^ F) < / IZR (2 ^ F))%R.
Proof.
  intros t F a b Hn HF Ha Hb H. exists (a * b / 2 ^ F). split.
  - rewrite fp_mul_ok by auto. f_equal. unfold sat. lia.
  - apply mul_error; auto.
Qed.

Lemma fp_mul_frac : forall t a b, narrow t -> fits t a -> fits t b ->
  fp_mul t (iwidth t - 1) a b =
  Ok (if (a =? imin t) && (b =? imin t) then imax t else a * b / 2 ^ (iwidth t - 1)).
Proof.
  intros t a b Hn Ha Hb. rewrite fp_mul_ok; auto. 2:{ destruct Hn as [->| ->]; simpl; lia. }
  f_equal. pose proof (fp_mul_low t a b Hn Ha Hb). unfold sat.
  destruct (Z.eqb_spec a (imin t)); [destruct (Z.eqb_spec b (imin t))|]; cbn [andb].
  - subst. destruct Hn as [->| ->]; reflexivity.
  - destruct (fp_mul_clamps t a b Hn Ha Hb) as [G|[G1 G2]]; [lia|congruence].
  - destruct (fp_mul_clamps t a b Hn Ha Hb) as [G|[G1 G2]]; [lia|congruence].
Qed.

(** The range never has to be left: results are again stored values. *)
Lemma fp_closed : forall t F a b, narrow t -> 0 <= F -> fits t a -> fits t b ->
  (exists r, fp_add t a b = Ok r /\ fits t r) /\ (exists r, fp_sub t a b = Ok r /\ fits t r) /\
  (exists r, fp_neg t a = Ok r /\ fits t r) /\ (exists r, fp_mul t F a b = Ok r /\ fits t r).
Proof.
  intros t F a b Hn HF Ha Hb.
  rewrite fp_add_ok, fp_sub_ok, fp_neg_ok, fp_mul_ok by auto.
  repeat split; eexists; (split; [reflexivity|apply sat_fits; auto]).
Qed.

Lemma fpc_mul_ignores : forall l c d d', fits int16 (fst l) -> fits int16 (snd l) -> fits int16 c ->
  fpc_mul int16 l (c, d) = fpc_mul int16 l (c, d').
Proof. intros. rewrite !fpc_mul_actual by auto. reflexivity. Qed.

Lemma fpc_mul_wide_ub : forall l r, fpc_mul int32 l r = UB.
Proof. reflexivity. Qed.

(** The product of a complex number with a real one is a quarter of what it should be, up to
    rounding, when the left imaginary part is 0; with (a,0)*(c,d), d <> 0, the imaginary part is lost. *)
Lemma fpc_mul_real : forall a c d, fits int16 a -> fits int16 c ->
  fpc_mul int16 (a, 0) (c, d) = Ok ((a * c) / 2 ^ 15 / 4, 0).
Proof.
  intros. rewrite fpc_mul_actual; auto.
  - simpl fst. simpl snd. rewrite !Z.mul_0_r, Z.mul_0_l. rewrite Z.div_div by lia. f_equal. f_equal. 
    change (2 ^ 15 * 4) with (2 ^ 17). change (0 / 2 ^ 17) with 0. lia.
  - unfold fits, imin, imax. simpl. lia.
Qed.

(** Multiplication on SSE4.1 is not the scalar operator. *)
Lemma sse41_q7_wrong : forall a b, fits int8 a -> fits int8 b -> a * b < 0 ->
  array_multiply Sse41 int8 7 (Other (repeat a 16)) (Other (repeat b 16)) (repeat 0 16) = Ok (repeat 127 16) /\
  exists r, fp_mul int8 7 a b = Ok r /\ r < 0.
Proof.
  intros a b Ha Hb H. split.
  - rewrite (sse41_mul_s8 7 _ _ _ 16); cbn [contents]; try reflexivity; try lia.
    + f_equal. apply (nth_ext _ _ 0 0).
      * rewrite tab_length, repeat_length. auto.
      * intros k Hk. rewrite tab_length in Hk. rewrite nth_tab by auto. cbv zeta.
        assert (E : forall v : Z, nth k (repeat v 16) 0 = v).
        { intros v. apply (repeat_spec 16 v). apply nth_In. rewrite repeat_length. auto. }
        rewrite !E. change (16 mod 16)%nat with 0%nat. change (k <? 0)%nat with false. cbv iota.
        apply Z.ltb_lt in H. rewrite H. auto.
    + intros z Hz. apply repeat_spec in Hz. subst; auto.
    + intros z Hz. apply repeat_spec in Hz. subst; auto.
  - rewrite fp_mul_ok; auto; try lia. 2:{ left; auto. } eexists. split; [reflexivity|].
    unfold sat. assert (a * b / 2 ^ 7 < 0) by (apply Z.div_lt_upper_bound; lia).
    unfold imin, imax; simpl. lia.
Qed.

(** q15 on SSE4.1: off by at most one unit, except min * min. *)
Lemma sse41_q15_error : forall lhs rhs out n, length out = n ->
  length (contents lhs out) = n -> length (contents rhs out) = n ->
  all_fit int16 (contents lhs out) -> all_fit int16 (contents rhs out) ->
  exists y, array_multiply Sse41 int16 15 lhs rhs out = Ok y /\ length y = n /\
    forall k, (k < n)%nat ->
      let a := nth k (contents lhs out) 0 in let b := nth k (contents rhs out) 0 in
      ~ (a = -32768 /\ b = -32768) ->
      exists r, fp_mul int16 15 a b = Ok r /\ r <= nth k y 0 <= r + 1.
Proof.
  intros lhs rhs out n Ho Hl Hr Fl Fr. eexists. split.
  { rewrite (sse41_mul_s16 15 lhs rhs out n); auto; lia. }
  split. { apply tab_length. }
  intros k Hk. cbv zeta. intros Hne. rewrite nth_tab by auto. cbv zeta.
  set (a := nth k (contents lhs out) 0) in *. set (b := nth k (contents rhs out) 0) in *.
  assert (Ha : fits int16 a) by (apply Fl; apply nth_In; lia).
  assert (Hb : fits int16 b) by (apply Fr; apply nth_In; lia).
  assert (N : narrow int16) by (right; auto).
  rewrite (fp_mul_frac int16 a b N Ha Hb : fp_mul int16 15 a b = _).
  pose proof (fp_mul_low int16 a b N Ha Hb) as Lo. change (2 ^ (iwidth int16 - 1)) with 32768 in *.
  change (2 ^ 15) with 32768. change (imin int16) with (-32768) in *. change (imax int16) with 32767.
  destruct ((a =? -32768) && (b =? -32768)) eqn:E.
  - exfalso. apply andb_prop in E. destruct E as [E1 E2]. apply Z.eqb_eq in E1, E2. apply Hne. auto.
  - eexists. split; [reflexivity|].
    assert (Hi : a * b / 32768 <= 32767).
    { destruct (fp_mul_clamps int16 a b N Ha Hb) as [G|G]; auto. exfalso. apply Hne. auto. }
    destruct (k <? n mod 8)%nat.
    + unfold sat. change (imin int16) with (-32768). change (imax int16) with 32767. lia.
    + change (15 =? 15) with true. cbv iota. pose proof (Z.div_mod (a * b) 32768 ltac:(lia)).
      pose proof (Z.mod_pos_bound (a * b) 32768 ltac:(lia)).
      split.
      * apply Z.div_le_mono; lia.
      * replace (a * b / 32768 + 1) with ((a * b + 1 * 32768) / 32768) by (rewrite Z.div_add; lia).
        apply Z.div_le_mono; lia.
Qed.

(** The loop structure for any lane function: C56. *)
Lemma apply_kernel_pointwise : forall vs (f : Z -> Z -> Z) lhs rhs out n,
  (0 < vs)%nat -> length out = n -> length (contents lhs out) = n -> length (contents rhs out) = n ->
  apply_kernel vs (fun a b => Ok (f a b)) (zip_with f) lhs rhs out = Ok (zip_with f (contents lhs out) (contents rhs out)).
Proof.
  intros vs f lhs rhs out n Hv Ho Hl Hr.
  rewrite (apply_kernel_ok vs _ f (zip_with f) f lhs rhs out n); auto.
  - rewrite (zip_with_tab _ _ _ f (contents lhs out) (contents rhs out) 0 0) by lia. rewrite Hl. f_equal.
    apply tab_ext. intros i Hi. destruct (i <? n mod vs)%nat; auto.
  - intros l r _ _. auto.
Qed.
