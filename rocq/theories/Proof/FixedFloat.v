(** Conversions between binary32 floats and fixed-point numbers. *)
From Coq Require Import ZArith List Bool Reals Lia Lra Psatz.
From Flocq Require Import Core.
From Verif Require Import Base.Outcome Model.Integers Model.FixedPoint Proof.IntegersProof Proof.FixedProof.
Local Open Scope R_scope.

Local Instance prec24 : Prec_gt_0 24 := eq_refl.
Notation fexp32 := (FLT_exp (-149) 24).

Lemma fitsb_spec : forall t v, fitsb t v = true <-> fits t v.
Proof. intros. unfold fitsb, fits. rewrite andb_true_iff, !Z.leb_le. tauto. Qed.

(** A real that is a binary32 number (unbounded above). *)
Definition float32 (x : R) : Prop := generic_format radix2 fexp32 x.

Lemma rnd32_id : forall x, float32 x -> rnd32 x = x.
Proof. intros. apply round_generic; auto with typeclass_instances. Qed.

Lemma rnd32_float32 : forall x, float32 (rnd32 x).
Proof. intros. apply generic_format_round; auto with typeclass_instances. Qed.

Lemma rnd32_le : forall x y, x <= y -> rnd32 x <= rnd32 y.
Proof. intros. apply round_le; auto with typeclass_instances. Qed.

Lemma float32_scaled : forall m e, (Z.abs m < 2 ^ 24)%Z -> (-149 <= e)%Z -> float32 (IZR m * bpow radix2 e).
Proof.
  intros m e Hm He. apply generic_format_FLT. exists (Float radix2 m e); auto.
Qed.

Lemma bpow_IZR : forall F, (0 <= F)%Z -> bpow radix2 F = IZR (2 ^ F).
Proof. intros. rewrite <- IZR_Zpower by auto. reflexivity. Qed.

Lemma scale32_ok : forall F, (0 <= F)%Z -> scale32 F = bpow radix2 F.
Proof.
  intros F H. unfold scale32. rewrite <- bpow_IZR by auto. apply rnd32_id.
  rewrite <- (Rmult_1_l (bpow radix2 F)). apply (float32_scaled 1); lia.
Qed.

Lemma inv_scale32_ok : forall F, (0 <= F <= 149)%Z -> inv_scale32 F = bpow radix2 (- F).
Proof.
  intros F H. unfold inv_scale32. rewrite scale32_ok by lia.
  replace (1 / bpow radix2 F) with (1 * bpow radix2 (- F)).
  - rewrite Rmult_1_l. apply rnd32_id. rewrite <- (Rmult_1_l (bpow radix2 (- F))). apply (float32_scaled 1); lia.
  - rewrite bpow_opp. unfold Rdiv. auto.
Qed.

Lemma float32_times_pow : forall x F, (0 <= F)%Z -> float32 x -> float32 (x * bpow radix2 F).
Proof.
  intros x F HF Hx. apply FLT_format_generic in Hx; auto with typeclass_instances.
  destruct Hx as [f Hf Hm He]. rewrite Hf. unfold F2R. rewrite Rmult_assoc, <- bpow_plus.
  apply float32_scaled; auto. simpl in He. lia.
Qed.

Lemma fp_to_float_ok : forall F a, (0 <= F <= 149)%Z -> (Z.abs a < 2 ^ 24)%Z ->
  fp_to_float F a = IZR a * bpow radix2 (- F).
Proof.
  intros F a HF Ha. unfold fp_to_float. rewrite inv_scale32_ok by auto.
  rewrite (rnd32_id (IZR a)).
  - apply rnd32_id. apply float32_scaled; lia.
  - rewrite <- (Rmult_1_r (IZR a)). change 1 with (bpow radix2 0). apply float32_scaled; lia.
Qed.

Lemma fp_of_float_ok : forall t F val, narrow t -> (0 <= F)%Z ->
  fp_of_float t F val =
  let v := Ztrunc (rnd32 val * IZR (2 ^ F)) in
  if fitsb int32 v then Ok (sat t v) else UB.
Proof.
  intros t F val Hn HF. unfold fp_of_float. cbv zeta. rewrite scale32_ok by auto.
  rewrite (rnd32_id (rnd32 val * bpow radix2 F)).
  2:{ apply float32_times_pow; auto. apply rnd32_float32. }
  rewrite bpow_IZR by auto.
  destruct (fitsb int32 _) eqn:E; auto. apply saturate_ok; auto. apply fitsb_spec. auto.
Qed.

Lemma fp_roundtrip : forall t F a, narrow t -> (0 <= F <= 30)%Z -> fits t a ->
  fp_of_float t F (fp_to_float F a) = Ok a.
Proof.
  intros t F a Hn HF Ha. assert (B := narrow_bounds t a Hn Ha).
  rewrite fp_of_float_ok by (auto; lia). rewrite fp_to_float_ok by lia. cbv zeta.
  rewrite rnd32_id by (apply float32_scaled; lia).
  replace (IZR a * bpow radix2 (- F) * IZR (2 ^ F)) with (IZR a).
  2:{ rewrite <- bpow_IZR by lia. rewrite Rmult_assoc, <- bpow_plus. replace (- F + F)%Z with 0%Z by lia. simpl. ring. }
  rewrite Ztrunc_IZR.
  assert (G : fits int32 a) by (apply fits32; lia). apply fitsb_spec in G. rewrite G. f_equal.
  unfold sat, fits in *. lia.
Qed.

Lemma Ztrunc_error : forall x, Rabs (IZR (Ztrunc x) - x) < 1.
Proof.
  intros x. unfold Ztrunc. destruct (Rlt_bool_spec x 0).
  - pose proof (Zceil_ub x). pose proof (Zceil_lb x). apply Rabs_def1; lra.
  - pose proof (Zfloor_lb x). pose proof (Zfloor_ub x). apply Rabs_def1; lra.
Qed.

(** In range, the result is the scaled value truncated towards zero. *)
Lemma fp_of_float_exact : forall t F val, narrow t -> (0 <= F <= 30)%Z -> float32 val ->
  IZR (imin t) <= val * IZR (2 ^ F) <= IZR (imax t) ->
  exists a, fp_of_float t F val = Ok a /\ fits t a /\ a = Ztrunc (val * IZR (2 ^ F)) /\
    Rabs (IZR a * / IZR (2 ^ F) - val) < / IZR (2 ^ F).
Proof.
  intros t F val Hn HF Hv Hr. rewrite fp_of_float_ok by (auto; lia). rewrite (rnd32_id val) by auto. cbv zeta.
  set (y := val * IZR (2 ^ F)) in *. exists (Ztrunc y).
  assert (B : (imin t <= Ztrunc y <= imax t)%Z).
  { split.
    - rewrite <- (Ztrunc_IZR (imin t)). apply Ztrunc_le. lra.
    - rewrite <- (Ztrunc_IZR (imax t)). apply Ztrunc_le. lra. }
  assert (P : 0 < IZR (2 ^ F)) by (apply IZR_lt; apply Z.pow_pos_nonneg; lia).
  assert (Fi : fits t (Ztrunc y)) by (unfold fits; lia).
  assert (G : fits int32 (Ztrunc y)). { apply fits32. pose proof (narrow_bounds t _ Hn Fi). lia. }
  apply fitsb_spec in G. rewrite G. split.
  - f_equal. unfold sat. lia.
  - split; auto. split; auto.
    replace (IZR (Ztrunc y) * / IZR (2 ^ F) - val) with ((IZR (Ztrunc y) - y) * / IZR (2 ^ F)).
    2:{ unfold y. field. lra. }
    rewrite Rabs_mult. rewrite (Rabs_pos_eq (/ IZR (2 ^ F))) by (left; apply Rinv_0_lt_compat; auto).
    rewrite <- (Rmult_1_l (/ IZR (2 ^ F))) at 2. apply Rmult_lt_compat_r.
    + apply Rinv_0_lt_compat; auto.
    + apply Ztrunc_error.
Qed.

(** Saturation at both ends, for any input (a double is first rounded to float). *)
Lemma fp_of_float_high : forall t F val, narrow t -> (0 <= F <= 30)%Z ->
  IZR (imax t) <= rnd32 val * IZR (2 ^ F) < IZR (2 ^ 31) -> fp_of_float t F val = Ok (imax t).
Proof.
  intros t F val Hn HF [H1 H2]. rewrite fp_of_float_ok by (auto; lia). cbv zeta.
  set (y := rnd32 val * IZR (2 ^ F)) in *.
  assert (B1 : (imax t <= Ztrunc y)%Z) by (rewrite <- (Ztrunc_IZR (imax t)); apply Ztrunc_le; auto).
  assert (M : (imin t <= imax t /\ 0 <= imax t)%Z) by (destruct Hn as [->| ->]; unfold imin, imax; simpl; lia).
  assert (B2 : (Ztrunc y < 2 ^ 31)%Z).
  { apply lt_IZR. pose proof (IZR_le _ _ (proj2 M)). rewrite Ztrunc_floor by lra. pose proof (Zfloor_lb y). lra. }
  assert (G : fits int32 (Ztrunc y)). { apply fits32. lia. }
  apply fitsb_spec in G. rewrite G. f_equal. unfold sat. lia.
Qed.

Lemma fp_of_float_low : forall t F val, narrow t -> (0 <= F <= 30)%Z ->
  IZR (- 2 ^ 31 - 1) < rnd32 val * IZR (2 ^ F) <= IZR (imin t) -> fp_of_float t F val = Ok (imin t).
Proof.
  intros t F val Hn HF [H1 H2]. rewrite fp_of_float_ok by (auto; lia). cbv zeta.
  set (y := rnd32 val * IZR (2 ^ F)) in *.
  assert (B1 : (Ztrunc y <= imin t)%Z) by (rewrite <- (Ztrunc_IZR (imin t)); apply Ztrunc_le; auto).
  assert (M : (imin t <= imax t /\ imin t <= 0)%Z) by (destruct Hn as [->| ->]; unfold imin, imax; simpl; lia).
  assert (B2 : (- 2 ^ 31 - 1 < Ztrunc y)%Z).
  { apply lt_IZR. pose proof (IZR_le _ _ (proj2 M)). rewrite Ztrunc_ceil by lra. pose proof (Zceil_ub y). lra. }
  assert (G : fits int32 (Ztrunc y)). { apply fits32. lia. }
  apply fitsb_spec in G. rewrite G. f_equal. unfold sat. lia.
Qed.

Lemma fp_of_float_ub : forall t F val, narrow t -> (0 <= F <= 30)%Z ->
  (IZR (2 ^ 31) <= rnd32 val * IZR (2 ^ F) \/ rnd32 val * IZR (2 ^ F) <= IZR (- 2 ^ 31 - 1)) ->
  fp_of_float t F val = UB.
Proof.
  intros t F val Hn HF H. rewrite fp_of_float_ok by (auto; lia). cbv zeta.
  set (y := rnd32 val * IZR (2 ^ F)) in *.
  destruct (fitsb int32 (Ztrunc y)) eqn:E; auto. exfalso. apply fitsb_spec in E.
  unfold fits, imin, imax in E. simpl in E.
  destruct H as [H|H]; apply Ztrunc_le in H; rewrite Ztrunc_IZR in H; lia.
Qed.

(** The conversion never decreases. *)
Lemma fp_of_float_monotone : forall t F x y a b, narrow t -> (0 <= F <= 30)%Z -> x <= y ->
  fp_of_float t F x = Ok a -> fp_of_float t F y = Ok b -> (a <= b)%Z.
Proof.
  intros t F x y a b Hn HF Hxy. rewrite !fp_of_float_ok by (auto; lia). cbv zeta.
  assert (T : (Ztrunc (rnd32 x * IZR (2 ^ F)) <= Ztrunc (rnd32 y * IZR (2 ^ F)))%Z).
  { apply Ztrunc_le. apply Rmult_le_compat_r. apply IZR_le. apply Z.pow_nonneg; lia. apply rnd32_le; auto. }
  destruct (fitsb int32 (Ztrunc (rnd32 x * IZR (2 ^ F)))); [|discriminate].
  destruct (fitsb int32 (Ztrunc (rnd32 y * IZR (2 ^ F)))); [|discriminate].
  intros H1 H2. inversion H1. inversion H2. unfold sat. lia.
Qed.

(** Comparisons of stored values are comparisons of the represented numbers. *)
Lemma fp_compare : forall F a b, (0 <= F)%Z ->
  (fp_lt a b = true <-> IZR a * / IZR (2 ^ F) < IZR b * / IZR (2 ^ F)) /\
  (fp_le a b = true <-> IZR a * / IZR (2 ^ F) <= IZR b * / IZR (2 ^ F)) /\
  (fp_eq a b = true <-> IZR a * / IZR (2 ^ F) = IZR b * / IZR (2 ^ F)).
Proof.
  intros F a b HF. unfold fp_lt, fp_le, fp_eq.
  assert (P : 0 < / IZR (2 ^ F)) by (apply Rinv_0_lt_compat; apply IZR_lt; apply Z.pow_pos_nonneg; lia).
  rewrite Z.ltb_lt, Z.leb_le, Z.eqb_eq. repeat split; intros H.
  - apply Rmult_lt_compat_r; auto. apply IZR_lt; auto.
  - apply lt_IZR. apply Rmult_lt_reg_r in H; auto.
  - apply Rmult_le_compat_r. lra. apply IZR_le; auto.
  - apply le_IZR. apply Rmult_le_reg_r in H; auto.
  - subst; auto.
  - apply eq_IZR. apply Rmult_eq_reg_r in H; auto. lra.
Qed.

(** Exact product error, in real numbers. *)
Lemma mul_error : forall F a b, (0 <= F)%Z ->
  0 <= (IZR a / IZR (2 ^ F)) * (IZR b / IZR (2 ^ F)) - IZR (a * b / 2 ^ F) / IZR (2 ^ F) < / IZR (2 ^ F).
Proof.
  intros F a b HF. assert (Q : (0 < 2 ^ F)%Z) by (apply Z.pow_pos_nonneg; lia).
  assert (P : 0 < IZR (2 ^ F)) by (apply IZR_lt; auto).
  pose proof (Z.div_mod (a * b) (2 ^ F) ltac:(lia)) as E. pose proof (Z.mod_pos_bound (a * b) (2 ^ F) Q) as M.
  set (q := (a * b / 2 ^ F)%Z) in *. set (r := ((a * b) mod 2 ^ F)%Z) in *.
  replace (IZR a / IZR (2 ^ F) * (IZR b / IZR (2 ^ F)) - IZR q / IZR (2 ^ F))
    with (IZR r * / (IZR (2 ^ F) * IZR (2 ^ F))).
  2:{ assert (E' : IZR a * IZR b = IZR (2 ^ F) * IZR q + IZR r) by (rewrite <- !mult_IZR, <- plus_IZR; f_equal; auto).
      apply (Rmult_eq_reg_r (IZR (2 ^ F) * IZR (2 ^ F))).
      2:{ apply Rmult_integral_contrapositive; lra. }
      rewrite Rmult_assoc, Rinv_l by (apply Rmult_integral_contrapositive; lra).
      transitivity (IZR a * IZR b - IZR (2 ^ F) * IZR q). { rewrite E'. ring. } field. lra. }
  assert (M1 : 0 <= IZR r) by (apply IZR_le; lia). assert (M2 : IZR r < IZR (2 ^ F)) by (apply IZR_lt; lia).
  assert (PP : 0 < / (IZR (2 ^ F) * IZR (2 ^ F))) by (apply Rinv_0_lt_compat; nra).
  split. { nra. }
  replace (/ IZR (2 ^ F)) with (IZR (2 ^ F) * / (IZR (2 ^ F) * IZR (2 ^ F))) by (field; lra).
  apply Rmult_lt_compat_r; auto.
Qed.
