(** C69: the SIMD batch types compute, lane by lane, the IEEE 754 operation of their element type. *)
From Coq Require Import Reals ZArith List Lia Lra.
From Flocq Require Import Core IEEE754.BinarySingleNaN.
From Verif Require Import Base.Outcome Base.OutcomeFacts Base.Alias Model.SimdBatch
  Spec.Rounding Spec.Batch Proof.SimdBatchProof.
Import ListNotations.
Local Open Scope R_scope.

(** float16x8 and float16x16, whose operators go through single precision, give in every lane and
    for every pair of operands — subnormals, signed zeros, infinities and NaN included — and in every
    rounding direction exactly the IEEE half-precision sum, difference and product. *)
Theorem C69_half8 : forall m,
  b_size (float16x8 m) = 8%nat /\
  lanewise 8 (Bplus m) (b_add (float16x8 m)) /\
  lanewise 8 (Bminus m) (b_sub (float16x8 m)) /\
  lanewise 8 (Bmult m) (b_mul (float16x8 m)).
Proof.
  intros m. cbn [b_size b_add b_sub b_mul float16x8]. split; [reflexivity|].
  split; [|split]; apply lanewise_zip; intros x y _ _.
  - exact (half8_op_zip m _ _ (half_add_lane m) x y).
  - exact (half8_op_zip m _ _ (half_sub_lane m) x y).
  - exact (half8_op_zip m _ _ (half_mul_lane m) x y).
Qed.

Theorem C69_half16 : forall m,
  b_size (float16x16 m) = 16%nat /\
  lanewise 16 (Bplus m) (b_add (float16x16 m)) /\
  lanewise 16 (Bminus m) (b_sub (float16x16 m)) /\
  lanewise 16 (Bmult m) (b_mul (float16x16 m)).
Proof.
  intros m. cbn [b_size b_add b_sub b_mul float16x16]. split; [reflexivity|].
  split; [|split]; apply lanewise_zip; intros x y Hx Hy.
  - exact (proj2 (half16_op_zip m _ _ (half_add_lane m) x y Hx Hy)).
  - exact (proj2 (half16_op_zip m _ _ (half_sub_lane m) x y Hx Hy)).
  - exact (proj2 (half16_op_zip m _ _ (half_mul_lane m) x y Hx Hy)).
Qed.

(** The single- and double-precision batches of the three instruction sets. *)
Theorem C69_single : forall m w B, In (w, B) [(4%nat, float32x4 m); (8%nat, float32x8 m); (16%nat, float32x16 m)] ->
  b_size B = w /\ lanewise w (Bplus m) (b_add B) /\ lanewise w (Bminus m) (b_sub B) /\
  lanewise w (Bmult m) (b_mul B).
Proof.
  intros m w B H. cbn [In] in H.
  destruct H as [H|[H|[H|[]]]]; injection H as <- <-; (split; [reflexivity|]);
    (split; [|split]); apply lanewise_zip; reflexivity.
Qed.

Theorem C69_double : forall m w B, In (w, B) [(2%nat, float64x2 m); (4%nat, float64x4 m); (8%nat, float64x8 m)] ->
  b_size B = w /\ lanewise w (Bplus m) (b_add B) /\ lanewise w (Bminus m) (b_sub B) /\
  lanewise w (Bmult m) (b_mul B).
Proof.
  intros m w B H. cbn [In] in H.
  destruct H as [H|[H|[H|[]]]]; injection H as <- <-; (split; [reflexivity|]);
    (split; [|split]); apply lanewise_zip; reflexivity.
Qed.

(** In real numbers: what the lanes hold after an operation on finite operands, rounding to nearest. *)
Theorem C69_value :
  (forall (a b d : f16) k x y B, In B [float16x8 mode_NE; float16x16 mode_NE] ->
     length x = b_size B -> length y = b_size B -> (k < b_size B)%nat ->
     a = nth k x d -> b = nth k y d -> is_finite a = true -> is_finite b = true ->
     let holds v r :=
       (Rabs (nearest 11 (-24) v) < 65536 -> is_finite r = true /\ B2R r = nearest 11 (-24) v) /\
       (65536 <= Rabs (nearest 11 (-24) v) -> r = B754_infinity (Rlt_bool v 0)) in
     holds (B2R a + B2R b) (nth k (b_add B x y) d) /\
     holds (B2R a - B2R b) (nth k (b_sub B x y) d) /\
     holds (B2R a * B2R b) (nth k (b_mul B x y) d)).
Proof.
  intros a b d k x y B HB Hx Hy Hk -> -> Fa Fb holds.
  assert (H : lanewise (b_size B) (Bplus mode_NE) (b_add B) /\ lanewise (b_size B) (Bminus mode_NE) (b_sub B) /\
              lanewise (b_size B) (Bmult mode_NE) (b_mul B)).
  { cbn [In] in HB. destruct HB as [<-|[<-|[]]].
    - destruct (C69_half8 mode_NE) as (-> & H). exact H.
    - destruct (C69_half16 mode_NE) as (-> & H). exact H. }
  destruct H as (H1 & H2 & H3).
  pose proof (proj2 (H1 x y Hx Hy) k d Hk) as E1. pose proof (proj2 (H2 x y Hx Hy) k d Hk) as E2.
  pose proof (proj2 (H3 x y Hx Hy) k d Hk) as E3.
  cut (holds (B2R (nth k x d) + B2R (nth k y d)) (Bplus mode_NE (nth k x d) (nth k y d)) /\
       holds (B2R (nth k x d) - B2R (nth k y d)) (Bminus mode_NE (nth k x d) (nth k y d)) /\
       holds (B2R (nth k x d) * B2R (nth k y d)) (Bmult mode_NE (nth k x d) (nth k y d))).
  { intros (G1 & G2 & G3).
    exact (conj (eq_ind_r (holds _) G1 E1) (conj (eq_ind_r (holds _) G2 E2) (eq_ind_r (holds _) G3 E3))). }
  subst holds. cbv beta. rewrite <- bp16.
  exact (conj (plus_rounds 11 16 _ _ _ _ Fa Fb)
    (conj (minus_rounds 11 16 _ _ _ _ Fa Fb) (mult_rounds 11 16 _ _ _ _ Fa Fb))).
Qed.

(** Sixteen halves in one float16x16 or in two float16x8: the same numbers. *)
Theorem C69_halves_agree : forall m x y, length x = 16%nat -> length y = 16%nat ->
  let lo v := firstn 8 v in
  let hi v := skipn 8 v in
  b_add (float16x16 m) x y = b_add (float16x8 m) (lo x) (lo y) ++ b_add (float16x8 m) (hi x) (hi y) /\
  b_sub (float16x16 m) x y = b_sub (float16x8 m) (lo x) (lo y) ++ b_sub (float16x8 m) (hi x) (hi y) /\
  b_mul (float16x16 m) x y = b_mul (float16x8 m) (lo x) (lo y) ++ b_mul (float16x8 m) (hi x) (hi y).
Proof.
  intros m x y Hx Hy lo hi. cbn [b_add b_sub b_mul float16x8 float16x16].
  pose proof (half8_op_zip m _ _ (half_add_lane m)) as A8. pose proof (half8_op_zip m _ _ (half_sub_lane m)) as S8.
  pose proof (half8_op_zip m _ _ (half_mul_lane m)) as M8.
  split; [|split].
  - etransitivity; [exact (proj1 (half16_op_zip m _ _ (half_add_lane m) x y Hx Hy))|].
    exact (f_equal2 (@app f16) (eq_sym (A8 _ _)) (eq_sym (A8 _ _))).
  - etransitivity; [exact (proj1 (half16_op_zip m _ _ (half_sub_lane m) x y Hx Hy))|].
    exact (f_equal2 (@app f16) (eq_sym (S8 _ _)) (eq_sym (S8 _ _))).
  - etransitivity; [exact (proj1 (half16_op_zip m _ _ (half_mul_lane m) x y Hx Hy))|].
    exact (f_equal2 (@app f16) (eq_sym (M8 _ _)) (eq_sym (M8 _ _))).
Qed.

(** load, operate, store: exactly the addressed elements of the output change, each to the operation
    of the two elements at its place; any access past the end of an array is undefined behaviour. *)
Theorem C69_memory : forall T (B : batch T) f op (x y out : list T) i,
  lanewise (b_size B) f op ->
  let run := (rx <- load B x i ;; ry <- load B y i ;; store B (op rx ry) out i) in
  ((i + b_size B <= length x)%nat -> (i + b_size B <= length y)%nat -> (i + b_size B <= length out)%nat ->
    exists out', run = Ok out' /\ length out' = length out /\
      forall j d, (j < length out)%nat ->
        nth j out' d = if ((i <=? j) && (j <? i + b_size B))%nat%bool then f (nth j x d) (nth j y d) else nth j out d) /\
  ((length x < i + b_size B)%nat \/ (length y < i + b_size B)%nat \/ (length out < i + b_size B)%nat -> run = UB).
Proof.
  intros T B f op x y out i Hop run. subst run. unfold load, store. split.
  - intros Hx Hy Ho. rewrite !slice_ok by lia. cbn [bind].
    replace (i + b_size B - i)%nat with (b_size B) by lia.
    set (rx := firstn (b_size B) (skipn i x)). set (ry := firstn (b_size B) (skipn i y)).
    assert (Lx : length rx = b_size B) by (unfold rx; rewrite firstn_length, skipn_length; lia).
    assert (Ly : length ry = b_size B) by (unfold ry; rewrite firstn_length, skipn_length; lia).
    destruct (Hop rx ry Lx Ly) as [Hl Hn].
    rewrite (firstn_all2 (n := b_size B) (op rx ry)) by lia.
    unfold splice. rewrite (proj2 (Nat.leb_le _ _)) by lia.
    eexists. split; [reflexivity|]. split.
    + rewrite !app_length, firstn_length, skipn_length. lia.
    + intros j d Hj. destruct ((i <=? j)%nat && (j <? i + b_size B)%nat)%bool eqn:E.
      * apply Bool.andb_true_iff in E. destruct E as [E1 E2]. apply Nat.leb_le in E1. apply Nat.ltb_lt in E2.
        rewrite app_nth2 by (rewrite firstn_length; lia). rewrite firstn_length.
        replace (Nat.min i (length out)) with i by lia.
        rewrite app_nth1 by lia. rewrite Hn by lia. unfold rx, ry.
        rewrite !nth_firstn_lt, !nth_skipn_add by lia. now replace (i + (j - i))%nat with j by lia.
      * apply Bool.andb_false_iff in E. destruct (Nat.lt_ge_cases j i) as [L|L].
        -- rewrite app_nth1 by (rewrite firstn_length; lia). apply nth_firstn_lt. lia.
        -- destruct E as [E|E]; [apply Nat.leb_gt in E; lia|]. apply Nat.ltb_ge in E.
           rewrite app_nth2 by (rewrite firstn_length; lia). rewrite firstn_length.
           replace (Nat.min i (length out)) with i by lia.
           rewrite app_nth2 by lia. rewrite Hl, nth_skipn_add. f_equal. lia.
  - intros H. unfold slice. 
    destruct (Nat.le_gt_cases (i + b_size B) (length x)) as [Hx|Hx].
    2:{ rewrite (proj2 (Nat.leb_gt (i + b_size B) (length x))) by lia. rewrite Bool.andb_false_r. reflexivity. }
    rewrite (proj2 (Nat.leb_le i (i + b_size B))) by lia. cbn [andb].
    rewrite (proj2 (Nat.leb_le (i + b_size B) (length x))) by lia. cbn [bind].
    destruct (Nat.le_gt_cases (i + b_size B) (length y)) as [Hy|Hy].
    2:{ rewrite (proj2 (Nat.leb_gt (i + b_size B) (length y))) by lia. reflexivity. }
    rewrite (proj2 (Nat.leb_le (i + b_size B) (length y))) by lia. cbn [bind].
    replace (i + b_size B - i)%nat with (b_size B) by lia.
    set (rx := firstn (b_size B) (skipn i x)). set (ry := firstn (b_size B) (skipn i y)).
    assert (Lx : length rx = b_size B) by (unfold rx; rewrite firstn_length, skipn_length; lia).
    assert (Ly : length ry = b_size B) by (unfold ry; rewrite firstn_length, skipn_length; lia).
    destruct (Hop rx ry Lx Ly) as [Hl _]. unfold splice. rewrite firstn_length, Hl.
    rewrite (proj2 (Nat.leb_gt _ _)) by lia. reflexivity.
Qed.

(** broadcast fills every lane. *)
Theorem C69_broadcast : forall T (B : batch T) v,
  length (broadcast B v) = b_size B /\ forall k d, (k < b_size B)%nat -> nth k (broadcast B v) d = v.
Proof.
  intros T B v. unfold broadcast. split; [apply repeat_length|].
  intros k d Hk. rewrite (nth_indep _ d v) by (rewrite repeat_length; lia). apply nth_repeat.
Qed.

(** Complex numbers over batches: every lane is the complex sum, difference and product of that lane. *)
Theorem C69_complex : forall T (B : batch T) add sub mul,
  lanewise (b_size B) add (b_add B) -> lanewise (b_size B) sub (b_sub B) -> lanewise (b_size B) mul (b_mul B) ->
  forall x y, length (fst x) = b_size B -> length (snd x) = b_size B ->
              length (fst y) = b_size B -> length (snd y) = b_size B ->
  forall k d, (k < b_size B)%nat ->
    let lane z := (nth k (fst z) d, nth k (snd z) d) in
    lane (sc_batch_add B x y) = (add (fst (lane x)) (fst (lane y)), add (snd (lane x)) (snd (lane y))) /\
    lane (sc_batch_sub B x y) = (sub (fst (lane x)) (fst (lane y)), sub (snd (lane x)) (snd (lane y))) /\
    lane (sc_batch_mul B x y) = complex_mul add sub mul (lane x) (lane y).
Proof.
  intros T B add sub mul Ha Hs Hm [xr xi] [yr yi] L1 L2 L3 L4 k d Hk lane. cbn [fst snd] in L1, L2, L3, L4.
  subst lane. unfold sc_batch_add, sc_batch_sub, sc_batch_mul, complex_mul. cbn [fst snd].
  destruct (Ha xr yr L1 L3) as [_ A1]. destruct (Ha xi yi L2 L4) as [_ A2].
  destruct (Hs xr yr L1 L3) as [_ S1]. destruct (Hs xi yi L2 L4) as [_ S2].
  destruct (Hm xr yr L1 L3) as [M1 N1]. destruct (Hm xi yi L2 L4) as [M2 N2].
  destruct (Hm xr yi L1 L4) as [M3 N3]. destruct (Hm xi yr L2 L3) as [M4 N4].
  destruct (Hs _ _ M1 M2) as [_ S3]. destruct (Ha _ _ M3 M4) as [_ A3].
  rewrite A1, A2, S1, S2, S3, A3, N1, N2, N3, N4 by auto. auto.
Qed.

(** The magnitude of a half-precision complex number is computed through single precision; it is the
    one computed in half precision throughout ... *)
Theorem C69_abs : forall m re im,
  complex32_abs m re im = Bsqrt m (Bplus m (Bmult m re re) (Bmult m im im)).
Proof. exact abs_is_half. Qed.

(** ... accurate to five units in 4096 for magnitudes from 1/64 to 254 ... *)
Theorem C69_abs_accurate : forall re im : f16, is_finite re = true -> is_finite im = true ->
  let z := sqrt (B2R re * B2R re + B2R im * B2R im) in
  1 / 64 <= z <= 254 ->
  is_finite (complex32_abs mode_NE re im) = true /\
  Rabs (B2R (complex32_abs mode_NE re im) - z) <= 5 / 4096 * z.
Proof. exact abs_mid. Qed.

(** ... but infinite as soon as one part reaches 256, although the numbers go up to 65504, ... *)
Theorem C69_abs_range_refuted : forall re im : f16, is_finite re = true -> is_finite im = true ->
  256 <= Rabs (B2R re) \/ 256 <= Rabs (B2R im) ->
  complex32_abs mode_NE re im = B754_infinity false.
Proof. exact abs_big. Qed.

(** ... and zero when both parts are at most 2^-13, although the numbers go down to 2^-24. *)
Theorem C69_abs_small_refuted : forall re im : f16, is_finite re = true -> is_finite im = true ->
  Rabs (B2R re) <= / 8192 -> Rabs (B2R im) <= / 8192 ->
  is_finite (complex32_abs mode_NE re im) = true /\ B2R (complex32_abs mode_NE re im) = 0.
Proof.
  intros re im Fr Fi Hr Hi. apply abs_small; auto; cbn [bpow]; change (Z.pow_pos radix2 13) with 8192%Z; auto.
Qed.

(** Instances: numbers as mantissa and exponent. *)
Definition hf (n e : Z) : f16 := binary_normalize 11 16 _ _ mode_NE n e false.

(** 2048 + 1 is a tie and stays 2048; 65504 + 16 overflows and 65504 + 15 does not; 2^-24 times one
    half is a tie that goes to zero and keeps its sign; inf - inf is NaN; 0.1 * 0.2 is rounded. *)
Example C69_instance_lanes :
  map B2SF (b_add (float16x8 mode_NE)
    [hf 2048 0; hf 65504 0; hf 65504 0; B754_infinity false; hf 3 0; hf (-1) 0; B754_zero true; B754_nan]
    [hf 1 0; hf 16 0; hf 15 0; B754_infinity true; hf 4 0; hf 1 0; B754_zero true; hf 1 0]) =
  [SpecFloat.S754_finite false 1024 1; SpecFloat.S754_infinity false; SpecFloat.S754_finite false 2047 5;
   SpecFloat.S754_nan; SpecFloat.S754_finite false 1792 (-8); SpecFloat.S754_zero false;
   SpecFloat.S754_zero true; SpecFloat.S754_nan] /\
  map B2SF (b_mul (float16x8 mode_NE)
    [hf (-1) (-24); hf 1639 (-14); hf 1 (-24); hf 300 0; hf 3 0; hf 1 0; hf 2 0; B754_zero false]
    [hf 1 (-1); hf 1639 (-13); hf 3 (-2); hf 300 0; hf 5 0; hf 1 0; hf 3 0; B754_infinity false]) =
  [SpecFloat.S754_zero true; SpecFloat.S754_finite false 1312 (-16); SpecFloat.S754_finite false 1 (-24);
   SpecFloat.S754_infinity false; SpecFloat.S754_finite false 1920 (-7); SpecFloat.S754_finite false 1024 (-10);
   SpecFloat.S754_finite false 1536 (-8); SpecFloat.S754_nan].
Proof. split; vm_compute; reflexivity. Qed.

(** abs(3 + 4i) = 5, abs(300 + 400i) = inf, abs of 2^-13 (1 + i) = 0. *)
Example C69_instance_abs :
  B2SF (complex32_abs mode_NE (hf 3 0) (hf 4 0)) = SpecFloat.S754_finite false 1280 (-8) /\
  B2SF (complex32_abs mode_NE (hf 300 0) (hf 400 0)) = SpecFloat.S754_infinity false /\
  B2SF (complex32_abs mode_NE (hf 1 (-13)) (hf 1 (-13))) = SpecFloat.S754_zero false.
Proof. repeat split; vm_compute; reflexivity. Qed.

(** A sum of two batches written into the middle of a longer array. *)
Example C69_instance_memory :
  (rx <- load (float16x8 mode_NE) (map (fun n => hf n 0) [9; 1; 2; 3; 4; 5; 6; 7; 8; 9]%Z) 1 ;;
   ry <- load (float16x8 mode_NE) (map (fun n => hf n 0) [0; 1; 1; 1; 1; 1; 1; 1; 1; 1]%Z) 1 ;;
   out <- store (float16x8 mode_NE) (b_add (float16x8 mode_NE) rx ry) (repeat (B754_zero false) 10) 1 ;;
   Ok (map B2SF out)) =
  Ok (map (fun n => B2SF (hf n 0)) [0; 2; 3; 4; 5; 6; 7; 8; 9; 0]%Z).
Proof. vm_compute. reflexivity. Qed.

Print Assumptions C69_half8.
Print Assumptions C69_half16.
Print Assumptions C69_single.
Print Assumptions C69_double.
Print Assumptions C69_value.
Print Assumptions C69_halves_agree.
Print Assumptions C69_memory.
Print Assumptions C69_broadcast.
Print Assumptions C69_complex.
Print Assumptions C69_abs.
Print Assumptions C69_abs_accurate.
Print Assumptions C69_abs_range_refuted.
Print Assumptions C69_abs_small_refuted.
