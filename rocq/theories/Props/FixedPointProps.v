(** Property theorems C05-C09, C56: fixed-point numbers and their array kernels.
    A number is its stored integer a, standing for a / 2^F.  int8 and int16 are the
    storage types of q7 and q15; [fits t v] says v is in the range [imin t .. imax t]. *)
From Coq Require Import ZArith List Bool Lia Arith Reals.
From Flocq Require Import Core.
From Verif Require Import Base.Outcome Base.OutcomeFacts Base.Alias Model.Integers Model.FixedPoint Model.Simd.
From Verif Require Import Proof.FixedProof Proof.FixedFloat Proof.IntegerCorollaries.
Import ListNotations.
Local Open Scope Z_scope.

(** C05. *)
Theorem C05_saturating_add : forall t a b, t = int8 \/ t = int16 -> fits t a -> fits t b ->
  fp_add t a b = Ok (Z.max (imin t) (Z.min (imax t) (a + b))).
Proof. exact fp_add_ok. Qed.

Theorem C05_saturating_sub : forall t a b, t = int8 \/ t = int16 -> fits t a -> fits t b ->
  fp_sub t a b = Ok (Z.max (imin t) (Z.min (imax t) (a - b))).
Proof. exact fp_sub_ok. Qed.

Theorem C05_saturating_neg : forall t a, t = int8 \/ t = int16 -> fits t a ->
  fp_neg t a = Ok (Z.max (imin t) (Z.min (imax t) (- a))).
Proof. exact fp_neg_ok. Qed.

Theorem C05_results_in_range : forall t F a b, t = int8 \/ t = int16 -> 0 <= F -> fits t a -> fits t b ->
  (exists r, fp_add t a b = Ok r /\ fits t r) /\ (exists r, fp_sub t a b = Ok r /\ fits t r) /\
  (exists r, fp_neg t a = Ok r /\ fits t r) /\ (exists r, fp_mul t F a b = Ok r /\ fits t r).
Proof. exact fp_closed. Qed.

Theorem C05_comparisons : forall F a b, 0 <= F ->
  (fp_lt a b = true <-> (IZR a * / IZR (2 ^ F) < IZR b * / IZR (2 ^ F))%R) /\
  (fp_le a b = true <-> (IZR a * / IZR (2 ^ F) <= IZR b * / IZR (2 ^ F))%R) /\
  (fp_eq a b = true <-> (IZR a * / IZR (2 ^ F) = IZR b * / IZR (2 ^ F))%R).
Proof. exact fp_compare. Qed.

Example C05_example : fp_add int8 100 100 = Ok 127 /\ fp_sub int16 (-30000) 10000 = Ok (-32768) /\
  fp_neg int8 (-128) = Ok 127 /\ fp_add int8 (-100) 30 = Ok (-70).
Proof. repeat split. Qed.

(** C06. *)
Theorem C06_multiply : forall t F a b, t = int8 \/ t = int16 -> 0 <= F -> fits t a -> fits t b ->
  fp_mul t F a b = Ok (Z.max (imin t) (Z.min (imax t) (a * b / 2 ^ F))).
Proof. exact fp_mul_ok. Qed.

Theorem C06_multiply_error : forall t F a b, t = int8 \/ t = int16 -> 0 <= F -> fits t a -> fits t b ->
  imin t <= a * b / 2 ^ F <= imax t ->
  exists r, fp_mul t F a b = Ok r /\
    (0 <= (IZR a / IZR (2 ^ F)) * (IZR b / IZR (2 ^ F)) - IZR r / IZR (2 ^ F) < / IZR (2 ^ F))%R.
Proof. exact fp_mul_error. Qed.

Theorem C06_only_min_times_min_clamps : forall t a b, t = int8 \/ t = int16 -> fits t a -> fits t b ->
  fp_mul t (iwidth t - 1) a b =
  Ok (if (a =? imin t) && (b =? imin t) then imax t else a * b / 2 ^ (iwidth t - 1)).
Proof. exact fp_mul_frac. Qed.

Example C06_example : fp_mul int8 7 64 64 = Ok 32 /\ fp_mul int8 7 (-1) 1 = Ok (-1) /\
  fp_mul int16 15 (-32768) (-32768) = Ok 32767 /\ fp_mul int8 4 100 100 = Ok 127.
Proof. repeat split. Qed.

(** C07: [float32 x] says the real x is a binary32 number; rnd32 is rounding to binary32. *)
Theorem C07_round_trip : forall t F a, t = int8 \/ t = int16 -> 0 <= F <= 30 -> fits t a ->
  fp_of_float t F (fp_to_float F a) = Ok a.
Proof. exact fp_roundtrip. Qed.

Theorem C07_to_float_exact : forall F a, 0 <= F <= 149 -> Z.abs a < 2 ^ 24 ->
  fp_to_float F a = (IZR a * bpow radix2 (- F))%R.
Proof. exact fp_to_float_ok. Qed.

Theorem C07_from_float : forall t F val, t = int8 \/ t = int16 -> 0 <= F <= 30 -> float32 val ->
  (IZR (imin t) <= val * IZR (2 ^ F) <= IZR (imax t))%R ->
  exists a, fp_of_float t F val = Ok a /\ fits t a /\ a = Ztrunc (val * IZR (2 ^ F)) /\
    (Rabs (IZR a * / IZR (2 ^ F) - val) < / IZR (2 ^ F))%R.
Proof. exact fp_of_float_exact. Qed.

Theorem C07_from_float_high : forall t F val, t = int8 \/ t = int16 -> 0 <= F <= 30 ->
  (IZR (imax t) <= rnd32 val * IZR (2 ^ F) < IZR (2 ^ 31))%R -> fp_of_float t F val = Ok (imax t).
Proof. exact fp_of_float_high. Qed.

Theorem C07_from_float_low : forall t F val, t = int8 \/ t = int16 -> 0 <= F <= 30 ->
  (IZR (- 2 ^ 31 - 1) < rnd32 val * IZR (2 ^ F) <= IZR (imin t))%R -> fp_of_float t F val = Ok (imin t).
Proof. exact fp_of_float_low. Qed.

Theorem C07_from_float_undefined : forall t F val, t = int8 \/ t = int16 -> 0 <= F <= 30 ->
  (IZR (2 ^ 31) <= rnd32 val * IZR (2 ^ F) \/ rnd32 val * IZR (2 ^ F) <= IZR (- 2 ^ 31 - 1))%R ->
  fp_of_float t F val = UB.
Proof. exact fp_of_float_ub. Qed.

Theorem C07_from_float_monotone : forall t F x y a b, t = int8 \/ t = int16 -> 0 <= F <= 30 -> (x <= y)%R ->
  fp_of_float t F x = Ok a -> fp_of_float t F y = Ok b -> a <= b.
Proof. exact fp_of_float_monotone. Qed.

Example C07_example : fp_of_float int8 7 (1 / 2) = Ok 64.
Proof.
  rewrite (fp_of_float_ok int8 7) by (unfold narrow; auto; lia). cbv zeta.
  rewrite rnd32_id.
  - replace (1 / 2 * IZR (2 ^ 7))%R with (IZR 64) by (simpl; Lra.lra). rewrite Ztrunc_IZR. reflexivity.
  - replace (1 / 2)%R with (IZR 1 * bpow radix2 (-1))%R by (simpl; Lra.lra). apply float32_scaled; lia.
Qed.

(** C08: [Other l] is an input array distinct from the output, [Self] the output itself;
    [contents] gives the input's contents.  For every instruction set. *)
Theorem C08_array_add : forall i t lhs rhs out n, t = int8 \/ t = int16 -> length out = n ->
  length (contents lhs out) = n -> length (contents rhs out) = n ->
  (forall a, In a (contents lhs out) -> fits t a) -> (forall a, In a (contents rhs out) -> fits t a) ->
  array_add i t lhs rhs out =
  Ok (tab n (fun k => Z.max (imin t) (Z.min (imax t) (nth k (contents lhs out) 0 + nth k (contents rhs out) 0)))).
Proof. exact array_add_ok. Qed.

Theorem C08_array_subtract : forall i t lhs rhs out n, t = int8 \/ t = int16 -> length out = n ->
  length (contents lhs out) = n -> length (contents rhs out) = n ->
  (forall a, In a (contents lhs out) -> fits t a) -> (forall a, In a (contents rhs out) -> fits t a) ->
  array_subtract i t lhs rhs out =
  Ok (tab n (fun k => Z.max (imin t) (Z.min (imax t) (nth k (contents lhs out) 0 - nth k (contents rhs out) 0)))).
Proof. exact array_sub_ok. Qed.

Theorem C08_array_multiply : forall i t lhs rhs out n, t = int8 \/ t = int16 -> length out = n ->
  length (contents lhs out) = n -> length (contents rhs out) = n ->
  (forall a, In a (contents lhs out) -> fits t a) -> (forall a, In a (contents rhs out) -> fits t a) ->
  forall F, 0 <= F -> i <> Sse41 ->
  array_multiply i t F lhs rhs out =
  Ok (tab n (fun k => Z.max (imin t) (Z.min (imax t)
      ((nth k (contents lhs out) 0 * nth k (contents rhs out) 0) / 2 ^ F)))).
Proof. exact array_mul_ok. Qed.

(** SSE4.1: exactly what comes out. *)
Theorem C08_sse41_multiply_8bit : forall F lhs rhs out n, 1 <= F <= 7 -> length out = n ->
  length (contents lhs out) = n -> length (contents rhs out) = n ->
  (forall a, In a (contents lhs out) -> fits int8 a) -> (forall a, In a (contents rhs out) -> fits int8 a) ->
  array_multiply Sse41 int8 F lhs rhs out =
  Ok (tab n (fun k => let p := nth k (contents lhs out) 0 * nth k (contents rhs out) 0 in
     if (k <? n mod 16)%nat then Z.max (imin int8) (Z.min (imax int8) (p / 2 ^ F))
     else if p <? 0 then 127 else Z.max (imin int8) (Z.min (imax int8) (p / 2 ^ F)))).
Proof. exact sse41_mul_s8. Qed.

Theorem C08_sse41_multiply_16bit : forall F lhs rhs out n, 1 <= F <= 15 -> length out = n ->
  length (contents lhs out) = n -> length (contents rhs out) = n ->
  (forall a, In a (contents lhs out) -> fits int16 a) -> (forall a, In a (contents rhs out) -> fits int16 a) ->
  array_multiply Sse41 int16 F lhs rhs out =
  Ok (tab n (fun k => let a := nth k (contents lhs out) 0 in let b := nth k (contents rhs out) 0 in
     if (k <? n mod 8)%nat then Z.max (imin int16) (Z.min (imax int16) (a * b / 2 ^ F))
     else if F =? 15 then (if (a =? -32768) && (b =? -32768) then -32768 else (a * b + 16384) / 32768)
     else if a * b <? 0 then 32767 else Z.max (imin int16) (Z.min (imax int16) (a * b / 2 ^ F)))).
Proof. exact sse41_mul_s16. Qed.

Theorem C08_sse41_q7_refuted : forall a b, fits int8 a -> fits int8 b -> a * b < 0 ->
  array_multiply Sse41 int8 7 (Other (repeat a 16)) (Other (repeat b 16)) (repeat 0 16) = Ok (repeat 127 16) /\
  exists r, fp_mul int8 7 a b = Ok r /\ r < 0.
Proof. exact sse41_q7_wrong. Qed.

Theorem C08_sse41_q15_within_one : forall lhs rhs out n, length out = n ->
  length (contents lhs out) = n -> length (contents rhs out) = n ->
  (forall a, In a (contents lhs out) -> fits int16 a) -> (forall a, In a (contents rhs out) -> fits int16 a) ->
  exists y, array_multiply Sse41 int16 15 lhs rhs out = Ok y /\ length y = n /\
    forall k, (k < n)%nat ->
      let a := nth k (contents lhs out) 0 in let b := nth k (contents rhs out) 0 in
      ~ (a = -32768 /\ b = -32768) ->
      exists r, fp_mul int16 15 a b = Ok r /\ r <= nth k y 0 <= r + 1.
Proof. exact sse41_q15_error. Qed.

Example C08_example :
  array_add Sse2 int16 (Other [1;2;3;4;5;6;7;8;9;10]) Self [32767;0;0;0;0;0;0;0;0;-20] =
    Ok [32767;2;3;4;5;6;7;8;9;-10] /\
  array_multiply Neon int16 15 Self Self [16384;16384;16384;16384;16384;16384;16384;-16384;-32768] =
    Ok [8192;8192;8192;8192;8192;8192;8192;8192;32767] /\
  array_multiply Sse41 int16 15 Self Self [16384;16384;16384;16384;16384;16384;16384;-16384;-32768] =
    Ok [8192;8192;8192;8192;8192;8192;8192;8192;-32768].
Proof. repeat split. Qed.

(** C09: complex numbers are pairs of stored values. *)
Theorem C09_complex_add : forall t l r, t = int8 \/ t = int16 ->
  fits t (fst l) -> fits t (snd l) -> fits t (fst r) -> fits t (snd r) ->
  fpc_add t l r = Ok (Z.max (imin t) (Z.min (imax t) (fst l + fst r)), Z.max (imin t) (Z.min (imax t) (snd l + snd r))).
Proof. exact fpc_add_ok. Qed.

Theorem C09_complex_sub : forall t l r, t = int8 \/ t = int16 ->
  fits t (fst l) -> fits t (snd l) -> fits t (fst r) -> fits t (snd r) ->
  fpc_sub t l r = Ok (Z.max (imin t) (Z.min (imax t) (fst l - fst r)), Z.max (imin t) (Z.min (imax t) (snd l - snd r))).
Proof. exact fpc_sub_ok. Qed.

Theorem C09_product_actual : forall l r, fits int16 (fst l) -> fits int16 (snd l) -> fits int16 (fst r) ->
  fpc_mul int16 l r =
  Ok ((fst l * fst r) / 2 ^ 17 - (snd l * snd l) / 2 ^ 17, (fst l * snd l) / 2 ^ 17 + (snd l * fst r) / 2 ^ 17).
Proof. exact fpc_mul_actual. Qed.

(** The imaginary part of the right operand never matters. *)
Theorem C09_product_refuted : forall l c d d', fits int16 (fst l) -> fits int16 (snd l) -> fits int16 c ->
  fpc_mul int16 l (c, d) = fpc_mul int16 l (c, d').
Proof. exact fpc_mul_ignores. Qed.

(** Even for real operands the product is four times too small. *)
Theorem C09_product_of_reals_refuted : forall a c d, fits int16 a -> fits int16 c ->
  fpc_mul int16 (a, 0) (c, d) = Ok ((a * c) / 2 ^ 15 / 4, 0).
Proof. exact fpc_mul_real. Qed.

Theorem C09_product_32bit_undefined : forall l r, fpc_mul int32 l r = UB.
Proof. exact fpc_mul_wide_ub. Qed.

Example C09_example : fpc_mul int16 (16384, 0) (16384, 0) = Ok (2048, 0) /\
  fpc_mul int16 (16384, 0) (0, 16384) = Ok (0, 0) /\ fpc_add int16 (30000, -5) (30000, 3) = Ok (32767, -2).
Proof. repeat split. Qed.

(** C56: for any lane function, vector width and length the loop is the element-wise map. *)
Theorem C56_simd_loop : forall vs (f : Z -> Z -> Z) lhs rhs out n,
  (0 < vs)%nat -> length out = n -> length (contents lhs out) = n -> length (contents rhs out) = n ->
  apply_kernel vs (fun a b => Ok (f a b)) (zip_with f) lhs rhs out =
  Ok (zip_with f (contents lhs out) (contents rhs out)).
Proof. exact apply_kernel_pointwise. Qed.

(** With a different function in the scalar part: the remainder comes first. *)
Theorem C56_simd_loop_split : forall vs scalar sf vector f lhs rhs out n,
  (0 < vs)%nat -> length out = n ->
  length (contents lhs out) = n -> length (contents rhs out) = n ->
  (forall a b, In a (contents lhs out) -> In b (contents rhs out) -> scalar a b = Ok (sf a b)) ->
  (forall l r, length l = vs -> length r = vs -> vector l r = zip_with f l r) ->
  apply_kernel vs scalar vector lhs rhs out =
  Ok (tab n (fun i => (if (i <? n mod vs)%nat then sf else f)
    (nth i (contents lhs out) 0) (nth i (contents rhs out) 0))).
Proof. exact apply_kernel_ok. Qed.

Example C56_example : apply_kernel 4 (fun a b => Ok (a * b)) (zip_with Z.mul) (Other [1;2;3;4;5;6]) Self [6;5;4;3;2;1]
  = Ok [6;10;12;12;10;6].
Proof. reflexivity. Qed.

Print Assumptions C05_saturating_add.
Print Assumptions C05_saturating_sub.
Print Assumptions C05_saturating_neg.
Print Assumptions C05_results_in_range.
Print Assumptions C05_comparisons.
Print Assumptions C06_multiply.
Print Assumptions C06_multiply_error.
Print Assumptions C06_only_min_times_min_clamps.
Print Assumptions C07_round_trip.
Print Assumptions C07_to_float_exact.
Print Assumptions C07_from_float.
Print Assumptions C07_from_float_high.
Print Assumptions C07_from_float_low.
Print Assumptions C07_from_float_undefined.
Print Assumptions C07_from_float_monotone.
Print Assumptions C08_array_add.
Print Assumptions C08_array_subtract.
Print Assumptions C08_array_multiply.
Print Assumptions C08_sse41_multiply_8bit.
Print Assumptions C08_sse41_multiply_16bit.
Print Assumptions C08_sse41_q7_refuted.
Print Assumptions C08_sse41_q15_within_one.
Print Assumptions C09_complex_add.
Print Assumptions C09_complex_sub.
Print Assumptions C09_product_actual.
Print Assumptions C09_product_refuted.
Print Assumptions C09_product_of_reals_refuted.
Print Assumptions C09_product_32bit_undefined.
Print Assumptions C56_simd_loop.
Print Assumptions C56_simd_loop_split.
