(** Property theorems C01-C04: integer helpers.  [Ity w s] is the C++ integer type of
    width w (signed iff s); [fits t v] says v is in the range of t. *)
From Coq Require Import ZArith List Bool Lia Arith.
From Verif Require Import Base.Outcome Model.Fft2 Model.Integers.
From Verif Require Import Proof.IntegersProof Proof.IntegerCorollaries.
Local Open Scope Z_scope.

(** C01: the result is a power of two, not below x, and the least such. *)
Theorem C01_bit_ceil : forall w x, (w = 8 \/ w = 16 \/ w = 32 \/ w = 64) -> 1 <= x <= 2 ^ (w - 1) ->
  exists r, bit_ceil_fallback w x = r /\ bit_ceil w x = Ok r /\
    (exists k, 0 <= k /\ r = 2 ^ k) /\ x <= r /\
    (forall k, 0 <= k -> x <= 2 ^ k -> r <= 2 ^ k).
Proof. exact bit_ceil_spec. Qed.

Theorem C01_bit_ceil_outside : forall w x, (w = 8 \/ w = 16 \/ w = 32 \/ w = 64) ->
  x = 0 \/ 2 ^ (w - 1) < x < 2 ^ w -> bit_ceil_fallback w x = 0.
Proof. exact bit_ceil_fallback_out. Qed.

Example C01_example : bit_ceil_fallback 16 300 = 512 /\ bit_ceil_fallback 8 129 = 0 /\ bit_ceil 8 0 = Ok 1.
Proof. repeat split. Qed.

(** C02. *)
Theorem C02_bit_log2 : forall x, (1 <= x)%nat ->
  exists k, bit_log2 x = Ok k /\ (2 ^ k <= x < 2 ^ (k + 1))%nat.
Proof. exact bit_log2_floor. Qed.

Theorem C02_next_order : forall n, (1 <= n)%nat -> Z.of_nat n <= 2 ^ 63 ->
  exists k, next_order n = Ok k /\ (n <= 2 ^ k)%nat /\ (forall j, n <= 2 ^ j -> k <= j)%nat /\
    (2 <= n -> 2 ^ k < 2 * n)%nat.
Proof. exact next_order_least. Qed.

Theorem C02_order_size_inverse : forall k, (k < 64)%nat ->
  fft_size (Ity 64 false) (Z.of_nat k) = Ok (2 ^ Z.of_nat k) /\
  next_order (Z.to_nat (2 ^ Z.of_nat k)) = Ok k.
Proof. exact order_size_inverse. Qed.

Example C02_example : next_order 1000 = Ok 10%nat /\ bit_log2 1000 = Ok 9%nat.
Proof.
  split.
  - rewrite next_order_ok by lia. reflexivity.
  - rewrite bit_log2_ok. reflexivity.
Qed.

(** C03. *)
Theorem C03_ipow : forall t b e, (iwidth t = 8 \/ iwidth t = 16 \/ iwidth t = 32 \/ iwidth t = 64) ->
  fits t b -> 0 <= e -> fits t (b ^ e) -> ipow t b e = Ok (b ^ e).
Proof. exact ipow_ok. Qed.

Theorem C03_ipow_const : forall t b e, (iwidth t = 8 \/ iwidth t = 16 \/ iwidth t = 32 \/ iwidth t = 64) ->
  fits t b -> 0 <= e -> fits t (b ^ e) -> ipow_const t b e = Ok (b ^ e).
Proof. exact ipow_const_ok. Qed.

Theorem C03_ipow_overflow : forall t b e, (iwidth t = 8 \/ iwidth t = 16 \/ iwidth t = 32 \/ iwidth t = 64) ->
  isigned t = true -> 32 <= iwidth t ->
  fits t b -> 0 <= e -> ~ fits t (b ^ e) -> ipow t b e = UB.
Proof. exact ipow_overflow. Qed.

Theorem C03_overflowing_shift_gives_wrong_value :
  ipow_const int32 2 31 = Ok (-2147483648) /\ ipow int32 2 31 = UB /\
  (forall e, 8 <= e < 32 -> ipow_const (Ity 8 false) 2 e = Ok 0).
Proof. exact ipow_shift_wrong_value. Qed.

Example C03_example : ipow int32 3 19 = Ok 1162261467 /\ ipow_const int32 32 6 = Ok 1073741824 /\
  ipow (Ity 16 true) (-7) 5 = Ok (-16807).
Proof. repeat split. Qed.

(** C04: q is the ceiling of x / y. *)
Theorem C04_idiv : forall t x y, (iwidth t = 8 \/ iwidth t = 16 \/ iwidth t = 32 \/ iwidth t = 64) ->
  fits t x -> fits t y -> 0 <= x -> 0 < y -> fits (promote t) (x + y) ->
  exists q, idiv t x y = Ok q /\ q * y >= x /\ (q - 1) * y < x.
Proof. exact idiv_ok. Qed.

Theorem C04_idiv_unsigned : forall t x y, (iwidth t = 32 \/ iwidth t = 64) -> isigned t = false ->
  fits t x -> fits t y -> 0 < y -> fits t (x + y - 1) ->
  exists q, idiv t x y = Ok q /\ q * y >= x /\ (q - 1) * y < x.
Proof.
  intros t x y Hw Hs Fx Fy Hy F.
  assert (PT : promote t = t) by (unfold promote; destruct (Z.ltb_spec (iwidth t) 32); auto; lia).
  apply idiv_ok_unsigned; rewrite ?PT; auto. unfold valid_ity, std_width. tauto.
Qed.

(** For int and wider signed types x + y - 1 fitting is not enough: x + y is formed first. *)
Theorem C04_idiv_signed_overflow : forall t x y, isigned t = true -> 32 <= iwidth t -> ~ fits t (x + y) ->
  idiv t x y = UB.
Proof.
  intros t x y Hs H32 F.
  assert (PT : promote t = t) by (unfold promote; destruct (Z.ltb_spec (iwidth t) 32); auto; lia).
  apply idiv_signed_overflow; rewrite PT; auto.
Qed.

Theorem C04_idiv_narrow : forall t x y, (iwidth t = 8 \/ iwidth t = 16 \/ iwidth t = 32 \/ iwidth t = 64) ->
  iwidth t < 32 -> fits t x -> fits t y -> 0 <= x -> 0 < y ->
  exists q, idiv t x y = Ok q /\ q * y >= x /\ (q - 1) * y < x.
Proof. exact idiv_narrow. Qed.

Theorem C04_idiv_wraps_too_small : forall t x y,
  (iwidth t = 8 \/ iwidth t = 16 \/ iwidth t = 32 \/ iwidth t = 64) -> isigned t = false -> 32 <= iwidth t ->
  fits t x -> fits t y -> 0 < y -> 2 ^ iwidth t < x + y ->
  exists q, idiv t x y = Ok q /\ q * y < x.
Proof. exact idiv_wrap. Qed.

Theorem C04_parity : forall x, is_even x = Z.even x /\ is_odd x = Z.odd x.
Proof. exact is_even_ok. Qed.

Example C04_example : idiv (Ity 64 false) 1001 10 = Ok 101 /\ idiv (Ity 8 false) 255 2 = Ok 128 /\
  idiv (Ity 32 false) 4294967295 2 = Ok 0 /\ idiv (Ity 32 false) 4294967295 1 = Ok 4294967295 /\
  idiv int32 2147483647 1 = UB.
Proof. repeat split. Qed.

Print Assumptions C01_bit_ceil.
Print Assumptions C01_bit_ceil_outside.
Print Assumptions C02_bit_log2.
Print Assumptions C02_next_order.
Print Assumptions C02_order_size_inverse.
Print Assumptions C03_ipow.
Print Assumptions C03_ipow_const.
Print Assumptions C03_ipow_overflow.
Print Assumptions C03_overflowing_shift_gives_wrong_value.
Print Assumptions C04_idiv.
Print Assumptions C04_idiv_unsigned.
Print Assumptions C04_idiv_signed_overflow.
Print Assumptions C04_idiv_narrow.
Print Assumptions C04_idiv_wraps_too_small.
Print Assumptions C04_parity.
