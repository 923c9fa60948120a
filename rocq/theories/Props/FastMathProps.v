(** Property theorems C62: the fast logarithm and the estimated decibels, in rounded binary32
    arithmetic.  Specification: the natural logarithm of the standard library; B2R is the real
    number a binary32 value stands for; amplitude_to_db_floor is the accurate version (C51). *)
From Coq Require Import Reals ZArith Lia Lra.
From Flocq Require Import Core IEEE754.Binary IEEE754.Bits.
From Verif Require Import Base.LogBounds Model.FixedPoint Model.Units Model.FastMath Proof.FastMathProof.
Local Open Scope R_scope.

Local Notation value := (B2R 24 128).
Local Notation finite := (is_finite 24 128).

(** fast_log2 is within 0.0002 of the logarithm for every positive normal float: rounding of each
    operation, of the constants and the approximation itself included. *)
Theorem C62_fast_log2 : forall x : binary32, finite x = true -> bpow radix2 (-126) <= value x ->
  Rabs (fast_log2 x - ln (value x) / ln 2) <= 2 / 10000.
Proof.
  intros x Hf Hx. pose proof (bpow_gt_0 radix2 (-126)) as P. destruct (positive_error x Hf ltac:(lra)) as [(_ & F & _)|(L & _)]; lra.
Qed.

(** Below the normal range the estimate does not follow the logarithm: zero and every subnormal
    give about -127 to -126, where the logarithm goes down to -149. *)
Theorem C62_subnormal : forall x : binary32, finite x = true -> 0 <= value x < bpow radix2 (-126) ->
  x = B754_zero 24 128 false \/ 0 < value x -> -127 - 2 / 10000 <= fast_log2 x <= -126 + 2 / 10000.
Proof.
  intros x Hf Hx [->|P].
  - pose proof (fast_log2_bits (B754_zero 24 128 false) 0 0 ltac:(lia) ltac:(lia) eq_refl) as F. pose proof (fraction_range 0 ltac:(lia)) as R.
    replace (IZR 0 / 2 ^ 23) with 0 in * by (change (IZR 0) with 0; lra). rewrite Rplus_0_r, ln_1 in *. replace (0 / ln 2) with 0 in * by (unfold Rdiv; ring). apply abs_split in F. lra.
  - destruct (positive_error x Hf P) as [(G & _)|(_ & l & F & Fl)]; [lra|]. apply abs_split in F. lra.
Qed.

(** The smallest subnormal, 2^-149. *)
Theorem C62_subnormal_refuted : exists x : binary32, finite x = true /\ value x = bpow radix2 (-149) /\ Rabs (fast_log2 x - ln (value x) / ln 2) > 21.
Proof.
  exists (b32_of_bits 1). assert (Hv : value (b32_of_bits 1) = bpow radix2 (-149)).
  { unfold b32_of_bits, binary_float_of_bits. rewrite B2R_FF2B. cbn -[bpow]. unfold F2R. cbn [Fnum Fexp]. change (IZR 1) with 1. ring. }
  split; [reflexivity|]. split; auto. pose proof (bpow_gt_0 radix2 (-149)) as P. assert (Lt : bpow radix2 (-149) < bpow radix2 (-126)) by (apply bpow_lt; lia).
  assert (F : -127 - 2 / 10000 <= fast_log2 (b32_of_bits 1) <= -126 + 2 / 10000). { apply C62_subnormal; [reflexivity|rewrite Hv; lra|right; rewrite Hv; lra]. }
  assert (E : ln (value (b32_of_bits 1)) / ln 2 = -149).
  { rewrite Hv, bpow_exp. change (IZR radix2) with 2. rewrite ln_exp. pose proof ln2_bounds. field. lra. }
  rewrite E. rewrite Rabs_right; lra.
Qed.

(** The estimated decibels are within 0.002 dB of the accurate ones: for every finite gain when
    the floor is -700 dB or higher, and for every floor when the gain is not a positive
    subnormal. *)
Theorem C62_decibels : forall (gain : binary32) (floor : R), finite gain = true ->
  -700 <= floor \/ value gain <= 0 \/ bpow radix2 (-126) <= value gain ->
  Rabs (amplitude_to_db_estimate_floor gain floor - amplitude_to_db_floor (value gain) floor) <= 2 / 1000.
Proof. intros g f Hf H. apply decibel_floor_error; tauto. Qed.

(** With the default floor of -144 dB the estimate is never off by more, and it is exactly the
    floor where there is no signal. *)
Theorem C62_default_decibels : forall gain : binary32, finite gain = true ->
  Rabs (amplitude_to_db_estimate gain - amplitude_to_db (value gain)) <= 2 / 1000 /\
  -144 <= amplitude_to_db_estimate gain /\
  (value gain <= 0 -> amplitude_to_db_estimate gain = -144).
Proof.
  intros g Hf. split; [apply decibel_floor_error; auto; right; right; lra|]. unfold amplitude_to_db_estimate, amplitude_to_db_estimate_floor.
  destruct (Rle_dec (value g) 0) as [L|L]; [split; auto; lra|]. split; [apply Rmax_l|]. intro. contradiction.
Qed.

(** *** A concrete case *)

(** 1.5, the bit pattern 0x3fc00000. *)
Example C62_instance : finite (b32_of_bits 0x3fc00000) = true /\ value (b32_of_bits 0x3fc00000) = 3 / 2 /\ bpow radix2 (-126) <= value (b32_of_bits 0x3fc00000) /\
  Rabs (fast_log2 (b32_of_bits 0x3fc00000) - ln (3 / 2) / ln 2) <= 2 / 10000.
Proof.
  assert (Hv : value (b32_of_bits 0x3fc00000) = 3 / 2).
  { unfold b32_of_bits, binary_float_of_bits. rewrite B2R_FF2B. cbn -[bpow]. unfold F2R. cbn [Fnum Fexp]. change (-23)%Z with (Z.opp 23). rewrite (bpow_opp radix2 23). change (bpow radix2 23) with (IZR (2 ^ 23)). change (IZR (2 ^ 23)) with 8388608. lra. }
  assert (Lo : bpow radix2 (-126) <= value (b32_of_bits 0x3fc00000)). { rewrite Hv. apply Rle_trans with (bpow radix2 0); [apply bpow_le; lia|]. cbn. lra. }
  split; [reflexivity|]. split; auto. split; auto. rewrite <- Hv. apply C62_fast_log2; auto.
Qed.

Print Assumptions C62_fast_log2.
Print Assumptions C62_subnormal.
Print Assumptions C62_subnormal_refuted.
Print Assumptions C62_decibels.
Print Assumptions C62_default_decibels.
