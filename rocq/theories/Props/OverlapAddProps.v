(** Property theorems C47: overlap_add_convolver (upola_convolver_v2).
    Specification in Spec/OverlapAddCalls.v and Spec/Convolution.v. *)
From Coq Require Import Reals List Arith ZArith Lia Lra Bool.
From Verif Require Import Base.Outcome Base.OutcomeFacts Base.Sums Base.Cplx Spec.Dft
  Spec.Convolution Spec.Stft Spec.Convolvers Spec.OverlapAddCalls.
From Verif Require Import Model.Fft2 Model.Integers Model.Convolution Model.Stft Model.OverlapAddConvolver.
From Verif Require Import Proof.UpcFinal Proof.OacProof.
Import ListNotations.
Local Arguments Nat.div : simpl never.
Local Arguments Nat.pow : simpl never.
Local Open Scope nat_scope.

(** C47.  Calls of whole blocks, any number of blocks per call: the outputs, put end to end,
    are the convolution of the inputs put end to end. *)
Theorem C47_whole_blocks : forall k h calls, 0 < k < max_order -> 0 < length h -> (Z.of_nat (length h) < 2 ^ 64)%Z ->
  (Z.of_nat (ceil_div (length h) (2 ^ k)) * Z.of_nat (2 ^ k + 1) < max_elements)%Z -> whole_blocks (2 ^ k) calls ->
  exists ys, partitioned_v2 (2 ^ k) h calls = Ok ys /\ map (@length R) ys = map (@length R) calls /\
    concat ys = tab (length (concat calls)) (lconv (concat calls) h).
Proof.
  intros k h calls Hk Hh H64 Hm Hw. destruct make_oac_ok as (c & E & Ep & Ec).
  destruct (response_matrix k h Hk Hh H64 Hm) as (_ & P1 & _).
  destruct (v2_response_ok k h c calls Hk Hh H64 Hm Ep ltac:(lia) Hw) as (c1 & ys & E1 & L1 & V1 & _).
  exists ys. unfold partitioned_v2. rewrite E. cbn [bind]. rewrite E1. cbn [bind]. auto.
Qed.

(** For every matrix, partitioned response or not: what upola_convolver outputs for the same
    stream cut into single blocks. *)
Theorem C47_like_upola_convolver : forall k rows mat calls, 0 < k < max_order -> 0 < rows -> matrix_of rows (2 ^ k + 1) mat ->
  whole_blocks (2 ^ k) calls ->
  exists ys outs, v2_matrix rows (2 ^ k + 1) mat calls = Ok ys /\
    convolver Upola rows (2 ^ k + 1) mat (chop (2 ^ k) (concat calls)) = Ok outs /\
    concat ys = concat outs /\ map (@length R) ys = map (@length R) calls.
Proof. exact v2_matrix_ok. Qed.

(** A second response on the same object, with at least as many partitions: as if fresh. *)
Theorem C47_filter_again : forall k1 h1 calls1 k2 h2 calls2,
  0 < k1 < max_order -> 0 < length h1 -> (Z.of_nat (length h1) < 2 ^ 64)%Z ->
  (Z.of_nat (ceil_div (length h1) (2 ^ k1)) * Z.of_nat (2 ^ k1 + 1) < max_elements)%Z ->
  0 < k2 < max_order -> 0 < length h2 -> (Z.of_nat (length h2) < 2 ^ 64)%Z ->
  (Z.of_nat (ceil_div (length h2) (2 ^ k2)) * Z.of_nat (2 ^ k2 + 1) < max_elements)%Z ->
  ceil_div (length h1) (2 ^ k1) <= ceil_div (length h2) (2 ^ k2) ->
  whole_blocks (2 ^ k1) calls1 -> whole_blocks (2 ^ k2) calls2 ->
  exists ys, partitioned_v2_twice (2 ^ k1) h1 calls1 (2 ^ k2) h2 calls2 = Ok ys /\
    map (@length R) ys = map (@length R) calls2 /\
    concat ys = tab (length (concat calls2)) (lconv (concat calls2) h2).
Proof. exact twice_ok. Qed.

(** With fewer partitions than before, after one block: out of bounds at the first sample,
    because filter() keeps the current segment. *)
Theorem C47_fewer_partitions_out_of_bounds : forall k1 h1 x1 k2 h2 x2 calls2,
  0 < k1 < max_order -> 0 < length h1 -> (Z.of_nat (length h1) < 2 ^ 64)%Z ->
  (Z.of_nat (ceil_div (length h1) (2 ^ k1)) * Z.of_nat (2 ^ k1 + 1) < max_elements)%Z ->
  0 < k2 < max_order -> 0 < length h2 -> (Z.of_nat (length h2) < 2 ^ 64)%Z ->
  (Z.of_nat (ceil_div (length h2) (2 ^ k2)) * Z.of_nat (2 ^ k2 + 1) < max_elements)%Z ->
  ceil_div (length h2) (2 ^ k2) < ceil_div (length h1) (2 ^ k1) -> length x1 = 2 ^ k1 -> 0 < length x2 ->
  partitioned_v2_twice (2 ^ k1) h1 [x1] (2 ^ k2) h2 (x2 :: calls2) = UB.
Proof. exact fewer_partitions_ub. Qed.

(** Two calls of three samples with blocks of two (not whole blocks, but long enough for the
    assert in operator()): the fourth output is not the convolution. *)
Theorem C47_part_block_refuted : exists h calls ys, (forall x, In x calls -> 2 <= length x) /\
  partitioned_v2 2 h calls = Ok ys /\ concat ys <> tab (length (concat calls)) (lconv (concat calls) h).
Proof.
  exists [0; 1]%R, part_block_calls. destruct part_block_wrong as (ys & E & V & L). exists ys.
  split; [|split; [exact E|]].
  - intros x [<-|[<-|[]]]; cbn; lia.
  - intros H. assert (H3 : nth 3 (concat ys) 0%R = 1%R); [|lra].
    rewrite H. rewrite (nth_tab _ (length (concat part_block_calls))) by (cbn; lia). exact L.
Qed.

Lemma c47_example_calls : whole_blocks 2 [[1; 2; 3; 4]; []; [5; 6]]%R.
Proof. intros x [<-|[<-|[<-|[]]]]; [exists 2|exists 0|exists 1]; reflexivity. Qed.

Example C47_example : exists ys, partitioned_v2 2 [1; 0; 5]%R [[1; 2; 3; 4]; []; [5; 6]]%R = Ok ys /\
  concat ys = [1; 2; 8; 14; 20; 26]%R.
Proof.
  destruct (C47_whole_blocks 1 [1; 0; 5]%R [[1; 2; 3; 4]; []; [5; 6]]%R) as (ys & E & _ & V);
    [unfold max_order; lia | cbn; lia | reflexivity | reflexivity | exact c47_example_calls |].
  exists ys. split; [exact E|]. rewrite V. unfold lconv, Rsum, tab. cbn. repeat (f_equal; try ring).
Qed.

Example C47_filter_again_example : exists ys,
  partitioned_v2_twice 2 [1; 0; 5]%R [[1; 2]]%R 2 [1; 2; 3]%R [[1; 0]; [0; 0]]%R = Ok ys /\ concat ys = [1; 2; 3; 0]%R.
Proof.
  destruct (C47_filter_again 1 [1; 0; 5]%R [[1; 2]]%R 1 [1; 2; 3]%R [[1; 0]; [0; 0]]%R) as (ys & E & _ & V);
    try (unfold max_order; lia); try (cbn; lia); try reflexivity.
  - intros x [<-|[]]. exists 1. reflexivity.
  - intros x [<-|[<-|[]]]; exists 1; reflexivity.
  - exists ys. split; [exact E|]. rewrite V. unfold lconv, Rsum, tab. cbn. repeat (f_equal; try ring).
Qed.

Example C47_fewer_example : partitioned_v2_twice 2 [1; 0; 5]%R [[1; 2]]%R 2 [1]%R [[1; 0]]%R = UB.
Proof.
  apply (C47_fewer_partitions_out_of_bounds 1 [1; 0; 5]%R [1; 2]%R 1 [1]%R [1; 0]%R []);
    try (unfold max_order; lia); try (cbn; lia); try reflexivity.
  apply Nat.ltb_lt. reflexivity.
Qed.

Print Assumptions C47_whole_blocks.
Print Assumptions C47_like_upola_convolver.
Print Assumptions C47_filter_again.
Print Assumptions C47_fewer_partitions_out_of_bounds.
Print Assumptions C47_part_block_refuted.
