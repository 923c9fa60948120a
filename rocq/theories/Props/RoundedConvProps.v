(** Property theorems C64: convolution in rounded arithmetic.  Specification: Spec/Rounding.v
    (binary32 and binary64 arithmetic, norms), Spec/RoundedConvolvers.v (the documented use of the
    partitioned convolver) and the linear convolution of Spec/Convolution.v. *)
From Coq Require Import Reals List Arith ZArith Lia Lra.
From Flocq Require Import Core.
From Verif Require Import Base.Outcome Base.OutcomeFacts Base.Sums Base.Cplx Base.VecNorm Spec.Dft Spec.Rounding Spec.Convolution Spec.Convolvers Spec.RoundedConvolvers
  Model.Fft2 Model.FftApps Model.Convolution Model.Stft Model.RoundedFft Model.RoundedConv
  Proof.IntegersProof Proof.RoundedPlan Proof.RoundedFftConvError Proof.RoundedUpolsError Proof.RoundedSplit Proof.RoundedUpola Proof.RoundedUpolaError Props.RoundedFftProps.
Import ListNotations.
Local Open Scope R_scope.

(** binary32: every sample of fft_convolve(x, h) is within (114 p + 9) 2^-24 sqrt(2^p) |x| |h| of
    the exact linear convolution, where 2^p is the transform size: the smallest power of two that
    holds the result.  X and H bound the 2-norms of the operands; a smaller operand may be bounded
    by 2^-20. *)
Theorem C64_fft_convolve_float : forall rnd fcos fsin x h X H p,
  rounds_to_nearest 24 (-149) 127 rnd -> accurate 24 (-149) fcos cos -> accurate 24 (-149) fsin sin ->
  (0 < length x)%nat -> (0 < length h)%nat -> (2 <= length x + length h - 1 <= 2 ^ 27)%nat ->
  p = Nat.log2_up (length x + length h - 1) ->
  norm_r x <= X -> norm_r h <= H -> / 2 ^ 20 <= X <= 2 ^ 40 -> / 2 ^ 20 <= H <= 2 ^ 40 ->
  exists y, rfft_convolve rnd fcos fsin x h = Ok y /\ length y = (length x + length h - 1)%nat /\
    forall i, (i < length y)%nat ->
    Rabs (nth i y 0 - lconv x h i) <= (114 * INR p + 9) * bpow radix2 (-24) * (sqrt (INR (2 ^ p)) * (X * H)).
Proof.
  intros rnd fcos fsin x h X H p Hr Hc Hs. intros. destruct two_pi32_ok as [T1 T2]. rewrite <- (rtwo_pi32 rnd Hr) in T1, T2.
  exact (format_fft_convolve 24 (-149) 127 ltac:(lia) ltac:(lia) ltac:(lia) ltac:(lia) rnd fcos fsin Hr Hc Hs T1 T2 x h X H p ltac:(auto) ltac:(auto) ltac:(auto) ltac:(auto) ltac:(auto) ltac:(auto) ltac:(auto) ltac:(auto)).
Qed.

(** binary64. *)
Theorem C64_fft_convolve_double : forall rnd fcos fsin x h X H p,
  rounds_to_nearest 53 (-1074) 1023 rnd -> accurate 53 (-1074) fcos cos -> accurate 53 (-1074) fsin sin ->
  (0 < length x)%nat -> (0 < length h)%nat -> (2 <= length x + length h - 1 <= 2 ^ 27)%nat ->
  p = Nat.log2_up (length x + length h - 1) ->
  norm_r x <= X -> norm_r h <= H -> / 2 ^ 20 <= X <= 2 ^ 40 -> / 2 ^ 20 <= H <= 2 ^ 40 ->
  exists y, rfft_convolve rnd fcos fsin x h = Ok y /\ length y = (length x + length h - 1)%nat /\
    forall i, (i < length y)%nat ->
    Rabs (nth i y 0 - lconv x h i) <= (114 * INR p + 9) * bpow radix2 (-53) * (sqrt (INR (2 ^ p)) * (X * H)).
Proof.
  intros rnd fcos fsin x h X H p Hr Hc Hs. intros. destruct two_pi64_ok as [T1 T2]. rewrite <- (rtwo_pi64 rnd Hr) in T1, T2.
  exact (format_fft_convolve 53 (-1074) 1023 ltac:(lia) ltac:(lia) ltac:(lia) ltac:(lia) rnd fcos fsin Hr Hc Hs T1 T2 x h X H p ltac:(auto) ltac:(auto) ltac:(auto) ltac:(auto) ltac:(auto) ltac:(auto) ltac:(auto) ltac:(auto)).
Qed.

(** binary32: streaming blocks of B = 2^k samples through a partitioned convolver whose filter is an
    impulse response h of floats, cut into P partitions of B samples.  However many blocks are sent,
    every output sample is within (114 (k + 1) + 9 P) 2^-24 (2 B P) X G of the exact linear
    convolution of the whole stream with h, where X bounds the samples and G the 2-norm of every
    partition: the error does not grow with the length of the stream. *)
Theorem C64_partitioned_float : forall rnd fcos fsin k P h blocks X G,
  rounds_to_nearest 24 (-149) 127 rnd -> accurate 24 (-149) fcos cos -> accurate 24 (-149) fsin sin ->
  (0 < k < 27)%nat -> (0 < length h)%nat -> P = ceil_div (length h) (2 ^ k) -> INR P <= 10000 -> blocks_of (2 ^ k) blocks ->
  (forall v, In v h -> is_float 24 (-149) v) ->
  (forall v, In v (concat blocks) -> Rabs v <= X) -> (forall i, (i < P)%nat -> norm_r (part (2 ^ k) h i) <= G) ->
  / 2 ^ 20 <= X <= 2 ^ 20 -> / 2 ^ 20 <= G <= 2 ^ 20 ->
  exists ys, rpartitioned rnd fcos fsin (2 ^ k) h blocks = Ok ys /\ length (concat ys) = length (concat blocks) /\
    forall n, (n < length (concat ys))%nat ->
    Rabs (nth n (concat ys) 0 - lconv (concat blocks) h n) <= (114 * INR (S k) + 9 * INR P) * bpow radix2 (-24) * (INR P * (2 * INR (2 ^ k)) * (X * G)).
Proof.
  intros rnd fcos fsin k P h blocks X G Hr Hc Hs. intros. destruct two_pi32_ok as [T1 T2]. rewrite <- (rtwo_pi32 rnd Hr) in T1, T2.
  exact (format_upols 24 (-149) 127 ltac:(lia) ltac:(lia) ltac:(lia) ltac:(lia) rnd fcos fsin Hr Hc Hs T1 T2 k P h blocks X G ltac:(auto) ltac:(auto) ltac:(auto) ltac:(auto) ltac:(auto) ltac:(auto) ltac:(auto) ltac:(auto) ltac:(auto) ltac:(auto)).
Qed.

(** binary64. *)
Theorem C64_partitioned_double : forall rnd fcos fsin k P h blocks X G,
  rounds_to_nearest 53 (-1074) 1023 rnd -> accurate 53 (-1074) fcos cos -> accurate 53 (-1074) fsin sin ->
  (0 < k < 27)%nat -> (0 < length h)%nat -> P = ceil_div (length h) (2 ^ k) -> INR P <= 10000 -> blocks_of (2 ^ k) blocks ->
  (forall v, In v h -> is_float 53 (-1074) v) ->
  (forall v, In v (concat blocks) -> Rabs v <= X) -> (forall i, (i < P)%nat -> norm_r (part (2 ^ k) h i) <= G) ->
  / 2 ^ 20 <= X <= 2 ^ 20 -> / 2 ^ 20 <= G <= 2 ^ 20 ->
  exists ys, rpartitioned rnd fcos fsin (2 ^ k) h blocks = Ok ys /\ length (concat ys) = length (concat blocks) /\
    forall n, (n < length (concat ys))%nat ->
    Rabs (nth n (concat ys) 0 - lconv (concat blocks) h n) <= (114 * INR (S k) + 9 * INR P) * bpow radix2 (-53) * (INR P * (2 * INR (2 ^ k)) * (X * G)).
Proof.
  intros rnd fcos fsin k P h blocks X G Hr Hc Hs. intros. destruct two_pi64_ok as [T1 T2]. rewrite <- (rtwo_pi64 rnd Hr) in T1, T2.
  exact (format_upols 53 (-1074) 1023 ltac:(lia) ltac:(lia) ltac:(lia) ltac:(lia) rnd fcos fsin Hr Hc Hs T1 T2 k P h blocks X G ltac:(auto) ltac:(auto) ltac:(auto) ltac:(auto) ltac:(auto) ltac:(auto) ltac:(auto) ltac:(auto) ltac:(auto) ltac:(auto)).
Qed.

(** The split-complex convolver returns the same bits as the interleaved one, with the scalar loop
    and with SIMD registers of any number of lanes, however the arithmetic rounds (it only has to
    leave zero and the taps of the filter unchanged). *)
Theorem C64_split_bit_identical : forall (rnd fcos fsin : R -> R) lanes k h blocks,
  (forall l, lanes = Some l -> (0 < l)%nat) -> (0 < k < 27)%nat -> (0 < length h)%nat ->
  (Z.of_nat (length h) < 2 ^ 64)%Z -> (Z.of_nat (ceil_div (length h) (2 ^ k)) * Z.of_nat (2 ^ k + 1) < max_elements)%Z ->
  blocks_of (2 ^ k) blocks -> (forall v, v = 0 \/ In v h -> rnd v = v) ->
  exists ys, rpartitioned rnd fcos fsin (2 ^ k) h blocks = Ok ys /\ rpartitioned_split rnd fcos fsin lanes (2 ^ k) h blocks = Ok ys.
Proof. exact rsplit_identical. Qed.

(** binary32: the overlap-add convolver.  Each output sample adds the tail of the previous block, so
    the bound is about twice that of overlap-save; it does not grow with the stream either. *)
Theorem C64_partitioned_add_float : forall rnd fcos fsin k P h blocks X G,
  rounds_to_nearest 24 (-149) 127 rnd -> accurate 24 (-149) fcos cos -> accurate 24 (-149) fsin sin ->
  (0 < k < 27)%nat -> (0 < length h)%nat -> P = ceil_div (length h) (2 ^ k) -> INR P <= 10000 -> blocks_of (2 ^ k) blocks ->
  (forall v, In v h -> is_float 24 (-149) v) ->
  (forall v, In v (concat blocks) -> Rabs v <= X) -> (forall i, (i < P)%nat -> norm_r (part (2 ^ k) h i) <= G) ->
  / 2 ^ 20 <= X <= 2 ^ 20 -> / 2 ^ 20 <= G <= 2 ^ 20 ->
  exists ys, rpartitioned_add rnd fcos fsin (2 ^ k) h blocks = Ok ys /\ length (concat ys) = length (concat blocks) /\
    forall n, (n < length (concat ys))%nat ->
    Rabs (nth n (concat ys) 0 - lconv (concat blocks) h n) <= (229 * INR (S k) + 19 * INR P) * bpow radix2 (-24) * (INR P * (2 * INR (2 ^ k)) * (X * G)).
Proof.
  intros rnd fcos fsin k P h blocks X G Hr Hc Hs. intros. destruct two_pi32_ok as [T1 T2]. rewrite <- (rtwo_pi32 rnd Hr) in T1, T2.
  exact (format_upola 24 (-149) 127 ltac:(lia) ltac:(lia) ltac:(lia) ltac:(lia) rnd fcos fsin Hr Hc Hs T1 T2 k P h blocks X G ltac:(auto) ltac:(auto) ltac:(auto) ltac:(auto) ltac:(auto) ltac:(auto) ltac:(auto) ltac:(auto) ltac:(auto) ltac:(auto)).
Qed.

(** binary64. *)
Theorem C64_partitioned_add_double : forall rnd fcos fsin k P h blocks X G,
  rounds_to_nearest 53 (-1074) 1023 rnd -> accurate 53 (-1074) fcos cos -> accurate 53 (-1074) fsin sin ->
  (0 < k < 27)%nat -> (0 < length h)%nat -> P = ceil_div (length h) (2 ^ k) -> INR P <= 10000 -> blocks_of (2 ^ k) blocks ->
  (forall v, In v h -> is_float 53 (-1074) v) ->
  (forall v, In v (concat blocks) -> Rabs v <= X) -> (forall i, (i < P)%nat -> norm_r (part (2 ^ k) h i) <= G) ->
  / 2 ^ 20 <= X <= 2 ^ 20 -> / 2 ^ 20 <= G <= 2 ^ 20 ->
  exists ys, rpartitioned_add rnd fcos fsin (2 ^ k) h blocks = Ok ys /\ length (concat ys) = length (concat blocks) /\
    forall n, (n < length (concat ys))%nat ->
    Rabs (nth n (concat ys) 0 - lconv (concat blocks) h n) <= (229 * INR (S k) + 19 * INR P) * bpow radix2 (-53) * (INR P * (2 * INR (2 ^ k)) * (X * G)).
Proof.
  intros rnd fcos fsin k P h blocks X G Hr Hc Hs. intros. destruct two_pi64_ok as [T1 T2]. rewrite <- (rtwo_pi64 rnd Hr) in T1, T2.
  exact (format_upola 53 (-1074) 1023 ltac:(lia) ltac:(lia) ltac:(lia) ltac:(lia) rnd fcos fsin Hr Hc Hs T1 T2 k P h blocks X G ltac:(auto) ltac:(auto) ltac:(auto) ltac:(auto) ltac:(auto) ltac:(auto) ltac:(auto) ltac:(auto) ltac:(auto) ltac:(auto)).
Qed.

(** The split-complex overlap-add convolver returns the same bits as the interleaved one. *)
Theorem C64_split_add_bit_identical : forall (rnd fcos fsin : R -> R) lanes k h blocks,
  (forall l, lanes = Some l -> (0 < l)%nat) -> (0 < k < 27)%nat -> (0 < length h)%nat ->
  (Z.of_nat (length h) < 2 ^ 64)%Z -> (Z.of_nat (ceil_div (length h) (2 ^ k)) * Z.of_nat (2 ^ k + 1) < max_elements)%Z ->
  blocks_of (2 ^ k) blocks -> (forall v, v = 0 \/ In v h -> rnd v = v) ->
  exists ys, rpartitioned_add rnd fcos fsin (2 ^ k) h blocks = Ok ys /\ rpartitioned_add_split rnd fcos fsin lanes (2 ^ k) h blocks = Ok ys.
Proof. exact rsplit_add_identical. Qed.

(** The hypotheses can be met: correctly rounded arithmetic, three taps in two partitions, two
    blocks, samples bounded by one. *)
Example C64_hypotheses : exists rnd fcos fsin (h : list R) blocks,
  rounds_to_nearest 24 (-149) 127 rnd /\ accurate 24 (-149) fcos cos /\ accurate 24 (-149) fsin sin /\
  length h = 3%nat /\ ceil_div (length h) (2 ^ 1) = 2%nat /\ blocks_of (2 ^ 1) blocks /\ length blocks = 2%nat /\
  (forall v, In v h -> is_float 24 (-149) v) /\ (forall v, In v (concat blocks) -> Rabs v <= 1) /\
  (forall i, (i < 2)%nat -> norm_r (part (2 ^ 1) h i) <= 2) /\ norm_r h <= 2 /\ norm_r (concat blocks) <= 2.
Proof.
  destruct C63_hypotheses as (rnd & fcos & fsin & _ & Hr & Hc & Hs & _). exists rnd, fcos, fsin, [1; 1; 1], [[1; -1]; [1; 0]].
  assert (A1 : Rabs 1 <= 1) by (rewrite Rabs_R1; lra). assert (A2 : Rabs (-1) <= 1) by (rewrite Rabs_left; lra). assert (A0 : Rabs 0 <= 1) by (rewrite Rabs_R0; lra).
  assert (F1 : is_float 24 (-149) 1) by (change 1 with (bpow radix2 0); apply generic_format_bpow; cbn; lia).
  split; [auto|]. split; [auto|]. split; [auto|]. split; [reflexivity|]. split; [reflexivity|].
  split. { intros b [<-|[<-|[]]]; reflexivity. } split; [reflexivity|].
  split. { intros v [<-|[<-|[<-|[]]]]; exact F1. }
  split. { cbn [concat app]. intros v [<-|[<-|[<-|[<-|[]]]]]; assumption. }
  assert (S4 : forall n f, Rsum n (fun i => f i * f i) <= 4 -> rnorm n f <= 2).
  { intros n f H. unfold rnorm. replace 2 with (sqrt 4) by (replace 4 with (2 * 2) by ring; apply sqrt_square; lra). apply sqrt_le_1_alt, H. }
  split; [|split; apply S4; cbn; lra].
  intros i Hi. destruct i as [|[|i]]; [| |lia]; apply S4; cbn; lra.
Qed.

Print Assumptions C64_fft_convolve_float.
Print Assumptions C64_fft_convolve_double.
Print Assumptions C64_partitioned_float.
Print Assumptions C64_partitioned_double.
Print Assumptions C64_split_bit_identical.
Print Assumptions C64_partitioned_add_float.
Print Assumptions C64_partitioned_add_double.
Print Assumptions C64_split_add_bit_identical.
