(** C78: transforms of several signals at once. *)
From Coq Require Import List Arith Lia Bool Reals.
From Verif Require Import Base.Outcome Base.Sums Base.Cplx Spec.Dft Spec.Lanes Spec.DigitRev Model.FftApps Model.SimdFft Proof.DftTheory Proof.SimdFftProof.
Import ListNotations.

(** Forward: for every register width, order and input, all kernels give the same registers, and
    every lane is the DFT of that lane. *)
Theorem C78_forward : forall L p X, 0 < L -> 0 < p <= 27 -> length X = 2 ^ p -> registers L X ->
  exists pl Y, make_simd_plan L p = Ok pl /\
    simd_run (bdit2_v1 cbatch_ops) pl X Forward = Ok Y /\ simd_run (bdit2_v2 cbatch_ops) pl X Forward = Ok Y /\
    simd_run (bdit2_v3 cbatch_ops) pl X Forward = Ok Y /\
    (1 < p -> simd_run (bdit2_v4 cbatch_ops) pl X Forward = Ok Y) /\
    registers L Y /\ forall j, j < L -> lane C0 j Y = DFT_list Forward (lane C0 j X).
Proof. exact simd_all_kernels. Qed.

(** Backward: the plan only reorders its input, whatever the kernel, and the result of the inverse
    transform is wrong in every lane for some input of every size. *)
Theorem C78_backward_only_reorders : forall L p pl bk X, 0 < L -> 0 < p <= 27 ->
  make_simd_plan L p = Ok pl -> length X = 2 ^ p ->
  simd_run bk pl X Backward = Ok (tab (2 ^ p) (fun i => nth (digit_rev 2 p i) X [])).
Proof. intros L p pl bk X HL. exact (simd_backward L HL p pl bk X). Qed.

Theorem C78_backward_refuted : forall L p bk, 0 < L -> 0 < p <= 27 ->
  exists pl X Y, make_simd_plan L p = Ok pl /\ length X = 2 ^ p /\ registers L X /\
    simd_run bk pl X Backward = Ok Y /\ forall j, j < L -> lane C0 j Y <> DFT_list Backward (lane C0 j X).
Proof. exact simd_backward_wrong. Qed.

(** The split plan, both directions, in place and out of place. *)
Theorem C78_split : forall L p d Xre Xim, 0 < L -> 0 < p <= 30 ->
  length Xre = 2 ^ p -> length Xim = 2 ^ p -> registers L Xre -> registers L Xim ->
  exists pl Yre Yim, make_simd_split_plan L p = Ok pl /\
    simd_split_run pl (Xre, Xim) d = Ok (Yre, Yim) /\ registers L Yre /\ registers L Yim /\
    (forall j, j < L -> let X := DFT_list d (combine (lane 0%R j Xre) (lane 0%R j Xim)) in
       lane 0%R j Yre = map fst X /\ lane 0%R j Yim = map snd X) /\
    forall Ore Oim, length Ore = 2 ^ p -> length Oim = 2 ^ p ->
      simd_split_run_out pl (Xre, Xim) (Ore, Oim) d = Ok (Yre, Yim).
Proof. intros L p d Xre Xim HL. exact (simd_split_ok L HL p d Xre Xim). Qed.

(** One direction after the other multiplies every lane by the size. *)
Theorem C78_split_round_trip : forall L p d Xre Xim, 0 < L -> 0 < p <= 30 ->
  length Xre = 2 ^ p -> length Xim = 2 ^ p -> registers L Xre -> registers L Xim ->
  exists pl Y, make_simd_split_plan L p = Ok pl /\ simd_split_run pl (Xre, Xim) d = Ok Y /\
    simd_split_run pl Y (flip d) = Ok (map (map (fun v => (INR (2 ^ p) * v)%R)) Xre, map (map (fun v => (INR (2 ^ p) * v)%R)) Xim).
Proof. exact simd_split_roundtrip. Qed.

(** The scalar free functions fft and ifft on split-complex vectors. *)
Theorem C78_split_functions : forall p re im ore oim, 0 < p <= 30 ->
  length re = 2 ^ p -> length im = 2 ^ p -> length ore = 2 ^ p -> length oim = 2 ^ p ->
  exists pl, make_split_plan p = Ok pl /\
  let F := DFT_list Forward (combine re im) in
  let B := DFT_list Backward (combine re im) in
  split_fft_inout pl (re, im) = Ok (map fst F, map snd F) /\
  split_fft_out pl (re, im) (ore, oim) = Ok (map fst F, map snd F) /\
  split_ifft_inout pl (re, im) = Ok (map fst B, map snd B) /\
  split_ifft_out pl (re, im) (ore, oim) = Ok (map fst B, map snd B) /\
  split_ifft_inout pl (map fst F, map snd F) =
    Ok (map (fun v => (INR (2 ^ p) * v)%R) re, map (fun v => (INR (2 ^ p) * v)%R) im).
Proof. exact split_functions. Qed.

(** Two lanes, two samples: the lanes do not mix. *)
Example C78_example : exists pl Y, make_simd_plan 2 1 = Ok pl /\
  simd_run (bdit2_v3 cbatch_ops) pl [[RtoC 1; RtoC 10]; [RtoC 2; RtoC 20]] Forward = Ok Y /\
  nth 0 Y [] = [RtoC 3; RtoC 30].
Proof.
  destruct (C78_forward 2 1 [[RtoC 1; RtoC 10]; [RtoC 2; RtoC 20]]) as [pl [Y [E [_ [_ [R [_ [RY H]]]]]]]]; try lia; auto.
  { repeat constructor. }
  exists pl, Y. split; auto. split; auto.
  pose proof (H 0 ltac:(lia)) as H0. pose proof (H 1 ltac:(lia)) as H1.
  destruct Y as [|y Y]; [discriminate|]. inversion RY as [|? ? Ly _]; subst. destruct y as [|a [|b [|]]]; try discriminate.
  unfold lane, DFT_list, DFT, Csum in *. cbn [map nth length bsum tab seq] in *. unfold tab in *. cbn [map seq] in *.
  apply (f_equal (fun l => nth 0 l C0)) in H0. apply (f_equal (fun l => nth 0 l C0)) in H1. cbn [nth] in *.
  cbn [nth]. rewrite H0, H1, !Nat.mul_0_r, !DftTheory.W_0. repeat f_equal; apply C_eq; simpl; ring.
Qed.

Print Assumptions C78_forward.
Print Assumptions C78_backward_only_reorders.
Print Assumptions C78_backward_refuted.
Print Assumptions C78_split.
Print Assumptions C78_split_round_trip.
Print Assumptions C78_split_functions.
