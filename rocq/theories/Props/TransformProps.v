(** Property theorems C23-C28, C33, C35: transforms built on the complex FFT.
    Specifications in Spec/Dft.v and Spec/Transforms.v. *)
From Coq Require Import Reals List Arith ZArith Lia Lra.
From Verif Require Import Base.Outcome Base.OutcomeFacts Base.Alias Base.Cplx Spec.Dft Spec.Transforms.
From Verif Require Import Model.Fft2 Model.FftApps Model.ExpRfft.
From Verif Require Import Proof.RfftProof Proof.SplitFftProof Proof.BluesteinProof Proof.DctProof Proof.ExpRfftProof Proof.FftCorollaries.
Import ListNotations.
Local Open Scope nat_scope.

(** C23: in place and out of place, both directions. *)
Theorem C23_split_fft : forall p, 0 < p <= 30 -> exists pl, make_split_plan p = Ok pl /\
  forall d re im, length re = 2 ^ p -> length im = 2 ^ p ->
  let X := DFT_list d (combine re im) in
  split_run pl (re, im) d = Ok (map fst X, map snd X) /\
  forall ore oim, length ore = 2 ^ p -> length oim = 2 ^ p ->
    split_run_out pl (re, im) (ore, oim) d = Ok (map fst X, map snd X).
Proof. exact split_fft_ok. Qed.

Theorem C23_agrees_with_complex_plan : forall p d re im, 0 < p <= 27 -> length re = 2 ^ p -> length im = 2 ^ p ->
  exists pl X, make_split_plan p = Ok pl /\ fft_plan_run p (combine re im) d = Ok X /\
    split_run pl (re, im) d = Ok (map fst X, map snd X).
Proof. exact split_fft_agrees. Qed.

Theorem C23_roundtrip : forall p d re im, 0 < p <= 30 -> length re = 2 ^ p -> length im = 2 ^ p ->
  exists pl y, make_split_plan p = Ok pl /\ split_run pl (re, im) d = Ok y /\
    split_run pl y (flip d) = Ok (map (fun v => (INR (2 ^ p) * v)%R) re, map (fun v => (INR (2 ^ p) * v)%R) im).
Proof. exact split_fft_roundtrip. Qed.

Theorem C23_order_0_out_of_bounds : forall a b d, exists pl, make_split_plan 0 = Ok pl /\ split_run pl ([a], [b]) d = UB.
Proof. exact split_fft_order0. Qed.

Example C23_example : forall a b : R, exists pl, make_split_plan 1 = Ok pl /\
  split_run pl ([a; b], [0%R; 1%R]) Forward = Ok ([(a + b)%R; (a - b)%R], [(0 + 1)%R; (0 - 1)%R]).
Proof. intros. eexists. split; reflexivity. Qed.

(** C24: every state of the plan, i.e. after any calls. *)
Theorem C24_rfft_forward : forall order p x out, 0 < order -> rfft_reach order p ->
  length x = 2 ^ order -> length out = 2 ^ order / 2 + 1 ->
  exists p', rfft_forward p x out = Ok (p', RDFT_list Forward x).
Proof.
  intros order p x out Ho H Hx Hout.
  destruct (rfft_forward_ok order p x out Ho (rfft_reach_inv order p Ho H) Hx (Nat.eq_le_incl _ _ (eq_sym Hout))) as [p' [E _]].
  exists p'. rewrite E, <- Hout, skipn_all, app_nil_r. reflexivity.
Qed.

(** A longer output keeps its tail. *)
Theorem C24_rfft_forward_long_output : forall order p x out, 0 < order -> rfft_reach order p ->
  length x = 2 ^ order -> 2 ^ order / 2 + 1 <= length out ->
  exists p', rfft_forward p x out = Ok (p', RDFT_list Forward x ++ skipn (2 ^ order / 2 + 1) out).
Proof.
  intros order p x out Ho H Hx Hout.
  destruct (rfft_forward_ok order p x out Ho (rfft_reach_inv order p Ho H) Hx Hout) as [p' [E _]]. exists p'. exact E.
Qed.

Theorem C24_plan_exists : forall order, 0 < order <= 27 -> exists p, make_rfft_plan order = Ok p /\ rfft_reach order p.
Proof.
  intros order Ho. unfold make_rfft_plan. destruct (fft_plan_object order Ho) as [pl [E _]]. rewrite E.
  eexists. split; [reflexivity|]. apply rfft_made. unfold make_rfft_plan. rewrite E. reflexivity.
Qed.

Theorem C24_real_bins : forall order (x : list R), 0 < order -> length x = 2 ^ order ->
  snd (nth 0 (RDFT_list Forward x) C0) = 0%R /\ snd (nth (2 ^ order / 2) (RDFT_list Forward x) C0) = 0%R.
Proof.
  intros order x Ho Hx. destruct (pow2_half order Ho) as [m [Hm [En _]]].
  unfold RDFT_list. rewrite Hx, En, half_of_double. rewrite !nth_tab by lia. apply rdft_real_bins. exact Hm.
Qed.

(** C25: backward transform of any half spectrum, and the round trip. *)
Theorem C25_irfft : forall order p X out, 0 < order -> rfft_reach order p ->
  2 ^ order / 2 + 1 <= length X <= 2 ^ order -> length out = 2 ^ order ->
  exists p', rfft_backward p X out = Ok (p', tab (2 ^ order) (IRDFT (2 ^ (order - 1)) (fun k => nth k X C0))).
Proof.
  intros order p X out Ho H HX Hout.
  destruct (rfft_backward_ok order p X out Ho (rfft_reach_inv order p Ho H) HX Hout) as [p' [E _]]. exists p'. exact E.
Qed.

Theorem C25_roundtrip : forall order p x out out2, 0 < order -> rfft_reach order p ->
  length x = 2 ^ order -> length out = 2 ^ order / 2 + 1 -> length out2 = 2 ^ order ->
  exists p1 X p2, rfft_forward p x out = Ok (p1, X) /\
    rfft_backward p1 X out2 = Ok (p2, map (fun v => (INR (2 ^ order) * v)%R) x).
Proof. exact rfft_roundtrip_reach. Qed.

Example C25_example : exists p p1 X p2, make_rfft_plan 1 = Ok p /\ rfft_reach 1 p /\
  rfft_forward p [3%R; 5%R] [C0; C0] = Ok (p1, X) /\ rfft_backward p1 X [0%R; 0%R] = Ok (p2, [(INR 2 * 3)%R; (INR 2 * 5)%R]).
Proof.
  destruct (C24_plan_exists 1) as [p [E H]]; [lia|].
  destruct (C25_roundtrip 1 p [3%R; 5%R] [C0; C0] [0%R; 0%R]) as [p1 [X [p2 [A B]]]]; auto.
  exists p, p1, X, p2. repeat split; auto.
Qed.

(** C26: sizes 1, 2, 3, ... *)
Theorem C26_deinterleave : forall (a b : list R) x y, length a = length b -> 0 < length a ->
  length x = length a / 2 + 1 -> length y = length a / 2 + 1 ->
  rfft_deinterleave (DFT_list Forward (combine a b)) x y = Ok (RDFT_list Forward a, RDFT_list Forward b).
Proof. exact deinterleave_two. Qed.

Example C26_example : rfft_deinterleave (DFT_list Forward (combine [1; 2; 3]%R [4; 5; 6]%R)) [C0; C0] [C0; C0] =
  Ok (RDFT_list Forward [1; 2; 3]%R, RDFT_list Forward [4; 5; 6]%R).
Proof. apply C26_deinterleave; auto. simpl. lia. Qed.

(** C27: any size, any call history. *)
Theorem C27_dft_plan : forall n p x d, 0 < n -> n * 2 + 1 <= 2 ^ 27 -> dft_reach n p -> length x = n ->
  exists p', dft_plan_run p x d = Ok (p', DFT_list d x) /\ dft_reach n p'.
Proof.
  intros n p x d Hn Hm H Hx. assert (HZ : (Z.of_nat (n * 2 + 1) <= 2 ^ 63)%Z).
  { transitivity (Z.of_nat (2 ^ 27)). { apply inj_le. exact Hm. } rewrite Nat2Z.inj_pow. apply Z.pow_le_mono_r; lia. }
  destruct (dft_plan_run_ok n p x d Hn (dft_reach_inv n p Hn HZ H) Hx) as [p' [E _]]. exists p'. split; auto.
  eapply dft_run; eauto.
Qed.

Theorem C27_constructor : forall n, (n * 2 + 1 <= 2 ^ 27 -> exists p, make_dft_plan n = Ok p) /\
  (2 ^ 27 < n * 2 + 1 -> (Z.of_nat (n * 2 + 1) <= 2 ^ 63)%Z -> make_dft_plan n = Throw).
Proof. intros n. split; [apply make_dft_plan_ok|apply make_dft_plan_throws]. Qed.

Theorem C27_roundtrip : forall n p x d, 0 < n -> n * 2 + 1 <= 2 ^ 27 -> dft_reach n p -> length x = n ->
  exists p1 y p2, dft_plan_run p x d = Ok (p1, y) /\
    dft_plan_run p1 y (flip d) = Ok (p2, map (fun c => (RtoC (INR n) * c)%C) x).
Proof.
  intros n p x d Hn Hm H Hx. destruct (C27_dft_plan n p x d Hn Hm H Hx) as [p1 [E1 H1]].
  destruct (C27_dft_plan n p1 (DFT_list d x) (flip d) Hn Hm H1) as [p2 [E2 _]]. { rewrite DFT_list_length. exact Hx. }
  exists p1, (DFT_list d x), p2. split; auto. rewrite E2, DFT_list_inv, Hx. reflexivity.
Qed.

Theorem C27_size_0_out_of_bounds : exists p, make_dft_plan 0 = Ok p /\ forall x d, dft_plan_run p x d = UB.
Proof. exact dft_plan_size0. Qed.

Example C27_example : exists p p1 p2, make_dft_plan 3 = Ok p /\
  dft_plan_run p [C1; Ci; C0] Forward = Ok (p1, DFT_list Forward [C1; Ci; C0]) /\
  dft_plan_run p1 [Ci; Ci; C1] Backward = Ok (p2, DFT_list Backward [Ci; Ci; C1]).
Proof.
  assert (M : 3 * 2 + 1 <= 2 ^ 27). { transitivity (2 ^ 3). { simpl. lia. } apply Nat.pow_le_mono_r; lia. }
  destruct (proj1 (C27_constructor 3) M) as [p E].
  destruct (C27_dft_plan 3 p [C1; Ci; C0] Forward ltac:(lia) M (dft_made 3 p E) eq_refl) as [p1 [E1 H1]].
  destruct (C27_dft_plan 3 p1 [Ci; Ci; C1] Backward ltac:(lia) M H1 eq_refl) as [p2 [E2 _]].
  exists p, p1, p2. auto.
Qed.

(** C28. *)
Theorem C28_dft : forall x out d, length out = length x -> dft (Other x) out d = Ok (DFT_list d x).
Proof. exact dft_ok. Qed.

Theorem C28_roundtrip : forall x out out2 d, length out = length x -> length out2 = length x ->
  exists y, dft (Other x) out d = Ok y /\ dft (Other y) out2 (flip d) = Ok (map (fun c => (RtoC (INR (length x)) * c)%C) x).
Proof. exact dft_roundtrip. Qed.

(** With the input as output the result is not the DFT. *)
Theorem C28_in_place_refuted : exists y, dft Self [C0; C1] Forward = Ok y /\ y <> DFT_list Forward [C0; C1].
Proof. exact dft_in_place_wrong. Qed.

Example C28_example : dft (Other [C1; Ci; C1]) [C0; C0; C0] Backward = Ok (DFT_list Backward [C1; Ci; C1]).
Proof. apply C28_dft. reflexivity. Qed.

(** C33. *)
Theorem C33_dct : forall order p x, 0 < order -> dct_reach order p -> length x = 2 ^ order ->
  exists p', dct_run p x = Ok (p', tab (2 ^ order) (DCT2 (2 ^ order) (fun i => nth i x 0%R))).
Proof.
  intros order p x Ho H Hx. destruct (dct_run_ok order p x Ho (dct_reach_inv order p Ho H) Hx) as [p' [E _]]. exists p'. exact E.
Qed.

Theorem C33_order_0_out_of_bounds : exists p, make_dct_plan 0 = Ok p /\ forall v, dct_run p [v] = UB.
Proof. exact dct_order0. Qed.

Example C33_example : exists p p1, make_dct_plan 2 = Ok p /\
  dct_run p [1; 2; 3; 4]%R = Ok (p1, tab 4 (DCT2 4 (fun i => nth i [1; 2; 3; 4]%R 0%R))).
Proof.
  destruct (fft_plan_object 2 ltac:(lia)) as [pl [E _]].
  assert (M : make_dct_plan 2 = Ok (DctPlan 2 pl (repeat C0 (2 ^ 2)))). { unfold make_dct_plan. rewrite E. reflexivity. }
  destruct (C33_dct 2 _ [1; 2; 3; 4]%R ltac:(lia) (dct_made 2 _ M) eq_refl) as [p1 H]. eauto.
Qed.

(** C35: what the experimental plan packs, its round trip, and the refutation. *)
Theorem C35_forward : forall p, 1 < p <= 28 -> exists pl, make_exp_rfft p = Ok pl /\
  forall x, length x = 2 ^ p ->
  let n := 2 ^ p in
  let Y := DFT Forward n (fun j => RtoC (odd_rotated n (fun i => nth i x 0%R) j)) in
  exists out, exp_rfft_run pl x Forward = Ok out /\ length out = n /\
    nth 0 out 0%R = fst (Y 0) /\ nth 1 out 0%R = fst (Y (n / 2)) /\
    forall k, 0 < k < n / 2 -> nth (2 * k) out 0%R = fst (Y k) /\ nth (2 * k + 1) out 0%R = snd (Y k).
Proof. exact exp_rfft_forward_ok. Qed.

Theorem C35_roundtrip : forall p, 1 < p <= 28 -> exists pl, make_exp_rfft p = Ok pl /\
  forall x, length x = 2 ^ p -> exists y, exp_rfft_run pl x Forward = Ok y /\
    exp_rfft_run pl y Backward = Ok (map (fun v => (INR (2 ^ p / 2) * v)%R) x).
Proof. exact exp_rfft_roundtrip. Qed.

Theorem C35_packed_dft_refuted : forall p, 1 < p <= 28 -> exists pl x out, make_exp_rfft p = Ok pl /\ length x = 2 ^ p /\
  exp_rfft_run pl x Forward = Ok out /\ nth 3 out 0%R <> snd (nth 1 (RDFT_list Forward x) C0).
Proof. exact exp_rfft_not_dft. Qed.

Theorem C35_size_2_out_of_bounds : exists pl, make_exp_rfft 1 = Ok pl /\ forall a b d, exp_rfft_run pl [a; b] d = UB.
Proof. exact exp_rfft_order1. Qed.

Print Assumptions C23_split_fft.
Print Assumptions C23_agrees_with_complex_plan.
Print Assumptions C23_roundtrip.
Print Assumptions C23_order_0_out_of_bounds.
Print Assumptions C24_rfft_forward.
Print Assumptions C24_rfft_forward_long_output.
Print Assumptions C24_plan_exists.
Print Assumptions C24_real_bins.
Print Assumptions C25_irfft.
Print Assumptions C25_roundtrip.
Print Assumptions C26_deinterleave.
Print Assumptions C27_dft_plan.
Print Assumptions C27_constructor.
Print Assumptions C27_roundtrip.
Print Assumptions C27_size_0_out_of_bounds.
Print Assumptions C28_dft.
Print Assumptions C28_roundtrip.
Print Assumptions C28_in_place_refuted.
Print Assumptions C33_dct.
Print Assumptions C33_order_0_out_of_bounds.
Print Assumptions C35_forward.
Print Assumptions C35_roundtrip.
Print Assumptions C35_packed_dft_refuted.
Print Assumptions C35_size_2_out_of_bounds.
