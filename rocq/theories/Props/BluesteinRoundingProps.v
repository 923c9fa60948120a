(** Property theorems C75, transforms of any size (Bluestein's algorithm) in rounded arithmetic.
    Specification: Spec/Rounding.v and Spec/RoundedSums.v (the two formats, [unit_roundoff] = 2^-24
    or 2^-53), Spec/Dft.v (the exact transform), Spec/RoundedBluestein.v (plans after any calls);
    [vnorm n f] is the Euclidean norm of f(0), ..., f(n-1). *)
From Coq Require Import Reals List Arith ZArith Lia Lra.
From Flocq Require Import Core.
From Verif Require Import Base.Outcome Base.OutcomeFacts Base.Sums Base.Cplx Base.VecNorm Spec.Dft Spec.Rounding Spec.RoundedSums Spec.RoundedBluestein
  Model.Fft2 Model.FftApps Model.RoundedFft Model.RoundedBluestein
  Proof.DftTheory Proof.RoundedDct Proof.RoundedBluestein Proof.RoundedBluesteinError
  Props.RoundedFftProps Props.RoundedRealProps.
Import ListNotations.
Local Open Scope R_scope.

(** All bins together, on a plan with any history of calls in either direction: the vector of errors
    has a norm of at most 481 log2(2 size + 1) u size X, X any bound on the norm of the input. *)
Theorem C75_bluestein : forall prec emin emax rnd fcos fsin size p d x X, ieee prec emin emax -> rounds_to_nearest prec emin emax rnd -> accurate prec emin fcos cos -> accurate prec emin fsin sin ->
  (0 < size)%nat -> (size * 2 + 1 <= 2 ^ max_order)%nat -> rdft_reach rnd fcos fsin size p -> length x = size -> vnorm size (fun i => nth i x C0) <= X -> / 2 ^ 20 <= X <= 2 ^ 40 ->
  exists p' y, rdft_plan_run rnd p x d = Ok (p', y) /\ length y = size /\
    vnorm size (fun k => nth k y C0 - DFT d size (fun i => nth i x C0) k)%C <= 481 * INR (Nat.log2_up (size * 2 + 1)) * unit_roundoff prec * (INR size * X).
Proof.
  intros prec emin emax rnd fcos fsin size p d x X HF Hr Hc Hs H0 Hn HR Hx HX HXr. destruct (ieee_two_pi _ _ _ rnd HF Hr) as [T1 T2]. destruct (ieee_bounds _ _ _ HF) as (B1 & B2 & B3 & B4).
  destruct (rdft_run_ok rnd fcos fsin size p x d H0 (rdft_reach_inv rnd fcos fsin size p H0 Hn HR) Hx) as (p' & E & _).
  exists p', (RBL rnd fcos fsin d x). split; [exact E|]. split; [unfold RBL; rewrite tab_length; exact Hx|].
  apply (bluestein_error prec emin emax B1 B2 B3 B4 rnd fcos fsin Hr Hc Hs T1 T2 size H0 Hn d x X Hx HX HXr).
Qed.

(** A fresh plan exists for every size whose padded length is within the largest supported order. *)
Theorem C75_bluestein_plans_exist : forall (rnd fcos fsin : R -> R) size, (0 < size)%nat -> (size * 2 + 1 <= 2 ^ max_order)%nat -> exists p, rdft_reach rnd fcos fsin size p.
Proof. intros rnd fcos fsin size H0 Hn. destruct (rmake_dft_ok rnd fcos fsin size H0 Hn) as (p & E). exists p. constructor. exact E. Qed.

(** Correctly rounded binary32 arithmetic: three ones have no component at bin 1 up to 2^-10, also
    when the plan has served a backward call before. *)
Example C75_bluestein_example : exists rnd fcos fsin p p' y' p'' y, let x := [RtoC 1; RtoC 1; RtoC 1] in rounds_to_nearest 24 (-149) 127 rnd /\ accurate 24 (-149) fcos cos /\ accurate 24 (-149) fsin sin /\
  rmake_dft_plan rnd fcos fsin 3 = Ok p /\ rdft_plan_run rnd p x Backward = Ok (p', y') /\ rdft_plan_run rnd p' x Forward = Ok (p'', y) /\ Cabs (nth 1 y C0) <= bpow radix2 (-10).
Proof.
  destruct C63_hypotheses as (rnd & fcos & fsin & _ & Hr & Hc & Hs & _). assert (IE : ieee 24 (-149) 127) by (left; lia).
  assert (M : (3 * 2 + 1 <= 2 ^ max_order)%nat) by (apply Nat.le_trans with (2 ^ 3)%nat; [cbn; lia|unfold max_order; apply Nat.pow_le_mono_r; lia]).
  destruct (rmake_dft_ok rnd fcos fsin 3 ltac:(lia) M) as (p0 & E0). set (x := [RtoC 1; RtoC 1; RtoC 1]).
  assert (NX : vnorm 3 (fun i => nth i x C0) <= 2). { unfold vnorm. replace 2 with (sqrt (2 * 2)) by (apply sqrt_square; lra). apply sqrt_le_1_alt. unfold Rsum, Cnorm2, x, RtoC. cbn. lra. }
  assert (X2 : / 2 ^ 20 <= 2 <= 2 ^ 40) by lra.
  assert (R0 : rdft_reach rnd fcos fsin 3 p0) by (constructor; exact E0).
  destruct (C75_bluestein 24 (-149) 127 rnd fcos fsin 3 p0 Backward x 2 IE Hr Hc Hs ltac:(lia) M R0 eq_refl NX X2) as (p' & y' & E' & _).
  destruct (C75_bluestein 24 (-149) 127 rnd fcos fsin 3 p' Forward x 2 IE Hr Hc Hs ltac:(lia) M (rdft_ran _ _ _ _ _ _ _ _ _ R0 E') eq_refl NX X2) as (p'' & y & E & _ & B).
  exists rnd, fcos, fsin, p0, p', y', p'', y. cbv zeta. fold x. repeat (split; [first [assumption|reflexivity]|]).
  assert (D : DFT Forward 3 (fun i => nth i x C0) 1 = C0).
  { rewrite (DFT_ext Forward 3 _ (fun _ => C1)). 2:{ intros j Hj. destruct j as [|[|[|j]]]; [reflexivity..|lia]. } unfold DFT. rewrite (Csum_ext _ _ (fun j => W Forward 3 (j * 1))) by (intros; ring). rewrite (W_orth Forward 3 1) by lia. reflexivity. }
  pose proof (Cabs_le_vnorm 3 (fun k => nth k y C0 - DFT Forward 3 (fun i => nth i x C0) k)%C 1 ltac:(lia)) as Q. cbv beta in Q. rewrite D in Q. replace (nth 1 y C0 - C0)%C with (nth 1 y C0) in Q by ring.
  eapply Rle_trans; [exact Q|]. eapply Rle_trans; [exact B|]. change (Nat.log2_up (3 * 2 + 1)) with 3%nat. replace (INR 3) with 3 by (cbn; ring). unfold unit_roundoff. change (-(24))%Z with (-24)%Z.
  replace (bpow radix2 (-10)) with (16384 * bpow radix2 (-24)) by (replace (-10)%Z with (14 + -24)%Z by lia; rewrite bpow_plus; reflexivity). pose proof (bpow_gt_0 radix2 (-24)). lra.
Qed.

Print Assumptions C75_bluestein.
Print Assumptions C75_bluestein_plans_exist.
