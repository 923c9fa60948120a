(** What the rounded real transforms compute, and how far it is from the exact transforms. *)
From Coq Require Import Reals List Arith ZArith Lia Lra Psatz Bool.
From Flocq Require Import Core.
From Verif Require Import Base.Outcome Base.OutcomeFacts Base.Sums Base.Alias Base.Cplx Base.VecNorm Spec.Dft Spec.DigitRev Spec.Transforms Spec.Rounding
  Model.Fft2 Model.Algorithm Model.FftApps Model.RoundedFft Model.RoundedConv
  Proof.DftTheory Proof.BitrevProof Proof.Fft2Proof Proof.AlgorithmProof Proof.RfftProof Proof.RoundedExec Proof.RoundedError Proof.RoundedPlan.
Import ListNotations.
Local Arguments Nat.div : simpl never.
Local Arguments Nat.modulo : simpl never.
Local Arguments Nat.pow : simpl never.

Section Structure.
Variables rnd fcos fsin : R -> R.

(** The list a plan of order [p] makes of [x]. *)
Definition FR (p : nat) (d : direction) (x : list C) : list C :=
  stages rnd p (tab (2 ^ (p - 1)) (fun i => rtwiddle rnd fcos fsin (rtwo_pi rnd) (2 ^ p) i d)) p (tab (2 ^ p) (fun i => nth (digit_rev 2 p i) x C0)).

Lemma FR_length : forall p d x, length (FR p d x) = 2 ^ p.
Proof using. intros. unfold FR. rewrite stages_length. apply tab_length. Qed.

Lemma FR_plan : forall p d x, 0 < p <= 27 -> length x = 2 ^ p ->
  rfft_plan_run rnd fcos fsin (rdit2_v3 rnd) (rtwo_pi rnd) p x d = Ok (FR p d x).
Proof using.
  intros p d x Hp Hx. unfold rfft_plan_run, check_order, max_order. destruct (Nat.ltb_spec 27 p); [lia|]. cbn [bind]. rewrite bitrevorder_plan_ok. cbn [bind].
  destruct p as [|k]; [lia|]. rewrite rmake_twiddle_ok. cbn [bind]. rewrite (bitrev_apply_rev C C0 (S k) x Hx). cbn [bind].
  rewrite (rv3_ok rnd (S k)); [|lia|apply tab_length|rewrite tab_length; f_equal; lia]. unfold FR. replace (S k - 1) with k by lia. reflexivity.
Qed.

Lemma rfft_obj : forall p pl d x, rmake_dit2_plan rnd fcos fsin p = Ok pl -> 0 < p -> length x = 2 ^ p ->
  run_dit2_plan (rdit2_v3 rnd) pl x d = Ok (FR p d x).
Proof using.
  intros p pl d x E Hp Hx. unfold rmake_dit2_plan, check_order in E. destruct (max_order <? p); [discriminate|]. cbn [bind] in E. rewrite bitrevorder_plan_ok in E. cbn [bind] in E.
  destruct p as [|k]; [lia|]. rewrite !rmake_twiddle_ok in E. cbn [bind] in E. match type of E with Ok ?a = Ok ?b => assert (E' : a = b) by congruence end. rewrite <- E'. clear E E'. unfold run_dit2_plan. cbn [p_reorder p_wf p_wb].
  rewrite (bitrev_apply_rev C C0 (S k) x Hx). cbn [bind].
  destruct d; (rewrite (rv3_ok rnd (S k)); [|lia|apply tab_length|rewrite tab_length; f_equal; lia]); unfold FR; replace (S k - 1) with k by lia; reflexivity.
Qed.

Definition rrf_inv (order : nat) (p : rfft_plan) : Prop :=
  rf_order p = order /\ rmake_dit2_plan rnd fcos fsin order = Ok (rf_fft p) /\ length (rf_buf p) = 2 ^ order.

Lemma rmake_rfft_ok : forall order, 0 < order <= 27 -> exists p, rmake_rfft_plan rnd fcos fsin order = Ok p /\ rrf_inv order p.
Proof using.
  intros order Ho. unfold rmake_rfft_plan. assert (E : exists pl, rmake_dit2_plan rnd fcos fsin order = Ok pl).
  { unfold rmake_dit2_plan, check_order, max_order. destruct (Nat.ltb_spec 27 order); [lia|]. cbn [bind]. rewrite bitrevorder_plan_ok. cbn [bind].
    destruct order as [|k]; [lia|]. rewrite !rmake_twiddle_ok. cbn [bind]. eexists. reflexivity. }
  destruct E as [pl E]. rewrite E. cbn [bind]. eexists. split; [reflexivity|]. unfold rrf_inv. cbn [rf_order rf_fft rf_buf]. rewrite repeat_length. auto.
Qed.

(** Bins of the computed forward transform, samples of the computed backward transform. *)
Definition RF (p : nat) (x : list R) : list C := tab (2 ^ p / 2 + 1) (fun i => nth i (FR p Forward (map RtoC x)) C0).
Definition RB (p : nat) (X : list C) : list R :=
  tab (2 ^ p) (fun i => fst (nth i (FR p Backward (tab (2 ^ p) (herm (2 ^ p) (fun k => nth k X C0)))) C0)).

Lemma rrfft_forward_ok : forall order p x out, 0 < order -> rrf_inv order p -> length x = 2 ^ order -> 2 ^ order / 2 + 1 <= length out ->
  exists p', rrfft_forward rnd p x out = Ok (p', RF order x ++ skipn (2 ^ order / 2 + 1) out) /\ rrf_inv order p'.
Proof using.
  intros order p x out Ho [I1 [I2 I3]] Hx Hout. unfold rrfft_forward. rewrite copy_full by lia. cbn [bind].
  rewrite (rfft_obj order) by (auto; rewrite map_length; auto). cbn [bind]. set (y := FR order Forward (map RtoC x)).
  assert (Ly : length y = 2 ^ order) by apply FR_length.
  destruct (pow2_half order Ho) as [m [Hm [En Em]]]. rewrite I1, En, half_of_double in *.
  rewrite slice_ok by lia. cbn [bind]. rewrite copy_ok by (rewrite firstn_length, skipn_length; lia). cbn [bind]. eexists. split.
  - f_equal. f_equal. rewrite map_id. rewrite firstn_length, skipn_length. replace (Nat.min (m + 1 - 0) (length y - 0)) with (m + 1) by lia. f_equal.
    unfold RF. rewrite En, half_of_double. apply (list_eq_tab _ C0).
    + rewrite firstn_length, skipn_length. lia.
    + intros i Hi. rewrite nth_firstn_lt by lia. rewrite nth_skipn_add. reflexivity.
  - unfold rrf_inv. cbn [rf_order rf_fft rf_buf]. repeat split; auto; lia.
Qed.

Lemma RB_ext : forall p X X', 0 < p -> (forall k, k <= 2 ^ (p - 1) -> nth k X C0 = nth k X' C0) -> RB p X = RB p X'.
Proof using.
  intros p X X' Hp H. unfold RB. destruct (pow2_half p Hp) as [m [Hm [En Em]]]. rewrite <- Em in H. apply tab_ext. intros i Hi. f_equal. f_equal. f_equal. apply tab_ext. intros k Hk. unfold herm. rewrite En, half_of_double in *.
  destruct (Nat.leb_spec (m + 1) k); rewrite H by lia; auto.
Qed.

Lemma rrfft_backward_ok : forall order p X out, 0 < order -> rrf_inv order p -> 2 ^ order / 2 + 1 <= length X <= 2 ^ order -> length out = 2 ^ order ->
  exists p', rrfft_backward rnd p X out = Ok (p', RB order X) /\ rrf_inv order p'.
Proof using.
  intros order p X out Ho [I1 [I2 I3]] HX Hout. unfold rrfft_backward. rewrite I1. rewrite copy_ok by lia. cbn [bind]. set (buf0 := map (fun v => v) X ++ skipn (length X) (rf_buf p)).
  assert (Lb : length buf0 = 2 ^ order). { unfold buf0. rewrite app_length, map_length, skipn_length. lia. }
  rewrite mirror_loop by auto. cbn [bind]. rewrite (rfft_obj order) by (auto; apply tab_length). cbn [bind].
  destruct (pow2_half order Ho) as [m [Hm [En Em]]].
  assert (G : forall k, k <= m -> nth k buf0 C0 = nth k X C0).
  { intros k Hk. unfold buf0. rewrite map_id. apply app_nth1. rewrite En, half_of_double in HX. lia. }
  rewrite (for_range_tab _ 0%R (2 ^ order) _ out (fun i => nth i (RB order buf0) 0%R)); auto.
  2:{ intros j l Hj Hl _. rewrite (rd_ok _ _ j C0) by (rewrite FR_length; lia). cbn [bind]. rewrite wr_ok by lia. f_equal. f_equal. unfold RB. rewrite nth_tab by auto. reflexivity. }
  cbn [bind]. eexists. split.
  - f_equal. f_equal. rewrite <- (RB_ext order buf0 X) by (auto; rewrite <- Em; auto). symmetry. apply list_eq_tab with (d := 0%R); [apply tab_length|auto].
  - unfold rrf_inv. cbn [rf_order rf_fft rf_buf]. rewrite FR_length. auto.
Qed.
End Structure.
