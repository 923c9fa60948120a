(** The DCT-II plan. *)
From Coq Require Import List Arith Bool Lia Reals Lra.
From Verif Require Import Base.Outcome Base.OutcomeFacts Base.Sums Base.Alias Base.Cplx Spec.Dft Spec.DigitRev Spec.Transforms.
From Verif Require Import Model.Fft2 Model.Algorithm Model.FftApps.
From Verif Require Import Proof.DftTheory Proof.DigitRevTheory Proof.Fft2Proof Proof.AlgorithmProof Proof.FftCorollaries Proof.RfftProof.
Import ListNotations.
Local Arguments Nat.div : simpl never.
Local Arguments Nat.modulo : simpl never.
Local Open Scope nat_scope.

Definition dc_inv (order : nat) (p : dct_plan) : Prop :=
  dc_order p = order /\ make_dit2_plan order = Ok (dc_fft p) /\ length (dc_buf p) = 2 ^ order.

Lemma make_dct_inv : forall order p, make_dct_plan order = Ok p -> dc_inv order p.
Proof.
  intros order p H. unfold make_dct_plan in H. apply bind_ok in H. destruct H as [f [E H]]. inversion H. subst.
  unfold dc_inv. cbn [dc_order dc_fft dc_buf]. rewrite repeat_length. auto.
Qed.

Lemma dct_run_inv : forall order p x p' x', 0 < order -> dc_inv order p -> dct_run p x = Ok (p', x') -> dc_inv order p'.
Proof.
  intros order p x p' x' Ho [I1 [I2 I3]] H. unfold dct_run in H.
  apply bind_ok in H. destruct H as [b [E H]].
  assert (Lb : length b = 2 ^ order).
  { refine (for_range_keeps _ (fun b => length b = 2 ^ order) _ _ _ _ _ _ I3 E).
    intros j t t' Ht Hb. cbv zeta in Hb. apply bind_ok in Hb. destruct Hb as [v [_ Hb]].
    apply bind_ok in Hb. destruct Hb as [u [E1 Hb]]. apply wr_inv in E1. destruct E1 as [_ E1].
    apply bind_ok in Hb. destruct Hb as [v' [_ Hb]]. apply wr_inv in Hb. destruct Hb as [_ Hb]. subst.
    rewrite !upd_length. auto. }
  rewrite (fft_obj order) in H by auto. cbn [bind] in H. apply bind_ok in H. destruct H as [o [_ H]].
  inversion H. subst. unfold dc_inv. cbn [dc_order dc_fft dc_buf]. rewrite DFT_list_length. auto.
Qed.

Lemma dct_reach_inv : forall order p, 0 < order -> dct_reach order p -> dc_inv order p.
Proof. intros order p Ho H. induction H. { apply make_dct_inv; auto. } eapply dct_run_inv; eauto. Qed.

Definition dct_perm (m : nat) (x : nat -> R) (i : nat) : R := if i <? m then x (2 * i) else x (2 * (2 * m - 1 - i) + 1).

Lemma dct_load : forall m (x : list R) (buf : list C), length x = 2 * m -> length buf = 2 * m ->
  for_range 0 m (fun i buf =>
    let src := i * 2 in
    let top := 2 * m - i - 1 in
    v <- rd x src ;;
    buf <- wr buf i (RtoC v) ;;
    v <- rd x (src + 1) ;;
    wr buf top (RtoC v)) buf = Ok (tab (2 * m) (fun i => RtoC (dct_perm m (fun j => nth j x 0%R) i))).
Proof.
  intros m x buf Hx Hb.
  destruct (for_range_inv _ (fun j (l : list C) => length l = 2 * m /\ forall i, i < 2 * m -> (i < j \/ 2 * m - 1 - j < i) ->
      nth i l C0 = RtoC (dct_perm m (fun j => nth j x 0%R) i)) 0 m
    (fun i buf =>
    let src := i * 2 in
    let top := 2 * m - i - 1 in
    v <- rd x src ;;
    buf <- wr buf i (RtoC v) ;;
    v <- rd x (src + 1) ;;
    wr buf top (RtoC v)) buf) as [l [E [L V]]].
  - lia.
  - split; auto. intros; lia.
  - intros j l Hj [L V]. cbv zeta. rewrite (rd_ok _ x _ 0%R) by lia. cbn [bind]. rewrite wr_ok by lia. cbn [bind].
    rewrite (rd_ok _ x _ 0%R) by lia. cbn [bind]. rewrite wr_ok by (rewrite upd_length; lia).
    eexists. split; [reflexivity|]. rewrite !upd_length. split; auto. intros i Hi Hc. unfold dct_perm.
    destruct (Nat.eq_dec i (2 * m - j - 1)).
    + subst i. rewrite nth_upd_eq by (rewrite upd_length; lia).
      rewrite (proj2 (Nat.ltb_ge _ m)) by lia. do 2 f_equal. lia.
    + rewrite nth_upd_neq by auto. destruct (Nat.eq_dec i j).
      * subst i. rewrite nth_upd_eq by lia. rewrite (proj2 (Nat.ltb_lt j m)) by lia. do 2 f_equal. lia.
      * rewrite nth_upd_neq by auto. apply V; lia.
  - etransitivity; [exact E|]. f_equal. apply (list_eq_tab _ C0); auto. intros i Hi. apply V; lia.
Qed.

Lemma Rsum_even_odd : forall m f, Rsum (2 * m) f = (Rsum m (fun i => f (2 * i)%nat) + Rsum m (fun i => f (2 * i + 1)%nat))%R.
Proof.
  induction m; intros f. { unfold Rsum. simpl. ring. }
  replace (2 * S m) with (S (S (2 * m))) by lia. rewrite !Rsum_S, IHm.
  replace (S (2 * m)) with (2 * m + 1) by lia. ring.
Qed.

Lemma Rsum_rev : forall n f, Rsum n f = Rsum n (fun i => f (n - 1 - i)%nat).
Proof. intros. unfold Rsum. apply (bsum_rev _ _ _ _ _ _ _ R_ring). Qed.

Lemma dct_math : forall m (x : nat -> R) k, 0 < m ->
  fst (DFT Forward (2 * m) (fun i => RtoC (dct_perm m x i)) k * (RtoC 2 * Cexp (-1 * PI * INR k / (2 * INR (2 * m)))))%C =
  DCT2 (2 * m) x k.
Proof.
  intros m x k Hm. set (n := 2 * m). assert (Hn : INR n <> 0%R) by (apply not_0_INR; unfold n; lia).
  assert (Term : forall i, fst (RtoC (dct_perm m x i) * W Forward n (i * k) * (RtoC 2 * Cexp (-1 * PI * INR k / (2 * INR n))))%C =
    (2 * (dct_perm m x i * cos (PI * INR k * INR (4 * i + 1) / INR (2 * n))))%R).
  { intros i. unfold W.
    transitivity (fst (RtoC (2 * dct_perm m x i) * (Cexp (dsign Forward * (2 * PI) * INR (i * k) / INR n) * Cexp (-1 * PI * INR k / (2 * INR n))))%C).
    { f_equal. rewrite RtoC_mul. ring. }
    rewrite <- Cexp_add.
    replace (dsign Forward * (2 * PI) * INR (i * k) / INR n + -1 * PI * INR k / (2 * INR n))%R with
      (- (PI * INR k * INR (4 * i + 1) / INR (2 * n)))%R.
    2:{ unfold dsign. rewrite !mult_INR, plus_INR, mult_INR. change (INR 4) with (2+1+1)%R || idtac.
        replace (INR 4) with 4%R by (simpl; ring). change (INR 2) with 2%R. change (INR 1) with 1%R. field. auto. }
    unfold Cexp, Cmul, RtoC. cbn [fst snd]. rewrite cos_neg. ring. }
  unfold DFT. rewrite <- Csum_mul_r, fst_Csum. rewrite (Rsum_ext _ _ _ (fun i _ => Term i)). unfold DCT2.
  rewrite Rsum_mul_l. f_equal.
  transitivity (Rsum m (fun i => x (2 * i)%nat * cos (PI * INR k * INR (2 * (2 * i) + 1) / INR (2 * n))) +
    Rsum m (fun i => x (2 * i + 1)%nat * cos (PI * INR k * INR (2 * (2 * i + 1) + 1) / INR (2 * n))))%R.
  2:{ symmetry. apply (Rsum_even_odd m). }
  replace n with (m + m) by (unfold n; lia). rewrite Rsum_split. f_equal.
  - apply Rsum_ext. intros i Hi. unfold dct_perm. rewrite (proj2 (Nat.ltb_lt i m)) by auto.
    do 2 f_equal. do 3 f_equal. lia.
  - rewrite Rsum_rev. apply Rsum_ext. intros i Hi. unfold dct_perm. rewrite (proj2 (Nat.ltb_ge _ m)) by lia.
    replace (2 * m - 1 - (m + (m - 1 - i))) with i by lia. f_equal.
    replace (PI * INR k * INR (4 * (m + (m - 1 - i)) + 1) / INR (2 * (m + m)))%R with
      (- (PI * INR k * INR (2 * (2 * i + 1) + 1) / INR (2 * (m + m))) + 2 * INR k * PI)%R.
    { rewrite cos_period, cos_neg. reflexivity. }
    assert (Q : INR (4 * (m + (m - 1 - i)) + 1) = (2 * INR (2 * (m + m)) - INR (2 * (2 * i + 1) + 1))%R).
    { replace 2%R with (INR 2) by reflexivity. rewrite <- mult_INR, <- minus_INR by lia. f_equal. lia. }
    rewrite Q. field. apply not_0_INR. lia.
Qed.

Lemma dct_run_ok : forall order p x, 0 < order -> dc_inv order p -> length x = 2 ^ order ->
  exists p', dct_run p x = Ok (p', tab (2 ^ order) (DCT2 (2 ^ order) (fun i => nth i x 0%R))) /\ dc_inv order p'.
Proof.
  intros order p x Ho [I1 [I2 I3]] Hx. destruct (pow2_half order Ho) as [m [Hm [En Em]]].
  unfold dct_run. rewrite Hx. rewrite En in *. rewrite half_of_double. rewrite dct_load by auto. cbn [bind].
  rewrite (fft_obj order) by (auto; rewrite En; apply tab_length). cbn [bind].
  rewrite (for_range_tab _ 0%R (2 * m) _ x (DCT2 (2 * m) (fun i => nth i x 0%R))); auto.
  - cbn [bind]. eexists. split; [reflexivity|]. unfold dc_inv. cbn [dc_order dc_fft dc_buf]. rewrite DFT_list_length, tab_length. rewrite En. auto.
  - intros j l Hj Hl _. rewrite (rd_ok _ _ j C0) by (rewrite DFT_list_length, tab_length; lia). cbn [bind].
    rewrite wr_ok by lia. do 2 f_equal. rewrite nth_DFT_list by (rewrite tab_length; auto). rewrite tab_length.
    rewrite (DFT_ext _ _ _ (fun i => RtoC (dct_perm m (fun j => nth j x 0%R) i))).
    2:{ intros i Hi. rewrite nth_tab by auto. auto. }
    apply dct_math. auto.
Qed.

Lemma dct_order0 : exists p, make_dct_plan 0 = Ok p /\ forall v, dct_run p [v] = UB.
Proof. eexists. split; [reflexivity|]. intros v. reflexivity. Qed.
