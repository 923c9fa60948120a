(** The experimental packed real FFT: what it computes, and its round trip. *)
From Coq Require Import List Arith Bool Lia Reals Lra.
From Verif Require Import Base.Outcome Base.OutcomeFacts Base.Sums Base.Alias Base.Cplx Spec.Dft Spec.DigitRev Spec.Transforms.
From Verif Require Import Model.Fft2 Model.Algorithm Model.ExpRfft.
From Verif Require Import Proof.DftTheory Proof.DigitRevTheory Proof.Fft2Proof Proof.BitrevProof Proof.FftCorollaries Proof.RfftProof Proof.SplitFftProof Proof.DctProof.
Import ListNotations.
Open Scope outcome_scope.
Local Arguments Nat.div : simpl never.
Local Arguments Nat.modulo : simpl never.
Local Open Scope nat_scope.

Lemma rd_interleave : forall (z : list C) i, i < length z ->
  rd (interleave z) (i * 2) = Ok (fst (nth i z C0)) /\ rd (interleave z) (i * 2 + 1) = Ok (snd (nth i z C0)).
Proof.
  intros z i H. destruct (nth_interleave R z i 0%R) as [A B].
  rewrite (rd_ok _ _ (i * 2) 0%R), (rd_ok _ _ (i * 2 + 1) 0%R) by (rewrite interleave_length; unfold C in *; lia).
  rewrite A, B. split; reflexivity.
Qed.

Lemma wr_interleave : forall (z : list C) i a b, i < length z ->
  (y <- wr (interleave z) (i * 2) a ;; wr y (i * 2 + 1) b) = Ok (interleave (upd z i (a, b))).
Proof.
  intros z i a b H. assert (L : length (interleave z) = 2 * length z) by apply interleave_length.
  rewrite wr_ok by lia. cbn [bind]. rewrite wr_ok by (rewrite upd_length; lia). f_equal. apply (upd_interleave R z i a b).
Qed.

Lemma wr2_interleave : forall B (z : list C) i a b (k : list R -> outcome B), i < length z ->
  (y <- wr (interleave z) (i * 2) a ;; y <- wr y (i * 2 + 1) b ;; k y) = k (interleave (upd z i (a, b))).
Proof.
  intros B z i a b k H. pose proof (wr_interleave z i a b H) as E.
  destruct (wr (interleave z) (i * 2) a); try discriminate. cbn [bind] in *. rewrite E. reflexivity.
Qed.

Lemma rd_interleave_ub : forall (z : list C) i, length z <= i -> rd (interleave z) (i * 2) = UB.
Proof. intros z i H. apply rd_ub. rewrite interleave_length. unfold C in *. lia. Qed.

(** One interleaved butterfly. *)
Lemma exp_bfly_hom : forall (w : C) i1 i2 (z : list C), i1 <> i2 ->
  (x1re <- rd (interleave z) (i1 * 2) ;; x1im <- rd (interleave z) (i1 * 2 + 1) ;;
   x2re <- rd (interleave z) (i2 * 2) ;; x2im <- rd (interleave z) (i2 * 2 + 1) ;;
   x <- wr (interleave z) (i1 * 2) (fst ((x1re, x1im) + w * (x2re, x2im))%C) ;;
   x <- wr x (i1 * 2 + 1) (snd ((x1re, x1im) + w * (x2re, x2im))%C) ;;
   x <- wr x (i2 * 2) (fst ((x1re, x1im) - w * (x2re, x2im))%C) ;;
   wr x (i2 * 2 + 1) (snd ((x1re, x1im) - w * (x2re, x2im))%C))
  = omap interleave (dit2_butterfly w i1 i2 z).
Proof.
  intros w i1 i2 z Hne. unfold dit2_butterfly.
  destruct (lt_dec i1 (length z)) as [H1|H1].
  2:{ rewrite (rd_interleave_ub z i1) by lia. rewrite (rd_ub _ z i1) by lia. reflexivity. }
  destruct (rd_interleave z i1 H1) as [A B]. rewrite A, B. rewrite (rd_ok _ z i1 C0) by auto. cbn [bind].
  destruct (lt_dec i2 (length z)) as [H2|H2].
  2:{ rewrite (rd_interleave_ub z i2) by lia. rewrite (rd_ub _ z i2) by lia. reflexivity. }
  destruct (rd_interleave z i2 H2) as [A' B']. rewrite A', B'. rewrite (rd_ok _ z i2 C0) by auto. cbn [bind].
  rewrite wr2_interleave by auto. rewrite wr_interleave by (rewrite upd_length; auto).
  rewrite !wr_ok by (rewrite ?upd_length; auto). cbn [bind]. rewrite wr_ok by (rewrite upd_length; auto).
  unfold omap. cbn [bind]. f_equal. f_equal. rewrite upd_comm by auto.
  destruct (nth i1 z C0), (nth i2 z C0). reflexivity.
Qed.

Lemma exp_stage_0_hom : forall (z : list C), exp_stage_0 (length z) (interleave z) = omap interleave (dit2_stage0 z).
Proof.
  intros z. rewrite dit2_stage0_bfly. unfold exp_stage_0. apply for_step_hom; [lia|].
  intros k s. rewrite <- exp_bfly_hom by lia. cbv zeta.
  destruct (rd (interleave s) (k * 2)); auto. cbn [bind]. destruct (rd (interleave s) (k * 2 + 1)); auto. cbn [bind].
  destruct (rd (interleave s) ((k + 1) * 2)); auto. cbn [bind]. destruct (rd (interleave s) ((k + 1) * 2 + 1)); auto. cbn [bind].
  unfold Cadd, Csub, Cmul, C1. cbn [fst snd].
  replace (1 * a1 - 0 * a2)%R with a1 by ring. replace (1 * a2 + 0 * a1)%R with a2 by ring. reflexivity.
Qed.

Lemma exp_stage_hom : forall (tw : list C) n L st ts (z : list C), 0 < L -> 0 < st -> length z = n ->
  for_step 0 n st (fun k x =>
      for_range 0 L (fun pair x =>
        tw <- rd tw (pair * ts) ;;
        let i1 := k + pair in
        let i1re := i1 * 2 in
        let i1im := i1re + 1 in
        let i2 := i1 + L in
        let i2re := i2 * 2 in
        let i2im := i2re + 1 in
        x1re <- rd x i1re ;; x1im <- rd x i1im ;;
        x2re <- rd x i2re ;; x2im <- rd x i2im ;;
        let x1 := (x1re, x1im) : C in
        let x2 := (x2re, x2im) : C in
        let xn1 := (x1 + tw * x2)%C in
        let xn2 := (x1 - tw * x2)%C in
        x <- wr x i1re (fst xn1) ;;
        x <- wr x i1im (snd xn1) ;;
        x <- wr x i2re (fst xn2) ;;
        wr x i2im (snd xn2)) x) (interleave z)
  = omap interleave (dit2_stage tw L st ts z).
Proof.
  intros tw n L st ts z HL Hst Hn. unfold dit2_stage. rewrite Hn. apply for_step_hom; auto.
  intros k s. unfold for_range. apply loop_hom. intros pair y.
  destruct (rd tw (pair * ts)); auto. cbn [bind]. rewrite <- exp_bfly_hom by lia. reflexivity.
Qed.

Lemma dit2_butterfly_length : forall w i1 i2 x x', dit2_butterfly w i1 i2 x = Ok x' -> length x' = length x.
Proof.
  intros w i1 i2 x x' H. unfold dit2_butterfly in H.
  repeat (apply bind_ok in H; let v := fresh "v" in let Q := fresh "Q" in destruct H as [v [Q H]];
    try (apply wr_inv in Q; destruct Q as [_ ->])).
  apply wr_inv in H. destruct H as [_ ->]. rewrite !upd_length. auto.
Qed.

Lemma exp_kernel_hom : forall (z tw : list C), exp_kernel (interleave z) tw = omap interleave (c2c_dit2_v3 z tw).
Proof.
  intros z tw. unfold exp_kernel, c2c_dit2_v3. rewrite interleave_length, half_of_double.
  unfold C in *. destruct (bit_log2 (length z)) as [order| |]; auto. cbn [bind].
  change (length z) with (@length C z). rewrite exp_stage_0_hom.
  destruct (dit2_stage0 z) as [z0| |] eqn:E0; auto. unfold omap at 1. cbn [bind].
  assert (Lz : length z0 = @length C z). { rewrite dit2_stage0_bfly in E0.
    unfold for_step in E0. simpl Nat.eqb in E0. cbn iota in E0.
    refine (loop_keeps _ (fun l => length l = length z) _ _ _ _ _ _ _ eq_refl E0).
    intros j t t' Ht Hb. apply dit2_butterfly_length in Hb. exact (eq_trans Hb Ht). }
  match goal with |- bind (for_range 1 order ?B1 _) _ = omap _ (for_range 1 order ?B2 _) => set (b1 := B1); set (b2 := B2) end.
  assert (G : forall m s (y : list C), 0 < s -> length y = @length C z ->
    loop m s 1 b1 (interleave y, 2 ^ s, 2 ^ (s + 1)) =
    omap (fun w => (interleave w, 2 ^ (s + m), 2 ^ (s + m + 1))) (loop m s 1 b2 y)).
  { induction m; intros s y Hs Ly. { simpl. rewrite Nat.add_0_r. reflexivity. }
    cbn [loop]. unfold b1 at 1, b2 at 1. rewrite exp_stage_hom; auto.
    2:{ apply Nat.neq_0_lt_0. apply Nat.pow_nonzero. lia. } 2:{ apply Nat.neq_0_lt_0. apply Nat.pow_nonzero. lia. }
    destruct (dit2_stage tw (2 ^ s) (2 ^ (s + 1)) (2 ^ (order - s - 1)) y) as [y'| |] eqn:E; auto. unfold omap at 1. cbn [bind].
    replace (2 ^ s * 2) with (2 ^ (s + 1)) by (rewrite Nat.pow_add_r; simpl; lia).
    replace (2 ^ (s + 1) * 2) with (2 ^ (s + 1 + 1)) by (rewrite (Nat.pow_add_r 2 (s + 1) 1); simpl; lia).
    rewrite IHm; try lia.
    - replace (s + S m) with (s + 1 + m) by lia. reflexivity.
    - rewrite <- Ly. unfold dit2_stage in E. unfold for_step in E. destruct (Nat.eqb_spec (2 ^ (s + 1)) 0) as [Q|_].
      { apply Nat.pow_nonzero in Q; lia. }
      refine (loop_keeps _ (fun l => length l = length y) _ _ _ _ _ _ _ eq_refl E).
      intros j t t' Ht Hb. refine (for_range_keeps _ (fun l => length l = length y) _ _ _ _ _ _ Ht Hb).
      intros j' u u' Hu Hb'. apply bind_ok in Hb'. destruct Hb' as [v [_ Hb']]. apply dit2_butterfly_length in Hb'. exact (eq_trans Hb' Hu). }
  unfold for_range. change 2 with (2 ^ 1) at 1. change 4 with (2 ^ (1 + 1)). rewrite G by (auto; lia).
  destruct (loop (order - 1) 1 1 b2 z0); reflexivity.
Qed.

Lemma exp_c2c_ok : forall p, 0 < p <= 27 -> exists pl, make_exp_c2c p = Ok pl /\
  forall d (z : list C), length z = 2 ^ p -> exp_c2c_run pl (interleave z) d = Ok (interleave (DFT_list d z)).
Proof.
  intros p Hp. assert (Hpm : 0 < p <= max_order) by (unfold max_order; lia).
  pose proof (make_dit2_plan_ok p Hpm) as E. unfold make_dit2_plan, check_order in E.
  destruct (Nat.ltb_spec max_order p); [lia|]. cbn [bind] in E.
  apply bind_ok in E. destruct E as [t [Et E]]. apply bind_ok in E. destruct E as [wf [Ef E]].
  apply bind_ok in E. destruct E as [wb [Eb E]].
  exists (ExpC2c t wf wb). split. { unfold make_exp_c2c. rewrite Et. cbn [bind]. rewrite Ef. cbn [bind]. rewrite Eb. reflexivity. }
  intros d z Hz. pose proof (fft_obj p {| p_order := p; p_size := 2 ^ p; p_reorder := t; p_wf := wf; p_wb := wb |} d z) as F.
  rewrite (make_dit2_plan_ok p Hpm), <- E in F. specialize (F eq_refl ltac:(lia) Hz).
  unfold run_dit2_plan in F. cbn [p_reorder p_wf p_wb] in F. unfold exp_c2c_run. cbn [ec_table ec_wf ec_wb].
  rewrite bitrev_apply_interleaved_hom. apply bind_ok in F. destruct F as [y [Ey F]]. unfold C in *. rewrite Ey. unfold omap. cbn [bind].
  destruct d.
  - etransitivity; [apply (exp_kernel_hom y)|]. unfold C in *. rewrite F. reflexivity.
  - etransitivity; [apply (exp_kernel_hom y)|]. unfold C in *. rewrite F. reflexivity.
Qed.

(** ** Recombination *)
Definition rc2 (d : direction) : R := match d with Forward => (- (1 / 2))%R | Backward => (1 / 2)%R end.
Definition rtheta (d : direction) (N : nat) : R := match d with Forward => (PI / INR N)%R | Backward => (- (PI / INR N))%R end.
Definition rh1 (N : nat) (Z : nat -> C) (k : nat) : C := (RtoC (1 / 2) * (Z k + Cconj (Z (N - k)%nat)))%C.
Definition rh2 (d : direction) (N : nat) (Z : nat -> C) (k : nat) : C := (RtoC (rc2 d) * (Ci * (Z k - Cconj (Z (N - k)%nat))))%C.
Definition recomb (d : direction) (N : nat) (Z : nat -> C) (k : nat) : C :=
  (rh1 N Z k + Cexp (INR k * rtheta d N) * rh2 d N Z k)%C.

Lemma recomb_mirror : forall d N Z k, 0 < k < N ->
  recomb d N Z (N - k) = Cconj (rh1 N Z k - Cexp (INR k * rtheta d N) * rh2 d N Z k)%C.
Proof.
  intros d N Z k Hk. unfold recomb, rh1, rh2. replace (N - (N - k)) with k by lia.
  assert (HN : INR N <> 0%R) by (apply not_0_INR; lia).
  assert (E : Cexp (INR (N - k) * rtheta d N) = (- Cconj (Cexp (INR k * rtheta d N)))%C).
  { rewrite <- Cexp_opp. rewrite minus_INR by lia. destruct d; unfold rtheta.
    - replace ((INR N - INR k) * (PI / INR N))%R with (PI + - (INR k * (PI / INR N)))%R by (field; auto).
      rewrite Cexp_add. replace (Cexp PI) with (- C1)%C; [ring|].
      unfold Cexp. rewrite cos_PI, sin_PI. apply C_eq; unfold Copp, C1; simpl; ring.
    - replace ((INR N - INR k) * - (PI / INR N))%R with (- PI + - (INR k * - (PI / INR N)))%R by (field; auto).
      rewrite Cexp_add. replace (Cexp (- PI)) with (- C1)%C; [ring|].
      unfold Cexp. rewrite cos_neg, sin_neg, cos_PI, sin_PI. apply C_eq; unfold Copp, C1; simpl; ring. }
  rewrite E. destruct (Z k) as [a b], (Z (N - k)) as [a' b'], (Cexp (INR k * rtheta d N)) as [u v].
  apply C_eq; unfold Cconj, Cadd, Csub, Cmul, Copp, Ci, RtoC; cbn [fst snd]; ring.
Qed.

Lemma cos_half : forall t, (1 + -2 * sin (1 / 2 * t) * sin (1 / 2 * t))%R = cos t.
Proof. intros. replace t with (2 * (1 / 2 * t))%R at 3 by field. rewrite cos_2a_sin. ring. Qed.

Definition rloop_body (d : direction) (n : nat) (i : nat) (s : list R * R * R) : outcome (list R * R * R) :=
    let '(x, wr_, wi_) := s in
    let i1 := i + i in
    let i2 := i1 + 1 in
    let i3 := n - i1 in
    let i4 := i3 + 1 in
    xi1 <- rd x i1 ;; xi2 <- rd x i2 ;; xi3 <- rd x i3 ;; xi4 <- rd x i4 ;;
    let h1r := (1 / 2 * (xi1 + xi3))%R in
    let h1i := (1 / 2 * (xi2 - xi4))%R in
    let h2r := (- rc2 d * (xi2 + xi4))%R in
    let h2i := (rc2 d * (xi1 - xi3))%R in
    x <- wr x i1 (h1r + wr_ * h2r - wi_ * h2i)%R ;;
    x <- wr x i2 (h1i + wr_ * h2i + wi_ * h2r)%R ;;
    x <- wr x i3 (h1r - wr_ * h2r + wi_ * h2i)%R ;;
    x <- wr x i4 (- h1i + wr_ * h2i + wi_ * h2r)%R ;;
    let wpr := (-2 * sin (1 / 2 * rtheta d (n / 2)) * sin (1 / 2 * rtheta d (n / 2)))%R in
    let wpi := sin (rtheta d (n / 2)) in
    Ok (x, (wr_ * wpr - wi_ * wpi + wr_)%R, (wi_ * wpr + wr_ * wpi + wi_)%R).

Lemma rloop_step : forall d N i (z : list C) w, length z = N -> 0 < i -> i + i < N ->
  rloop_body d (2 * N) i (interleave z, fst w, snd w) =
  Ok (interleave (upd (upd z i (rh1 N (fun k => nth k z C0) i + w * rh2 d N (fun k => nth k z C0) i)%C)
        (N - i) (Cconj (rh1 N (fun k => nth k z C0) i - w * rh2 d N (fun k => nth k z C0) i))%C),
      fst (w * Cexp (rtheta d N))%C, snd (w * Cexp (rtheta d N))%C).
Proof.
  intros d N i z w Hz Hi HiN. unfold rloop_body. rewrite half_of_double. cbv zeta.
  replace (i + i) with (i * 2) by lia. replace (2 * N - i * 2) with ((N - i) * 2) by lia.
  destruct (rd_interleave z i ltac:(lia)) as [A B]. rewrite A, B.
  destruct (rd_interleave z (N - i) ltac:(lia)) as [A' B']. rewrite A', B'. cbn [bind].
  rewrite wr2_interleave by lia. rewrite wr2_interleave by (rewrite upd_length; lia).
  f_equal. f_equal; [f_equal; [f_equal|]|].
  - f_equal.
    + f_equal. unfold rh1, rh2. destruct (nth i z C0) as [a b], (nth (N - i) z C0) as [a' b'], w as [u v].
      apply C_eq; unfold Cconj, Cadd, Csub, Cmul, Copp, Ci, RtoC; cbn [fst snd]; ring.
    + unfold rh1, rh2. destruct (nth i z C0) as [a b], (nth (N - i) z C0) as [a' b'], w as [u v].
      apply C_eq; unfold Cconj, Cadd, Csub, Cmul, Copp, Ci, RtoC; cbn [fst snd]; ring.
  - unfold Cmul, Cexp. cbn [fst snd]. rewrite <- (cos_half (rtheta d N)). ring.
  - unfold Cmul, Cexp. cbn [fst snd]. rewrite <- (cos_half (rtheta d N)). ring.
Qed.

Definition recombined (d : direction) (N : nat) (Z : nat -> C) (i k : nat) : C :=
  if ((1 <=? k) && (k <? i)) || ((N - i <? k) && (k <? N)) then recomb d N Z k else Z k.

Lemma rloop_ok : forall d q (z : list C), 0 < q -> length z = 2 * q ->
  exists u v, for_range 1 q (rloop_body d (2 * (2 * q)))
    (interleave z, (1 + -2 * sin (1 / 2 * rtheta d (2 * q)) * sin (1 / 2 * rtheta d (2 * q)))%R, sin (rtheta d (2 * q))) =
  Ok (interleave (tab (2 * q) (recombined d (2 * q) (fun k => nth k z C0) q)), u, v).
Proof.
  intros d q z Hq Hz. set (N := 2 * q) in *.
  destruct (for_range_inv _ (fun i (s : list R * R * R) => exists y : list C, s = (interleave y, fst (Cexp (INR i * rtheta d N)), snd (Cexp (INR i * rtheta d N)))
     /\ length y = N /\ forall k, k < N -> nth k y C0 = recombined d N (fun k => nth k z C0) i k) 1 q (rloop_body d (2 * N))
    (interleave z, (1 + -2 * sin (1 / 2 * rtheta d N) * sin (1 / 2 * rtheta d N))%R, sin (rtheta d N))) as [s [E [y [Es [Ly V]]]]].
  - lia.
  - exists z. rewrite cos_half. change (INR 1) with 1%R. rewrite Rmult_1_l. split; [reflexivity|]. split; auto.
    intros k Hk. unfold recombined. destruct (Nat.leb_spec 1 k), (Nat.ltb_spec k 1), (Nat.ltb_spec (N - 1) k); try lia; reflexivity.
  - intros i s Hi [y [-> [Ly V]]]. rewrite rloop_step by lia. eexists. split; [reflexivity|]. eexists. split; [|split].
    + replace (INR (S i) * rtheta d N)%R with (INR i * rtheta d N + rtheta d N)%R by (rewrite S_INR; ring).
      rewrite Cexp_add. reflexivity.
    + rewrite !upd_length. auto.
    + assert (Vi : nth i y C0 = nth i z C0). { rewrite V by lia. unfold recombined.
        destruct (Nat.leb_spec 1 i), (Nat.ltb_spec i i), (Nat.ltb_spec (N - i) i); try lia; reflexivity. }
      assert (Vm : nth (N - i) y C0 = nth (N - i) z C0). { rewrite V by lia. unfold recombined.
        destruct (Nat.leb_spec 1 (N - i)), (Nat.ltb_spec (N - i) i), (Nat.ltb_spec (N - i) (N - i)); try lia; reflexivity. }
      assert (R1 : rh1 N (fun k => nth k y C0) i = rh1 N (fun k => nth k z C0) i). { unfold rh1. rewrite Vi, Vm. auto. }
      assert (R2 : rh2 d N (fun k => nth k y C0) i = rh2 d N (fun k => nth k z C0) i). { unfold rh2. rewrite Vi, Vm. auto. }
      rewrite R1, R2. intros k Hk. destruct (Nat.eq_dec k (N - i)).
      * subst k. rewrite nth_upd_eq by (rewrite upd_length; lia). rewrite <- recomb_mirror by lia. unfold recombined.
        destruct (Nat.ltb_spec (N - S i) (N - i)), (Nat.ltb_spec (N - i) N); try lia. cbn [andb]. rewrite orb_true_r. auto.
      * rewrite nth_upd_neq by auto. destruct (Nat.eq_dec k i).
        -- subst k. rewrite nth_upd_eq by lia. unfold recombined.
           destruct (Nat.leb_spec 1 i), (Nat.ltb_spec i (S i)); try lia. reflexivity.
        -- rewrite nth_upd_neq by auto. rewrite V by auto. unfold recombined.
           destruct (Nat.leb_spec 1 k), (Nat.ltb_spec k i), (Nat.ltb_spec k (S i)), (Nat.ltb_spec (N - i) k), (Nat.ltb_spec (N - S i) k);
             try lia; reflexivity.
  - subst s. eexists. eexists. rewrite E. repeat f_equal. apply (list_eq_tab _ C0); auto.
Qed.

(** The middle bin is its own recombination, so all bins but 0 are recombined. *)
Lemma recomb_mid : forall d q (Z : nat -> C), 0 < q -> recomb d (2 * q) Z q = Z q.
Proof.
  intros d q Z Hq. unfold recomb, rh1, rh2. replace (2 * q - q) with q by lia.
  assert (Hn : INR q <> 0%R) by (apply not_0_INR; lia).
  assert (E : Cexp (INR q * rtheta d (2 * q)) = match d with Forward => Ci | Backward => (- Ci)%C end).
  { unfold rtheta. rewrite mult_INR. change (INR 2) with 2%R. destruct d.
    - replace (INR q * (PI / (2 * INR q)))%R with (PI / 2)%R by (field; auto). unfold Cexp. rewrite cos_PI2, sin_PI2. reflexivity.
    - replace (INR q * - (PI / (2 * INR q)))%R with (- (PI / 2))%R by (field; auto). unfold Cexp.
      rewrite cos_neg, sin_neg, cos_PI2, sin_PI2. apply C_eq; unfold Copp, Ci; simpl; ring. }
  rewrite E. destruct (Z q) as [a b]. destruct d; apply C_eq; unfold rc2, Cconj, Cadd, Csub, Cmul, Copp, Ci, RtoC; cbn [fst snd]; field.
Qed.

Lemma recombined_all : forall d q Z k, 0 < q -> k < 2 * q ->
  recombined d (2 * q) Z q k = if k =? 0 then Z 0 else recomb d (2 * q) Z k.
Proof.
  intros d q Z k Hq Hk. unfold recombined. destruct (Nat.eqb_spec k 0).
  - subst. destruct (Nat.leb_spec 1 0), (Nat.ltb_spec (2 * q - q) 0); try lia. reflexivity.
  - destruct (Nat.leb_spec 1 k), (Nat.ltb_spec k q), (Nat.ltb_spec (2 * q - q) k), (Nat.ltb_spec k (2 * q)); try lia; try reflexivity.
    cbn [andb orb]. replace k with q by lia. rewrite recomb_mid; auto.
Qed.

(** ** Forward *)
Definition pack (N : nat) (Y : nat -> C) : list C :=
  tab N (fun k => if k =? 0 then (fst (Y 0), fst (Y N)) else Y k).

Lemma exp_forward : forall p pl (z : list C), 0 < p <= 27 -> make_exp_c2c p = Ok pl -> length z = 2 ^ p ->
  exp_rfft_run pl (interleave z) Forward =
  Ok (interleave (tab (2 ^ p) (fun k => if k =? 0 then
     (fst (DFT Forward (2 ^ p) (fun j => nth j z C0) 0) + snd (DFT Forward (2 ^ p) (fun j => nth j z C0) 0),
      fst (DFT Forward (2 ^ p) (fun j => nth j z C0) 0) - snd (DFT Forward (2 ^ p) (fun j => nth j z C0) 0))%R
     else recomb Forward (2 ^ p) (DFT Forward (2 ^ p) (fun j => nth j z C0)) k))).
Proof.
  intros p pl z Hp Hpl Hz. destruct (exp_c2c_ok p Hp) as [pl' [E H]]. rewrite Hpl in E. inversion E. subst pl'. clear E.
  destruct (pow2_half p ltac:(lia)) as [q [Hq [EN _]]].
  unfold exp_rfft_run. cbv zeta. rewrite H by auto. cbn [bind].
  rewrite interleave_length. unfold C in *. rewrite Hz. rewrite half_of_double. rewrite EN.
  replace (2 * (2 * q) / 4) with q by (apply (Nat.div_unique _ 4 q 0); lia).
  destruct (rloop_ok Forward q (DFT_list Forward z)) as [u [v EL]]; auto. { rewrite DFT_list_length. unfold C in *. lia. }
  match goal with |- context [for_range 1 q ?B (interleave (DFT_list Forward z), ?a, ?b)] =>
    assert (EL' : for_range 1 q B (interleave (DFT_list Forward z), a, b) = Ok (interleave (tab (2 * q) (recombined Forward (2 * q) (fun k => nth k (DFT_list Forward z) C0) q)), u, v)) end.
  { etransitivity; [|exact EL]. apply for_range_ext. intros i [[y a] b] Hi. unfold rloop_body. rewrite half_of_double. reflexivity. }
  unfold C in *. rewrite EL'. cbn [bind].
  set (y := tab (2 * q) (recombined Forward (2 * q) (fun k => nth k (DFT_list Forward z) C0) q)).
  assert (Ly : @length C y = 2 * q) by apply tab_length.
  destruct (rd_interleave y 0 ltac:(lia)) as [A B]. change (0 * 2) with 0 in *. change (0 + 1) with 1 in B.
  repeat match goal with |- context [rd ?l 0] => progress change l with (interleave y) end.
  unfold C in *. rewrite A, B. cbn [bind].
  pose proof (wr_interleave y 0) as WI. change (0 * 2) with 0 in WI. change (0 + 1) with 1 in WI. unfold C in *. rewrite WI by lia.
  f_equal. f_equal. apply (list_eq_tab _ C0). { rewrite upd_length. auto. }
  assert (Y0 : forall k, k < 2 * q -> nth k y C0 = if k =? 0 then DFT Forward (2 * q) (fun j => nth j z C0) 0
     else recomb Forward (2 * q) (DFT Forward (2 * q) (fun j => nth j z C0)) k).
  { intros k Hk. unfold y. rewrite nth_tab by auto. rewrite recombined_all by auto.
    assert (D : forall j, j < 2 * q -> nth j (DFT_list Forward z) C0 = DFT Forward (2 * q) (fun j => nth j z C0) j).
    { intros j Hj. rewrite nth_DFT_list by (unfold C in *; lia). unfold C in *. rewrite Hz, EN. auto. }
    destruct (Nat.eqb_spec k 0). { apply D. lia. } unfold recomb, rh1, rh2. rewrite !D by lia. auto. }
  intros k Hk. destruct (Nat.eqb_spec k 0).
  - subst k. rewrite nth_upd_eq by lia. rewrite (Y0 0) by lia. reflexivity.
  - rewrite nth_upd_neq by auto. rewrite Y0 by auto. destruct (Nat.eqb_spec k 0); [lia|]. reflexivity.
Qed.

(** ** Backward *)
Lemma exp_backward : forall p pl (P : list C), 0 < p <= 27 -> make_exp_c2c p = Ok pl -> length P = 2 ^ p ->
  exp_rfft_run pl (interleave P) Backward =
  Ok (interleave (DFT_list Backward (tab (2 ^ p) (fun k => if k =? 0 then
     (1 / 2 * (fst (nth 0 P C0) + snd (nth 0 P C0)), 1 / 2 * (fst (nth 0 P C0) - snd (nth 0 P C0)))%R
     else recomb Backward (2 ^ p) (fun k => nth k P C0) k)))).
Proof.
  intros p pl z Hp Hpl Hz. destruct (exp_c2c_ok p Hp) as [pl' [E H]]. rewrite Hpl in E. inversion E. subst pl'. clear E.
  destruct (pow2_half p ltac:(lia)) as [q [Hq [EN _]]].
  unfold exp_rfft_run. cbv zeta. cbn [bind].
  rewrite interleave_length. unfold C in *. rewrite Hz. rewrite half_of_double. rewrite EN.
  replace (2 * (2 * q) / 4) with q by (apply (Nat.div_unique _ 4 q 0); lia).
  destruct (rloop_ok Backward q z) as [u [v EL]]; auto. { unfold C in *. lia. }
  match goal with |- context [for_range 1 q ?B (interleave z, ?a, ?b)] =>
    assert (EL' : for_range 1 q B (interleave z, a, b) = Ok (interleave (tab (2 * q) (recombined Backward (2 * q) (fun k => nth k z C0) q)), u, v)) end.
  { etransitivity; [|exact EL]. apply for_range_ext. intros i [[y a] b] Hi. unfold rloop_body. rewrite half_of_double. reflexivity. }
  unfold C in *. rewrite EL'. cbn [bind].
  set (y := tab (2 * q) (recombined Backward (2 * q) (fun k => nth k z C0) q)).
  assert (Ly : @length C y = 2 * q) by apply tab_length.
  destruct (rd_interleave y 0 ltac:(lia)) as [A B]. change (0 * 2) with 0 in *. change (0 + 1) with 1 in B.
  repeat match goal with |- context [rd ?l 0] => progress change l with (interleave y) end.
  unfold C in *. rewrite A, B. cbn [bind].
  pose proof (wr2_interleave (list R) y 0) as WI. change (0 * 2) with 0 in WI. change (0 + 1) with 1 in WI. unfold C in *. rewrite WI by lia.
  rewrite H by (rewrite upd_length; lia). do 3 f_equal. apply (list_eq_tab _ C0). { rewrite upd_length. auto. }
  intros k Hk. unfold C in *. destruct (Nat.eqb_spec k 0).
  - subst k. rewrite nth_upd_eq by lia. unfold y. rewrite nth_tab by auto. rewrite recombined_all by auto. reflexivity.
  - rewrite nth_upd_neq by auto. unfold y. rewrite nth_tab by auto. rewrite recombined_all by auto.
    destruct (Nat.eqb_spec k 0); [lia|]. reflexivity.
Qed.

Lemma recomb_inverse : forall N Z k, 0 < k < N ->
  recomb Backward N (fun j => if j =? 0 then C0 else recomb Forward N Z j) k = Z k.
Proof.
  intros N Z k Hk. unfold recomb at 1, rh1 at 1, rh2 at 1.
  destruct (Nat.eqb_spec k 0); [lia|]. destruct (Nat.eqb_spec (N - k) 0); [lia|].
  rewrite recomb_mirror by lia. rewrite Cconj_conj. unfold recomb.
  assert (E : Cexp (INR k * rtheta Backward N) = Cconj (Cexp (INR k * rtheta Forward N))).
  { rewrite <- Cexp_opp. f_equal. unfold rtheta. ring. }
  rewrite E. set (w := Cexp (INR k * rtheta Forward N)). assert (Ew : (w * Cconj w)%C = C1) by apply Cexp_mul_conj.
  set (h := rh2 Forward N Z k). set (g := rh1 N Z k).
  transitivity (g + Ci * h * (w * Cconj w))%C.
  { unfold rc2. assert (Hh : (RtoC (1 / 2) + RtoC (1 / 2))%C = C1) by (apply C_eq; unfold Cadd, RtoC, C1; simpl; field).
    transitivity ((RtoC (1 / 2) + RtoC (1 / 2)) * g + (RtoC (1 / 2) + RtoC (1 / 2)) * (Ci * h * (w * Cconj w)))%C; [ring|].
    rewrite Hh. ring. }
  rewrite Ew. unfold g, h, rh1, rh2, rc2. destruct (Z k) as [a b], (Z (N - k)) as [a' b'].
  apply C_eq; unfold Cconj, Cadd, Csub, Cmul, Copp, Ci, RtoC, C1; cbn [fst snd]; field.
Qed.

(** ** In terms of the real signal *)
Definition pairs (N : nat) (x : list R) : list C := tab N (fun k => (nth (2 * k) x 0%R, nth (2 * k + 1) x 0%R)).

Lemma interleave_pairs : forall N (x : list R), length x = 2 * N -> x = interleave (pairs N x).
Proof.
  intros N x H. assert (L : length (pairs N x) = N) by apply tab_length.
  apply list_eq_nth with (d := 0%R). { etransitivity; [|symmetry; apply interleave_length]. unfold C in *. lia. }
  intros i Hi. destruct (Nat.Even_or_Odd i) as [[k Ek]|[k Ek]].
  - replace i with (k * 2) by lia. destruct (nth_interleave R (pairs N x) k 0%R) as [A _]. rewrite A.
    change (0%R, 0%R) with C0. unfold pairs. rewrite nth_tab by lia. cbn [fst]. f_equal. lia.
  - replace i with (k * 2 + 1) by lia. destruct (nth_interleave R (pairs N x) k 0%R) as [_ A]. rewrite A.
    change (0%R, 0%R) with C0. unfold pairs. rewrite nth_tab by lia. cbn [snd]. f_equal. lia.
Qed.

Lemma Csum_even_odd : forall m f, Csum (2 * m) f = (Csum m (fun i => f (2 * i)%nat) + Csum m (fun i => f (2 * i + 1)%nat))%C.
Proof.
  induction m; intros f. { unfold Csum. simpl. ring. }
  replace (2 * S m) with (S (S (2 * m))) by lia. rewrite !Csum_S, IHm.
  replace (S (2 * m)) with (2 * m + 1) by lia. ring.
Qed.

Lemma rotated_dft : forall N (x : nat -> R) k, 0 < N ->
  DFT Forward (2 * N) (fun j => RtoC (odd_rotated (2 * N) x j)) k =
  (DFT Forward N (fun j => RtoC (x (2 * j)%nat)) k + W Backward (2 * N) k * DFT Forward N (fun j => RtoC (x (2 * j + 1)%nat)) k)%C.
Proof.
  intros N x k HN. unfold DFT. rewrite Csum_even_odd. f_equal.
  - apply Csum_ext. intros j Hj. unfold odd_rotated. rewrite Nat.even_mul. cbn [Nat.even orb].
    replace (2 * j * k) with (2 * (j * k)) by lia. rewrite W_scale by lia. auto.
  - rewrite <- Csum_mul_l.
    rewrite (Csum_cyclic N 1 (fun i => (W Backward (2 * N) k * (RtoC (x (2 * i + 1)%nat) * W Forward N (i * k)))%C)) by auto.
    apply Csum_ext. intros j Hj. unfold odd_rotated.
    assert (Ev : Nat.even (2 * j + 1) = false). { rewrite Nat.even_add, Nat.even_mul. reflexivity. }
    rewrite Ev.
    assert (Ei : (2 * j + 1 + 2) mod (2 * N) = 2 * ((j + 1) mod N) + 1).
    { destruct (Nat.eq_dec (j + 1) N) as [e|e].
      - rewrite e. rewrite Nat.mod_same by lia. replace (2 * j + 1 + 2) with (1 + 1 * (2 * N)) by lia.
        rewrite Nat.mod_add by lia. apply Nat.mod_small. lia.
      - rewrite (Nat.mod_small (j + 1)) by lia. rewrite Nat.mod_small by lia. lia. }
    rewrite Ei.
    assert (Ew : (W Backward (2 * N) k * W Forward N ((j + 1) mod N * k))%C = W Forward (2 * N) ((2 * j + 1) * k)).
    { rewrite <- (W_scale Forward 2 N) by lia.
      replace (W Forward (2 * N) (2 * ((j + 1) mod N * k))) with (W Forward (2 * N) ((2 * j + 1) * k + k)).
      - rewrite W_add. transitivity (W Forward (2 * N) ((2 * j + 1) * k) * (W Backward (2 * N) k * W (flip Backward) (2 * N) k))%C.
        { simpl flip. ring. } rewrite W_flip_mul. ring.
      - apply W_cong; [lia|]. replace ((2 * j + 1) * k + k) with (2 * ((j + 1) * k)) by lia.
        rewrite !Nat.mul_mod_distr_l by lia. f_equal. rewrite Nat.mul_mod_idemp_l by lia. auto. }
    rewrite <- Ew. ring.
Qed.

Lemma pairs_dft : forall N (x : list R) k, 0 < N -> k <= N ->
  let Z := DFT Forward N (fun j => nth j (pairs N x) C0) in
  rh1 N Z k = DFT Forward N (fun j => RtoC (nth (2 * j) x 0%R)) k /\
  rh2 Forward N Z k = DFT Forward N (fun j => RtoC (nth (2 * j + 1) x 0%R)) k.
Proof.
  intros N x k HN Hk Z.
  set (A := fun j => RtoC (nth (2 * j) x 0%R)). set (B := fun j => RtoC (nth (2 * j + 1) x 0%R)).
  assert (EZ : forall k, Z k = (DFT Forward N A k + Ci * DFT Forward N B k)%C).
  { intros k'. unfold Z. rewrite <- DFT_scale, <- DFT_add. apply DFT_ext. intros j Hj. unfold pairs. rewrite nth_tab by auto.
    unfold A, B. apply C_eq; unfold Cadd, Cmul, Ci, RtoC; cbn [fst snd]; ring. }
  assert (SA : DFT Forward N A (N - k) = Cconj (DFT Forward N A k)) by (apply DFT_real_sym; lia).
  assert (SB : DFT Forward N B (N - k) = Cconj (DFT Forward N B k)) by (apply DFT_real_sym; lia).
  unfold rh1, rh2. rewrite !EZ, SA, SB. destruct (DFT Forward N A k) as [a b], (DFT Forward N B k) as [a' b'].
  split; apply C_eq; unfold rc2, Cconj, Cadd, Csub, Cmul, Copp, Ci, RtoC; cbn [fst snd]; field.
Qed.

Lemma exp_twiddle : forall N k, 0 < N -> Cexp (INR k * rtheta Forward N) = W Backward (2 * N) k.
Proof.
  intros N k HN. unfold W. f_equal. unfold rtheta, dsign. rewrite mult_INR. change (INR 2) with 2%R.
  assert (INR N <> 0%R) by (apply not_0_INR; lia). field. auto.
Qed.

Lemma DFT0_real : forall N (x : nat -> R), snd (DFT Forward N (fun j => RtoC (x j)) 0) = 0%R.
Proof.
  intros N x. unfold DFT. rewrite snd_Csum. apply Rsum_0. intros i Hi. rewrite Nat.mul_0_r, W_0. unfold Cmul, RtoC, C1. simpl. ring.
Qed.

Lemma exp_rfft_forward_ok : forall p, 1 < p <= 28 -> exists pl, make_exp_rfft p = Ok pl /\
  forall x, length x = 2 ^ p ->
  let n := 2 ^ p in
  let Y := DFT Forward n (fun j => RtoC (odd_rotated n (fun i => nth i x 0%R) j)) in
  exists out, exp_rfft_run pl x Forward = Ok out /\ length out = n /\
    nth 0 out 0%R = fst (Y 0) /\ nth 1 out 0%R = fst (Y (n / 2)) /\
    forall k, 0 < k < n / 2 -> nth (2 * k) out 0%R = fst (Y k) /\ nth (2 * k + 1) out 0%R = snd (Y k).
Proof.
  intros p Hp. assert (Hp1 : 0 < p - 1 <= 27) by lia. destruct (exp_c2c_ok (p - 1) Hp1) as [pl [E _]]. exists pl. split.
  { unfold make_exp_rfft. destruct p; [lia|]. cbn. exact E || (simpl in *; exact E). }
  intros x Hx n Y. set (N := 2 ^ (p - 1)).
  assert (En : n = 2 * N). { unfold n, N. destruct p; [lia|]. simpl. rewrite Nat.sub_0_r. lia. }
  assert (HN : 0 < N). { unfold N. apply Nat.neq_0_lt_0. apply Nat.pow_nonzero. lia. }
  fold n in Hx. rewrite En in Hx.
  eexists. split. { rewrite (interleave_pairs N x Hx) at 1. apply (exp_forward (p - 1)); auto. apply tab_length. }
  fold N. set (Z := DFT Forward N (fun j => nth j (pairs N x) C0)).
  set (L := tab N (fun k => if k =? 0 then (fst (Z 0%nat) + snd (Z 0%nat), fst (Z 0%nat) - snd (Z 0%nat))%R else recomb Forward N Z k)).
  assert (LL : length L = N) by apply tab_length.
  assert (R0 : forall k, k <= N -> (rh1 N Z k + W Backward (2 * N) k * rh2 Forward N Z k)%C = Y k).
  { intros k Hk. unfold Y. rewrite En. rewrite rotated_dft by auto. destruct (pairs_dft N x k HN Hk) as [A B].
    fold Z in A, B. cbv zeta in A, B. fold Z in A, B. rewrite A, B. reflexivity. }
  assert (Z0 : Y 0 = RtoC (fst (Z 0%nat) + snd (Z 0%nat)) /\ Y N = RtoC (fst (Z 0%nat) - snd (Z 0%nat))).
  { pose proof (R0 0 ltac:(lia)) as Y0. pose proof (R0 N ltac:(lia)) as YN.
    unfold rh1, rh2 in Y0, YN. rewrite W_0 in Y0. rewrite W_half in YN by auto.
    rewrite Nat.sub_diag in YN. rewrite Nat.sub_0_r in Y0.
    assert (ZN : Z N = Z 0). { unfold Z. rewrite <- (DFT_mod Forward N _ N) by auto. rewrite Nat.mod_same by lia. auto. }
    rewrite ZN in *. rewrite <- Y0, <- YN. destruct (Z 0) as [a b].
    split; apply C_eq; unfold rc2, Cconj, Cadd, Csub, Cmul, Copp, Ci, RtoC, C1; cbn [fst snd]; field. }
  split. { etransitivity; [apply interleave_length|]. unfold C in *. lia. }
  destruct Z0 as [Z0 ZN].
  assert (NI : forall k, k < N -> nth (k * 2) (interleave L) 0%R = fst (nth k L C0) /\ nth (k * 2 + 1) (interleave L) 0%R = snd (nth k L C0)).
  { intros k _. apply (nth_interleave R L k 0%R). }
  split; [|split].
  - destruct (NI 0 HN) as [A _]. change (0 * 2) with 0 in A. etransitivity; [exact A|]. unfold L. rewrite nth_tab by auto. rewrite Z0. reflexivity.
  - destruct (NI 0 HN) as [_ A]. change (0 * 2 + 1) with 1 in A. etransitivity; [exact A|]. unfold L. rewrite nth_tab by auto.
    rewrite En, half_of_double, ZN. reflexivity.
  - intros k Hk. rewrite En, half_of_double in Hk. destruct (NI k ltac:(lia)) as [A B].
    rewrite (Nat.mul_comm 2 k). assert (EL : nth k L C0 = Y k).
    { unfold L. rewrite nth_tab by lia. destruct (Nat.eqb_spec k 0); [lia|]. unfold recomb. rewrite exp_twiddle by auto. apply R0. lia. }
    split. { etransitivity; [exact A|]. rewrite EL. auto. } etransitivity; [exact B|]. rewrite EL. auto.
Qed.

Lemma exp_rfft_roundtrip : forall p, 1 < p <= 28 -> exists pl, make_exp_rfft p = Ok pl /\
  forall x, length x = 2 ^ p -> exists y, exp_rfft_run pl x Forward = Ok y /\
    exp_rfft_run pl y Backward = Ok (map (fun v => (INR (2 ^ p / 2) * v)%R) x).
Proof.
  intros p Hp. assert (Hp1 : 0 < p - 1 <= 27) by lia. destruct (exp_c2c_ok (p - 1) Hp1) as [pl [E _]]. exists pl. split.
  { unfold make_exp_rfft. destruct p; [lia|]. cbn. exact E || (simpl in *; exact E). }
  intros x Hx. set (N := 2 ^ (p - 1)).
  assert (En : 2 ^ p = 2 * N). { unfold N. destruct p; [lia|]. simpl. rewrite Nat.sub_0_r. lia. }
  assert (HN : 0 < N). { unfold N. apply Nat.neq_0_lt_0. apply Nat.pow_nonzero. lia. }
  rewrite En in *. rewrite half_of_double.
  assert (Lp : length (pairs N x) = N) by apply tab_length.
  eexists. split. { rewrite (interleave_pairs N x Hx) at 1. apply (exp_forward (p - 1)); auto. }
  fold N. set (Z := DFT Forward N (fun j => nth j (pairs N x) C0)).
  set (L := tab N (fun k => if k =? 0 then (fst (Z 0%nat) + snd (Z 0%nat), fst (Z 0%nat) - snd (Z 0%nat))%R else recomb Forward N Z k)).
  etransitivity. { apply (exp_backward (p - 1)); auto. unfold L. apply tab_length. }
  fold N. f_equal.
  transitivity (interleave (map (fun c => (RtoC (INR N) * c)%C) (pairs N x))).
  - apply (f_equal interleave). transitivity (DFT_list Backward (DFT_list Forward (pairs N x))).
    2:{ change Backward with (flip Forward). rewrite DFT_list_inv, Lp. reflexivity. } f_equal.
    symmetry. apply (list_eq_tab _ C0). { rewrite DFT_list_length. auto. }
    intros k Hk. rewrite nth_DFT_list by lia. rewrite Lp. fold Z.
    destruct (Nat.eqb_spec k 0).
    + subst k. unfold L. rewrite nth_tab by auto. cbn [Nat.eqb fst snd]. destruct (Z 0). cbn [fst snd]. f_equal; field.
    + symmetry. etransitivity; [|apply (recomb_inverse N Z k); lia]. unfold recomb at 1 2, rh1 at 1 2, rh2 at 1 2.
      unfold L. rewrite !nth_tab by lia. destruct (Nat.eqb_spec k 0); [lia|]. destruct (Nat.eqb_spec (N - k) 0); [lia|]. reflexivity.
  - rewrite (interleave_pairs N x Hx) at 2. generalize (pairs N x). intros l. clear.
    induction l as [|[a b] l IH]; [reflexivity|]. simpl. f_equal; [unfold Cmul, RtoC; cbn [fst snd]; ring|].
    f_equal; [unfold Cmul, RtoC; cbn [fst snd]; ring|]. exact IH.
Qed.

(** The documented claim (packed DFT of x itself) fails at every size: bin 1 of a unit
    impulse at index 1 comes out conjugated. *)
Lemma exp_rfft_not_dft : forall p, 1 < p <= 28 -> exists pl x out, make_exp_rfft p = Ok pl /\ length x = 2 ^ p /\
  exp_rfft_run pl x Forward = Ok out /\ nth 3 out 0%R <> snd (nth 1 (RDFT_list Forward x) C0).
Proof.
  intros p Hp. destruct (exp_rfft_forward_ok p Hp) as [pl [E H]].
  set (n := 2 ^ p) in *. assert (Hn : 4 <= n). { unfold n. change 4 with (2 ^ 2). apply Nat.pow_le_mono_r; lia. }
  set (x := upd (repeat 0%R n) 1 1%R). assert (Lx : length x = n). { unfold x. rewrite upd_length, repeat_length. auto. }
  destruct (H x Lx) as [out [Eo [Lo [_ [_ V]]]]]. exists pl, x, out. split; auto. split; auto. split; auto.
  assert (H2 : 2 <= n / 2). { apply Nat.div_le_lower_bound; lia. }
  assert (H2' : n / 2 < n) by (apply Nat.div_lt; lia).
  destruct (V 1 ltac:(lia)) as [_ V1]. change (2 * 1 + 1) with 3 in V1. rewrite V1.
  unfold RDFT_list. rewrite Lx. rewrite nth_tab by lia.
  assert (X : forall i, nth i x 0%R = if i =? 1 then 1%R else 0%R).
  { intros i. unfold x. destruct (Nat.eqb_spec i 1). { subst. apply nth_upd_eq. rewrite repeat_length. lia. }
    rewrite nth_upd_neq by auto. apply nth_repeat. }
  assert (EvN : exists N, n = 2 * N). { unfold n. exists (2 ^ (p - 1)). destruct p; [lia|]. simpl. rewrite Nat.sub_0_r. lia. }
  destruct EvN as [N EN].
  assert (D1 : DFT Forward n (fun j => RtoC (nth j x 0%R)) 1 = W Forward n 1).
  { unfold DFT. rewrite (Csum_single n 1) by (try lia; intros i Hi Hne; rewrite X; destruct (Nat.eqb_spec i 1); try lia; apply C_eq; unfold Cmul, RtoC; simpl; ring).
    rewrite X. change (1 * 1) with 1. apply C_eq; unfold Cmul, RtoC; simpl; ring. }
  assert (D2 : DFT Forward n (fun j => RtoC (odd_rotated n (fun i => nth i x 0%R) j)) 1 = W Backward n 1).
  { pose proof (rotated_dft N (fun i => nth i x 0%R) 1 ltac:(lia)) as Q. rewrite <- EN in Q. etransitivity; [exact Q|]. clear Q.
    assert (A : DFT Forward N (fun j => RtoC (nth (2 * j) x 0%R)) 1 = C0).
    { unfold DFT. apply Csum_0. intros i Hi. rewrite X. destruct (Nat.eqb_spec (2 * i) 1); [lia|]. apply C_eq; unfold Cmul, RtoC; simpl; ring. }
    assert (B : DFT Forward N (fun j => RtoC (nth (2 * j + 1) x 0%R)) 1 = C1).
    { unfold DFT. rewrite (Csum_single N 0) by (try lia; intros i Hi Hne; rewrite X; destruct (Nat.eqb_spec (2 * i + 1) 1); try lia; apply C_eq; unfold Cmul, RtoC; simpl; ring).
      rewrite X. change (0 * 1) with 0. rewrite W_0. apply C_eq; unfold Cmul, RtoC, C1; simpl; ring. }
    rewrite A, B. ring. }
  rewrite D1, D2. change Forward with (flip Backward). rewrite <- W_conj. unfold Cconj. cbn [snd].
  assert (S : (0 < snd (W Backward n 1))%R).
  { unfold W, Cexp, dsign. cbn [snd]. change (INR 1) with 1%R.
    assert (4 <= INR n)%R. { replace 4%R with (INR 4) by (simpl; ring). apply le_INR. lia. }
    pose proof PI_RGT_0. apply sin_gt_0.
    - apply Rdiv_lt_0_compat; lra.
    - apply (Rmult_lt_reg_r (INR n)); [lra|]. unfold Rdiv. rewrite Rmult_assoc, Rinv_l by lra. nra. }
  lra.
Qed.

Lemma exp_rfft_order1 : exists pl, make_exp_rfft 1 = Ok pl /\ forall a b d, exp_rfft_run pl [a; b] d = UB.
Proof. eexists. split; [reflexivity|]. intros a b d. destruct d; reflexivity. Qed.
