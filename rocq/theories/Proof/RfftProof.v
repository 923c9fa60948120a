(** Real FFT, deinterleaving, direct DFT. *)
From Coq Require Import List Arith Bool Lia Reals Lra.
From Verif Require Import Base.Outcome Base.OutcomeFacts Base.Sums Base.Alias Base.Cplx Spec.Dft Spec.DigitRev Spec.Transforms.
From Verif Require Import Model.Fft2 Model.Algorithm Model.FftApps.
From Verif Require Import Proof.DftTheory Proof.DigitRevTheory Proof.Fft2Proof Proof.AlgorithmProof Proof.FftCorollaries.
Import ListNotations.
Local Arguments Nat.div : simpl never.
Local Arguments Nat.modulo : simpl never.

Lemma fft_obj : forall p pl d x, make_dit2_plan p = Ok pl -> 0 < p -> length x = 2 ^ p ->
  run_dit2_plan c2c_dit2_v3 pl x d = Ok (DFT_list d x).
Proof.
  intros p pl d x E Hp Hx. destruct (le_lt_dec p 27).
  - destruct (fft_plan_object p ltac:(lia)) as [pl' [E' H]]. rewrite E in E'. inversion E'. subst. auto.
  - unfold make_dit2_plan, check_order in E. assert (B : (max_order <? p) = true) by (apply Nat.ltb_lt; unfold max_order; lia).
    rewrite B in E. discriminate.
Qed.

Lemma pow2_half : forall p, 0 < p -> exists m, 0 < m /\ 2 ^ p = 2 * m /\ m = 2 ^ (p - 1).
Proof.
  intros p H. exists (2 ^ (p - 1)). split. { apply Nat.neq_0_lt_0. apply Nat.pow_nonzero. lia. } split; auto.
  destruct p; [lia|]. simpl. rewrite Nat.sub_0_r. lia.
Qed.

Lemma half_of_double : forall m, 2 * m / 2 = m.
Proof. intros. rewrite Nat.mul_comm. apply Nat.div_mul. lia. Qed.

(** ** Forward *)
Definition rf_inv (order : nat) (p : rfft_plan) : Prop :=
  rf_order p = order /\ make_dit2_plan order = Ok (rf_fft p) /\ length (rf_buf p) = 2 ^ order.

Lemma make_rfft_inv : forall order p, make_rfft_plan order = Ok p -> rf_inv order p.
Proof.
  intros order p H. unfold make_rfft_plan in H. apply bind_ok in H. destruct H as [f [E H]]. inversion H. subst.
  unfold rf_inv. cbn [rf_order rf_fft rf_buf]. rewrite repeat_length. auto.
Qed.

Lemma copy_length : forall A B (f : A -> B) i o o', copy f i o = Ok o' -> length i <= length o /\ length o' = length o.
Proof.
  intros A B f i o o' H. destruct (le_lt_dec (length i) (length o)).
  - rewrite copy_ok in H by auto. inversion H. split; auto. rewrite app_length, map_length, skipn_length. lia.
  - rewrite copy_too_short in H by auto. discriminate.
Qed.

Lemma nth_RtoC : forall x i, nth i (map RtoC x) C0 = RtoC (nth i x 0%R).
Proof. intros. change C0 with (RtoC 0). apply map_nth. Qed.

Lemma rfft_forward_ok : forall order p x out, 0 < order -> rf_inv order p ->
  length x = 2 ^ order -> 2 ^ order / 2 + 1 <= length out ->
  exists p', rfft_forward p x out = Ok (p', RDFT_list Forward x ++ skipn (2 ^ order / 2 + 1) out) /\ rf_inv order p'.
Proof.
  intros order p x out Ho [I1 [I2 I3]] Hx Hout. unfold rfft_forward. rewrite copy_full by lia. cbn [bind].
  rewrite (fft_obj order) by (auto; rewrite map_length; auto). cbn [bind].
  destruct (pow2_half order Ho) as [m [Hm [En Em]]]. rewrite I1, En, half_of_double in *.
  rewrite slice_ok by (rewrite ?DFT_list_length, ?map_length; lia). cbn [bind].
  rewrite copy_ok. 2:{ rewrite firstn_length. rewrite skipn_length, DFT_list_length, map_length. lia. }
  cbn [bind]. eexists. split.
  - f_equal. f_equal. rewrite map_id. rewrite firstn_length, skipn_length, DFT_list_length, map_length.
    replace (Nat.min (m + 1 - 0) (length x - 0)) with (m + 1) by lia. f_equal.
    unfold RDFT_list. rewrite Hx, half_of_double. apply (list_eq_tab _ C0).
    + rewrite firstn_length, skipn_length, DFT_list_length, map_length. lia.
    + intros i Hi. rewrite nth_firstn_lt by lia. rewrite nth_skipn_add. rewrite nth_DFT_list by (rewrite map_length; lia).
      rewrite map_length, Hx. apply DFT_ext. intros. apply nth_RtoC.
  - unfold rf_inv. cbn [rf_order rf_fft rf_buf]. rewrite DFT_list_length, map_length. repeat split; auto. lia.
Qed.

Lemma rfft_forward_inv : forall order p x out p' out', 0 < order -> rf_inv order p -> rfft_forward p x out = Ok (p', out') ->
  rf_inv order p'.
Proof.
  intros order p x out p' out' Ho [I1 [I2 I3]] H. unfold rfft_forward in H.
  apply bind_ok in H. destruct H as [b [E1 H]]. apply copy_length in E1. destruct E1 as [_ L1].
  rewrite (fft_obj order) in H by (auto; lia). cbn [bind] in H.
  apply bind_ok in H. destruct H as [bins [E2 H]]. apply bind_ok in H. destruct H as [o [E3 H]]. inversion H. subst.
  unfold rf_inv. cbn [rf_order rf_fft rf_buf]. rewrite DFT_list_length. repeat split; auto. lia.
Qed.

(** ** Backward *)
Definition herm (n : nat) (X : nat -> C) (k : nat) : C := if n / 2 + 1 <=? k then Cconj (X (n - k)) else X k.

Lemma mirror_loop : forall n (buf : list C), length buf = n ->
  for_range (n / 2 + 1) n (fun i buf => v <- rd buf (n - i) ;; wr buf i (Cconj v)) buf =
  Ok (tab n (herm n (fun k => nth k buf C0))).
Proof.
  intros n buf Hb. destruct (le_lt_dec (n / 2 + 1) n) as [Hn|Hn].
  - destruct (for_range_inv _ (fun j l => length l = n /\ forall i, i < n ->
      nth i l C0 = if (n / 2 + 1 <=? i) && (i <? j) then Cconj (nth (n - i) buf C0) else nth i buf C0)
      (n / 2 + 1) n (fun i buf => v <- rd buf (n - i) ;; wr buf i (Cconj v)) buf) as [l [E [L V]]].
    + auto.
    + split; auto. intros i Hi. destruct (Nat.leb_spec (n / 2 + 1) i); auto. cbn [andb].
      destruct (Nat.ltb_spec i (n / 2 + 1)); auto; lia.
    + intros j l Hj [L V].
      assert (HH : n - j < n / 2 + 1). { pose proof (Nat.div_mod n 2 ltac:(lia)). pose proof (Nat.mod_upper_bound n 2 ltac:(lia)). lia. }
      rewrite (rd_ok _ l _ C0) by lia. cbn [bind]. rewrite wr_ok by lia. eexists. split; [reflexivity|].
      rewrite upd_length. split; auto. intros i Hi.
      destruct (Nat.eq_dec i j).
      * subst i. rewrite nth_upd_eq by lia. rewrite V by lia.
        rewrite (proj2 (Nat.leb_gt (n / 2 + 1) (n - j))) by lia. cbn [andb].
        rewrite (proj2 (Nat.leb_le (n / 2 + 1) j)), (proj2 (Nat.ltb_lt j (S j))) by lia. auto.
      * rewrite nth_upd_neq by auto. rewrite V by auto. destruct (Nat.leb_spec (n / 2 + 1) i); auto. cbn [andb].
        destruct (Nat.ltb_spec i j); destruct (Nat.ltb_spec i (S j)); auto; lia.
    + rewrite E. f_equal. apply (list_eq_tab _ C0); auto. intros i Hi. rewrite V by auto. unfold herm.
      destruct (Nat.leb_spec (n / 2 + 1) i); auto. rewrite (proj2 (Nat.ltb_lt i n)) by lia. auto.
  - rewrite for_range_empty by lia. f_equal. apply (list_eq_tab _ C0); auto. intros i Hi. unfold herm.
    destruct (Nat.leb_spec (n / 2 + 1) i); auto. lia.
Qed.

Lemma W_cos_sin : forall n j k, W Backward n (j * k) =
  (cos (2 * PI * INR j * INR k / INR n), sin (2 * PI * INR j * INR k / INR n)).
Proof.
  intros. unfold W, Cexp, dsign. rewrite mult_INR.
  replace (1 * (2 * PI) * (INR j * INR k) / INR n)%R with (2 * PI * INR j * INR k / INR n)%R by (unfold Rdiv; ring). auto.
Qed.

Lemma RtoC_pow_m1 : forall j, Cpow (- C1)%C j = RtoC ((-1) ^ j).
Proof.
  induction j; simpl. { reflexivity. } unfold Cpow in *. simpl. rewrite IHj.
  apply C_eq; unfold RtoC, Cmul, Copp, C1; simpl; ring.
Qed.

Lemma herm_idft : forall m X j, 0 < m ->
  fst (DFT Backward (2 * m) (herm (2 * m) X) j) = IRDFT m X j.
Proof.
  intros m X j Hm. unfold DFT. rewrite fst_Csum.
  replace (2 * m) with (1 + (m - 1) + (1 + (m - 1))) at 1 by lia.
  rewrite !Rsum_split. unfold IRDFT.
  assert (T0 : Rsum 1 (fun i => fst (herm (2 * m) X i * W Backward (2 * m) (i * j))%C) = fst (X 0)).
  { unfold Rsum, bsum. unfold herm. rewrite half_of_double.
    assert (B : (m + 1 <=? 0) = false) by (apply Nat.leb_gt; lia). rewrite B. change (0 * j) with 0. rewrite W_0. unfold Cmul, C1. simpl. ring. }
  rewrite T0.
  assert (Tm : Rsum 1 (fun i => fst (herm (2 * m) X (1 + (m - 1) + i) * W Backward (2 * m) ((1 + (m - 1) + i) * j))%C) =
    ((-1) ^ j * fst (X m))%R).
  { unfold Rsum, bsum. unfold herm. rewrite half_of_double.
    replace (1 + (m - 1) + 0) with m by lia.
    assert (B : (m + 1 <=? m) = false) by (apply Nat.leb_gt; lia). rewrite B.
    rewrite (Nat.mul_comm m j). rewrite W_pow. rewrite W_half by auto. rewrite RtoC_pow_m1. unfold Cmul, RtoC. simpl. ring. }
  rewrite Tm.
  assert (TA : Rsum (m - 1) (fun i => fst (herm (2 * m) X (1 + i) * W Backward (2 * m) ((1 + i) * j))%C) =
    Rsum (m - 1) (fun k => fst (X (S k)) * cos (2 * PI * INR j * INR (S k) / INR (2 * m))
                           - snd (X (S k)) * sin (2 * PI * INR j * INR (S k) / INR (2 * m)))%R).
  { apply Rsum_ext. intros i Hi. unfold herm. rewrite half_of_double.
    assert (B : (m + 1 <=? 1 + i) = false) by (apply Nat.leb_gt; lia). rewrite B.
    rewrite (Nat.mul_comm (1 + i) j), W_cos_sin. reflexivity. }
  rewrite TA.
  assert (TB : Rsum (m - 1) (fun i => fst (herm (2 * m) X (1 + (m - 1) + (1 + i)) * W Backward (2 * m) ((1 + (m - 1) + (1 + i)) * j))%C) =
    Rsum (m - 1) (fun k => fst (X (S k)) * cos (2 * PI * INR j * INR (S k) / INR (2 * m))
                           - snd (X (S k)) * sin (2 * PI * INR j * INR (S k) / INR (2 * m)))%R).
  { unfold Rsum. rewrite (bsum_rev _ _ _ _ _ _ _ R_ring). apply Rsum_ext. intros i Hi.
    replace (1 + (m - 1) + (1 + (m - 1 - 1 - i))) with (2 * m - S i) by lia. unfold herm. rewrite half_of_double.
    assert (B : (m + 1 <=? 2 * m - S i) = true) by (apply Nat.leb_le; lia). rewrite B.
    replace (2 * m - (2 * m - S i)) with (S i) by lia.
    rewrite (Nat.mul_comm _ j), W_neg by lia. change Forward with (flip Backward) || idtac.
    simpl flip. change Forward with (flip Backward). rewrite <- W_conj, W_cos_sin.
    unfold Cmul, Cconj. cbn [fst snd]. ring. }
  rewrite TB. ring.
Qed.

Lemma rfft_backward_ok : forall order p X out, 0 < order -> rf_inv order p ->
  2 ^ order / 2 + 1 <= length X <= 2 ^ order -> length out = 2 ^ order ->
  exists p', rfft_backward p X out = Ok (p', tab (2 ^ order) (IRDFT (2 ^ (order - 1)) (fun k => nth k X C0))) /\ rf_inv order p'.
Proof.
  intros order p X out Ho [I1 [I2 I3]] HX Hout. unfold rfft_backward. rewrite I1.
  rewrite copy_ok by lia. cbn [bind]. set (buf0 := map (fun v => v) X ++ skipn (length X) (rf_buf p)).
  assert (Lb : length buf0 = 2 ^ order). { unfold buf0. rewrite app_length, map_length, skipn_length. lia. }
  rewrite mirror_loop by auto. cbn [bind].
  rewrite (fft_obj order) by (auto; apply tab_length). cbn [bind].
  destruct (pow2_half order Ho) as [m [Hm [En Em]]]. rewrite <- Em.
  rewrite (for_range_tab _ 0%R (2 ^ order) _ out
    (fun i => fst (nth i (DFT_list Backward (tab (2 ^ order) (herm (2 ^ order) (fun k => nth k buf0 C0)))) C0))); auto.
  2:{ intros j l Hj Hl _. rewrite (rd_ok _ _ j C0) by (rewrite DFT_list_length, tab_length; lia). cbn [bind].
      rewrite wr_ok by lia. auto. }
  cbn [bind]. eexists. split.
  - f_equal. f_equal. apply tab_ext. intros i Hi. rewrite nth_DFT_list by (rewrite tab_length; auto).
    rewrite tab_length. rewrite (DFT_ext _ _ _ (herm (2 ^ order) (fun k => nth k buf0 C0))).
    2:{ intros j Hj. rewrite nth_tab by auto. auto. }
    rewrite En. rewrite herm_idft by auto.
    assert (G : forall k, k <= m -> nth k buf0 C0 = nth k X C0).
    { intros k Hk. unfold buf0. rewrite map_id. apply app_nth1. rewrite En, half_of_double in HX. lia. }
    unfold IRDFT. rewrite !G by lia. f_equal. f_equal. apply Rsum_ext. intros k Hk. rewrite !G by lia. auto.
  - unfold rf_inv. cbn [rf_order rf_fft rf_buf]. rewrite DFT_list_length, tab_length. auto.
Qed.

Lemma rfft_backward_inv : forall order p x out p' out', 0 < order -> rf_inv order p -> rfft_backward p x out = Ok (p', out') ->
  rf_inv order p'.
Proof.
  intros order p x out p' out' Ho [I1 [I2 I3]] H. unfold rfft_backward in H. rewrite I1 in H.
  apply bind_ok in H. destruct H as [b [E1 H]]. apply copy_length in E1. destruct E1 as [_ L1].
  rewrite mirror_loop in H by lia. cbn [bind] in H.
  rewrite (fft_obj order) in H by (auto; apply tab_length). cbn [bind] in H.
  apply bind_ok in H. destruct H as [o [E3 H]]. inversion H. subst.
  unfold rf_inv. cbn [rf_order rf_fft rf_buf]. rewrite DFT_list_length, tab_length. auto.
Qed.

Lemma rfft_reach_inv : forall order p, 0 < order -> rfft_reach order p -> rf_inv order p.
Proof.
  intros order p Ho H. induction H.
  - apply make_rfft_inv; auto.
  - eapply rfft_forward_inv; eauto.
  - eapply rfft_backward_inv; eauto.
Qed.

(** ** Round trip *)
Lemma irdft_rdft : forall m (x : nat -> R) i, 0 < m -> i < 2 * m ->
  IRDFT m (DFT Forward (2 * m) (fun j => RtoC (x j))) i = (INR (2 * m) * x i)%R.
Proof.
  intros m x i Hm Hi. rewrite <- herm_idft by auto.
  rewrite (DFT_ext _ _ _ (DFT Forward (2 * m) (fun j => RtoC (x j)))).
  - change Backward with (flip Forward). rewrite DFT_inv by auto. rewrite <- RtoC_mul. reflexivity.
  - intros k Hk. unfold herm. destruct (Nat.leb_spec (2 * m / 2 + 1) k); auto.
    rewrite <- DFT_real_sym by lia. f_equal. lia.
Qed.

Lemma rfft_roundtrip_reach : forall order p x out out2, 0 < order -> rfft_reach order p ->
  length x = 2 ^ order -> length out = 2 ^ order / 2 + 1 -> length out2 = 2 ^ order ->
  exists p1 X p2, rfft_forward p x out = Ok (p1, X) /\
    rfft_backward p1 X out2 = Ok (p2, map (fun v => (INR (2 ^ order) * v)%R) x).
Proof.
  intros order p x out out2 Ho H Hx H1 H2.
  destruct (rfft_forward_ok order p x out Ho (rfft_reach_inv _ _ Ho H) Hx ltac:(lia)) as [p1 [E1 I1]].
  destruct (pow2_half order Ho) as [m [Hm [En Em]]].
  rewrite <- H1, skipn_all, app_nil_r in E1.
  destruct (rfft_backward_ok order p1 (RDFT_list Forward x) out2 Ho I1) as [p2 [E2 I2]]; auto.
  { unfold RDFT_list. rewrite tab_length, Hx, En, half_of_double. lia. }
  exists p1, (RDFT_list Forward x), p2. split; auto. rewrite E2. f_equal. f_equal.
  symmetry. apply (list_eq_tab _ (INR (2 ^ order) * 0)%R). { rewrite map_length. auto. }
  intros i Hi. rewrite (map_nth (fun v => (INR (2 ^ order) * v)%R)). rewrite <- Em.
  transitivity (IRDFT m (DFT Forward (2 * m) (fun j => RtoC (nth j x 0%R))) i).
  { rewrite (irdft_rdft m (fun j => nth j x 0%R)) by lia. rewrite <- En. reflexivity. }
  unfold IRDFT.
  assert (G : forall k, k <= m -> nth k (RDFT_list Forward x) C0 = DFT Forward (2 * m) (fun j => RtoC (nth j x 0%R)) k).
  { intros k Hk. unfold RDFT_list. rewrite Hx, En, half_of_double. rewrite nth_tab by lia. auto. }
  rewrite !G by lia. f_equal. f_equal. apply Rsum_ext. intros k Hk. rewrite !G by lia. auto.
Qed.

(** Bins 0 and n/2 of a real signal are real. *)
Lemma rdft_real_bins : forall d m (x : nat -> R), 0 < m ->
  snd (DFT d (2 * m) (fun j => RtoC (x j)) 0) = 0%R /\ snd (DFT d (2 * m) (fun j => RtoC (x j)) m) = 0%R.
Proof.
  intros d m x Hm. split.
  - unfold DFT. rewrite snd_Csum. apply Rsum_0. intros i Hi. rewrite Nat.mul_0_r, W_0. unfold Cmul, RtoC, C1. simpl. ring.
  - assert (A1 : m <= 2 * m) by lia. assert (A2 : 0 < 2 * m) by lia.
    pose proof (DFT_real_sym d (2 * m) x m A1 A2) as H. replace (2 * m - m) with m in H by lia.
    apply (f_equal snd) in H. unfold Cconj in H. cbn [snd] in H. lra.
Qed.

(** ** Deinterleave *)
Lemma rfft_deinterleave_ok : forall (D x y : list C), 0 < length D ->
  length x = length D / 2 + 1 -> length y = length D / 2 + 1 ->
  rfft_deinterleave D x y = Ok (
    tab (length D / 2 + 1) (fun k => if k =? 0 then RtoC (fst (nth 0 D C0)) else
      ((nth k D C0 + Cconj (nth (length D - k) D C0)) * RtoC (1 / 2))%C),
    tab (length D / 2 + 1) (fun k => if k =? 0 then RtoC (snd (nth 0 D C0)) else
      ((nth k D C0 - Cconj (nth (length D - k) D C0)) * (0, -1)%R * RtoC (1 / 2))%C)).
Proof.
  intros D x y HD Hx Hy. unfold rfft_deinterleave. set (n := length D) in *.
  rewrite (rd_ok _ D 0 C0) by lia. cbn [bind]. rewrite !wr_ok by lia. cbn [bind].
  assert (Hh : n / 2 < n) by (apply Nat.div_lt; lia).
  set (F := fun k => if k =? 0 then RtoC (fst (nth 0 D C0)) else ((nth k D C0 + Cconj (nth (n - k) D C0)) * RtoC (1 / 2))%C).
  set (G := fun k => if k =? 0 then RtoC (snd (nth 0 D C0)) else ((nth k D C0 - Cconj (nth (n - k) D C0)) * (0, -1)%R * RtoC (1 / 2))%C).
  destruct (for_range_inv _ (fun j (s : list C * list C) => length (fst s) = n / 2 + 1 /\ length (snd s) = n / 2 + 1 /\
      (forall i, i < j -> nth i (fst s) C0 = F i) /\ (forall i, i < j -> nth i (snd s) C0 = G i)) 1 (n / 2 + 1)
    (fun k s =>
    let '(x, y) := s in
    zk <- rd D k ;;
    v <- rd D (n - k) ;;
    let znk := Cconj v in
    x <- wr x k ((zk + znk) * RtoC (1 / 2))%C ;;
    y <- wr y k (((zk - znk) * (0, -1)%R) * RtoC (1 / 2))%C ;;
    Ok (x, y)) (upd x 0 (RtoC (fst (nth 0 D C0))), upd y 0 (RtoC (snd (nth 0 D C0))))) as [[x' y'] [E [L1 [L2 [V1 V2]]]]].
  - lia.
  - cbn [fst snd]. rewrite !upd_length. repeat split; auto.
    + intros i Hi. assert (i = 0) by lia. subst. rewrite nth_upd_eq by lia. reflexivity.
    + intros i Hi. assert (i = 0) by lia. subst. rewrite nth_upd_eq by lia. reflexivity.
  - intros k [x' y'] Hk [L1 [L2 [V1 V2]]]. cbn [fst snd] in *.
    rewrite (rd_ok _ D k C0), (rd_ok _ D (n - k) C0) by (fold n; lia). cbn [bind].
    rewrite !wr_ok by lia. cbn [bind]. eexists. split; [reflexivity|]. cbn [fst snd]. rewrite !upd_length. repeat split; auto.
    + intros i Hi. destruct (Nat.eq_dec i k).
      * subst. rewrite nth_upd_eq by lia. unfold F. destruct (Nat.eqb_spec k 0); [lia|auto].
      * rewrite nth_upd_neq by auto. apply V1. lia.
    + intros i Hi. destruct (Nat.eq_dec i k).
      * subst. rewrite nth_upd_eq by lia. unfold G. destruct (Nat.eqb_spec k 0); [lia|auto].
      * rewrite nth_upd_neq by auto. apply V2. lia.
  - etransitivity; [exact E|]. cbn [fst snd] in *. f_equal. f_equal; apply (list_eq_tab _ C0); auto.
Qed.

Lemma deinterleave_two : forall (a b : list R) x y, length a = length b -> 0 < length a ->
  length x = length a / 2 + 1 -> length y = length a / 2 + 1 ->
  rfft_deinterleave (DFT_list Forward (combine a b)) x y = Ok (RDFT_list Forward a, RDFT_list Forward b).
Proof.
  intros a b x y Hab Ha Hx Hy. set (z := combine a b : list C). set (n := length a).
  assert (Lz : length z = n). { unfold z. etransitivity; [apply combine_length|]. fold n. lia. }
  rewrite rfft_deinterleave_ok by (rewrite DFT_list_length, Lz; auto). rewrite DFT_list_length, Lz.
  set (A := fun j => RtoC (nth j a 0%R)). set (B := fun j => RtoC (nth j b 0%R)).
  assert (Z : forall k, DFT Forward n (fun j => nth j z C0) k = (DFT Forward n A k + Ci * DFT Forward n B k)%C).
  { intros k. rewrite <- DFT_scale, <- DFT_add. apply DFT_ext. intros j Hj. unfold z, A, B.
    transitivity (nth j a 0%R, nth j b 0%R). { apply (combine_nth a b j 0%R 0%R Hab). }
    apply C_eq; unfold Cadd, Cmul, Ci, RtoC; simpl; ring. }
  assert (DN : forall k, k < n -> nth k (DFT_list Forward z) C0 = (DFT Forward n A k + Ci * DFT Forward n B k)%C).
  { intros k Hk. rewrite nth_DFT_list by lia. rewrite Lz. apply Z. }
  assert (R0 : forall (f : nat -> R), snd (DFT Forward n (fun j => RtoC (f j)) 0) = 0%R).
  { intros f. unfold DFT. rewrite snd_Csum. apply Rsum_0. intros i Hi. rewrite Nat.mul_0_r, W_0. unfold Cmul, RtoC, C1. simpl. ring. }
  assert (Hh : n / 2 < n) by (apply Nat.div_lt; lia).
  unfold RDFT_list. rewrite <- Hab. fold n. f_equal. f_equal; apply tab_ext; intros k Hk.
  - destruct (Nat.eqb_spec k 0).
    + subst k. rewrite DN by lia. assert (Ra : snd (DFT Forward n A 0) = 0%R) by apply (R0 (fun j => nth j a 0%R)).
      assert (Rb : snd (DFT Forward n B 0) = 0%R) by apply (R0 (fun j => nth j b 0%R)). apply C_eq; unfold RtoC, Cadd, Cmul, Ci; cbn [fst snd].
      { change (fst (DFT Forward n A 0) + (0 * fst (DFT Forward n B 0) - 1 * snd (DFT Forward n B 0)) = fst (DFT Forward n A 0))%R. rewrite Rb. ring. }
      symmetry. exact Ra.
    + rewrite !DN by lia. unfold A, B. rewrite !DFT_real_sym by lia.
      rewrite Cconj_add, Cconj_mul, !Cconj_conj.
      replace (Cconj Ci) with (- Ci)%C by (apply C_eq; unfold Cconj, Copp, Ci; simpl; ring).
      apply C_eq; unfold Cadd, Cmul, Ci, Copp, RtoC; cbn [fst snd]; field.
  - destruct (Nat.eqb_spec k 0).
    + subst k. rewrite DN by lia. assert (Ra : snd (DFT Forward n A 0) = 0%R) by apply (R0 (fun j => nth j a 0%R)).
      assert (Rb : snd (DFT Forward n B 0) = 0%R) by apply (R0 (fun j => nth j b 0%R)). apply C_eq; unfold RtoC, Cadd, Cmul, Ci; cbn [fst snd].
      { change (snd (DFT Forward n A 0) + (0 * snd (DFT Forward n B 0) + 1 * fst (DFT Forward n B 0)) = fst (DFT Forward n B 0))%R. rewrite Ra. ring. }
      symmetry. exact Rb.
    + rewrite !DN by lia. unfold A, B. rewrite !DFT_real_sym by lia.
      rewrite Cconj_add, Cconj_mul, !Cconj_conj.
      replace (Cconj Ci) with (- Ci)%C by (apply C_eq; unfold Cconj, Copp, Ci; simpl; ring).
      apply C_eq; unfold Cadd, Csub, Cmul, Ci, Copp, RtoC; cbn [fst snd]; field.
Qed.

(** ** Direct DFT *)
Lemma dft_ok : forall x out d, length out = length x -> dft (Other x) out d = Ok (DFT_list d x).
Proof.
  intros x out d H. unfold dft. cbn [contents]. unfold DFT_list.
  apply (for_range_tab _ C0 (length x) _ out (DFT d (length x) (fun j => nth j x C0))); auto.
  intros k l Hk Hl _.
  destruct (for_range_inv _ (fun j t => t = Csum j (fun i => nth i x C0 * W d (length x) (i * k))%C) 0 (length x)
    (fun n tmp =>
      input <- rd x n ;;
      let w := Cexp (match d with Forward => (-1)%R | Backward => 1%R end * (PI * 2) * INR n * INR k / INR (length x))%R in
      Ok (tmp + input * w)%C) C0) as [t [E V]].
  - lia.
  - reflexivity.
  - intros j t Hj Ht. rewrite (rd_ok _ x j C0) by lia. cbn [bind]. eexists. split; [reflexivity|].
    rewrite Csum_S, <- Ht. f_equal. f_equal. unfold W. f_equal. rewrite mult_INR. unfold Rdiv. destruct d; simpl; ring.
  - match goal with |- bind ?m _ = _ => replace m with (Ok t : outcome C) by (symmetry; exact E) end.
    cbn [bind]. rewrite wr_ok by lia. rewrite V. reflexivity.
Qed.

Lemma dft_roundtrip : forall x out out2 d, length out = length x -> length out2 = length x ->
  exists y, dft (Other x) out d = Ok y /\ dft (Other y) out2 (flip d) = Ok (map (fun c => (RtoC (INR (length x)) * c)%C) x).
Proof.
  intros x out out2 d H1 H2. exists (DFT_list d x). split. { apply dft_ok; auto. }
  rewrite dft_ok by (rewrite DFT_list_length; auto). rewrite DFT_list_inv. auto.
Qed.

Lemma dft_in_place_wrong : exists y, dft Self [C0; C1] Forward = Ok y /\ y <> DFT_list Forward [C0; C1].
Proof.
  eexists. split; [reflexivity|]. intros H. apply (f_equal (fun l => fst (nth 1 l C0))) in H.
  rewrite nth_DFT_list in H by (simpl; lia). simpl in H. unfold DFT, Csum in H. simpl bsum in H. simpl nth in H.
  replace (-1 * (PI * 2) * 1 * 1 / (1 + 1))%R with (- PI)%R in H by field.
  replace (-1 * (2 * PI) * 1 / (1 + 1))%R with (- PI)%R in H by field.
  replace (-1 * (PI * 2) * 0 * 0 / (1 + 1))%R with 0%R in H by field.
  replace (-1 * (PI * 2) * 1 * 0 / (1 + 1))%R with 0%R in H by field.
  replace (-1 * (PI * 2) * 0 * 1 / (1 + 1))%R with 0%R in H by field.
  replace (-1 * (2 * PI) * 0 / (1 + 1))%R with 0%R in H by field.
  rewrite ?cos_neg, ?sin_neg, ?cos_PI, ?sin_PI, ?cos_0, ?sin_0 in H. lra.
Qed.
