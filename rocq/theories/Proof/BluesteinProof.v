(** Bluestein's algorithm (dft_plan) and the DCT. *)
From Coq Require Import List Arith Bool Lia Reals Lra ZArith.
From Verif Require Import Base.Outcome Base.OutcomeFacts Base.Sums Base.Alias Base.Cplx Spec.Dft Spec.DigitRev Spec.Transforms.
From Verif Require Import Model.Fft2 Model.Integers Model.Algorithm Model.FftApps.
From Verif Require Import Proof.DftTheory Proof.DigitRevTheory Proof.Fft2Proof Proof.AlgorithmProof Proof.FftCorollaries Proof.RfftProof Proof.IntegersProof.
Import ListNotations.
Local Arguments Nat.div : simpl never.
Local Arguments Nat.modulo : simpl never.
Local Open Scope nat_scope.

(** Chirp values. *)
Definition chirp (d : direction) (n i : nat) : C := W d (2 * n) (i * i).

Lemma chirp_exp : forall d n i, 0 < n ->
  Cexp (INR ((i * i) mod (n * 2)) * (PI / INR n * dsign d)) = chirp d n i.
Proof.
  intros d n i Hn. unfold chirp. rewrite <- W_mod by lia. unfold W. f_equal.
  rewrite (Nat.mul_comm n 2). rewrite mult_INR. change (INR 2) with 2%R.
  assert (INR n <> 0%R) by (apply not_0_INR; lia). field. auto.
Qed.

Lemma chirp_key : forall d n k i, 0 < n -> i <= k ->
  (chirp d n k * (chirp d n i * Cconj (chirp d n (k - i))))%C = W d n (i * k).
Proof.
  intros d n k i Hn Hi. unfold chirp. rewrite W_conj.
  replace (k * k) with ((k - i) * (k - i) + (2 * (i * k) - i * i)) by nia.
  rewrite W_add.
  transitivity ((W d (2 * n) ((k - i) * (k - i)) * W (flip d) (2 * n) ((k - i) * (k - i))) *
    (W d (2 * n) (2 * (i * k) - i * i) * W d (2 * n) (i * i)))%C. { ring. }
  rewrite W_flip_mul, <- W_add. replace (2 * (i * k) - i * i + i * i) with (2 * (i * k)) by nia.
  rewrite W_scale by lia. ring.
Qed.

Lemma chirp_key_sym : forall d n k i, 0 < n -> k <= i ->
  (chirp d n k * (chirp d n i * Cconj (chirp d n (i - k))))%C = W d n (i * k).
Proof. intros. rewrite (Nat.mul_comm i k). rewrite <- chirp_key by auto. ring. Qed.

(** Construction. *)
Lemma log2_up_odd_pow : forall n, 2 * n + 1 <= 2 ^ Nat.log2_up (n * 2 + 1).
Proof.
  intros. destruct n. { simpl. lia. } pose proof (Nat.log2_up_spec (S n * 2 + 1) ltac:(lia)). lia.
Qed.

Record d_inv (n : nat) (p : dft_plan) : Prop := DInv {
  di_size : d_size p = n;
  di_order : d_order p = Nat.log2_up (n * 2 + 1);
  di_plan : make_dit2_plan (d_order p) = Ok (d_plan p);
  di_wf : d_wf p = tab n (chirp Forward n);
  di_wb : d_wb p = tab n (chirp Backward n);
  di_a : length (d_a p) = 2 ^ d_order p;
  di_b : length (d_b p) = 2 ^ d_order p }.

Lemma chirp_loop : forall n, exists r,
  for_range 0 n (fun i s =>
    let '(wf, wb) := s in
    let j := INR ((i * i) mod (n * 2)) in
    wf <- wr wf i (Cexp (j * (PI / INR n * -1))) ;;
    wb <- wr wb i (Cexp (j * (PI / INR n * 1))) ;;
    Ok (wf, wb)) (repeat C0 n, repeat C0 n) = Ok r /\ r = (tab n (chirp Forward n), tab n (chirp Backward n)).
Proof.
  intros n.
  destruct (for_range_inv _ (fun j (s : list C * list C) => length (fst s) = n /\ length (snd s) = n /\
      (forall i, i < j -> nth i (fst s) C0 = chirp Forward n i) /\ (forall i, i < j -> nth i (snd s) C0 = chirp Backward n i)) 0 n
    (fun i s =>
    let '(wf, wb) := s in
    let j := INR ((i * i) mod (n * 2)) in
    wf <- wr wf i (Cexp (j * (PI / INR n * -1))) ;;
    wb <- wr wb i (Cexp (j * (PI / INR n * 1))) ;;
    Ok (wf, wb)) (repeat C0 n, repeat C0 n)) as [[u v] [E [L1 [L2 [V1 V2]]]]].
  - lia.
  - cbn [fst snd]. rewrite !repeat_length. repeat split; auto; intros; lia.
  - intros i [u v] Hi [L1 [L2 [V1 V2]]]. cbn [fst snd] in *. rewrite !wr_ok by lia. cbn [bind].
    eexists. split; [reflexivity|]. cbn [fst snd]. rewrite !upd_length. repeat split; auto; intros j Hj; destruct (Nat.eq_dec j i).
    + subst j. rewrite nth_upd_eq by lia. apply (chirp_exp Forward). lia.
    + rewrite nth_upd_neq by auto. apply V1. lia.
    + subst j. rewrite nth_upd_eq by lia. apply (chirp_exp Backward). lia.
    + rewrite nth_upd_neq by auto. apply V2. lia.
  - exists (u, v). split; auto. cbn [fst snd] in *. f_equal; apply (list_eq_tab _ C0); auto.
Qed.

Lemma make_dft_plan_inv : forall n p, (Z.of_nat (n * 2 + 1) <= 2 ^ 63)%Z -> make_dft_plan n = Ok p -> d_inv n p.
Proof.
  intros n p Hn H. unfold make_dft_plan in H. rewrite next_order_ok in H by auto. cbn [bind] in H.
  apply bind_ok in H. destruct H as [pl [E H]].
  destruct (chirp_loop n) as [r [EL Er]]. cbv zeta in H, EL. rewrite EL in H. cbn [bind] in H. subst r. inversion H. subst p.
  constructor; cbn [d_size d_order d_plan d_wf d_wb d_a d_b]; auto; apply repeat_length.
Qed.

Lemma make_dft_plan_ok : forall n, n * 2 + 1 <= 2 ^ 27 -> exists p, make_dft_plan n = Ok p.
Proof.
  intros n Hn. assert (HZ : (Z.of_nat (n * 2 + 1) <= 2 ^ 63)%Z).
  { transitivity (Z.of_nat (2 ^ 27)). { apply inj_le. auto. } rewrite Nat2Z.inj_pow. apply Z.pow_le_mono_r; lia. }
  unfold make_dft_plan. rewrite next_order_ok by auto. cbn [bind].
  assert (Ho : Nat.log2_up (n * 2 + 1) <= 27). { rewrite <- (Nat.log2_up_pow2 27) by lia. apply Nat.log2_up_le_mono. auto. }
  assert (EP : exists pl, make_dit2_plan (Nat.log2_up (n * 2 + 1)) = Ok pl).
  { destruct n. { change (Nat.log2_up (0 * 2 + 1)) with 0. eexists. reflexivity. }
    assert (Hp : 0 < Nat.log2_up (S n * 2 + 1)) by (apply Nat.log2_up_pos; lia).
    eexists. apply (make_dit2_plan_ok _ (conj Hp Ho)). }
  destruct EP as [pl E]. rewrite E. cbn [bind].
  destruct (chirp_loop n) as [r [EL Er]]. cbv zeta in EL |- *. rewrite EL. cbn [bind]. subst r. eexists. reflexivity.
Qed.

Lemma make_dft_plan_throws : forall n, 2 ^ 27 < n * 2 + 1 -> (Z.of_nat (n * 2 + 1) <= 2 ^ 63)%Z -> make_dft_plan n = Throw.
Proof.
  intros n Hn HZ. unfold make_dft_plan. rewrite next_order_ok by auto. cbn [bind].
  assert (Ho : 27 < Nat.log2_up (n * 2 + 1)).
  { apply Nat.nle_gt. intros C. pose proof (log2_up_odd_pow n).
    assert (2 ^ Nat.log2_up (n * 2 + 1) <= 2 ^ 27) by (apply Nat.pow_le_mono_r; lia). lia. }
  unfold make_dit2_plan, check_order. assert (B : (max_order <? Nat.log2_up (n * 2 + 1)) = true) by (apply Nat.ltb_lt; exact Ho).
  rewrite B. reflexivity.
Qed.

(** Running. *)
Lemma multiply_into : forall x w out, length x <= length w -> length x <= length out ->
  exists a, multiply_c (Other x) (Other w) out = Ok a /\ length a = length out /\
   forall i, i < length out -> nth i a C0 = if i <? length x then (nth i x C0 * nth i w C0)%C else nth i out C0.
Proof.
  intros x w out H1 H2. unfold multiply_c, linalg_binary_op. cbn [contents].
  destruct (for_range_map _ C0 0 (length x) (fun i out => a <- rd x i ;; b <- rd w i ;; wr out i (a * b)%C) out
    (fun i => (nth i x C0 * nth i w C0)%C)) as [a [E [L V]]]; auto.
  - intros j l Hj Hl _. rewrite (rd_ok _ x j C0), (rd_ok _ w j C0) by lia. cbn [bind]. rewrite wr_ok by lia. auto.
  - exists a. split; [exact E|]. split; auto.
Qed.

Definition bspec (d : direction) (n m i : nat) : C :=
  if i <? n then Cconj (chirp d n i) else if m - n <? i then Cconj (chirp d n (m - i)) else C0.

Lemma b_loop : forall d n m w0, 0 < n -> 2 * n + 1 <= m -> w0 = chirp d n 0 ->
  for_range 1 n (fun i b =>
    let m := length b in
    v <- rd (tab n (chirp d n)) i ;;
    let c := Cconj v in
    b <- wr b i c ;;
    wr b (m - i) c) (upd (repeat C0 m) 0 w0) = Ok (tab m (bspec d n m)).
Proof.
  intros d n m w0 Hn Hm Hw.
  assert (C0c : Cconj (chirp d n 0) = chirp d n 0). { unfold chirp. rewrite W_0. apply Cconj_1. }
  destruct (for_range_inv _ (fun j l => length l = m /\ forall i, i < m ->
      nth i l C0 = if i <? j then Cconj (chirp d n i) else if m - j <? i then Cconj (chirp d n (m - i)) else C0) 1 n
    (fun i b =>
    let m := length b in
    v <- rd (tab n (chirp d n)) i ;;
    let c := Cconj v in
    b <- wr b i c ;;
    wr b (m - i) c) (upd (repeat C0 m) 0 w0)) as [l [E [L V]]].
  - lia.
  - rewrite upd_length, repeat_length. split; auto. intros i Hi. destruct (Nat.eq_dec i 0).
    + subst i. rewrite nth_upd_eq by (rewrite repeat_length; lia). simpl. congruence.
    + rewrite nth_upd_neq by auto. rewrite nth_repeat. rewrite (proj2 (Nat.ltb_ge i 1)), (proj2 (Nat.ltb_ge (m - 1) i)) by lia. auto.
  - intros j l Hj [L V]. rewrite (rd_ok _ _ j C0) by (rewrite tab_length; lia). cbn [bind]. rewrite wr_ok by lia. cbn [bind].
    rewrite wr_ok by (rewrite upd_length; lia). eexists. split; [reflexivity|]. rewrite !upd_length. split; auto.
    intros i Hi. rewrite nth_tab by lia. rewrite L. destruct (Nat.eq_dec i (m - j)).
    + subst i. rewrite nth_upd_eq by (rewrite upd_length; lia).
      rewrite (proj2 (Nat.ltb_ge (m - j) (S j))), (proj2 (Nat.ltb_lt (m - S j) (m - j))) by lia.
      do 2 f_equal. lia.
    + rewrite nth_upd_neq by auto. destruct (Nat.eq_dec i j).
      * subst i. rewrite nth_upd_eq by lia. rewrite (proj2 (Nat.ltb_lt j (S j))) by lia. auto.
      * rewrite nth_upd_neq by auto. rewrite V by auto.
        destruct (Nat.ltb_spec i j); destruct (Nat.ltb_spec i (S j)); auto; try lia.
        destruct (Nat.ltb_spec (m - j) i); destruct (Nat.ltb_spec (m - S j) i); auto; lia.
  - etransitivity; [exact E|]. f_equal. apply (list_eq_tab _ C0); auto.
Qed.

Lemma bluestein_sum : forall d n m (x : nat -> C) k, 0 < n -> 2 * n + 1 <= m -> k < n ->
  (cconv m (fun i => if i <? n then x i * chirp d n i else C0) (bspec d n m) k * chirp d n k)%C = DFT d n x k.
Proof.
  intros d n m x k Hn Hm Hk. unfold cconv, DFT. rewrite (Csum_le n m) by (try lia; intros i Hi;
    rewrite (proj2 (Nat.ltb_ge i n)) by lia; ring).
  rewrite <- Csum_mul_r. apply Csum_ext. intros i Hi. rewrite (proj2 (Nat.ltb_lt i n)) by lia.
  destruct (le_lt_dec i k) as [H|H].
  - replace (k + (m - i)) with (k - i + 1 * m) by lia. rewrite Nat.mod_add, Nat.mod_small by lia.
    unfold bspec. rewrite (proj2 (Nat.ltb_lt (k - i) n)) by lia. rewrite <- chirp_key by auto. ring.
  - rewrite Nat.mod_small by lia. unfold bspec. rewrite (proj2 (Nat.ltb_ge _ n)), (proj2 (Nat.ltb_lt (m - n) _)) by lia.
    replace (m - (k + (m - i))) with (i - k) by lia. rewrite <- (chirp_key_sym d n k i) by lia. ring.
Qed.

Lemma dft_plan_run_ok : forall n p x d, 0 < n -> d_inv n p -> length x = n ->
  exists p', dft_plan_run p x d = Ok (p', DFT_list d x) /\ d_inv n p'.
Proof.
  intros n p x d Hn [I1 I2 I3 I4 I5 I6 I7] Hx. unfold dft_plan_run.
  set (m := 2 ^ d_order p) in *.
  assert (Hm : 2 * n + 1 <= m). { unfold m. rewrite I2. apply log2_up_odd_pow. }
  assert (Ho : 0 < d_order p). { destruct (d_order p); [|lia]. unfold m in Hm. simpl in Hm. lia. }
  set (w := match d with Forward => d_wf p | Backward => d_wb p end).
  assert (Ew : w = tab n (chirp d n)). { unfold w. destruct d; auto. }
  clearbody w. subst w. rewrite !fill_ok. cbn [bind]. rewrite I6, I7, I1.
  destruct (multiply_into x (tab n (chirp d n)) (repeat C0 m)) as [a [Ea [La Va]]].
  { rewrite tab_length. lia. } { rewrite repeat_length. lia. }
  rewrite repeat_length in La, Va. rewrite Ea. cbn [bind].
  rewrite (rd_ok _ _ 0 C0) by (rewrite tab_length; lia). cbn [bind]. rewrite wr_ok by (rewrite repeat_length; lia). cbn [bind].
  rewrite (b_loop d n m) by (auto; apply nth_tab; lia). cbn [bind].
  rewrite (fft_obj (d_order p)) by auto. cbn [bind].
  rewrite (fft_obj (d_order p)) by (auto; apply tab_length). cbn [bind].
  set (b := tab m (bspec d n m)).
  assert (Lb : length b = m) by apply tab_length.
  unfold multiply_c at 1. rewrite linalg_binary_ok by (cbn [contents]; rewrite !DFT_list_length; lia).
  cbn [contents bind].
  rewrite (zip_with_tab _ _ _ _ _ _ C0 C0) by (rewrite !DFT_list_length; lia).
  rewrite DFT_list_length. rewrite <- (DFT_list_conv Forward a b) by lia.
  rewrite (fft_obj (d_order p)) by (auto; rewrite DFT_list_length, tab_length; auto). cbn [bind].
  change Backward with (flip Forward) at 1. rewrite DFT_list_inv, tab_length.
  unfold scale_c. rewrite linalg_unary_ok. cbn [bind]. rewrite map_map.
  set (cv := tab (length a) (cconv (length a) (fun i => nth i a C0) (fun i => nth i b C0))).
  assert (Lcv : length cv = m). { unfold cv. rewrite tab_length. auto. }
  assert (Mm : INR m <> 0%R) by (apply not_0_INR; lia).
  rewrite (map_ext _ (fun v => v)).
  2:{ intros v. rewrite La. fold m. apply C_eq; unfold Cscale, Cmul, RtoC; simpl; field; auto. }
  rewrite map_id. rewrite slice_ok by lia. cbn [bind].
  destruct (multiply_into (firstn (n - 0) (skipn 0 cv)) (tab n (chirp d n)) x) as [y [Ey [Ly Vy]]].
  { rewrite firstn_length, skipn_length, tab_length. lia. } { rewrite firstn_length, skipn_length. lia. }
  rewrite Ey. cbn [bind]. eexists. split.
  - f_equal. f_equal. unfold DFT_list. apply (list_eq_tab _ C0); auto. rewrite Hx. intros i Hi.
    rewrite Vy by lia. rewrite firstn_length, skipn_length. rewrite (proj2 (Nat.ltb_lt i _)) by lia.
    rewrite nth_firstn_lt by lia. rewrite nth_skipn_add. cbn [Nat.add]. rewrite nth_tab by auto.
    rewrite <- (bluestein_sum d n m (fun j => nth j x C0) i) by auto. f_equal.
    unfold cv. rewrite nth_tab by lia. rewrite La. unfold cconv. apply Csum_ext. intros j Hj.
    rewrite Va by auto. rewrite Hx.
    assert (Hmod : (i + (m - j)) mod m < m) by (apply Nat.mod_upper_bound; lia).
    destruct (Nat.ltb_spec j n).
    { rewrite nth_tab by auto. unfold b. rewrite nth_tab by exact Hmod. reflexivity. }
    rewrite nth_repeat. unfold b. rewrite nth_tab by exact Hmod. reflexivity.
  - constructor; cbn [d_size d_order d_plan d_wf d_wb d_a d_b]; auto. rewrite DFT_list_length. auto.
Qed.

(** A run on a vector of another length never returns, so every reachable plan is sound. *)
Lemma dft_plan_run_wrong_length : forall n p x d, 0 < n -> d_inv n p -> length x <> n -> dft_plan_run p x d = UB.
Proof.
  intros n p x d Hn [I1 I2 I3 I4 I5 I6 I7] Hx. unfold dft_plan_run.
  set (m := 2 ^ d_order p) in *.
  assert (Hm : 2 * n + 1 <= m). { unfold m. rewrite I2. apply log2_up_odd_pow. }
  assert (Ho : 0 < d_order p). { destruct (d_order p); [|lia]. unfold m in Hm. simpl in Hm. lia. }
  set (w := match d with Forward => d_wf p | Backward => d_wb p end).
  assert (Ew : w = tab n (chirp d n)). { unfold w. destruct d; auto. }
  clearbody w. subst w. rewrite !fill_ok. cbn [bind]. rewrite I6, I7, I1.
  assert (Hcase : n < length x \/ length x < n) by lia. destruct Hcase as [Hc|Hc].
  { assert (E : multiply_c (Other x) (Other (tab n (chirp d n))) (repeat C0 m) = UB).
    { unfold multiply_c, linalg_binary_op. cbn [contents].
      rewrite (for_range_split _ 0 n) by lia.
      destruct (for_range_map _ C0 0 n (fun i out => a <- rd x i ;; b <- rd (tab n (chirp d n)) i ;; wr out i (a * b)%C) (repeat C0 m)
        (fun i => (nth i x C0 * nth i (tab n (chirp d n)) C0)%C)) as [a [E [L V]]].
      - rewrite repeat_length. lia.
      - intros j l Hj Hl _. rewrite (rd_ok _ x j C0), (rd_ok _ _ j C0) by (rewrite ?tab_length; lia). cbn [bind].
        rewrite repeat_length in Hl. rewrite wr_ok by lia. auto.
      - rewrite E. cbn [bind]. rewrite for_range_S by lia. rewrite (rd_ok _ x n C0) by lia. cbn [bind].
        rewrite rd_ub by (rewrite tab_length; lia). reflexivity. }
    rewrite E. reflexivity. }
  destruct (multiply_into x (tab n (chirp d n)) (repeat C0 m)) as [a [Ea [La Va]]].
  { rewrite tab_length. lia. } { rewrite repeat_length. lia. }
  rewrite repeat_length in La. rewrite Ea. cbn [bind].
  rewrite (rd_ok _ _ 0 C0) by (rewrite tab_length; lia). cbn [bind]. rewrite wr_ok by (rewrite repeat_length; lia). cbn [bind].
  rewrite (b_loop d n m) by (auto; apply nth_tab; lia). cbn [bind].
  rewrite (fft_obj (d_order p)) by auto. cbn [bind].
  rewrite (fft_obj (d_order p)) by (auto; apply tab_length). cbn [bind].
  unfold multiply_c at 1. rewrite linalg_binary_ok by (cbn [contents]; rewrite !DFT_list_length, ?tab_length; lia).
  cbn [contents bind].
  rewrite (fft_obj (d_order p)) by (auto; rewrite zip_with_length, !DFT_list_length, tab_length; fold m; lia). cbn [bind].
  unfold scale_c. rewrite linalg_unary_ok. cbn [bind].
  match goal with |- context [slice ?l 0 n] => set (z := l) end.
  assert (Lz : length z = m). { unfold z. rewrite map_length, DFT_list_length, zip_with_length, !DFT_list_length, tab_length. lia. }
  rewrite slice_ok by lia. cbn [bind].
  set (s := firstn (n - 0) (skipn 0 z)).
  assert (Ls : length s = n). { unfold s. rewrite firstn_length, skipn_length. lia. }
  assert (E : multiply_c (Other s) (Other (tab n (chirp d n))) x = UB).
  { unfold multiply_c, linalg_binary_op. cbn [contents].
    rewrite (for_range_split _ 0 (length x)) by lia.
    destruct (for_range_map _ C0 0 (length x) (fun i out => a <- rd s i ;; b <- rd (tab n (chirp d n)) i ;; wr out i (a * b)%C) x
      (fun i => (nth i s C0 * nth i (tab n (chirp d n)) C0)%C)) as [a' [E [L V]]].
    - auto.
    - intros j l Hj Hl _. rewrite (rd_ok _ s j C0), (rd_ok _ _ j C0) by (rewrite ?tab_length; lia). cbn [bind].
      rewrite wr_ok by lia. auto.
    - rewrite E. cbn [bind]. rewrite for_range_S by lia. rewrite (rd_ok _ s _ C0) by lia. cbn [bind].
      rewrite (rd_ok _ _ _ C0) by (rewrite tab_length; lia). cbn [bind]. rewrite wr_ub by lia. reflexivity. }
  rewrite E. reflexivity.
Qed.

Lemma dft_reach_inv : forall n p, 0 < n -> (Z.of_nat (n * 2 + 1) <= 2 ^ 63)%Z -> dft_reach n p -> d_inv n p.
Proof.
  intros n p Hn HZ H. induction H.
  - apply make_dft_plan_inv; auto.
  - destruct (Nat.eq_dec (length x) n).
    + destruct (dft_plan_run_ok n p x d Hn IHdft_reach e) as [p'' [E I]]. rewrite E in H0. inversion H0. subst. auto.
    + rewrite (dft_plan_run_wrong_length n) in H0 by auto. discriminate.
Qed.

Lemma dft_plan_size0 : exists p, make_dft_plan 0 = Ok p /\ forall x d, dft_plan_run p x d = UB.
Proof.
  destruct (make_dft_plan_ok 0) as [p E]. { apply Nat.neq_0_lt_0, Nat.pow_nonzero. lia. }
  exists p. split; auto. intros x d. assert (HZ : (Z.of_nat (0 * 2 + 1) <= 2 ^ 63)%Z). { simpl. lia. }
  pose proof (make_dft_plan_inv 0 p HZ E) as [I1 I2 I3 I4 I5 I6 I7]. unfold dft_plan_run. rewrite !fill_ok. cbn [bind].
  assert (Ew : match d with Forward => d_wf p | Backward => d_wb p end = []). { destruct d; auto. }
  rewrite Ew. destruct x.
  - cbn. reflexivity.
  - unfold multiply_c, linalg_binary_op. cbn [contents]. rewrite for_range_S by (simpl; lia).
    rewrite (rd_ub _ []) by (simpl; lia). cbn. reflexivity.
Qed.
