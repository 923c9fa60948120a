(** The split-complex FFT computes the DFT. *)
From Coq Require Import List Arith Bool Lia Reals.
From Verif Require Import Base.Outcome Base.OutcomeFacts Base.Alias Base.Cplx Spec.Dft Spec.DigitRev.
From Verif Require Import Model.Fft2 Model.Algorithm Model.FftApps.
From Verif Require Import Proof.DftTheory Proof.DigitRevTheory Proof.Fft2Proof Proof.BitrevProof Proof.AlgorithmProof Proof.FftCorollaries.
Import ListNotations.
Local Arguments Nat.div : simpl never.
Local Arguments Nat.modulo : simpl never.

Lemma upd_map : forall A B (f : A -> B) l i v, upd (map f l) i (f v) = map f (upd l i v).
Proof. intros A B f l. induction l; intros i v; simpl; auto. destruct i; simpl; auto. f_equal. auto. Qed.

Lemma upd_comm : forall T (l : list T) i j a b, i <> j -> upd (upd l i a) j b = upd (upd l j b) i a.
Proof.
  intros T l. induction l; intros i j a' b H; simpl; auto. destruct i, j; simpl; auto; try lia. f_equal. auto.
Qed.

(** One split butterfly mirrors the complex one. *)
Definition split_bfly (wre wim : R) (i1 i2 : nat) (x : list R * list R) : outcome (list R * list R) :=
  let '(xre, xim) := x in
  x1re <- rd xre i1 ;; x1im <- rd xim i1 ;; x2re <- rd xre i2 ;; x2im <- rd xim i2 ;;
  let xwre := (wre * x2re - wim * x2im)%R in
  let xwim := (wre * x2im + wim * x2re)%R in
  xre <- wr xre i1 (x1re + xwre)%R ;;
  xim <- wr xim i1 (x1im + xwim)%R ;;
  xre <- wr xre i2 (x1re - xwre)%R ;;
  xim <- wr xim i2 (x1im - xwim)%R ;;
  Ok (xre, xim).

Lemma split_bfly_hom : forall w i1 i2 (x : list C), i1 <> i2 ->
  split_bfly (fst w) (snd w) i1 i2 (unzip x) = omap unzip (dit2_butterfly w i1 i2 x).
Proof.
  intros w i1 i2 x Hne. unfold split_bfly, dit2_butterfly, unzip. unfold C in *.
  destruct (lt_dec i1 (length x)) as [H1|H1].
  2:{ rewrite (rd_ub _ x i1) by lia. rewrite (rd_ub _ (map fst x) i1) by (rewrite map_length; lia). reflexivity. }
  destruct (lt_dec i2 (length x)) as [H2|H2].
  2:{ rewrite (rd_ok _ x i1 C0), (rd_ub _ x i2) by lia.
      rewrite (rd_ok _ (map fst x) i1 (fst C0)), (rd_ok _ (map snd x) i1 (snd C0)) by (rewrite map_length; lia).
      rewrite (rd_ub _ (map fst x) i2) by (rewrite map_length; lia). reflexivity. }
  rewrite (rd_ok _ x i1 C0), (rd_ok _ x i2 C0) by auto. cbn [bind].
  rewrite (rd_ok _ (map fst x) i1 (fst C0)), (rd_ok _ (map snd x) i1 (snd C0)) by (rewrite map_length; lia).
  rewrite (rd_ok _ (map fst x) i2 (fst C0)), (rd_ok _ (map snd x) i2 (snd C0)) by (rewrite map_length; lia).
  cbn [bind]. rewrite !map_nth.
  do 4 (rewrite wr_ok by (rewrite ?upd_length, ?map_length; auto); cbn [bind]).
  do 2 (rewrite wr_ok by (rewrite ?upd_length; auto); cbn [bind omap]).
  unfold omap. cbn [bind]. f_equal. rewrite <- !upd_map.
  rewrite (upd_comm _ (map fst x) i2 i1), (upd_comm _ (map snd x) i2 i1) by auto.
  unfold Cadd, Csub, Cmul. cbn [fst snd]. reflexivity.
Qed.

Lemma dit2_stage0_bfly : forall x, dit2_stage0 x =
  for_step 0 (length x) 2 (fun k x => dit2_butterfly C1 k (k + 1) x) x.
Proof.
  intros x. unfold dit2_stage0, for_step. simpl Nat.eqb. apply loop_ext. intros j s Hj. unfold dit2_butterfly.
  set (k := 0 + j * 2). destruct (rd s k); auto. cbn [bind]. destruct (rd s (k + 1)); auto. cbn [bind].
  replace (C1 * a0)%C with a0 by ring. auto.
Qed.

Lemma for_step_hom : forall S1 S2 (f : S1 -> S2) lo hi step b1 b2 s, 0 < step ->
  (forall i s, b2 i (f s) = omap f (b1 i s)) ->
  for_step lo hi step b2 (f s) = omap f (for_step lo hi step b1 s).
Proof.
  intros S1 S2 f lo hi step b1 b2 s Hs H. unfold for_step. destruct (Nat.eqb_spec step 0); [lia|]. apply loop_hom. auto.
Qed.

Lemma split_stage_0_hom : forall n (x : list C), length x = n ->
  split_stage_0 n (unzip x) = omap unzip (dit2_stage0 x).
Proof.
  intros n x H. rewrite dit2_stage0_bfly, H. unfold split_stage_0. apply for_step_hom; [lia|].
  intros k s. rewrite <- split_bfly_hom by lia. unfold split_bfly, unzip, C1. cbn [fst snd].
  destruct (rd (map fst s) k); auto. cbn [bind]. destruct (rd (map snd s) k); auto. cbn [bind].
  destruct (rd (map fst s) (k + 1)); auto. cbn [bind]. destruct (rd (map snd s) (k + 1)); auto. cbn [bind].
  replace (1 * a1 - 0 * a2)%R with a1 by ring. replace (1 * a2 + 0 * a1)%R with a2 by ring. auto.
Qed.

Lemma split_stage_hom : forall (tw : list C) n L st ts (x : list C), 0 < L -> 0 < st -> length x = n ->
  for_step 0 n st (fun k x =>
      for_range 0 L (fun pair x =>
        let '(xre, xim) := x in
        let i1 := k + pair in
        let i2 := k + pair + L in
        let w_index := pair * ts in
        wre <- rd (map fst tw) w_index ;; wim <- rd (map snd tw) w_index ;;
        x1re <- rd xre i1 ;; x1im <- rd xim i1 ;; x2re <- rd xre i2 ;; x2im <- rd xim i2 ;;
        let xwre := (wre * x2re - wim * x2im)%R in
        let xwim := (wre * x2im + wim * x2re)%R in
        xre <- wr xre i1 (x1re + xwre)%R ;;
        xim <- wr xim i1 (x1im + xwim)%R ;;
        xre <- wr xre i2 (x1re - xwre)%R ;;
        xim <- wr xim i2 (x1im - xwim)%R ;;
        Ok (xre, xim)) x) (unzip x)
  = omap unzip (dit2_stage tw L st ts x).
Proof.
  intros tw n L st ts x HL Hst Hn. unfold dit2_stage. rewrite Hn. apply for_step_hom; auto.
  intros k s. unfold for_range. apply loop_hom. intros pair y.
  unfold C in *. destruct (lt_dec (pair * ts) (length tw)) as [H|H].
  - rewrite (rd_ok _ tw _ C0) by auto. cbn [bind]. rewrite <- split_bfly_hom by lia. unfold unzip at 1.
    rewrite (rd_ok _ (map fst tw) _ (fst C0)), (rd_ok _ (map snd tw) _ (snd C0)) by (rewrite map_length; auto).
    rewrite !map_nth. reflexivity.
  - rewrite (rd_ub _ tw) by lia. unfold unzip at 1. rewrite (rd_ub _ (map fst tw)) by (rewrite map_length; lia). reflexivity.
Qed.

(** Forward kernel on split arrays. *)
Lemma split_kernel_ok : forall p (x : list C) xs, 0 < p -> length x = 2 ^ p ->
  (forall i, i < 2 ^ p -> nth i x C0 = xs (digit_rev 2 p i)) ->
  (y <- split_stage_0 (2 ^ p) (unzip x) ;;
   split_stage_n p (map fst (half_lut Forward p)) (map snd (half_lut Forward p)) y)
  = Ok (unzip (tab (2 ^ p) (DFT Forward (2 ^ p) xs))).
Proof.
  intros p x xs Hp Hx H. rewrite split_stage_0_hom by auto.
  destruct (stage0_dit Forward p xs x Hp Hx H) as [x0 [E0 [L0 I0]]]. rewrite E0. unfold omap at 1. cbn [bind].
  unfold split_stage_n.
  match goal with |- for_range 1 p ?B _ = _ => set (body := B) end.
  destruct (for_range_inv _ (fun s y => exists x, y = unzip x /\ length x = 2 ^ p /\ dit_inv Forward 2 p s xs (fun i => nth i x C0))
    1 p body (unzip x0)) as [y [E [x' [-> [L I]]]]].
  - lia.
  - exists x0. auto.
  - intros s y Hs [x1 [-> [L1 I1]]].
    destruct (stage_run Forward p s xs x1 ltac:(lia) L1 I1) as [x2 [E2 [L2 I2]]].
    exists (unzip x2). split. 2:{ exists x2. auto. }
    unfold body. rewrite split_stage_hom; auto.
    + rewrite Nat.add_1_r. change (2 ^ S s) with (2 * 2 ^ s). rewrite E2. reflexivity.
    + apply Nat.neq_0_lt_0. apply Nat.pow_nonzero. lia.
    + apply Nat.neq_0_lt_0. apply Nat.pow_nonzero. lia.
  - rewrite E. f_equal. f_equal. apply dit_inv_tab; auto.
Qed.

Definition swapC (z : C) : C := (snd z, fst z).

Lemma swapC_add : forall a b, swapC (a + b)%C = (swapC a + swapC b)%C.
Proof. reflexivity. Qed.

Lemma swapC_sum : forall n f, swapC (Csum n f) = Csum n (fun i => swapC (f i)).
Proof. intros n f. induction n. reflexivity. rewrite !Csum_S, swapC_add, IHn. auto. Qed.

Lemma swapC_W : forall n k z, swapC (z * W Backward n k)%C = (swapC z * W Forward n k)%C.
Proof.
  intros n k z. change Forward with (flip Backward). rewrite <- W_conj.
  apply C_eq; unfold swapC, Cmul, Cconj; cbn [fst snd]; ring.
Qed.

Lemma DFT_swap : forall n x k, DFT Forward n (fun i => swapC (x i)) k = swapC (DFT Backward n x k).
Proof.
  intros. unfold DFT. rewrite swapC_sum. apply Csum_ext. intros. rewrite swapC_W. auto.
Qed.

Lemma make_split_plan_ok : forall p, 0 < p <= 30 ->
  make_split_plan p = Ok (SplitPlan p (tab (2 ^ p) (digit_rev 2 p))
    (map fst (half_lut Forward p)) (map snd (half_lut Forward p))).
Proof.
  intros p Hp. unfold make_split_plan. assert (B : (p <=? 30) = true) by (apply Nat.leb_le; lia). rewrite B.
  cbn [guard bind]. rewrite bitrevorder_plan_ok, make_twiddle_half by lia. cbn [bind].
  rewrite copy_to_split_ok by apply repeat_length. reflexivity.
Qed.

Lemma unzip_swap : forall (x : list C), (snd (unzip x), fst (unzip x)) = unzip (map swapC x).
Proof. intros. unfold unzip. cbn [fst snd]. rewrite !map_map. reflexivity. Qed.

Lemma split_run_ok : forall p pl d (x : list C), 0 < p <= 30 -> length x = 2 ^ p ->
  make_split_plan p = Ok pl -> split_run pl (unzip x) d = Ok (unzip (DFT_list d x)).
Proof.
  intros p pl d x Hp Hx E. rewrite make_split_plan_ok in E by auto. inversion E. subst pl. clear E.
  unfold split_run. cbn [sp_table sp_order sp_re sp_im].
  rewrite bitrev_apply_split_hom, (bitrev_apply_rev _ C0) by auto. unfold omap. cbn [bind].
  set (y := tab (2 ^ p) (fun i => nth (digit_rev 2 p i) x C0)).
  assert (Ly : length y = 2 ^ p) by apply tab_length.
  destruct d.
  - rewrite (split_kernel_ok p y (fun i => nth i x C0)); auto; try lia.
    + unfold DFT_list. rewrite Hx. auto.
    + intros i Hi. unfold y. rewrite nth_tab by auto. auto.
  - rewrite unzip_swap. pose proof (split_kernel_ok p (map swapC y) (fun i => swapC (nth i x C0))) as K.
    assert (K' : (y <- split_stage_0 (2 ^ p) (unzip (map swapC y)) ;;
      split_stage_n p (map fst (half_lut Forward p)) (map snd (half_lut Forward p)) y)
      = Ok (unzip (tab (2 ^ p) (DFT Forward (2 ^ p) (fun i => swapC (nth i x C0)))))).
    { apply K; try lia.
      - rewrite map_length. auto.
      - intros i Hi. change C0 with (swapC C0) at 1. rewrite map_nth. f_equal. unfold y. rewrite nth_tab by auto. auto. }
    clear K. destruct (split_stage_0 (2 ^ p) (unzip (map swapC y))); try discriminate. cbn [bind] in K' |- *. rewrite K'.
    cbn [bind]. rewrite unzip_swap. f_equal. f_equal. unfold DFT_list, tab. rewrite Hx, map_map. apply map_ext. intros k.
    rewrite DFT_swap. unfold swapC. cbn [fst snd]. destruct (DFT Backward (2 ^ p) _ k). reflexivity.
Qed.

Lemma combine_unzip : forall (re im : list R), length re = length im -> (re, im) = unzip (combine re im).
Proof.
  intros re. induction re; intros im H; destruct im; simpl in *; try lia; auto. inversion H.
  specialize (IHre im H1). unfold unzip in *. inversion IHre. simpl. f_equal; congruence.
Qed.

(** In terms of the two arrays. *)
Lemma split_fft_ok : forall p, 0 < p <= 30 -> exists pl, make_split_plan p = Ok pl /\
  forall d re im, length re = 2 ^ p -> length im = 2 ^ p ->
  let X := DFT_list d (combine re im) in
  split_run pl (re, im) d = Ok (map fst X, map snd X) /\
  forall ore oim, length ore = 2 ^ p -> length oim = 2 ^ p ->
    split_run_out pl (re, im) (ore, oim) d = Ok (map fst X, map snd X).
Proof.
  intros p Hp. eexists. split. { apply make_split_plan_ok; auto. } intros d re im Hr Hi X.
  assert (E : split_run (SplitPlan p (tab (2 ^ p) (digit_rev 2 p))
    (map fst (half_lut Forward p)) (map snd (half_lut Forward p))) (re, im) d = Ok (map fst X, map snd X)).
  { rewrite combine_unzip by lia. rewrite (split_run_ok p); auto.
    - etransitivity; [apply combine_length|]. lia.
    - apply make_split_plan_ok; auto. }
  split; auto. intros ore oim H1 H2. unfold split_run_out. cbn [fst snd].
  rewrite !copy_full by lia. cbn [bind]. rewrite !map_id. auto.
Qed.

(** Agreement with the complex plan. *)
Lemma split_fft_agrees : forall p d re im, 0 < p <= 27 -> length re = 2 ^ p -> length im = 2 ^ p ->
  exists pl X, make_split_plan p = Ok pl /\ fft_plan_run p (combine re im) d = Ok X /\
    split_run pl (re, im) d = Ok (map fst X, map snd X).
Proof.
  intros p d re im Hp Hr Hi. destruct (split_fft_ok p ltac:(lia)) as [pl [E H]]. exists pl, (DFT_list d (combine re im)).
  split; auto. split. { apply fft_plan_run_ok; auto. etransitivity; [apply combine_length|]. lia. } apply H; auto.
Qed.

Lemma split_fft_roundtrip : forall p d re im, 0 < p <= 30 -> length re = 2 ^ p -> length im = 2 ^ p ->
  exists pl y, make_split_plan p = Ok pl /\ split_run pl (re, im) d = Ok y /\
    split_run pl y (flip d) = Ok (map (fun v => (INR (2 ^ p) * v)%R) re, map (fun v => (INR (2 ^ p) * v)%R) im).
Proof.
  intros p d re im Hp Hr Hi. eexists. exists (unzip (DFT_list d (combine re im))).
  split. { apply make_split_plan_ok; auto. }
  assert (L : length (combine re im) = 2 ^ p) by (etransitivity; [apply combine_length|]; lia). split.
  - rewrite combine_unzip by lia. rewrite (split_run_ok p); auto. apply make_split_plan_ok; auto.
  - rewrite (split_run_ok p); auto. 3:{ apply make_split_plan_ok; auto. } 2:{ rewrite DFT_list_length. auto. }
    rewrite DFT_list_inv. unfold C in *. rewrite L. f_equal. unfold unzip. rewrite !map_map.
    pose proof (combine_unzip re im ltac:(lia)) as U. unfold unzip in U.
    pose proof (f_equal fst U) as U1. pose proof (f_equal snd U) as U2. cbn [fst snd] in U1, U2. f_equal.
    + transitivity (map (fun v => INR (2 ^ p) * v)%R (map fst (combine re im))). 2:{ rewrite <- U1. auto. }
      rewrite map_map. apply map_ext. intros c. unfold Cmul, RtoC. cbn [fst snd]. ring.
    + transitivity (map (fun v => INR (2 ^ p) * v)%R (map snd (combine re im))). 2:{ rewrite <- U2. auto. }
      rewrite map_map. apply map_ext. intros c. unfold Cmul, RtoC. cbn [fst snd]. ring.
Qed.

Lemma split_fft_order0 : forall a b d, exists pl, make_split_plan 0 = Ok pl /\ split_run pl ([a], [b]) d = UB.
Proof. intros a b d. eexists. split; [reflexivity|]. destruct d; reflexivity. Qed.
