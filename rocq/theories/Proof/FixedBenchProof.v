(** Accuracy of the planar complex products of Model/FixedBench.v. *)
From Coq Require Import ZArith List Bool Lia Arith Reals Lra.
From Verif Require Import Base.Outcome Base.OutcomeFacts Base.Alias.
From Verif Require Import Model.Integers Model.FixedPoint Model.Simd Model.SimdBatch Model.FixedBench.
From Verif Require Import Spec.Batch Spec.FixedRange Proof.IntegersProof Proof.FixedProof Proof.SimdBatchProof.
Import ListNotations.
Local Open Scope Z_scope.

Lemma cmulp_loop_ok : forall T (d0 : T) mul sub add lre lim rre rim ore oim n (re im : nat -> T),
  length lre = n -> length lim = n -> length rre = n -> length rim = n -> length ore = n -> length oim = n ->
  (forall i, (i < n)%nat ->
    (ac <- mul (nth i lre d0) (nth i rre d0) ;; bd <- mul (nth i lim d0) (nth i rim d0) ;; sub ac bd) = Ok (re i) /\
    (ad <- mul (nth i lre d0) (nth i rim d0) ;; bc <- mul (nth i lim d0) (nth i rre d0) ;; add ad bc) = Ok (im i)) ->
  cmulp_loop mul sub add lre lim rre rim ore oim = Ok (tab n re, tab n im).
Proof.
  intros T d0 mul sub add lre lim rre rim ore oim n re im L1 L2 L3 L4 L5 L6 H.
  unfold cmulp_loop. rewrite L5.
  destruct (for_range_inv _ (fun j (s : list T * list T) =>
     length (fst s) = n /\ length (snd s) = n /\
     forall i, (i < j)%nat -> nth i (fst s) d0 = re i /\ nth i (snd s) d0 = im i) 0 n
    (fun i '(ore, oim) =>
      a <- rd lre i ;; b <- rd lim i ;; c <- rd rre i ;; d <- rd rim i ;;
      ac <- mul a c ;; bd <- mul b d ;; re <- sub ac bd ;;
      ore <- wr ore i re ;;
      ad <- mul a d ;; bc <- mul b c ;; im <- add ad bc ;;
      oim <- wr oim i im ;; Ok (ore, oim)) (ore, oim)) as [[u v] [E [Lu [Lv I]]]].
  - lia.
  - cbn [fst snd]. repeat split; auto; lia.
  - intros j [u v] Hj [Lu [Lv I]]. cbn [fst snd] in *.
    rewrite !(rd_ok _ _ j d0) by lia. cbn [bind].
    destruct (H j) as [Hr Hi]; [lia|].
    destruct (mul (nth j lre d0) (nth j rre d0)); cbn [bind] in *; try discriminate.
    destruct (mul (nth j lim d0) (nth j rim d0)); cbn [bind] in *; try discriminate.
    rewrite Hr. cbn [bind]. rewrite wr_ok by lia. cbn [bind].
    destruct (mul (nth j lre d0) (nth j rim d0)); cbn [bind] in *; try discriminate.
    destruct (mul (nth j lim d0) (nth j rre d0)); cbn [bind] in *; try discriminate.
    rewrite Hi. cbn [bind]. rewrite wr_ok by lia. cbn [bind].
    eexists. split; [reflexivity|]. cbn [fst snd]. rewrite !upd_length.
    repeat split; auto.
    + rewrite nth_upd. destruct (Nat.eqb_spec i j).
      * subst. destruct (Nat.ltb_spec j (length u)); [reflexivity|lia].
      * cbn [andb]. apply I. lia.
    + rewrite nth_upd. destruct (Nat.eqb_spec i j).
      * subst. destruct (Nat.ltb_spec j (length v)); [reflexivity|lia].
      * cbn [andb]. apply I. lia.
  - rewrite E. cbn [fst snd] in *. do 2 f_equal; apply list_eq_tab with (d := d0); auto; apply I.
Qed.

(** ** Clipping *)
Lemma sat_clip : forall t v, IZR (sat t v) = clip t (IZR v).
Proof.
  intros. unfold sat, clip.
  destruct (Z.max_spec (imin t) (Z.min (imax t) v)) as [[H1 ->]|[H1 ->]];
  destruct (Z.min_spec (imax t) v) as [[H2 E]|[H2 E]]; rewrite E in *;
  unfold Rmax, Rmin; repeat destruct (Rle_dec _ _);
  try apply IZR_lt in H1; try apply IZR_le in H1; try apply IZR_lt in H2; try apply IZR_le in H2; lra.
Qed.

Lemma clip_mono : forall t x y, (x <= y)%R -> (clip t x <= clip t y <= clip t x + (y - x))%R.
Proof. intros. unfold clip, Rmax, Rmin. repeat destruct (Rle_dec _ _); lra. Qed.

Lemma clip_fits : forall t v, narrow t -> (IZR (imin t) <= clip t v <= IZR (imax t))%R.
Proof.
  intros t v Hn. assert (IZR (imin t) <= IZR (imax t))%R by (destruct Hn as [->| ->]; apply IZR_le; vm_compute; discriminate).
  unfold clip, Rmax, Rmin. repeat destruct (Rle_dec _ _); lra.
Qed.

Lemma floor_bounds : forall v m, 0 < m -> (IZR (v / m) <= IZR v / IZR m < IZR (v / m) + 1)%R.
Proof.
  intros v m Hm. assert (Hm' : (0 < IZR m)%R) by (apply IZR_lt; auto).
  assert (E : v = m * (v / m) + v mod m) by (apply Z.div_mod; lia).
  assert (B := Z.mod_pos_bound v m Hm). destruct B as [B1 B2]. apply IZR_le in B1. apply IZR_lt in B2.
  assert (E' : (IZR v = IZR m * IZR (v / m) + IZR (v mod m))%R) by (rewrite <- mult_IZR, <- plus_IZR; f_equal; auto).
  rewrite E'. unfold Rdiv. rewrite Rmult_plus_distr_r.
  replace (IZR m * IZR (v / m) * / IZR m)%R with (IZR (v / m)) by (field; lra).
  assert (0 <= IZR (v mod m) * / IZR m)%R by (apply Rmult_le_pos; [lra|left; apply Rinv_0_lt_compat; lra]).
  assert (IZR (v mod m) * / IZR m < 1)%R.
  { apply Rmult_lt_reg_r with (IZR m); auto. rewrite Rmult_assoc, Rinv_l; lra. }
  lra.
Qed.

Lemma narrow_min : forall t, narrow t -> imin t = - 2 ^ (iwidth t - 1) /\ imax t = 2 ^ (iwidth t - 1) - 1.
Proof. intros t [->| ->]; split; reflexivity. Qed.

(** A truncated, saturated product loses at most one unit. *)
Lemma prod_err : forall t F a b, narrow t -> 0 <= F -> Z.abs (a * b) <= 2 ^ (iwidth t - 1) * 2 ^ F ->
  (IZR (sat t (a * b / 2 ^ F)) <= IZR (a * b) / IZR (2 ^ F) <= IZR (sat t (a * b / 2 ^ F)) + 1)%R.
Proof.
  intros t F a b Hn HF H. assert (HP : 0 < 2 ^ F) by (apply Z.pow_pos_nonneg; lia).
  destruct (narrow_min t Hn) as [E1 E2].
  assert (HS : 0 < 2 ^ (iwidth t - 1)) by (destruct Hn as [->| ->]; reflexivity).
  set (S := 2 ^ (iwidth t - 1)) in *. set (P := 2 ^ F) in *. set (v := a * b) in *. clearbody S P v.
  assert (B := floor_bounds v P HP).
  assert (L : - S <= v / P) by (apply Z.div_le_lower_bound; nia).
  assert (U : v / P <= S) by (apply Z.div_le_upper_bound; nia).
  unfold sat. rewrite E1, E2.
  destruct (Z.eq_dec (v / P) S) as [E|E].
  - replace (Z.max (- S) (Z.min (S - 1) (v / P))) with (S - 1) by lia.
    rewrite minus_IZR. rewrite E in B.
    assert (IZR v / IZR P <= IZR S)%R.
    { apply Rmult_le_reg_r with (IZR P). apply IZR_lt; auto.
      unfold Rdiv. rewrite Rmult_assoc, Rinv_l by (apply not_0_IZR; lia). rewrite Rmult_1_r, <- mult_IZR.
      apply IZR_le. lia. }
    lra.
  - replace (Z.max (- S) (Z.min (S - 1) (v / P))) with (v / P) by lia. lra.
Qed.

Lemma full_scale : forall t a b, narrow t -> fits t a -> fits t b ->
  Z.abs (a * b) <= 2 ^ (iwidth t - 1) * 2 ^ (iwidth t - 1).
Proof.
  intros t a b [->| ->] Ha Hb; unfold fits in *.
  - change (imin int8) with (-128) in *. change (imax int8) with 127 in *.
    change (2 ^ (iwidth int8 - 1)) with 128. nia.
  - change (imin int16) with (-32768) in *. change (imax int16) with 32767 in *.
    change (2 ^ (iwidth int16 - 1)) with 32768. nia.
Qed.

Lemma combine_sub : forall t p q x y, (IZR p <= x <= IZR p + 1)%R -> (IZR q <= y <= IZR q + 1)%R ->
  (Rabs (IZR (sat t (p - q)) - clip t (x - y)) <= 1)%R.
Proof.
  intros t p q x y Hp Hq. rewrite sat_clip, minus_IZR.
  destruct (Rle_dec (IZR p - IZR q) (x - y)) as [L|L].
  - assert (M := clip_mono t _ _ L). apply Rabs_le. lra.
  - assert (L' : (x - y <= IZR p - IZR q)%R) by lra. assert (M := clip_mono t _ _ L'). apply Rabs_le. lra.
Qed.

Lemma combine_add : forall t p q x y, (IZR p <= x <= IZR p + 1)%R -> (IZR q <= y <= IZR q + 1)%R ->
  (-2 <= IZR (sat t (p + q)) - clip t (x + y) <= 0)%R.
Proof.
  intros t p q x y Hp Hq. rewrite sat_clip, plus_IZR.
  assert (L : (IZR p + IZR q <= x + y)%R) by lra. assert (M := clip_mono t _ _ L). lra.
Qed.

Lemma div_IZR_sub : forall a b m, 0 < m -> (IZR (a - b) / IZR m = IZR a / IZR m - IZR b / IZR m)%R.
Proof. intros. rewrite minus_IZR. field. apply not_0_IZR. lia. Qed.
Lemma div_IZR_add : forall a b m, 0 < m -> (IZR (a + b) / IZR m = IZR a / IZR m + IZR b / IZR m)%R.
Proof. intros. rewrite plus_IZR. field. apply not_0_IZR. lia. Qed.

Lemma cmulp_fixed_ok : forall t F lre lim rre rim ore oim n, narrow t -> 0 <= F ->
  length lre = n -> length lim = n -> length rre = n -> length rim = n -> length ore = n -> length oim = n ->
  (forall v, In v (lre ++ lim ++ rre ++ rim) -> fits t v) ->
  cmulp_fixed t F lre lim rre rim ore oim =
  Ok (tab n (fun i => sat t (sat t (nth i lre 0 * nth i rre 0 / 2 ^ F) - sat t (nth i lim 0 * nth i rim 0 / 2 ^ F))),
      tab n (fun i => sat t (sat t (nth i lre 0 * nth i rim 0 / 2 ^ F) + sat t (nth i lim 0 * nth i rre 0 / 2 ^ F)))).
Proof.
  intros t F lre lim rre rim ore oim n Hn HF L1 L2 L3 L4 L5 L6 Hf.
  unfold cmulp_fixed. apply cmulp_loop_ok with (d0 := 0); auto.
  intros i Hi.
  assert (F1 : fits t (nth i lre 0)) by (apply Hf; apply in_app_iff; left; apply nth_In; lia).
  assert (F2 : fits t (nth i lim 0)) by (apply Hf; rewrite !in_app_iff; right; left; apply nth_In; lia).
  assert (F3 : fits t (nth i rre 0)) by (apply Hf; rewrite !in_app_iff; right; right; left; apply nth_In; lia).
  assert (F4 : fits t (nth i rim 0)) by (apply Hf; rewrite !in_app_iff; right; right; right; apply nth_In; lia).
  rewrite !fp_mul_ok by auto. cbn [bind]. rewrite fp_sub_ok, fp_add_ok by (auto; apply sat_fits; auto). auto.
Qed.

(** ** Registers *)
Lemma lanes_lanewise : forall f w, Spec.Batch.lanewise w f (lanes f).
Proof. intros. apply lanewise_zip. intros. reflexivity. Qed.

Lemma q7x16_mul_lanes : Spec.Batch.lanewise 16 (fun a b => sat_lane 8 (as_signed 16 (srli 7 (mullo 16 a b)))) (b_mul q7x16).
Proof.
  apply lanewise_zip. intros x y Hx Hy. cbn [b_mul q7x16]. unfold sse_mul_kernel_s8.
  apply (lanewise_halves (fun a b => sat_lane 8 (as_signed 16 (srli 7 (mullo 16 a b)))) 8 16); auto. lia.
Qed.

Lemma neon_lane : forall a b, fits int16 a -> fits int16 b ->
  sat_lane 16 (Z.shiftr (2 * a * b) 16) = sat int16 (a * b / 2 ^ 15).
Proof.
  intros a b Ha Hb. rewrite (sat_lane_sat int16) by (right; auto). f_equal.
  rewrite Z.shiftr_div_pow2 by lia. replace (2 * a * b) with (a * b * 2) by ring.
  change (2 ^ 16) with (2 ^ 15 * 2). rewrite Z.div_mul_cancel_r by lia. auto.
Qed.

Lemma cmulp_batch_ok : forall B fm fs fa lre lim rre rim ore oim n w,
  b_size B = w -> Spec.Batch.lanewise w fm (b_mul B) -> Spec.Batch.lanewise w fs (b_sub B) -> Spec.Batch.lanewise w fa (b_add B) ->
  length lre = n -> length lim = n -> length rre = n -> length rim = n -> length ore = n -> length oim = n ->
  (forall r, In r (lre ++ lim ++ rre ++ rim) -> length r = w) ->
  exists re im, cmulp_batch B lre lim rre rim ore oim = Ok (re, im) /\ length re = n /\ length im = n /\
  forall i, (i < n)%nat -> length (nth i re []) = w /\ length (nth i im []) = w /\
  forall k, (k < w)%nat ->
    let a := nth k (nth i lre []) 0 in let b := nth k (nth i lim []) 0 in
    let c := nth k (nth i rre []) 0 in let d := nth k (nth i rim []) 0 in
    nth k (nth i re []) 0 = fs (fm a c) (fm b d) /\ nth k (nth i im []) 0 = fa (fm a d) (fm b c).
Proof.
  intros B fm fs fa lre lim rre rim ore oim n w Hw Hm Hs Ha L1 L2 L3 L4 L5 L6 Hf.
  unfold cmulp_batch.
  rewrite (cmulp_loop_ok (list Z) [] _ _ _ lre lim rre rim ore oim n
    (fun i => b_sub B (b_mul B (nth i lre []) (nth i rre [])) (b_mul B (nth i lim []) (nth i rim [])))
    (fun i => b_add B (b_mul B (nth i lre []) (nth i rim [])) (b_mul B (nth i lim []) (nth i rre [])))); auto.
  eexists _, _. split; [reflexivity|]. rewrite !tab_length. split; [auto|]. split; [auto|].
  intros i Hi. rewrite !nth_tab by auto.
  assert (W1 : length (nth i lre []) = w) by (apply Hf; apply in_app_iff; left; apply nth_In; lia).
  assert (W2 : length (nth i lim []) = w) by (apply Hf; rewrite !in_app_iff; right; left; apply nth_In; lia).
  assert (W3 : length (nth i rre []) = w) by (apply Hf; rewrite !in_app_iff; right; right; left; apply nth_In; lia).
  assert (W4 : length (nth i rim []) = w) by (apply Hf; rewrite !in_app_iff; right; right; right; apply nth_In; lia).
  destruct (Hm _ _ W1 W3) as [M1 N1]. destruct (Hm _ _ W2 W4) as [M2 N2].
  destruct (Hm _ _ W1 W4) as [M3 N3]. destruct (Hm _ _ W2 W3) as [M4 N4].
  destruct (Hs _ _ M1 M2) as [Q1 R1]. destruct (Ha _ _ M3 M4) as [Q2 R2].
  split; [auto|]. split; [auto|]. intros k Hk. cbv zeta.
  rewrite R1, R2, N1, N2, N3, N4 by auto. auto.
Qed.

(** Rounding to nearest loses at most half a unit. *)
Lemma mulhrs_err : forall a b, fits int16 a -> fits int16 b -> ~ (a = -32768 /\ b = -32768) ->
  (Rabs (IZR (mulhrs a b) - IZR (a * b) / IZR (2 ^ 15)) <= / 2)%R.
Proof.
  intros a b Ha Hb N. rewrite mulhrs_lane by auto.
  destruct ((a =? -32768) && (b =? -32768)) eqn:E.
  { apply andb_true_iff in E. destruct E as [E1 E2]. apply Z.eqb_eq in E1, E2. tauto. }
  assert (B := floor_bounds (a * b + 16384) 32768 ltac:(lia)).
  change (2 ^ 15) with 32768. rewrite plus_IZR in B.
  apply Rabs_le. lra.
Qed.

Lemma combine_round : forall t p q x y, (Rabs (IZR p - x) <= / 2)%R -> (Rabs (IZR q - y) <= / 2)%R ->
  (Rabs (IZR (sat t (p - q)) - clip t (x - y)) <= 1)%R /\ (Rabs (IZR (sat t (p + q)) - clip t (x + y)) <= 1)%R.
Proof.
  intros t p q x y Hp Hq. assert (Hp1 := Rle_abs (IZR p - x)). assert (Hp2 := Rle_abs (- (IZR p - x))). rewrite Rabs_Ropp in Hp2.
  assert (Hq1 := Rle_abs (IZR q - y)). assert (Hq2 := Rle_abs (- (IZR q - y))). rewrite Rabs_Ropp in Hq2.
  rewrite !sat_clip, minus_IZR, plus_IZR.
  assert (K : forall u v, (-1 <= u - v <= 1)%R -> (Rabs (clip t u - clip t v) <= 1)%R).
  { intros u v H. destruct (Rle_dec u v) as [L|L].
    - assert (M := clip_mono t _ _ L). apply Rabs_le. lra.
    - assert (L' : (v <= u)%R) by lra. assert (M := clip_mono t _ _ L'). apply Rabs_le. lra. }
  split; apply K; lra.
Qed.

(** ** Multiply-add *)
Lemma split_fma_loop_ok : forall T (d0 : T) mul sub add xre xim yre yim zre zim ore oim n (re im : nat -> T),
  length xre = n -> length xim = n -> length yre = n -> length yim = n -> length ore = n -> length oim = n ->
  length (contents zre ore) = n -> length (contents zim oim) = n ->
  (forall i, (i < n)%nat ->
    (ac <- mul (nth i xre d0) (nth i yre d0) ;; bd <- mul (nth i xim d0) (nth i yim d0) ;;
     s <- sub ac bd ;; add s (nth i (contents zre ore) d0)) = Ok (re i) /\
    (ad <- mul (nth i xre d0) (nth i yim d0) ;; bc <- mul (nth i xim d0) (nth i yre d0) ;;
     s <- add ad bc ;; add s (nth i (contents zim oim) d0)) = Ok (im i)) ->
  split_fma_loop mul sub add xre xim yre yim zre zim ore oim = Ok (tab n re, tab n im).
Proof.
  intros T d0 mul sub add xre xim yre yim zre zim ore oim n re im L1 L2 L3 L4 L5 L6 L7 L8 H.
  unfold split_fma_loop. rewrite L1.
  match goal with |- for_range 0 n ?b _ = _ =>
  destruct (for_range_inv _ (fun j (s : list T * list T) =>
     length (fst s) = n /\ length (snd s) = n /\
     (forall i, (i < j)%nat -> nth i (fst s) d0 = re i /\ nth i (snd s) d0 = im i) /\
     (forall i, (j <= i)%nat -> nth i (fst s) d0 = nth i ore d0 /\ nth i (snd s) d0 = nth i oim d0)) 0 n b (ore, oim))
    as [[u v] [E [Lu [Lv [I _]]]]] end.
  - lia.
  - cbn [fst snd]. repeat split; auto; lia.
  - intros j [u v] Hj [Lu [Lv [I J]]]. cbn [fst snd] in *.
    rewrite !(rd_ok _ _ j d0) by lia. cbn [bind].
    destruct (H j) as [Hr Hi]; [lia|].
    assert (Zr : rd (contents zre u) j = Ok (nth j (contents zre ore) d0)).
    { destruct zre; cbn [contents] in *; rewrite (rd_ok _ _ j d0) by lia; auto. f_equal. apply J. lia. }
    assert (Zi : rd (contents zim v) j = Ok (nth j (contents zim oim) d0)).
    { destruct zim; cbn [contents] in *; rewrite (rd_ok _ _ j d0) by lia; auto. f_equal. apply J. lia. }
    destruct (mul (nth j xre d0) (nth j yre d0)); cbn [bind] in *; try discriminate.
    destruct (mul (nth j xim d0) (nth j yim d0)); cbn [bind] in *; try discriminate.
    destruct (sub _ _); cbn [bind] in *; try discriminate.
    rewrite Zr. cbn [bind]. rewrite Hr. cbn [bind]. rewrite wr_ok by lia. cbn [bind].
    destruct (mul (nth j xre d0) (nth j yim d0)); cbn [bind] in *; try discriminate.
    destruct (mul (nth j xim d0) (nth j yre d0)); cbn [bind] in *; try discriminate.
    match goal with HH : bind (add ?x ?y) _ = Ok (im j) |- _ => destruct (add x y); cbn [bind] in *; try discriminate end.
    rewrite Zi. cbn [bind]. rewrite Hi. cbn [bind]. rewrite wr_ok by lia. cbn [bind].
    eexists. split; [reflexivity|]. cbn [fst snd]. rewrite !upd_length.
    split; [auto|]. split; [auto|]. split; intros i Hij; rewrite !nth_upd.
    + destruct (Nat.eqb_spec i j).
      * subst. destruct (Nat.ltb_spec j (length u)); [|lia]. destruct (Nat.ltb_spec j (length v)); [|lia]. auto.
      * cbn [andb]. apply I. lia.
    + destruct (Nat.eqb_spec i j); [lia|]. cbn [andb]. apply J. lia.
  - rewrite E. cbn [fst snd] in *. do 2 f_equal; apply list_eq_tab with (d := d0); auto; apply I.
Qed.

Lemma split_fma_fixed_ok : forall t F xre xim yre yim zre zim ore oim n, narrow t -> 0 <= F ->
  length xre = n -> length xim = n -> length yre = n -> length yim = n -> length ore = n -> length oim = n ->
  length (contents zre ore) = n -> length (contents zim oim) = n ->
  (forall v, In v (xre ++ xim ++ yre ++ yim) -> fits t v) ->
  (forall v, In v (contents zre ore ++ contents zim oim) -> fits t v) ->
  split_fma_fixed t F xre xim yre yim zre zim ore oim =
  Ok (tab n (fun i => sat t (sat t (sat t (nth i xre 0 * nth i yre 0 / 2 ^ F) - sat t (nth i xim 0 * nth i yim 0 / 2 ^ F))
                       + nth i (contents zre ore) 0)),
      tab n (fun i => sat t (sat t (sat t (nth i xre 0 * nth i yim 0 / 2 ^ F) + sat t (nth i xim 0 * nth i yre 0 / 2 ^ F))
                       + nth i (contents zim oim) 0))).
Proof.
  intros t F xre xim yre yim zre zim ore oim n Hn HF L1 L2 L3 L4 L5 L6 L7 L8 Hf Hz.
  unfold split_fma_fixed. apply split_fma_loop_ok with (d0 := 0); auto.
  intros i Hi.
  assert (F1 : fits t (nth i xre 0)) by (apply Hf; apply in_app_iff; left; apply nth_In; lia).
  assert (F2 : fits t (nth i xim 0)) by (apply Hf; rewrite !in_app_iff; right; left; apply nth_In; lia).
  assert (F3 : fits t (nth i yre 0)) by (apply Hf; rewrite !in_app_iff; right; right; left; apply nth_In; lia).
  assert (F4 : fits t (nth i yim 0)) by (apply Hf; rewrite !in_app_iff; right; right; right; apply nth_In; lia).
  assert (F5 : fits t (nth i (contents zre ore) 0)) by (apply Hz; apply in_app_iff; left; apply nth_In; lia).
  assert (F6 : fits t (nth i (contents zim oim) 0)) by (apply Hz; apply in_app_iff; right; apply nth_In; lia).
  rewrite !fp_mul_ok by auto. cbn [bind].
  rewrite fp_sub_ok by (auto; apply sat_fits; auto). cbn [bind].
  rewrite (fp_add_ok t (sat t (nth i xre 0 * nth i yim 0 / 2 ^ F))) by (auto; apply sat_fits; auto). cbn [bind].
  rewrite !fp_add_ok by (auto; apply sat_fits; auto). auto.
Qed.

Lemma clip_in : forall t v, (IZR (imin t) <= v <= IZR (imax t))%R -> clip t v = v.
Proof. intros. unfold clip, Rmax, Rmin. repeat destruct (Rle_dec _ _); lra. Qed.

(** Adding z to a value known up to [-lo, hi]. *)
Lemma add_err : forall t v z P Z lo hi, (0 <= lo)%R -> (0 <= hi)%R -> (- lo <= IZR v + IZR z - (P + Z) <= hi)%R ->
  (- lo <= IZR (sat t (v + z)) - clip t (P + Z) <= hi)%R.
Proof.
  intros t v z P Z lo hi Hl Hh H. rewrite sat_clip, plus_IZR.
  destruct (Rle_dec (IZR v + IZR z) (P + Z)) as [L|L].
  - assert (M := clip_mono t _ _ L). lra.
  - assert (L' : (P + Z <= IZR v + IZR z)%R) by lra. assert (M := clip_mono t _ _ L'). lra.
Qed.

(** ** Accumulation *)
Definition call_ok (t : ity) (n : nat) (q : list Z * list Z * list Z * list Z) : Prop :=
  let '(xre, xim, yre, yim) := q in
  length xre = n /\ length xim = n /\ length yre = n /\ length yim = n /\
  (forall v, In v (xre ++ xim ++ yre ++ yim) -> fits t v).

Definition in_range (t : ity) (v : R) : Prop := (IZR (imin t) <= v <= IZR (imax t))%R.

Lemma total_cons : forall Z p l, total Z (p :: l) = total (Z + p)%R l.
Proof. intros. unfold total. cbn [fold_right]. ring. Qed.

Lemma one_call : forall t xre xim yre yim ore oim n, narrow t -> call_ok t n (xre, xim, yre, yim) ->
  length ore = n -> length oim = n -> (forall v, In v (ore ++ oim) -> fits t v) ->
  let F := iwidth t - 1 in
  exists re im, split_fma_fixed t F xre xim yre yim Self Self ore oim = Ok (re, im) /\
  length re = n /\ length im = n /\ (forall v, In v (re ++ im) -> fits t v) /\
  forall i, (i < n)%nat ->
    (forall Z e, in_range t (exact_re F i (xre, xim, yre, yim)) -> in_range t (Z + exact_re F i (xre, xim, yre, yim))%R ->
       (0 <= e)%R -> (Rabs (IZR (nth i ore 0%Z) - Z) <= e)%R ->
       (Rabs (IZR (nth i re 0%Z) - (Z + exact_re F i (xre, xim, yre, yim))) <= e + 1)%R) /\
    (forall Z e, in_range t (exact_im F i (xre, xim, yre, yim)) -> in_range t (Z + exact_im F i (xre, xim, yre, yim))%R ->
       (0 <= e)%R -> (- e <= IZR (nth i oim 0%Z) - Z <= 0)%R ->
       (- (e + 2) <= IZR (nth i im 0%Z) - (Z + exact_im F i (xre, xim, yre, yim)) <= 0)%R).
Proof.
  intros t xre xim yre yim ore oim n Hn [L1 [L2 [L3 [L4 Hf]]]] L5 L6 Hz F.
  assert (HF : 0 <= F) by (unfold F; destruct Hn as [->| ->]; cbn; lia).
  assert (HP : 0 < 2 ^ F) by (apply Z.pow_pos_nonneg; lia).
  rewrite (split_fma_fixed_ok t F xre xim yre yim Self Self ore oim n) by (auto; cbn [contents]; auto).
  eexists _, _. split; [reflexivity|]. rewrite !tab_length. split; [auto|]. split; [auto|]. split.
  { intros v Hv. apply in_app_iff in Hv. destruct Hv as [Hv|Hv]; apply in_map_iff in Hv; destruct Hv as [k [<- _]]; apply sat_fits; auto. }
  intros i Hi. rewrite !nth_tab by auto. cbn [contents].
  assert (F1 : fits t (nth i xre 0)) by (apply Hf; apply in_app_iff; left; apply nth_In; lia).
  assert (F2 : fits t (nth i xim 0)) by (apply Hf; rewrite !in_app_iff; right; left; apply nth_In; lia).
  assert (F3 : fits t (nth i yre 0)) by (apply Hf; rewrite !in_app_iff; right; right; left; apply nth_In; lia).
  assert (F4 : fits t (nth i yim 0)) by (apply Hf; rewrite !in_app_iff; right; right; right; apply nth_In; lia).
  unfold exact_re, exact_im.
  set (a := nth i xre 0) in *. set (b := nth i xim 0) in *. set (c := nth i yre 0) in *. set (d := nth i yim 0) in *.
  assert (P1 := prod_err t F a c Hn HF (full_scale t a c Hn F1 F3)).
  assert (P2 := prod_err t F b d Hn HF (full_scale t b d Hn F2 F4)).
  assert (P3 := prod_err t F a d Hn HF (full_scale t a d Hn F1 F4)).
  assert (P4 := prod_err t F b c Hn HF (full_scale t b c Hn F2 F3)).
  split; intros Z e Hp Hs He Hz0.
  - assert (V := combine_sub t _ _ _ _ P1 P2). rewrite <- div_IZR_sub in V by auto.
    rewrite (clip_in t _ Hp) in V.
    assert (V1 := Rle_abs (IZR (sat t (sat t (a * c / 2 ^ F) - sat t (b * d / 2 ^ F))) - IZR (a * c - b * d) / IZR (2 ^ F))).
    assert (V2 := Rle_abs (- (IZR (sat t (sat t (a * c / 2 ^ F) - sat t (b * d / 2 ^ F))) - IZR (a * c - b * d) / IZR (2 ^ F)))).
    rewrite Rabs_Ropp in V2.
    assert (W1 := Rle_abs (IZR (nth i ore 0%Z) - Z)). assert (W2 := Rle_abs (- (IZR (nth i ore 0%Z) - Z))).
    rewrite Rabs_Ropp in W2.
    assert (A := add_err t (sat t (sat t (a * c / 2 ^ F) - sat t (b * d / 2 ^ F))) (nth i ore 0%Z)
      (IZR (a * c - b * d) / IZR (2 ^ F)) Z (e + 1) (e + 1)).
    rewrite (Rplus_comm (IZR (a * c - b * d) / IZR (2 ^ F)) Z), (clip_in t _ Hs) in A.
    apply Rabs_le. lra.
  - assert (V := combine_add t _ _ _ _ P3 P4). rewrite <- div_IZR_add in V by auto.
    rewrite (clip_in t _ Hp) in V.
    assert (A := add_err t (sat t (sat t (a * d / 2 ^ F) + sat t (b * c / 2 ^ F))) (nth i oim 0%Z)
      (IZR (a * d + b * c) / IZR (2 ^ F)) Z (e + 2) 0).
    rewrite (Rplus_comm (IZR (a * d + b * c) / IZR (2 ^ F)) Z), (clip_in t _ Hs) in A. lra.
Qed.

Lemma runs_ok : forall t calls ore oim n, narrow t -> (forall q, In q calls -> call_ok t n q) ->
  length ore = n -> length oim = n -> (forall v, In v (ore ++ oim) -> fits t v) ->
  let F := iwidth t - 1 in
  exists re im, split_fma_runs t F calls ore oim = Ok (re, im) /\
  length re = n /\ length im = n /\ (forall v, In v (re ++ im) -> fits t v) /\
  forall i, (i < n)%nat ->
    (forall Z e, (forall q, In q calls -> in_range t (exact_re F i q)) ->
       (forall k, (1 <= k <= length calls)%nat -> in_range t (total Z (map (exact_re F i) (firstn k calls)))) ->
       (0 <= e)%R -> (Rabs (IZR (nth i ore 0%Z) - Z) <= e)%R ->
       (Rabs (IZR (nth i re 0%Z) - total Z (map (exact_re F i) calls)) <= e + INR (length calls))%R) /\
    (forall Z e, (forall q, In q calls -> in_range t (exact_im F i q)) ->
       (forall k, (1 <= k <= length calls)%nat -> in_range t (total Z (map (exact_im F i) (firstn k calls)))) ->
       (0 <= e)%R -> (- e <= IZR (nth i oim 0%Z) - Z <= 0)%R ->
       (- (e + 2 * INR (length calls)) <= IZR (nth i im 0%Z) - total Z (map (exact_im F i) calls) <= 0)%R).
Proof.
  intros t calls. induction calls as [|q calls IH]; intros ore oim n Hn Hq L5 L6 Hz F.
  - exists ore, oim. split; [reflexivity|]. split; [auto|]. split; [auto|]. split; [auto|].
    intros i Hi. split; intros Z e _ _ He Hs; cbn [map length INR]; unfold total; cbn [fold_right].
    + rewrite !Rplus_0_r. auto.
    + rewrite Rmult_0_r, !Rplus_0_r. auto.
  - destruct q as [[[xre xim] yre] yim].
    destruct (one_call t xre xim yre yim ore oim n Hn (Hq _ (or_introl eq_refl)) L5 L6 Hz) as [u [v [E [Lu [Lv [Fuv K]]]]]].
    destruct (IH u v n Hn (fun q H => Hq q (or_intror H)) Lu Lv Fuv) as [re [im [E2 [M1 [M2 [M3 V]]]]]].
    exists re, im. split. { cbn [split_fma_runs]. fold F in E. rewrite E. cbn [bind]. exact E2. }
    split; [auto|]. split; [auto|]. split; [auto|].
    intros i Hi. destruct (K i Hi) as [K1 K2]. destruct (V i Hi) as [V1 V2]. fold F in K1, K2, V1, V2.
    split; intros Z e H1 H2 He Hs; cbn [map length]; rewrite total_cons, S_INR.
    + assert (B : (Rabs (IZR (nth i u 0%Z) - (Z + exact_re F i (xre, xim, yre, yim))) <= e + 1)%R).
      { apply K1; auto. { apply H1. left; auto. }
        specialize (H2 1%nat). cbn [firstn map] in H2. rewrite total_cons in H2. unfold total in H2. cbn [fold_right] in H2.
        rewrite Rplus_0_r in H2. apply H2. cbn [length]. lia. }
      replace (e + (INR (length calls) + 1))%R with (e + 1 + INR (length calls))%R by ring.
      apply V1; auto; try lra.
      * intros q Hq'. apply H1. right; auto.
      * intros k Hk. specialize (H2 (S k)). cbn [firstn map] in H2. rewrite total_cons in H2. apply H2. cbn [length]. lia.
    + assert (B : (- (e + 2) <= IZR (nth i v 0%Z) - (Z + exact_im F i (xre, xim, yre, yim)) <= 0)%R).
      { apply K2; auto. { apply H1. left; auto. }
        specialize (H2 1%nat). cbn [firstn map] in H2. rewrite total_cons in H2. unfold total in H2. cbn [fold_right] in H2.
        rewrite Rplus_0_r in H2. apply H2. cbn [length]. lia. }
      replace (- (e + 2 * (INR (length calls) + 1)))%R with (- (e + 2 + 2 * INR (length calls)))%R by ring.
      apply V2; auto; try lra.
      * intros q Hq'. apply H1. right; auto.
      * intros k Hk. specialize (H2 (S k)). cbn [firstn map] in H2. rewrite total_cons in H2. apply H2. cbn [length]. lia.
Qed.
