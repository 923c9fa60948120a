(** C88 — planar complex products of fixed-point arrays (extra/benchmark/src/fixed_point.cpp) and
    the fixed-point register classes.  A number is its stored integer; one unit is 2^-F.
    [clip t v] is v moved into the range [imin t .. imax t]. *)
From Coq Require Import ZArith List Bool Lia Arith Reals Lra.
From Verif Require Import Base.Outcome Base.OutcomeFacts Base.Alias.
From Verif Require Import Model.Integers Model.FixedPoint Model.Simd Model.SimdBatch Model.FixedBench.
From Verif Require Import Spec.Batch Spec.FixedRange Proof.IntegersProof Proof.FixedProof Proof.SimdBatchProof.
From Verif Require Import Proof.FixedBenchProof.
Import ListNotations.
Local Open Scope Z_scope.

(** For every format whose products stay within [-2^(w-1), 2^(w-1)] units the loop is defined and
    element i of the result is the exact complex product clipped to the range: the real part within
    one unit, the imaginary part never above it and at most two units below. *)
Theorem C88_planar_product : forall t F lre lim rre rim ore oim n, t = int8 \/ t = int16 -> 0 <= F ->
  length lre = n -> length lim = n -> length rre = n -> length rim = n -> length ore = n -> length oim = n ->
  (forall v, In v (lre ++ lim ++ rre ++ rim) -> fits t v) ->
  (forall i x y, (i < n)%nat -> In x [nth i lre 0; nth i lim 0] -> In y [nth i rre 0; nth i rim 0] ->
    Z.abs (x * y) <= 2 ^ (iwidth t - 1) * 2 ^ F) ->
  exists re im, cmulp_fixed t F lre lim rre rim ore oim = Ok (re, im) /\ length re = n /\ length im = n /\
  forall i, (i < n)%nat ->
    let a := nth i lre 0 in let b := nth i lim 0 in let c := nth i rre 0 in let d := nth i rim 0 in
    let u := nth i re 0 in let v := nth i im 0 in fits t u /\ fits t v /\
    (Rabs (IZR u - clip t (IZR (a * c - b * d) / IZR (2 ^ F))) <= 1)%R /\
    (-2 <= IZR v - clip t (IZR (a * d + b * c) / IZR (2 ^ F)) <= 0)%R.
Proof.
  intros t F lre lim rre rim ore oim n Hn HF L1 L2 L3 L4 L5 L6 Hf Hp.
  rewrite (cmulp_fixed_ok t F lre lim rre rim ore oim n) by auto.
  eexists _, _. split; [reflexivity|]. rewrite !tab_length. split; [auto|]. split; [auto|].
  intros i Hi a b c d u v. unfold u, v. rewrite !nth_tab by auto. fold a b c d.
  assert (HP : 0 < 2 ^ F) by (apply Z.pow_pos_nonneg; lia).
  assert (P1 := prod_err t F a c Hn HF (Hp i a c Hi ltac:(cbn; auto) ltac:(cbn; auto))).
  assert (P2 := prod_err t F b d Hn HF (Hp i b d Hi ltac:(cbn; auto) ltac:(cbn; auto))).
  assert (P3 := prod_err t F a d Hn HF (Hp i a d Hi ltac:(cbn; auto) ltac:(cbn; auto))).
  assert (P4 := prod_err t F b c Hn HF (Hp i b c Hi ltac:(cbn; auto) ltac:(cbn; auto))).
  split; [apply sat_fits; auto|]. split; [apply sat_fits; auto|].
  rewrite div_IZR_sub, div_IZR_add by auto. split; [apply combine_sub|apply combine_add]; auto.
Qed.

(** q7 and q15: no condition on the values. *)
Theorem C88_planar_product_q : forall t lre lim rre rim ore oim n, t = int8 \/ t = int16 ->
  length lre = n -> length lim = n -> length rre = n -> length rim = n -> length ore = n -> length oim = n ->
  (forall v, In v (lre ++ lim ++ rre ++ rim) -> fits t v) ->
  exists re im, cmulp_fixed t (iwidth t - 1) lre lim rre rim ore oim = Ok (re, im) /\
  length re = n /\ length im = n /\
  forall i, (i < n)%nat ->
    let a := nth i lre 0 in let b := nth i lim 0 in let c := nth i rre 0 in let d := nth i rim 0 in
    let u := nth i re 0 in let v := nth i im 0 in fits t u /\ fits t v /\
    (Rabs (IZR u - clip t (IZR (a * c - b * d) / IZR (2 ^ (iwidth t - 1)))) <= 1)%R /\
    (-2 <= IZR v - clip t (IZR (a * d + b * c) / IZR (2 ^ (iwidth t - 1))) <= 0)%R.
Proof.
  intros t lre lim rre rim ore oim n Hn L1 L2 L3 L4 L5 L6 Hf.
  apply C88_planar_product; auto.
  - destruct Hn as [->| ->]; cbn; lia.
  - intros i x y Hi Hx Hy. apply full_scale; auto; apply Hf; rewrite !in_app_iff; cbn [In] in Hx, Hy.
    + destruct Hx as [<-|[<-|[]]]; [left|right; left]; apply nth_In; lia.
    + destruct Hy as [<-|[<-|[]]]; [right; right; left|right; right; right]; apply nth_In; lia.
Qed.

(** fixed_point<int16, 14> and values up to 2: a product that saturates early spoils the difference.
    (-2 - 2i)(-2 - 1.5i) has real part 4 - 3 = 1, which the format holds; the loop returns 0. *)
Theorem C88_fxp14_refuted : exists lre lim rre rim ore oim re im,
  (forall v, In v (lre ++ lim ++ rre ++ rim) -> fits int16 v) /\
  cmulp_fixed int16 14 lre lim rre rim ore oim = Ok ([re], im) /\
  re = 0 /\ nth 0 lre 0 * nth 0 rre 0 - nth 0 lim 0 * nth 0 rim 0 = 16384 * 2 ^ 14 /\ fits int16 16384.
Proof.
  exists [-32768], [-32768], [-32768], [-24576], [0], [0]. eexists _, _.
  split; [|split; [vm_compute; reflexivity|]].
  - intros v Hv. unfold fits, imin, imax. cbn in *. destruct Hv as [<-|[<-|[<-|[<-|[]]]]]; lia.
  - split; [reflexivity|]. split; [reflexivity|]. unfold fits, imin, imax. cbn. lia.
Qed.

(** + and - of every register class work lane by lane and saturate, as the scalar operators do. *)
Theorem C88_register_add_sub : forall w t (add sub : list Z -> list Z -> list Z),
  In (w, t, add, sub)
    [ (16%nat, int8, b_add q7x16, b_sub q7x16);
      (32%nat, int8, snd (fst q7x32), snd q7x32); (64%nat, int8, snd (fst q7x64), snd q7x64);
      (8%nat, int16, b_add q15x8, b_sub q15x8); (8%nat, int16, b_add q15x8_neon, b_sub q15x8_neon);
      (16%nat, int16, b_add q15x16, b_sub q15x16); (32%nat, int16, b_add q15x32, b_sub q15x32) ] ->
  Spec.Batch.lanewise w (fun a b => Z.max (imin t) (Z.min (imax t) (a + b))) add /\
  Spec.Batch.lanewise w (fun a b => Z.max (imin t) (Z.min (imax t) (a - b))) sub.
Proof.
  intros w t add sub H. cbn [In] in H.
  repeat (destruct H as [H|H]; [injection H as <- <- <- <-; split; apply lanewise_zip; intros; reflexivity|]).
  destruct H.
Qed.

(** The number of lanes is the number of values that fit the register. *)
Theorem C88_register_widths : b_size q7x16 = 16%nat /\ fst (fst q7x32) = 32%nat /\ fst (fst q7x64) = 64%nat /\
  b_size q15x8 = 8%nat /\ b_size q15x8_neon = 8%nat /\ b_size q15x16 = 16%nat /\ b_size q15x32 = 32%nat.
Proof. repeat split. Qed.

(** Products of q15 registers: on x86 rounded to the nearest unit (halves up), except that
    min * min, exactly +1, becomes -1; on NEON truncated and saturated like the scalar product. *)
Theorem C88_register_multiply_q15 : forall w B x y k,
  In (w, B) [(8%nat, q15x8); (16%nat, q15x16); (32%nat, q15x32)] ->
  length x = w -> length y = w -> (k < w)%nat ->
  (forall v, In v (x ++ y) -> fits int16 v) ->
  let a := nth k x 0 in let b := nth k y 0 in
  length (b_mul B x y) = w /\
  nth k (b_mul B x y) 0 =
    (if (a =? -32768) && (b =? -32768) then -32768 else (a * b + 2 ^ 14) / 2 ^ 15).
Proof.
  intros w B x y k H Lx Ly Hk Hf a b.
  assert (Hl : Spec.Batch.lanewise w mulhrs (b_mul B)).
  { cbn [In] in H. destruct H as [H|[H|[H|[]]]]; injection H as <- <-; apply lanes_lanewise. }
  destruct (Hl x y Lx Ly) as [L N]. split; auto. rewrite N by auto. apply mulhrs_lane.
  - apply Hf. apply in_app_iff. left. apply nth_In. lia.
  - apply Hf. apply in_app_iff. right. apply nth_In. lia.
Qed.

Theorem C88_register_multiply_neon : forall x y k, length x = 8%nat -> length y = 8%nat -> (k < 8)%nat ->
  (forall v, In v (x ++ y) -> fits int16 v) ->
  length (b_mul q15x8_neon x y) = 8%nat /\
  Ok (nth k (b_mul q15x8_neon x y) 0) = fp_mul int16 15 (nth k x 0) (nth k y 0).
Proof.
  intros x y k Lx Ly Hk Hf.
  assert (Fx : fits int16 (nth k x 0)) by (apply Hf; apply in_app_iff; left; apply nth_In; lia).
  assert (Fy : fits int16 (nth k y 0)) by (apply Hf; apply in_app_iff; right; apply nth_In; lia).
  destruct (lanes_lanewise (fun a b => sat_lane 16 (Z.shiftr (2 * a * b) 16)) 8 x y Lx Ly) as [L N].
  split; [exact L|]. cbn [b_mul q15x8_neon]. unfold neon_mul_kernel_s16. rewrite N by auto.
  rewrite fp_mul_ok by (auto; try lia; right; auto). f_equal. apply neon_lane; auto.
Qed.

(** Products of q7x16: right when not negative; every negative product comes out as 127. *)
Theorem C88_register_multiply_q7 : forall x y k, length x = 16%nat -> length y = 16%nat -> (k < 16)%nat ->
  (forall v, In v (x ++ y) -> fits int8 v) ->
  let a := nth k x 0 in let b := nth k y 0 in
  length (b_mul q7x16 x y) = 16%nat /\
  (0 <= a * b -> Ok (nth k (b_mul q7x16 x y) 0) = fp_mul int8 7 a b) /\
  (a * b < 0 -> nth k (b_mul q7x16 x y) 0 = 127).
Proof.
  intros x y k Lx Ly Hk Hf a b.
  assert (Fx : fits int8 a) by (apply Hf; apply in_app_iff; left; apply nth_In; lia).
  assert (Fy : fits int8 b) by (apply Hf; apply in_app_iff; right; apply nth_In; lia).
  destruct (q7x16_mul_lanes x y Lx Ly) as [L N]. split; [exact L|].
  rewrite N by auto. fold a b. rewrite sse8_lane by (auto; lia).
  split; intros H.
  - rewrite fp_mul_ok by (auto; try lia; left; auto). destruct (Z.ltb_spec (a * b) 0); [lia|auto].
  - destruct (Z.ltb_spec (a * b) 0); [auto|lia].
Qed.

(** The loop over x86 q15 registers: both parts of every lane within one unit of the clipped exact
    product, as long as no product is min * min. *)
Theorem C88_register_product_q15 : forall w B lre lim rre rim ore oim n,
  In (w, B) [(8%nat, q15x8); (16%nat, q15x16); (32%nat, q15x32)] ->
  length lre = n -> length lim = n -> length rre = n -> length rim = n -> length ore = n -> length oim = n ->
  (forall r, In r (lre ++ lim ++ rre ++ rim) -> length r = w /\ forall v, In v r -> fits int16 v) ->
  exists re im, cmulp_batch B lre lim rre rim ore oim = Ok (re, im) /\ length re = n /\ length im = n /\
  forall i k, (i < n)%nat -> (k < w)%nat ->
    let a := nth k (nth i lre []) 0 in let b := nth k (nth i lim []) 0 in
    let c := nth k (nth i rre []) 0 in let d := nth k (nth i rim []) 0 in
    let u := nth k (nth i re []) 0 in let v := nth k (nth i im []) 0 in
    (forall x y, In x [a; b] -> In y [c; d] -> ~ (x = imin int16 /\ y = imin int16)) ->
    (Rabs (IZR u - clip int16 (IZR (a * c - b * d) / IZR (2 ^ 15))) <= 1)%R /\
    (Rabs (IZR v - clip int16 (IZR (a * d + b * c) / IZR (2 ^ 15))) <= 1)%R.
Proof.
  intros w B lre lim rre rim ore oim n H L1 L2 L3 L4 L5 L6 Hf.
  assert (Hl : b_size B = w /\ Spec.Batch.lanewise w mulhrs (b_mul B) /\
    Spec.Batch.lanewise w (fun a b => sat int16 (a - b)) (b_sub B) /\
    Spec.Batch.lanewise w (fun a b => sat int16 (a + b)) (b_add B)).
  { cbn [In] in H. destruct H as [H|[H|[H|[]]]]; injection H as <- <-;
      (split; [reflexivity|split; [apply lanes_lanewise|split; apply lanewise_zip; intros; reflexivity]]). }
  destruct Hl as [Hw [Hm [Hs Ha]]].
  destruct (cmulp_batch_ok B mulhrs _ _ lre lim rre rim ore oim n w Hw Hm Hs Ha L1 L2 L3 L4 L5 L6)
    as [re [im [E [M1 [M2 V]]]]].
  { intros r Hr. apply Hf; auto. }
  exists re, im. split; [exact E|]. split; [auto|]. split; [auto|].
  intros i k Hi Hk a b c d u v Hne. destruct (V i Hi) as [_ [_ Vk]]. destruct (Vk k Hk) as [Vr Vi].
  fold a b c d u v in Vr, Vi. rewrite Vr, Vi. change (imin int16) with (-32768) in Hne.
  assert (K : forall l, In l [lre; lim; rre; rim] -> fits int16 (nth k (nth i l []) 0)).
  { intros l Hl. assert (Hr : In (nth i l []) (lre ++ lim ++ rre ++ rim)).
    { cbn [In] in Hl. rewrite !in_app_iff.
      destruct Hl as [<-|[<-|[<-|[<-|[]]]]];
        [left|right; left|right; right; left|right; right; right]; apply nth_In; lia. }
    destruct (Hf _ Hr) as [W F]. apply F. apply nth_In. lia. }
  assert (Fa : fits int16 a) by (apply K; cbn; auto). assert (Fb : fits int16 b) by (apply K; cbn; auto).
  assert (Fc : fits int16 c) by (apply K; cbn; auto). assert (Fd : fits int16 d) by (apply K; cbn; auto).
  rewrite div_IZR_sub, div_IZR_add by reflexivity.
  split.
  - refine (proj1 (combine_round _ _ _ _ _ _ _)); apply mulhrs_err; auto; apply Hne; cbn; auto.
  - refine (proj2 (combine_round _ _ _ _ _ _ _)); apply mulhrs_err; auto; apply Hne; cbn; auto.
Qed.

(** With min * min the sign is lost: (-1)(-1) = 1 comes out as -1, on every lane of every register. *)
Theorem C88_register_product_min_refuted : forall w B n,
  In (w, B) [(8%nat, q15x8); (16%nat, q15x16); (32%nat, q15x32)] ->
  let row v := repeat (repeat v w) n in
  exists re im, cmulp_batch B (row (-32768)) (row 0) (row (-32768)) (row 0) (row 0) (row 0) = Ok (re, im) /\
  forall i k, (i < n)%nat -> (k < w)%nat -> nth k (nth i re []) 0 = -32768.
Proof.
  intros w B n H row.
  assert (Hl : b_size B = w /\ Spec.Batch.lanewise w mulhrs (b_mul B) /\
    Spec.Batch.lanewise w (fun a b => sat int16 (a - b)) (b_sub B) /\
    Spec.Batch.lanewise w (fun a b => sat int16 (a + b)) (b_add B)).
  { cbn [In] in H. destruct H as [H|[H|[H|[]]]]; injection H as <- <-;
      (split; [reflexivity|split; [apply lanes_lanewise|split; apply lanewise_zip; intros; reflexivity]]). }
  destruct Hl as [Hw [Hm [Hs Ha]]].
  destruct (cmulp_batch_ok B mulhrs _ _ (row (-32768)) (row 0) (row (-32768)) (row 0) (row 0) (row 0) n w Hw Hm Hs Ha)
    as [re [im [E [M1 [M2 V]]]]]; try apply repeat_length.
  { intros r Hr. rewrite !in_app_iff in Hr. destruct Hr as [Hr|[Hr|[Hr|Hr]]]; apply repeat_spec in Hr; subst; apply repeat_length. }
  exists re, im. split; [exact E|]. intros i k Hi Hk. destruct (V i Hi) as [_ [_ Vk]]. destruct (Vk k Hk) as [Vr _].
  rewrite Vr. unfold row.
  assert (R : forall v, nth k (nth i (repeat (repeat v w) n) []) 0 = v).
  { intros v. rewrite (nth_indep _ [] (repeat v w)) by (rewrite repeat_length; auto). rewrite nth_repeat.
    rewrite (nth_indep _ 0 v) by (rewrite repeat_length; auto). apply nth_repeat. }
  rewrite !R. reflexivity.
Qed.

(** q7x16: (-1/2)(1/2) = -1/4 comes out as 127/128, on every lane. *)
Theorem C88_register_product_q7_refuted : forall n, let row v := repeat (repeat v 16) n in
  exists re im, cmulp_batch q7x16 (row (-64)) (row 0) (row 64) (row 0) (row 0) (row 0) = Ok (re, im) /\
  forall i k, (i < n)%nat -> (k < 16)%nat ->
    nth k (nth i re []) 0 = 127 /\ clip int8 (IZR (-64 * 64 - 0 * 0) / IZR (2 ^ 7)) = (-32)%R.
Proof.
  intros n row.
  destruct (cmulp_batch_ok q7x16 _ (fun a b => sat int8 (a - b)) (fun a b => sat int8 (a + b))
    (row (-64)) (row 0) (row 64) (row 0) (row 0) (row 0) n 16 eq_refl q7x16_mul_lanes)
    as [re [im [E [M1 [M2 V]]]]]; try apply repeat_length.
  { apply lanewise_zip; intros; reflexivity. } { apply lanewise_zip; intros; reflexivity. }
  { intros r Hr. rewrite !in_app_iff in Hr. destruct Hr as [Hr|[Hr|[Hr|Hr]]]; apply repeat_spec in Hr; subst; apply repeat_length. }
  exists re, im. split; [exact E|]. intros i k Hi Hk. destruct (V i Hi) as [_ [_ Vk]]. destruct (Vk k Hk) as [Vr _].
  assert (R : forall v, nth k (nth i (repeat (repeat v 16) n) []) 0 = v).
  { intros v. rewrite (nth_indep _ [] (repeat v 16)) by (rewrite repeat_length; auto). rewrite nth_repeat.
    rewrite (nth_indep _ 0 v) by (rewrite repeat_length; auto). apply nth_repeat. }
  split.
  - rewrite Vr. unfold row. rewrite !R. reflexivity.
  - change (-64 * 64 - 0 * 0) with (-4096). change (2 ^ 7) with 128. unfold clip.
    change (imin int8) with (-128). change (imax int8) with 127. unfold Rmax, Rmin.
    repeat destruct (Rle_dec _ _); lra.
Qed.

(** (0.5 + 0.25i)(0.5 - 0.25i) = 0.3125 in q7, and the largest error of the imaginary part. *)
Example C88_example :
  cmulp_fixed int8 7 [64; 1] [32; 1] [64; 1] [-32; 127] [0; 0] [0; 0] = Ok ([40; 0], [0; 0]) /\
  cmulp_fixed int8 7 [1] [1] [127] [127] [5] [5] = Ok ([0], [0]) /\
  cmulp_fixed int8 7 [64] [32] [64] [-32] [] [] = Ok ([], []).
Proof. repeat split. Qed.

Print Assumptions C88_planar_product.
Print Assumptions C88_planar_product_q.
Print Assumptions C88_fxp14_refuted.
Print Assumptions C88_register_add_sub.
Print Assumptions C88_register_widths.
Print Assumptions C88_register_multiply_q15.
Print Assumptions C88_register_multiply_neon.
Print Assumptions C88_register_multiply_q7.
Print Assumptions C88_register_product_q15.
Print Assumptions C88_register_product_min_refuted.
Print Assumptions C88_register_product_q7_refuted.
