(** Proofs about the real transforms of the vendor back ends and the BLAS path of scale. *)
From Coq Require Import Reals ZArith List Arith Bool Lia Lra.
From Verif Require Import Base.Outcome Base.OutcomeFacts Base.Sums Base.Cplx Spec.Dft Spec.Transforms Spec.Views Spec.Vendor.
From Verif Require Import Model.Algorithm Model.VendorFft Proof.AlgorithmProof Proof.VendorProof.
Import ListNotations.
Local Arguments Nat.pow : simpl never.
Local Arguments Nat.div : simpl never.

Lemma interleave_length : forall x, length (interleave x) = 2 * length x.
Proof. induction x as [|c x IH]; [reflexivity|]. unfold interleave in *. cbn [flat_map]. rewrite app_length, IH. cbn [length]. lia. Qed.

Lemma interleave_nth : forall x k, nth (k * 2) (interleave x) 0%R = fst (nth k x C0) /\ nth (k * 2 + 1) (interleave x) 0%R = snd (nth k x C0).
Proof.
  induction x as [|c x IH]; intros k.
  - simpl. destruct k; simpl; split; auto; destruct (k * 2 + 1); auto.
  - destruct k as [|k]. { split; reflexivity. }
    replace (S k * 2) with (S (S (k * 2))) by lia. replace (S (S (k * 2)) + 1) with (S (S (k * 2 + 1))) by lia. apply IH.
Qed.

Lemma rdft_tab : forall n f, RDFT_list Forward (tab n f) = tab (n / 2 + 1) (DFT Forward n (fun j => RtoC (f j))).
Proof.
  intros n f. unfold RDFT_list. rewrite tab_length. apply tab_ext. intros k Hk. apply dft_ext. intros j Hj.
  rewrite nth_tab by exact Hj. reflexivity.
Qed.

Lemma half_le : forall p, 0 < p -> 2 ^ p / 2 + 1 <= 2 ^ p /\ 2 ^ p = 2 * 2 ^ (p - 1) /\ 2 ^ p / 2 = 2 ^ (p - 1).
Proof.
  intros p Hp. assert (E : 2 ^ p = 2 * 2 ^ (p - 1)). { replace p with (S (p - 1)) at 1 by lia. apply Nat.pow_succ_r'. }
  assert (D : 2 ^ p / 2 = 2 ^ (p - 1)). { rewrite E, Nat.mul_comm. apply Nat.div_mul. lia. }
  pose proof (pow2_pos (p - 1)). lia.
Qed.

Lemma half_le0 : forall p, 2 * (2 ^ p / 2 + 1) <= 2 ^ p * 2.
Proof. intros [|p]; [vm_compute; lia|]. destruct (half_le (S p)); lia. Qed.

Definition ipp_rfft_inv (order : nat) (p : ipp_rfft_plan) : Prop := ir_order p = order /\ length (ir_buf p) = 2 ^ order * 2.

(** [out] now holds bins 0..n/2 of the DFT of what [x] held. *)
Lemma ipp_rfft_forward_ok : forall order p x mem y omem, ipp_rfft_inv order p ->
  vector_ok (2 ^ order) x (length mem) -> vector_ok (2 ^ order / 2 + 1) y (length omem) ->
  exists p' omem', ipp_rfft_forward p x mem y omem = Ok (p', omem') /\ ipp_rfft_inv order p' /\
    written1 C0 (vec_view y) (2 ^ order / 2 + 1) (DFT Forward (2 ^ order) (fun j => RtoC (elem 0%R x mem j))) omem omem'.
Proof.
  intros order p x mem y omem [O L] [Sx [Ix [Dx Lx]]] [Sy [Iy [Dy Ly]]]. unfold ipp_rfft_forward. rewrite O.
  assert (Hn := pow2_pos order). assert (Hh := half_le0 order). set (n := 2 ^ order) in *. set (m := n / 2 + 1) in *.
  destruct (always_vectorizable [x] && always_vectorizable [y]) eqn:A.
  - apply andb_true_iff in A. destruct A as [A1 A2]. apply not_vectorizable1 in A1. apply not_vectorizable1 in A2.
    unfold lib_r2ccs_copy. rewrite (slice_at1 _ 0%R) by (auto; eapply last_inside; eauto). cbn [bind].
    rewrite rdft_tab. fold m.
    destruct (splice_written _ C0 (vec_view y) (tab m (DFT Forward n (fun j => RtoC (elem 0%R x mem j)))) omem) as [o [E W]]; auto.
    { rewrite tab_length. eapply last_inside; eauto. unfold m. lia. }
    unfold elem in E. rewrite E. cbn [bind]. exists p, o. split; [reflexivity|]. split; [split; auto|].
    rewrite tab_length in W. eapply written1_ext; [|exact W]. intros i Hi. apply nth_tab. exact Hi.
  - rewrite (slice_spec _ 0%R) by lia. cbn [bind]. rewrite (gather_ok _ 0%R) by (rewrite ?tab_length, Sx; auto; lia). rewrite Sx. cbn [bind].
    destruct (splice_spec _ 0%R (ir_buf p) (tab n (fun i => nth (at1 (vec_view x) i) mem 0%R)) 0) as [b1 [E1 [L1 N1]]].
    { rewrite tab_length. lia. }
    rewrite E1. cbn [bind]. unfold lib_r2ccs_inplace. rewrite (slice_spec _ 0%R) by lia. cbn [bind].
    assert (Es : tab (0 + n - 0) (fun i => nth (0 + i) b1 0%R) = tab n (elem 0%R x mem)).
    { replace (0 + n - 0) with n by lia. apply tab_ext. intros i Hi. rewrite N1, tab_length.
      replace ((0 <=? 0 + i) && (0 + i <? 0 + n)) with true
        by (symmetry; apply andb_true_iff; split; [apply Nat.leb_le|apply Nat.ltb_lt]; lia).
      rewrite nth_tab by lia. unfold elem. f_equal. f_equal. lia. }
    rewrite Es, rdft_tab. fold m. set (Y := tab m (DFT Forward n (fun j => RtoC (elem 0%R x mem j)))).
    assert (LY : length (interleave Y) = 2 * m). { rewrite interleave_length. unfold Y. rewrite tab_length. reflexivity. }
    destruct (splice_spec _ 0%R b1 (interleave Y) 0) as [b2 [E2 [L2 N2]]]. { rewrite LY. lia. }
    rewrite E2. cbn [bind].
    destruct (scatter1 _ C0 m (vec_view y) (DFT Forward n (fun j => RtoC (elem 0%R x mem j)))
      (fun i omem => re <- rd b2 (i * 2) ;; im <- rd b2 (i * 2 + 1) ;; wr omem (at1 (vec_view y) i) (re, im)) omem Iy Dy) as [o [E3 W]].
    { intros k mm Hk Hm _. rewrite (rd_ok _ _ _ 0%R) by lia. cbn [bind]. rewrite (rd_ok _ _ _ 0%R) by lia. cbn [bind].
      rewrite !N2, LY. rewrite !Nat.sub_0_r.
      replace ((0 <=? k * 2) && (k * 2 <? 0 + 2 * m)) with true
        by (symmetry; apply andb_true_iff; split; [apply Nat.leb_le|apply Nat.ltb_lt]; lia).
      replace ((0 <=? k * 2 + 1) && (k * 2 + 1 <? 0 + 2 * m)) with true
        by (symmetry; apply andb_true_iff; split; [apply Nat.leb_le|apply Nat.ltb_lt]; lia).
      destruct (interleave_nth Y k) as [A1 A2]. rewrite A1, A2, <- surjective_pairing. unfold Y. rewrite nth_tab by exact Hk.
      apply wr_ok. rewrite Hm. apply Iy. exact Hk. }
    match goal with |- context [@for_range ?S 0 m ?b omem] =>
      assert (E4 : @for_range S 0 m b omem = Ok o) by exact E3; rewrite E4 end.
    cbn [bind]. eexists. exists o. split; [reflexivity|]. split; [|exact W]. split; [reflexivity|]. cbn [ir_buf]. fold n. lia.
Qed.

Lemma irdft_ext : forall m X Y j, (forall k, k <= m -> X k = Y k) -> IRDFT m X j = IRDFT m Y j.
Proof.
  intros m X Y j H. unfold IRDFT. rewrite (H 0), (H m) by lia. f_equal. f_equal. apply Rsum_ext. intros k Hk.
  rewrite (H (S k)) by lia. reflexivity.
Qed.

Lemma ipp_rfft_backward_ok : forall order p c x mem y omem, 0 < order -> ipp_rfft_inv order p ->
  2 ^ order / 2 + 1 <= c <= 2 ^ order ->
  vector_ok c x (length mem) -> vector_ok (2 ^ order) y (length omem) ->
  exists p' omem', ipp_rfft_backward p x mem y omem = Ok (p', omem') /\ ipp_rfft_inv order p' /\
    written1 0%R (vec_view y) (2 ^ order) (IRDFT (2 ^ (order - 1)) (elem C0 x mem)) omem omem'.
Proof.
  intros order p c x mem y omem Ho [O L] Hc [Sx [Ix [Dx Lx]]] [Sy [Iy [Dy Ly]]]. unfold ipp_rfft_backward. rewrite O.
  destruct (half_le order Ho) as [H1 [H2 H3]]. assert (Hn := pow2_pos order). rewrite H3 in Hc.
  set (h := 2 ^ (order - 1)) in *. set (n := 2 ^ order) in *. 
  destruct (always_vectorizable [x] && always_vectorizable [y]) eqn:A.
  - apply andb_true_iff in A. destruct A as [A1 A2]. apply not_vectorizable1 in A1. apply not_vectorizable1 in A2.
    unfold lib_ccs2r_copy. rewrite H3.
    assert (B : u_off (vec_view x) + (h + 1) <= length mem).
    { apply (last_inside (h + 1)); [lia|auto|]. intros i Hi. apply Ix. lia. }
    rewrite (slice_at1 _ C0) by auto. cbn [bind].
    match goal with |- context [splice omem ?o ?s] => destruct (splice_written _ 0%R (vec_view y) s omem) as [o' [E W]] end; auto.
    { rewrite tab_length. eapply last_inside; eauto. }
    rewrite E. cbn [bind]. exists p, o'. split; [reflexivity|]. split; [split; auto|].
    rewrite tab_length in W. eapply written1_ext; [|exact W]. intros i Hi. cbv beta. rewrite nth_tab by exact Hi.
    apply irdft_ext. intros k Hk. rewrite nth_tab by lia. reflexivity.
  - rewrite Sx.
    destruct (for_range_inv _ (fun k (b : list R) => length b = n * 2 /\
      forall i, i < k -> nth (2 * i) b 0%R = fst (elem C0 x mem i) /\ nth (2 * i + 1) b 0%R = snd (elem C0 x mem i)) 0 c
      (fun i buf => c <- rd mem (at1 (vec_view x) i) ;; buf <- wr buf (i * 2) (fst c) ;; wr buf (i * 2 + 1) (snd c)) (ir_buf p))
      as [b1 [E1 [L1 V1]]]; try lia.
    { split; [exact L|]. lia. }
    { intros j b Hj [Lb Vb]. rewrite (rd_ok _ _ _ C0) by (apply Ix; lia). cbn [bind]. rewrite wr_ok by lia. cbn [bind].
      rewrite wr_ok by (rewrite upd_length; lia). eexists. split; [reflexivity|]. rewrite !upd_length. split; [exact Lb|].
      intros i Hi. destruct (Nat.eq_dec i j) as [->|N].
      - rewrite (Nat.mul_comm 2 j). rewrite nth_upd_neq by lia. rewrite nth_upd_eq by lia.
        rewrite nth_upd_eq by (rewrite upd_length; lia). split; reflexivity.
      - rewrite !nth_upd_neq by lia. apply Vb. lia. }
    rewrite E1. cbn [bind]. unfold lib_ccs2r_inplace. rewrite H3. rewrite (slice_spec _ 0%R) by lia. cbn [bind].
    set (Z := tab n _).
    assert (EZ : Z = tab n (IRDFT h (elem C0 x mem))).
    { unfold Z. apply tab_ext. intros i Hi. apply irdft_ext. intros k Hk. rewrite !nth_tab by lia.
      destruct (V1 k) as [A1 A2]; [lia|]. rewrite !Nat.add_0_l. rewrite A1, A2. symmetry. apply surjective_pairing. }
    assert (LZ : length Z = n) by apply tab_length.
    destruct (splice_spec _ 0%R b1 Z 0) as [b2 [E2 [L2 N2]]]. { lia. }
    rewrite E2. cbn [bind]. rewrite (slice_spec _ 0%R) by lia. cbn [bind].
    assert (EU : tab (n - 0) (fun i => nth (0 + i) b2 0%R) = tab n (IRDFT h (elem C0 x mem))).
    { rewrite Nat.sub_0_r. apply tab_ext. intros i Hi. rewrite N2.
      replace ((0 <=? 0 + i) && (0 + i <? 0 + length Z)) with true
        by (symmetry; apply andb_true_iff; split; [apply Nat.leb_le|apply Nat.ltb_lt]; lia).
      rewrite EZ. rewrite nth_tab by lia. f_equal. lia. }
    rewrite EU.
    destruct (put_back_ok _ 0%R (tab n (IRDFT h (elem C0 x mem))) (vec_view y) omem) as [o [E3 W]]; rewrite ?tab_length; auto.
    rewrite E3. cbn [bind]. eexists. exists o. split; [reflexivity|]. split; [split; [reflexivity|cbn [ir_buf]; fold n; lia]|].
    rewrite tab_length in W. eapply written1_ext; [|exact W]. intros i Hi. apply nth_tab. exact Hi.
Qed.

Lemma ipp_rfft_reach_inv : forall pr order p, ipp_rfft_reach pr order p -> ipp_rfft_inv order p.
Proof.
  intros pr order p H. induction H as [p E|p x mem y omem p' omem' H IH E|p x mem y omem p' omem' H IH E].
  - unfold make_ipp_rfft, order_size, guard in E. destruct (order <? 64); [|discriminate E]. cbn [bind] in E.
    destruct (ipp_max_order pr <? order); [discriminate E|]. injection E as <-. split; [reflexivity|]. apply repeat_length.
  - destruct IH as [O L]. unfold ipp_rfft_forward in E. destruct (always_vectorizable [x] && always_vectorizable [y]).
    + apply bind_ok in E. destruct E as [m [_ E]]. injection E as <- _. split; auto.
    + apply bind_ok in E. destruct E as [s1 [E1 E]]. apply bind_ok in E. destruct E as [s2 [E2 E]].
      apply bind_ok in E. destruct E as [b1 [E3 E]]. apply bind_ok in E. destruct E as [b2 [E4 E]].
      apply bind_ok in E. destruct E as [m [_ E]]. injection E as <- _. split; [exact O|]. cbn [ir_buf].
      apply bind_ok in E4. destruct E4 as [s3 [_ E4]]. apply splice_length in E4. apply splice_length in E3. lia.
  - destruct IH as [O L]. unfold ipp_rfft_backward in E. destruct (always_vectorizable [x] && always_vectorizable [y]).
    + apply bind_ok in E. destruct E as [m [_ E]]. injection E as <- _. split; auto.
    + apply bind_ok in E. destruct E as [b1 [E1 E]]. apply bind_ok in E. destruct E as [b2 [E2 E]].
      apply bind_ok in E. destruct E as [s [_ E]]. apply bind_ok in E. destruct E as [m [_ E]]. injection E as <- _.
      split; [exact O|]. cbn [ir_buf]. apply bind_ok in E2. destruct E2 as [s3 [_ E2]]. apply splice_length in E2.
      rewrite E2, <- L. revert E1. unfold for_range.
      assert (G : forall cnt lo (b b' : list R), loop cnt lo 1 (fun i buf => c <- rd mem (at1 (vec_view x) i) ;;
          buf <- wr buf (i * 2) (fst c) ;; wr buf (i * 2 + 1) (snd c)) b = Ok b' -> length b' = length b).
      { induction cnt; intros lo b b' F; simpl in F. { injection F as <-. reflexivity. }
        apply bind_ok in F. destruct F as [b3 [F1 F]]. apply bind_ok in F1. destruct F1 as [q [_ F1]].
        apply bind_ok in F1. destruct F1 as [b4 [F2 F1]]. apply wr_inv in F2. apply wr_inv in F1.
        destruct F1 as [_ ->]. destruct F2 as [_ ->]. rewrite (IHcnt _ _ _ F). rewrite !upd_length. reflexivity. }
      apply G.
Qed.

(** ** DCT *)
Definition ipp_dct_inv (order : nat) (p : ipp_dct_plan) : Prop := ic_order p = order /\ length (ic_buf p) = 2 ^ order.

Lemma slice_tab : forall T n (f : nat -> T), slice (tab n f) 0 n = Ok (tab n f).
Proof.
  intros. rewrite slice_ok by (rewrite ?tab_length; lia). rewrite Nat.sub_0_r. cbn [skipn].
  rewrite <- (tab_length T n f) at 1. rewrite firstn_all. reflexivity.
Qed.
Lemma splice_tab : forall T n (f g : nat -> T), splice (tab n f) 0 (tab n g) = Ok (tab n g).
Proof.
  intros. unfold splice. rewrite !tab_length. replace (0 + n <=? n) with true by (symmetry; apply Nat.leb_le; lia).
  rewrite skipn_all2 by (rewrite tab_length; lia). rewrite app_nil_r. reflexivity.
Qed.

(** Values of the two library functions. *)
Definition dct2_value (n : nat) (x : nat -> R) (k : nat) : R :=
  (ipp_dct_weight n k * Rsum n (fun i => x i * cos (PI * INR (2 * i + 1) * INR k / (2 * INR n))))%R.
Definition dct3_value (n : nat) (x : nat -> R) (i : nat) : R :=
  Rsum n (fun k => (ipp_dct_weight n k * x k * cos (PI * INR (2 * i + 1) * INR k / (2 * INR n)))%R).

Lemma ipp_dct_run_ok : forall kind order p x mem, ipp_dct_inv order p -> vector_ok (2 ^ order) x (length mem) ->
  exists p' mem', ipp_dct_run kind p x mem = Ok (p', mem') /\ ipp_dct_inv order p' /\
    written1 0%R (vec_view x) (2 ^ order)
      (match kind with Forward => dct2_value | Backward => dct3_value end (2 ^ order) (elem 0%R x mem)) mem mem'.
Proof.
  intros kind order p x mem [O L] [Sx [Ix [Dx Lx]]]. unfold ipp_dct_run. rewrite O. set (n := 2 ^ order) in *.
  rewrite (gather_ok _ 0%R) by (rewrite Sx; auto). rewrite Sx. cbn [bind].
  assert (E : match kind with Forward => lib_dct2_inplace | Backward => lib_dct3_inplace end n (tab n (elem 0%R x mem)) =
    Ok (tab n (match kind with Forward => dct2_value | Backward => dct3_value end n (elem 0%R x mem)))).
  { destruct kind.
    - unfold lib_dct2_inplace. rewrite slice_tab. cbn [bind]. rewrite splice_tab. f_equal. apply tab_ext. intros k Hk.
      unfold dct2_value. f_equal. apply Rsum_ext. intros i Hi. rewrite nth_tab by exact Hi. reflexivity.
    - unfold lib_dct3_inplace. rewrite slice_tab. cbn [bind]. rewrite splice_tab. f_equal. apply tab_ext. intros k Hk.
      unfold dct3_value. apply Rsum_ext. intros i Hi. rewrite nth_tab by exact Hi. reflexivity. }
  unfold elem at 1 in E. rewrite E. cbn [bind]. clear E.
  set (F := match kind with Forward => dct2_value | Backward => dct3_value end n (elem 0%R x mem)).
  destruct (put_back_ok _ 0%R (tab n F) (vec_view x) mem) as [m [E W]]; rewrite ?tab_length; auto.
  rewrite E. cbn [bind]. eexists. exists m. split; [reflexivity|]. split; [split; [reflexivity|apply tab_length]|].
  rewrite tab_length in W. eapply written1_ext; [|exact W]. intros i Hi. apply nth_tab. exact Hi.
Qed.

Lemma ipp_dct_reach_inv : forall order p, ipp_dct_reach order p -> ipp_dct_inv order p.
Proof.
  intros order p H. induction H as [p E|k p x mem p' mem' H IH E].
  - unfold make_ipp_dct, order_size, guard in E. destruct (order <? 64); [|discriminate E]. cbn [bind] in E.
    destruct (30 <? order); [discriminate E|]. injection E as <-. split; [reflexivity|]. apply repeat_length.
  - destruct IH as [O L]. unfold ipp_dct_run in E. apply bind_ok in E. destruct E as [b1 [E1 E]].
    apply bind_ok in E. destruct E as [b2 [E2 E]]. apply bind_ok in E. destruct E as [m [_ E]]. injection E as <- _.
    split; [exact O|]. cbn [ic_buf]. apply gather_length in E1. destruct k; apply bind_ok in E2; destruct E2 as [s [_ E2]];
      apply splice_length in E2; lia.
Qed.

Lemma dct2_ortho : forall n x k, 0 < n -> dct2_value n x k = DCT2_ortho n x k.
Proof.
  intros n x k Hn. unfold dct2_value, DCT2_ortho, ipp_dct_weight. f_equal. { destruct (Nat.eqb k 0); reflexivity. }
  apply Rsum_ext. intros i Hi. f_equal. f_equal. rewrite (mult_INR 2 n). change (INR 2) with (1 + 1)%R. field.
  apply not_0_INR. lia.
Qed.

(** *** The DCT-III undoes the DCT-II *)
Local Open Scope R_scope.

Lemma cos_sum_closed : forall N a, 2 * sin (a / 2) * Rsum N (fun k => cos (INR k * a)) = sin (INR N * a - a / 2) + sin (a / 2).
Proof.
  induction N as [|N IH]; intros a.
  - cbn [INR]. replace (0 * a - a / 2) with (- (a / 2)) by lra. rewrite sin_neg. cbn. lra.
  - rewrite Rsum_S, Rmult_plus_distr_l, IH. rewrite S_INR.
    replace ((INR N + 1) * a - a / 2) with (INR N * a + a / 2) by lra.
    rewrite sin_plus, sin_minus. lra.
Qed.

Lemma cos_nat_pi : forall m, cos (INR m * PI) = (-1) ^ m.
Proof.
  induction m as [|m IH]. { cbn [INR pow]. rewrite Rmult_0_l. apply cos_0. }
  rewrite S_INR. replace ((INR m + 1) * PI) with (INR m * PI + PI) by lra. rewrite neg_cos, IH. cbn [pow]. lra.
Qed.
Lemma sin_nat_pi : forall m, sin (INR m * PI) = 0.
Proof.
  induction m as [|m IH]. { cbn [INR]. rewrite Rmult_0_l. apply sin_0. }
  rewrite S_INR. replace ((INR m + 1) * PI) with (INR m * PI + PI) by lra. rewrite neg_sin, IH. lra.
Qed.

Lemma cos_sum : forall N m, (0 < m < 2 * N)%nat -> Rsum N (fun k => cos (INR k * (INR m * PI / INR N))) = (1 - (-1) ^ m) / 2.
Proof.
  intros N m H. assert (HN : 0 < INR N) by (apply lt_0_INR; lia).
  set (a := INR m * PI / INR N). pose proof (cos_sum_closed N a) as E.
  assert (Ea : INR N * a = INR m * PI). { unfold a. field. lra. }
  rewrite Ea in E. rewrite sin_minus, sin_nat_pi, cos_nat_pi in E.
  assert (S : 0 < sin (a / 2)).
  { apply sin_gt_0.
    - unfold a. assert (0 < INR m * PI / INR N); [|lra]. apply Rdiv_lt_0_compat; [|exact HN].
      apply Rmult_lt_0_compat; [apply lt_0_INR; lia|apply PI_RGT_0].
    - assert (M : INR m < 2 * INR N). { replace (2 * INR N) with (INR (2 * N)) by (rewrite mult_INR; reflexivity). apply lt_INR. lia. }
      unfold a. apply (Rmult_lt_reg_r (2 * INR N)); [lra|].
      replace (INR m * PI / INR N / 2 * (2 * INR N)) with (INR m * PI) by (field; lra).
      rewrite (Rmult_comm PI). apply Rmult_lt_compat_r; [apply PI_RGT_0|exact M]. }
  apply (Rmult_eq_reg_l (2 * sin (a / 2))); [|lra]. rewrite E. lra.
Qed.

Lemma cos_prod : forall a b, cos a * cos b = (cos (a - b) + cos (a + b)) / 2.
Proof. intros a b. rewrite cos_minus, cos_plus. lra. Qed.

Lemma weight_sq : forall n k, (0 < n)%nat -> ipp_dct_weight n k * ipp_dct_weight n k = (if Nat.eqb k 0 then 1 else 2) / INR n.
Proof.
  intros n k Hn. assert (H : 0 < INR n) by (apply lt_0_INR; exact Hn). unfold ipp_dct_weight.
  destruct (Nat.eqb k 0); apply sqrt_sqrt; apply Rlt_le, Rdiv_lt_0_compat; lra.
Qed.

(** The columns of the transform are orthonormal. *)
Lemma dct_orthonormal : forall n i j, (i < n)%nat -> (j < n)%nat ->
  Rsum n (fun k => ipp_dct_weight n k * ipp_dct_weight n k *
     (cos (PI * INR (2 * i + 1) * INR k / (2 * INR n)) * cos (PI * INR (2 * j + 1) * INR k / (2 * INR n)))) =
  if Nat.eqb i j then 1 else 0.
Proof.
  assert (G : forall n i j, (j <= i)%nat -> (i < n)%nat ->
    Rsum n (fun k => ipp_dct_weight n k * ipp_dct_weight n k *
     (cos (PI * INR (2 * i + 1) * INR k / (2 * INR n)) * cos (PI * INR (2 * j + 1) * INR k / (2 * INR n)))) =
    if Nat.eqb i j then 1 else 0).
  { intros n i j Hji Hi. assert (Hn : 0 < INR n) by (apply lt_0_INR; lia).
    set (A := Rsum n (fun k => cos (INR k * (INR (i - j) * PI / INR n)))).
    set (B := Rsum n (fun k => cos (INR k * (INR (i + j + 1) * PI / INR n)))).
    assert (E : Rsum n (fun k => ipp_dct_weight n k * ipp_dct_weight n k *
      (cos (PI * INR (2 * i + 1) * INR k / (2 * INR n)) * cos (PI * INR (2 * j + 1) * INR k / (2 * INR n)))) = (A + B - 1) / INR n).
    { transitivity (Rsum n (fun k => (cos (INR k * (INR (i - j) * PI / INR n)) + cos (INR k * (INR (i + j + 1) * PI / INR n))) * / INR n
        - (if Nat.eqb k 0 then 1 else 0) * / INR n)).
      - apply Rsum_ext. intros k Hk. rewrite weight_sq by lia. rewrite cos_prod.
        replace (PI * INR (2 * i + 1) * INR k / (2 * INR n) - PI * INR (2 * j + 1) * INR k / (2 * INR n))
          with (INR k * (INR (i - j) * PI / INR n)).
        2:{ rewrite minus_INR by lia. rewrite !plus_INR, !mult_INR. cbn [INR]. field. lra. }
        replace (PI * INR (2 * i + 1) * INR k / (2 * INR n) + PI * INR (2 * j + 1) * INR k / (2 * INR n))
          with (INR k * (INR (i + j + 1) * PI / INR n)).
        2:{ rewrite !plus_INR, !mult_INR. cbn [INR]. field. lra. }
        destruct (Nat.eqb_spec k 0) as [->|_]. { cbn [INR]. rewrite !Rmult_0_l, cos_0. field. lra. } field. lra.
      - rewrite Rsum_sub. rewrite !Rsum_mul_r, Rsum_add. fold A B.
        rewrite (Rsum_single n 0 (fun k => if Nat.eqb k 0 then 1 else 0)); [cbn; unfold Rdiv; lra|lia|]. intros k Hk N.
        destruct (Nat.eqb_spec k 0); [lia|reflexivity]. }
    rewrite E. unfold B. rewrite cos_sum by lia. unfold A. destruct (Nat.eqb_spec i j) as [->|N].
    - rewrite Nat.sub_diag. rewrite (Rsum_ext n _ (fun _ => 1)).
      2:{ intros k Hk. replace (INR k * (INR 0 * PI / INR n)) with 0; [apply cos_0|]. cbn [INR]. unfold Rdiv. ring. }
      rewrite Rsum_const. replace ((-1) ^ (j + j + 1)) with (-1). { field. lra. }
      replace (j + j + 1)%nat with (S (2 * j)) by lia. cbn [pow]. rewrite pow_mult. replace ((-1) ^ 2) with 1 by (cbn; lra).
      rewrite pow1. lra.
    - rewrite cos_sum by lia. replace (i + j + 1)%nat with (S (2 * j) + (i - j))%nat by lia. rewrite pow_add. cbn [pow].
      rewrite pow_mult. replace ((-1) ^ 2) with 1 by (cbn; lra). rewrite pow1. unfold Rdiv.
      replace ((1 - (-1) ^ (i - j)) * / 2 + (1 - -1 * 1 * (-1) ^ (i - j)) * / 2 - 1) with 0 by lra. lra. }
  intros n i j Hi Hj. destruct (Nat.le_gt_cases j i) as [H|H]. { apply G; assumption. }
  rewrite Nat.eqb_sym. rewrite <- (G n j i) by lia. apply Rsum_ext. intros k Hk. ring.
Qed.

Lemma dct3_dct2 : forall n x i, (i < n)%nat -> dct3_value n (dct2_value n x) i = x i.
Proof.
  intros n x i Hi. unfold dct3_value, dct2_value.
  transitivity (Rsum n (fun j => x j * (if Nat.eqb i j then 1 else 0))).
  - rewrite (Rsum_ext n _ (fun k => Rsum n (fun j => x j * (ipp_dct_weight n k * ipp_dct_weight n k *
      (cos (PI * INR (2 * i + 1) * INR k / (2 * INR n)) * cos (PI * INR (2 * j + 1) * INR k / (2 * INR n))))))).
    + rewrite Rsum_swap. apply Rsum_ext. intros j Hj. rewrite Rsum_mul_l. rewrite dct_orthonormal by assumption. reflexivity.
    + intros k Hk. set (w := ipp_dct_weight n k). set (c := cos (PI * INR (2 * i + 1) * INR k / (2 * INR n))).
      replace (w * (w * Rsum n (fun i0 => x i0 * cos (PI * INR (2 * i0 + 1) * INR k / (2 * INR n)))) * c)
        with ((w * w * c) * Rsum n (fun i0 => x i0 * cos (PI * INR (2 * i0 + 1) * INR k / (2 * INR n)))) by ring.
      rewrite <- Rsum_mul_l. apply Rsum_ext. intros j Hj. ring.
  - rewrite (Rsum_single n i); [|exact Hi|].
    + rewrite Nat.eqb_refl. ring.
    + intros j Hj N. destruct (Nat.eqb_spec i j); [congruence|ring].
Qed.
Local Close Scope R_scope.

(** ** scale through BLAS *)
Lemma blas_int_small : forall bits n, (2 <= bits)%Z -> (0 <= n < 2 ^ (bits - 1))%Z -> blas_int bits n = n.
Proof.
  intros bits n Hb H. unfold blas_int. assert (E : (2 ^ bits = 2 * 2 ^ (bits - 1))%Z).
  { replace bits with (Z.succ (bits - 1)) at 1 by lia. apply Z.pow_succ_r. lia. }
  rewrite Z.mod_small by lia. replace (n <? 2 ^ (bits - 1))%Z with true by (symmetry; apply Z.ltb_lt; lia). reflexivity.
Qed.

Lemma vec_unary_written : forall T (d : T) op v mem, inside1 v (u_size v) (length mem) -> safe1 v v (u_size v) ->
  exists mem', vec_unary_op op v mem = Ok mem' /\ written1 d v (u_size v) (fun i => op (nth (at1 v i) mem d)) mem mem'.
Proof.
  intros T d op v mem I S. unfold vec_unary_op. apply scatter1; auto. intros k m Hk Hm Hf.
  rewrite (rd_ok _ _ _ d) by (rewrite Hm; apply I; exact Hk). cbn [bind].
  rewrite (safe_read1 T d v v (u_size v) k m mem) by auto. apply wr_ok. rewrite Hm. apply I. exact Hk.
Qed.

Lemma scale_blas_ok : forall T (d : T) bits op x mem, (2 <= bits)%Z -> vector_ok (u_size (vec_view x)) x (length mem) ->
  (Z.of_nat (u_size (vec_view x)) < 2 ^ (bits - 1))%Z ->
  exists mem', scale_blas bits op x mem = Ok mem' /\
    written1 d (vec_view x) (u_size (vec_view x)) (fun i => op (elem d x mem i)) mem mem'.
Proof.
  intros T d bits op x mem Hb [_ [I [D L]]] Hn. unfold scale_blas. destruct (always_vectorizable [x]) eqn:A.
  - specialize (L (not_vectorizable1 x A)). rewrite L.
    assert (P1 : (1 < 2 ^ (bits - 1))%Z). { apply Z.pow_gt_1; lia. }
    rewrite !blas_int_small by lia. unfold lib_scal.
    destruct (Z.leb_spec (Z.of_nat (u_size (vec_view x))) 0) as [H0|H0].
    + cbn [orb]. exists mem. split; [reflexivity|]. split; [reflexivity|]. split; [|auto]. intros i Hi. lia.
    + cbn [orb]. change (Z.of_nat 1 <=? 0)%Z with false. cbn [orb]. rewrite Nat2Z.id. change (Z.to_nat (Z.of_nat 1)) with 1.
      destruct (vec_unary_written T d op (vec_view x) mem I D) as [m [E W]]. exists m. split; [|exact W].
      rewrite <- E. unfold vec_unary_op, at1. rewrite L. reflexivity.
  - destruct (vec_unary_written T d op (vec_view x) mem I D) as [m [E W]]. exists m. split; [exact E|exact W].
Qed.

(** Two's complement of a length that does not fit: nothing is scaled. *)
Lemma scale_blas_wraps : forall T (op : T -> T) bits x mem, (1 <= bits)%Z -> always_vectorizable [x] = true ->
  (2 ^ (bits - 1) <= Z.of_nat (u_size (vec_view x)) < 2 ^ bits)%Z -> scale_blas bits op x mem = Ok mem.
Proof.
  intros T op bits x mem Hb A H. unfold scale_blas. rewrite A. unfold lib_scal, blas_int at 1.
  rewrite Z.mod_small by lia.
  replace (Z.of_nat (u_size (vec_view x)) <? 2 ^ (bits - 1))%Z with false by (symmetry; apply Z.ltb_ge; lia).
  replace (Z.of_nat (u_size (vec_view x)) - 2 ^ bits <=? 0)%Z with true by (symmetry; apply Z.leb_le; lia). reflexivity.
Qed.
