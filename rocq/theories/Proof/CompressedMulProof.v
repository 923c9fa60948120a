(** Products and reloads of arrays stored as small integers. *)
From Coq Require Import Reals List Arith ZArith Lia Lra Bool.
From Flocq Require Import Core.
From Verif Require Import Base.Outcome Base.OutcomeFacts Model.Integers Model.FixedPoint Model.CompressedFdl Model.CompressedMul
  Proof.FixedFloat Spec.CompressedFdl Proof.CompressedFdlProof.
Import ListNotations.
Local Open Scope R_scope.
Local Open Scope outcome_scope.

Lemma recompress : forall t n, small t -> fits t n -> cf_compress t (cf_expand t n) = Ok n.
Proof.
  intros t n Ht Hf. destruct (small_imax t Ht) as [Hm Emin]. assert (HM : 1 <= IZR (imax t) <= 32767) by (split; apply IZR_le; lia).
  assert (Hn : (- imax t - 1 <= n <= imax t)%Z) by (unfold fits in Hf; lia).
  set (M := IZR (imax t)) in *.
  assert (HN : - (2 * M) <= IZR n <= 2 * M).
  { unfold M. rewrite <- mult_IZR, <- opp_IZR. split; apply IZR_le; lia. }
  unfold cf_compress, cf_expand. rewrite (rnd32_id (IZR n)) by (apply int_float32; lia). rewrite cf_max_ok by auto. fold M.
  assert (IM : 0 < / M <= 1). { split; [apply Rinv_0_lt_compat; lra|]. rewrite <- Rinv_1. apply Rinv_le_contravar; lra. }
  assert (E3 : Rabs (rnd32 (1 / M) - / M) <= / M / 2 ^ 24 + / 2 ^ 60).
  { replace (/ M) with (1 / M) at 1 by (field; lra). apply rnd32_err. rewrite Rabs_right; lra. }
  set (inv := rnd32 (1 / M)) in *. set (N := IZR n) in *.
  assert (P24 : 2 ^ 24 = 16777216) by (cbn; lra). assert (P60 : / 2 ^ 60 <= / 10 ^ 18). { apply Rinv_le_contravar; cbn; lra. }
  assert (P60' : 0 < / 2 ^ 60) by (apply Rinv_0_lt_compat; cbn; lra).
  assert (E4 : Rabs (N * inv - N / M) <= 2 / 2 ^ 24 + / 10 ^ 12).
  { replace (N * inv - N / M) with (N * (inv - / M)) by (field; lra). rewrite Rabs_mult.
    apply Rle_trans with ((2 * M) * (/ M / 2 ^ 24 + / 2 ^ 60)).
    - apply Rmult_le_compat; auto using Rabs_pos. apply Rabs_le. lra.
    - replace (2 * M * (/ M / 2 ^ 24 + / 2 ^ 60)) with (2 / 2 ^ 24 + 2 * M * / 2 ^ 60) by (field; lra). apply Rplus_le_compat_l.
      apply Rle_trans with (65534 * / 10 ^ 18); [apply Rmult_le_compat; lra|]. cbn. lra. }
  assert (NM : -2 <= N / M <= 2).
  { split; apply (Rmult_le_reg_r M); try lra; replace (N / M * M) with N by (field; lra); lra. }
  assert (Q : Rabs (N * inv) <= 3).
  { replace (N * inv) with (N / M + (N * inv - N / M)) by ring. eapply Rle_trans; [apply Rabs_triang|].
    assert (Rabs (N / M) <= 2) by (apply Rabs_le; lra). rewrite P24 in E4. lra. }
  assert (E5 := rnd32_err (N * inv) _ Q).
  set (x := rnd32 (N * inv)) in *.
  assert (E6 : Rabs (x - N / M) <= 6 / 2 ^ 24).
  { replace (x - N / M) with ((x - N * inv) + (N * inv - N / M)) by ring. eapply Rle_trans; [apply Rabs_triang|]. rewrite P24 in *. lra. }
  assert (E7 : Rabs (x * M - N) <= / 50).
  { replace (x * M - N) with ((x - N / M) * M) by (field; lra). rewrite Rabs_mult, (Rabs_right M) by lra.
    apply Rle_trans with (6 / 2 ^ 24 * 32767); [apply Rmult_le_compat; try lra; apply Rabs_pos|]. rewrite P24. lra. }
  assert (Q2 : Rabs (x * M) <= 65536).
  { apply Rabs_le. apply Rabs_le_inv in E7. lra. }
  assert (E8 := rnd32_err (x * M) _ Q2).
  assert (EZ : ZnearestA (rnd32 (x * M)) = n).
  { apply Znearest_imp. fold N. replace (rnd32 (x * M) - N) with ((rnd32 (x * M) - x * M) + (x * M - N)) by ring.
    eapply Rle_lt_trans; [apply Rabs_triang|]. rewrite P24 in *. lra. }
  rewrite EZ. replace (fitsb (Ity 64 true) n) with true. 2:{ symmetry. apply fitsb_spec. unfold fits, imin, imax. cbn [isigned iwidth]. lia. }
  rewrite iconv_fits; auto.
Qed.

Lemma store_ok : forall t a, small t -> (forall v, In v a -> unit_float v) ->
  cm_store t a = Ok (map (fun v => ZnearestA (rnd32 (v * cf_max t))) a).
Proof. intros t a Ht Ha. apply mapM_ok. intros v Hv. apply compress_ok; auto. Qed.

Lemma multiply_ok : forall t x y out, length y = length x -> length out = length x ->
  cm_multiply t x y out = Ok (tab (length x) (fun i => rnd32 (cf_expand t (nth i x 0%Z) * cf_expand t (nth i y 0%Z)))).
Proof.
  intros t x y out Hy Ho. unfold cm_multiply. apply for_range_tab with (d := 0); auto.
  intros j l Hj Hl Hn. unfold cm_get. rewrite (rd_ok _ x j 0%Z), (rd_ok _ y j 0%Z) by lia. cbn [bind]. rewrite wr_ok by lia. reflexivity.
Qed.

Lemma cf_error_small : forall t, small t -> (8 <= iwidth t)%Z -> 0 < cf_error t <= / 200.
Proof.
  intros t Ht Hw. destruct Ht as [S W].
  assert (127 <= imax t)%Z. { unfold imax. rewrite S. assert (2 ^ 7 <= 2 ^ (iwidth t - 1))%Z by (apply Z.pow_le_mono_r; lia). lia. }
  apply IZR_le in H. unfold cf_error. assert (0 < 1 / (2 * IZR (imax t)) <= / 254).
  { unfold Rdiv. rewrite Rmult_1_l. split; [apply Rinv_0_lt_compat; lra|]. apply Rinv_le_contravar; lra. }
  assert (2 ^ 22 = 4194304) by (cbn; lra). rewrite H1. lra.
Qed.

Lemma product_close : forall e A B a b, 0 < e <= / 200 -> Rabs (A - a) <= e -> Rabs (B - b) <= e -> Rabs a <= 1 -> Rabs b <= 1 ->
  Rabs (rnd32 (A * B) - a * b) <= 2 * e + e ^ 2 + / 2 ^ 23.
Proof.
  intros e A B a b He HA HB Ha Hb.
  assert (P : Rabs (A * B - a * b) <= 2 * e + e ^ 2).
  { replace (A * B - a * b) with ((A - a) * (B - b) + (a * (B - b) + b * (A - a))) by ring.
    eapply Rle_trans; [apply Rabs_triang|].
    assert (Rabs ((A - a) * (B - b)) <= e * e) by (rewrite Rabs_mult; apply Rmult_le_compat; auto using Rabs_pos).
    assert (Rabs (a * (B - b)) <= 1 * e) by (rewrite Rabs_mult; apply Rmult_le_compat; auto using Rabs_pos).
    assert (Rabs (b * (A - a)) <= 1 * e) by (rewrite Rabs_mult; apply Rmult_le_compat; auto using Rabs_pos).
    pose proof (Rabs_triang (a * (B - b)) (b * (A - a))). replace (e ^ 2) with (e * e) by ring. lra. }
  assert (ee : e * e <= / 200 * / 200) by (apply Rmult_le_compat; lra).
  assert (Rabs (a * b) <= 1 * 1) by (rewrite Rabs_mult; apply Rmult_le_compat; auto using Rabs_pos).
  assert (Q : Rabs (A * B) <= 3 / 2).
  { replace (A * B) with ((A * B - a * b) + a * b) by ring. eapply Rle_trans; [apply Rabs_triang|]. replace (e ^ 2) with (e * e) in P by ring. lra. }
  assert (E := rnd32_err _ _ Q).
  replace (rnd32 (A * B) - a * b) with ((A * B - a * b) + (rnd32 (A * B) - A * B)) by ring. eapply Rle_trans; [apply Rabs_triang|].
  assert (3 / 2 / 2 ^ 24 + / 2 ^ 60 <= / 2 ^ 23).
  { assert (/ 2 ^ 60 <= / 10 ^ 18) by (apply Rinv_le_contravar; cbn; lra). replace (2 ^ 24) with 16777216 by (cbn; lra). replace (2 ^ 23) with 8388608 by (cbn; lra). lra. }
  lra.
Qed.

(** ** Complex elements *)
Lemma store_c_ok : forall t a, small t -> (forall v, In v a -> unit_float (fst v) /\ unit_float (snd v)) ->
  cm_store_c t a = Ok (map (fun v => (ZnearestA (rnd32 (fst v * cf_max t)), ZnearestA (rnd32 (snd v * cf_max t)))) a).
Proof.
  intros t a Ht Ha. apply mapM_ok. intros v Hv. destruct (Ha v Hv) as [H1 H2].
  rewrite (compress_ok t (fst v)), (compress_ok t (snd v)) by auto. reflexivity.
Qed.

Lemma multiply_c_ok : forall t x y out, length y = length x -> length out = length x ->
  cm_multiply_c t x y out = Ok (tab (length x) (fun i =>
    let ex n := (cf_expand t (fst n), cf_expand t (snd n)) in cmul32 (ex (nth i x (0%Z, 0%Z))) (ex (nth i y (0%Z, 0%Z))))).
Proof.
  intros t x y out Hy Ho. unfold cm_multiply_c. apply for_range_tab with (d := (0, 0)); auto.
  intros j l Hj Hl Hn. unfold cm_get_c. rewrite (rd_ok _ x j (0%Z, 0%Z)), (rd_ok _ y j (0%Z, 0%Z)) by lia. cbn [bind]. rewrite wr_ok by lia. reflexivity.
Qed.

Lemma sum_close : forall e p q u v, 0 < e <= / 200 -> Rabs u <= 1 -> Rabs v <= 1 ->
  Rabs (p - u) <= 2 * e + e ^ 2 + / 2 ^ 23 -> Rabs (q - v) <= 2 * e + e ^ 2 + / 2 ^ 23 ->
  Rabs (rnd32 (p + q) - (u + v)) <= 4 * e + 2 * e ^ 2 + / 2 ^ 21.
Proof.
  intros e p q u v He Hu Hv Hp Hq.
  assert (ee : e * e <= / 200 * / 200) by (apply Rmult_le_compat; lra). replace (e ^ 2) with (e * e) in * by ring.
  assert (P23 : / 2 ^ 23 = / 8388608) by (f_equal; cbn; lra). assert (P21 : / 2 ^ 21 = / 2097152) by (f_equal; cbn; lra).
  apply Rabs_le_inv in Hu. apply Rabs_le_inv in Hv. apply Rabs_le_inv in Hp. apply Rabs_le_inv in Hq. rewrite P23 in *.
  assert (Q : Rabs (p + q) <= 3) by (apply Rabs_le; lra).
  assert (E := rnd32_err _ _ Q). apply Rabs_le_inv in E.
  assert (/ 2 ^ 60 <= / 10 ^ 18) by (apply Rinv_le_contravar; cbn; lra).
  assert (P24 : 2 ^ 24 = 16777216) by (cbn; lra). rewrite P24 in E. rewrite P21. apply Rabs_le. lra.
Qed.
