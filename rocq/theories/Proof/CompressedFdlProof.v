(** The compressed frequency-domain delay line. *)
From Coq Require Import Reals List Arith ZArith Lia Lra Bool Psatz.
From Flocq Require Import Core Relative.
From Verif Require Import Base.Outcome Base.OutcomeFacts Model.Integers Model.FixedPoint Model.CompressedFdl Proof.FixedFloat Spec.CompressedFdl.
Import ListNotations.
Local Open Scope R_scope.
Local Open Scope outcome_scope.

Local Instance prec24 : Prec_gt_0 24 := eq_refl.

Lemma rnd32_err : forall x B, Rabs x <= B -> Rabs (rnd32 x - x) <= B / 2 ^ 24 + / 2 ^ 60.
Proof.
  intros x B HB. destruct (error_N_FLT radix2 (-149) 24 eq_refl (fun n => negb (Z.even n)) x) as (eps & eta & He & Hh & _ & E).
  unfold rnd32. rewrite E. replace (x * (1 + eps) + eta - x) with (x * eps + eta) by ring.
  assert (He' : Rabs eps <= / 2 ^ 24).
  { eapply Rle_trans; [exact He|]. change (- (24) + 1)%Z with (Z.opp 23). rewrite (bpow_opp radix2 23). rewrite (bpow_IZR 23) by lia. cbn. lra. }
  assert (Hh' : Rabs eta <= / 2 ^ 60).
  { eapply Rle_trans; [exact Hh|]. apply Rle_trans with (/ 2 * bpow radix2 (-59)).
    - apply Rmult_le_compat_l; [lra|]. apply bpow_le. lia.
    - change (-59)%Z with (Z.opp 59). rewrite (bpow_opp radix2 59), (bpow_IZR 59) by lia. cbn. lra. }
  eapply Rle_trans; [apply Rabs_triang|]. apply Rplus_le_compat; auto. rewrite Rabs_mult. unfold Rdiv.
  apply Rmult_le_compat; auto using Rabs_pos.
Qed.

Definition small (t : ity) : Prop := isigned t = true /\ (2 <= iwidth t <= 16)%Z.

Lemma small_imax : forall t, small t -> (1 <= imax t <= 32767)%Z /\ imin t = (- imax t - 1)%Z.
Proof.
  intros t [S W]. unfold imax, imin. rewrite S.
  assert (2 ^ 1 <= 2 ^ (iwidth t - 1))%Z by (apply Z.pow_le_mono_r; lia).
  assert (2 ^ (iwidth t - 1) <= 2 ^ 15)%Z by (apply Z.pow_le_mono_r; lia). lia.
Qed.

Lemma int_float32 : forall n, (Z.abs n < 2 ^ 24)%Z -> float32 (IZR n).
Proof. intros n H. rewrite <- (Rmult_1_r (IZR n)). change 1 with (bpow radix2 0). apply float32_scaled; lia. Qed.

Lemma cf_max_ok : forall t, small t -> cf_max t = IZR (imax t).
Proof. intros t H. apply small_imax in H. unfold cf_max. apply rnd32_id, int_float32. lia. Qed.

Lemma iconv_fits : forall t n, small t -> fits t n -> iconv t n = n.
Proof.
  intros t n [S W] H. unfold fits, imin, imax in H. rewrite S in H. unfold iconv. rewrite S.
  assert (2 ^ iwidth t = 2 * 2 ^ (iwidth t - 1))%Z. { rewrite <- Z.pow_succ_r by lia. f_equal. lia. }
  rewrite Z.mod_small by lia. lia.
Qed.

Section One.
Variables (t : ity) (v : R).
Hypotheses (Ht : small t) (Hv : unit_float v).
Let M := IZR (imax t).
Let p := rnd32 (v * cf_max t).
Let n := ZnearestA p.

Lemma M_ge : 1 <= M <= 32767.
Proof. destruct (small_imax t Ht) as [H _]. unfold M. split; apply IZR_le; lia. Qed.

Lemma p_range : - M <= p <= M.
Proof.
  pose proof M_ge. destruct (small_imax t Ht) as [Hm _]. destruct Hv as [_ H1]. assert (-1 <= v <= 1) by (apply Rabs_le_inv; auto).
  unfold p. rewrite cf_max_ok by auto. fold M.
  assert (F1 : rnd32 M = M) by (apply rnd32_id, int_float32; lia).
  assert (F2 : rnd32 (- M) = - M) by (apply rnd32_id; unfold M; rewrite <- opp_IZR; apply int_float32; lia).
  split.
  - rewrite <- F2 at 1. apply rnd32_le. replace (- M) with (-1 * M) by ring. apply Rmult_le_compat_r; lra.
  - rewrite <- F1 at 2. apply rnd32_le. rewrite <- (Rmult_1_l M) at 2. apply Rmult_le_compat_r; lra.
Qed.

Lemma n_range : (- imax t <= n <= imax t)%Z.
Proof.
  pose proof p_range as [H1 H2]. unfold M in *. rewrite <- opp_IZR in H1. unfold n. split.
  - rewrite <- (Zrnd_IZR ZnearestA (- imax t)). apply (Zrnd_le ZnearestA). auto.
  - rewrite <- (Zrnd_IZR ZnearestA (imax t)). apply (Zrnd_le ZnearestA). auto.
Qed.

Lemma compress_ok : cf_compress t v = Ok n.
Proof.
  pose proof n_range. destruct (small_imax t Ht) as [Hm E]. unfold cf_compress. fold p. fold n.
  replace (fitsb (Ity 64 true) n) with true. 2:{ symmetry. apply fitsb_spec. unfold fits, imin, imax. cbn [isigned iwidth]. lia. }
  rewrite iconv_fits; auto. unfold fits. lia.
Qed.

Lemma expand_close : Rabs (cf_expand t n - v) <= cf_error t.
Proof.
  pose proof M_ge as HM. pose proof n_range as Hn. destruct (small_imax t Ht) as [Hm _].
  assert (Ev : Rabs v <= 1) by apply Hv. assert (-1 <= v <= 1) by (apply Rabs_le_inv; auto).
  assert (HN : - M <= IZR n <= M). { unfold M. rewrite <- opp_IZR. split; apply IZR_le; lia. }
  unfold cf_expand. rewrite (rnd32_id (IZR n)) by (apply int_float32; lia). rewrite cf_max_ok by auto. fold M.
  assert (E1 : Rabs (p - v * M) <= M / 2 ^ 24 + / 2 ^ 60).
  { unfold p. rewrite cf_max_ok by auto. fold M. apply rnd32_err. rewrite Rabs_mult, (Rabs_right M) by lra. rewrite <- (Rmult_1_l M) at 2. apply Rmult_le_compat_r; lra. }
  assert (E2 : Rabs (p - IZR n) <= / 2) by apply Znearest_half.
  assert (IM : 0 < / M <= 1). { split; [apply Rinv_0_lt_compat; lra|]. rewrite <- Rinv_1. apply Rinv_le_contravar; lra. }
  assert (E3 : Rabs (rnd32 (1 / M) - / M) <= / M / 2 ^ 24 + / 2 ^ 60).
  { replace (/ M) with (1 / M) at 1 by (field; lra). apply rnd32_err. rewrite Rabs_right; lra. }
  set (inv := rnd32 (1 / M)) in *. set (N := IZR n) in *.
  assert (P24 : 2 ^ 24 = 16777216) by (cbn; lra). assert (P60 : / 2 ^ 60 <= / 10 ^ 18). { apply Rinv_le_contravar; cbn; lra. }
  assert (P60' : 0 < / 2 ^ 60) by (apply Rinv_0_lt_compat; cbn; lra).
  assert (E4 : Rabs (N * inv - N / M) <= / 2 ^ 24 + / 10 ^ 13).
  { replace (N * inv - N / M) with (N * (inv - / M)) by (field; lra). rewrite Rabs_mult.
    apply Rle_trans with (M * (/ M / 2 ^ 24 + / 2 ^ 60)).
    - apply Rmult_le_compat; auto using Rabs_pos. apply Rabs_le. lra.
    - replace (M * (/ M / 2 ^ 24 + / 2 ^ 60)) with (/ 2 ^ 24 + M * / 2 ^ 60) by (field; lra). apply Rplus_le_compat_l.
      apply Rle_trans with (32767 * / 10 ^ 18); [apply Rmult_le_compat; lra|]. cbn. lra. }
  assert (NM : -1 <= N / M <= 1).
  { split; apply (Rmult_le_reg_r M); try lra; replace (N / M * M) with N by (field; lra); lra. }
  assert (Q : Rabs (N * inv) <= 1 + / 10 ^ 6).
  { replace (N * inv) with (N / M + (N * inv - N / M)) by ring. eapply Rle_trans; [apply Rabs_triang|].
    assert (Rabs (N / M) <= 1) by (apply Rabs_le; lra). rewrite P24 in E4. lra. }
  assert (E5 := rnd32_err (N * inv) _ Q).
  assert (E6 : Rabs (N / M - v) <= 1 / (2 * M) + / 2 ^ 24 + / 10 ^ 18).
  { replace (N / M - v) with ((N - p) * / M + (p - v * M) * / M) by (field; lra). eapply Rle_trans; [apply Rabs_triang|].
    rewrite !Rabs_mult, (Rabs_right (/ M)) by lra. rewrite (Rabs_minus_sym N p).
    apply Rle_trans with (/ 2 * / M + (M / 2 ^ 24 + / 2 ^ 60) * / M).
    - apply Rplus_le_compat; apply Rmult_le_compat_r; lra.
    - replace (/ 2 * / M + (M / 2 ^ 24 + / 2 ^ 60) * / M) with (1 / (2 * M) + / 2 ^ 24 + / 2 ^ 60 * / M) by (field; lra).
      apply Rplus_le_compat_l. apply Rle_trans with (/ 2 ^ 60 * 1); [apply Rmult_le_compat_l|]; lra. }
  replace (rnd32 (N * inv) - v) with ((rnd32 (N * inv) - N * inv) + (N * inv - N / M) + (N / M - v)) by ring.
  eapply Rle_trans; [apply Rabs_triang|]. eapply Rle_trans; [apply Rplus_le_compat_r, Rabs_triang|].
  unfold cf_error. fold M. assert (P22 : / 2 ^ 22 = 4 * / 2 ^ 24) by (cbn; field). rewrite P22.
  rewrite P24 in *. lra.
Qed.
End One.

Lemma expand_0 : forall t, cf_expand t 0 = 0.
Proof.
  intros t. unfold cf_expand. assert (Z : rnd32 0 = 0) by (apply round_0; auto with typeclass_instances).
  rewrite Z, Rmult_0_l. exact Z.
Qed.

Definition quant (t : ity) (x : R) : Z := ZnearestA (rnd32 (x * cf_max t)).

(** Storage with its extents. *)
Definition shaped (rows cols : nat) (fdl : list (list (Z * Z))) : Prop :=
  length fdl = rows /\ forall r, (r < rows)%nat -> length (nth r fdl []) = cols.
Definition at2 (fdl : list (list (Z * Z))) (r c : nat) : Z * Z := nth c (nth r fdl []) (0%Z, 0%Z).

Lemma insert_ok : forall t rows cols fdl values index, small t -> shaped rows cols fdl -> good_insert rows cols (index, values) ->
  exists fdl', cf_insert t values index fdl = Ok fdl' /\ shaped rows cols fdl' /\
    forall r c, (r < rows)%nat -> (c < cols)%nat ->
      at2 fdl' r c = if ((index =? r) && (c <? length values))%nat%bool
                     then (quant t (fst (nth c values (0, 0))), quant t (snd (nth c values (0, 0)))) else at2 fdl r c.
Proof.
  intros t rows cols fdl values index Ht [L1 L2] (Hi & Hc & Hv). cbn [fst snd] in *.
  unfold cf_insert. rewrite (rd_ok _ _ index []) by lia. cbn [bind]. set (row := nth index fdl []).
  assert (Lr : length row = cols) by (apply L2; auto).
  match goal with |- context [for_range 0 ?n ?body ?s0] =>
    destruct (for_range_map _ (0%Z, 0%Z) 0 n body s0 (fun c => (quant t (fst (nth c values (0, 0))), quant t (snd (nth c values (0, 0)))))) as (row' & E & Lr' & V)
  end.
  - lia.
  - intros j l Hj Ll _. rewrite (rd_ok _ _ j (0, 0)) by lia. cbn [bind].
    destruct (Hv (nth j values (0, 0))) as [U1 U2]; [apply nth_In; lia|].
    rewrite !compress_ok by auto. cbn [bind]. apply wr_ok. rewrite Ll. fold row. lia.
  - rewrite E. cbn [bind]. rewrite wr_ok by lia. eexists. split; [reflexivity|]. split.
    + split; [rewrite upd_length; auto|]. intros r Hr. rewrite nth_upd. destruct (Nat.eqb_spec r index); cbn [andb]; [|apply L2; auto].
      destruct (Nat.ltb_spec index (length fdl)); [|lia]. congruence.
    + intros r c Hr Hcc. unfold at2. rewrite nth_upd. rewrite (Nat.eqb_sym index r). destruct (Nat.eqb_spec r index); cbn [andb]; auto.
      destruct (Nat.ltb_spec index (length fdl)); [|lia]. subst r. rewrite V by lia. cbn [Nat.leb andb]. reflexivity.
Qed.

Lemma run_ok : forall t rows cols ops fdl, small t -> shaped rows cols fdl -> Forall (good_insert rows cols) ops ->
  exists fdl', cf_run t ops fdl = Ok fdl' /\ shaped rows cols fdl' /\
    forall r c, (r < rows)%nat -> (c < cols)%nat ->
      at2 fdl' r c = match newest ops r c with Some v => (quant t (fst v), quant t (snd v)) | None => at2 fdl r c end.
Proof.
  intros t rows cols ops. induction ops as [|[index values] ops]; intros fdl Ht Hs Ho; cbn [cf_run newest].
  - exists fdl. auto.
  - inversion Ho; subst. destruct (insert_ok t rows cols fdl values index Ht Hs) as (f1 & E1 & S1 & V1); auto.
    rewrite E1. cbn [bind]. destruct (IHops f1 Ht S1) as (f2 & E2 & S2 & V2); auto. exists f2. split; auto. split; auto.
    intros r c Hr Hc. rewrite V2 by auto. destruct (newest ops r c); auto. rewrite V1 by auto. destruct (_ && _)%bool; reflexivity.
Qed.

Lemma make_shaped : forall rows cols, shaped rows cols (cf_make rows cols).
Proof.
  intros rows cols. split; [apply repeat_length|]. intros r Hr. unfold cf_make. rewrite (nth_indep _ [] (repeat (0%Z, 0%Z) cols)).
  - rewrite nth_repeat. apply repeat_length.
  - rewrite repeat_length. auto.
Qed.

Lemma make_at2 : forall rows cols r c, at2 (cf_make rows cols) r c = (0%Z, 0%Z).
Proof.
  intros. unfold at2, cf_make. destruct (Nat.lt_ge_cases r rows).
  - rewrite (nth_indep _ [] (repeat (0%Z, 0%Z) cols)) by (rewrite repeat_length; auto). rewrite nth_repeat. apply nth_repeat.
  - rewrite (nth_overflow _ _ (n := r)) by (rewrite repeat_length; auto). destruct c; reflexivity.
Qed.

Lemma newest_good : forall rows cols ops r c v, Forall (good_insert rows cols) ops -> newest ops r c = Some v ->
  unit_float (fst v) /\ unit_float (snd v).
Proof.
  intros rows cols ops r c v. induction ops as [|[index values] ops]; cbn [newest]; [discriminate|]. intros Ho E. inversion Ho; subst.
  destruct (newest ops r c); [injection E as ->; auto|]. destruct (Nat.eqb_spec index r); cbn [andb] in E; [|discriminate].
  destruct (Nat.ltb_spec c (length values)); [|discriminate]. injection E as <-. destruct H1 as (_ & _ & H1). apply H1. apply nth_In. auto.
Qed.

Lemma read_ok : forall t rows cols fdl r c, shaped rows cols fdl -> (r < rows)%nat -> (c < cols)%nat ->
  cf_read t fdl r c = Ok (cf_expand t (fst (at2 fdl r c)), cf_expand t (snd (at2 fdl r c))).
Proof.
  intros t rows cols fdl r c [L1 L2] Hr Hc. unfold cf_read. rewrite (rd_ok _ _ r []) by lia. cbn [bind].
  rewrite (rd_ok _ _ c (0%Z, 0%Z)) by (rewrite L2; auto). reflexivity.
Qed.

(** Components above 1 wrap around. *)
Lemma compress_wraps : forall t v, small t -> IZR (imax t) + / 2 <= rnd32 (v * IZR (imax t)) <= 2 * IZR (imax t) ->
  exists n, cf_compress t v = Ok n /\ (n < 0)%Z.
Proof.
  intros t v Ht [H1 H2]. destruct (small_imax t Ht) as [Hm Hi]. unfold cf_compress. rewrite cf_max_ok by auto.
  set (p := rnd32 (v * IZR (imax t))) in *. set (n := ZnearestA p).
  assert (N1 : (imax t + 1 <= n)%Z).
  { unfold n. replace (imax t + 1)%Z with (ZnearestA (IZR (imax t) + / 2)). { apply (Zrnd_le ZnearestA). auto. }
    unfold ZnearestA, Znearest. replace (Zfloor (IZR (imax t) + / 2)) with (imax t). 2:{ symmetry. apply Zfloor_imp. rewrite plus_IZR. lra. }
    replace (IZR (imax t) + / 2 - IZR (imax t)) with (/ 2) by ring. rewrite Rcompare_Eq by auto.
    destruct (Z.leb_spec 0 (imax t)); [|lia]. apply Zceil_imp. rewrite plus_IZR, minus_IZR, plus_IZR. lra. }
  assert (N2 : (n <= 2 * imax t)%Z).
  { unfold n. rewrite <- (Zrnd_IZR ZnearestA (2 * imax t)). apply (Zrnd_le ZnearestA). rewrite mult_IZR. auto. }
  replace (fitsb (Ity 64 true) n) with true. 2:{ symmetry. apply fitsb_spec. unfold fits, imin, imax. cbn [isigned iwidth]. lia. }
  eexists. split; [reflexivity|]. destruct Ht as [S W]. unfold imax in *. rewrite S in *. unfold iconv. rewrite S.
  assert (2 ^ iwidth t = 2 * 2 ^ (iwidth t - 1))%Z. { rewrite <- Z.pow_succ_r by lia. f_equal. lia. }
  rewrite (Z.mod_eq _ (2 ^ iwidth t)) by lia. replace ((n + 2 ^ (iwidth t - 1)) / 2 ^ iwidth t)%Z with 1%Z; [lia|].
  apply (Z.div_unique _ _ _ (n + 2 ^ (iwidth t - 1) - 2 ^ iwidth t)); lia.
Qed.

Lemma compress_range : forall t v n, small t -> cf_compress t v = Ok n -> (imin t <= n <= imax t)%Z.
Proof.
  intros t v n Ht. unfold cf_compress. destruct (fitsb _ _); [|discriminate]. intros E. injection E as <-.
  destruct Ht as [S W]. unfold iconv, imin, imax. rewrite S.
  assert (2 ^ iwidth t = 2 * 2 ^ (iwidth t - 1))%Z. { rewrite <- Z.pow_succ_r by lia. f_equal. lia. }
  assert (0 < 2 ^ (iwidth t - 1))%Z by (apply Z.pow_pos_nonneg; lia).
  match goal with |- context [(?a mod ?b)%Z] => pose proof (Z.mod_pos_bound a b ltac:(lia)) end. lia.
Qed.

Lemma expand_neg : forall t n, small t -> (imin t <= n <= imax t)%Z -> (n < 0)%Z -> cf_expand t n < 0.
Proof.
  intros t n Ht Hn Hneg. destruct (small_imax t Ht) as [Hm Hi]. unfold cf_expand. rewrite cf_max_ok by auto.
  rewrite (rnd32_id (IZR n)) by (apply int_float32; lia).
  assert (P : bpow radix2 (-15) <= rnd32 (1 / IZR (imax t))).
  { assert (F : rnd32 (bpow radix2 (-15)) = bpow radix2 (-15)).
    { apply rnd32_id. rewrite <- (Rmult_1_l (bpow radix2 (-15))). apply (float32_scaled 1); lia. }
    rewrite <- F. apply rnd32_le. change (-15)%Z with (Z.opp 15). rewrite (bpow_opp radix2 15), (bpow_IZR 15) by lia.
    unfold Rdiv. rewrite Rmult_1_l. apply Rinv_le_contravar; [apply IZR_lt; lia|]. apply IZR_le. cbn. lia. }
  assert (B : bpow radix2 (-15) = / 32768). { change (-15)%Z with (Z.opp 15). rewrite (bpow_opp radix2 15), (bpow_IZR 15) by lia. reflexivity. }
  assert (N : IZR n <= -1) by (apply IZR_le; lia).
  apply Rle_lt_trans with (rnd32 (- bpow radix2 (-15))).
  - apply rnd32_le. rewrite B in *. nra.
  - rewrite rnd32_id. { rewrite B. lra. }
    replace (- bpow radix2 (-15)) with (IZR (-1) * bpow radix2 (-15)) by lra. apply float32_scaled; lia.
Qed.
