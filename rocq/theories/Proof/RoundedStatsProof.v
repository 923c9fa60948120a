(** Statistics and normalisation in rounded arithmetic. *)
From Coq Require Import Reals List Arith ZArith Lia Lra Bool.
From Flocq Require Import Core.
From Verif Require Import Base.Outcome Base.OutcomeFacts Base.Alias Base.Sums Base.Cplx Base.VecNorm Spec.Rounding Spec.RoundedSums Spec.Statistics Model.Algorithm Model.Statistics Model.RoundedStats
  Proof.AlgorithmProof Proof.StatisticsProof Proof.RoundedSums Proof.RoundedDirect.
Import ListNotations.
Local Open Scope R_scope.

(** ** What the functions compute, as sums in the order of the elements *)

Lemma rmean_unchecked_ok : forall rnd x, well_formed x -> int_extents x ->
  rmean_unchecked rnd x = Ok (rnd (rsum rnd R (fun v => v) (entries x) / rnd (INR (length (entries x))))).
Proof. intros rnd x Hw Hi. unfold rmean_unchecked. rewrite fold_obj_ok by (auto; intros _; auto). cbn [bind]. rewrite entries_length by auto. reflexivity. Qed.

Definition avg_of (rnd : R -> R) (l : list R) : R := rnd (rsum rnd R (fun v => v) l / rnd (INR (length l))).
Definition var_of (rnd : R -> R) (l : list R) : R :=
  rnd (rsum rnd R (fun v => rnd (rnd (v - avg_of rnd l) * rnd (v - avg_of rnd l))) l / rnd (INR (length l))).
Definition mse_of (rnd : R -> R) (l : list (R * R)) : R :=
  rnd (rsum rnd (R * R) (fun q => rnd (rnd (fst q - snd q) * rnd (fst q - snd q))) l / rnd (INR (length l))).

Lemma rmean_ok : forall rnd x, well_formed x -> int_extents x -> rmean rnd x = Ok (if (obj_size x =? 0)%nat then None else Some (avg_of rnd (entries x))).
Proof.
  intros rnd x Hw Hi. unfold rmean. destruct (Nat.eqb_spec (obj_size x) 0) as [E|E], (Nat.ltb_spec (obj_size x) 1) as [L|L]; try lia; auto. rewrite rmean_unchecked_ok by auto. reflexivity.
Qed.

Lemma rvariance_ok : forall rnd x, well_formed x -> int_extents x -> rvariance rnd x = Ok (if (obj_size x <? 2)%nat then None else Some (var_of rnd (entries x))).
Proof.
  intros rnd x Hw Hi. unfold rvariance. destruct (Nat.ltb_spec (obj_size x) 2) as [L|L]; auto. rewrite rmean_unchecked_ok by auto. cbn [bind]. fold (avg_of rnd (entries x)).
  rewrite fold_obj_ok by (auto; intros _; auto). cbn [bind]. rewrite <- entries_length by auto. reflexivity.
Qed.

Lemma rmse_ok : forall rnd x y, well_formed x -> well_formed y -> same_shape x y -> rmean_squared_error rnd x y = Ok (mse_of rnd (combine (entries x) (entries y))).
Proof.
  intros rnd x y Hx Hy Hs. unfold rmean_squared_error.
  rewrite (walk2_ok _ _ _ false x y _ (fun a b s => rnd (s + rnd (rnd (a - b) * rnd (a - b))))); auto; [|intros H; discriminate]. cbn [bind]. unfold mse_of. rewrite combine_length, <- (same_entries _ _ x y), Nat.min_id by auto. rewrite entries_length by auto. reflexivity.
Qed.

Lemma rscale_obj_ok : forall rnd a x, well_formed x -> rscale_obj rnd a x = Ok (obj_map (fun v => rnd (v * a)) x).
Proof.
  intros rnd a [v|r c m] Hw; cbn [rscale_obj obj_map].
  - rewrite linalg_unary_ok. reflexivity.
  - destruct Hw as [Hr Hc].
    rewrite (for_range_tab _ [] r _ m (fun i => map (fun v => rnd (v * a)) (nth i m []))); auto.
    + cbn [bind]. f_equal. f_equal. symmetry. apply (list_eq_tab _ []). { rewrite map_length; auto. }
      intros i Hi. replace (@nil R) with (map (fun v => rnd (v * a)) []) at 1 by reflexivity. apply map_nth.
    + intros i l Hi Ll Hn. assert (Lr : length (nth i m []) = c) by (apply Hc, nth_In; lia).
      destruct (for_range_inv _ (fun j l' => l' = upd l i (map (fun v => rnd (v * a)) (firstn j (nth i m [])) ++ skipn j (nth i m []))) 0 c
        (fun j m => bind (rd m i) (fun row => bind (rd row j) (fun v => bind (wr row j (rnd (v * a))) (fun row => wr m i row)))) l) as (l' & E & V).
      * lia.
      * cbn [firstn skipn map app]. apply (list_eq_nth _ []). { now rewrite upd_length. }
        intros q Hq. rewrite nth_upd. destruct (Nat.eqb_spec q i); [subst|reflexivity].
        destruct (Nat.ltb_spec i (length l)); cbn [andb]; [exact Hn|lia].
      * intros j s Hj ->. set (row := nth i m []) in *.
        assert (Ls : length (map (fun v => rnd (v * a)) (firstn j row) ++ skipn j row) = c).
        { rewrite app_length, map_length, firstn_length, skipn_length. lia. }
        rewrite (rd_ok _ _ i []) by (rewrite upd_length; lia). cbn [bind]. rewrite nth_upd_eq by lia.
        rewrite (rd_ok _ _ j 0) by lia. cbn [bind].
        assert (Lf : length (map (fun v => rnd (v * a)) (firstn j row)) = j) by (rewrite map_length, firstn_length; lia).
        rewrite app_nth2, Lf, Nat.sub_diag by lia. rewrite wr_ok by lia. cbn [bind]. rewrite wr_ok by (rewrite upd_length; lia).
        eexists. split; [reflexivity|].
        apply (list_eq_nth _ []). { now rewrite !upd_length. } intros q Hq. rewrite !upd_length in Hq.
        rewrite !nth_upd, !upd_length. destruct (Nat.eqb_spec q i); [|reflexivity]. subst q.
        destruct (Nat.ltb_spec i (length l)); cbn [andb]; [|lia].
        apply (list_eq_nth _ 0).
        { rewrite upd_length, Ls, app_length, map_length, firstn_length, skipn_length. lia. }
        intros t Ht. rewrite upd_length, Ls in Ht. rewrite nth_upd, Ls.
        assert (G : forall u, (u < c)%nat -> (u <= c)%nat) by lia.
        assert (NA : forall J, (J <= c)%nat -> nth t (map (fun v => rnd (v * a)) (firstn J row) ++ skipn J row) 0 = if (t <? J)%nat then rnd (nth t row 0 * a) else nth t row 0).
        { intros J HJ. destruct (Nat.ltb_spec t J).
          - rewrite app_nth1 by (rewrite map_length, firstn_length; lia).
            rewrite (nth_indep _ 0 (rnd (0 * a))) by (rewrite map_length, firstn_length; lia).
            rewrite (map_nth (fun v => rnd (v * a))). rewrite nth_firstn_lt by lia. reflexivity.
          - rewrite app_nth2 by (rewrite map_length, firstn_length; lia). rewrite map_length, firstn_length, nth_skipn_add. f_equal. lia. }
        rewrite !NA by lia. rewrite nth_skipn_add, Nat.add_0_r.
        destruct (Nat.eqb_spec t j), (Nat.ltb_spec t c), (Nat.ltb_spec t j), (Nat.ltb_spec t (S j)); cbn [andb]; try lia; subst; auto. destruct (Nat.ltb_spec j (length row)); [reflexivity|lia].
      * rewrite E, V. rewrite firstn_all2, skipn_all2, app_nil_r by lia. reflexivity.
Qed.

Definition renergy_factor (rnd : R -> R) (l : list R) : R :=
  let e := rsum rnd R (fun v => rnd (v * v)) l in if exact e 0 then 1 else rnd (1 / rnd (sqrt e)).

Lemma rnormalize_energy_factor_ok : forall rnd x, well_formed x -> rnormalize_energy_factor rnd x = Ok (renergy_factor rnd (entries x)).
Proof.
  intros rnd x Hw. unfold rnormalize_energy_factor. rewrite fold_obj_ok by (auto; intros H; discriminate). cbn [bind]. unfold renergy_factor. cbv zeta. unfold rsum. destruct (exact _ 0); reflexivity.
Qed.

Lemma rnormalize_energy_ok : forall rnd x, well_formed x -> rnormalize_energy rnd x = Ok (obj_map (fun v => rnd (v * renergy_factor rnd (entries x))) x).
Proof. intros rnd x Hw. unfold rnormalize_energy. rewrite rnormalize_energy_factor_ok by auto. cbn [bind]. apply rscale_obj_ok. auto. Qed.

Definition rpeak_factor (rnd : R -> R) (l : list R) : R := if exact (peak_of l) 0 then 1 else rnd (1 / peak_of l).

Lemma rnormalize_peak_factor_ok : forall rnd x, well_formed x -> rnormalize_peak_factor rnd x = Ok (rpeak_factor rnd (entries x)).
Proof.
  intros rnd x Hw. unfold rnormalize_peak_factor. cbv zeta.
  assert (E : (match x with Vec v => (length v =? 0)%nat | Mat r c _ => (r =? 0)%nat && (c =? 0)%nat end) = true -> entries x = []).
  { destruct x as [v|r c m]; intros H.
    - apply Nat.eqb_eq in H. destruct v; [auto|discriminate].
    - apply andb_prop in H. destruct H as [H _]. apply Nat.eqb_eq in H. destruct Hw as [Hr _]. subst r. destruct m; [auto|discriminate]. }
  destruct (match x with Vec v => (length v =? 0)%nat | Mat r c _ => (r =? 0)%nat && (c =? 0)%nat end).
  - rewrite E by auto. unfold rpeak_factor, peak_of. cbn [fold_left]. destruct (exact 0 0) eqn:X; auto. assert (exact 0 0 = true) by (apply exact_true; auto). congruence.
  - rewrite fold_obj_ok by (auto; intros H; discriminate). cbn [bind]. unfold rpeak_factor. fold (peak_of (entries x)). rewrite (Rabs_pos_eq (peak_of _)) by apply peak_nonneg. destruct (exact _ 0); auto.
Qed.

Lemma rnormalize_peak_ok : forall rnd x, well_formed x -> rnormalize_peak rnd x = Ok (obj_map (fun v => rnd (v * rpeak_factor rnd (entries x))) x).
Proof. intros rnd x Hw. unfold rnormalize_peak. rewrite rnormalize_peak_factor_ok by auto. cbn [bind]. apply rscale_obj_ok. auto. Qed.

Definition rimpulse_factor (rnd : R -> R) (m : list (list R)) : R :=
  match m with [] => 1 | c :: t => fold_left (fun s ch => Rmin s (renergy_factor rnd ch)) t (renergy_factor rnd c) end.

Lemma rnormalize_impulse_ok : forall rnd r c m, well_formed (Mat r c m) ->
  rnormalize_impulse rnd (Mat r c m) = Ok (obj_map (fun v => rnd (v * rimpulse_factor rnd m)) (Mat r c m)).
Proof.
  intros rnd r c m [Hr Hc]. cbn [rnormalize_impulse]. destruct (Nat.ltb_spec r 1).
  - destruct m; [reflexivity|cbn in Hr; lia].
  - destruct m as [|c0 m]; [cbn in Hr; lia|]. cbn [rd nth_error bind]. rewrite rnormalize_energy_factor_ok by exact I. cbn [bind entries].
    destruct (for_range_inv _ (fun i f => f = fold_left (fun s ch => Rmin s (renergy_factor rnd ch)) (firstn (i - 1) m) (renergy_factor rnd c0)) 1 r
      (fun ch factor => bind (rd (c0 :: m) ch) (fun channel => bind (rnormalize_energy_factor rnd (Vec channel)) (fun f => Ok (Rmin factor f))))
      (renergy_factor rnd c0)) as (f & E & V); auto.
    + intros j s Hj ->. rewrite (rd_ok _ _ j []) by (rewrite Hr; lia). cbn [bind]. rewrite rnormalize_energy_factor_ok by exact I. cbn [bind entries].
      eexists. split; [reflexivity|]. destruct j as [|j]; [lia|]. cbn [nth]. replace (S (S j) - 1)%nat with (S j) by lia.
      replace (S j - 1)%nat with j by lia. cbn [length] in Hr.
      assert (F : firstn (S j) m = firstn j m ++ [nth j m []]).
      { clear - Hj Hr. assert (Hjm : (j < length m)%nat) by lia. clear Hj Hr. revert m Hjm. induction j; intros [|a m] H; cbn in H; try lia; auto.
        cbn [firstn nth app]. f_equal. apply IHj. lia. }
      rewrite F, fold_left_app. reflexivity.
    + rewrite E. cbn [bind]. rewrite V. cbn [length] in Hr. rewrite firstn_all2 by lia.
      apply (rscale_obj_ok rnd _ (Mat r c (c0 :: m))). split; auto.
Qed.

Lemma fold_rmin : forall (g : list R -> R) (l : list (list R)) s, fold_left (fun s ch => Rmin s (g ch)) l s <= s /\
  (forall ch, In ch l -> fold_left (fun s ch => Rmin s (g ch)) l s <= g ch) /\
  (fold_left (fun s ch => Rmin s (g ch)) l s = s \/ exists ch, In ch l /\ fold_left (fun s ch => Rmin s (g ch)) l s = g ch).
Proof.
  intros g. induction l; intros s; cbn [fold_left]. { split; [lra|]. split; [intros ch []|auto]. }
  destruct (IHl (Rmin s (g a))) as (H1 & H2 & H3). pose proof (Rmin_l s (g a)). pose proof (Rmin_r s (g a)).
  split; [lra|]. split.
  - intros ch [->|Hc]; [lra|auto].
  - destruct H3 as [E|(ch & Hc & E)]; [|right; exists ch; split; [right|]; auto].
    destruct (Rle_dec s (g a)).
    + left. rewrite E. apply Rmin_left. auto.
    + right. exists a. split; [left; auto|]. rewrite E. apply Rmin_right. lra.
Qed.

Lemma rimpulse_factor_spec : forall rnd m, m <> [] ->
  (forall ch, In ch m -> rimpulse_factor rnd m <= renergy_factor rnd ch) /\ exists ch, In ch m /\ rimpulse_factor rnd m = renergy_factor rnd ch.
Proof.
  intros rnd [|c m] H; [congruence|]. cbn [rimpulse_factor]. destruct (fold_rmin (renergy_factor rnd) m (renergy_factor rnd c)) as (H1 & H2 & H3). split.
  - intros ch [<-|Hc]; auto.
  - destruct H3 as [E|(ch & Hc & E)]; [exists c; split; [left|]; auto|exists ch; split; [right|]; auto].
Qed.

(** ** Errors *)
Section Format.
Variables (prec emin emax : Z) (rnd : R -> R).
Hypotheses (HF : ieee prec emin emax) (Hrnd : rounds_to_nearest prec emin emax rnd).
Let u := unit_roundoff prec.
Let eta := underflow emin.
Let Om := bpow radix2 emax.

Lemma U : 0 < u <= / 16777216.
Proof using HF. exact (u_pos prec emin emax HF). Qed.
Lemma E0 : 0 < eta.
Proof using. exact (eta_pos emin). Qed.

Lemma count_up_to : forall n, (0 < n)%nat -> INR n <= Om -> up_to_roundings prec 1 (INR n) (rnd (INR n)).
Proof using All.
  intros n Hn Ho. assert (1 <= INR n) by (apply (le_INR 1); lia). apply (normal_up_to prec emin emax HF rnd Hrnd); [|fold Om; lra]. right. rewrite Rabs_pos_eq by lra. apply Rle_trans with 1; auto.
  change 1 with (bpow radix2 0). apply bpow_le. pose proof (prec_range prec emin emax HF). lia.
Qed.

Lemma rnd_range : forall x, Rabs x <= Om -> Rabs (rnd x) <= Om.
Proof using All.
  intros x Hx. pose proof (prec_range prec emin emax HF) as P. assert (O : 0 <= Om) by apply bpow_ge_0. assert (F : is_float prec emin Om) by (apply generic_format_FLT_bpow; [unfold Prec_gt_0; lia|lia]).
  assert (E : rnd Om = Om) by (apply (rnd_id prec emin emax HF rnd Hrnd); auto; rewrite Rabs_pos_eq by auto; fold Om; lra).
  assert (E' : rnd (- Om) = - Om) by (rewrite (rnd_opp prec emin emax HF rnd Hrnd), E; auto; rewrite Rabs_pos_eq by auto; fold Om; lra).
  assert (B : - Om <= x <= Om) by (unfold Rabs in Hx; destruct (Rcase_abs x); lra).
  apply Rabs_le. rewrite <- E' at 1. rewrite <- E at 2. split; apply (rnd_mono prec emin emax HF rnd Hrnd); auto; try lra; fold Om; rewrite ?Rabs_Ropp, ?(Rabs_pos_eq Om); auto; lra.
Qed.

Lemma quotient_error : forall sh s A c B n, (0 < n)%nat -> INR n <= Om -> 1 <= c -> 0 <= B -> Rabs s <= A -> Rabs (sh - s) <= (c - 1) * A + B -> (c * A + B) * (1 + u) <= INR n * Om ->
  is_float prec emin (rnd (sh / rnd (INR n))) /\ Rabs (sh / rnd (INR n)) <= Om /\
  Rabs (rnd (sh / rnd (INR n)) - s / INR n) <= (c * ((1 + u) * (1 + u)) - 1) * (A / INR n) + (1 + u) * (1 + u) * (B / INR n) + eta.
Proof using All.
  intros sh s A c B n Hn Ho Hc HB Hs He HO. pose proof U as U. assert (N1 : 1 <= INR n) by (apply (le_INR 1); lia). pose proof (count_up_to n Hn Ho) as CN. set (N := INR n) in *.
  assert (A0 : 0 <= A) by (pose proof (Rabs_pos s); lra).
  assert (I : Rabs (/ rnd N - / N) <= u / N /\ 0 < / rnd N <= (1 + u) / N).
  { pose proof (up_to_pos prec emin emax HF _ _ _ CN ltac:(lra)) as P. destruct (up_to_inv prec emin emax HF 1 N (rnd N) ltac:(lra) CN) as [L H]. unfold growth in L, H. rewrite pow_1 in L, H. fold u in L, H.
    assert (NI : 0 < / N) by (apply Rinv_0_lt_compat; lra). assert (L' : (1 - u) * / N <= / N / (1 + u)).
    { unfold Rdiv. rewrite Rmult_comm. apply Rmult_le_compat_l; [lra|]. apply Rmult_le_reg_r with (1 + u); [lra|]. rewrite Rinv_l by lra. nra. }
    split; [apply Rabs_le; unfold Rdiv; split; lra|]. split; [apply Rinv_0_lt_compat; auto|]. unfold Rdiv. lra. }
  destruct I as [I1 [I2 I3]]. set (M := / rnd N) in *. assert (Sh : Rabs sh <= c * A + B). { replace sh with (s + (sh - s)) by ring. eapply Rle_trans; [apply Rabs_triang|]. lra. }
  assert (CA : 0 <= c * A + B) by (pose proof (Rabs_pos sh); lra).
  assert (Q : Rabs (sh / rnd N) <= (c * A + B) * ((1 + u) / N)). { unfold Rdiv at 1. fold M. rewrite Rabs_mult, (Rabs_pos_eq M) by lra. apply Rmult_le_compat; auto using Rabs_pos; lra. }
  assert (QO : Rabs (sh / rnd N) <= Om). { eapply Rle_trans; [exact Q|]. apply Rmult_le_reg_r with N; [lra|]. replace ((c * A + B) * ((1 + u) / N) * N) with ((c * A + B) * (1 + u)) by (field; lra). lra. }
  split; [apply (rnd_float prec emin emax HF rnd Hrnd); auto|]. split; [exact QO|].
  pose proof (rnd_error prec emin emax HF rnd Hrnd _ QO) as RE. fold u eta in RE.
  assert (D : Rabs (sh / rnd N - s / N) <= (((1 + u) * c - 1) * A + (1 + u) * B) / N).
  { unfold Rdiv at 1 2. fold M. replace (sh * M - s * / N) with (sh * (M - / N) + (sh - s) * / N) by ring. eapply Rle_trans; [apply Rabs_triang|]. rewrite !Rabs_mult.
    assert (NI : 0 < / N) by (apply Rinv_0_lt_compat; lra). rewrite (Rabs_pos_eq (/ N)) by lra.
    apply Rle_trans with ((c * A + B) * (u / N) + ((c - 1) * A + B) * / N); [|right; field; lra].
    apply Rplus_le_compat; [apply Rmult_le_compat; auto using Rabs_pos|apply Rmult_le_compat_r; lra]. }
  replace (rnd (sh / rnd N) - s / N) with ((rnd (sh / rnd N) - sh / rnd N) + (sh / rnd N - s / N)) by ring. eapply Rle_trans; [apply Rabs_triang|].
  assert (RE' : u * Rabs (sh / rnd N) <= u * ((c * A + B) * ((1 + u) / N))) by (apply Rmult_le_compat_l; lra).
  apply Rle_trans with (u * ((c * A + B) * ((1 + u) / N)) + eta + (((1 + u) * c - 1) * A + (1 + u) * B) / N); [lra|]. right. field. lra.
Qed.

Lemma mean_error : forall l, l <> [] -> (forall v, In v l -> is_float prec emin v) -> INR (length l) <= Om ->
  growth prec (length l + 1) * total (map Rabs l) <= Om ->
  is_float prec emin (avg_of rnd l) /\ Rabs (avg_of rnd l) <= Om /\ Rabs (avg_of rnd l - average l) <= (growth prec (length l + 2) - 1) * average (map Rabs l) + eta.
Proof using All.
  intros l Hl Hf Hn Ho. pose proof U as U. pose proof E0 as E0. set (n := length l) in *. assert (Ln : (0 < n)%nat) by (unfold n; destruct l; [congruence|cbn; lia]).
  assert (T0 : 0 <= total (map Rabs l)) by apply (total_abs_nonneg R (fun v => v)).
  rewrite Nat.add_1_r, growth_S in Ho. fold u in Ho. pose proof (growth_1 prec emin emax HF n) as G.
  assert (N1 : 1 <= INR n) by (apply (le_INR 1); lia).
  destruct (rsum_error prec emin emax HF rnd Hrnd R (fun v => v) (fun v => v) 0 0 l ltac:(lra) ltac:(lra)) as [Fs Es].
  { intros v Hv. split; auto. replace (v - v) with 0 by ring. rewrite Rabs_R0. lra. }
  { fold n Om. change (map (fun v => Rabs v) l) with (map Rabs l). assert (0 <= growth prec n * total (map Rabs l)) by (apply Rmult_le_pos; lra). replace (growth prec n * ((1 + 0) * total (map Rabs l) + INR n * 0)) with (growth prec n * total (map Rabs l)) by ring. nra. }
  fold n in Es. rewrite map_id in Es. rewrite Rplus_0_r, !Rmult_1_r, !Rmult_0_r, Rplus_0_r in Es.
  unfold avg_of, average. rewrite map_length. fold n.
  destruct (quotient_error (rsum rnd R (fun v => v) l) (total l) (total (map Rabs l)) (growth prec n) 0 n) as (F & FO & E); auto; try lra.
  - rewrite <- (map_id l) at 1. apply (total_abs R (fun v => v)).
  - change (map (fun v => Rabs v) l) with (map Rabs l) in Es. lra.
  - rewrite Rplus_0_r. assert (Om <= INR n * Om) by (rewrite <- (Rmult_1_l Om) at 1; apply Rmult_le_compat_r; [left; apply bpow_gt_0|exact N1]). lra.
  - split; auto. split; [apply rnd_range; auto|]. eapply Rle_trans; [exact E|]. replace (n + 2)%nat with (S (S n)) by lia. rewrite !growth_S. fold u. unfold Rdiv at 2. rewrite Rmult_0_l. right. ring.
Qed.

Lemma square_error : forall a b, is_float prec emin a -> is_float prec emin b -> Rabs (a - b) <= Om -> growth prec 2 * ((a - b) * (a - b)) <= Om ->
  is_float prec emin (rnd (rnd (a - b) * rnd (a - b))) /\ Rabs (rnd (a - b) * rnd (a - b)) <= Om /\ Rabs (rnd (rnd (a - b) * rnd (a - b)) - (a - b) * (a - b)) <= (growth prec 3 - 1) * ((a - b) * (a - b)) + eta.
Proof using All.
  intros a b Fa Fb Ho H2. pose proof U as U. pose proof E0 as E0. set (d := a - b) in *.
  assert (Ed : Rabs (rnd d - d) <= u * Rabs d).
  { pose proof (add_error prec emin emax HF rnd Hrnd a (- b) Fa ltac:(apply generic_format_opp; auto)) as A. fold (a - b) in A. fold d in A. eapply Rle_trans; [apply A; auto|]. apply (weaken_u prec emin emax HF). apply Rabs_pos. }
  assert (Bd : Rabs (rnd d) <= (1 + u) * Rabs d). { replace (rnd d) with (d + (rnd d - d)) by ring. eapply Rle_trans; [apply Rabs_triang|]. lra. }
  assert (Sq : forall x, Rabs x * Rabs x = x * x) by (intros x; rewrite <- Rabs_mult; apply Rabs_pos_eq, Rle_0_sqr).
  assert (Dd : Rabs (rnd d * rnd d - d * d) <= ((1 + u) * (1 + u) - 1) * (d * d)).
  { replace (rnd d * rnd d - d * d) with ((rnd d - d) * (rnd d + d)) by ring. rewrite Rabs_mult. replace (((1 + u) * (1 + u) - 1) * (d * d)) with ((u * Rabs d) * ((1 + u) * Rabs d + Rabs d)) by (rewrite <- (Sq d); ring).
    apply Rmult_le_compat; auto using Rabs_pos. eapply Rle_trans; [apply Rabs_triang|]. lra. }
  assert (D0 : 0 <= d * d) by apply Rle_0_sqr. unfold growth in *. cbn [pow] in *. rewrite !Rmult_1_r in *. fold u in H2 |- *.
  assert (Q : Rabs (rnd d * rnd d) <= (1 + u) * (1 + u) * (d * d)). { replace (rnd d * rnd d) with (d * d + (rnd d * rnd d - d * d)) by ring. eapply Rle_trans; [apply Rabs_triang|]. rewrite (Rabs_pos_eq (d * d)) by auto. lra. }
  assert (QO : Rabs (rnd d * rnd d) <= Om) by lra. split; [apply (rnd_float prec emin emax HF rnd Hrnd); auto|]. split; [exact QO|].
  pose proof (rnd_error prec emin emax HF rnd Hrnd _ QO) as RE. fold u eta in RE.
  replace (rnd (rnd d * rnd d) - d * d) with ((rnd (rnd d * rnd d) - rnd d * rnd d) + (rnd d * rnd d - d * d)) by ring. eapply Rle_trans; [apply Rabs_triang|].
  assert (u * Rabs (rnd d * rnd d) <= u * ((1 + u) * (1 + u) * (d * d))) by (apply Rmult_le_compat_l; lra). lra.
Qed.

Lemma sq_rounded_nonneg : forall d, Rabs (d * d) <= Om -> 0 <= rnd (d * d).
Proof using All. intros d H. apply (rnd_nonneg prec emin emax HF rnd Hrnd); auto. apply Rle_0_sqr. Qed.

(** The mean of squared differences. *)
Definition sq_sum (l : list (R * R)) : R := total (map (fun q => (fst q - snd q) * (fst q - snd q)) l).

Lemma sq_sum_nonneg : forall l, 0 <= sq_sum l.
Proof using. intros l. apply total_nonneg. intros v Hv. apply in_map_iff in Hv. destruct Hv as (q & <- & _). apply Rle_0_sqr. Qed.

Lemma sq_in : forall l q, In q l -> (fst q - snd q) * (fst q - snd q) <= sq_sum l.
Proof using.
  unfold sq_sum. induction l as [|p l IH]; intros q Hq; [destruct Hq|]. cbn [map total]. pose proof (sq_sum_nonneg l) as N. unfold sq_sum in N. pose proof (Rle_0_sqr (fst p - snd p)) as P. unfold Rsqr in P. destruct Hq as [-> |Hq]; [lra|]. specialize (IH q Hq). lra.
Qed.

Lemma mse_error : forall l, l <> [] -> (forall q, In q l -> is_float prec emin (fst q) /\ is_float prec emin (snd q)) -> INR (length l) <= Om ->
  growth prec (length l + 4) * (sq_sum l + INR (length l) * eta) <= Om ->
  is_float prec emin (mse_of rnd l) /\ 0 <= mse_of rnd l <= Om /\
  Rabs (mse_of rnd l - sq_sum l / INR (length l)) <= (growth prec (length l + 5) - 1) * (sq_sum l / INR (length l)) + (growth prec (length l + 2) + 1) * eta.
Proof using All.
  intros l Hl Hf Hn Ho. pose proof U as U. pose proof E0 as E0. set (n := length l) in *. assert (Ln : (0 < n)%nat) by (unfold n; destruct l; [congruence|cbn; lia]).
  assert (D0 := sq_sum_nonneg l). assert (N1 : 1 <= INR n) by (apply (le_INR 1); lia). set (D := sq_sum l) in *. assert (NE : 0 <= INR n * eta) by (apply Rmult_le_pos; lra).
  pose proof (growth_1 prec emin emax HF n) as G. pose proof (growth_1 prec emin emax HF 3) as G3.
  assert (Gm : forall k, (k <= n + 4)%nat -> growth prec k * (D + INR n * eta) <= Om). { intros k Hk. eapply Rle_trans; [|exact Ho]. apply Rmult_le_compat_r; [lra|]. apply (growth_mono prec emin emax HF); auto. }
  assert (O1 : 1 <= Om) by (change 1 with (bpow radix2 0); apply bpow_le; pose proof (prec_range prec emin emax HF); lia).
  assert (T3 : forall q, In q l -> is_float prec emin (rnd (rnd (fst q - snd q) * rnd (fst q - snd q))) /\ Rabs (rnd (fst q - snd q) * rnd (fst q - snd q)) <= Om /\
    Rabs (rnd (rnd (fst q - snd q) * rnd (fst q - snd q)) - (fst q - snd q) * (fst q - snd q)) <= (growth prec 3 - 1) * Rabs ((fst q - snd q) * (fst q - snd q)) + eta).
  { intros q Hq. pose proof (sq_in l q Hq) as S. fold D in S. rewrite (Rabs_pos_eq ((fst q - snd q) * (fst q - snd q))) by apply Rle_0_sqr. apply square_error; try apply Hf; auto.
    - set (d := fst q - snd q) in *. pose proof (Gm 0%nat ltac:(lia)) as G0. unfold growth in G0. cbn [pow] in G0. assert (d * d <= Om) by lra. destruct (Rle_dec (Rabs d) 1); [lra|].
      assert (Rabs d * Rabs d = d * d) by (rewrite <- Rabs_mult; apply Rabs_pos_eq, Rle_0_sqr). nra.
    - eapply Rle_trans; [|apply (Gm 2%nat); lia]. apply Rmult_le_compat_l; [|lra]. left. apply (growth_pos prec emin emax HF). }
  assert (Tm : forall q, In q l -> is_float prec emin (rnd (rnd (fst q - snd q) * rnd (fst q - snd q))) /\
    Rabs (rnd (rnd (fst q - snd q) * rnd (fst q - snd q)) - (fst q - snd q) * (fst q - snd q)) <= (growth prec 3 - 1) * Rabs ((fst q - snd q) * (fst q - snd q)) + eta) by (intros q Hq; destruct (T3 q Hq) as (A & _ & B); auto).
  assert (Tm2 : forall q, In q l -> Rabs (rnd (fst q - snd q) * rnd (fst q - snd q)) <= Om) by (intros q Hq; apply (T3 q Hq)).
  assert (Ab : total (map (fun q => Rabs ((fst q - snd q) * (fst q - snd q))) l) = D).
  { apply total_ext. intros q _. apply Rabs_pos_eq, Rle_0_sqr. }
  assert (ON : growth prec n * (growth prec 3 * D + INR n * eta) <= Om).
  { apply Rle_trans with (growth prec n * (growth prec 3 * (D + INR n * eta))).
    - apply Rmult_le_compat_l; [lra|]. rewrite Rmult_plus_distr_l. apply Rplus_le_compat_l. nra.
    - rewrite <- Rmult_assoc, <- growth_plus. apply Gm. lia. }
  destruct (rsum_error prec emin emax HF rnd Hrnd (R * R) (fun q => rnd (rnd (fst q - snd q) * rnd (fst q - snd q))) (fun q => (fst q - snd q) * (fst q - snd q)) (growth prec 3 - 1) eta l ltac:(lra) ltac:(lra) Tm) as [Fs Es].
  { rewrite Ab. fold n Om. replace (1 + (growth prec 3 - 1)) with (growth prec 3) by ring. exact ON. }
  rewrite Ab in Es. fold n in Es. change (total (map (fun q => (fst q - snd q) * (fst q - snd q)) l)) with D in Es. replace (1 + (growth prec 3 - 1)) with (growth prec 3) in Es by ring.
  unfold mse_of. fold n.
  destruct (quotient_error (rsum rnd (R * R) (fun q => rnd (rnd (fst q - snd q) * rnd (fst q - snd q))) l) D D (growth prec (n + 3)) (INR n * growth prec n * eta) n) as (F & FO & E); auto.
  - apply (growth_1 prec emin emax HF).
  - apply Rmult_le_pos; [apply Rmult_le_pos|]; lra.
  - rewrite Rabs_pos_eq by auto. lra.
  - rewrite growth_plus. exact Es.
  - apply Rle_trans with Om; [|nra]. replace (n + 4)%nat with (S (n + 3)) in Ho by lia. rewrite growth_S in Ho. fold u in Ho. eapply Rle_trans; [|exact Ho].
    replace (growth prec (n + 3) * (1 + u) * (D + INR n * eta)) with ((growth prec (n + 3) * D + INR n * growth prec (n + 3) * eta) * (1 + u)) by ring. apply Rmult_le_compat_r; [lra|]. apply Rplus_le_compat_l.
    apply Rmult_le_compat_r; [lra|]. apply Rmult_le_compat_l; [lra|]. apply (growth_mono prec emin emax HF). lia.
  - split; auto. split.
    { split; [|eapply Rle_trans; [apply Rle_abs|apply rnd_range; exact FO]]. destruct (rsum_up_to prec emin emax HF rnd Hrnd (R * R) (fun q => rnd (rnd (fst q - snd q) * rnd (fst q - snd q))) (fun q => rnd (rnd (fst q - snd q) * rnd (fst q - snd q))) 0 l) as [_ UT].
      - intros q Hq. split; [apply (Tm q Hq)|]. split; [apply sq_rounded_nonneg; apply (Tm2 q Hq)|apply up_to_refl].
      - rewrite Nat.add_0_r. fold n. apply Rle_trans with (Om); [|unfold Om; lra]. rewrite Rmult_comm. apply Rle_trans with (growth prec n * (growth prec 3 * D + INR n * eta)); [|exact ON]. apply Rmult_le_compat_l; [lra|]. rewrite <- Ab. unfold n.
        clear - Tm G3 E0. induction l as [|q l IH]; [cbn; lra|]. cbn [map total length]. rewrite S_INR. assert (IH' := IH (fun q Hq => Tm q (or_intror Hq))). destruct (Tm q (or_introl eq_refl)) as [_ B]. pose proof (Rle_abs (rnd (rnd (fst q - snd q) * rnd (fst q - snd q)) - (fst q - snd q) * (fst q - snd q))). pose proof (Rle_abs ((fst q - snd q) * (fst q - snd q))). lra.
      - rewrite Nat.add_0_r in UT. fold n in UT. pose proof (up_to_nonneg prec emin emax HF _ _ _ UT) as P. pose proof (up_to_nonneg prec emin emax HF _ _ _ (count_up_to n Ln Hn) ltac:(lra)) as NP.
        apply (rnd_nonneg prec emin emax HF rnd Hrnd); [exact FO|]. apply Rmult_le_pos; [apply P|].
        + apply total_nonneg. intros v Hv. apply in_map_iff in Hv. destruct Hv as (q & <- & Hq). apply sq_rounded_nonneg. apply (Tm2 q Hq).
        + pose proof (up_to_pos prec emin emax HF _ _ _ (count_up_to n Ln Hn) ltac:(lra)). left. apply Rinv_0_lt_compat. auto. }
    eapply Rle_trans; [exact E|]. replace (n + 5)%nat with (S (S (n + 3))) by lia. replace (n + 2)%nat with (S (S n)) by lia. rewrite !(growth_S prec (S _)), !(growth_S prec n), !(growth_S prec (n + 3)). fold u. right. field. lra.
Qed.

(** Square roots of estimates. *)
Lemma sqrt_perturbed : forall a b p s, 0 <= a -> 0 <= b -> 0 <= p -> 0 <= s -> Rabs (a - b) <= p * b + s -> Rabs (sqrt a - sqrt b) <= p * sqrt b + sqrt s.
Proof using.
  intros a b p s Ha Hb Hp Hs H. assert (B : - (p * b + s) <= a - b <= p * b + s) by (unfold Rabs in H; destruct (Rcase_abs (a - b)); lra).
  pose proof (sqrt_pos a) as SA. pose proof (sqrt_pos b) as SB. pose proof (sqrt_pos s) as SS. pose proof (sqrt_sqrt a Ha) as QA. pose proof (sqrt_sqrt b Hb) as QB. pose proof (sqrt_sqrt s Hs) as QS.
  assert (PB : 0 <= p * sqrt b) by (apply Rmult_le_pos; auto). assert (PS : 0 <= sqrt b * sqrt s) by (apply Rmult_le_pos; auto).
  apply Rabs_le. split.
  - assert (sqrt b * (1 - p) <= sqrt a + sqrt s); [|lra]. destruct (Rle_dec 1 p); [nra|]. apply Rsqr_incr_0_var; [|lra]. unfold Rsqr.
    assert (PA : 0 <= sqrt a * sqrt s) by (apply Rmult_le_pos; auto). replace (sqrt b * (1 - p) * (sqrt b * (1 - p))) with ((sqrt b * sqrt b) * ((1 - p) * (1 - p))) by ring. rewrite QB.
    assert (b * ((1 - p) * (1 - p)) <= b * (1 - p)) by (apply Rmult_le_compat_l; auto; nra). nra.
  - assert (sqrt a <= sqrt b * (1 + p) + sqrt s); [|lra]. apply Rsqr_incr_0_var; [|nra]. unfold Rsqr. rewrite QA.
    replace ((sqrt b * (1 + p) + sqrt s) * (sqrt b * (1 + p) + sqrt s)) with ((sqrt b * sqrt b) * ((1 + p) * (1 + p)) + 2 * (1 + p) * (sqrt b * sqrt s) + sqrt s * sqrt s) by ring. rewrite QB, QS.
    assert (b * (1 + p) <= b * ((1 + p) * (1 + p))) by (apply Rmult_le_compat_l; auto; nra). assert (0 <= 2 * (1 + p) * (sqrt b * sqrt s)) by (apply Rmult_le_pos; lra). lra.
Qed.

Lemma rsqrt_error : forall a b c s, 0 <= a -> 0 <= b -> 1 <= c -> 0 <= s -> Rabs (a - b) <= (c - 1) * b + s -> sqrt a <= Om ->
  Rabs (rnd (sqrt a) - sqrt b) <= (c * (1 + u) - 1) * sqrt b + (1 + u) * sqrt s + eta.
Proof using All.
  intros a b c s Ha Hb Hc Hs H Ho. pose proof U as U. pose proof E0 as E0. assert (P := sqrt_perturbed a b (c - 1) s Ha Hb ltac:(lra) Hs H). pose proof (sqrt_pos a). pose proof (sqrt_pos b).
  pose proof (rnd_error prec emin emax HF rnd Hrnd (sqrt a) ltac:(rewrite Rabs_pos_eq; [exact Ho|auto])) as RE. fold u eta in RE. rewrite (Rabs_pos_eq (sqrt a)) in RE by auto.
  assert (A : sqrt a <= c * sqrt b + sqrt s). { replace (sqrt a) with (sqrt b + (sqrt a - sqrt b)) by ring. pose proof (Rle_abs (sqrt a - sqrt b)). lra. }
  replace (rnd (sqrt a) - sqrt b) with ((rnd (sqrt a) - sqrt a) + (sqrt a - sqrt b)) by ring. eapply Rle_trans; [apply Rabs_triang|].
  assert (u * sqrt a <= u * (c * sqrt b + sqrt s)) by (apply Rmult_le_compat_l; lra). lra.
Qed.
End Format.
