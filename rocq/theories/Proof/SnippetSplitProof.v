(** The split-complex plan of the snippets computes the DFT. *)
From Coq Require Import List Arith Bool Reals Lra Lia.
From Verif Require Import Base.Outcome Base.OutcomeFacts Base.Alias Base.Sums Base.Cplx Spec.Dft Spec.DigitRev.
From Verif Require Import Model.Fft2 Model.FftRadix Model.Stockham Model.Snippets Model.SnippetSplit.
From Verif Require Import Proof.DftTheory Proof.Fft2Proof Proof.BitrevProof Proof.FftCorollaries Proof.SplitFftProof Proof.ExpRfftProof Proof.SnippetsProof.
Import ListNotations.
Open Scope outcome_scope.
Local Arguments Nat.div : simpl never.
Local Arguments Nat.modulo : simpl never.
Local Arguments Nat.pow : simpl never.

Lemma ss_butterfly_some : forall w i1 i2 x,
  ss_butterfly (Some w) i1 i2 x = split_bfly (fst w) (snd w) i1 i2 x.
Proof. intros [a b] i1 i2 [re im]. reflexivity. Qed.

Lemma ss_butterfly_none : forall i1 i2 x,
  ss_butterfly None i1 i2 x = split_bfly 1 0 i1 i2 x.
Proof.
  intros i1 i2 [re im]. unfold ss_butterfly, split_bfly.
  destruct (rd re i1); auto. cbn [bind]. destruct (rd im i1); auto. cbn [bind].
  destruct (rd re i2); auto. cbn [bind]. destruct (rd im i2); auto. cbn [bind]. cbv zeta.
  unfold Cadd, Csub. cbn [fst snd].
  replace (1 * a1 - 0 * a2)%R with a1 by ring. replace (1 * a2 + 0 * a1)%R with a2 by ring. auto.
Qed.

Lemma ss_stage0_hom : forall p (x : list C), length x = 2 ^ p ->
  ss_stage0 p (unzip x) = omap unzip (dit2_stage0 x).
Proof.
  intros p x Hx. rewrite dit2_stage0_bfly, Hx. unfold ss_stage0.
  rewrite Nat.shiftl_mul_pow2, Nat.mul_1_l. apply for_step_hom; [lia|].
  intros k s. rewrite ss_butterfly_none. apply (split_bfly_hom C1). lia.
Qed.

Lemma ss_stage_hom : forall p stage (tw x : list C), length x = 2 ^ p ->
  ss_stage p stage (map fst tw) (map snd tw) (unzip x) =
  omap unzip (dit2_stage tw (2 ^ stage) (2 ^ (stage + 1)) (2 ^ (p - stage - 1)) x).
Proof.
  intros p stage tw x Hx. unfold ss_stage, dit2_stage. cbv zeta.
  pose proof (Nat.pow_nonzero 2 stage ltac:(lia)). pose proof (Nat.pow_nonzero 2 (stage + 1) ltac:(lia)).
  rewrite Nat.shiftl_mul_pow2, Nat.mul_1_l, Hx. apply for_step_hom; [lia|].
  intros k s. unfold for_range. apply loop_hom. intros pair y.
  unfold C in *. destruct (lt_dec (pair * 2 ^ (p - stage - 1)) (length tw)) as [Hl|Hl].
  - rewrite (rd_ok _ tw _ C0) by auto. cbn [bind]. rewrite <- split_bfly_hom by lia.
    rewrite (rd_ok _ (map fst tw) _ (fst C0)), (rd_ok _ (map snd tw) _ (snd C0)) by (rewrite map_length; auto).
    rewrite !map_nth. cbn [bind]. apply (ss_butterfly_some (_, _)).
  - rewrite (rd_ub _ tw) by lia. rewrite (rd_ub _ (map fst tw)) by (rewrite map_length; lia). reflexivity.
Qed.

Lemma dit2_stage0_length : forall (x y : list C), dit2_stage0 x = Ok y -> length y = length x.
Proof.
  intros x y E. rewrite dit2_stage0_bfly in E. unfold for_step in E. simpl Nat.eqb in E. cbn iota in E.
  refine (loop_keeps _ (fun l => length l = length x) _ _ _ _ _ _ _ eq_refl E).
  intros j t t' Ht Hb. apply dit2_butterfly_length in Hb. exact (eq_trans Hb Ht).
Qed.

Lemma dit2_stage_length : forall tw L st ts (x y : list C), 0 < st ->
  dit2_stage tw L st ts x = Ok y -> length y = length x.
Proof.
  intros tw L st ts x y Hst E. unfold dit2_stage, for_step in E. destruct (Nat.eqb_spec st 0); [lia|].
  refine (loop_keeps _ (fun l => length l = length x) _ _ _ _ _ _ _ eq_refl E).
  intros j t t' Ht Hb. refine (for_range_keeps _ (fun l => length l = length x) _ _ _ _ _ _ Ht Hb).
  intros j' u u' Hu Hb'. apply bind_ok in Hb'. destruct Hb' as [v [_ Hb']].
  apply dit2_butterfly_length in Hb'. exact (eq_trans Hb' Hu).
Qed.

Lemma ss_stages_hom : forall p todo stage (x tw : list C), length x = 2 ^ p ->
  ss_stages p stage todo (unzip x) (map fst tw) (map snd tw) =
  omap unzip (static_dit2_stage p stage todo x tw).
Proof.
  intros p. induction todo; intros stage x tw Hx; cbn [ss_stages static_dit2_stage].
  - destruct (stage =? 0); reflexivity.
  - destruct (stage =? 0).
    + rewrite ss_stage0_hom by auto. destruct (dit2_stage0 x) eqn:E; auto. unfold omap at 1. cbn [bind].
      apply IHtodo. rewrite (dit2_stage0_length _ _ E). auto.
    + rewrite ss_stage_hom by auto.
      destruct (dit2_stage tw (2 ^ stage) (2 ^ (stage + 1)) (2 ^ (p - stage - 1)) x) eqn:E; auto.
      unfold omap at 1. cbn [bind]. apply IHtodo.
      apply dit2_stage_length in E. congruence. apply Nat.neq_0_lt_0, Nat.pow_nonzero. lia.
Qed.

Lemma make_ss_plan_ok : forall p, 0 < p -> make_ss_plan p = Ok
  {| ss_order := p; ss_wfre := map fst (half_lut Forward p); ss_wfim := map snd (half_lut Forward p);
     ss_wbre := map fst (half_lut Backward p); ss_wbim := map snd (half_lut Backward p);
     ss_rev := tab (2 ^ p) (digit_rev 2 p) |}.
Proof.
  intros p Hp. unfold make_ss_plan. cbv zeta. rewrite Nat.shiftl_mul_pow2, Nat.mul_1_l.
  rewrite bitrev_make_ok. cbn [bind]. rewrite make_twiddle_half by auto. cbn [bind].
  set (tw := half_lut Forward p). set (n := length tw).
  match goal with |- for_range 0 n ?B ?S = _ =>
    destruct (for_range_inv _ (fun j q => ss_order q = p /\ ss_rev q = tab (2 ^ p) (digit_rev 2 p) /\
       length (ss_wfre q) = n /\ length (ss_wfim q) = n /\ length (ss_wbre q) = n /\ length (ss_wbim q) = n /\
       forall i, i < j -> nth i (ss_wfre q) 0%R = fst (nth i tw C0) /\ nth i (ss_wfim q) 0%R = snd (nth i tw C0) /\
         nth i (ss_wbre q) 0%R = fst (nth i tw C0) /\ nth i (ss_wbim q) 0%R = (- snd (nth i tw C0))%R)
      0 n B S) as [q [E [H1 [H2 [H3 [H4 [H5 [H6 V]]]]]]]] end.
  - lia.
  - cbn [ss_order ss_rev ss_wfre ss_wfim ss_wbre ss_wbim]. rewrite !repeat_length. repeat split; auto; lia.
  - intros j q Hj (H1 & H2 & H3 & H4 & H5 & H6 & V).
    rewrite (rd_ok _ tw j C0) by (unfold n in Hj; lia). cbn [bind].
    rewrite !wr_ok by lia. cbn [bind]. eexists. split; [reflexivity|].
    cbn [ss_order ss_rev ss_wfre ss_wfim ss_wbre ss_wbim]. rewrite !upd_length. do 6 (split; auto).
    intros i Hi. destruct (Nat.eq_dec i j) as [->|Ne].
    + rewrite !nth_upd_eq by lia. auto.
    + rewrite !nth_upd_neq by auto. apply V. lia.
  - rewrite E. f_equal. destruct q as [o a b c d r]. cbn [ss_order ss_rev ss_wfre ss_wfim ss_wbre ss_wbim] in *.
    subst o r.
    assert (Ln : n = 2 ^ (p - 1)) by (unfold n, tw, half_lut; apply tab_length).
    assert (Q : forall i, i < 2 ^ (p - 1) -> nth i (half_lut Backward p) C0 = Cconj (nth i tw C0)).
    { intros i Hi. unfold tw, half_lut. rewrite !nth_tab by auto. rewrite W_conj. auto. }
    assert (LB : length (half_lut Backward p) = n) by (unfold half_lut; rewrite tab_length; auto).
    f_equal; apply (list_eq_nth _ 0%R); try (etransitivity; [eassumption|symmetry; etransitivity; [apply map_length|first [exact LB|reflexivity]]]); intros i Hi;
      destruct (V i ltac:(lia)) as (V1 & V2 & V3 & V4).
    + rewrite V1. change 0%R with (fst C0). rewrite map_nth. auto.
    + rewrite V2. change 0%R with (snd C0). rewrite map_nth. auto.
    + rewrite V3. change 0%R with (fst C0). rewrite map_nth, Q by lia. auto.
    + rewrite V4. change 0%R with (snd C0). rewrite map_nth, Q by lia. auto.
Qed.

Lemma ss_bitrev_hom : forall p (x : list C), length x = 2 ^ p ->
  ss_bitrevorder (unzip x) (tab (2 ^ p) (digit_rev 2 p)) =
  Ok (unzip (tab (2 ^ p) (fun i => nth (digit_rev 2 p i) x C0))).
Proof.
  intros p x Hx.
  transitivity (bitrev_apply_split (tab (2 ^ p) (digit_rev 2 p)) (unzip x)).
  { unfold ss_bitrevorder, bitrev_apply_split. rewrite tab_length. unfold unzip at 1. cbn [fst].
    rewrite map_length. unfold C in *. rewrite Hx. reflexivity. }
  rewrite bitrev_apply_split_hom. pose proof (bitrev_apply_rev C C0 p x Hx) as E. unfold C in *. rewrite E. reflexivity.
Qed.

Lemma run_ss_plan_unzip : forall p d (x : list C) pl, 0 < p -> length x = 2 ^ p -> make_ss_plan p = Ok pl ->
  run_ss_plan pl (unzip x) d = Ok (unzip (DFT_list d x)).
Proof.
  intros p d x pl Hp Hx E. rewrite make_ss_plan_ok in E by auto. inversion E; subst pl. clear E.
  unfold run_ss_plan. cbn [ss_order ss_rev ss_wfre ss_wfim ss_wbre ss_wbim].
  rewrite ss_bitrev_hom by auto. cbn [bind].
  assert (K : forall d', ss_stages p 0 p (unzip (tab (2 ^ p) (fun i => nth (digit_rev 2 p i) x C0)))
     (map fst (half_lut d' p)) (map snd (half_lut d' p)) = Ok (unzip (DFT_list d' x))).
  { intros d'. rewrite ss_stages_hom by apply tab_length. rewrite static_stage_v3 by (auto; apply tab_length).
    rewrite (v3_ok p Hp d' (fun j => nth j x C0)). 
    - unfold DFT_list. rewrite Hx. reflexivity.
    - apply tab_length.
    - intros i Hi. rewrite nth_tab; auto. }
  destruct d; apply K.
Qed.

Lemma scale_inv : forall p (x : list C), length x = 2 ^ p ->
  map (fun c : C => (fst c * (1 / INR (2 ^ p)), snd c * (1 / INR (2 ^ p)))%R)
    (DFT_list Backward (DFT_list Forward x)) = x.
Proof.
  intros p x Hx. change Backward with (flip Forward). rewrite DFT_list_inv, Hx, map_map.
  assert (N : INR (2 ^ p) <> 0%R) by (apply not_0_INR, Nat.pow_nonzero; lia).
  rewrite <- (map_id x) at 2. apply map_ext. intros [a b]. unfold Cmul, RtoC. cbn [fst snd].
  apply injective_projections; cbn [fst snd]; field; auto.
Qed.

Lemma interleave_benchmark_same : forall p (x : list C), 0 < p -> length x = 2 ^ p ->
  interleave_benchmark_call p x = Ok x.
Proof.
  intros p x Hp Hx. unfold interleave_benchmark_call. rewrite static_fft_ok by auto. cbn [bind].
  rewrite static_fft_ok by (rewrite ?DFT_list_length; auto). cbn [bind]. cbv zeta.
  rewrite Nat.shiftl_mul_pow2, Nat.mul_1_l. rewrite scale_inv; auto.
Qed.

Lemma split_benchmark_same : forall p pl (re im : list R), 0 < p -> length re = 2 ^ p -> length im = 2 ^ p ->
  make_ss_plan p = Ok pl -> split_benchmark_call pl (re, im) = Ok (re, im).
Proof.
  intros p pl re im Hp Hr Hi E. unfold split_benchmark_call.
  assert (O : ss_order pl = p). { rewrite make_ss_plan_ok in E by auto. inversion E. auto. }
  assert (L : length (combine re im) = 2 ^ p) by (etransitivity; [apply combine_length|]; lia).
  pose proof (combine_unzip re im ltac:(lia)) as U. rewrite U.
  rewrite (run_ss_plan_unzip p Forward) by auto. cbn [bind].
  rewrite (run_ss_plan_unzip p Backward) by (rewrite ?DFT_list_length; auto). cbn [bind]. cbv zeta.
  rewrite O, Nat.shiftl_mul_pow2, Nat.mul_1_l.
  pose proof (scale_inv p (combine re im) L) as S.
  f_equal. rewrite <- S at 3. unfold unzip. cbn [fst snd]. rewrite !map_map. reflexivity.
Qed.

Lemma timeit_same : forall S (f : S -> outcome S) n s, f s = Ok s -> timeit_state f n s = Ok s.
Proof.
  intros S f n s H. unfold timeit_state. do 3 (rewrite H; cbn [bind]).
  assert (G : forall m lo, loop m lo 1 (fun _ t => f t) s = Ok s).
  { induction m; intros lo; cbn [loop]; auto. rewrite H. cbn [bind]. apply IHm. }
  apply G.
Qed.

(** A loop with an iteration that is undefined in every state it can be reached in. *)
Lemma loop_hits_ub : forall St (P : St -> Prop) n lo step (b : nat -> St -> outcome St) s j0,
  (forall j t, j < n -> P t -> b (lo + j * step) t = UB \/ exists t', b (lo + j * step) t = Ok t' /\ P t') ->
  j0 < n -> (forall t, P t -> b (lo + j0 * step) t = UB) -> P s -> loop n lo step b s = UB.
Proof.
  intros St P n. induction n; intros lo step b s j0 Hb Hj Hu Hs. { lia. }
  cbn [loop]. destruct (Nat.eq_dec j0 0) as [->|Hne].
  { rewrite Nat.mul_0_l, Nat.add_0_r in Hu. rewrite Hu; auto. }
  destruct (Hb 0 s ltac:(lia) Hs) as [E|[t' [E Ht]]]; rewrite Nat.mul_0_l, Nat.add_0_r in E; rewrite E; auto.
  cbn [bind]. apply IHn with (j0 := j0 - 1); auto; try lia.
  - intros j t Hj' Ht'. replace (lo + step + j * step) with (lo + S j * step) by lia. apply Hb; auto. lia.
  - intros t Ht'. replace (lo + step + (j0 - 1) * step) with (lo + j0 * step).
    2:{ destruct j0; [lia|]. replace (S j0 - 1) with j0 by lia. lia. }
    auto.
Qed.

Definition same_lengths {T} (nr ni : nat) (x : list T * list T) := length (fst x) = nr /\ length (snd x) = ni.

Lemma swap_ub_or : forall T (l : list T) i j, swap l i j = UB \/ exists l', swap l i j = Ok l' /\ length l' = length l.
Proof.
  intros T l i j. destruct (le_lt_dec (length l) i) as [Hi|Hi].
  { left. unfold swap. rewrite rd_ub by lia. auto. }
  destruct (le_lt_dec (length l) j) as [Hj|Hj].
  - left. unfold swap. destruct l as [|d l]; [simpl in Hi; lia|].
    rewrite (rd_ok _ _ i d) by auto. cbn [bind]. rewrite rd_ub by auto. auto.
  - right. destruct (swap_ok T l i j Hi Hj) as [y [E [L _]]]. eauto.
Qed.

Lemma ss_bitrev_lengths : forall nr ni (x : list R * list R) index, same_lengths nr ni x ->
  ss_bitrevorder x index = UB \/ exists y, ss_bitrevorder x index = Ok y /\ same_lengths nr ni y.
Proof.
  intros nr ni x index H. unfold ss_bitrevorder, for_range. generalize (length (fst x) - 0) as n. intros n.
  match goal with |- loop n 0 1 ?B x = _ \/ _ => set (b := B) end.
  assert (G : forall m lo x, same_lengths nr ni x -> loop m lo 1 b x = UB \/ exists y, loop m lo 1 b x = Ok y /\ same_lengths nr ni y).
  { induction m; intros lo y Hy; cbn [loop]. { right. eauto. }
    assert (B : b lo y = UB \/ exists y', b lo y = Ok y' /\ same_lengths nr ni y').
    { unfold b. destruct (le_lt_dec (length index) lo). { rewrite rd_ub by auto. auto. }
      rewrite (rd_ok _ index lo 0) by auto. cbn [bind]. destruct (lo <? nth lo index 0). 2:{ right. eauto. }
      destruct (swap_ub_or _ (fst y) lo (nth lo index 0)) as [E|[a [E La]]]; rewrite E; auto. cbn [bind].
      destruct (swap_ub_or _ (snd y) lo (nth lo index 0)) as [E'|[c [E' Lc]]]; rewrite E'; auto. cbn [bind].
      right. eexists. split; [reflexivity|]. destruct Hy. split; cbn [fst snd]; lia. }
    destruct B as [E|[y' [E Hy']]]; rewrite E; auto. cbn [bind]. auto. }
  apply G. auto.
Qed.

Lemma ss_butterfly_lengths : forall nr ni w i1 i2 x, same_lengths nr ni x ->
  (ss_butterfly w i1 i2 x = UB \/ exists y, ss_butterfly w i1 i2 x = Ok y /\ same_lengths nr ni y) /\
  (nr <= i2 \/ ni <= i2 -> ss_butterfly w i1 i2 x = UB).
Proof.
  intros nr ni w i1 i2 [re im] [H1 H2]. cbn [fst snd] in *. unfold ss_butterfly.
  destruct (le_lt_dec (length re) i1). { rewrite (rd_ub _ re i1) by auto. auto. }
  rewrite (rd_ok _ re i1 0%R) by auto. cbn [bind].
  destruct (le_lt_dec (length im) i1). { rewrite (rd_ub _ im i1) by auto. auto. }
  rewrite (rd_ok _ im i1 0%R) by auto. cbn [bind].
  destruct (le_lt_dec (length re) i2). { rewrite (rd_ub _ re i2) by auto. auto. }
  rewrite (rd_ok _ re i2 0%R) by auto. cbn [bind].
  destruct (le_lt_dec (length im) i2). { rewrite (rd_ub _ im i2) by auto. auto. }
  rewrite (rd_ok _ im i2 0%R) by auto. cbn [bind]. cbv zeta.
  split; [|lia].
  do 4 (rewrite wr_ok by (rewrite ?upd_length; auto); cbn [bind]).
  right. eexists. split; [reflexivity|]. split; cbn [fst snd]; rewrite !upd_length; auto.
Qed.

Lemma ss_stage0_short : forall p (x : list R * list R), 0 < p ->
  length (fst x) < 2 ^ p \/ length (snd x) < 2 ^ p -> ss_stage0 p x = UB.
Proof.
  intros p x Hp H. unfold ss_stage0, for_step. simpl Nat.eqb. cbn iota.
  rewrite Nat.shiftl_mul_pow2, Nat.mul_1_l, Nat.sub_0_r.
  destruct p as [|p]; [lia|]. rewrite Nat.pow_succ_r' in *.
  assert (Q : (2 * 2 ^ p + (2 - 1)) / 2 = 2 ^ p) by (symmetry; apply Nat.div_unique with 1; lia).
  pose proof (Nat.pow_nonzero 2 p ltac:(lia)). rewrite Q.
  set (nr := length (fst x)) in *. set (ni := length (snd x)) in *.
  apply (loop_hits_ub _ (same_lengths nr ni)) with (j0 := 2 ^ p - 1); try lia.
  - intros j t Hj Ht. apply ss_butterfly_lengths. auto.
  - intros t Ht. apply (ss_butterfly_lengths nr ni); auto. lia.
  - split; auto.
Qed.

Lemma ss_bitrev_long : forall (x : list R * list R) index, length index < length (fst x) ->
  ss_bitrevorder x index = UB.
Proof.
  intros x index H. unfold ss_bitrevorder, for_range.
  set (nr := length (fst x)) in *. set (ni := length (snd x)) in *.
  apply (loop_hits_ub _ (same_lengths nr ni)) with (j0 := length index); try lia.
  - intros j y Hj Hy. destruct (le_lt_dec (length index) (0 + j * 1)). { rewrite rd_ub by auto. auto. }
    rewrite (rd_ok _ index _ 0) by auto. cbn [bind]. destruct (_ <? _). 2:{ right. eauto. }
    destruct (swap_ub_or _ (fst y) (0 + j * 1) (nth (0 + j * 1) index 0)) as [E|[a [E La]]]; rewrite E; auto. cbn [bind].
    destruct (swap_ub_or _ (snd y) (0 + j * 1) (nth (0 + j * 1) index 0)) as [E'|[c [E' Lc]]]; rewrite E'; auto. cbn [bind].
    right. eexists. split; [reflexivity|]. destruct Hy. split; cbn [fst snd]; lia.
  - intros t Ht. rewrite rd_ub by lia. auto.
  - split; auto.
Qed.

Lemma run_ss_plan_wrong : forall p d pl (re im : list R), 0 < p -> make_ss_plan p = Ok pl ->
  length re <> 2 ^ p \/ length im < 2 ^ p -> run_ss_plan pl (re, im) d = UB.
Proof.
  intros p d pl re im Hp E H. rewrite make_ss_plan_ok in E by auto. inversion E; subst pl. clear E.
  unfold run_ss_plan. cbn [ss_order ss_rev ss_wfre ss_wfim ss_wbre ss_wbim].
  destruct (le_lt_dec (length re) (2 ^ p)) as [Hl|Hl].
  2:{ rewrite ss_bitrev_long; auto. rewrite tab_length. auto. }
  destruct (ss_bitrev_lengths (length re) (length im) (re, im) (tab (2 ^ p) (digit_rev 2 p)) (conj eq_refl eq_refl))
    as [E|[y [E [Y1 Y2]]]]; rewrite E; auto. cbn [bind].
  destruct p as [|p]; [lia|]. cbn [ss_stages Nat.eqb].
  rewrite ss_stage0_short by lia. destruct d; reflexivity.
Qed.
