(** The six uniformly partitioned convolvers. *)
From Coq Require Import Reals List Arith Lia Lra Bool ZArith.
From Verif Require Import Base.Outcome Base.OutcomeFacts Base.Sums Base.Cplx Base.Alias Spec.Dft Spec.Transforms
  Spec.Convolution Spec.Stft Spec.Convolvers Model.Fft2 Model.Integers Model.Algorithm Model.Csr Model.FftApps Model.Convolution Model.Stft
  Proof.DftTheory Proof.Fft2Proof Proof.IntegersProof Proof.AlgorithmProof Proof.RfftProof Proof.ConvTheory
  Proof.FftConvProof Proof.DirectConvProof Proof.OverlapProof Proof.StreamProof Proof.LtiProof Proof.UpcProof Proof.UpcInstances
  Proof.StftProof.
Import ListNotations.
Local Arguments Nat.div : simpl never.
Local Arguments Nat.modulo : simpl never.
Local Arguments Nat.pow : simpl never.

Lemma mac_hist_ext : forall P M F G hist, (forall a k, a < P -> F a k = G a k) -> mac_hist P M F hist = mac_hist P M G hist.
Proof.
  intros P M F G hist H. unfold mac_hist. apply tab_ext. intros k Hk. apply Csum_ext. intros a Ha. rewrite H by auto. reflexivity.
Qed.

Lemma upols_out_ext : forall k P F G all t i, (forall a k, a < P -> F a k = G a k) ->
  upols_out k P F all t i = upols_out k P G all t i.
Proof. intros. unfold upols_out. rewrite (mac_hist_ext _ _ F G); auto. Qed.

Lemma upola_out_ext : forall k P F G all t i, (forall a k, a < P -> F a k = G a k) ->
  upola_out k P F all t i = upola_out k P G all t i.
Proof. intros. unfold upola_out. rewrite !(mac_hist_ext _ _ F G); auto. Qed.

(** [run c0 outs]: the convolver [c0] turns the blocks into [outs]. *)
Definition upc_yields {ov fdl flt} (c : upc ov fdl flt) (all outs : list (list R)) : Prop :=
  exists c', upc_stream c all = Ok (c', outs).

Section Filter.
Variables (k P : nat) (mat : list (list C)) (all : list (list R)).
Hypothesis Hk : 0 < k < max_order.
Hypothesis HP : 0 < P.
Hypothesis Hm : matrix_of P (2 ^ k + 1) mat.
Hypothesis Hall : blocks_of (2 ^ k) all.
Let save F := tab (length all) (fun t => tab (2 ^ k) (upols_out k P F all t)).
Let add F := tab (length all) (fun t => tab (2 ^ k) (upola_out k P F all t)).

Lemma filter_save : forall fdl flt (FI : fdl_impl fdl P (2 ^ k + 1)) f F (AI : flt_impl flt (rv FI) P (2 ^ k + 1) f F)
  (c : upc ols fdl flt) args, flt_filter flt (u_filter c) P (2 ^ k + 1) mat args = Ok f ->
  exists c0, upc_filter c P (2 ^ k + 1) mat args = Ok c0 /\ upc_yields c0 all (save F).
Proof.
  intros fdl flt FI f F AI c args E. destruct (upols_run fdl flt k P Hk HP FI f F AI all Hall) as (o & Eo & c' & Es).
  unfold upc_filter. replace (0 <? 2 ^ k + 1) with true by (symmetry; apply Nat.ltb_lt; lia). cbn [guard bind].
  replace (2 ^ k + 1 - 1) with (2 ^ k) by lia. cbn [ols ov_make]. rewrite Eo. cbn [bind]. rewrite E. cbn [bind].
  eexists. split; [reflexivity|]. exists c'. exact Es.
Qed.

Lemma filter_add : forall fdl flt (FI : fdl_impl fdl P (2 ^ k + 1)) f F (AI : flt_impl flt (rv FI) P (2 ^ k + 1) f F)
  (c : upc ola fdl flt) args, flt_filter flt (u_filter c) P (2 ^ k + 1) mat args = Ok f ->
  exists c0, upc_filter c P (2 ^ k + 1) mat args = Ok c0 /\ upc_yields c0 all (add F).
Proof.
  intros fdl flt FI f F AI c args E. destruct (upola_run fdl flt k P Hk HP FI f F AI all Hall) as (o & Eo & c' & Es).
  unfold upc_filter. replace (0 <? 2 ^ k + 1) with true by (symmetry; apply Nat.ltb_lt; lia). cbn [guard bind].
  replace (2 ^ k + 1 - 1) with (2 ^ k) by lia. cbn [ola ov_make]. rewrite Eo. cbn [bind]. rewrite E. cbn [bind].
  eexists. split; [reflexivity|]. exists c'. exact Es.
Qed.

Lemma dense_save : forall c : upols_convolver, exists c0, upc_filter c P (2 ^ k + 1) mat tt = Ok c0 /\ upc_yields c0 all (save (cell mat)).
Proof. intros c. apply (filter_save dense_fdl dense_filter (dense_fdl_impl P _) mat _ (dense_filter_impl P _ mat Hm)). apply dense_filter_ok. exact Hm. Qed.

Lemma dense_add : forall c : upola_convolver, exists c0, upc_filter c P (2 ^ k + 1) mat tt = Ok c0 /\ upc_yields c0 all (add (cell mat)).
Proof. intros c. apply (filter_add dense_fdl dense_filter (dense_fdl_impl P _) mat _ (dense_filter_impl P _ mat Hm)). apply dense_filter_ok. exact Hm. Qed.

Lemma split_save : forall lanes (c : split_upols_convolver lanes), (forall l, lanes = Some l -> 0 < l) ->
  exists c0, upc_filter c P (2 ^ k + 1) mat tt = Ok c0 /\ upc_yields c0 all (save (cell mat)).
Proof.
  intros lanes c HL. destruct (split_filter_impl lanes P (2 ^ k + 1) mat (u_filter c) Hm HL) as (f & E & [AI]).
  apply (filter_save dense_split_fdl (dense_split_filter lanes) (split_fdl_impl P _) f _ AI). exact E.
Qed.

Lemma split_add : forall lanes (c : split_upola_convolver lanes), (forall l, lanes = Some l -> 0 < l) ->
  exists c0, upc_filter c P (2 ^ k + 1) mat tt = Ok c0 /\ upc_yields c0 all (add (cell mat)).
Proof.
  intros lanes c HL. destruct (split_filter_impl lanes P (2 ^ k + 1) mat (u_filter c) Hm HL) as (f & E & [AI]).
  apply (filter_add dense_split_fdl (dense_split_filter lanes) (split_fdl_impl P _) f _ AI). exact E.
Qed.

Lemma sparse_save : forall (c : sparse_upols_convolver) pred,
  exists c0, upc_filter c P (2 ^ k + 1) mat pred = Ok c0 /\ upc_yields c0 all (save (masked pred mat)).
Proof.
  intros c pred. destruct (sparse_filter_impl P (2 ^ k + 1) mat pred (u_filter c) Hm) as (f & E & [AI]).
  apply (filter_save dense_fdl sparse_filter (dense_fdl_impl P _) f _ AI). exact E.
Qed.

Lemma sparse_add : forall (c : sparse_upola_convolver) pred,
  exists c0, upc_filter c P (2 ^ k + 1) mat pred = Ok c0 /\ upc_yields c0 all (add (masked pred mat)).
Proof.
  intros c pred. destruct (sparse_filter_impl P (2 ^ k + 1) mat pred (u_filter c) Hm) as (f & E & [AI]).
  apply (filter_add dense_fdl sparse_filter (dense_fdl_impl P _) f _ AI). exact E.
Qed.
End Filter.

Lemma drop_bins_matrix : forall pred rows cols mat, matrix_of rows cols (drop_bins pred rows cols mat).
Proof.
  intros. unfold drop_bins. split. { apply tab_length. }
  intros r Hr. destruct (In_nth _ _ [] Hr) as (j & Hj & <-). rewrite tab_length in Hj. rewrite nth_tab by auto. apply tab_length.
Qed.

Lemma drop_bins_cell : forall pred rows cols mat i j, matrix_of rows cols mat -> i < rows ->
  cell (drop_bins pred rows cols mat) i j = masked pred mat i j.
Proof.
  intros pred rows cols mat i j Hm Hi. unfold cell, masked, drop_bins. rewrite nth_tab by auto.
  destruct (Nat.lt_ge_cases j cols).
  - rewrite nth_tab by auto. reflexivity.
  - rewrite nth_tab_ge by auto. unfold cell. rewrite (nth_overflow (nth i mat [])) by (rewrite (matrix_row _ rows cols); auto).
    destruct (pred i j C0); reflexivity.
Qed.

(** ** Partitioned impulse responses *)

Lemma partition_cell : forall B h a j, a < ceil_div (length h) B ->
  cell (partition_spectra B h) a j = part_spec (2 ^ Nat.log2_up B) (stretched B (2 ^ Nat.log2_up B) h) a j.
Proof. intros. unfold cell, partition_spectra, part_spec. rewrite nth_tab by auto. reflexivity. Qed.

Lemma stretched_length : forall B M h, length (stretched B M h) = ceil_div (length h) B * M.
Proof. intros. apply tab_length. Qed.

Section Partitioned.
Variables (B : nat) (h : list R).
Hypothesis HB : 2 <= B.
Hypothesis Hh : 0 < length h.
Let k := Nat.log2_up B.
Let M := 2 ^ k.
Let P := ceil_div (length h) B.
Hypothesis HM : 2 * M <= 2 ^ max_order.

Lemma k_range : 0 < k < max_order.
Proof.
  split; [apply log2_up_pos'; auto|]. unfold M in HM. rewrite <- Nat.pow_succ_r' in HM.
  apply Nat.pow_le_mono_r_iff in HM; lia.
Qed.
Lemma P_pos : 0 < P.
Proof. unfold P. rewrite ceil_div_pos by lia. lia. Qed.

Definition filtered (all : list (list R)) : list (list R) :=
  tab (length all) (fun t => tab M (fun i => lconv (concat all) (stretched B M h) (t * M + i))).

Lemma save_is_lconv : forall all,
  tab (length all) (fun t => tab (2 ^ k) (upols_out k P (cell (partition_spectra B h)) all t)) = filtered all.
Proof.
  intros all. unfold filtered. apply tab_ext. intros t Ht. apply tab_ext. intros i Hi.
  rewrite (upols_out_ext _ _ _ (part_spec M (stretched B M h))) by (intros; apply partition_cell; auto).
  apply upols_out_lconv; auto. { apply k_range. } rewrite stretched_length. reflexivity.
Qed.

Lemma add_is_lconv : forall all,
  tab (length all) (fun t => tab (2 ^ k) (upola_out k P (cell (partition_spectra B h)) all t)) = filtered all.
Proof.
  intros all. unfold filtered. apply tab_ext. intros t Ht. apply tab_ext. intros i Hi.
  rewrite (upola_out_ext _ _ _ (part_spec M (stretched B M h))) by (intros; apply partition_cell; auto).
  apply upola_out_lconv; auto. { apply k_range. } rewrite stretched_length. reflexivity.
Qed.

Lemma filtered_concat : forall all, blocks_of M all ->
  concat (filtered all) = tab (length (concat all)) (lconv (concat all) (stretched B M h)) /\
  length (filtered all) = length all /\ blocks_of M (filtered all).
Proof.
  intros all Hall. assert (HM0 : M <> 0) by (unfold M; apply Nat.pow_nonzero; lia). split; [|split].
  - unfold filtered. rewrite concat_tab_blocks, (concat_blocks_length M) by auto. apply tab_ext. intros i Hi.
    f_equal. rewrite (Nat.div_mod i M) at 3 by auto. lia.
  - apply tab_length.
  - intros b Hb. destruct (In_nth _ _ [] Hb) as (j & Hj & <-). unfold filtered in *. rewrite tab_length in Hj.
    rewrite nth_tab by auto. apply tab_length.
Qed.
End Partitioned.

(** ** Linearity, causality and delay for arbitrary filter matrices *)

Section Windows.
Variables (k P : nat) (F : nat -> nat -> C).
Let B := 2 ^ k.

(** Sum over the partitions for windows [W]. *)
Definition mac_windows (W : nat -> list R) (t j : nat) : R :=
  synth (2 * B) (mac_hist P (B + 1) F (tab (S t) (fun u => RDFT_list Forward (W u)))) j.

Lemma mac_windows_ext : forall W W' t j, (forall u, u <= t -> W u = W' u) -> mac_windows W t j = mac_windows W' t j.
Proof.
  intros W W' t j H. unfold mac_windows. rewrite (tab_ext _ (S t) _ (fun u => RDFT_list Forward (W' u))); auto.
  intros u Hu. rewrite H by lia. reflexivity.
Qed.

Definition wterm (W : nat -> list R) (t a i : nat) : C :=
  if a <=? t then (nth i (RDFT_list Forward (W (t - a)%nat)) C0 * F a i)%C else C0.

Lemma mac_windows_sum : forall W t j,
  mac_windows W t j = (IRDFT B (fun i => Csum P (fun a => wterm W t a i)) j / INR (2 * B))%R.
Proof.
  intros W t j. assert (0 < B) by (unfold B; apply Nat.neq_0_lt_0, Nat.pow_nonzero; lia).
  unfold mac_windows, synth, mac_hist. rewrite half_of_double, tab_length. f_equal.
  apply IRDFT_ext; auto. intros i Hi. rewrite nth_tab by lia. apply Csum_ext. intros a Ha. unfold wterm.
  destruct (Nat.ltb_spec a (S t)), (Nat.leb_spec a t); try lia; auto. rewrite nth_tab by lia. do 4 f_equal. lia.
Qed.

Lemma IRDFT_scale : forall m c X j, IRDFT m (fun i => RtoC c * X i)%C j = (c * IRDFT m X j)%R.
Proof.
  intros m c X j. unfold IRDFT, Cmul, RtoC. cbn [fst snd].
  rewrite (Rsum_ext _ _ (fun i => c * (fst (X (S i)) * cos (2 * PI * INR j * INR (S i) / INR (2 * m)) -
    snd (X (S i)) * sin (2 * PI * INR j * INR (S i) / INR (2 * m))))%R).
  - rewrite Rsum_mul_l. ring.
  - intros. ring.
Qed.

Lemma RDFT_mix : forall a b (w v u : list R) i, length v = length w -> length u = length w ->
  (forall j, j < length w -> nth j w 0%R = (a * nth j v 0 + b * nth j u 0)%R) ->
  nth i (RDFT_list Forward w) C0 = (RtoC a * nth i (RDFT_list Forward v) C0 + RtoC b * nth i (RDFT_list Forward u) C0)%C.
Proof.
  intros a b w v u i Lv Lu H. destruct (Nat.lt_ge_cases i (length w / 2 + 1)).
  - rewrite !nth_RDFT by congruence. rewrite Lv, Lu. rewrite <- !DFT_scale, <- DFT_add. apply DFT_ext.
    intros j Hj. rewrite H by auto. unfold RtoC, Cmul, Cadd. cbn [fst snd]. f_equal; ring.
  - rewrite !nth_overflow by (rewrite RDFT_list_length, ?Lv, ?Lu; auto). ring.
Qed.

Lemma mac_windows_mix : forall a b W V U t j,
  (forall u, u <= t -> length (V u) = length (W u) /\ length (U u) = length (W u) /\
     forall n, n < length (W u) -> nth n (W u) 0%R = (a * nth n (V u) 0 + b * nth n (U u) 0)%R) ->
  mac_windows W t j = (a * mac_windows V t j + b * mac_windows U t j)%R.
Proof.
  intros a b W V U t j H. assert (0 < B) by (unfold B; apply Nat.neq_0_lt_0, Nat.pow_nonzero; lia).
  rewrite !mac_windows_sum.
  rewrite (IRDFT_ext _ _ (fun i => RtoC a * Csum P (fun s => wterm V t s i) + RtoC b * Csum P (fun s => wterm U t s i))%C); auto.
  - rewrite IRDFT_add, !IRDFT_scale. field. apply INR_nz. lia.
  - intros i Hi. rewrite <- !Csum_mul_l, <- Csum_add. apply Csum_ext. intros s Hs. unfold wterm.
    destruct (Nat.leb_spec s t); [|ring]. destruct (H (t - s) ltac:(lia)) as (L1 & L2 & E).
    rewrite (RDFT_mix a b (W (t - s)) (V (t - s)) (U (t - s))) by auto. ring.
Qed.

Lemma RDFT_zero : forall n i, nth i (RDFT_list Forward (repeat 0%R n)) C0 = C0.
Proof.
  intros n i. rewrite (RDFT_mix 0 0 (repeat 0%R n) (repeat 0%R n) (repeat 0%R n)); auto.
  - change (RtoC 0) with C0. ring.
  - intros. rewrite nth_repeat. ring.
Qed.

Lemma mac_windows_silent : forall W t j, (forall u, u <= t -> W u = repeat 0%R (2 * B)) -> mac_windows W t j = 0%R.
Proof.
  intros W t j H. assert (0 < B) by (unfold B; apply Nat.neq_0_lt_0, Nat.pow_nonzero; lia).
  rewrite mac_windows_sum, (IRDFT_ext _ _ (fun _ => C0)), IRDFT_0 by (auto; intros i Hi; apply Csum_0; intros s Hs; unfold wterm;
    destruct (Nat.leb_spec s t); auto; rewrite H, RDFT_zero by lia; ring). unfold Rdiv. ring.
Qed.

Lemma mac_windows_delay : forall W V m t j, (forall u, u < m -> W u = repeat 0%R (2 * B)) -> (forall u, W (m + u) = V u) ->
  mac_windows W (m + t) j = mac_windows V t j.
Proof.
  intros W V m t j H0 H1. assert (0 < B) by (unfold B; apply Nat.neq_0_lt_0, Nat.pow_nonzero; lia).
  rewrite !mac_windows_sum. f_equal. apply IRDFT_ext; auto. intros i Hi. apply Csum_ext. intros s Hs. unfold wterm.
  destruct (Nat.leb_spec s (m + t)), (Nat.leb_spec s t); try lia; auto.
  - rewrite <- H1. do 4 f_equal. lia.
  - rewrite H0, RDFT_zero by lia. ring.
Qed.

Definition save_win (all : list (list R)) (u : nat) : list R := os_win B B all (S u).
Definition add_win (all : list (list R)) (u : nat) : list R := oa_win B B all u.

Lemma upols_windows : forall all t i, upols_out k P F all t i = mac_windows (save_win all) t (2 * B - B + i).
Proof. reflexivity. Qed.

Lemma upola_windows : forall all t i, upola_out k P F all t i =
  (mac_windows (add_win all) t i + (if t =? 0 then 0 else mac_windows (add_win all) (t - 1) (B + i)))%R.
Proof.
  intros all t i. unfold upola_out. f_equal. destruct t; [reflexivity|]. cbn [Nat.eqb]. unfold mac_windows, oa_hist.
  replace (S t - 1) with t by lia. reflexivity.
Qed.
End Windows.

(** ** How the windows depend on the blocks *)

Lemma mix_blocks : forall B a b xs ys, blocks_of B (mix B a b xs ys).
Proof.
  intros B a b xs ys x Hx. destruct (In_nth _ _ [] Hx) as (j & Hj & <-). unfold mix in *. rewrite tab_length in Hj.
  rewrite nth_tab by auto. apply tab_length.
Qed.

Lemma nth_concat_mix : forall B a b xs ys n, 0 < B -> blocks_of B xs -> blocks_of B ys -> length ys = length xs ->
  nth n (concat (mix B a b xs ys)) 0%R = (a * nth n (concat xs) 0 + b * nth n (concat ys) 0)%R.
Proof.
  intros B a b xs ys n HB Hx Hy L. pose proof (mix_blocks B a b xs ys) as Hm.
  assert (Lm : length (mix B a b xs ys) = length xs) by apply tab_length.
  destruct (Nat.lt_ge_cases n (length xs * B)) as [Hn|Hn].
  - rewrite (Nat.div_mod n B) by lia. rewrite (Nat.mul_comm B).
    assert (n / B < length xs) by (apply Nat.div_lt_upper_bound; lia). pose proof (Nat.mod_upper_bound n B ltac:(lia)).
    rewrite !(nth_concat_blocks B) by (auto; lia). unfold mix. rewrite !nth_tab by auto. reflexivity.
  - rewrite !nth_overflow by (rewrite (concat_blocks_length B) by auto; lia). ring.
Qed.

Lemma delayed_mix : forall B a b xs ys p q, 0 < B -> blocks_of B xs -> blocks_of B ys -> length ys = length xs ->
  delayed (concat (mix B a b xs ys)) p q = (a * delayed (concat xs) p q + b * delayed (concat ys) p q)%R.
Proof. intros. unfold delayed. destruct (q <=? p); [apply nth_concat_mix; auto|ring]. Qed.

Lemma concat_silence : forall B m xs, concat (silence B m ++ xs) = repeat 0%R (m * B) ++ concat xs.
Proof.
  intros B m xs. unfold silence. induction m; [reflexivity|]. cbn [repeat app concat]. rewrite IHm, app_assoc. f_equal.
  rewrite <- repeat_app. f_equal.
Qed.

Lemma silence_blocks : forall B m xs, blocks_of B xs -> blocks_of B (silence B m ++ xs).
Proof.
  intros B m xs H x Hx. apply in_app_or in Hx. destruct Hx as [Hx|Hx]; auto.
  apply repeat_spec in Hx. subst. apply repeat_length.
Qed.

Lemma nth_silence : forall n m (xs : list R), nth n (repeat 0%R m ++ xs) 0%R = if n <? m then 0%R else nth (n - m) xs 0%R.
Proof.
  intros n m xs. destruct (Nat.ltb_spec n m).
  - rewrite app_nth1 by (rewrite repeat_length; auto). apply nth_repeat.
  - rewrite app_nth2 by (rewrite repeat_length; auto). rewrite repeat_length. reflexivity.
Qed.

Lemma concat_prefix : forall B n xs ys i, 0 < B -> blocks_of B xs -> blocks_of B ys -> firstn n xs = firstn n ys ->
  i < n * B -> nth i (concat xs) 0%R = nth i (concat ys) 0%R.
Proof.
  intros B n xs ys i HB Hx Hy E Hi.
  assert (Hb : i / B < n) by (apply Nat.div_lt_upper_bound; lia). pose proof (Nat.mod_upper_bound i B ltac:(lia)).
  assert (G : forall zs, blocks_of B zs -> nth i (concat zs) 0%R = nth (i mod B) (nth (i / B) (firstn n zs) []) 0%R).
  { intros zs Hz. rewrite (nth_firstn_lt _ _ n) by auto. destruct (Nat.lt_ge_cases (i / B) (length zs)).
    - rewrite (Nat.div_mod i B) at 1 by lia. rewrite (Nat.mul_comm B). apply nth_concat_blocks; auto.
    - rewrite (nth_overflow zs) by auto. rewrite nth_overflow; [destruct (i mod B); reflexivity|].
      rewrite (concat_blocks_length B) by auto. pose proof (Nat.mul_div_le i B ltac:(lia)). nia. }
  rewrite !G by auto. rewrite E. reflexivity.
Qed.

Section Relations.
Variables (k P : nat) (F : nat -> nat -> C).
Hypothesis Hk : 0 < k.
Let B := 2 ^ k.

Lemma Bpos : 0 < B. Proof. unfold B; apply Nat.neq_0_lt_0, Nat.pow_nonzero; lia. Qed.

Lemma K_fold : 2 ^ Nat.log2_up (B + B - 1) = 2 * B. Proof. apply K_is_2B. exact Hk. Qed.

Lemma save_win_length : forall all u, length (save_win k all u) = 2 * B.
Proof. intros. unfold save_win, os_win. rewrite tab_length. apply K_fold. Qed.
Lemma add_win_length : forall all u, length (add_win k all u) = 2 * B.
Proof. intros. unfold add_win, oa_win. rewrite tab_length. apply K_fold. Qed.

Lemma nth_save_win : forall all u n, n < 2 * B -> nth n (save_win k all u) 0%R = delayed (concat all) (S u * B + n) (2 * B).
Proof. intros. unfold save_win, os_win. fold B. rewrite K_fold. rewrite nth_tab by auto. reflexivity. Qed.
Lemma nth_add_win : forall all u n, n < 2 * B -> nth n (add_win k all u) 0%R = if n <? B then nth (u * B + n) (concat all) 0%R else 0%R.
Proof. intros. unfold add_win, oa_win. fold B. rewrite K_fold. rewrite nth_tab by auto. reflexivity. Qed.

Lemma win_eq : forall (w v : list R), length w = 2 * B -> length v = 2 * B -> (forall n, n < 2 * B -> nth n w 0%R = nth n v 0%R) -> w = v.
Proof. intros w v Lw Lv H. apply (list_eq_nth _ 0%R); [congruence|]. intros. apply H. lia. Qed.

Lemma upols_mix : forall a b xs ys t i, blocks_of B xs -> blocks_of B ys -> length ys = length xs ->
  upols_out k P F (mix B a b xs ys) t i = (a * upols_out k P F xs t i + b * upols_out k P F ys t i)%R.
Proof.
  intros a b xs ys t i Hx Hy L. rewrite !upols_windows. apply mac_windows_mix. intros u Hu.
  rewrite !save_win_length. repeat split; auto. intros n Hn. rewrite !nth_save_win by auto. apply delayed_mix; auto. apply Bpos.
Qed.

Lemma upola_mix : forall a b xs ys t i, blocks_of B xs -> blocks_of B ys -> length ys = length xs ->
  upola_out k P F (mix B a b xs ys) t i = (a * upola_out k P F xs t i + b * upola_out k P F ys t i)%R.
Proof.
  intros a b xs ys t i Hx Hy L. rewrite !upola_windows.
  assert (G : forall t j, mac_windows k P F (add_win k (mix B a b xs ys)) t j =
    (a * mac_windows k P F (add_win k xs) t j + b * mac_windows k P F (add_win k ys) t j)%R).
  { intros t' j. apply mac_windows_mix. intros u Hu. rewrite !add_win_length. repeat split; auto. intros n Hn.
    rewrite !nth_add_win by auto. destruct (n <? B); [apply nth_concat_mix; auto; apply Bpos|ring]. }
  rewrite !G. destruct (t =? 0); ring.
Qed.

Lemma upols_causal : forall n xs ys t i, blocks_of B xs -> blocks_of B ys -> firstn n xs = firstn n ys -> t < n ->
  upols_out k P F xs t i = upols_out k P F ys t i.
Proof.
  intros n xs ys t i Hx Hy E Ht. rewrite !upols_windows. apply mac_windows_ext. intros u Hu.
  apply win_eq; try apply save_win_length. intros j Hj. rewrite !nth_save_win by auto. unfold delayed.
  destruct (Nat.leb_spec (2 * B) (S u * B + j)); auto. apply (concat_prefix B n); auto; try apply Bpos. pose proof Bpos. nia.
Qed.

Lemma upola_causal : forall n xs ys t i, blocks_of B xs -> blocks_of B ys -> firstn n xs = firstn n ys -> t < n ->
  upola_out k P F xs t i = upola_out k P F ys t i.
Proof.
  intros n xs ys t i Hx Hy E Ht. rewrite !upola_windows.
  assert (G : forall t j, t < n -> mac_windows k P F (add_win k xs) t j = mac_windows k P F (add_win k ys) t j).
  { intros t' j Ht'. apply mac_windows_ext. intros u Hu. apply win_eq; try apply add_win_length. intros m Hm.
    rewrite !nth_add_win by auto. destruct (Nat.ltb_spec m B); auto. apply (concat_prefix B n); auto; try apply Bpos. pose proof Bpos. nia. }
  rewrite !G by lia. reflexivity.
Qed.

Lemma save_win_silence : forall m xs, (forall u, u < m -> save_win k (silence B m ++ xs) u = repeat 0%R (2 * B)) /\
  (forall u, save_win k (silence B m ++ xs) (m + u) = save_win k xs u).
Proof.
  intros m xs. pose proof Bpos. split.
  - intros u Hu. apply win_eq; [apply save_win_length|apply repeat_length|]. intros n Hn. rewrite nth_save_win, nth_repeat by auto.
    unfold delayed. destruct (_ <=? _); auto. rewrite concat_silence, nth_silence.
    destruct (Nat.ltb_spec (S u * B + n - 2 * B) (m * B)); auto. nia.
  - intros u. apply win_eq; try apply save_win_length. intros n Hn. rewrite !nth_save_win by auto. unfold delayed.
    rewrite concat_silence, nth_silence. replace (S (m + u) * B + n) with (m * B + (S u * B + n)) by lia.
    destruct (Nat.leb_spec (2 * B) (m * B + (S u * B + n))), (Nat.leb_spec (2 * B) (S u * B + n)); try lia; auto.
    + destruct (Nat.ltb_spec (m * B + (S u * B + n) - 2 * B) (m * B)); [lia|]. f_equal. lia.
    + destruct (Nat.ltb_spec (m * B + (S u * B + n) - 2 * B) (m * B)); [auto|lia].
Qed.

Lemma add_win_silence : forall m xs, (forall u, u < m -> add_win k (silence B m ++ xs) u = repeat 0%R (2 * B)) /\
  (forall u, add_win k (silence B m ++ xs) (m + u) = add_win k xs u).
Proof.
  intros m xs. pose proof Bpos. split.
  - intros u Hu. apply win_eq; [apply add_win_length|apply repeat_length|]. intros n Hn. rewrite nth_add_win, nth_repeat by auto.
    destruct (Nat.ltb_spec n B); auto. rewrite concat_silence, nth_silence.
    destruct (Nat.ltb_spec (u * B + n) (m * B)); auto. nia.
  - intros u. apply win_eq; try apply add_win_length. intros n Hn. rewrite !nth_add_win by auto.
    rewrite concat_silence, nth_silence. replace ((m + u) * B + n) with (m * B + (u * B + n)) by lia.
    destruct (Nat.ltb_spec n B); auto. destruct (Nat.ltb_spec (m * B + (u * B + n)) (m * B)); [lia|]. f_equal. lia.
Qed.

Lemma upols_delay : forall m xs t i, upols_out k P F (silence B m ++ xs) t i =
  if t <? m then 0%R else upols_out k P F xs (t - m) i.
Proof.
  intros m xs t i. rewrite upols_windows. destruct (save_win_silence m xs) as [H0 H1]. destruct (Nat.ltb_spec t m).
  - apply mac_windows_silent. intros u Hu. apply H0. lia.
  - rewrite upols_windows. replace t with (m + (t - m)) at 1 by lia. apply mac_windows_delay; auto.
Qed.

Lemma upola_delay : forall m xs t i, upola_out k P F (silence B m ++ xs) t i =
  if t <? m then 0%R else upola_out k P F xs (t - m) i.
Proof.
  intros m xs t i. rewrite upola_windows. destruct (add_win_silence m xs) as [H0 H1]. destruct (Nat.ltb_spec t m).
  - rewrite !mac_windows_silent by (intros u Hu; apply H0; lia). destruct (t =? 0); ring.
  - rewrite upola_windows. replace t with (m + (t - m)) at 1 by lia.
    rewrite (mac_windows_delay _ _ _ _ (add_win k xs) m) by auto. f_equal.
    destruct (Nat.eqb_spec t 0), (Nat.eqb_spec (t - m) 0); try lia; auto.
    + apply mac_windows_silent. intros u Hu. apply H0. lia.
    + replace (t - 1) with (m + (t - m - 1)) by lia. apply mac_windows_delay; auto.
Qed.
End Relations.

(** ** All kinds at once *)

(** The matrix a convolver of some kind effectively uses. *)
Definition effective (kd : convolver_kind) (rows cols : nat) (mat : list (list C)) : list (list C) :=
  match kd with SparseUpols p | SparseUpola p => drop_bins p rows cols mat | _ => mat end.

Definition kind_out (kd : convolver_kind) (k P : nat) (F : nat -> nat -> C) (all : list (list R)) (t i : nat) : R :=
  match kd with Upols | SplitUpols _ | SparseUpols _ => upols_out k P F all t i | _ => upola_out k P F all t i end.

Definition kind_outs kd k P F all : list (list R) := tab (length all) (fun t => tab (2 ^ k) (kind_out kd k P F all t)).

Lemma kind_outs_ext : forall kd k P F G all, (forall a j, a < P -> F a j = G a j) -> kind_outs kd k P F all = kind_outs kd k P G all.
Proof.
  intros kd k P F G all H. unfold kind_outs. apply tab_ext. intros t Ht. apply tab_ext. intros i Hi.
  destruct kd; unfold kind_out; first [apply upols_out_ext; auto | apply upola_out_ext; auto].
Qed.

Lemma make_upc_ok : (exists o, make_overlap_save 1 1 = Ok o) /\ (exists o, make_overlap_add 1 1 = Ok o).
Proof. split; eexists; reflexivity. Qed.

Lemma run_yields : forall ov fdl flt (c : upc ov fdl flt) rows cols mat args all outs,
  (exists c0, upc_filter c rows cols mat args = Ok c0 /\ upc_yields c0 all outs) ->
  filter_and_run c rows cols mat args all = Ok outs.
Proof. intros ov fdl flt c rows cols mat args all outs (c0 & E & c' & E'). unfold filter_and_run. rewrite E. cbn [bind]. rewrite E'. reflexivity. Qed.

Lemma convolver_ok : forall kd k P mat all, valid_kind kd -> 0 < k < max_order -> 0 < P -> matrix_of P (2 ^ k + 1) mat ->
  blocks_of (2 ^ k) all ->
  convolver kd P (2 ^ k + 1) mat all = Ok (kind_outs kd k P (cell (effective kd P (2 ^ k + 1) mat)) all).
Proof.
  intros kd k P mat all HV Hk HP Hm Hall. destruct make_upc_ok as [[os Es] [oa Ea]].
  destruct kd; unfold convolver, make_upc; cbn [ov_make ols ola]; rewrite ?Es, ?Ea; cbn [bind]; apply run_yields; unfold kind_outs, effective.
  - apply dense_save; auto.
  - apply dense_add; auto.
  - apply split_save; auto. intros l ->. exact HV.
  - apply split_add; auto. intros l ->. exact HV.
  - fold (kind_outs (SparseUpols pred) k P (cell (drop_bins pred P (2 ^ k + 1) mat)) all).
    rewrite (kind_outs_ext _ _ _ _ (masked pred mat)) by (intros; apply drop_bins_cell; auto). apply sparse_save; auto.
  - fold (kind_outs (SparseUpola pred) k P (cell (drop_bins pred P (2 ^ k + 1) mat)) all).
    rewrite (kind_outs_ext _ _ _ _ (masked pred mat)) by (intros; apply drop_bins_cell; auto). apply sparse_add; auto.
Qed.

Lemma partition_one : forall B h, 0 < B -> 2 * B <= 2 ^ max_order -> 0 < length h -> (Z.of_nat (length h) < 2 ^ 64)%Z ->
  (Z.of_nat (ceil_div (length h) B) * Z.of_nat (2 ^ Nat.log2_up B + 1) < max_elements)%Z ->
  uniform_partition 1 (length h) [h] B = Ok [partition_spectra B h].
Proof.
  intros B h HB HBm Hh H64 Hmax. rewrite uniform_partition_ok; auto.
  - split; [reflexivity|]. intros r [<-|[]]. reflexivity.
  - change (Z.of_nat 1) with 1%Z. rewrite Z.mul_1_l. exact Hmax.
Qed.

Lemma partitioned_ok : forall kd B h all, valid_kind kd -> 2 <= B -> 0 < length h -> 2 * 2 ^ Nat.log2_up B <= 2 ^ max_order ->
  (Z.of_nat (length h) < 2 ^ 64)%Z -> (Z.of_nat (ceil_div (length h) B) * Z.of_nat (2 ^ Nat.log2_up B + 1) < max_elements)%Z ->
  (match kd with SparseUpols p | SparseUpola p => forall i j v, p i j v = true | _ => True end) ->
  blocks_of (2 ^ Nat.log2_up B) all ->
  partitioned kd B h all = Ok (filtered B h all).
Proof.
  intros kd B h all HV HB Hh HM H64 Hmax Hp Hall. unfold partitioned.
  pose proof (log2_up_fits B ltac:(lia)) as HBM.
  rewrite partition_one by (auto; lia). cbn [bind rd nth_error].
  pose proof (partition_matrix B h ltac:(lia)) as Hm. pose proof (P_pos B h HB Hh HM) as HP.
  rewrite (rd_ok _ _ 0 []) by (destruct Hm as [-> _]; exact HP). cbn [bind].
  rewrite (matrix_row _ _ _ _ 0 Hm HP). destruct Hm as [Lm Wm]. rewrite Lm. assert (Hm : matrix_of _ _ (partition_spectra B h)) by (split; eauto).
  rewrite convolver_ok; auto. 2:{ apply (k_range B h); auto. }
  assert (E : forall a j, a < ceil_div (length h) B -> cell (effective kd (ceil_div (length h) B) (2 ^ Nat.log2_up B + 1) (partition_spectra B h)) a j = cell (partition_spectra B h) a j).
  { intros a j Ha. destruct kd; auto; unfold effective; rewrite drop_bins_cell by auto; unfold masked; rewrite Hp; reflexivity. }
  rewrite (kind_outs_ext _ _ _ _ _ _ E). f_equal.
  destruct kd; first [apply save_is_lconv; auto | apply add_is_lconv; auto].
Qed.
