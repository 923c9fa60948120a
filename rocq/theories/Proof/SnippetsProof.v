(** The other example transforms of the snippets. *)
From Coq Require Import List Arith Bool Reals Lra Lia.
From Verif Require Import Base.Outcome Base.OutcomeFacts Base.Sums Base.Cplx Spec.Dft Spec.DigitRev Spec.Twisted Spec.Transforms.
From Verif Require Import Proof.DftTheory Proof.TwistedTheory Model.Fft2 Model.FftRadix Model.Stockham Model.Snippets.
From Verif Require Import Proof.Fft2Proof Proof.RadixProof Proof.StockhamProof Proof.Radix4Proof Proof.SplitRadixProof Proof.DctProof.
Import ListNotations.
Open Scope outcome_scope.
Local Arguments Nat.div : simpl never.
Local Arguments Nat.modulo : simpl never.
Local Arguments Nat.pow : simpl never.

(** * stockham.cpp *)
Lemma dif2r_fuel : forall f f' n s b x work w r, f <= f' ->
  dif2r_fft0 f n s b x work w = Ok r -> dif2r_fft0 f' n s b x work w = Ok r.
Proof.
  induction f; intros f' n s b x work w r Hf.
  - destruct f'; auto. cbn [dif2r_fft0]. destruct (n =? 1); auto. discriminate.
  - destruct f' as [|f']; [lia|]. cbn [dif2r_fft0]. destruct (n =? 1); auto.
    destruct (dif2r_stage n s x work w); auto. cbn [bind].
    destruct (dif2r_fft0 f (n / 2) (s * 2) (negb b) a x w) as [r'| |] eqn:E; cbn [bind]; try discriminate.
    apply IHf with (f' := f') in E; [|lia]. rewrite E. auto.
Qed.

Lemma sn_stockham_lut_ok : forall n, 0 < n -> sn_stockham_lut n = Ok (tab (n / 2) (fun i => W Backward n i)).
Proof.
  intros n Hn. unfold sn_stockham_lut. cbv zeta.
  rewrite <- fill_W by auto. apply for_range_ext_in. intros i w _. f_equal. rewrite twiddle_W.
  unfold W, Cexp. cbn [dsign].
  replace (INR i * (2 * PI / INR n))%R with (1 * (2 * PI) * INR i / INR n)%R; auto.
  field. apply not_0_INR. lia.
Qed.

Lemma sn_fft0_ok : forall p (x : list C), length x = 2 ^ p ->
  exists work', sn_stockham_fft0 (2 ^ p) (2 ^ p) 1 false x (repeat C0 (2 ^ p)) (tab (2 ^ p / 2) (fun i => W Backward (2 ^ p) i))
   = Ok (DFT_list Backward x, work').
Proof.
  intros p x Hx.
  destruct (dif2r_fft0_ok Backward p _ (fun i => nth i x C0) p x (repeat C0 (2 ^ p)) 0 false eq_refl)
    as [x' [work' [E [L1 [L2 F]]]]]; auto.
  - apply repeat_length.
  - change (2 ^ 0) with 1. apply dif_inv_0. auto.
  - change (2 ^ 0) with 1 in E. exists work'. unfold sn_stockham_fft0.
    apply (dif2r_fuel p (2 ^ p)); [apply le_pow2|]. rewrite E, F. unfold DFT_list. rewrite Hx. auto.
Qed.

Lemma sn_stockham_fft_ok : forall p (x : list C), length x = 2 ^ p ->
  sn_stockham_fft (2 ^ p) x = Ok (DFT_list Backward x).
Proof.
  intros p x Hx. unfold sn_stockham_fft. rewrite sn_stockham_lut_ok by apply pow2_pos. cbn [bind].
  destruct (sn_fft0_ok p x Hx) as [w E]. rewrite E. auto.
Qed.

Lemma sn_stockham_ifft_ok : forall p (x : list C), length x = 2 ^ p ->
  sn_stockham_ifft (2 ^ p) x = Ok (DFT_list Forward x).
Proof.
  intros p x Hx. unfold sn_stockham_ifft. rewrite sn_stockham_lut_ok by apply pow2_pos. cbn [bind].
  fold (conjugate (2 ^ p) x). rewrite conjugate_ok by auto. cbn [bind].
  destruct (sn_fft0_ok p (map Cconj x)) as [w E]. { rewrite map_length. auto. }
  rewrite E. cbn [bind]. fold (conjugate (2 ^ p) (DFT_list Backward (map Cconj x))).
  rewrite conjugate_ok by (unfold DFT_list; rewrite tab_length, map_length; auto).
  f_equal. unfold DFT_list. rewrite map_length. apply list_eq_tab with (d := C0).
  - rewrite map_length, tab_length. auto.
  - intros i Hi. rewrite nth_map_conj, nth_tab by auto. rewrite DFT_conj. cbn [flip].
    apply DFT_ext. intros j Hj. rewrite nth_map_conj. apply Cconj_conj.
Qed.

(** * radix4.cpp: c2c_stockham *)
Lemma sn_stage_ok : forall d n l m (x y : list C), 0 < m -> 0 < l ->
  n = 2 * l * m -> length x = n -> length y = n ->
  exists y', sn_c2c_stockham_stage (dsign d) l m x y = Ok y' /\ length y' = n /\
    forall a, a < n -> nth a y' C0 = dif_val d 2 l m (fun i => nth i x C0) a.
Proof.
  intros d n l m x y Hm Hl Hn Lx Ly.
  destruct (dif2i_stage_ok d n l m x y (tab (n / 2) (fun i => W d n i))) as [y' [E [L V]]]; auto.
  exists y'. split; auto. rewrite <- E. unfold sn_c2c_stockham_stage, dif2i_butterfly.
  apply for_range_ext_in. intros j s Hj. cbv zeta.
  assert (E2 : n / 2 = l * m) by (rewrite Hn; symmetry; apply Nat.div_unique with 0; lia).
  assert (Hb : j * m < l * m) by (apply Nat.mul_lt_mono_pos_r; lia).
  rewrite (rd_ok _ _ (j * m) C0) by (rewrite tab_length; lia). cbn [bind].
  rewrite nth_tab by lia.
  assert (EW : W d n (j * m) = W d (2 * l) j) by (rewrite Hn; apply W_scale_r; auto).
  rewrite EW.
  apply for_range_ext. intros k u _.
  replace (2 * j * m) with (j * m * 2) by lia.
  replace (cos (dsign d * (PI * 2) * INR j / INR (2 * l)), sin (dsign d * (PI * 2) * INR j / INR (2 * l))) with (W d (2 * l) j); auto.
  unfold W, Cexp. rewrite (Rmult_comm PI 2). auto.
Qed.

Lemma sn_c2c_stockham_ok : forall d p (x work : list C), length x = 2 ^ p -> length work = 2 ^ p ->
  exists w', sn_c2c_stockham x work p (dsign d) = Ok (DFT_list d x, w').
Proof.
  intros d p x work Hx Hw. unfold sn_c2c_stockham. cbv zeta.
  set (xs := fun i => nth i x C0).
  destruct (for_range_inv (nat * nat * list C * list C)
    (fun t s => let '(l, m, a, b) := s in length a = 2 ^ p /\ length b = 2 ^ p /\
      l = 2 ^ p / 2 ^ t /\ m = 2 ^ (t - 1) /\
      dif_inv d (2 ^ p) (2 ^ (t - 1)) (2 ^ (p - (t - 1))) xs (fun i => nth i a C0)) 1 (p + 1)
    (fun t s => let '(l, m, x, work) := s in
      work <- sn_c2c_stockham_stage (dsign d) l m x work ;;
      Ok (l / 2, m * 2, work, x)) (2 ^ p / 2, 1, x, work))
    as [[[[l m] a] b] [E [L1 [L2 [_ [_ I]]]]]]; try lia.
  - split; auto. split; auto. split; auto. split; auto.
    change (1 - 1) with 0. rewrite Nat.sub_0_r. change (2 ^ 0) with 1. apply dif_inv_0. auto.
  - intros t [[[l m] a] b] Ht [L1 [L2 [El [Em I]]]].
    destruct t as [|t]; [lia|]. rewrite Nat.sub_succ, Nat.sub_0_r in *.
    assert (Hm : 0 < 2 ^ t) by apply pow2_pos.
    assert (Hl : 0 < 2 ^ (p - S t)) by apply pow2_pos.
    assert (EP : 2 ^ p = 2 * 2 ^ (p - S t) * 2 ^ t).
    { rewrite <- Nat.pow_succ_r', <- Nat.pow_add_r. f_equal. lia. }
    assert (El' : l = 2 ^ (p - S t)).
    { rewrite El, EP, Nat.pow_succ_r'. symmetry. apply Nat.div_unique with 0; lia. }
    clear El. subst l m.
    destruct (sn_stage_ok d (2 ^ p) (2 ^ (p - S t)) (2 ^ t) a b) as [b' [E [L V]]]; auto.
    rewrite E. cbn [bind]. eexists. split; [reflexivity|]. cbn beta iota.
    split; auto. split; auto. split; [|split].
    + rewrite EP, !Nat.pow_succ_r'. replace (2 * (2 * 2 ^ t)) with (2 * 2 ^ t * 2) by lia.
      rewrite <- Nat.div_div by lia. f_equal. apply Nat.div_unique with 0; lia.
    + rewrite Nat.mul_comm, <- Nat.pow_succ_r'. f_equal.
    + match goal with |- dif_inv _ _ ?A ?B _ _ =>
        replace A with (2 ^ t * 2) by (rewrite Nat.mul_comm, <- Nat.pow_succ_r'; f_equal);
        replace B with (2 ^ (p - S t)) by (f_equal) end.
      apply (dif_inv_step d (2 ^ p) 2 (2 ^ (p - S t)) (2 ^ t) xs (fun i => nth i a C0)); auto; try lia.
      { rewrite <- Nat.pow_succ_r'. replace (S (p - S t)) with (p - t) by lia. auto. }
      rewrite <- EP. auto.
  - rewrite E. cbn [bind]. replace (p + 1 - 1) with p in I by lia. rewrite Nat.sub_diag in I. change (2 ^ 0) with 1 in I.
    assert (F : a = DFT_list d x).
    { unfold DFT_list. rewrite Hx. apply list_eq_tab with (d := C0); auto.
      intros i Hi. apply (dif_inv_end d (2 ^ p) xs (fun i => nth i a C0)); auto. }
    destruct (Nat.odd p).
    + rewrite for_range_ext_in with (b' := fun k work => wr work k (nth k a C0)).
      2:{ intros k u Hk. rewrite (rd_ok _ a k C0) by lia. auto. }
      destruct (scatter_ok C C0 (length a) (fun i => i) (fun i => nth i a C0) b) as [w' [E' [L [V _]]]]; auto.
      { intros. lia. }
      rewrite E'. cbn [bind]. exists a. f_equal. f_equal. rewrite <- F.
      apply list_eq_nth with (d := C0); try lia. intros i Hi. apply V. lia.
    + exists b. congruence.
Qed.

(** * radix4.cpp: c2c_dit4 on four elements *)
Lemma sn_dit4_four : forall d (a b c e : C),
  sn_c2c_dit4 [a; b; c; e] 1 (dsign d) = Ok (DFT_list (flip d) [a; b; c; e]).
Proof.
  intros d a b c e. unfold sn_c2c_dit4.
  replace (sn_digitrevorder4 [a; b; c; e]) with (Ok [a; b; c; e]) by reflexivity.
  cbn [bind length]. unfold for_range. change (1 + 1 - 1) with 1. cbn [loop bind].
  change (4 ^ 1 / 4) with 1. change (4 / 4 ^ 1) with 1. change (4 ^ 1) with 4. cbv zeta.
  change (1 - 0) with 1. cbn [loop bind]. 
  change (INR 0) with 0%R.
  assert (Z : forall t, (dsign d * (PI * 2) * 0 / INR 4 * t)%R = 0%R).
  { intros. unfold Rdiv. ring. }
  rewrite !Z, cos_0, sin_0. unfold sn_dit4_butterfly.
  cbn [Nat.mul Nat.add rd nth_error bind wr upd length]. cbn [Nat.ltb Nat.leb bind upd length].
  unfold DFT_list, tab. cbn [length seq map].
  unfold DFT, Csum, bsum. cbn [nth Nat.mul Nat.add].
  change (1%R, 0%R) with C1.
  rewrite !W_0.
  assert (W1 : W (flip d) 4 1 = (- (0%R, dsign d))%C).
  { rewrite W_4_1. unfold Cid. destruct d; apply C_eq; simpl; ring. }
  assert (W2 : W (flip d) 4 2 = (- C1)%C) by apply (W_half (flip d) 2 ltac:(lia)).
  assert (W3 : W (flip d) 4 3 = (0%R, dsign d)).
  { change (W (flip d) 4 3) with (W (flip d) 4 (1 + 2)). rewrite W_add, W1, W2. ring. }
  assert (W4 : W (flip d) 4 4 = C1).
  { change (W (flip d) 4 4) with (W (flip d) 4 (0 + 4 * 1)). rewrite W_period by lia. apply W_0. }
  assert (W6 : W (flip d) 4 6 = (- C1)%C).
  { change (W (flip d) 4 6) with (W (flip d) 4 (2 + 4 * 1)). rewrite W_period by lia. auto. }
  assert (W9 : W (flip d) 4 9 = (- (0%R, dsign d))%C).
  { change (W (flip d) 4 9) with (W (flip d) 4 (1 + 4 * 2)). rewrite W_period by lia. auto. }
  rewrite W1, W2, W3, W4, W6, W9.
  repeat (rewrite wr_ok by (rewrite ?upd_length; cbn [length]; lia); cbn [bind]).
  cbn [upd].
  assert (L4 : forall a b c e a' b' c' e' : C, a = a' -> b = b' -> c = c' -> e = e' -> Ok [a; b; c; e] = Ok [a'; b'; c'; e'])
    by (intros; subst; auto).
  apply L4; ring.
Qed.

(** * split_fft.cpp *)
Lemma static_stage_loop : forall order todo stage x tw, 0 < stage ->
  static_dit2_stage order stage todo x tw =
  for_range stage (stage + todo) (fun stage x =>
    dit2_stage tw (2 ^ stage) (2 ^ (stage + 1)) (2 ^ (order - stage - 1)) x) x.
Proof.
  intros order todo. unfold for_range. induction todo; intros stage x tw Hs.
  - rewrite Nat.add_0_r, Nat.sub_diag. cbn [static_dit2_stage loop].
    destruct (Nat.eqb_spec stage 0); auto; lia.
  - replace (stage + S todo - stage) with (S todo) by lia. cbn [static_dit2_stage loop].
    destruct (Nat.eqb_spec stage 0); [lia|].
    destruct (dit2_stage tw (2 ^ stage) (2 ^ (stage + 1)) (2 ^ (order - stage - 1)) x); auto. cbn [bind].
    rewrite IHtodo by lia. f_equal; lia.
Qed.

Lemma static_stage_v3 : forall p x tw, 0 < p -> length x = 2 ^ p ->
  static_dit2_stage p 0 p x tw = c2c_dit2_v3 x tw.
Proof.
  intros p x tw Hp Hx. destruct p as [|p]; [lia|]. cbn [static_dit2_stage]. cbn [Nat.eqb].
  unfold c2c_dit2_v3. rewrite Hx, bit_log2_pow. cbn [bind].
  destruct (dit2_stage0 x); auto. cbn [bind]. rewrite static_stage_loop by lia. auto.
Qed.

Lemma static_fft_ok : forall p d (x : list C), 0 < p -> length x = 2 ^ p ->
  static_fft p x d = Ok (DFT_list d x).
Proof.
  intros p d x Hp Hx. unfold static_fft. cbv zeta.
  rewrite Nat.shiftl_mul_pow2, Nat.mul_1_l.
  rewrite !make_twiddle_half by lia. cbn [bind]. rewrite bitrev_make_ok. cbn [bind].
  rewrite Hx, Nat.eqb_refl. cbn [guard bind].
  rewrite (bitrev_apply_rev C C0 p x Hx). cbn [bind].
  unfold DFT_list. rewrite Hx.
  assert (K : forall d', static_dit2_stage p 0 p (tab (2 ^ p) (fun i => nth (digit_rev 2 p i) x C0)) (half_lut d' p) =
     Ok (tab (2 ^ p) (DFT d' (2 ^ p) (fun j => nth j x C0)))).
  { intros. rewrite static_stage_v3 by (auto; apply tab_length).
    apply v3_ok; auto. apply tab_length. intros i Hi. rewrite nth_tab; auto. }
  destruct d; apply K.
Qed.

(** * dct.py *)
Lemma Rsum_reindex : forall n (s : nat -> nat) f,
  (forall i, i < n -> s i < n) ->
  (forall i j, i < n -> j < n -> s i = s j -> i = j) ->
  Rsum n f = Rsum n (fun i => f (s i)).
Proof. intros. unfold Rsum. apply (bsum_reindex _ _ _ _ _ _ _ R_ring); auto. Qed.

Lemma fst_scale : forall r a, fst (RtoC r * Cexp a)%C = (r * cos a)%R.
Proof. intros. unfold RtoC, Cexp, Cmul. cbn [fst snd]. ring. Qed.

Lemma fst_term : forall n N k i v c, 0 < n -> 0 < N ->
  fst (RtoC v * W Forward n (i * k) * (RtoC c * Cexp (- PI * INR k / INR (2 * N))))%C =
  (c * (v * cos (2 * PI * INR (i * k) / INR n + PI * INR k / INR (2 * N))))%R.
Proof.
  intros n N k i v c Hn HN. unfold W.
  transitivity (fst (RtoC (c * v) * (Cexp (dsign Forward * (2 * PI) * INR (i * k) / INR n) * Cexp (- PI * INR k / INR (2 * N))))%C).
  { f_equal. rewrite RtoC_mul. ring. }
  rewrite <- Cexp_add, fst_scale. rewrite <- cos_neg. cbn [dsign].
  rewrite Rmult_assoc. do 3 f_equal. unfold Rdiv. ring.
Qed.

Lemma angle_pad : forall N k i, 0 < N ->
  (2 * PI * INR (i * k) / INR (2 * N) + PI * INR k / INR (2 * N))%R = (PI * INR k * INR (2 * i + 1) / INR (2 * N))%R.
Proof.
  intros N k i HN. rewrite !mult_INR, plus_INR, mult_INR. change (INR 2) with 2%R. change (INR 1) with 1%R.
  assert (INR N <> 0)%R by (apply not_0_INR; lia). field. auto.
Qed.

Lemma dct2_2nfft_2_ok : forall (x : list R), 0 < length x ->
  dct2_2nfft_2 x = tab (length x) (DCT2 (length x) (fun i => nth i x 0%R)).
Proof.
  intros x Hx. unfold dct2_2nfft_2. cbv zeta. set (N := length x) in *. apply tab_ext. intros k Hk.
  assert (LL : length (map RtoC (x ++ repeat 0%R N)) = 2 * N).
  { rewrite map_length, app_length, repeat_length. fold N. lia. }
  rewrite nth_firstn_lt by auto. unfold DFT_list. rewrite LL, nth_tab by lia.
  unfold DFT. rewrite <- Csum_mul_r, fst_Csum.
  rewrite Rsum_ext with (g := fun i => (2 * (nth i (x ++ repeat 0 N) 0 * cos (PI * INR k * INR (2 * i + 1) / INR (2 * N))))%R).
  2:{ intros i Hi. change C0 with (RtoC 0). rewrite map_nth, fst_term by lia. rewrite angle_pad by auto. auto. }
  unfold DCT2. rewrite Rsum_mul_l. f_equal.
  replace (2 * N) with (N + N) at 1 by lia. rewrite Rsum_split.
  rewrite (Rsum_ext N (fun i => (nth (N + i) (x ++ repeat 0 N) 0 * cos (PI * INR k * INR (2 * (N + i) + 1) / INR (2 * N)))%R) (fun _ => 0%R)).
  2:{ intros i Hi. rewrite app_nth2 by (fold N; lia). rewrite nth_repeat. ring. }
  rewrite Rsum_const, Rmult_0_r, Rplus_0_r.
  apply Rsum_ext. intros i Hi. rewrite app_nth1 by auto. auto.
Qed.

Lemma dct2_2nfft_1_ok : forall (x : list R), 0 < length x ->
  dct2_2nfft_1 x = tab (length x) (DCT2 (length x) (fun i => nth i x 0%R)).
Proof.
  intros x Hx. unfold dct2_2nfft_1. cbv zeta. set (N := length x) in *. apply tab_ext. intros k Hk.
  assert (LL : length (map RtoC (x ++ rev x)) = 2 * N).
  { rewrite map_length, app_length, rev_length. fold N. lia. }
  rewrite nth_firstn_lt by auto. unfold DFT_list. rewrite LL, nth_tab by lia.
  unfold DFT. rewrite <- Csum_mul_r, fst_Csum.
  rewrite Rsum_ext with (g := fun i => (nth i (x ++ rev x) 0 * cos (PI * INR k * INR (2 * i + 1) / INR (2 * N)))%R).
  2:{ intros i Hi. change C0 with (RtoC 0). rewrite map_nth.
      replace (Cexp (- PI * INR k / INR (2 * N))) with (RtoC 1 * Cexp (- PI * INR k / INR (2 * N)))%C
        by (change (RtoC 1) with C1; ring).
      rewrite fst_term by lia. rewrite angle_pad by auto. ring. }
  unfold DCT2. 
  replace (2 * N) with (N + N) at 1 by lia. rewrite Rsum_split.
  rewrite (Rsum_ext N (fun i => (nth (N + i) (x ++ rev x) 0 * cos (PI * INR k * INR (2 * (N + i) + 1) / INR (2 * N)))%R)
    (fun i => (nth (N - 1 - i) x 0 * cos (PI * INR k * INR (2 * (N - 1 - i) + 1) / INR (2 * N)))%R)).
  2:{ intros i Hi. rewrite app_nth2 by (fold N; lia). replace (N + i - length x) with i by (fold N; lia).
      rewrite rev_nth by auto. fold N. replace (N - S i) with (N - 1 - i) by lia. f_equal.
      replace (PI * INR k * INR (2 * (N + i) + 1) / INR (2 * N))%R with
        (- (PI * INR k * INR (2 * (N - 1 - i) + 1) / INR (2 * N)) + 2 * INR k * PI)%R.
      { rewrite cos_period, cos_neg. auto. }
      assert (Q : INR (2 * (N + i) + 1) = (2 * INR (2 * N) - INR (2 * (N - 1 - i) + 1))%R).
      { replace 2%R with (INR 2) by reflexivity. rewrite <- mult_INR, <- minus_INR by lia. f_equal. lia. }
      rewrite Q. field. apply not_0_INR. lia. }
  rewrite <- (Rsum_rev N (fun i => (nth i x 0 * cos (PI * INR k * INR (2 * i + 1) / INR (2 * N)))%R)).
  rewrite (Rsum_ext N (fun i => (nth i (x ++ rev x) 0 * cos (PI * INR k * INR (2 * i + 1) / INR (2 * N)))%R)
    (fun i => (nth i x 0 * cos (PI * INR k * INR (2 * i + 1) / INR (2 * N)))%R)).
  2:{ intros i Hi. rewrite app_nth1 by auto. auto. }
  ring.
Qed.

(** The index read by position [i] of the reordered input. *)
Definition dct_idx (N i : nat) : nat :=
  if i <? (N - 1) / 2 + 1 then 2 * i else 2 * (N - 1 - i) + 1.

Lemma dct_half : forall N, 0 < N -> 2 * ((N - 1) / 2 + 1) = N + N mod 2.
Proof.
  intros N HN.
  assert (D := Nat.div_mod N 2 ltac:(lia)). assert (D' := Nat.div_mod (N - 1) 2 ltac:(lia)).
  assert (B := Nat.mod_upper_bound N 2 ltac:(lia)). assert (B' := Nat.mod_upper_bound (N - 1) 2 ltac:(lia)).
  lia.
Qed.

Lemma dct_nfft_idx : forall x i, i < length x ->
  nth i (dct2_nfft_order x) 0%R = nth (dct_idx (length x) i) x 0%R.
Proof.
  intros x i Hi. unfold dct2_nfft_order. cbv zeta. rewrite nth_tab by auto. unfold dct_idx.
  assert (H := dct_half (length x) ltac:(lia)). set (N := length x) in *. set (h := (N - 1) / 2 + 1) in *.
  assert (B := Nat.mod_upper_bound N 2 ltac:(lia)).
  destruct (Nat.ltb_spec i h); auto.
  destruct (Nat.eqb_spec (N mod 2) 1); f_equal; lia.
Qed.

Lemma dct_idx_lt : forall N i, i < N -> dct_idx N i < N.
Proof.
  intros N i Hi. unfold dct_idx. assert (H := dct_half N ltac:(lia)).
  assert (B := Nat.mod_upper_bound N 2 ltac:(lia)). set (h := (N - 1) / 2 + 1) in *.
  destruct (Nat.ltb_spec i h); lia.
Qed.

Lemma dct_idx_inj : forall N i j, i < N -> j < N -> dct_idx N i = dct_idx N j -> i = j.
Proof.
  intros N i j Hi Hj. unfold dct_idx.
  destruct (Nat.ltb_spec i ((N - 1) / 2 + 1)), (Nat.ltb_spec j ((N - 1) / 2 + 1)); lia.
Qed.

Lemma dct2_nfft_ok : forall (x : list R), 0 < length x ->
  dct2_nfft x = tab (length x) (DCT2 (length x) (fun i => nth i x 0%R)).
Proof.
  intros x Hx. unfold dct2_nfft. cbv zeta. 
  assert (LL : length (map RtoC (dct2_nfft_order x)) = length x).
  { rewrite map_length. unfold dct2_nfft_order. apply tab_length. }
  set (N := length x) in *. apply tab_ext. intros k Hk.
  unfold DFT_list. rewrite LL, nth_tab by lia.
  unfold DFT. rewrite <- Csum_mul_r, fst_Csum. unfold DCT2.
  rewrite (Rsum_reindex N (dct_idx N) (fun i => (nth i x 0 * cos (PI * INR k * INR (2 * i + 1) / INR (2 * N)))%R)).
  2: apply dct_idx_lt.
  2: apply dct_idx_inj.
  rewrite <- Rsum_mul_l. apply Rsum_ext. intros i Hi.
  change C0 with (RtoC 0). rewrite map_nth, fst_term by lia. rewrite dct_nfft_idx by auto. fold N.
  do 2 f_equal.
  assert (NZ : INR (2 * N) <> 0%R) by (apply not_0_INR; lia).
  assert (NZ' : INR N <> 0%R) by (apply not_0_INR; lia).
  replace (2 * PI * INR (i * k) / INR N + PI * INR k / INR (2 * N))%R with (PI * INR k * INR (4 * i + 1) / INR (2 * N))%R.
  2:{ rewrite !mult_INR, plus_INR, mult_INR. replace (INR 4) with 4%R by (simpl; ring).
      change (INR 2) with 2%R. change (INR 1) with 1%R. field. auto. }
  unfold dct_idx. destruct (Nat.ltb_spec i ((N - 1) / 2 + 1)).
  - do 4 f_equal. lia.
  - replace (PI * INR k * INR (4 * i + 1) / INR (2 * N))%R with
      (- (PI * INR k * INR (2 * (2 * (N - 1 - i) + 1) + 1) / INR (2 * N)) + 2 * INR k * PI)%R.
    { rewrite cos_period, cos_neg. auto. }
    assert (Q : INR (4 * i + 1) = (2 * INR (2 * N) - INR (2 * (2 * (N - 1 - i) + 1) + 1))%R).
    { replace 2%R with (INR 2) by reflexivity. rewrite <- mult_INR, <- minus_INR by lia. f_equal. lia. }
    rewrite Q. field. auto.
Qed.
