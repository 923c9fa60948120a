(** Property theorems C71: direct convolution in rounded arithmetic.  Specification:
    Spec/Rounding.v, Spec/RoundedSums.v (the two formats, growth of k roundings) and the linear
    convolution of Spec/Convolution.v. *)
From Coq Require Import Reals List Arith ZArith Lia Lra.
From Flocq Require Import Core.
From Verif Require Import Base.Outcome Base.OutcomeFacts Base.Sums Base.Cplx Base.VecNorm Spec.Rounding Spec.RoundedSums Spec.Convolution Spec.Statistics
  Model.RoundedConv Model.RoundedStats Proof.RoundedSums Proof.RoundedDirect Props.RoundedConvProps.
From Verif Require Proof.RoundedPlan.
Import ListNotations.
Local Open Scope R_scope.

(** The convolution of the magnitudes: what the result could be if no two terms cancelled. *)
Local Notation magnitude x h k := (lconv (map Rabs x) (map Rabs h) k).

(** Every sample is within (1 + u)^(L + 1) - 1, about (L + 1) u, of the exact linear convolution,
    relative to the convolution of the magnitudes; L is the length of the shorter operand and u is
    2^-24 or 2^-53.  The last term covers products that underflow.  Nothing is said if the bound
    itself is out of the range of the format. *)
Theorem C71_error : forall prec emin emax rnd x h L, ieee prec emin emax -> rounds_to_nearest prec emin emax rnd ->
  (0 < length x + length h)%nat -> L = Nat.min (length x) (length h) ->
  (forall k, growth prec (L + 1) * magnitude x h k + INR L * growth prec L * underflow emin <= bpow radix2 emax) ->
  exists y, rdirect_convolve rnd x h = Ok y /\ length y = (length x + length h - 1)%nat /\
    forall k, (k < length y)%nat ->
    Rabs (nth k y 0 - lconv x h k) <= (growth prec (L + 1) - 1) * magnitude x h k + INR L * growth prec L * underflow emin.
Proof.
  intros prec emin emax rnd x h L HF Hr Hn HL Ho. rewrite rdirect_ok by auto. eexists. split; [reflexivity|]. split; [apply tab_length|]. intros k Hk. rewrite tab_length in Hk.
  rewrite nth_tab by auto. specialize (Ho k). rewrite Nat.add_1_r in *. rewrite <- (longer_lconv x h), <- (longer_lconv (map Rabs x)) in *. destruct (longer_map _ _ Rabs x h) as [E1 E2]. rewrite E1, E2 in *.
  apply (rdirect_at_error prec emin emax rnd HF Hr); auto. subst L. rewrite <- longer_min. apply window_length.
Qed.

(** For at most 9/1000 / u taps in the shorter operand (more than 150000 for float): 1.01 (L + 1) u.
    X and H bound the samples and the taps. *)
Theorem C71_error_practical : forall prec emin emax rnd x h L X H, ieee prec emin emax -> rounds_to_nearest prec emin emax rnd ->
  (0 < length x + length h)%nat -> L = Nat.min (length x) (length h) -> INR (L + 1) * unit_roundoff prec <= 9 / 1000 ->
  0 <= X -> 0 <= H -> (forall v, In v x -> Rabs v <= X) -> (forall v, In v h -> Rabs v <= H) -> INR L * (X * H) <= bpow radix2 (emax - 2) ->
  exists y, rdirect_convolve rnd x h = Ok y /\ length y = (length x + length h - 1)%nat /\
    (forall k, (k < length y)%nat ->
      Rabs (nth k y 0 - lconv x h k) <= 101 / 100 * INR (L + 1) * unit_roundoff prec * magnitude x h k + INR L * bpow radix2 emin) /\
    (forall k, magnitude x h k <= INR L * (X * H)).
Proof.
  intros prec emin emax rnd x h L X H HF Hr Hn HL Hs BX BH HX HH HO. pose proof (u_pos prec emin emax HF) as U. set (u := unit_roundoff prec) in *.
  assert (G := RoundedPlan.growth u (L + 1) ltac:(lra) Hs). change ((1 + u) ^ (L + 1)) with (growth prec (L + 1)) in G.
  pose proof (growth_mono prec emin emax HF L (L + 1) ltac:(lia)) as GL. pose proof (pos_INR L) as L0. pose proof (eta_pos emin) as E0.
  assert (M0 : forall k, 0 <= magnitude x h k).
  { intros k. rewrite <- (longer_lconv (map Rabs x)). destruct (longer_map _ _ Rabs x h) as [E1 E2]. rewrite E1, E2. rewrite lconv_abs. apply total_abs_nonneg. }
  assert (M : forall k, magnitude x h k <= INR L * (X * H)).
  { intros k. rewrite <- (longer_lconv (map Rabs x)). destruct (longer_map _ _ Rabs x h) as [E1 E2]. rewrite E1, E2. rewrite lconv_abs. set (a := longer x h). set (b := shorter x h).
    pose proof (window_length a b k) as W. assert (W' : (length (window a b k) <= L)%nat) by (subst L; rewrite <- longer_min; auto).
    apply Rle_trans with (INR (length (map (fun m => Rabs (prod_at a b k m)) (window a b k))) * (X * H)).
    - apply StatisticsProof.total_bounds with (lo := 0). intros v Hv. apply in_map_iff in Hv. destruct Hv as (m & <- & Hm). split; [apply Rabs_pos|]. unfold prod_at. rewrite Rabs_mult.
      assert (NX : forall i, Rabs (nth i x 0) <= X) by (intros i; destruct (Nat.lt_ge_cases i (length x)); [apply HX, nth_In; auto|rewrite nth_overflow, Rabs_R0 by auto; apply BX]).
      assert (NH : forall i, Rabs (nth i h 0) <= H) by (intros i; destruct (Nat.lt_ge_cases i (length h)); [apply HH, nth_In; auto|rewrite nth_overflow, Rabs_R0 by auto; apply BH]).
      unfold a, b, longer, shorter. destruct (_ <=? _)%nat; [|rewrite (Rmult_comm X)]; apply Rmult_le_compat; auto using Rabs_pos.
    - rewrite map_length. apply Rmult_le_compat_r; [apply Rmult_le_pos; lra|]. apply le_INR. auto. }
  assert (Le : INR L <= bpow radix2 prec).
  { rewrite plus_INR in Hs. change (INR 1) with 1 in Hs. apply Rmult_le_reg_r with u; [lra|]. unfold u at 2, unit_roundoff. rewrite <- bpow_plus. replace (prec + - prec)%Z with 0%Z by lia. change (bpow radix2 0) with 1. nra. }
  assert (Et : INR L * growth prec L * underflow emin <= INR L * bpow radix2 emin).
  { rewrite Rmult_assoc. apply Rmult_le_compat_l; auto. replace (bpow radix2 emin) with (2 * underflow emin). { apply Rmult_le_compat_r; lra. } unfold underflow. change 2 with (bpow radix2 1). rewrite <- bpow_plus. f_equal. lia. }
  pose proof (prec_range prec emin emax HF) as P.
  assert (T : INR L * bpow radix2 emin <= 1).
  { apply Rle_trans with (bpow radix2 prec * bpow radix2 emin); [apply Rmult_le_compat_r; auto; apply bpow_ge_0|]. rewrite <- bpow_plus. change 1 with (bpow radix2 0). apply bpow_le. lia. }
  destruct (C71_error prec emin emax rnd x h L HF Hr Hn HL) as (y & Ey & Ly & By).
  { intros k. apply Rle_trans with (2 * bpow radix2 (emax - 2) + 1).
    - apply Rplus_le_compat; [|lra]. apply Rmult_le_compat; try lra; auto. eapply Rle_trans; [apply M|auto].
    - replace emax with (2 + (emax - 2))%Z at 2 by lia. rewrite (bpow_plus radix2 2). change (bpow radix2 2) with 4. assert (1 <= bpow radix2 (emax - 2)) by (change 1 with (bpow radix2 0); apply bpow_le; lia). lra. }
  exists y. split; auto. split; auto. split; auto. intros k Hk. eapply Rle_trans; [apply By; auto|]. apply Rplus_le_compat; auto. apply Rmult_le_compat_r; auto. lra.
Qed.

(** Writing into an array gives the same samples, whatever the array contained. *)
Theorem C71_into : forall rnd x h out, (0 < length x + length h)%nat -> length out = (length x + length h - 1)%nat ->
  rdirect_convolve_into rnd x h out = rdirect_convolve rnd x h.
Proof. intros rnd x h out H L. rewrite rdirect_into_ok, rdirect_ok by auto. auto. Qed.

(** Exchanging operands of different lengths gives the same bits, however the arithmetic rounds. *)
Theorem C71_commutative : forall rnd x h, length x <> length h -> rdirect_convolve rnd x h = rdirect_convolve rnd h x.
Proof.
  intros rnd x h N. rewrite !rdirect_ok by lia. rewrite (Nat.add_comm (length h)). f_equal. apply tab_ext. intros k Hk.
  assert (E : longer x h = longer h x /\ shorter x h = shorter h x). { unfold longer, shorter. destruct (Nat.leb_spec (length h) (length x)), (Nat.leb_spec (length x) (length h)); auto; lia. }
  destruct E as [-> ->]. auto.
Qed.

(** Samples that are multiples of 2^i and taps that are multiples of 2^j, for example 16 bit
    samples and integer taps: the result is exact as long as it fits the significand. *)
Theorem C71_multiples_exact : forall prec emin emax rnd x h i j, ieee prec emin emax -> rounds_to_nearest prec emin emax rnd ->
  (0 < length x + length h)%nat -> (forall v, In v x -> exists z, v = IZR z * bpow radix2 i) -> (forall v, In v h -> exists z, v = IZR z * bpow radix2 j) ->
  (emin <= i + j <= emax - prec)%Z -> (forall k, magnitude x h k <= bpow radix2 (prec + (i + j))) ->
  rdirect_convolve rnd x h = Ok (tab (length x + length h - 1) (lconv x h)).
Proof.
  intros prec emin emax rnd x h i j HF Hr Hn Hx Hh He Hm. rewrite rdirect_ok by auto. f_equal. apply tab_ext. intros k Hk. specialize (Hm k).
  rewrite <- (longer_lconv x h), <- (longer_lconv (map Rabs x)) in *. destruct (longer_map _ _ Rabs x h) as [E1 E2]. rewrite E1, E2 in *. set (a := longer x h) in *. set (b := shorter x h) in *.
  assert (Nx : forall c q n, (forall v, In v c -> exists z, v = IZR z * bpow radix2 q) -> exists z, nth n c 0 = IZR z * bpow radix2 q).
  { intros c q n Hc. destruct (Nat.lt_ge_cases n (length c)); [apply Hc, nth_In; auto|]. exists 0%Z. rewrite nth_overflow by auto. ring. }
  assert (Pm : forall m, exists z, prod_at a b k m = IZR z * bpow radix2 (i + j)).
  { intros m. unfold prod_at, a, b, longer, shorter. destruct (_ <=? _)%nat.
    - destruct (Nx _ i m Hx) as (z & ->), (Nx _ j (k - m)%nat Hh) as (w & ->). exists (z * w)%Z. rewrite mult_IZR, bpow_plus. ring.
    - destruct (Nx _ j m Hh) as (z & ->), (Nx _ i (k - m)%nat Hx) as (w & ->). exists (z * w)%Z. rewrite mult_IZR, bpow_plus. ring. }
  rewrite lconv_abs in Hm. unfold rdirect_at.
  assert (Om : bpow radix2 (prec + (i + j)) <= bpow radix2 emax) by (apply bpow_le; lia).
  assert (In1 : forall m, In m (window a b k) -> Rabs (prod_at a b k m) <= bpow radix2 (prec + (i + j))).
  { intros m Hi. eapply Rle_trans; [|exact Hm]. clear - Hi. induction (window a b k) as [|w l IH]; [destruct Hi|]. cbn [map total]. destruct Hi as [-> |Hi].
    - pose proof (total_abs_nonneg nat (prod_at a b k) l). lra.
    - specialize (IH Hi). pose proof (Rabs_pos (prod_at a b k w)). lra. }
  assert (R1 : forall m, In m (window a b k) -> rprod rnd a b k m = prod_at a b k m).
  { intros m Hi. unfold rprod. apply (rnd_id prec emin emax HF rnd Hr); [eapply Rle_trans; [apply In1; auto|auto]|]. apply (multiple_float prec emin emax HF (i + j)); auto. lia. }
  rewrite <- window_total. rewrite <- (map_ext_in _ _ _ R1). apply (rsum_exact prec emin emax rnd HF Hr). intros p s E.
  assert (Ep : map (rprod rnd a b k) p = map (prod_at a b k) p) by (apply map_ext_in; intros m Hi; apply R1; rewrite E; apply in_or_app; auto). rewrite Ep.
  assert (B : Rabs (total (map (prod_at a b k) p)) <= bpow radix2 (prec + (i + j))).
  { eapply Rle_trans; [apply total_abs|]. eapply Rle_trans; [|exact Hm]. rewrite E, map_app, total_app. pose proof (total_abs_nonneg nat (prod_at a b k) s). lra. }
  split; [|lra]. apply (multiple_float prec emin emax HF (i + j)); auto; [lia|]. clear - Pm. induction p as [|m p (w & IH)]; [exists 0%Z; cbn; ring|]. destruct (Pm m) as (z & Ez). exists (z + w)%Z. cbn [map total]. rewrite Ez, IH, plus_IZR. ring.
Qed.

(** A unit impulse after d zeros, followed by r zeros, delays the signal by d samples and changes
    no bit of it. *)
Theorem C71_impulse : forall prec emin emax rnd x d r, ieee prec emin emax -> rounds_to_nearest prec emin emax rnd ->
  (forall v, In v x -> is_float prec emin v /\ in_range emax v) ->
  rdirect_convolve rnd x (repeat 0 d ++ [1] ++ repeat 0 r) = Ok (repeat 0 d ++ x ++ repeat 0 r) /\
  rdirect_convolve rnd (repeat 0 d ++ [1] ++ repeat 0 r) x = Ok (repeat 0 d ++ x ++ repeat 0 r).
Proof.
  intros prec emin emax rnd x d r HF Hr Hx. set (h := repeat 0 d ++ [1] ++ repeat 0 r). assert (Lh : length h = (d + 1 + r)%nat) by (unfold h; rewrite !app_length, !repeat_length; cbn; lia).
  assert (Nh : forall i, nth i h 0 = if (i =? d)%nat then 1 else 0).
  { intros i. unfold h. destruct (Nat.eqb_spec i d) as [->|N].
    - rewrite app_nth2; rewrite repeat_length; [|lia]. rewrite Nat.sub_diag. auto.
    - destruct (Nat.lt_ge_cases i d); [rewrite app_nth1 by (rewrite repeat_length; auto); apply nth_repeat|]. rewrite app_nth2 by (rewrite repeat_length; lia). rewrite repeat_length.
      destruct (i - d)%nat eqn:E; [lia|]. cbn [app nth]. apply nth_repeat. }
  assert (Fx : forall i, is_float prec emin (nth i x 0) /\ Rabs (nth i x 0) <= bpow radix2 emax).
  { intros i. destruct (Nat.lt_ge_cases i (length x)); [apply Hx, nth_In; auto|]. rewrite nth_overflow by auto. rewrite Rabs_R0. split; [apply generic_format_0|apply bpow_ge_0]. }
  assert (F0 : is_float prec emin 0 /\ Rabs 0 <= bpow radix2 emax) by (rewrite Rabs_R0; split; [apply generic_format_0|apply bpow_ge_0]).
  assert (K : forall a b k c, NoDup (window a b k) -> (forall m, In m (window a b k) -> m <> c -> prod_at a b k m = 0) -> is_float prec emin (prod_at a b k c) /\ Rabs (prod_at a b k c) <= bpow radix2 emax ->
    rdirect_at rnd a b k = lconv a b k).
  { intros a b k c ND Z Fc. rewrite <- window_total. unfold rdirect_at.
    assert (R1 : forall m, In m (window a b k) -> rprod rnd a b k m = prod_at a b k m).
    { intros m Hi. unfold rprod. destruct (Nat.eq_dec m c) as [-> |N]; [apply (rnd_id prec emin emax HF rnd Hr); tauto|]. rewrite Z by auto. apply (rnd_0 prec emin emax HF rnd Hr). }
    rewrite <- (map_ext_in _ _ _ R1). apply (rsum_exact prec emin emax rnd HF Hr). intros p s E.
    assert (Ep : map (rprod rnd a b k) p = map (prod_at a b k) p) by (apply map_ext_in; intros m Hi; apply R1; rewrite E; apply in_or_app; auto). rewrite Ep.
    assert (T : total (map (prod_at a b k) p) = 0 \/ total (map (prod_at a b k) p) = prod_at a b k c).
    { apply single_total; [rewrite E in ND; apply (NoDup_prefix _ _ _ ND)|]. intros m Hi. apply Z. rewrite E. apply in_or_app. auto. }
    destruct T as [-> | ->]; auto. }
  assert (W : forall a b k, NoDup (window a b k)) by (intros; apply seq_NoDup).
  assert (KL : forall k, rdirect_at rnd x h k = lconv x h k).
  { intros k. destruct (Nat.le_gt_cases d k) as [Hk|Hk].
    - apply (K x h k (k - d)%nat); auto.
      + intros m Hm N. apply in_seq in Hm. unfold prod_at. rewrite Nh. destruct (Nat.eqb_spec (k - m) d); [lia|ring].
      + unfold prod_at. rewrite Nh. replace (k - (k - d))%nat with d by lia. rewrite Nat.eqb_refl, Rmult_1_r. auto.
    - apply (K x h k (S k)); auto; unfold prod_at; rewrite ?Nh.
      + intros m Hm N. rewrite Nh. destruct (Nat.eqb_spec (k - m) d); [lia|ring].
      + replace (k - S k)%nat with 0%nat by lia. destruct (Nat.eqb_spec 0 d); [lia|]. rewrite Rmult_0_r. auto. }
  assert (KR : forall k, rdirect_at rnd h x k = lconv h x k).
  { intros k. apply (K h x k d); auto.
    + intros m Hm N. unfold prod_at. rewrite Nh. destruct (Nat.eqb_spec m d); [lia|ring].
    + unfold prod_at. rewrite Nh, Nat.eqb_refl, Rmult_1_l. auto. }
  assert (LC : forall k, lconv x h k = if (k <? d)%nat then 0 else nth (k - d) x 0).
  { intros k. rewrite lconv_comm. unfold lconv. destruct (Nat.ltb_spec k d).
    - apply Rsum_0. intros m Hm. rewrite Nh. destruct (Nat.eqb_spec m d); [lia|ring].
    - replace (S k) with (d + S (k - d))%nat by lia. rewrite Rsum_split, Rsum_0, Rsum_first by (intros m Hm; rewrite Nh; destruct (Nat.eqb_spec m d); [lia|ring]).
      rewrite Nat.add_0_r, Nh, Nat.eqb_refl, Rsum_0; [ring|]. intros m Hm. rewrite Nh. destruct (Nat.eqb_spec (d + S m) d); [lia|ring]. }
  assert (Y : tab (d + length x + r) (lconv x h) = repeat 0 d ++ x ++ repeat 0 r).
  { symmetry. apply (list_eq_tab _ 0); [rewrite !app_length, !repeat_length; lia|]. intros k Hk. rewrite LC. destruct (Nat.ltb_spec k d).
    - rewrite app_nth1 by (rewrite repeat_length; auto). apply nth_repeat.
    - rewrite app_nth2; rewrite repeat_length; auto. destruct (Nat.lt_ge_cases (k - d) (length x)); [rewrite app_nth1; auto|]. rewrite app_nth2 by auto. rewrite nth_repeat, nth_overflow; auto. }
  assert (LG : forall a b k, (a = x /\ b = h) \/ (a = h /\ b = x) -> rdirect_at rnd (longer a b) (shorter a b) k = lconv x h k).
  { intros a b k [(-> & ->)|(-> & ->)]; unfold longer, shorter; destruct (_ <=? _)%nat; rewrite ?KL, ?KR; auto; apply lconv_comm. }
  split; rewrite rdirect_ok by lia; f_equal; rewrite <- Y; rewrite Lh; [replace (length x + (d + 1 + r) - 1)%nat with (d + length x + r)%nat by lia|replace (d + 1 + r + length x - 1)%nat with (d + length x + r)%nat by lia]; apply tab_ext; intros k Hk; apply LG; auto.
Qed.

Lemma stuck_at_two_24 : nearest 24 (-149) (16777216 + 1) = 16777216.
Proof.
  replace 16777216 with (IZR 8388608 * bpow radix2 1) at 2 by (change (bpow radix2 1) with 2; lra).
  apply nearest_tie; try lia; auto.
  - rewrite Rabs_pos_eq by lra. change (bpow radix2 (1 + 24 - 1)) with 16777216. change (bpow radix2 (1 + 24)) with 33554432. lra.
  - change (bpow radix2 (- (1))) with (/ 2). lra.
Qed.

Lemma integer_float32 : forall z, (Z.abs z <= 2 ^ 24)%Z -> nearest 24 (-149) (IZR z) = IZR z.
Proof.
  intros z Hz. assert (HF : ieee 24 (-149) 127) by (left; lia). assert (Hr : rounds_to_nearest 24 (-149) 127 (nearest 24 (-149))) by (intros y _; auto).
  apply (rnd_id 24 (-149) 127 HF _ Hr).
  - rewrite <- abs_IZR. apply Rle_trans with (IZR (2 ^ 24)); [apply IZR_le; auto|]. change (IZR (2 ^ 24)) with (bpow radix2 24). apply bpow_le. lia.
  - apply (multiple_float 24 (-149) 127 HF 0); [lia|exists z; cbn; ring|]. rewrite <- abs_IZR. change (bpow radix2 (24 + 0)) with (IZR (2 ^ 24)). apply IZR_le. auto.
Qed.

(** Exchanging operands of the same length reverses the order of every sum and can change the
    result: the exact convolution commutes (C36), the rounded one does not. *)
Theorem C71_commutative_refuted : exists rnd x h, rounds_to_nearest 24 (-149) 127 rnd /\ length x = length h /\ rdirect_convolve rnd x h <> rdirect_convolve rnd h x.
Proof.
  exists (nearest 24 (-149)), [16777216; 1; 1], [1; 1; 1]. split; [intros y _; auto|]. split; auto. rewrite !rdirect_ok by (cbn; lia). intros E. apply (f_equal (fun o => match o with Ok l => nth 2 l 0 | _ => 0 end)) in E. rewrite !nth_tab in E by (cbn; lia). rename E into E2.
  unfold rdirect_at, rsum, rprod, prod_at, window, longer, shorter in E2. cbn in E2.
  assert (I : forall z, (Z.abs z <= 2 ^ 24)%Z -> forall y, y = IZR z -> nearest 24 (-149) y = IZR z) by (intros z Hz y ->; apply integer_float32; auto).
  assert (E1 : nearest 24 (-149) (nearest 24 (-149) (nearest 24 (-149) (0 + nearest 24 (-149) (16777216 * 1)) + nearest 24 (-149) (1 * 1)) + nearest 24 (-149) (1 * 1)) = 16777216).
  { rewrite (I 16777216%Z ltac:(lia) (16777216 * 1)) by ring. rewrite (I 1%Z ltac:(lia) (1 * 1)) by ring. rewrite (I 16777216%Z ltac:(lia) (0 + 16777216)) by ring. rewrite stuck_at_two_24. apply stuck_at_two_24. }
  assert (E3 : nearest 24 (-149) (nearest 24 (-149) (nearest 24 (-149) (0 + nearest 24 (-149) (1 * 1)) + nearest 24 (-149) (1 * 1)) + nearest 24 (-149) (1 * 16777216)) = 16777218).
  { rewrite (I 16777216%Z ltac:(lia) (1 * 16777216)) by ring. rewrite (I 1%Z ltac:(lia) (1 * 1)) by ring. rewrite (I 1%Z ltac:(lia) (0 + 1)) by ring. rewrite (I 2%Z ltac:(lia) (1 + 1)) by lra.
    replace (2 + 16777216) with 16777218 by lra. replace 16777218 with (IZR 8388609 * bpow radix2 1) at 2 by (change (bpow radix2 1) with 2; lra). apply nearest_value; try lia.
    - rewrite Rabs_pos_eq by lra. change (bpow radix2 (1 + 24 - 1)) with 16777216. change (bpow radix2 (1 + 24)) with 33554432. lra.
    - change (bpow radix2 (- (1))) with (/ 2). replace (16777218 * / 2 - 8388609) with 0 by lra. rewrite Rabs_R0. lra. }
  rewrite E1, E3 in E2. lra.
Qed.

(** Cauchy-Schwarz for one sample. *)
Lemma magnitude_norms : forall x h X H k, norm_r x <= X -> norm_r h <= H -> 0 < X -> 0 < H -> magnitude x h k <= X * H.
Proof.
  intros x h X H k HX HH PX PH. unfold lconv.
  assert (Q : forall c Y, norm_r c <= Y -> 0 < Y -> forall n, Rsum n (fun i => nth i c 0 * nth i c 0) <= Y * Y).
  { intros c Y Hc PY n. apply Rle_trans with (Rsum (length c) (fun i => nth i c 0 * nth i c 0)).
    - destruct (Nat.le_ge_cases n (length c)) as [L|L].
      + replace (length c) with (n + (length c - n))%nat by lia. rewrite Rsum_split. rewrite <- (Rplus_0_r (Rsum n _)) at 1. apply Rplus_le_compat_l. apply rsum_sq_pos.
      + right. apply Rsum_le_zero; auto. intros i Hi. rewrite nth_overflow by lia. ring.
    - unfold norm_r in Hc. rewrite <- (rnorm_sq (length c)). pose proof (rnorm_pos (length c) (fun i => nth i c 0)). apply Rmult_le_compat; auto. }
  assert (RV : Rsum (S k) (fun m => nth (k - m) h 0 * nth (k - m) h 0) = Rsum (S k) (fun m => nth m h 0 * nth m h 0)).
  { unfold Rsum. erewrite (bsum_rev _ 0 1 Rplus Rmult Rminus Ropp R_ring). apply bsum_ext. intros i Hi. replace (k - (S k - 1 - i))%nat with i by lia. auto. }
  pose proof (Q x X HX PX (S k)) as Q1. pose proof (Q h H HH PH (S k)) as Q2. rewrite <- RV in Q2.
  apply Rle_trans with (Rsum (S k) (fun m => X * H / 2 * (/ (X * X) * (nth m x 0 * nth m x 0) + / (H * H) * (nth (k - m) h 0 * nth (k - m) h 0)))).
  - clear Q1 Q2 RV. generalize (S k). intros q. induction q as [|n IH]; [cbn; lra|]. change (Rsum (S n) ?f) with (Rsum n f + f n). apply Rplus_le_compat; [apply IH|].
    assert (A : forall c i, nth i (map Rabs c) 0 = Rabs (nth i c 0)) by (intros; rewrite <- (map_nth Rabs c 0), Rabs_R0; auto). rewrite !A. set (a := Rabs (nth n x 0)). set (b := Rabs (nth (k - n) h 0)).
    assert (Ea : nth n x 0 * nth n x 0 = a * a) by (unfold a; rewrite <- Rabs_mult, Rabs_pos_eq; auto; apply Rle_0_sqr). assert (Eb : nth (k - n) h 0 * nth (k - n) h 0 = b * b) by (unfold b; rewrite <- Rabs_mult, Rabs_pos_eq; auto; apply Rle_0_sqr). rewrite Ea, Eb.
    apply Rmult_le_reg_l with (2 * (X * H)); [nra|]. replace (2 * (X * H) * (X * H / 2 * (/ (X * X) * (a * a) + / (H * H) * (b * b)))) with ((H * a) * (H * a) + (X * b) * (X * b)) by (field; lra).
    pose proof (Rle_0_sqr (H * a - X * b)) as S. unfold Rsqr in S. nra.
  - rewrite Rsum_mul_l, Rsum_add, !Rsum_mul_l. apply Rle_trans with (X * H / 2 * (/ (X * X) * (X * X) + / (H * H) * (H * H))); [|right; field; lra].
    apply Rmult_le_compat_l; [nra|]. apply Rplus_le_compat; apply Rmult_le_compat_l; auto; left; apply Rinv_0_lt_compat; nra.
Qed.

(** direct_convolve and fft_convolve agree: every two samples differ by at most
    ((114 p + 9) sqrt(2^p) + 1.02 (L + 1)) u |x| |h|, where 2^p is the transform size. *)
Theorem C71_agrees_with_fft : forall prec emin emax rnd fcos fsin x h X H p L, ieee prec emin emax -> rounds_to_nearest prec emin emax rnd ->
  accurate prec emin fcos cos -> accurate prec emin fsin sin ->
  (0 < length x)%nat -> (0 < length h)%nat -> (2 <= length x + length h - 1 <= 2 ^ 27)%nat ->
  p = Nat.log2_up (length x + length h - 1) -> L = Nat.min (length x) (length h) -> INR (L + 1) * unit_roundoff prec <= 9 / 1000 ->
  norm_r x <= X -> norm_r h <= H -> / 2 ^ 20 <= X <= 2 ^ 40 -> / 2 ^ 20 <= H <= 2 ^ 40 ->
  exists y z, rdirect_convolve rnd x h = Ok y /\ rfft_convolve rnd fcos fsin x h = Ok z /\ length y = length z /\
    forall i, (i < length y)%nat ->
    Rabs (nth i y 0 - nth i z 0) <= ((114 * INR p + 9) * sqrt (INR (2 ^ p)) + 102 / 100 * INR (L + 1)) * unit_roundoff prec * (X * H).
Proof.
  intros prec emin emax rnd fcos fsin x h X H p L HF Hr Hc Hs Lx Lh Ln Hp HL Hu HX HH BX BH.
  assert (Z : exists z, rfft_convolve rnd fcos fsin x h = Ok z /\ length z = (length x + length h - 1)%nat /\
    forall i, (i < length z)%nat -> Rabs (nth i z 0 - lconv x h i) <= (114 * INR p + 9) * unit_roundoff prec * (sqrt (INR (2 ^ p)) * (X * H))).
  { destruct HF as [(-> & -> & ->)|(-> & -> & ->)]; [apply C64_fft_convolve_float|apply C64_fft_convolve_double]; auto. }
  destruct Z as (z & Ez & Lz & Bz). pose proof (u_pos prec emin emax HF) as U. pose proof (prec_range prec emin emax HF) as P.
  assert (PX : 0 < X) by (assert (0 < / 2 ^ 20) by (apply Rinv_0_lt_compat; apply pow_lt; lra); lra). assert (PH : 0 < H) by (assert (0 < / 2 ^ 20) by (apply Rinv_0_lt_compat; apply pow_lt; lra); lra).
  assert (EN : forall c Y, norm_r c <= Y -> forall v, In v c -> Rabs v <= Y).
  { intros c Y Hc' v Hv. destruct (In_nth _ _ 0 Hv) as (i & Hi & <-). eapply Rle_trans; [|exact Hc']. unfold norm_r, rnorm. rewrite <- sqrt_Rsqr_abs. apply sqrt_le_1_alt. unfold Rsqr.
    clear - Hi. induction (length c) as [|n IH]; [lia|]. change (Rsum (S n) ?f) with (Rsum n f + f n). cbv beta. pose proof (rsum_sq_pos n (fun i => nth i c 0)) as S0. cbv beta in S0. destruct (Nat.eq_dec i n) as [-> |N]; [lra|]. specialize (IH ltac:(lia)). pose proof (Rle_0_sqr (nth n c 0)) as S. unfold Rsqr in S. lra. }
  assert (Le : INR L <= 2 ^ 27). { apply Rle_trans with (INR (2 ^ 27)); [apply le_INR; subst L; lia|]. rewrite pow_INR. change (INR 2) with 2. lra. }
  pose proof (pos_INR L) as L0.
  destruct (C71_error_practical prec emin emax rnd x h L X H HF Hr ltac:(lia) HL Hu ltac:(lra) ltac:(lra) (EN _ _ HX) (EN _ _ HH)) as (y & Ey & Ly & By & _).
  { apply Rle_trans with (2 ^ 27 * (2 ^ 40 * 2 ^ 40)); [apply Rmult_le_compat; try lra; [apply Rmult_le_pos; lra|apply Rmult_le_compat; lra]|]. apply Rle_trans with (bpow radix2 107); [right; change (bpow radix2 107) with (IZR (2 ^ 107)); rewrite <- !pow_add, pow_IZR; f_equal|apply bpow_le; lia]. }
  exists y, z. split; auto. split; auto. split; [congruence|]. intros i Hi. specialize (By i Hi). specialize (Bz i ltac:(lia)). set (u := unit_roundoff prec) in *.
  pose proof (magnitude_norms x h X H i HX HH PX PH) as MN. set (M := magnitude x h i) in *. rewrite plus_INR in *. change (INR 1) with 1 in *.
  replace (nth i y 0 - nth i z 0) with ((nth i y 0 - lconv x h i) - (nth i z 0 - lconv x h i)) by ring. eapply Rle_trans; [apply Rabs_triang|]. rewrite Rabs_Ropp.
  assert (T : INR L * bpow radix2 emin <= 1 / 100 * (INR L + 1) * u * (X * H)).
  { assert (E20 : bpow radix2 (-20) = / 2 ^ 20). { change (-20)%Z with (Z.opp 20). rewrite bpow_opp. f_equal. change (bpow radix2 20) with (IZR (2 ^ 20)). rewrite pow_IZR. f_equal. }
    assert (XH : bpow radix2 (-20) * bpow radix2 (-20) <= X * H). { rewrite E20. pose proof (bpow_ge_0 radix2 (-20)) as B0. rewrite E20 in B0. apply Rmult_le_compat; lra. }
    rewrite <- bpow_plus in XH. change (-20 + -20)%Z with (-40)%Z in XH.
    assert (Y : bpow radix2 emin <= bpow radix2 (-7) * u * bpow radix2 (-40)). { unfold u, unit_roundoff. rewrite <- !bpow_plus. apply bpow_le. lia. }
    assert (B7 : bpow radix2 (-7) <= 1 / 100). { change (-7)%Z with (Z.opp 7). rewrite bpow_opp. change (bpow radix2 7) with 128. lra. }
    apply Rle_trans with ((INR L + 1) * (bpow radix2 (-7) * u * bpow radix2 (-40))); [apply Rmult_le_compat; try lra; apply bpow_ge_0|].
    replace (1 / 100 * (INR L + 1) * u * (X * H)) with ((INR L + 1) * (1 / 100 * u * (X * H))) by ring. apply Rmult_le_compat_l; [lra|]. apply Rmult_le_compat; [|apply bpow_ge_0| |auto].
    - apply Rmult_le_pos; [apply bpow_ge_0|lra].
    - apply Rmult_le_compat_r; lra. }
  assert (D : 101 / 100 * (INR L + 1) * u * M <= 101 / 100 * (INR L + 1) * u * (X * H)) by (apply Rmult_le_compat_l; auto; repeat apply Rmult_le_pos; lra).
  replace (((114 * INR p + 9) * sqrt (INR (2 ^ p)) + 102 / 100 * (INR L + 1)) * u * (X * H)) with
    ((101 / 100 * (INR L + 1) * u * (X * H) + 1 / 100 * (INR L + 1) * u * (X * H)) + (114 * INR p + 9) * u * (sqrt (INR (2 ^ p)) * (X * H))) by (field; lra). lra.
Qed.

(** The hypotheses can be met: correctly rounded float arithmetic, a thousand samples, 512 taps. *)
Example C71_hypotheses : exists rnd x h X H, rounds_to_nearest 24 (-149) 127 rnd /\ ieee 24 (-149) 127 /\ length x = 1000%nat /\ length h = 512%nat /\
  INR (Nat.min (length x) (length h) + 1) * unit_roundoff 24 <= 9 / 1000 /\ 0 <= X /\ 0 <= H /\
  (forall v, In v x -> Rabs v <= X) /\ (forall v, In v h -> Rabs v <= H) /\ INR (Nat.min (length x) (length h)) * (X * H) <= bpow radix2 (127 - 2).
Proof.
  exists (nearest 24 (-149)), (repeat (/ 3) 1000), (repeat (-2) 512), 1, 2. split; [intros y _; auto|]. split; [left; lia|]. rewrite !repeat_length. split; auto. split; auto.
  change (Nat.min 1000 512) with 512%nat. rewrite plus_INR, (INR_IZR_INZ 512). change (Z.of_nat 512) with 512%Z. change (INR 1) with 1.
  split. { unfold unit_roundoff. change (- (24))%Z with (Z.opp 24). rewrite bpow_opp. change (bpow radix2 24) with 16777216. lra. }
  split; [lra|]. split; [lra|]. split; [intros v Hv; apply repeat_spec in Hv; subst; rewrite Rabs_pos_eq; lra|]. split; [intros v Hv; apply repeat_spec in Hv; subst; rewrite Rabs_left; lra|].
  apply Rle_trans with (bpow radix2 10); [change (bpow radix2 10) with 1024; lra|apply bpow_le; lia].
Qed.

Print Assumptions C71_error.
Print Assumptions C71_error_practical.
Print Assumptions C71_into.
Print Assumptions C71_commutative.
Print Assumptions C71_multiples_exact.
Print Assumptions C71_impulse.
Print Assumptions C71_commutative_refuted.
Print Assumptions C71_agrees_with_fft.
