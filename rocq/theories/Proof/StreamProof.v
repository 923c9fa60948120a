(** Streams of blocks through overlap_save and overlap_add with any history-dependent callback. *)
From Coq Require Import Reals List Arith Lia Lra Bool ZArith.
From Verif Require Import Base.Outcome Base.OutcomeFacts Base.Sums Base.Cplx Base.Alias Spec.Dft Spec.Transforms
  Spec.Convolution Model.Fft2 Model.Integers Model.Algorithm Model.FftApps Model.Convolution
  Proof.DftTheory Proof.Fft2Proof Proof.IntegersProof Proof.AlgorithmProof Proof.RfftProof Proof.ConvTheory
  Proof.FftConvProof Proof.OverlapProof.
Import ListNotations.
Local Arguments Nat.div : simpl never.
Local Arguments Nat.modulo : simpl never.
Local Arguments Nat.pow : simpl never.

(** x(a - b), zero before the start. *)
Definition delayed (x : list R) (a b : nat) : R := if b <=? a then nth (a - b) x 0%R else 0%R.

Lemma delayed_shift : forall x a b c, delayed x (a + c) (b + c) = delayed x a b.
Proof.
  intros. unfold delayed. replace (a + c - (b + c)) with (a - b) by lia.
  destruct (Nat.leb_spec (b + c) (a + c)), (Nat.leb_spec b a); try lia; reflexivity.
Qed.

Lemma delayed_eq : forall x a b a' b', a + b' = a' + b -> delayed x a b = delayed x a' b'.
Proof.
  intros. rewrite <- (delayed_shift x a b b'), <- (delayed_shift x a' b' b). f_equal; lia.
Qed.

Lemma lconv_delayed : forall x h T L, length h <= L ->
  lconv x h T = Rsum L (fun j => nth j h 0 * delayed x T j)%R.
Proof.
  intros x h T L HL. unfold lconv.
  unfold Rsum at 1. rewrite (bsum_rev _ _ _ _ _ _ _ R_ring). fold (Rsum (S T)).
  assert (E : Rsum (S T) (fun i => (fun m => nth m x 0 * nth (T - m) h 0)%R (S T - 1 - i)%nat) =
              Rsum (S T) (fun j => nth j h 0 * delayed x T j)%R).
  { apply Rsum_ext. intros i Hi. unfold delayed. destruct (Nat.leb_spec i T); [|lia].
    replace (S T - 1 - i) with (T - i) by lia. replace (T - (T - i)) with i by lia. ring. }
  etransitivity; [exact E|]. clear E.
  assert (Z1 : forall j, T < j -> (nth j h 0 * delayed x T j)%R = 0%R).
  { intros j Hj. unfold delayed. destruct (Nat.leb_spec j T); [lia|ring]. }
  assert (Z2 : forall j, length h <= j -> (nth j h 0 * delayed x T j)%R = 0%R).
  { intros j Hj. rewrite nth_overflow by auto. ring. }
  destruct (le_lt_dec (S T) L) as [A|A].
  - symmetry. apply Rsum_le_zero; auto. intros j Hj. apply Z1. lia.
  - apply Rsum_le_zero; [lia|]. intros j Hj. apply Z2. lia.
Qed.

Lemma Rsum_block : forall a b f,
  Rsum (a * b) f = Rsum a (fun i => Rsum b (fun j => f (i * b + j)%nat)).
Proof. intros. unfold Rsum. apply (bsum_block _ _ _ _ _ _ _ R_ring). Qed.

Lemma nth_concat_blocks : forall B (l : list (list R)) t i, blocks_of B l -> t < length l -> i < B ->
  nth (t * B + i) (concat l) 0%R = nth i (nth t l []) 0%R.
Proof.
  intros B l. induction l as [|a l IH]; intros t i Hb Ht Hi; [simpl in Ht; lia|].
  assert (La : length a = B) by (apply Hb; left; auto). simpl concat. destruct t.
  - simpl. rewrite app_nth1 by lia. reflexivity.
  - rewrite app_nth2 by (rewrite La; lia). rewrite La. replace (S t * B + i - B) with (t * B + i) by lia.
    simpl nth. apply IH; auto. { intros y Hy. apply Hb. now right. } { simpl in Ht. lia. }
Qed.

Lemma concat_blocks_length : forall B (l : list (list R)), blocks_of B l -> length (concat l) = length l * B.
Proof.
  intros B l. induction l as [|a l IH]; intros Hb; auto. simpl. rewrite app_length, IH.
  - rewrite (Hb a); [lia|now left].
  - intros y Hy. apply Hb. now right.
Qed.

Lemma concat_tab_blocks : forall B n (f : nat -> nat -> R),
  concat (tab n (fun t => tab B (f t))) = tab (n * B) (fun k => f (k / B) (k mod B)).
Proof.
  intros B n f. destruct (Nat.eq_dec B 0) as [->|HB].
  { rewrite Nat.mul_0_r. unfold tab at 1 3. simpl seq. simpl map. induction (seq 0 n); simpl; auto. }
  apply (list_eq_tab _ 0%R).
  - rewrite (concat_blocks_length B); [now rewrite tab_length|]. intros y Hy. unfold tab in Hy at 1.
    apply in_map_iff in Hy. destruct Hy as (t & <- & _). apply tab_length.
  - intros k Hk. rewrite (Nat.div_mod k B) at 1 by lia. rewrite Nat.mul_comm.
    assert (k / B < n) by (apply Nat.div_lt_upper_bound; lia).
    rewrite nth_concat_blocks; rewrite ?tab_length; auto.
    + rewrite nth_tab by auto. rewrite nth_tab; auto. apply Nat.mod_upper_bound. lia.
    + intros y Hy. unfold tab in Hy at 1. apply in_map_iff in Hy. destruct Hy as (t & <- & _). apply tab_length.
    + apply Nat.mod_upper_bound. lia.
Qed.

Lemma skipn_cons_nth : forall A (d : A) l t a r, skipn t l = a :: r -> t < length l /\ nth t l d = a /\ skipn (S t) l = r.
Proof.
  intros A d l. induction l; intros [|t] b r H; simpl in *; try discriminate.
  - injection H as <- <-. repeat split; auto; lia.
  - destruct (IHl _ _ _ H) as (L & N & S'). repeat split; auto; lia.
Qed.

Lemma tab_cons : forall A n (f : nat -> A), tab (S n) f = f 0 :: tab n (fun i => f (S i)).
Proof. intros. unfold tab. simpl. f_equal. rewrite <- seq_shift, map_map. reflexivity. Qed.

(** A callback whose answer is a function of all spectra seen so far. *)
Definition cb_spec {St} (M : nat) (Inv : list (list C) -> St -> Prop) (Y : list (list C) -> list C)
  (cb : list C -> St -> outcome (list C * St)) : Prop :=
  forall hist X st, Inv hist st -> length X = M ->
    exists st', cb X st = Ok (Y (hist ++ [X]), st') /\ length (Y (hist ++ [X])) = M /\ Inv (hist ++ [X]) st'.

Lemma tab_snoc : forall A n (f : nat -> A), tab (S n) f = tab n f ++ [f n].
Proof. intros. unfold tab. rewrite seq_S, map_app. reflexivity. Qed.

Section Save.
Variable St : Type.
Variables B F : nat.
Hypothesis HB : 0 < B.
Hypothesis H2 : 2 <= B + F - 1.
Let K := 2 ^ Nat.log2_up (B + F - 1).
Variable q : nat.
Hypothesis HK : K = q * B.
Hypothesis Hq : 0 < q.
Variable all : list (list R).
Hypothesis Hall : blocks_of B all.
Let x := concat all.

(** Window after t blocks: the last K samples of the stream so far. *)
Definition os_win (t : nat) : list R := tab K (fun j => delayed x (t * B + j) K).
Definition os_hist (t : nat) : list (list C) := tab t (fun u => RDFT_list Forward (os_win (S u))).

Lemma os_next_win : forall t, t < length all -> os_next B (os_win t) (nth t all []) = os_win (S t).
Proof.
  intros t Ht. unfold os_next. assert (L : length (os_win t) = K) by apply tab_length. rewrite L.
  apply tab_ext. intros j Hj. destruct (Nat.leb_spec (K - B) j) as [A|A].
  - unfold delayed. assert (B <= K) by (rewrite HK; destruct q; simpl in *; [lia|lia]).
    destruct (Nat.leb_spec K (S t * B + j)); [|lia].
    replace (S t * B + j - K) with (t * B + (j - (K - B))) by lia. symmetry. unfold x. apply nth_concat_blocks; auto. lia.
  - unfold slid. rewrite L, nth_tab by lia.
    assert (E : (K / B - 1) * B = K - B). { rewrite HK, Nat.div_mul by lia. rewrite Nat.mul_sub_distr_r. lia. }
    rewrite E. destruct (Nat.ltb_spec j (K - B)); [|lia].
    unfold os_win. rewrite nth_tab by lia. f_equal. lia.
Qed.

Variable cb : list C -> St -> outcome (list C * St).
Variable Inv : list (list C) -> St -> Prop.
Variable Y : list (list C) -> list C.
Hypothesis Hcb : cb_spec (K / 2 + 1) Inv Y cb.

Lemma os_stream_ok : forall rest t o st, skipn t all = rest -> os_inv B F (os_win t) o -> Inv (os_hist t) st ->
  exists o' st', ov_stream ols cb o st rest =
    Ok (o', tab (length rest) (fun u => tab B (fun i => synth K (Y (os_hist (S (t + u)))) (K - B + i))), st') /\
    os_inv B F (os_win (t + length rest)) o' /\ Inv (os_hist (t + length rest)) st'.
Proof.
  induction rest as [|b rest IH]; intros t o st Hs Io Is.
  - exists o, st. simpl. rewrite Nat.add_0_r. auto.
  - destruct (skipn_cons_nth _ [] _ _ _ _ Hs) as (Ht & Hn & Hs').
    assert (Lb : length b = B). { apply Hall. rewrite <- Hn. now apply nth_In. }
    assert (HBK : B <= K) by (rewrite HK; destruct q; simpl in *; lia).
    assert (LX : length (RDFT_list Forward (os_win (S t))) = K / 2 + 1).
    { rewrite RDFT_list_length. unfold os_win. rewrite tab_length. reflexivity. }
    destruct (Hcb (os_hist t) (RDFT_list Forward (os_win (S t))) st Is LX) as (st1 & E1 & LY & I1).
    assert (EH : os_hist t ++ [RDFT_list Forward (os_win (S t))] = os_hist (S t)).
    { unfold os_hist. rewrite tab_snoc. reflexivity. }
    rewrite EH in *.
    destruct (overlap_save_run_ok St B F (os_win t) o b cb st (Y (os_hist (S t))) st1) as (o1 & E2 & I2); auto.
    { rewrite <- Hn, os_next_win by auto. exact E1. }
    simpl ov_stream. rewrite E2. cbn [bind].
    destruct (IH (S t) o1 st1 Hs') as (o' & st' & E3 & I3 & J3); auto.
    { rewrite <- Hn, os_next_win in I2 by auto. exact I2. }
    rewrite E3. cbn [bind]. exists o', st'. split; [|split].
    + f_equal. f_equal. f_equal. simpl length. rewrite tab_cons. f_equal.
      * assert (L : length (os_win t) = K) by apply tab_length. rewrite L, Nat.add_0_r. reflexivity.
      * apply tab_ext. intros u Hu. replace (t + S u) with (S t + u) by lia. reflexivity.
    + simpl length. replace (t + S (length rest)) with (S t + length rest) by lia. exact I3.
    + simpl length. replace (t + S (length rest)) with (S t + length rest) by lia. exact J3.
Qed.

Lemma os_win_0 : os_win 0 = repeat 0%R K.
Proof.
  apply (list_eq_nth _ 0%R). { unfold os_win. now rewrite tab_length, repeat_length. }
  intros i Hi. unfold os_win in *. rewrite tab_length in Hi. rewrite nth_tab, nth_repeat by auto.
  unfold delayed. destruct (Nat.leb_spec K (0 * B + i)); [lia|reflexivity].
Qed.

Lemma os_stream_all : forall o st, os_inv B F (repeat 0%R K) o -> Inv [] st ->
  exists o' st', ov_stream ols cb o st all =
    Ok (o', tab (length all) (fun t => tab B (fun i => synth K (Y (os_hist (S t))) (K - B + i))), st').
Proof.
  intros o st Io Is. rewrite <- os_win_0 in Io.
  destruct (os_stream_ok all 0 o st eq_refl Io Is) as (o' & st' & E & _). eauto.
Qed.
End Save.

Section Add.
Variable St : Type.
Variables B F : nat.
Hypothesis H2 : 2 <= B + F - 1.
Let K := 2 ^ Nat.log2_up (B + F - 1).
Hypothesis HK : B * 2 <= K.
Variable all : list (list R).
Hypothesis Hall : blocks_of B all.
Let x := concat all.

(** Block t followed by zeros. *)
Definition oa_blk (t j : nat) : R := if j <? B then nth (t * B + j) x 0%R else 0%R.
Definition oa_win (t : nat) : list R := tab K (oa_blk t).
Definition oa_hist (t : nat) : list (list C) := tab t (fun u => RDFT_list Forward (oa_win u)).

Variable cb : list C -> St -> outcome (list C * St).
Variable Inv : list (list C) -> St -> Prop.
Variable Y : list (list C) -> list C.
Hypothesis Hcb : cb_spec (K / 2 + 1) Inv Y cb.
Hypothesis Htail : forall t j, t < length all -> B * 2 <= j < K -> synth K (Y (oa_hist (S t))) j = 0%R.

Definition oa_carry (t : nat) : list R := tab B (fun i => if t =? 0 then 0%R else synth K (Y (oa_hist t)) (B + i)).

Lemma oa_stream_ok : forall rest t o st w, skipn t all = rest -> (forall j, B * 2 <= j < K -> nth j w 0%R = 0%R) ->
  oa_inv B F w (oa_carry t) o -> Inv (oa_hist t) st ->
  exists o' st', ov_stream ola cb o st rest =
    Ok (o', tab (length rest) (fun u => tab B (fun i =>
      synth K (Y (oa_hist (S (t + u)))) i + (if (t + u) =? 0 then 0 else synth K (Y (oa_hist (t + u))) (B + i)))%R), st') /\
    Inv (oa_hist (t + length rest)) st'.
Proof.
  induction rest as [|b rest IH]; intros t o st w Hs Hw Io Is.
  - exists o, st. simpl. rewrite Nat.add_0_r. auto.
  - destruct (skipn_cons_nth _ [] _ _ _ _ Hs) as (Ht & Hn & Hs').
    assert (Lb : length b = B). { apply Hall. rewrite <- Hn. now apply nth_In. }
    assert (Lw : length w = K) by (destruct Io; auto).
    assert (EW : oa_next B w b = oa_win t).
    { unfold oa_next, oa_win, oa_blk. rewrite Lw. apply tab_ext. intros j Hj. destruct (Nat.ltb_spec j B).
      - rewrite <- Hn. symmetry. unfold x. apply nth_concat_blocks; auto.
      - destruct (Nat.ltb_spec j (B * 2)); auto. }
    assert (LX : length (RDFT_list Forward (oa_win t)) = K / 2 + 1).
    { rewrite RDFT_list_length. unfold oa_win. rewrite tab_length. reflexivity. }
    destruct (Hcb (oa_hist t) (RDFT_list Forward (oa_win t)) st Is LX) as (st1 & E1 & LY & I1).
    assert (EH : oa_hist t ++ [RDFT_list Forward (oa_win t)] = oa_hist (S t)).
    { unfold oa_hist. rewrite tab_snoc. reflexivity. }
    rewrite EH in *.
    destruct (overlap_add_run_ok St B F w (oa_carry t) o b cb st (Y (oa_hist (S t))) st1) as (o1 & E2 & I2); auto.
    { rewrite EW. exact E1. }
    simpl ov_stream. rewrite E2. cbn [bind].
    destruct (IH (S t) o1 st1 (tab (length w) (synth (length w) (Y (oa_hist (S t))))) Hs') as (o' & st' & E3 & J3).
    { intros j Hj. rewrite Lw, nth_tab by lia. apply Htail; auto. }
    { unfold oa_carry. cbn [Nat.eqb]. rewrite <- Lw. exact I2. }
    { exact I1. }
    rewrite E3. cbn [bind]. exists o', st'. split.
    + f_equal. f_equal. f_equal. simpl length. rewrite tab_cons. f_equal.
      * rewrite Lw, Nat.add_0_r. apply tab_ext. intros i Hi. unfold oa_carry. rewrite nth_tab by auto. reflexivity.
      * apply tab_ext. intros u Hu. replace (t + S u) with (S t + u) by lia. reflexivity.
    + simpl length. replace (t + S (length rest)) with (S t + length rest) by lia. exact J3.
Qed.

Lemma oa_stream_all : forall o st, oa_inv B F (repeat 0%R K) (repeat 0%R B) o -> Inv [] st ->
  exists o' st', ov_stream ola cb o st all =
    Ok (o', tab (length all) (fun t => tab B (fun i =>
      synth K (Y (oa_hist (S t))) i + (if t =? 0 then 0 else synth K (Y (oa_hist t)) (B + i)))%R), st').
Proof.
  intros o st Io Is.
  destruct (oa_stream_ok all 0 o st (repeat 0%R K)) as (o' & st' & E & _); eauto.
  - intros j Hj. apply nth_repeat.
  - replace (oa_carry 0) with (repeat 0%R B); auto. unfold oa_carry. cbn [Nat.eqb].
    apply (list_eq_tab _ 0%R). { apply repeat_length. } intros i Hi. apply nth_repeat.
Qed.
End Add.
