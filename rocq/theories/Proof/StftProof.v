(** Framing, STFT content and uniform partitioning. *)
From Coq Require Import Reals List Arith Lia Lra Bool ZArith.
From Verif Require Import Base.Outcome Base.OutcomeFacts Base.Sums Base.Cplx Base.Alias Spec.Dft Spec.Transforms
  Spec.Convolution Spec.Stft Model.Fft2 Model.Integers Model.Algorithm Model.FftApps Model.Convolution Model.Stft
  Proof.DftTheory Proof.Fft2Proof Proof.IntegersProof Proof.AlgorithmProof Proof.RfftProof Proof.ConvTheory
  Proof.FftConvProof Proof.DirectConvProof Proof.OverlapProof Proof.StreamProof Proof.LtiProof Proof.UpcProof Proof.UpcInstances.
Import ListNotations.
Local Arguments Nat.div : simpl never.
Local Arguments Nat.modulo : simpl never.
Local Arguments Nat.pow : simpl never.
Local Arguments Z.pow : simpl never.

(** ** The number of frames *)

Lemma usize_arith : forall v, iarith usize v = Ok (v mod 2 ^ 64)%Z.
Proof. reflexivity. Qed.

Lemma frames_ok : forall S F O, (1 <= S < 2 ^ 64 -> 0 <= O < F -> F < 2 ^ 64 ->
  num_sftf_frames S F O = Ok ((S - 1) / (F - O) + 1))%Z.
Proof.
  intros S F O HS HO HF. unfold num_sftf_frames, idiv. repeat (rewrite !usize_arith; cbn [bind]).
  set (W := (2 ^ 64)%Z) in *.
  rewrite (Z.mod_small (F - O)) by lia.
  assert (E : ((((((S - F) mod W + O) mod W + (F - O)) mod W) - 1) mod W = S - 1)%Z).
  { rewrite Z.add_mod_idemp_l by lia. replace ((S - F) mod W + O + (F - O))%Z with ((S - F) mod W + F)%Z by lia.
    rewrite Z.add_mod_idemp_l by lia. replace (S - F + F)%Z with S by lia.
    rewrite (Z.mod_small S) by lia. apply Z.mod_small. lia. }
  rewrite E. destruct (Z.eqb_spec (F - O) 0); [lia|]. cbn [bind].
  rewrite Z.quot_div_nonneg by lia.
  assert (Q : (0 <= (S - 1) / (F - O) <= S - 1)%Z).
  { split. { apply Z.div_pos; lia. } apply Z.div_le_upper_bound; [lia|]. pose proof (Z.mul_le_mono_nonneg_r 1 (F - O) (S - 1) ltac:(lia) ltac:(lia)). lia. }
  assert (I : iconv usize (((S - 1) / (F - O)) mod W) = ((S - 1) / (F - O))%Z).
  { unfold iconv. cbn [isigned usize iwidth]. fold W. rewrite Zmod_mod. apply Z.mod_small. lia. }
  rewrite I, usize_arith. fold W. rewrite Z.mod_small by lia. reflexivity.
Qed.

Lemma frames_zero : forall F O, (0 <= O < F -> F < 2 ^ 64 -> num_sftf_frames 0 F O = Ok (((2 ^ 64 - 1) / (F - O) + 1) mod 2 ^ 64))%Z.
Proof.
  intros F O HO HF. unfold num_sftf_frames, idiv. repeat (rewrite !usize_arith; cbn [bind]).
  set (W := (2 ^ 64)%Z) in *. assert (HW : (W = 18446744073709551616)%Z) by reflexivity.
  rewrite (Z.mod_small (F - O)) by lia.
  assert (E : ((((((0 - F) mod W + O) mod W + (F - O)) mod W) - 1) mod W = W - 1)%Z).
  { rewrite Z.add_mod_idemp_l by lia. replace ((0 - F) mod W + O + (F - O))%Z with ((0 - F) mod W + F)%Z by lia.
    rewrite Z.add_mod_idemp_l by lia. replace (0 - F + F)%Z with 0%Z by lia.
    rewrite Z.mod_0_l by lia. replace (0 - 1)%Z with (W - 1 + (-1) * W)%Z by lia. rewrite Z.mod_add by lia. apply Z.mod_small. lia. }
  rewrite E. destruct (Z.eqb_spec (F - O) 0); [lia|]. cbn [bind].
  rewrite Z.quot_div_nonneg by lia.
  assert (Q : (0 <= (W - 1) / (F - O) <= W - 1)%Z).
  { split. { apply Z.div_pos; lia. } apply Z.div_le_upper_bound; [lia|]. pose proof (Z.mul_le_mono_nonneg_r 1 (F - O) (W - 1) ltac:(lia) ltac:(lia)). lia. }
  assert (I : iconv usize (((W - 1) / (F - O)) mod W) = ((W - 1) / (F - O))%Z).
  { unfold iconv. cbn [isigned usize iwidth]. fold W. rewrite Zmod_mod. apply Z.mod_small. lia. }
  rewrite I. reflexivity.
Qed.

Lemma frames_no_hop : forall S F, (0 <= F < 2 ^ 64)%Z -> num_sftf_frames S F F = UB.
Proof.
  intros S F H. unfold num_sftf_frames, idiv. repeat (rewrite !usize_arith; cbn [bind]).
  rewrite Z.sub_diag. reflexivity.
Qed.

(** Over the naturals: ceil(S / hop). *)
Lemma ceil_div_pos : forall n b, 0 < n -> 0 < b -> ceil_div n b = (n - 1) / b + 1.
Proof.
  intros n b Hn Hb. unfold ceil_div. replace (n + b - 1) with (n - 1 + 1 * b) by lia. rewrite Nat.div_add by lia. lia.
Qed.

Lemma ceil_div_covers : forall n b i, 0 < b -> i < n -> i / b < ceil_div n b /\ i / b * b <= i < i / b * b + b.
Proof.
  intros n b i Hb Hi. rewrite ceil_div_pos by lia. split.
  - assert (i / b <= (n - 1) / b) by (apply Nat.div_le_mono; lia). lia.
  - pose proof (Nat.div_mod i b ltac:(lia)). pose proof (Nat.mod_upper_bound i b ltac:(lia)). lia.
Qed.

Lemma ceil_div_inside : forall n b f, 0 < n -> 0 < b -> f < ceil_div n b -> f * b < n.
Proof.
  intros n b f Hn Hb Hf. rewrite ceil_div_pos in Hf by lia.
  assert (f <= (n - 1) / b) by lia. pose proof (Nat.mul_div_le (n - 1) b ltac:(lia)). nia.
Qed.

Lemma ceil_div_mul : forall n b, 0 < b -> n <= ceil_div n b * b.
Proof.
  intros n b Hb. destruct (Nat.eq_dec n 0). { lia. }
  destruct (ceil_div_covers n b (n - 1) Hb ltac:(lia)) as [H1 H2]. nia.
Qed.

Lemma frames_nat : forall S F O, 0 < S -> O < F -> (Z.of_nat S < 2 ^ 64)%Z -> (Z.of_nat F < 2 ^ 64)%Z ->
  num_sftf_frames (Z.of_nat S) (Z.of_nat F) (Z.of_nat O) = Ok (Z.of_nat (ceil_div S (F - O))).
Proof.
  intros S F O HS HO HS' HF'. rewrite frames_ok by lia. rewrite ceil_div_pos by lia.
  rewrite Nat2Z.inj_add, Nat2Z.inj_div, !Nat2Z.inj_sub by lia. reflexivity.
Qed.

(** ** Windows *)

Lemma fill_window_ok : forall v w, fill_window v w = Ok (tab (length v) (fun i => w i (length v))).
Proof.
  intros v w. unfold fill_window. apply (for_range_tab _ 0%R); auto.
  intros j l Hj Hl _. rewrite wr_ok by lia. reflexivity.
Qed.

Lemma generate_window_ok : forall w n, generate_window w n = Ok (tab n (fun i => w i n)).
Proof. intros. unfold generate_window. rewrite fill_window_ok, repeat_length. reflexivity. Qed.

(** ** STFT *)

Record st_inv (o : stft_options) (p : stft_plan) : Prop := StInv {
  sti_options : st_options p = o;
  sti_rfft : rf_inv (Nat.log2_up (so_transform o)) (st_rfft p);
  sti_input : length (st_input p) = 2 ^ Nat.log2_up (so_transform o);
  sti_output : length (st_output p) = 2 ^ Nat.log2_up (so_transform o);
  sti_window : st_window p = tab (2 ^ Nat.log2_up (so_transform o)) (fun i => so_window o i (2 ^ Nat.log2_up (so_transform o))) }.

Lemma make_stft_ok : forall o, 2 <= so_transform o <= 2 ^ max_order -> exists p, make_stft_plan o = Ok p /\ st_inv o p.
Proof.
  intros o Ho. unfold make_stft_plan. rewrite next_order_ok by (apply Z_fits; lia). cbn [bind].
  destruct (make_rfft_ok (Nat.log2_up (so_transform o))) as (rf & E & I).
  { split; [apply log2_up_pos'; lia|apply log2_up_max; lia]. }
  rewrite E. cbn [bind]. rewrite fill_window_ok, repeat_length. cbn [bind]. eexists; split; [reflexivity|].
  split; cbn; auto; apply repeat_length.
Qed.

Lemma map_mul_tab : forall n (a b : list R), length a = n -> length b = n ->
  zip_with Rmult a b = tab n (fun i => nth i a 0 * nth i b 0)%R.
Proof.
  intros n a. revert n. induction a as [|x a IH]; intros n [|y b] Ha Hb; simpl in *; subst n; try discriminate; auto.
  rewrite tab_cons. change (zip_with Rmult (x :: a) (y :: b)) with ((x * y)%R :: zip_with Rmult a b). f_equal. apply IH; lia.
Qed.

Section Run.
Variables (o : stft_options) (p : stft_plan) (x : list (list R)) (channels S : nat).
Let F := so_frame o. Let O := so_overlap o. Let H := F - O.
Let K := 2 ^ Nat.log2_up (so_transform o).
Hypothesis HT : 2 <= so_transform o <= 2 ^ max_order.
Hypothesis HO : O < F.
Hypothesis HFK : F <= K.
Hypothesis HS : 0 < S.
Hypothesis HS64 : (Z.of_nat S < 2 ^ 64)%Z.
Hypothesis Ip : st_inv o p.
Hypothesis Hx : matrix_of channels S x.
Let frames := ceil_div S H.
Let bins := K / 2 + 1.

Definition frame_of (c f : nat) : list R := framed K F H (fun i => so_window o i K) (nth c x []) f.

Lemma pow2_Z : forall n, Z.of_nat (2 ^ n) = (2 ^ Z.of_nat n)%Z.
Proof. intros n. rewrite Nat2Z.inj_pow. reflexivity. Qed.

Lemma K_Z : (Z.of_nat K < 2 ^ 64)%Z.
Proof.
  unfold K. rewrite pow2_Z. apply Z.pow_lt_mono_r; try lia.
  assert (Nat.log2_up (so_transform o) <= max_order) by (apply log2_up_max; lia). unfold max_order in *. lia.
Qed.

Lemma frame_start : forall f, f < frames ->
  (((Z.of_nat f * Z.of_nat F) mod 2 ^ 64 - (Z.of_nat f * Z.of_nat O) mod 2 ^ 64) mod 2 ^ 64 = Z.of_nat (f * H))%Z /\ f * H < S.
Proof.
  intros f Hf. assert (Hin : f * H < S) by (apply ceil_div_inside; auto; unfold H; lia). split; auto.
  rewrite <- Zminus_mod. rewrite <- Z.mul_sub_distr_l. replace (Z.of_nat F - Z.of_nat O)%Z with (Z.of_nat H) by (unfold H; lia).
  rewrite <- Nat2Z.inj_mul. apply Z.mod_small. lia.
Qed.

Lemma Kpos : 0 < K / 2 + 1 /\ K / 2 + 1 <= K.
Proof.
  assert (0 < Nat.log2_up (so_transform o)) by (apply log2_up_pos'; lia).
  destruct (pow2_half _ H0) as (m & Hm & E & _). unfold K. rewrite E, half_of_double. lia.
Qed.

Lemma frame_step : forall c f rf inp out result, c < channels -> f < frames ->
  rf_inv (Nat.log2_up (so_transform o)) rf -> length inp = K -> length out = K ->
  length result = channels -> length (nth c result []) = frames -> length (nth f (nth c result []) []) = bins ->
  exists rf' inp' out', stft_frame p x S bins c f (rf, inp, out, result) =
    Ok (rf', inp', out', upd result c (upd (nth c result []) f (RDFT_list Forward (frame_of c f)))) /\
    rf_inv (Nat.log2_up (so_transform o)) rf' /\ length inp' = K /\ length out' = K.
Proof.
  intros c f rf inp out result Hc Hf Irf Hi Ho Hr1 Hr2 Hr3. unfold stft_frame.
  rewrite (sti_options _ _ Ip). fold F O. do 2 (rewrite !usize_arith; cbn [bind]).
  destruct (frame_start f Hf) as [E HfS]. rewrite E. cbn [bind]. rewrite usize_arith. cbn [bind].
  rewrite (Z.mod_small (Z.of_nat S - Z.of_nat (f * H))) by lia.
  replace (Z.of_nat S - Z.of_nat (f * H))%Z with (Z.of_nat (S - f * H)) by lia.
  rewrite <- Nat2Z.inj_min, !Nat2Z.id. set (num := Nat.min (S - f * H) F).
  rewrite (rd_ok _ x c []) by (destruct Hx; lia). cbn [bind].
  assert (Lc : length (nth c x []) = S) by (apply (matrix_row _ channels); auto).
  rewrite (slice_spec _ 0%R) by (unfold num; lia). cbn [bind]. replace (f * H + num - f * H) with num by lia.
  rewrite !fill_ok. cbn [bind].
  rewrite (copy_into_ok _ 0%R) by (rewrite ?repeat_length, ?tab_length; unfold num; lia). cbn [bind].
  rewrite !tab_length, repeat_length, Hi.
  unfold multiply_r. rewrite linalg_binary_ok by (cbn [contents]; rewrite ?tab_length, ?(sti_window _ _ Ip), ?tab_length; reflexivity).
  cbn [contents]. rewrite (map_mul_tab K) by (rewrite ?(sti_window _ _ Ip), ?tab_length; reflexivity). cbn [bind].
  assert (EF : tab K (fun i => nth i (tab K (fun i0 => if (0 <=? i0) && (i0 <? 0 + num) then nth (i0 - 0) (tab num (fun i1 => nth (f * H + i1) (nth c x []) 0)) 0 else nth i0 (repeat 0 K) 0)) 0 * nth i (st_window p) 0)%R = frame_of c f).
  { unfold frame_of, framed. apply tab_ext. intros i Hi'. rewrite nth_tab by auto. rewrite (sti_window _ _ Ip). fold K. rewrite (nth_tab _ K) by auto.
    f_equal. cbn [Nat.leb andb Nat.add]. rewrite nth_repeat, Nat.sub_0_r. unfold num.
    destruct (Nat.ltb_spec i (Nat.min (S - f * H) F)), (Nat.ltb_spec i F); try lia.
    - rewrite nth_tab by lia. reflexivity.
    - symmetry. apply nth_overflow. lia.
    - reflexivity. }
  rewrite EF.
  assert (Lf : length (frame_of c f) = K) by (unfold frame_of, framed; apply tab_length).
  destruct Kpos as [K1 K2].
  destruct (rfft_forward_ok (Nat.log2_up (so_transform o)) rf (frame_of c f) (repeat C0 (length out))) as (rf' & E2 & I2).
  { apply log2_up_pos'; lia. } { exact Irf. } { exact Lf. } { rewrite repeat_length, Ho. fold K. exact K2. }
  rewrite E2. cbn [bind]. fold K. fold bins.
  assert (LR : length (RDFT_list Forward (frame_of c f)) = bins) by (rewrite RDFT_list_length, Lf; reflexivity).
  rewrite (slice_spec _ C0); [| lia | rewrite app_length, LR; apply Nat.le_add_r]. cbn [bind]. rewrite Nat.sub_0_r.
  rewrite (rd_ok _ result c []) by lia. cbn [bind]. rewrite (rd_ok _ _ f []) by lia. cbn [bind].
  rewrite copy_full by (rewrite tab_length; lia). cbn [bind]. rewrite wr_ok by lia. cbn [bind]. rewrite wr_ok by lia. cbn [bind].
  do 3 eexists. split.
  - rewrite map_id. do 5 f_equal. symmetry. apply (list_eq_tab _ C0). { unfold C in *; lia. }
    intros i Hi'. cbn [Nat.add]. rewrite app_nth1 by (unfold C in *; lia). reflexivity.
  - split; [exact I2|]. split; [exact Lf|]. rewrite app_length, skipn_length, repeat_length. unfold bins in *. fold K in Ho. lia.
Qed.

Definition stft_result : list (list (list C)) :=
  tab channels (fun c => tab frames (fun f => RDFT_list Forward (frame_of c f))).

Lemma stft_run_ok : (Z.of_nat channels * Z.of_nat frames * Z.of_nat bins < max_elements)%Z ->
  exists p', stft_run p channels S x = Ok (p', stft_result) /\ st_inv o p'.
Proof.
  intros Hmax. unfold stft_run. destruct (sti_rfft _ _ Ip) as (RO & _ & _). rewrite RO. rewrite (sti_options _ _ Ip). fold F O K. fold bins.
  rewrite frames_nat; auto. 2:{ pose proof K_Z. lia. }
  cbn [bind]. fold H. fold frames. destruct (Z.leb_spec max_elements (Z.of_nat channels * Z.of_nat frames * Z.of_nat bins)); [lia|].
  rewrite Nat2Z.id.
  set (part_result := fun c f => tab channels (fun c' => tab frames (fun f' =>
      if (c' <? c) || ((c' =? c) && (f' <? f)) then RDFT_list Forward (frame_of c' f') else repeat C0 bins))).
  assert (LR : forall c f, length (RDFT_list Forward (frame_of c f)) = bins).
  { intros. rewrite RDFT_list_length. unfold frame_of, framed. rewrite tab_length. reflexivity. }
  match goal with |- context [for_range 0 channels ?body ?s0] =>
    destruct (for_range_inv _ (fun c (s : rfft_plan * list R * list C * list (list (list C))) =>
      let '(rf, inp, out, result) := s in rf_inv (Nat.log2_up (so_transform o)) rf /\ length inp = K /\ length out = K /\
        result = part_result c 0) 0 channels body s0) as ([[[rf inp] out] result] & E & I1 & I2 & I3 & I4) end.
  - lia.
  - split; [apply (sti_rfft _ _ Ip)|]. split; [apply (sti_input _ _ Ip)|]. split; [apply (sti_output _ _ Ip)|].
    unfold part_result. rewrite repeat_tab. apply tab_ext. intros c Hc. rewrite repeat_tab. apply tab_ext. intros f Hf.
    rewrite andb_false_r. reflexivity.
  - intros c [[[rf inp] out] result] Hc (I1 & I2 & I3 & I4).
    match goal with |- exists s', for_range 0 frames ?body ?s0 = _ /\ _ =>
    destruct (for_range_inv _ (fun f (s : rfft_plan * list R * list C * list (list (list C))) =>
      let '(rf, inp, out, result) := s in rf_inv (Nat.log2_up (so_transform o)) rf /\ length inp = K /\ length out = K /\
        result = part_result c f) 0 frames body s0) as ([[[rf' inp'] out'] result'] & E & J1 & J2 & J3 & J4) end.
    + lia.
    + auto.
    + intros f [[[rf' inp'] out'] result'] Hf (J1 & J2 & J3 & ->).
      destruct (frame_step c f rf' inp' out' (part_result c f)) as (rf2 & inp2 & out2 & E & A & B & D); try lia; auto.
      { unfold part_result. apply tab_length. }
      { unfold part_result. rewrite nth_tab by lia. apply tab_length. }
      { unfold part_result. rewrite !nth_tab by lia. destruct (_ || _); [apply LR|apply repeat_length]. }
      eexists. split; [exact E|]. split; [exact A|]. split; [exact B|]. split; [exact D|].
      unfold part_result. rewrite nth_tab by lia. rewrite !upd_tab by lia. apply tab_ext. intros c' Hc'.
      destruct (Nat.eqb_spec c' c).
      * subst c'. apply tab_ext. intros f' Hf'. rewrite Nat.ltb_irrefl. cbn [orb andb].
        destruct (Nat.eqb_spec f' f), (Nat.ltb_spec f' (Datatypes.S f)), (Nat.ltb_spec f' f); try lia; subst; rewrite ?Nat.eqb_refl; auto.
      * apply tab_ext. intros f' Hf'. destruct (Nat.ltb_spec c' c); reflexivity.
    + eexists. split; [exact E|]. split; [exact J1|]. split; [exact J2|]. split; [exact J3|]. rewrite J4.
      unfold part_result. apply tab_ext. intros c' Hc'. apply tab_ext. intros f' Hf'.
      destruct (Nat.ltb_spec c' c), (Nat.eqb_spec c' c), (Nat.ltb_spec f' frames), (Nat.ltb_spec c' (Datatypes.S c)), (Nat.eqb_spec c' (Datatypes.S c)), (Nat.ltb_spec f' 0); try lia; reflexivity.
  - rewrite E. cbn [bind]. eexists. split.
    + f_equal. f_equal. rewrite I4. unfold part_result, stft_result. apply tab_ext. intros c' Hc'. apply tab_ext. intros f' Hf'.
      destruct (Nat.ltb_spec c' channels); [reflexivity|lia].
    + split; cbn; auto. apply (sti_window _ _ Ip).
Qed.
End Run.

Lemma splice_length : forall T (l s l' : list T) lo, splice l lo s = Ok l' -> length l' = length l.
Proof.
  intros T l s l' lo E. unfold splice in E. destruct (Nat.leb_spec (lo + length s) (length l)); [|discriminate].
  inversion E. rewrite !app_length, firstn_length, skipn_length. lia.
Qed.

Lemma copy_into_length : forall T (a b b' : list T) lo hi, copy_into a b lo hi = Ok b' -> length b' = length b.
Proof.
  intros T a b b' lo hi E. unfold copy_into in E. apply bind_ok in E. destruct E as (s & _ & E).
  apply bind_ok in E. destruct E as (s' & _ & E). eapply splice_length; eauto.
Qed.

Lemma binary_length : forall T (op : T -> T -> T) x y out out', linalg_binary_op op x y out = Ok out' -> length out' = length out.
Proof.
  intros T op x y out out' E. unfold linalg_binary_op in E. revert E.
  apply (for_range_keeps _ (fun l => length l = length out)); auto.
  intros j t t' Ht Et. apply bind_ok in Et. destruct Et as (a & _ & Et). apply bind_ok in Et. destruct Et as (b & _ & Et).
  apply wr_inv in Et. destruct Et as [_ ->]. rewrite upd_length. auto.
Qed.

Lemma rfft_forward_length : forall p x out p' out', rfft_forward p x out = Ok (p', out') -> length out' = length out.
Proof.
  intros p x out p' out' H. unfold rfft_forward in H.
  do 3 (apply bind_ok in H; destruct H as (? & _ & H)). apply bind_ok in H. destruct H as (o & E & H). inversion H; subst.
  apply copy_length in E. lia.
Qed.

Lemma stft_keeps : forall o p c n x p' r, 2 <= so_transform o -> st_inv o p -> stft_run p c n x = Ok (p', r) -> st_inv o p'.
Proof.
  intros o p c n x p' r HT I E. unfold stft_run in E.
  destruct (num_sftf_frames _ _ _) as [nf| |]; cbn [bind] in E; try discriminate.
  destruct (_ <=? _)%Z; [discriminate|].
  apply bind_ok in E. destruct E as ([[[rf inp] out] res] & E & E'). inversion E'; subst; clear E'.
  set (K := 2 ^ Nat.log2_up (so_transform o)).
  set (Q := fun s : rfft_plan * list R * list C * list (list (list C)) => let '(rf, inp, out, _) := s in
    rf_inv (Nat.log2_up (so_transform o)) rf /\ length inp = K /\ length out = K).
  assert (QQ : Q (rf, inp, out, r)).
  { revert E. apply (for_range_keeps _ Q).
    - intros j t t' Ht Et. revert Et. apply (for_range_keeps _ Q); auto.
      clear - HT. intros j' [[[rf inp] out] res] [[[rf' inp'] out'] res'] (A & B & D) E. unfold stft_frame in E.
      repeat (rewrite usize_arith in E; cbn [bind] in E).
      apply bind_ok in E; destruct E as (ch & _ & E). apply bind_ok in E; destruct E as (blk & _ & E).
      rewrite !fill_ok in E. cbn [bind] in E.
      apply bind_ok in E; destruct E as (i1 & E1 & E). apply copy_into_length in E1. rewrite repeat_length in E1.
      apply bind_ok in E; destruct E as (i2 & E2 & E). apply binary_length in E2.
      apply bind_ok in E; destruct E as ([rf2 o2] & E3 & E). pose proof (rfft_forward_length _ _ _ _ _ E3) as L3. rewrite repeat_length in L3.
      apply (rfft_forward_inv (Nat.log2_up (so_transform o))) in E3; [|apply log2_up_pos'; lia|exact A].
      do 6 (apply bind_ok in E; destruct E as (? & _ & E)). inversion E; subst.
      split; [auto|]. split; congruence.
    - split; [apply (sti_rfft _ _ I)|]. split; [apply (sti_input _ _ I)|apply (sti_output _ _ I)]. }
  destruct QQ as (A & B & D). split; cbn; auto. { apply (sti_options _ _ I). } apply (sti_window _ _ I).
Qed.

Lemma stft_reach_inv : forall o p, 2 <= so_transform o <= 2 ^ max_order -> stft_reach o p -> st_inv o p.
Proof.
  intros o p HT H. induction H.
  - destruct (make_stft_ok o HT) as (p0 & E & I). rewrite H in E. inversion E. subst. exact I.
  - eapply stft_keeps; eauto. lia.
Qed.

(** A frame longer than the transform is copied past the end of the buffer. *)
Lemma stft_frame_oob : forall o p x channels S, 2 <= so_transform o <= 2 ^ max_order -> st_inv o p ->
  so_overlap o < so_frame o -> (Z.of_nat (so_frame o) < 2 ^ 64)%Z ->
  2 ^ Nat.log2_up (so_transform o) < Nat.min S (so_frame o) -> (Z.of_nat S < 2 ^ 64)%Z ->
  matrix_of channels S x -> 0 < channels ->
  (Z.of_nat channels * Z.of_nat (ceil_div S (so_frame o - so_overlap o)) * Z.of_nat (2 ^ Nat.log2_up (so_transform o) / 2 + 1) < max_elements)%Z ->
  stft_run p channels S x = UB.
Proof.
  intros o p x channels S HT I HO HF HK HS64 Hx Hc Hmax. unfold stft_run.
  destruct (sti_rfft _ _ I) as (RO & _ & _). rewrite RO, (sti_options _ _ I).
  rewrite frames_nat by (auto; lia). cbn [bind].
  destruct (Z.leb_spec max_elements (Z.of_nat channels * Z.of_nat (ceil_div S (so_frame o - so_overlap o)) * Z.of_nat (2 ^ Nat.log2_up (so_transform o) / 2 + 1))); [lia|].
  rewrite Nat2Z.id. rewrite for_range_S by auto. rewrite for_range_S.
  2:{ rewrite ceil_div_pos by lia. lia. }
  unfold stft_frame at 1. rewrite (sti_options _ _ I). repeat (rewrite usize_arith; cbn [bind]).
  rewrite !Z.mul_0_l, !Z.mod_0_l by lia. rewrite Z.sub_0_r, (Z.mod_small (Z.of_nat S)) by lia.
  rewrite <- Nat2Z.inj_min, Nat2Z.id. destruct Hx as [Lx Wx].
  rewrite (rd_ok _ x 0 []) by lia. cbn [bind].
  rewrite (slice_spec _ 0%R); [| lia | rewrite (Wx (nth 0 x [])); [simpl; lia|apply nth_In; lia]]. cbn [bind].
  rewrite !fill_ok. cbn [bind]. rewrite copy_into_oob; [reflexivity|]. rewrite repeat_length, (sti_input _ _ I). lia.
Qed.

(** ** Uniform partitioning *)

Lemma log2_up_double : forall B, 0 < B -> Nat.log2_up (2 * B) = S (Nat.log2_up B).
Proof.
  intros B HB. destruct (Nat.eq_dec B 1) as [->|]; [reflexivity|].
  apply Nat.log2_up_unique; [lia|].
  destruct (Nat.log2_up_spec B ltac:(lia)) as [H1 H2].
  cbn [Nat.pred]. rewrite Nat.pow_succ_r'.
  assert (P : 2 ^ Nat.log2_up B = 2 * 2 ^ Nat.pred (Nat.log2_up B)).
  { rewrite <- Nat.pow_succ_r'. f_equal. pose proof (log2_up_pos' B ltac:(lia)). lia. }
  lia.
Qed.

Lemma partition_rows : forall B h f, 0 < B -> let M := 2 ^ Nat.log2_up B in f < ceil_div (length h) B ->
  framed (2 * M) B B (fun i => rectangular_window i (2 * M)) h f = pad (2 * M) (part M (stretched B M h) f).
Proof.
  intros B h f HB M Hf. unfold framed, pad, rectangular_window. apply tab_ext. intros i Hi.
  assert (HBM : B <= M) by (apply log2_up_fits; auto).
  assert (HfM : (f + 1) * M <= ceil_div (length h) B * M) by (apply Nat.mul_le_mono_r; lia).
  unfold part, stretched. rewrite Rmult_1_r. destruct (Nat.ltb_spec i M).
  - rewrite nth_tab by auto. rewrite nth_tab by lia.
    replace (f * M + i) with (i + f * M) by lia. rewrite Nat.mod_add, Nat.div_add, Nat.mod_small, Nat.div_small by lia. reflexivity.
  - rewrite nth_tab_ge by lia. destruct (Nat.ltb_spec i B); [lia|reflexivity].
Qed.

Lemma max_order_Z : forall n, n <= 2 ^ max_order -> (Z.of_nat n < 2 ^ 62)%Z.
Proof.
  intros n H. apply Nat2Z.inj_le in H. rewrite pow2_Z in H. eapply Z.le_lt_trans; [exact H|].
  apply Z.pow_lt_mono_r; unfold max_order; lia.
Qed.

(** Spectra of the partitions: the rows of the filter matrix. *)
Definition partition_spectra (B : nat) (h : list R) : list (list C) :=
  let M := 2 ^ Nat.log2_up B in
  tab (ceil_div (length h) B) (fun p => RDFT_list Forward (pad (2 * M) (part M (stretched B M h) p))).

Lemma uniform_partition_ok : forall channels len ir B, 0 < B -> 2 * B <= 2 ^ max_order -> 0 < len ->
  matrix_of channels len ir -> (Z.of_nat len < 2 ^ 64)%Z ->
  (Z.of_nat channels * Z.of_nat (ceil_div len B) * Z.of_nat (2 ^ Nat.log2_up B + 1) < max_elements)%Z ->
  uniform_partition channels len ir B = Ok (tab channels (fun c => partition_spectra B (nth c ir []))).
Proof.
  intros channels len ir B HB HBm Hlen Hm Hl64 Hmax. unfold uniform_partition. rewrite usize_arith. cbn [bind].
  assert (HBZ : (Z.of_nat B * 2 < 2 ^ 62)%Z) by (pose proof (max_order_Z _ HBm); lia).
  rewrite Z.mod_small by (split; [lia|]; eapply Z.lt_trans; [exact HBZ|reflexivity]).
  replace (Z.to_nat (Z.of_nat B * 2)) with (2 * B) by lia. unfold stft.
  set (o := StftOptions B (2 * B) 0 rectangular_window).
  assert (HT : 2 <= so_transform o <= 2 ^ max_order) by (cbn [o so_transform]; lia).
  destruct (make_stft_ok o HT) as (p & E & I). rewrite E. cbn [bind].
  assert (EK : 2 ^ Nat.log2_up (so_transform o) = 2 * 2 ^ Nat.log2_up B).
  { cbn [o so_transform]. rewrite log2_up_double by auto. apply Nat.pow_succ_r'. }
  destruct (stft_run_ok o p ir channels len) as (p' & E' & _); auto.
  { cbn [o so_frame]. rewrite EK. pose proof (log2_up_fits B HB). lia. }
  { rewrite EK, half_of_double. cbn [o so_frame so_overlap]. rewrite Nat.sub_0_r. exact Hmax. }
  rewrite E'. cbn [bind]. f_equal. unfold stft_result, partition_spectra. apply tab_ext. intros c Hc.
  cbn [o so_frame so_overlap]. rewrite Nat.sub_0_r. destruct Hm as [Lm Wm]. rewrite (Wm (nth c ir [])) by (apply nth_In; lia).
  apply tab_ext. intros f Hf. f_equal. unfold frame_of. rewrite EK. cbn [o so_frame so_overlap so_window]. rewrite Nat.sub_0_r.
  apply partition_rows; auto. rewrite (Wm (nth c ir [])) by (apply nth_In; lia). exact Hf.
Qed.

Lemma partition_matrix : forall B h, 0 < B -> matrix_of (ceil_div (length h) B) (2 ^ Nat.log2_up B + 1) (partition_spectra B h).
Proof.
  intros B h HB. unfold partition_spectra. split. { apply tab_length. }
  intros r Hr. destruct (In_nth _ _ [] Hr) as (j & Hj & <-). rewrite tab_length in Hj. rewrite nth_tab by auto.
  rewrite RDFT_list_length, pad_length, half_of_double. reflexivity.
Qed.

Lemma stretched_pow2 : forall k h, let B := 2 ^ k in
  length (stretched B B h) = ceil_div (length h) B * B /\ (forall i, nth i (stretched B B h) 0%R = nth i h 0%R).
Proof.
  intros k h B. assert (HB : 0 < B) by (unfold B; apply Nat.neq_0_lt_0, Nat.pow_nonzero; lia).
  unfold stretched. rewrite tab_length. split; [reflexivity|]. intros i.
  destruct (Nat.lt_ge_cases i (ceil_div (length h) B * B)) as [H|H].
  - rewrite nth_tab by auto. pose proof (Nat.mod_upper_bound i B ltac:(lia)). destruct (Nat.ltb_spec (i mod B) B); [|lia].
    f_equal. rewrite (Nat.div_mod i B) at 3 by lia. lia.
  - rewrite nth_tab_ge by auto. symmetry. apply nth_overflow. pose proof (ceil_div_mul (length h) B HB). lia.
Qed.

Lemma lconv_ext : forall x h h' t, (forall i, nth i h 0%R = nth i h' 0%R) -> lconv x h t = lconv x h' t.
Proof. intros. unfold lconv. apply Rsum_ext. intros. rewrite H. reflexivity. Qed.
