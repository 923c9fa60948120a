(** STFT and uniform partitioning in rounded arithmetic: what they compute. *)
From Coq Require Import Reals List Arith Lia Lra Bool ZArith.
From Verif Require Import Base.Outcome Base.OutcomeFacts Base.Sums Base.Cplx Base.Alias Spec.Dft Spec.Transforms
  Spec.Convolution Spec.Stft Model.Fft2 Model.Integers Model.Algorithm Model.FftApps Model.Convolution Model.Stft Model.RoundedFft Model.RoundedConv
  Proof.DftTheory Proof.Fft2Proof Proof.IntegersProof Proof.AlgorithmProof Proof.RfftProof Proof.ConvTheory
  Proof.FftConvProof Proof.DirectConvProof Proof.OverlapProof Proof.StreamProof Proof.LtiProof Proof.UpcProof Proof.UpcInstances Proof.StftProof
  Proof.RoundedRfft Proof.RoundedMac Proof.RoundedFftConv.
Import ListNotations.
Local Arguments Nat.div : simpl never.
Local Arguments Nat.modulo : simpl never.
Local Arguments Nat.pow : simpl never.
Local Arguments Z.pow : simpl never.

Section Structure.
Variables rnd fcos fsin : R -> R.
Notation RF := (RF rnd fcos fsin). Notation RB := (RB rnd fcos fsin). Notation rrf_inv := (rrf_inv rnd fcos fsin).

Record rst_inv (o : stft_options) (p : stft_plan) : Prop := RStInv {
  rsti_options : st_options p = o;
  rsti_rfft : rrf_inv (Nat.log2_up (so_transform o)) (st_rfft p);
  rsti_input : length (st_input p) = 2 ^ Nat.log2_up (so_transform o);
  rsti_output : length (st_output p) = 2 ^ Nat.log2_up (so_transform o);
  rsti_window : st_window p = tab (2 ^ Nat.log2_up (so_transform o)) (fun i => so_window o i (2 ^ Nat.log2_up (so_transform o))) }.

Lemma rmake_stft_ok : forall o, 2 <= so_transform o <= 2 ^ max_order -> exists p, rmake_stft_plan rnd fcos fsin o = Ok p /\ rst_inv o p.
Proof using.
  intros o Ho. unfold rmake_stft_plan. rewrite next_order_ok by (apply Z_fits; lia). cbn [bind].
  destruct (rmake_rfft_ok rnd fcos fsin (Nat.log2_up (so_transform o))) as (rf & E & I).
  { split; [apply log2_up_pos'; lia|apply log2_up_max; exact (proj2 Ho)]. }
  rewrite E. cbn [bind]. rewrite fill_window_ok, repeat_length. cbn [bind]. eexists; split; [reflexivity|].
  split; cbn; auto; apply repeat_length.
Qed.

Section Run.
Variables (o : stft_options) (p : stft_plan) (x : list (list R)) (channels S : nat).
Let F := so_frame o. Let O := so_overlap o. Let H := F - O.
Let order := Nat.log2_up (so_transform o).
Let K := 2 ^ Nat.log2_up (so_transform o).
Hypothesis HT : 2 <= so_transform o <= 2 ^ max_order.
Hypothesis HO : O < F.
Hypothesis HFK : F <= K.
Hypothesis HS : 0 < S.
Hypothesis HS64 : (Z.of_nat S < 2 ^ 64)%Z.
Hypothesis Ip : rst_inv o p.
Hypothesis Hx : matrix_of channels S x.
Let frames := ceil_div S H.
Let bins := K / 2 + 1.

(** The windowed frame, each product rounded. *)
Definition rframe_of (c f : nat) : list R := map rnd (frame_of o x c f).

Lemma rframe_step : forall c f rf inp out result, c < channels -> f < frames ->
  rrf_inv (Nat.log2_up (so_transform o)) rf -> length inp = K -> length out = K ->
  length result = channels -> length (nth c result []) = frames -> length (nth f (nth c result []) []) = bins ->
  exists rf' inp' out', rstft_frame rnd p x S bins c f (rf, inp, out, result) =
    Ok (rf', inp', out', upd result c (upd (nth c result []) f (RF order (rframe_of c f)))) /\
    rrf_inv (Nat.log2_up (so_transform o)) rf' /\ length inp' = K /\ length out' = K.
Proof using All.
  intros c f rf inp out result Hc Hf Irf Hi Ho Hr1 Hr2 Hr3. unfold rstft_frame.
  rewrite (rsti_options _ _ Ip). fold F O. do 2 (rewrite !usize_arith; cbn [bind]).
  destruct (frame_start o S HT HO HFK HS HS64 f Hf) as [E HfS]. fold F O in E. fold H in E. fold F O in HfS. fold H in HfS. rewrite E. cbn [bind]. rewrite usize_arith. cbn [bind].
  rewrite (Z.mod_small (Z.of_nat S - Z.of_nat (f * H))) by lia.
  replace (Z.of_nat S - Z.of_nat (f * H))%Z with (Z.of_nat (S - f * H)) by lia.
  rewrite <- Nat2Z.inj_min, !Nat2Z.id. set (num := Nat.min (S - f * H) F).
  rewrite (rd_ok _ x c []) by (destruct Hx; lia). cbn [bind].
  assert (Lc : length (nth c x []) = S) by (apply (matrix_row _ channels); auto).
  rewrite (slice_spec _ 0%R) by (unfold num; lia). cbn [bind]. replace (f * H + num - f * H) with num by lia.
  rewrite !fill_ok. cbn [bind].
  rewrite (copy_into_ok _ 0%R) by (rewrite ?repeat_length, ?tab_length; unfold num; lia). cbn [bind].
  rewrite !tab_length, repeat_length, Hi.
  unfold rmultiply_r. rewrite linalg_binary_ok by (cbn [contents]; rewrite ?tab_length, ?(rsti_window _ _ Ip), ?tab_length; reflexivity).
  cbn [contents]. rewrite (zip_with_tab _ _ _ _ _ _ 0%R 0%R) by (rewrite ?(rsti_window _ _ Ip), ?tab_length; reflexivity). cbn [bind]. rewrite tab_length.
  assert (EF : tab K (fun i => rnd (nth i (tab K (fun i0 => if (0 <=? i0) && (i0 <? 0 + num) then nth (i0 - 0) (tab num (fun i1 => nth (f * H + i1) (nth c x []) 0)) 0 else nth i0 (repeat 0 K) 0)) 0 * nth i (st_window p) 0))%R = rframe_of c f).
  { unfold rframe_of, frame_of, framed. rewrite map_tab. fold F O. fold H. fold K. apply tab_ext. intros i Hi'. f_equal. rewrite nth_tab by auto. rewrite (rsti_window _ _ Ip). fold K. rewrite (nth_tab _ K) by auto.
    f_equal. cbn [Nat.leb andb Nat.add]. rewrite nth_repeat, Nat.sub_0_r. unfold num.
    destruct (Nat.ltb_spec i (Nat.min (S - f * H) F)), (Nat.ltb_spec i F); try lia.
    - rewrite nth_tab by lia. reflexivity.
    - symmetry. apply nth_overflow. lia.
    - reflexivity. }
  rewrite EF.
  assert (Lf : length (rframe_of c f) = K) by (unfold rframe_of, frame_of, framed; rewrite map_length; apply tab_length).
  destruct (Kpos o S HT HO HFK HS) as [K1 K2].
  destruct (rrfft_forward_ok rnd fcos fsin (Nat.log2_up (so_transform o)) rf (rframe_of c f) (repeat C0 (length out))) as (rf' & E2 & I2).
  { apply log2_up_pos'; lia. } { exact Irf. } { exact Lf. } { rewrite repeat_length, Ho. fold K. exact K2. }
  rewrite E2. cbn [bind]. fold order. fold K. fold bins. change (2 ^ order) with K. fold bins.
  assert (LR : length (RF order (rframe_of c f)) = bins) by (apply RF_length).
  rewrite (slice_spec _ C0); [| lia | rewrite app_length, LR; apply Nat.le_add_r]. cbn [bind]. rewrite Nat.sub_0_r.
  rewrite (rd_ok _ result c []) by lia. cbn [bind]. rewrite (rd_ok _ _ f []) by lia. cbn [bind].
  rewrite copy_full by (rewrite tab_length; lia). cbn [bind]. rewrite wr_ok by lia. cbn [bind]. rewrite wr_ok by lia. cbn [bind].
  do 3 eexists. split.
  - rewrite map_id. do 5 f_equal. symmetry. apply (list_eq_tab _ C0). { unfold C in *; lia. }
    intros i Hi'. cbn [Nat.add]. rewrite app_nth1 by (unfold C in *; lia). reflexivity.
  - split; [exact I2|]. split; [exact Lf|]. rewrite app_length, skipn_length, repeat_length. rewrite LR, Ho. fold K in K1, K2. unfold bins in *. lia.
Qed.

Definition rstft_result : list (list (list C)) :=
  tab channels (fun c => tab frames (fun f => RF order (rframe_of c f))).

Lemma rstft_run_ok : (Z.of_nat channels * Z.of_nat frames * Z.of_nat bins < max_elements)%Z ->
  exists p', rstft_run rnd p channels S x = Ok (p', rstft_result) /\ rst_inv o p'.
Proof using All.
  intros Hmax. unfold rstft_run. destruct (rsti_rfft _ _ Ip) as (RO & _ & _). rewrite RO. rewrite (rsti_options _ _ Ip). fold F O K. fold bins.
  rewrite frames_nat; auto. 2:{ pose proof (K_Z o S HT HO HFK HS). fold K in H0. lia. }
  cbn [bind]. fold H. fold frames. destruct (Z.leb_spec max_elements (Z.of_nat channels * Z.of_nat frames * Z.of_nat bins)); [lia|].
  rewrite Nat2Z.id.
  set (part_result := fun c f => tab channels (fun c' => tab frames (fun f' =>
      if (c' <? c) || ((c' =? c) && (f' <? f)) then RF order (rframe_of c' f') else repeat C0 bins))).
  assert (LR : forall c f, length (RF order (rframe_of c f)) = bins).
  { intros. apply RF_length. }
  match goal with |- context [for_range 0 channels ?body ?s0] =>
    destruct (for_range_inv _ (fun c (s : rfft_plan * list R * list C * list (list (list C))) =>
      let '(rf, inp, out, result) := s in rrf_inv (Nat.log2_up (so_transform o)) rf /\ length inp = K /\ length out = K /\
        result = part_result c 0) 0 channels body s0) as ([[[rf inp] out] result] & E & I1 & I2 & I3 & I4) end.
  - lia.
  - split; [apply (rsti_rfft _ _ Ip)|]. split; [apply (rsti_input _ _ Ip)|]. split; [apply (rsti_output _ _ Ip)|].
    unfold part_result. rewrite repeat_tab. apply tab_ext. intros c Hc. rewrite repeat_tab. apply tab_ext. intros f Hf.
    rewrite andb_false_r. reflexivity.
  - intros c [[[rf inp] out] result] Hc (I1 & I2 & I3 & I4).
    match goal with |- exists s', for_range 0 frames ?body ?s0 = _ /\ _ =>
    destruct (for_range_inv _ (fun f (s : rfft_plan * list R * list C * list (list (list C))) =>
      let '(rf, inp, out, result) := s in rrf_inv (Nat.log2_up (so_transform o)) rf /\ length inp = K /\ length out = K /\
        result = part_result c f) 0 frames body s0) as ([[[rf' inp'] out'] result'] & E & J1 & J2 & J3 & J4) end.
    + lia.
    + auto.
    + intros f [[[rf' inp'] out'] result'] Hf (J1 & J2 & J3 & ->).
      destruct (rframe_step c f rf' inp' out' (part_result c f)) as (rf2 & inp2 & out2 & E & A & B & D); try lia; auto.
      { unfold part_result. apply tab_length. }
      { unfold part_result. rewrite nth_tab by lia. apply tab_length. }
      { unfold part_result. rewrite !nth_tab by lia. destruct (_ || _); [apply LR|apply repeat_length]. }
      eexists. split; [exact E|]. split; [exact A|]. split; [exact B|]. split; [exact D|].
      unfold part_result. rewrite nth_tab by lia. rewrite !upd_tab by lia. apply tab_ext. intros c' Hc'.
      destruct (Nat.eqb_spec c' c).
      * subst c'. apply tab_ext. intros f' Hf'. rewrite Nat.ltb_irrefl. cbn [orb andb].
        destruct (Nat.eqb_spec f' f), (Nat.ltb_spec f' (Datatypes.S f)), (Nat.ltb_spec f' f); try lia; subst; rewrite ?Nat.eqb_refl; auto.
      * apply tab_ext. intros f' Hf'. destruct (Nat.ltb_spec c' c); reflexivity.
    + eexists. split; [exact E|]. split; [exact J1|]. split; [exact J2|]. split; [exact J3|]. rewrite J4.
      unfold part_result. apply tab_ext. intros c' Hc'. apply tab_ext. intros f' Hf'.
      destruct (Nat.ltb_spec c' c), (Nat.eqb_spec c' c), (Nat.ltb_spec f' frames), (Nat.ltb_spec c' (Datatypes.S c)), (Nat.eqb_spec c' (Datatypes.S c)), (Nat.ltb_spec f' 0); try lia; reflexivity.
  - rewrite E. cbn [bind]. eexists. split.
    + f_equal. f_equal. rewrite I4. unfold part_result, rstft_result. apply tab_ext. intros c' Hc'. apply tab_ext. intros f' Hf'.
      destruct (Nat.ltb_spec c' channels); [reflexivity|lia].
    + split; cbn; auto. apply (rsti_window _ _ Ip).
Qed.
End Run.

Lemma runiform_partition_ok : forall len h k, 0 < k < max_order -> 0 < len -> length h = len -> (Z.of_nat len < 2 ^ 64)%Z ->
  (Z.of_nat (ceil_div len (2 ^ k)) * Z.of_nat (2 ^ k + 1) < max_elements)%Z -> (forall v, v = 0%R \/ In v h -> rnd v = v) ->
  runiform_partition rnd fcos fsin 1 len [h] (2 ^ k) = Ok [tab (ceil_div len (2 ^ k)) (fun f => RF (Datatypes.S k) (pad (2 * 2 ^ k) (part (2 ^ k) h f)))].
Proof using.
  intros len h k Hk Hlen Hm Hl64 Hmax Hf. set (B := 2 ^ k) in *.
  assert (HB : 0 < B) by (unfold B; apply Nat.neq_0_lt_0, Nat.pow_nonzero; lia).
  assert (EL : Nat.log2_up B = k) by (unfold B; apply Nat.log2_up_pow2; lia).
  assert (HBm : 2 * B <= 2 ^ max_order). { unfold B. rewrite <- Nat.pow_succ_r'. apply Nat.pow_le_mono_r; lia. }
  unfold runiform_partition. rewrite usize_arith. cbn [bind].
  assert (HBZ : (Z.of_nat B * 2 < 2 ^ 62)%Z) by (pose proof (max_order_Z _ HBm); lia).
  rewrite Z.mod_small by (split; [lia|]; eapply Z.lt_trans; [exact HBZ|reflexivity]).
  replace (Z.to_nat (Z.of_nat B * 2)) with (2 * B) by lia. unfold rstft.
  set (o := StftOptions B (2 * B) 0 rectangular_window).
  assert (HT : 2 <= so_transform o <= 2 ^ max_order) by (cbn [o so_transform]; lia).
  destruct (rmake_stft_ok o HT) as (p & E & I). rewrite E. cbn [bind].
  assert (EO : Nat.log2_up (so_transform o) = Datatypes.S k) by (cbn [o so_transform]; rewrite log2_up_double by auto; congruence).
  assert (EK : 2 ^ Nat.log2_up (so_transform o) = 2 * B) by (rewrite EO; apply Nat.pow_succ_r').
  destruct (rstft_run_ok o p [h] 1 len) as (p' & E' & _); auto.
  { cbn [o so_frame]. rewrite EK. lia. }
  { split; [reflexivity|]. intros r [<-|[]]. exact Hm. }
  { rewrite EK, half_of_double. cbn [o so_frame so_overlap]. rewrite Nat.sub_0_r. lia. }
  rewrite E'. cbn [bind]. f_equal. unfold rstft_result. change (tab 1) with (fun g : nat -> list (list C) => [g 0]). cbv beta. f_equal.
  cbn [o so_frame so_overlap]. rewrite Nat.sub_0_r. apply tab_ext. intros f Hlt.
  change (so_transform {| so_frame := B; so_transform := 2 * B; so_overlap := 0; so_window := rectangular_window |}) with (so_transform o). rewrite EO. f_equal.
  unfold rframe_of, frame_of, framed. rewrite EK. cbn [o so_frame so_overlap so_window nth]. rewrite Nat.sub_0_r, map_tab. unfold pad. apply tab_ext. intros i Hi.
  unfold rectangular_window. rewrite Rmult_1_r. unfold part. destruct (Nat.ltb_spec i B).
  - rewrite nth_tab by auto. apply Hf. destruct (Nat.lt_ge_cases (f * B + i) (length h)); [right; apply nth_In; auto|left; apply nth_overflow; auto].
  - rewrite nth_tab_ge by auto. apply Hf. auto.
Qed.
End Structure.
