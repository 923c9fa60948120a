(** Proofs about dense_convolve() with upola_convolver_v2. *)
From Coq Require Import Reals List Arith Bool ZArith Lia Lra.
From Verif Require Import Base.Outcome Base.OutcomeFacts Base.Sums Base.Cplx Spec.Dft Spec.Sparse Spec.Stft Spec.Convolution Spec.Convolvers Spec.Statistics
  Model.Fft2 Model.Integers Model.Algorithm Model.Statistics Model.Units Model.Stft Model.Convolution Model.PluginConvolution Model.OverlapAddConvolver Model.OfflineV2
  Proof.AlgorithmProof Proof.DftTheory Proof.ConvTheory Proof.StreamProof Proof.UpcProof Proof.UpcInstances Proof.StftProof Proof.UpcFinal Proof.ConvCorollaries
  Proof.StatisticsProof Proof.CliProof Proof.PluginProof Proof.OacProof Proof.OfflineProof Spec.Offline.
Import ListNotations.
Open Scope nat_scope.
Open Scope outcome_scope.
Local Arguments Nat.div : simpl never.
Local Arguments Nat.modulo : simpl never.
Local Arguments Nat.pow : simpl never.

Section V2.
Variables (k frames : nat).
Hypothesis Hk : 0 < k < max_order.
Let B := 2 ^ k.
Hypothesis Hint : (Z.of_nat frames + Z.of_nat B <= 2 ^ 31)%Z.
Local Notation outs_of := (OfflineProof.outs_of Upola k).
Local Notation done_until := (OfflineProof.done_until k frames).

Lemma oac_block_step : forall P mat x t c, 0 < P -> matrix_of P (2 ^ k + 1) mat -> t < length (cut B x) ->
  oac_at k P mat (cut B x) t c ->
  exists c', oac_run c (nth t (cut B x) []) = Ok (c', nth t (outs_of P mat x) []) /\ oac_at k P mat (cut B x) (S t) c'.
Proof using All.
  intros P mat x t c HP Hm Ht Hc.
  assert (Hall : blocks_of (2 ^ k) (cut B x)) by apply cut_blocks.
  destruct (nth_split (cut B x) [] Ht) as (past & rest & Es & Lp).
  destruct (oac_run_ok k P mat Hk HP Hm (cut B x) Hall [nth t (cut B x) []] past rest c Es) as (c' & Er & Hc').
  { rewrite Lp. exact Hc. }
  rewrite Lp in Er, Hc'. cbn [concat length] in Er, Hc'. rewrite !app_nil_r in Er. exists c'. split; [|rewrite Nat.add_1_r in Hc'; exact Hc'].
  rewrite Er. do 2 f_equal. unfold oac_outs, OfflineProof.outs_of, kind_outs. rewrite nth_tab by (unfold B in Ht; lia).
  cbn [tab seq map concat]. rewrite Nat.add_0_r, app_nil_r. reflexivity.
Qed.

Lemma v2_step : forall P mat x t c block out0, 0 < P -> matrix_of P (2 ^ k + 1) mat -> length x = frames -> length block = B -> t < ceil_div frames B ->
  oac_at k P mat (cut B x) t c ->
  exists c' block', v2_block x frames B (t * B) (c, block, done_until t (concat (outs_of P mat x)) out0) =
      Ok (c', block', done_until (S t) (concat (outs_of P mat x)) out0) /\
    length block' = B /\ oac_at k P mat (cut B x) (S t) c'.
Proof using All.
  intros P mat x t c block out0 HP Hm Hx Hb Ht Hs. assert (HB : 0 < B) by (apply Nat.neq_0_lt_0, Nat.pow_nonzero; discriminate).
  pose proof (ceil_div_ge frames B HB) as Hn.
  assert (HtB : t * B < frames) by nia.
  assert (Lc : length (cut B x) = ceil_div frames B) by (unfold cut; rewrite tab_length, Hx; reflexivity).
  destruct (oac_block_step P mat x t c HP Hm ltac:(lia) Hs) as (c' & Er & Hs').
  set (y := concat (outs_of P mat x)). set (num := Nat.min (frames - t * B) B).
  assert (Ecut : nth t (cut B x) [] = part B x t) by (unfold cut; rewrite nth_tab by (rewrite Hx; lia); reflexivity). rewrite Ecut in Er.
  assert (Lo : length (nth t (outs_of P mat x) []) = B) by (apply (outs_blocks Upola k P mat x), nth_In; rewrite outs_length, Hx; fold B; lia).
  unfold v2_block. rewrite int32_small by lia. cbn [bind].
  replace (Z.to_nat (Z.min (Z.of_nat frames - Z.of_nat (t * B)) (Z.of_nat B))) with num by (unfold num; lia).
  rewrite fill_ok. cbn [bind]. rewrite (slice_spec _ 0%R) by lia. cbn [bind].
  rewrite (copy_into_ok _ 0%R) by (rewrite ?repeat_length, ?tab_length; lia). cbn [bind].
  assert (Eb : tab (length (repeat 0%R (length block))) (fun i => if (0 <=? i) && (i <? 0 + length (tab (t * B + num - t * B) (fun j => nth (t * B + j) x 0%R)))
      then nth (i - 0) (tab (t * B + num - t * B) (fun j => nth (t * B + j) x 0%R)) 0%R else nth i (repeat 0%R (length block)) 0%R) = part B x t).
  { unfold part. rewrite repeat_length, Hb, tab_length. apply tab_ext. intros i Hi. cbn [Nat.leb andb Nat.add].
    destruct (Nat.ltb_spec i (t * B + num - t * B)).
    - rewrite Nat.sub_0_r. apply nth_tab. lia.
    - rewrite nth_repeat. symmetry. apply nth_overflow. lia. }
  rewrite Eb, Er. cbn [bind]. rewrite (slice_spec _ 0%R) by lia. cbn [bind].
  rewrite (copy_into_ok _ 0%R) by (unfold OfflineProof.done_until; rewrite ?tab_length; lia). cbn [bind].
  eexists c', _. split; [|split; [exact Lo|exact Hs']]. f_equal. f_equal.
  unfold OfflineProof.done_until. rewrite !tab_length, !Nat.sub_0_r. change (2 ^ k) with B. apply tab_ext. intros i Hi.
  destruct (Nat.leb_spec (t * B) i), (Nat.ltb_spec i (t * B + num)), (Nat.ltb_spec i (S t * B)); cbn [andb]; try (unfold num in *; lia).
  - rewrite nth_tab by lia. cbn [Nat.add]. transitivity (nth (t * B + (i - t * B)) y 0%R); [|f_equal; lia].
    unfold y. rewrite (nth_concat_blocks B); [reflexivity|apply outs_blocks|rewrite outs_length, Hx; fold B; lia|lia].
  - rewrite nth_tab by auto. destruct (Nat.ltb_spec i (t * B)); auto; unfold num in *; lia.
  - rewrite nth_tab by auto. destruct (Nat.ltb_spec i (t * B)); auto; lia.
Qed.

Section All.
Variables (channels P : nat) (mats : nat -> list (list C)) (signal output0 : list (list R)).
Hypothesis HP : 0 < P.
Hypothesis Hm : forall ch, ch < channels -> matrix_of P (2 ^ k + 1) (mats ch).
Hypothesis Hs : matrix_of channels frames signal.
Hypothesis Ho : matrix_of channels frames output0.
Let y ch := concat (outs_of P (mats ch) (nth ch signal [])).
Let state := (list oac * list R * list (list R))%type.

(** Channels below [n] are at block S t, the others at block t. *)
Definition v2_inv (t n : nat) (st : state) : Prop :=
  let '(convs, block, output) := st in
  length block = B /\ length convs = channels /\
  (forall ch, ch < channels -> exists c, rd convs ch = Ok c /\
     oac_at k P (mats ch) (cut B (nth ch signal [])) (if ch <? n then S t else t) c) /\
  output = tab channels (fun ch => done_until (if ch <? n then S t else t) (y ch) (nth ch output0 [])).

Lemma v2_all_channels : forall t st, t < ceil_div frames B -> v2_inv t 0 st -> exists st', for_range 0 channels (v2_channel signal frames B (t * B)) st = Ok st' /\ v2_inv t channels st'.
Proof using All.
  intros t st Ht H0. apply (for_range_inv _ (v2_inv t) 0 channels (v2_channel signal frames B (t * B)) st); [lia|auto|].
  intros ch ((convs & block) & output) Hch (Lb & Lc & Hc & Eo). destruct (Hc ch ltac:(lia)) as (c & Erd & Hst). rewrite Nat.ltb_irrefl in Hst.
  unfold v2_channel. rewrite (rd_ok _ signal ch []) by (rewrite (proj1 Hs); lia). cbn [bind].
  assert (Lout : length output = channels) by (rewrite Eo; apply tab_length).
  rewrite (rd_ok _ output ch []) by lia. cbn [bind]. rewrite Erd. cbn [bind].
  assert (Eout : nth ch output [] = done_until t (y ch) (nth ch output0 [])) by (rewrite Eo, nth_tab by lia; rewrite Nat.ltb_irrefl; reflexivity).
  rewrite Eout.
  destruct (v2_step P (mats ch) (nth ch signal []) t c block (nth ch output0 []) HP (Hm ch ltac:(lia)) (matrix_row _ _ _ _ ch Hs ltac:(lia)) Lb Ht Hst) as (c' & b' & Es & Lb' & Hs').
  unfold y. rewrite Es. cbn [bind]. rewrite (wr_ok _ convs) by lia. cbn [bind]. rewrite (wr_ok _ output) by lia. cbn [bind].
  eexists. split; [reflexivity|]. split; auto. split; [rewrite upd_length; auto|]. split.
  - intros ch' Hch'. destruct (Nat.eqb_spec ch' ch) as [->|N].
    + exists c'. rewrite (rd_ok _ _ _ c) by (rewrite upd_length; lia). rewrite nth_upd_eq by lia. split; auto.
      replace (ch <? S ch) with true by (symmetry; apply Nat.ltb_lt; lia). exact Hs'.
    + destruct (Hc ch' Hch') as (c2 & E2 & H2). exists c2. split.
      * rewrite (rd_ok _ _ _ c) by (rewrite upd_length; lia). rewrite nth_upd_neq by auto. f_equal. apply rd_nth. exact E2.
      * replace (ch' <? S ch) with (ch' <? ch); auto. destruct (Nat.ltb_spec ch' ch), (Nat.ltb_spec ch' (S ch)); auto; lia.
  - apply (list_eq_nth _ []). { rewrite upd_length, tab_length. auto. }
    intros ch' Hch'. rewrite upd_length, Lout in Hch'. rewrite nth_tab by auto. destruct (Nat.eqb_spec ch' ch) as [->|N].
    + rewrite nth_upd_eq by lia. replace (ch <? S ch) with true by (symmetry; apply Nat.ltb_lt; lia). reflexivity.
    + rewrite nth_upd_neq by auto. rewrite Eo, nth_tab by auto. replace (ch' <? S ch) with (ch' <? ch); auto. destruct (Nat.ltb_spec ch' ch), (Nat.ltb_spec ch' (S ch)); auto; lia.
Qed.

Lemma v2_all_blocks : forall convs block, length block = B -> length convs = channels ->
  (forall ch, ch < channels -> exists c, rd convs ch = Ok c /\ oac_at k P (mats ch) (cut B (nth ch signal [])) 0 c) ->
  exists convs' block', for_step 0 frames B (fun i (st : state) => st <- for_range 0 channels (v2_channel signal frames B i) st ;; _ <- iarith int32 (Z.of_nat i + Z.of_nat B) ;; Ok st)
    (convs, block, output0) = Ok (convs', block', tab channels (fun ch => pad frames (y ch))).
Proof using All.
  intros convs block Lb Lc Hc. assert (HB : 0 < B) by (apply Nat.neq_0_lt_0, Nat.pow_nonzero; discriminate). pose proof (ceil_div_ge frames B HB) as Hn.
  unfold for_step. destruct (Nat.eqb_spec B 0); [lia|]. replace ((frames - 0 + (B - 1)) / B) with (ceil_div frames B) by (unfold ceil_div; f_equal; lia).
  destruct (loop_inv _ (fun t st => v2_inv t 0 st) (ceil_div frames B) 0 B
    (fun i (st : state) => st <- for_range 0 channels (v2_channel signal frames B i) st ;; _ <- iarith int32 (Z.of_nat i + Z.of_nat B) ;; Ok st) (convs, block, output0))
    as (((c2 & b2) & o2) & E & (_ & _ & _ & Eo)).
  - split; auto. split; auto. split; [intros ch Hch; apply Hc; auto|].
    apply (list_eq_nth _ []). { rewrite tab_length. apply Ho. } intros ch Hch. rewrite (proj1 Ho) in Hch. rewrite nth_tab by auto. cbn [Nat.ltb Nat.leb].
    symmetry. apply done_0. apply (matrix_row _ _ _ _ ch Ho Hch).
  - intros t st Ht Hi. rewrite Nat.add_0_l. destruct (v2_all_channels t st Ht Hi) as (st' & E' & Hi'). rewrite E'. cbn [bind]. rewrite int32_small by nia. cbn [bind].
    exists st'. split; auto. destruct st' as ((cs & bl) & o). destruct Hi' as (A1 & A2 & A3 & A4). split; auto. split; auto. split.
    + intros ch Hch. specialize (A3 ch Hch). replace (ch <? channels) with true in A3 by (symmetry; apply Nat.ltb_lt; auto). exact A3.
    + rewrite A4. apply tab_ext. intros ch Hch. replace (ch <? channels) with true by (symmetry; apply Nat.ltb_lt; auto). reflexivity.
  - exists c2, b2. rewrite E, Eo. do 2 f_equal. apply tab_ext. intros ch Hch. cbn [Nat.ltb Nat.leb]. apply done_all; auto.
Qed.
End All.
End V2.

(** [Q ch]: what filter() achieves for channel [ch], from any convolver like a new one. *)
Lemma v2_filter_ok : forall n (filter : list (list (list C))) convs (Q0 : oac -> Prop) (Q : nat -> oac -> Prop), n <= length convs -> n <= length filter ->
  (forall c, In c convs -> Q0 c) ->
  (forall ch c, ch < n -> Q0 c -> exists row c', rd (nth ch filter []) 0 = Ok row /\
     oac_filter c (length (nth ch filter [])) (length row) (nth ch filter []) = Ok c' /\ Q ch c') ->
  exists convs', v2_filter_channels n filter convs = Ok convs' /\ length convs' = length convs /\ forall ch, ch < n -> exists c, rd convs' ch = Ok c /\ Q ch c.
Proof.
  intros n filter convs Q0 Q Lc Lf H0 H. unfold v2_filter_channels.
  destruct (for_range_inv _ (fun t (cs : list oac) => length cs = length convs /\ (forall ch, ch < t -> exists c, rd cs ch = Ok c /\ Q ch c) /\
      forall ch, t <= ch < n -> exists c, rd cs ch = Ok c /\ Q0 c)
      0 n (fun ch convolvers =>
    channel <- rd filter ch ;;
    row <- rd channel 0 ;;
    c <- rd convolvers ch ;;
    c <- oac_filter c (length channel) (length row) channel ;;
    wr convolvers ch c) convs) as (cs & E & Lcs & Hcs & _); [lia| | |eauto].
  - split; auto. split; [intros; lia|]. intros ch Hch. destruct convs as [|c0 r] eqn:Ec; [cbn in Lc; lia|]. rewrite <- Ec in *.
    exists (nth ch convs c0). split; [apply rd_ok; lia|]. apply H0, nth_In. lia.
  - intros ch cs Hch (Ls & Hd & Hr). rewrite (rd_ok _ _ _ []) by lia. cbn [bind].
    destruct (Hr ch ltac:(lia)) as (c & Hc & Qc). destruct (H ch c ltac:(lia) Qc) as (row & c' & E1 & E2 & HQ). rewrite E1. cbn [bind]. rewrite Hc. cbn [bind]. rewrite E2. cbn [bind].
    rewrite wr_ok by lia. eexists. split; [reflexivity|]. split; [rewrite upd_length; auto|]. split.
    + intros i Hi. destruct (Nat.eq_dec i ch) as [->|N].
      * exists c'. split; auto. rewrite (rd_ok _ _ _ c') by (rewrite upd_length; lia). f_equal. apply nth_upd_eq. lia.
      * destruct (Hd i) as (ci & Hci & Qi); [lia|]. exists ci. split; auto. rewrite (rd_ok _ _ _ ci) by (rewrite upd_length; lia). f_equal.
        rewrite nth_upd_neq by auto. apply (rd_nth _ _ _ _ _ Hci).
    + intros i Hi. destruct (Hr i ltac:(lia)) as (ci & Hci & Qi). exists ci. split; auto. rewrite (rd_ok _ _ _ ci) by (rewrite upd_length; lia). f_equal.
      rewrite nth_upd_neq by lia. apply (rd_nth _ _ _ _ _ Hci).
Qed.

Section Calls.
Variables (k channels frames ichannels iframes : nat) (signal filter m output0 : list (list R)).
Hypothesis Hk : 0 < k < max_order.
Hypothesis Hs : matrix_of channels frames signal.
Hypothesis Ho : matrix_of channels frames output0.
Hypothesis Hif : 0 < iframes.
Hypothesis H64 : (Z.of_nat iframes < 2 ^ 64)%Z.
Hypothesis Hmax : (Z.of_nat ichannels * Z.of_nat (ceil_div iframes (2 ^ k)) * Z.of_nat (2 ^ k + 1) < max_elements)%Z.
Hypothesis Hf31 : (Z.of_nat frames + Z.of_nat (2 ^ k) <= 2 ^ 31)%Z.
Hypothesis Hm : matrix_of ichannels iframes m.
Hypothesis En : normalize_impulse (Mat ichannels iframes filter) = Ok (Mat ichannels iframes m).
Let P := ceil_div iframes (2 ^ k).
Let mats ch := partition_spectra (2 ^ k) (nth ch m []).
Let parts := tab ichannels mats.

Let parts_ok' : uniform_partition ichannels iframes m (2 ^ k) = Ok parts.
Proof using All. apply (parts_ok k channels frames ichannels iframes signal filter m output0); auto. Qed.
Let P_pos' : 0 < P.
Proof using All. apply (P_pos k channels frames ichannels iframes signal filter m output0); auto. Qed.
Let mats_ok' : forall ch, ch < ichannels -> matrix_of P (2 ^ k + 1) (mats ch).
Proof using All. apply (mats_ok k channels frames ichannels iframes signal filter m output0); auto. Qed.

Lemma dense_convolve_v2_ok : channels <= ichannels ->
  dense_convolve_v2 channels frames signal ichannels iframes filter (2 ^ k) output0 =
    Ok (tab channels (fun ch => tab frames (lconv (nth ch signal []) (nth ch m [])))).
Proof using All.
  intros Hle. unfold dense_convolve_v2. rewrite En. cbn [bind]. rewrite parts_ok'. cbn [bind].
  destruct make_oac_ok as (c0 & Ec0 & Ep & Ecur). rewrite Ec0. cbn [bind].
  destruct (v2_filter_ok channels parts (repeat c0 channels) (fun c => c = c0)
    (fun ch c => oac_at k P (mats ch) (cut (2 ^ k) (nth ch signal [])) 0 c)) as (convs' & E' & L' & H'); auto.
  - rewrite repeat_length. auto.
  - unfold parts. rewrite tab_length. auto.
  - intros c Hc. apply repeat_spec in Hc. auto.
  - intros ch c Hch ->. unfold parts. rewrite nth_tab by lia. pose proof (mats_ok' ch ltac:(lia)) as M.
    exists (nth 0 (mats ch) []). rewrite (rd_ok _ _ _ []) by (rewrite (proj1 M); apply P_pos'). rewrite (proj1 M), (matrix_row _ _ _ _ 0 M P_pos').
    destruct (oac_filter_ok k P (mats ch) Hk P_pos' M c0 Ep) as (c1 & F1 & I1); [rewrite Ecur; apply P_pos'|].
    exists c1. split; auto. split; auto. unfold oac_at, oac_carry, oa_hist. cbn [Nat.eqb tab seq map].
    replace (tab (2 ^ k) (fun _ => 0%R)) with (repeat 0%R (2 ^ k)). { exact I1. }
    apply (list_eq_tab _ 0%R). { apply repeat_length. } intros i Hi. apply nth_repeat.
  - rewrite E'. cbn [bind]. rewrite repeat_length in L'.
    destruct (v2_all_blocks k frames Hk Hf31 channels P mats signal output0 P_pos') with (convs := convs') (block := repeat 0%R (2 ^ k)) as (convs2 & block2 & E2); auto.
    { intros ch Hch. apply mats_ok'. lia. } { apply repeat_length. }
    rewrite E2. cbn [bind]. f_equal. apply tab_ext. intros ch Hch.
    apply (dense_channel k channels frames ichannels iframes signal filter m output0 Hk Hs Ho Hif H64 Hmax Hf31 Hm En Upola ola dense_fdl dense_filter tt refilters_upola (ex_intro _ _ eq_refl) I I); auto; lia.
Qed.

Lemma dense_convolve_v2_missing : ichannels < channels ->
  dense_convolve_v2 channels frames signal ichannels iframes filter (2 ^ k) output0 = UB.
Proof using All.
  intros Hlt. unfold dense_convolve_v2. rewrite En. cbn [bind]. rewrite parts_ok'. cbn [bind].
  destruct make_oac_ok as (c0 & Ec0 & Ep & Ecur). rewrite Ec0. cbn [bind].
  destruct (v2_filter_ok ichannels parts (repeat c0 channels) (fun c => c = c0) (fun ch c => True)) as (convs' & E' & L' & _); auto.
  { rewrite repeat_length. lia. } { unfold parts. rewrite tab_length. auto. } { intros c Hc. apply repeat_spec in Hc. auto. }
  { intros ch c Hch ->. unfold parts. rewrite nth_tab by lia. pose proof (mats_ok' ch Hch) as M.
    exists (nth 0 (mats ch) []). rewrite (rd_ok _ _ _ []) by (rewrite (proj1 M); apply P_pos'). rewrite (proj1 M), (matrix_row _ _ _ _ 0 M P_pos').
    destruct (oac_filter_ok k P (mats ch) Hk P_pos' M c0 Ep) as (c1 & F1 & I1); [rewrite Ecur; apply P_pos'|]. eauto. }
  unfold v2_filter_channels in *. rewrite (for_range_split _ 0 ichannels channels) by lia. rewrite E'. cbn [bind].
  unfold for_range at 1. destruct (channels - ichannels) as [|d] eqn:Ed; [lia|]. cbn [loop]. unfold parts at 1. rewrite rd_ub by (rewrite tab_length; lia). reflexivity.
Qed.
End Calls.
