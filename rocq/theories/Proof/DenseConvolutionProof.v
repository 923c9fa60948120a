(** Proofs about the plugin's DenseConvolution. *)
From Coq Require Import Reals List Arith Bool ZArith Lia Lra.
From Verif Require Import Base.Outcome Base.OutcomeFacts Base.Sums Base.Cplx Spec.Dft Spec.Sparse Spec.Stft Spec.Convolution Spec.Convolvers Spec.Statistics Spec.Framer Spec.Plugin
  Model.Fft2 Model.Integers Model.Algorithm Model.Statistics Model.Stft Model.Convolution Model.ConstantOverlapAdd Model.PluginConvolution
  Proof.AlgorithmProof Proof.DftTheory Proof.ConvTheory Proof.StreamProof Proof.UpcProof Proof.UpcInstances Proof.StftProof Proof.UpcFinal Proof.ConvCorollaries Proof.StatisticsProof Proof.CliProof Proof.FramerProof Proof.PluginProof Proof.IntegersProof Props.StatisticsProps.
Import ListNotations.
Open Scope nat_scope.
Open Scope outcome_scope.
Local Arguments Nat.div : simpl never.
Local Arguments Nat.modulo : simpl never.
Local Arguments Nat.pow : simpl never.

Lemma lconv_scaled_prefix : forall x y h a k, (forall m, m <= k -> nth m x 0%R = (a * nth m y 0)%R) -> lconv x h k = (a * lconv y h k)%R.
Proof.
  intros x y h a k H. unfold lconv. rewrite <- Rsum_mul_l. apply Rsum_ext. intros m Hm. rewrite H by lia. ring.
Qed.

Lemma lconv_prefix : forall x y h k, (forall m, m <= k -> nth m x 0%R = nth m y 0%R) -> lconv x h k = lconv y h k.
Proof. intros x y h k H. rewrite (lconv_scaled_prefix x y h 1 k); [ring|]. intros. rewrite H by auto. ring. Qed.

Lemma blocks_of_app : forall B a b, blocks_of B a -> blocks_of B b -> blocks_of B (a ++ b).
Proof. intros B a b Ha Hb x Hx. apply in_app_or in Hx. destruct Hx; auto. Qed.

(** With hop = frame size exactly one frame contributes to a sample. *)
Lemma overlap_added_hop : forall F ys ch t, 0 < F ->
  overlap_added F F ys ch t = if t <? F - 1 then 0%R else
    if (t - (F - 1)) / F <? length ys then nth ((t - (F - 1)) mod F) (nth ch (nth ((t - (F - 1)) / F) ys []) []) 0%R else 0%R.
Proof.
  intros F ys ch t HF. unfold overlap_added. destruct (Nat.ltb_spec t (F - 1)) as [Hlt|Hge].
  - apply Rsum_0. intros u _. destruct (Nat.leb_spec (F - 1 + u * F) t); [lia|]. reflexivity.
  - set (q := t - (F - 1)). pose proof (Nat.div_mod q F ltac:(lia)) as Dm. pose proof (Nat.mod_upper_bound q F ltac:(lia)) as Mb.
    assert (G : forall u, (F - 1 + u * F <=? t) && (t <? F - 1 + u * F + F) = (u =? q / F)).
    { intros u. destruct (Nat.eqb_spec u (q / F)) as [->|N].
      - apply andb_true_intro. split; [apply Nat.leb_le|apply Nat.ltb_lt]; lia.
      - apply andb_false_iff. destruct (Nat.lt_ge_cases u (q / F)) as [L|L].
        + right. apply Nat.ltb_ge. assert ((u + 1) * F <= q / F * F) by (apply Nat.mul_le_mono_r; lia). lia.
        + left. apply Nat.leb_gt. assert ((q / F + 1) * F <= u * F) by (apply Nat.mul_le_mono_r; lia). lia. }
    rewrite (Rsum_ext _ _ (fun u => if u =? q / F then nth (q mod F) (nth ch (nth (q / F) ys []) []) 0%R else 0%R)).
    + destruct (Nat.ltb_spec (q / F) (length ys)) as [L|L].
      * rewrite (Rsum_single _ (q / F)); [rewrite Nat.eqb_refl; reflexivity|auto|]. intros u Hu N. apply Nat.eqb_neq in N. rewrite N. reflexivity.
      * apply Rsum_0. intros u Hu. destruct (Nat.eqb_spec u (q / F)); auto; lia.
    + intros u Hu. rewrite G. destruct (Nat.eqb_spec u (q / F)) as [->|N]; auto. replace (t - (F - 1 + q / F * F)) with (q mod F) by lia. reflexivity.
Qed.

(** ** Frames through the convolvers *)
Section Frames.
Variables (p nch : nat) (hs : nat -> list R).
Hypothesis Hp : 0 < p < max_order.
Hypothesis Hhs : forall ch, ch < nch -> 0 < length (hs ch).
Let F := 2 ^ p.

(** The convolvers have the responses [hs] and got the blocks [prev]. *)
Definition has_heard (prev : nat -> list (list R)) (d : dense) : Prop :=
  length (_convolvers d) = nch /\ forall ch, ch < nch -> exists c, rd (_convolvers d) ch = Ok c /\
    at_step ols dense_fdl dense_filter tt (ceil_div (length (hs ch)) F) (F + 1) (partition_spectra F (hs ch)) (prev ch) (length (prev ch)) c.

Lemma F_pos : 0 < F.
Proof using All. apply Nat.neq_0_lt_0, Nat.pow_nonzero. lia. Qed.

Lemma part_matrix : forall h, matrix_of (ceil_div (length h) F) (2 ^ p + 1) (partition_spectra F h).
Proof using All.
  intros h. pose proof (partition_matrix F h F_pos) as M. replace (Nat.log2_up F) with p in M; [exact M|]. unfold F. rewrite Nat.log2_up_pow2 by lia. reflexivity.
Qed.

Lemma part_rows : forall h : list R, 0 < length h -> 0 < ceil_div (length h) F.
Proof using All. intros h Hh. unfold ceil_div. pose proof F_pos. apply Nat.div_str_pos. lia. Qed.

Lemma frame_step : forall prev d x, has_heard prev d -> (forall ch, ch < nch -> blocks_of F (prev ch)) -> matrix_of nch F x ->
  exists d', dense_processFrame d x = Ok (d', tab nch (fun ch => tab F (fun i => lconv (concat (prev ch ++ [nth ch x []])) (hs ch) (length (prev ch) * F + i)))) /\
    has_heard (fun ch => prev ch ++ [nth ch x []]) d' /\ _impulse d' = _impulse d /\ _spec d' = _spec d.
Proof using All.
  intros prev d x (Lc & Hc) Hb Mx.
  assert (G : forall ch, ch < nch -> exists c c', rd (_convolvers d) ch = Ok c /\
     upc_run c (nth ch x []) = Ok (c', tab F (fun i => lconv (concat (prev ch ++ [nth ch x []])) (hs ch) (length (prev ch) * F + i))) /\
     at_step ols dense_fdl dense_filter tt (ceil_div (length (hs ch)) F) (F + 1) (partition_spectra F (hs ch)) (prev ch ++ [nth ch x []]) (length (prev ch ++ [nth ch x []])) c').
  { intros ch Hch. destruct (Hc ch Hch) as (c & Erd & c00 & c0 & o & Ef & Es). exists c.
    set (all := prev ch ++ [nth ch x []]).
    assert (Hall : blocks_of F all). { apply blocks_of_app; auto. intros y [<-|[]]. apply (matrix_row _ _ _ _ Mx Hch). }
    assert (Lall : length all = S (length (prev ch))) by (unfold all; rewrite app_length; cbn; lia).
    destruct (run_step Upols ols dense_fdl dense_filter tt refilters_upols I p (ceil_div (length (hs ch)) F) (partition_spectra F (hs ch)) Hp (part_rows _ (Hhs ch Hch)) (part_matrix _)
       all (length (prev ch)) c) as (c' & Er & Es'); auto; [lia| |].
    - exists c00, c0, o. split; auto. unfold all. rewrite firstn_app, firstn_all, Nat.sub_diag. cbn [firstn]. rewrite app_nil_r.
      rewrite firstn_all in Es. exact Es.
    - exists c'. split; auto. split; [|rewrite Lall; exact Es'].
      assert (En : nth (length (prev ch)) all [] = nth ch x []) by (unfold all; rewrite app_nth2, Nat.sub_diag by lia; reflexivity).
      rewrite <- En. rewrite Er. do 2 f_equal. apply (partition_outs Upols p (hs ch) all (length (prev ch))); auto; lia. }
  assert (A : exists Cf : nat -> upols_convolver, forall ch, ch < nch -> exists c, rd (_convolvers d) ch = Ok c /\
     upc_run c (nth ch x []) = Ok (Cf ch, tab F (fun i => lconv (concat (prev ch ++ [nth ch x []])) (hs ch) (length (prev ch) * F + i))) /\
     at_step ols dense_fdl dense_filter tt (ceil_div (length (hs ch)) F) (F + 1) (partition_spectra F (hs ch)) (prev ch ++ [nth ch x []]) (length (prev ch ++ [nth ch x []])) (Cf ch)).
  { clear - G. revert G. generalize nch as n. induction n as [|n IH]; intros G.
    - destruct make_upc_ok as [[o Eo] _]. assert (exists c : upols_convolver, True) as (c & _).
      { destruct (make_upc ols dense_fdl dense_filter) as [c| |] eqn:E; [exists c; auto| |]; unfold make_upc in E; cbn [ov_make ols] in E; rewrite Eo in E; discriminate. }
      exists (fun _ => c). intros ch Hch. lia.
    - destruct IH as (Cf & H). { intros ch Hch. apply G. lia. }
      destruct (G n ltac:(lia)) as (c & c' & A1 & A2 & A3). exists (fun ch => if ch =? n then c' else Cf ch).
      intros ch Hch. destruct (Nat.eqb_spec ch n) as [->|N]; [exists c; auto|]. apply H. lia. }
  destruct A as (Cf & A). unfold dense_processFrame. rewrite (proj1 Mx).
  assert (Er : run_channels (ov := ols) (fdl := dense_fdl) (flt := dense_filter) nch (_convolvers d, x) =
    Ok (tab nch Cf, tab nch (fun ch => tab F (fun i => lconv (concat (prev ch ++ [nth ch x []])) (hs ch) (length (prev ch) * F + i))))).
  { apply run_channels_ok; [auto|apply Mx|]. intros ch Hch. destruct (A ch Hch) as (c & A1 & A2 & _). eauto. }
  unfold upols_convolver in *. rewrite Er.
  cbn [bind]. eexists. split; [reflexivity|]. split; auto. split; cbn [_convolvers]; [apply tab_length|].
  intros ch Hch. destruct (A ch Hch) as (c & _ & _ & A3). exists (Cf ch). split; auto. rewrite (rd_ok _ _ _ (Cf 0)) by (rewrite tab_length; auto). rewrite nth_tab by auto. reflexivity.
Qed.

Lemma frames_run : forall frames prev d, has_heard prev d -> (forall ch, ch < nch -> blocks_of F (prev ch)) -> (forall x, In x frames -> matrix_of nch F x) ->
  exists d' ys, run_frames dense_processFrame d frames = Ok (d', ys) /\ length ys = length frames /\
    has_heard (fun ch => prev ch ++ map (fun x => nth ch x []) frames) d' /\ (forall y, In y ys -> matrix_of nch F y) /\
    (forall u ch, u < length frames -> ch < nch -> nth ch (nth u ys []) [] =
       tab F (fun i => lconv (concat (prev ch ++ map (fun x => nth ch x []) frames)) (hs ch) ((length (prev ch) + u) * F + i))) /\
    _impulse d' = _impulse d /\ _spec d' = _spec d.
Proof using All.
  induction frames as [|x rest IH]; intros prev d Hd Hb Hx; cbn [run_frames].
  - exists d, []. split; auto. split; auto. split. { destruct Hd as [L H]. split; auto. intros ch Hch. cbn [map]. rewrite app_nil_r. auto. }
    split; [intros y []|]. split; auto. intros u ch Hu. cbn in Hu. lia.
  - destruct (frame_step prev d x) as (d1 & E1 & H1 & I1 & S1); auto. { apply Hx. left. auto. }
    rewrite E1. cbn [bind].
    assert (Mx : matrix_of nch F x) by (apply Hx; left; auto).
    destruct (IH (fun ch => prev ch ++ [nth ch x []]) d1) as (d2 & ys & E2 & L2 & H2 & M2 & V2 & I2 & S2); auto.
    { intros ch Hch. apply blocks_of_app; auto. intros y [<-|[]]. apply (matrix_row _ _ _ _ Mx Hch). }
    { intros y Hy. apply Hx. right. auto. }
    rewrite E2. cbn [bind]. eexists d2, _. split; [reflexivity|]. split; [cbn; auto|].
    assert (App : forall ch, (prev ch ++ [nth ch x []]) ++ map (fun x => nth ch x []) rest = prev ch ++ map (fun x => nth ch x []) (x :: rest)) by (intros ch; rewrite <- app_assoc; reflexivity).
    split. { destruct H2 as [L H2]. split; auto. intros ch Hch. rewrite <- App. auto. }
    split. { intros y [<-|Hy]; auto. apply matrix_intro; [apply tab_length|]. intros i Hi. rewrite nth_tab by auto. apply tab_length. }
    split; [|split; congruence].
    intros [|u] ch Hu Hch; cbn [nth].
    + rewrite nth_tab by auto. apply tab_ext. intros i Hi. rewrite Nat.add_0_r. apply lconv_prefix. intros m Hm.
      rewrite <- App, (concat_app (prev ch ++ [nth ch x []])). rewrite app_nth1; auto.
      rewrite concat_app, app_length, (concat_blocks_length F) by auto. cbn [concat]. rewrite app_nil_r, (matrix_row _ _ _ _ Mx Hch). nia.
    + cbn [length] in Hu. rewrite V2 by (auto; lia). apply tab_ext. intros i Hi. rewrite App, app_length. cbn [length]. f_equal. lia.
Qed.
End Frames.

(** ** One session *)
Section Session.
Variables (p nch N : nat) (hs : nat -> list R).
Hypothesis Hp : 0 < p < max_order.
Hypothesis Hhs : forall ch, ch < nch -> 0 < length (hs ch).
Hypothesis Hn : 0 < nch.
Hypothesis HN : 0 < N.
Let F := 2 ^ p.

Definition frames_in (blocks : list (list (list R))) : list (list (list R)) :=
  frames_of nch F F 2 (channel_stream blocks) (stream_length blocks).

Lemma frames_concat : forall blocks ch, ch < nch ->
  concat (map (fun x => nth ch x []) (frames_in blocks)) = tab (stream_length blocks / F * F) (fun i => (2 * nth i (channel_stream blocks ch) 0)%R).
Proof using All.
  intros blocks ch Hch. unfold frames_in, frames_of, tab. rewrite map_map. fold (tab (frame_count F F (stream_length blocks)) (fun u => nth ch (frame_at nch F F 2 (channel_stream blocks) u) [])).
  rewrite (tab_ext _ _ _ (fun u => tab F (fun i => nth (u * F + i) (channel_stream blocks ch) 0 * 2)%R)).
  2:{ intros u Hu. unfold frame_at. rewrite nth_tab by auto. reflexivity. }
  rewrite concat_tab_blocks. assert (HF : 0 < F) by (apply Nat.neq_0_lt_0, Nat.pow_nonzero; lia).
  replace (frame_count F F (stream_length blocks)) with (stream_length blocks / F).
  - apply tab_ext. intros i Hi. pose proof (Nat.div_mod i F ltac:(lia)). replace (i / F * F + i mod F) with i by lia. ring.
  - unfold frame_count. destruct (Nat.ltb_spec (stream_length blocks) F).
    + apply Nat.div_small. auto.
    + replace (stream_length blocks) with (stream_length blocks - F + 1 * F) at 1 by lia. rewrite Nat.div_add by lia. reflexivity.
Qed.

(** [c] has buffers for this session and convolvers that got [prev]. *)
Lemma session_from : forall prev c blocks, shaped p 0 nch N c -> _outputOffset _ c = (Z.of_nat F - 1)%Z -> _unusedInputCount _ c = 0%Z -> has_heard p nch hs prev (_user _ c) -> (forall ch, ch < nch -> blocks_of F (prev ch)) ->
  host_blocks nch N blocks ->
  exists c' outs, dense_process_all nch blocks c = Ok (c', outs) /\ shaped p 0 nch N c' /\
    has_heard p nch hs (fun ch => prev ch ++ map (fun x => nth ch x []) (frames_in blocks)) (_user _ c') /\
    _impulse (_user _ c') = _impulse (_user _ c) /\ _spec (_user _ c') = _spec (_user _ c) /\
    length outs = length blocks /\ (forall t, t < length blocks -> matrix_of nch (block_length (nth t blocks [])) (nth t outs [])) /\
    forall ch, ch < nch -> channel_stream outs ch = tab (stream_length blocks) (fun t => if t <? F - 1 then nth t (nth ch (_output _ c) []) 0%R else
      lconv (concat (prev ch) ++ map (fun v => 2 * v)%R (channel_stream blocks ch)) (hs ch) (length (concat (prev ch)) + (t - (F - 1)))).
Proof using All.
  intros prev c blocks Hs Eo Ec Hh Hb Hbl.
  assert (HF : 0 < F) by (apply Nat.neq_0_lt_0, Nat.pow_nonzero; lia).
  assert (G2 : (2 * INR F / INR F)%R = 2%R). { field. apply not_0_INR. lia. }
  assert (E0 : 2 ^ p / 2 ^ 0 = F). { change (2 ^ 0) with 1. rewrite Nat.div_1_r. reflexivity. }
  destruct (frames_run p nch hs Hp Hhs (frames_in blocks) prev (_user _ c)) as (d' & ys & Er & Ly & Hh' & My & Vy & Id & Sd); auto.
  { intros x Hx. eapply frames_of_shape. exact Hx. }
  destruct (framer_residue dense dense_processFrame p 0 nch N ltac:(lia) Hn HN True c blocks d' ys) as (c' & outs & E & Eu & Hs' & Lo & Mo & Vo); auto.
  { rewrite E0. fold F. rewrite G2. exact Er. }
  exists c', outs. split; [exact E|]. split; auto. rewrite Eu. split; auto. split; auto. split; auto. split; auto. split; auto.
  intros ch Hch. rewrite Vo by auto. rewrite E0. fold F. apply tab_ext. intros t Ht. rewrite overlap_added_hop by auto.
  replace (F - 1 + F - F) with (F - 1) by lia. destruct (Nat.ltb_spec t (F - 1)) as [Hlt|Hge]; [ring|]. rewrite Rplus_0_r. set (q := t - (F - 1)).
  pose proof (Nat.div_mod q F ltac:(lia)) as Dm. pose proof (Nat.mod_upper_bound q F ltac:(lia)) as Mb.
  set (n := stream_length blocks) in *.
  assert (Lfr : length (frames_in blocks) = n / F).
  { pose proof (frames_concat blocks ch Hch) as Q. apply (f_equal (@length R)) in Q. rewrite tab_length in Q. fold n in Q.
    rewrite (concat_blocks_length F), map_length in Q.
    - apply Nat.mul_cancel_r in Q; auto; lia.
    - intros x Hx. apply in_map_iff in Hx. destruct Hx as (y & <- & Hy). apply frames_of_shape in Hy. apply (matrix_row _ _ _ _ Hy Hch). }
  assert (Hq : q / F < n / F).
  { assert (q + F <= n) by lia. replace (n / F) with ((n - F) / F + 1).
    - assert (q / F <= (n - F) / F) by (apply Nat.div_le_mono; lia). lia.
    - replace n with (n - F + 1 * F) at 2 by lia. rewrite Nat.div_add by lia. reflexivity. }
  rewrite (proj2 (Nat.ltb_lt (q / F) (length ys))) by lia.
  rewrite Vy by (auto; lia). fold F. rewrite nth_tab by auto.
  rewrite (concat_blocks_length F) by auto.
  replace ((length (prev ch) + q / F) * F + q mod F) with (length (prev ch) * F + q) by nia.
  apply lconv_prefix. intros m Hm. rewrite concat_app, frames_concat by auto. fold n.
  destruct (Nat.lt_ge_cases m (length (concat (prev ch)))) as [L|L].
  - rewrite !app_nth1 by auto. reflexivity.
  - rewrite !app_nth2 by auto. rewrite (concat_blocks_length F) in * by auto.
    rewrite nth_tab by nia. replace 0%R with (2 * 0)%R at 2 by ring. rewrite (map_nth (fun v => 2 * v)%R). reflexivity.
Qed.

Lemma session_ok : forall prev c blocks, shaped p 0 nch N c -> has_heard p nch hs prev (_user _ c) -> (forall ch, ch < nch -> blocks_of F (prev ch)) ->
  host_blocks nch N blocks ->
  exists c' outs, dense_process_all nch blocks (dense_reset c) = Ok (c', outs) /\ shaped p 0 nch N c' /\
    has_heard p nch hs (fun ch => prev ch ++ map (fun x => nth ch x []) (frames_in blocks)) (_user _ c') /\
    _impulse (_user _ c') = _impulse (_user _ c) /\ _spec (_user _ c') = _spec (_user _ c) /\
    length outs = length blocks /\ (forall t, t < length blocks -> matrix_of nch (block_length (nth t blocks [])) (nth t outs [])) /\
    forall ch, ch < nch -> channel_stream outs ch = tab (stream_length blocks) (fun t => if t <? F - 1 then 0%R else
      lconv (concat (prev ch) ++ map (fun v => 2 * v)%R (channel_stream blocks ch)) (hs ch) (length (concat (prev ch)) + (t - (F - 1)))).
Proof using All.
  intros prev c blocks Hs Hh Hb Hbl.
  destruct (session_from prev (dense_reset c) blocks) as (c' & outs & E & Hs' & Hh' & I & S & L & M & V); auto.
  - apply reset_shaped. exact Hs.
  - cbn. destruct Hs as (-> & _). reflexivity.
  - exists c', outs. split; [exact E|]. split; auto. split; auto. split; auto. split; auto. split; auto. split; auto.
    intros ch Hch. rewrite V by auto. apply tab_ext. intros t Ht. destruct (t <? F - 1); auto. apply reset_zero.
Qed.
End Session.

Lemma nth_repeat_lt : forall T (v d : T) n i, i < n -> nth i (repeat v n) d = v.
Proof. intros T v d n. induction n as [|n IH]; intros i Hi; [lia|]. destruct i; cbn; auto. apply IH. lia. Qed.

Lemma C_zero_l : forall x, (RtoC 0 * x)%C = C0.
Proof. intros [a b]. unfold RtoC, C0, Cmul. cbn. f_equal; ring. Qed.

(** ** Loading and preparing *)
Section Update.
Variable resampler : audio -> R -> audio.
Variables (p nch : nat).
Hypothesis Hp : 0 < p < max_order.
Let F := 2 ^ p.

Definition scaled_response (r : audio) (a : R) (ch : nat) : list R := map (fun v => v * a)%R (nth ch (a_data r) []).

Lemma pow_sizes : 0 < F /\ 2 * F <= 2 ^ max_order /\ 2 ^ Nat.log2_up F = F.
Proof using All.
  unfold F. split; [apply Nat.neq_0_lt_0, Nat.pow_nonzero; lia|]. split; [rewrite <- Nat.pow_succ_r'; apply Nat.pow_le_mono_r; lia|].
  rewrite Nat.log2_up_pow2 by lia. reflexivity.
Qed.

Lemma filters_ready : forall (hs : nat -> list R) (filter : list (list (list C))) (convs : list upols_convolver), length convs = nch -> nch <= length filter ->
  (forall ch, ch < nch -> 0 < length (hs ch) /\ nth ch filter [] = partition_spectra F (hs ch)) ->
  exists convs', filter_channels (ov := ols) (fdl := dense_fdl) (flt := dense_filter) nch filter tt convs = Ok convs' /\ forall im sp, has_heard p nch hs (fun _ => []) (Dense im sp convs').
Proof using All.
  intros hs filter convs Lc Lf Hf.
  destruct (filter_channels_ok (ov := ols) (fdl := dense_fdl) (flt := dense_filter) nch filter tt convs
    (fun ch c => at_step ols dense_fdl dense_filter tt (ceil_div (length (hs ch)) F) (F + 1) (partition_spectra F (hs ch)) [] 0 c)) as (convs' & E & L' & H'); auto.
  - intros ch c Hch. destruct (Hf ch Hch) as (Hh & ->).
    pose proof pow_sizes as (HF & _ & EF). pose proof (partition_matrix F (hs ch) HF) as M. rewrite EF in M.
    assert (HP : 0 < ceil_div (length (hs ch)) F) by (unfold ceil_div; apply Nat.div_str_pos; lia).
    destruct (filter_step Upols ols dense_fdl dense_filter tt refilters_upols I p (ceil_div (length (hs ch)) F) (partition_spectra F (hs ch)) Hp HP M [] c) as (c0 & E0 & S0).
    exists (nth 0 (partition_spectra F (hs ch)) []), c0. split; [apply rd_ok; rewrite (proj1 M); auto|]. split; [|exact S0].
    rewrite (proj1 M), (UpcInstances.matrix_row _ _ _ _ 0 M HP). exact E0.
  - exists convs'. split; auto. intros im sp. split; cbn [_convolvers]; auto.
Qed.

Lemma some_convolver : exists c, make_upc ols dense_fdl dense_filter = Ok c.
Proof using. eexists. reflexivity. Qed.

Lemma scaled_length : forall r a ch, matrix_of (a_channels r) (a_samples r) (a_data r) -> ch < a_channels r -> length (scaled_response r a ch) = a_samples r.
Proof using. intros r a ch M Hch. unfold scaled_response. rewrite map_length. apply (matrix_row _ _ _ _ M Hch). Qed.

Lemma partitions_of_response : forall r, response_fits F r -> exists a, (0 < a)%R /\
  normalize_impulse (Mat (a_channels r) (a_samples r) (a_data r)) = Ok (Mat (a_channels r) (a_samples r) (map (map (fun v => v * a)%R) (a_data r))) /\
  (forall ch, In ch (a_data r) -> energy ch <> 0%R -> (energy (map (fun v => v * a) ch) <= 1)%R) /\
  uniform_partition (a_channels r) (a_samples r) (map (map (fun v => v * a)%R) (a_data r)) F =
    Ok (tab (a_channels r) (fun ch => partition_spectra F (scaled_response r a ch))).
Proof using All.
  intros r (M & Hc & Hs & H31 & Hmax). pose proof pow_sizes as (HF & HF2 & EF).
  destruct (C18_normalize_impulse (a_channels r) (a_samples r) (a_data r)) as (a & Ha & En & He & _); auto. exists a. split; auto. split; auto. split; auto.
  rewrite uniform_partition_ok; auto.
  - f_equal. apply tab_ext. intros ch Hch. unfold scaled_response. rewrite nth_scaled. reflexivity.
  - apply scaled_matrix; auto.
  - eapply Z.lt_trans; [exact H31|reflexivity].
  - rewrite EF. exact Hmax.
Qed.

Lemma update_response : forall d spec im, _spec d = Some spec -> numChannels spec = nch -> maximumBlockSize spec = F -> _impulse d = Some im ->
  let r := resample resampler im (sampleRate spec) in response_fits F r ->
  (nch <= a_channels r -> exists a d', (0 < a)%R /\
     normalize_impulse (Mat (a_channels r) (a_samples r) (a_data r)) = Ok (Mat (a_channels r) (a_samples r) (map (map (fun v => v * a)%R) (a_data r))) /\
     updateImpulseResponse resampler d = Ok d' /\ has_heard p nch (scaled_response r a) (fun _ => []) d' /\ _impulse d' = Some im /\ _spec d' = Some spec) /\
  (a_channels r < nch -> updateImpulseResponse resampler d = UB).
Proof using All.
  intros d spec im Es En Em Ei r Hr. destruct (partitions_of_response r Hr) as (a & Ha & Enm & _ & Ep). pose proof Hr as (M & Hc & Hs & _).
  destruct some_convolver as (c0 & Ec0).
  destruct (resize_ok (_convolvers d) nch c0 Ec0) as (convs & Er & Lr).
  unfold updateImpulseResponse. rewrite Es, Ei, En, Em. unfold upols_convolver in *. rewrite Er. cbn [bind]. fold r. rewrite Enm. cbn [bind]. rewrite Ep. cbn [bind].
  split.
  - intros Hle. destruct (filters_ready (scaled_response r a) (tab (a_channels r) (fun ch => partition_spectra F (scaled_response r a ch))) convs Lr) as (convs' & Ef & Hf).
    + rewrite tab_length. auto.
    + intros ch Hch. rewrite nth_tab by lia. split; auto. rewrite scaled_length by (auto; lia). auto.
    + unfold upols_convolver in *. rewrite Ef. cbn [bind]. exists a, (Dense (Some im) (Some spec) convs'). split; [exact Ha|]. split; [reflexivity|]. split; [reflexivity|]. split; [apply Hf|]. auto.
  - intros Hlt. rewrite filter_channels_missing; auto. { rewrite tab_length. auto. }
    intros ch c Hch. rewrite tab_length in Hch. rewrite nth_tab by auto.
    pose proof pow_sizes as (HF & _ & EF). pose proof (partition_matrix F (scaled_response r a ch) HF) as Mp. rewrite EF in Mp.
    assert (HP : 0 < ceil_div (length (scaled_response r a ch)) F) by (rewrite scaled_length by auto; unfold ceil_div; apply Nat.div_str_pos; lia).
    destruct (filter_step Upols ols dense_fdl dense_filter tt refilters_upols I p _ (partition_spectra F (scaled_response r a ch)) Hp HP Mp [] c) as (c1 & E1 & _).
    exists (nth 0 (partition_spectra F (scaled_response r a ch)) []), c1. split; [apply rd_ok; rewrite (proj1 Mp); auto|].
    rewrite (proj1 Mp), (UpcInstances.matrix_row _ _ _ _ 0 Mp HP). exact E1.
Qed.

(** The identity matrix is the partitioned unit impulse. *)
Definition unit_impulse : list R := 1%R :: repeat 0%R (2 * F - 1).

Lemma unit_nth : forall i, nth i unit_impulse 0%R = if i =? 0 then 1%R else 0%R.
Proof using. intros [|i]; cbn [unit_impulse nth Nat.eqb]; auto. apply nth_repeat. Qed.

Lemma identity_is_unit : generate_identity_impulse F 2 = Ok (partition_spectra F unit_impulse).
Proof using All.
  pose proof pow_sizes as (HF & _ & EF).
  unfold generate_identity_impulse. cbn [repeat rd nth_error bind]. rewrite fill_ok. cbn [bind]. unfold wr. cbn [length Nat.ltb Nat.leb]. f_equal.
  assert (Lu : length unit_impulse = 2 * F) by (unfold unit_impulse; cbn [length]; rewrite repeat_length; lia).
  unfold partition_spectra. rewrite EF, Lu. replace (ceil_div (2 * F) F) with 2.
  2:{ unfold ceil_div. replace (2 * F + F - 1) with (F - 1 + 2 * F) by lia. rewrite Nat.div_add by lia. rewrite Nat.div_small by lia. reflexivity. }
  assert (L2 : forall q, length (pad (2 * F) (part F (stretched F F unit_impulse) q)) = 2 * F) by (intros; apply tab_length).
  assert (D2 : 2 * F / 2 = F) by (rewrite Nat.mul_comm; apply Nat.div_mul; lia).
  assert (Q : forall q i, i < 2 * F -> nth i (pad (2 * F) (part F (stretched F F unit_impulse) q)) 0%R = if (q =? 0) && (i =? 0) then 1%R else 0%R).
  { intros q i Hi. unfold pad. rewrite nth_tab by auto. unfold part. destruct (Nat.lt_ge_cases i F).
    - rewrite nth_tab by auto. destruct (stretched_pow2 p unit_impulse) as [_ E]. fold F in E. rewrite E, unit_nth.
      destruct (Nat.eqb_spec q 0) as [->|]; cbn [andb]. { replace (0 * F + i) with i by lia. reflexivity. }
      destruct (Nat.eqb_spec (q * F + i) 0); auto. nia.
    - rewrite nth_overflow by (rewrite tab_length; auto). destruct (Nat.eqb_spec i 0); [lia|]. rewrite andb_false_r. reflexivity. }
  unfold tab at 1. cbn [seq map upd firstn skipn app]. unfold RDFT_list. rewrite !L2, D2.
  rewrite repeat_length. f_equal; [|f_equal].
  - apply (nth_ext _ _ C0 C0); [rewrite repeat_length, tab_length; auto|]. intros i Hi. rewrite repeat_length in Hi. rewrite nth_tab by auto.
    rewrite nth_repeat_lt by auto. unfold DFT. rewrite (Csum_single _ 0).
    + rewrite Q by lia. cbn [Nat.eqb andb]. rewrite Nat.mul_0_l. unfold W. rewrite Rmult_0_r. unfold Rdiv. rewrite Rmult_0_l. rewrite Cexp_0. unfold C1, RtoC, Cmul. cbn. f_equal; ring.
    + lia.
    + intros j Hj N. rewrite Q by lia. destruct (Nat.eqb_spec j 0); [congruence|]. cbn [Nat.eqb andb]. apply C_zero_l.
  - apply (nth_ext _ _ C0 C0); [rewrite repeat_length, tab_length; auto|]. intros i Hi. rewrite repeat_length in Hi. rewrite nth_tab by auto.
    rewrite nth_repeat_lt by auto. symmetry. unfold DFT. apply Csum_0. intros j Hj. rewrite Q by lia. cbn [Nat.eqb andb]. apply C_zero_l.
Qed.

Lemma update_identity : forall d spec, _spec d = Some spec -> numChannels spec = nch -> maximumBlockSize spec = F -> _impulse d = None ->
  exists d', updateImpulseResponse resampler d = Ok d' /\ has_heard p nch (fun _ => unit_impulse) (fun _ => []) d' /\ _impulse d' = None /\ _spec d' = Some spec.
Proof using All.
  intros d spec Es En Em Ei. destruct some_convolver as (c0 & Ec0). destruct (resize_ok (_convolvers d) nch c0 Ec0) as (convs & Er & Lr).
  unfold updateImpulseResponse. rewrite Es, Ei, En, Em. rewrite identity_is_unit. cbn [bind]. unfold upols_convolver in *. rewrite Er. cbn [bind].
  destruct (filters_ready (fun _ => unit_impulse) (repeat (partition_spectra F unit_impulse) nch) convs Lr) as (convs' & Ef & Hf).
  - rewrite repeat_length. auto.
  - intros ch Hch. split; [cbn; lia|]. rewrite (nth_indep _ _ (partition_spectra F unit_impulse)) by (rewrite repeat_length; auto). apply nth_repeat.
  - unfold upols_convolver in *. rewrite Ef. cbn [bind]. eexists. split; [reflexivity|]. split; [apply Hf|]. auto.
Qed.

Lemma lconv_unit : forall x k, lconv x unit_impulse k = nth k x 0%R.
Proof using Hp.
  intros x k. unfold lconv. rewrite (Rsum_single _ k).
  - rewrite Nat.sub_diag, unit_nth. cbn [Nat.eqb]. ring.
  - lia.
  - intros i Hi N. rewrite unit_nth. destruct (Nat.eqb_spec (k - i) 0); [lia|]. ring.
Qed.
End Update.

(** ** Reachable objects *)
Definition sized (p : nat) (c : cola dense) : Prop := _frameSize _ c = 2 ^ p /\ _hopSize _ c = 2 ^ p.

Lemma reach_sized : forall resampler B c, 1 <= B -> (Z.of_nat B <= 2 ^ 63)%Z -> dense_reach resampler B c -> sized (Nat.log2_up B) c.
Proof.
  intros resampler B c HB HB63 H. induction H as [c E|c a c' H IH E|c spec f u o c' H IH E|c H IH|c nch blocks c' outs H IH E].
  - unfold dense_make in E. rewrite next_order_ok in E by auto. cbn [bind] in E. injection E as <-. split; cbn; auto. rewrite Nat.pow_0_r, Nat.div_1_r. reflexivity.
  - unfold dense_load in E. apply bind_ok in E. destruct E as (d & _ & E). injection E as <-. exact IH.
  - unfold dense_prepare in E. apply bind_ok in E. destruct E as (d & _ & E). injection E as <-. exact IH.
  - exact IH.
  - apply (process_all_keeps _ _ (fun _ => True)) in E; auto. destruct E as (E1 & E2 & _). destruct IH as [I1 I2]. split; congruence.
Qed.

Lemma order_ok : forall B, block_size_ok B -> 0 < Nat.log2_up B < max_order.
Proof.
  intros B [H1 H2]. split; [apply Nat.log2_up_pos; lia|]. apply Nat.log2_up_le_mono in H2. rewrite Nat.log2_up_pow2 in H2 by lia. unfold max_order in *. lia.
Qed.
Lemma block_size_Z : forall B, block_size_ok B -> 1 <= B /\ (Z.of_nat B <= 2 ^ 63)%Z.
Proof.
  intros B [H1 H2]. split; [lia|]. apply Nat2Z.inj_le in H2. rewrite pow2_Z in H2. eapply Z.le_trans; [exact H2|].
  change (2 ^ 63)%Z with (2 ^ Z.of_nat 63)%Z. apply Z.pow_le_mono_r; unfold max_order; lia.
Qed.

Lemma stream_len : forall nch N blocks ch, host_blocks nch N blocks -> ch < nch -> length (channel_stream blocks ch) = stream_length blocks.
Proof.
  intros nch N blocks ch Hb Hch. unfold channel_stream, stream_length. induction blocks as [|b rest IH]; auto. cbn [map concat list_sum fold_right].
  rewrite app_length. change (fold_right Nat.add 0 (map block_length rest)) with (list_sum (map block_length rest)). rewrite IH.
  - f_equal. destruct (Hb b (or_introl eq_refl)) as [M _]. apply (matrix_row _ _ _ _ M Hch).
  - intros x Hx. apply Hb. right. auto.
Qed.

Lemma convolved_from : forall F a blocks prev hs h ch, 0 < F -> blocks_of F prev ->
  (forall v k, lconv v hs k = (a * lconv v h k)%R) -> forall before, concat prev = map (fun v => 2 * v)%R before ->
  tab (length (channel_stream blocks ch)) (fun t => if t <? F - 1 then 0%R else
    lconv (concat prev ++ map (fun v => 2 * v)%R (channel_stream blocks ch)) hs (length (concat prev) + (t - (F - 1)))) =
  convolved_stream F (2 * a) before (channel_stream blocks ch) h.
Proof.
  intros F a blocks prev hs h ch HF Hb Hs before Ep. apply tab_ext. intros t Ht. destruct (t <? F - 1); auto. rewrite Hs, Ep, map_length, <- map_app.
  rewrite (lconv_scaled_prefix _ (before ++ channel_stream blocks ch) h 2). { ring. }
  intros m _. replace 0%R with (2 * 0)%R at 1 by ring. rewrite (map_nth (fun v => 2 * v)%R). reflexivity.
Qed.

Lemma normalised_unique : forall F a r, response_fits F r -> (0 < a)%R ->
  normalize_impulse (Mat (a_channels r) (a_samples r) (a_data r)) = Ok (Mat (a_channels r) (a_samples r) (map (map (fun v => v * a)%R) (a_data r))) -> normalised_by a r.
Proof.
  intros F a r (M & Hc & Hs & _) Ha E. split; auto. split; auto. intros ch Hch N.
  destruct (C18_normalize_impulse (a_channels r) (a_samples r) (a_data r)) as (b & Hb & Eb & He & _); auto.
  assert (Q : map (map (fun v => v * a)%R) (a_data r) = map (map (fun v => v * b)%R) (a_data r)) by congruence.
  rewrite <- (nth_scaled (a_data r) a ch), Q, nth_scaled. apply He; auto. apply nth_In. rewrite (proj1 M). auto.
Qed.

Lemma load_impulse : forall resampler impulse c c', dense_load resampler impulse c = Ok c' -> _impulse (_user _ c') = Some impulse /\
  c' = set_user _ c (_user _ c') /\ _spec (_user _ c') = _spec (_user _ c).
Proof.
  intros resampler impulse c c' E. unfold dense_load in E. apply bind_ok in E. destruct E as (d & E & E'). injection E' as <-. cbn.
  unfold updateImpulseResponse in E. cbn [_spec _impulse] in E. destruct (_spec (_user _ c)); [|injection E as <-; auto].
  repeat (apply bind_ok in E; destruct E as (? & _ & E)). injection E as <-. auto.
Qed.

Lemma prepared_as : forall resampler spec frame unused output c c', dense_prepare resampler spec frame unused output c = Ok c' ->
  _impulse (_user _ c') = _impulse (_user _ c) /\ c' = set_user _ (prepare _ c frame unused output) (_user _ c') /\
  _spec (_user _ c') = Some (ProcessSpec (sampleRate spec) (_frameSize _ c) (numChannels spec)).
Proof.
  intros resampler spec frame unused output c c' E. unfold dense_prepare in E. apply bind_ok in E. destruct E as (d & E & E'). injection E' as <-. cbn.
  unfold updateImpulseResponse in E. cbn [_spec _impulse _user prepare _frameSize] in E. destruct (_impulse (_user _ c)).
  all: repeat (apply bind_ok in E; destruct E as (? & _ & E)); injection E as <-; auto.
Qed.

Lemma prepare_shape : forall B nch N c frame unused output, sized (Nat.log2_up B) c -> buffers_for (frame_size B) nch N frame unused output ->
  shaped (Nat.log2_up B) 0 nch N (prepare dense c frame unused output).
Proof.
  intros B nch N c f u o [S1 S2] (B1 & B2 & B3). unfold shaped. rewrite Nat.pow_0_r, Nat.div_1_r. unfold prepare; cbn. rewrite S1, S2. repeat split; auto; try apply B1; try apply B2; try apply B3.
Qed.

(** After load and prepare. *)
Lemma ready_ok : forall resampler B nch N rate impulse, block_size_ok B ->
  let r := resample resampler impulse rate in response_fits (frame_size B) r -> nch <= a_channels r ->
  (forall c0 c1 frame unused output, dense_reach resampler B c0 -> buffers_for (frame_size B) nch N frame unused output -> dense_load resampler impulse c0 = Ok c1 ->
     exists c, dense_prepare resampler (ProcessSpec rate N nch) frame unused output c1 = Ok c) /\
  (forall c0 c1 frame unused output, dense_reach resampler B c0 -> buffers_for (frame_size B) nch N frame unused output ->
     dense_prepare resampler (ProcessSpec rate N nch) frame unused output c0 = Ok c1 -> exists c, dense_load resampler impulse c1 = Ok c) /\
  forall c, ready_with resampler B nch N rate impulse c -> exists a, normalised_by a r /\ shaped (Nat.log2_up B) 0 nch N c /\
    has_heard (Nat.log2_up B) nch (scaled_response r a) (fun _ => []) (_user _ c).
Proof.
  intros resampler B nch N rate impulse HB r Hr Hle. pose proof (order_ok B HB) as Hp. destruct (block_size_Z B HB) as [HB1 HB63].
  assert (L : forall d spec, _spec d = Some spec -> numChannels spec = nch -> maximumBlockSize spec = frame_size B -> sampleRate spec = rate -> _impulse d = Some impulse ->
    exists a d', normalised_by a r /\ updateImpulseResponse resampler d = Ok d' /\ has_heard (Nat.log2_up B) nch (scaled_response r a) (fun _ => []) d').
  { intros d spec E1 E2 E3 E4 E5. destruct (update_response resampler (Nat.log2_up B) nch Hp d spec impulse) as [U _]; auto. { rewrite E4. exact Hr. }
    rewrite E4 in U. fold r in U. destruct (U Hle) as (a & d' & Ha & En & Eu & Hh & _). exists a, d'. split; auto. eapply normalised_unique; eauto. }
  assert (P : forall c0 c1 frame unused output, dense_reach resampler B c0 -> dense_load resampler impulse c0 = Ok c1 ->
     exists a c, normalised_by a r /\ dense_prepare resampler (ProcessSpec rate N nch) frame unused output c1 = Ok c /\
       has_heard (Nat.log2_up B) nch (scaled_response r a) (fun _ => []) (_user _ c)).
  { intros c0 c1 f u o H E. pose proof (dr_load _ _ _ _ _ H E) as H1. destruct (reach_sized _ _ _ HB1 HB63 H1) as [S1 S2]. destruct (load_impulse _ _ _ _ E) as (I1 & _).
    destruct (L (Dense (_impulse (_user _ c1)) (Some (ProcessSpec rate (_frameSize _ c1) nch)) (_convolvers (_user _ c1))) (ProcessSpec rate (_frameSize _ c1) nch)) as (a & d' & Ha & Eu & Hh); auto.
    exists a. eexists. split; auto. unfold dense_prepare. cbn [prepare _frameSize _user sampleRate numChannels]. rewrite Eu. cbn [bind]. split; [reflexivity|]. exact Hh. }
  assert (Q : forall c0 c1 frame unused output, dense_reach resampler B c0 -> dense_prepare resampler (ProcessSpec rate N nch) frame unused output c0 = Ok c1 ->
     exists a c, normalised_by a r /\ dense_load resampler impulse c1 = Ok c /\ has_heard (Nat.log2_up B) nch (scaled_response r a) (fun _ => []) (_user _ c)).
  { intros c0 c1 f u o H E. destruct (reach_sized _ _ _ HB1 HB63 H) as [S1 S2]. destruct (prepared_as _ _ _ _ _ _ _ E) as (_ & _ & Sp).
    destruct (L (Dense (Some impulse) (_spec (_user _ c1)) (_convolvers (_user _ c1))) (ProcessSpec rate (_frameSize _ c0) nch)) as (a & d' & Ha & Eu & Hh); auto.
    exists a. eexists. split; auto. unfold dense_load. rewrite Eu. cbn [bind]. split; [reflexivity|]. exact Hh. }
  split; [|split].
  - intros c0 c1 f u o H _ E. destruct (P c0 c1 f u o H E) as (a & c & _ & Ec & _). eauto.
  - intros c0 c1 f u o H _ E. destruct (Q c0 c1 f u o H E) as (a & c & _ & Ec & _). eauto.
  - intros c (c0 & c1 & f & u & o & H & Hbuf & [(E1 & E2)|(E1 & E2)]).
    + destruct (P c0 c1 f u o H E1) as (a & c' & Ha & Ec & Hh). rewrite E2 in Ec. injection Ec as <-. exists a. split; auto. split; auto.
      destruct (prepared_as _ _ _ _ _ _ _ E2) as (_ & -> & _). pose proof (reach_sized _ _ _ HB1 HB63 (dr_load _ _ _ _ _ H E1)) as S. apply (prepare_shape B nch N c1 f u o S Hbuf).
    + destruct (Q c0 c1 f u o H E1) as (a & c' & Ha & Ec & Hh). rewrite E2 in Ec. injection Ec as <-. exists a. split; auto. split; auto.
      destruct (load_impulse _ _ _ _ E2) as (_ & -> & _). destruct (prepared_as _ _ _ _ _ _ _ E1) as (_ & -> & _).
      pose proof (reach_sized _ _ _ HB1 HB63 H) as S. apply (prepare_shape B nch N c0 f u o S Hbuf).
Qed.

Lemma frames_whole : forall p nch N blocks ch, 0 < p < max_order -> 0 < nch -> 0 < N -> host_blocks nch N blocks -> ch < nch ->
  concat (map (fun x => nth ch x []) (frames_in p nch blocks)) = map (fun v => 2 * v)%R (whole_frames (2 ^ p) (channel_stream blocks ch)).
Proof.
  intros p nch N blocks ch Hp Hn HN Hb Hch. rewrite (frames_concat p nch N (fun _ => [0%R])) by (auto; intros; cbn; lia).
  pose proof (stream_len nch N blocks ch Hb Hch) as L. unfold whole_frames. rewrite L.
  assert (HF : 0 < 2 ^ p) by (apply Nat.neq_0_lt_0, Nat.pow_nonzero; lia).
  pose proof (Nat.mul_div_le (stream_length blocks) (2 ^ p) ltac:(lia)) as Le. rewrite Nat.mul_comm in Le.
  apply (nth_ext _ _ 0%R 0%R). { rewrite tab_length, map_length, firstn_length. lia. }
  intros i Hi. rewrite tab_length in Hi. rewrite nth_tab by auto. rewrite nth_map_in with (d' := 0%R) by (rewrite firstn_length; lia).
  rewrite nth_firstn_lt by auto. reflexivity.
Qed.

Section Sessions.
Variables (p nch N : nat) (a : R) (h hs : nat -> list R).
Hypothesis Hp : 0 < p < max_order.
Hypothesis Hn : 0 < nch.
Hypothesis HN : 0 < N.
Hypothesis Hhs : forall ch, ch < nch -> 0 < length (hs ch).
Hypothesis Hsc : forall ch v k, ch < nch -> lconv v (hs ch) k = (a * lconv v (h ch) k)%R.

Lemma sessions_ok : forall sessions prev before c, shaped p 0 nch N c -> has_heard p nch hs prev (_user _ c) -> (forall ch, ch < nch -> blocks_of (2 ^ p) (prev ch)) ->
  (forall ch, ch < nch -> concat (prev ch) = map (fun v => 2 * v)%R (before ch)) -> (forall s, In s sessions -> host_blocks nch N s) ->
  exists c' outs, run_sessions nch sessions c = Ok (c', outs) /\ length outs = length sessions /\
    forall s ch, s < length sessions -> ch < nch -> channel_stream (nth s outs []) ch =
      convolved_stream (2 ^ p) (2 * a) (before ch ++ concat (map (fun b => whole_frames (2 ^ p) (channel_stream b ch)) (firstn s sessions))) (channel_stream (nth s sessions []) ch) (h ch).
Proof using All.
  induction sessions as [|b rest IH]; intros prev before c Sh Hh Hb Eb Hs; cbn [run_sessions].
  - exists c, []. split; auto. split; auto. intros s ch Hsn. cbn in Hsn. lia.
  - assert (Hb0 : host_blocks nch N b) by (apply Hs; left; auto).
    destruct (session_ok p nch N hs Hp Hhs Hn HN prev c b Sh Hh Hb Hb0) as (c1 & o1 & E1 & Sh1 & Hh1 & _ & _ & _ & _ & V1).
    rewrite E1. cbn [bind].
    destruct (IH (fun ch => prev ch ++ map (fun x => nth ch x []) (frames_in p nch b)) (fun ch => before ch ++ whole_frames (2 ^ p) (channel_stream b ch)) c1)
      as (c2 & os & E2 & L2 & V2); auto.
    { intros ch Hch. apply blocks_of_app; auto. intros y Hy. apply in_map_iff in Hy. destruct Hy as (x & <- & Hx). apply frames_of_shape in Hx. apply (matrix_row _ _ _ _ Hx Hch). }
    { intros ch Hch. rewrite concat_app, map_app, Eb by auto. f_equal. apply (frames_whole p nch N); auto. }
    { intros s Hx. apply Hs. right. auto. }
    rewrite E2. cbn [bind]. exists c2, (o1 :: os). split; auto. split; [cbn; auto|].
    intros [|s] ch Hsl Hch; cbn [nth firstn map concat].
    + rewrite app_nil_r, V1 by auto. rewrite <- (stream_len nch N b ch Hb0 Hch). apply (convolved_from (2 ^ p) a b (prev ch) (hs ch) (h ch) ch); auto.
      apply Nat.neq_0_lt_0, Nat.pow_nonzero. lia.
    + cbn [length] in Hsl. rewrite V2 by (auto; lia). rewrite <- app_assoc. reflexivity.
Qed.
End Sessions.
