(** Proofs about the plugin's convolution classes. *)
From Coq Require Import Reals List Arith Bool ZArith Lia Lra.
From Verif Require Import Base.Outcome Base.OutcomeFacts Base.Sums Base.Cplx Spec.Dft Spec.Sparse Spec.Stft Spec.Convolution Spec.Convolvers Spec.Statistics Spec.Framer
  Model.Fft2 Model.Integers Model.Algorithm Model.Statistics Model.Stft Model.Convolution Model.ConstantOverlapAdd Model.PluginConvolution
  Proof.AlgorithmProof Proof.DftTheory Proof.ConvTheory Proof.StreamProof Proof.UpcProof Proof.UpcInstances Proof.StftProof Proof.UpcFinal Proof.ConvCorollaries Proof.StatisticsProof Proof.CliProof Proof.FramerProof.
Import ListNotations.
Open Scope nat_scope.
Open Scope outcome_scope.
Local Arguments Nat.div : simpl never.
Local Arguments Nat.modulo : simpl never.
Local Arguments Nat.pow : simpl never.

(** ** A convolver in the middle of a stream *)

(** filter() from any state acts as on a new object. *)
Definition refilters (kd : convolver_kind) (ov : overlap_type) (fdl : fdl_type) (flt : filter_type (fdl_row fdl)) (args : flt_args flt) : Prop :=
  forall (c : upc ov fdl flt) rows cols mat blocks, filter_and_run c rows cols mat args blocks = convolver kd rows cols mat blocks.

Lemma refilters_upols : refilters Upols ols dense_fdl dense_filter tt.
Proof. exact (proj1 filter_resets). Qed.
Lemma refilters_upola : refilters Upola ola dense_fdl dense_filter tt.
Proof. exact (proj1 (proj2 filter_resets)). Qed.
Lemma refilters_split : forall l, refilters (SplitUpols l) ols dense_split_fdl (dense_split_filter l) tt.
Proof. intros l. exact (proj1 (proj2 (proj2 filter_resets)) l). Qed.
Lemma refilters_split_add : forall l, refilters (SplitUpola l) ola dense_split_fdl (dense_split_filter l) tt.
Proof. intros l. exact (proj1 (proj2 (proj2 (proj2 filter_resets))) l). Qed.
Lemma refilters_sparse : forall p, refilters (SparseUpola p) ola dense_fdl sparse_filter p.
Proof. intros p. exact (proj2 (proj2 (proj2 (proj2 (proj2 filter_resets)))) p). Qed.

Lemma stream_app : forall ov fdl flt a b (c : upc ov fdl flt), upc_stream c (a ++ b) =
  ('(c, o1) <- upc_stream c a ;; '(c, o2) <- upc_stream c b ;; Ok (c, o1 ++ o2)).
Proof.
  induction a as [|x a IH]; intros b c; cbn [upc_stream app bind].
  - destruct (upc_stream c b) as [[c' o]| |]; reflexivity.
  - destruct (upc_run c x) as [[c1 o]| |]; cbn [bind]; auto. rewrite IH.
    destruct (upc_stream c1 a) as [[c2 o1]| |]; cbn [bind]; auto.
    destruct (upc_stream c2 b) as [[c3 o2]| |]; cbn [bind]; auto.
Qed.

Lemma stream_length_ok : forall ov fdl flt bs (c c' : upc ov fdl flt) os, upc_stream c bs = Ok (c', os) -> length os = length bs.
Proof.
  induction bs as [|b bs IH]; intros c c' os E; cbn [upc_stream] in E; [inversion E; reflexivity|].
  apply bind_ok in E. destruct E as ((c1, o) & _ & E). apply bind_ok in E. destruct E as ((c2, o2) & E2 & E). inversion E; subst.
  cbn [length]. f_equal. eauto.
Qed.

Section Kind.
Variables (kd : convolver_kind) (ov : overlap_type) (fdl : fdl_type) (flt : filter_type (fdl_row fdl)) (args : flt_args flt).
Hypothesis Hkd : refilters kd ov fdl flt args.
Hypothesis HV : valid_kind kd.

(** [c] got filter([mat]) and then the first [t] blocks of [all]. *)
Definition at_step (P cols : nat) (mat : list (list C)) (all : list (list R)) (t : nat) (c : upc ov fdl flt) : Prop :=
  exists c00 c0 o, upc_filter c00 P cols mat args = Ok c0 /\ upc_stream c0 (firstn t all) = Ok (c, o).

Section Mat.
Variables (k P : nat) (mat : list (list C)).
Hypothesis Hk : 0 < k < max_order.
Hypothesis HP : 0 < P.
Hypothesis Hm : matrix_of P (2 ^ k + 1) mat.
Let outs all := kind_outs kd k P (cell (effective kd P (2 ^ k + 1) mat)) all.

Lemma filter_step : forall all (c : upc ov fdl flt), exists c0, upc_filter c P (2 ^ k + 1) mat args = Ok c0 /\ at_step P (2 ^ k + 1) mat all 0 c0.
Proof using Hkd HV Hk HP Hm.
  intros all c. pose proof (Hkd c P (2 ^ k + 1) mat []) as E. rewrite convolver_ok in E; auto. 2:{ intros x []. }
  unfold filter_and_run in E. apply bind_ok in E. destruct E as (c0 & E & _). exists c0. split; auto.
  exists c, c0, []. split; auto.
Qed.

Lemma run_step : forall all t c, blocks_of (2 ^ k) all -> t < length all -> at_step P (2 ^ k + 1) mat all t c ->
  exists c', upc_run c (nth t all []) = Ok (c', nth t (outs all) []) /\ at_step P (2 ^ k + 1) mat all (S t) c'.
Proof using Hkd HV Hk HP Hm.
  intros all t c Hb Ht (c00 & c0 & o & Ef & Es).
  pose proof (Hkd c00 P (2 ^ k + 1) mat all) as E. rewrite convolver_ok in E; auto.
  unfold filter_and_run in E. rewrite Ef in E. cbn [bind] in E. apply bind_ok in E. destruct E as ((ce & oe) & Ee & E). inversion E; subst oe; clear E.
  assert (Eall : all = firstn t all ++ nth t all [] :: skipn (S t) all).
  { rewrite <- (firstn_skipn t all) at 1. f_equal. clear - Ht. revert t Ht. induction all as [|x l IH]; intros [|t] H; cbn in *; try lia; auto. apply IH. lia. }
  rewrite Eall in Ee at 1. rewrite stream_app, Es in Ee. cbn [bind] in Ee. apply bind_ok in Ee. destruct Ee as ((c3, o2) & Er & Ee).
  injection Ee as -> Eo2. apply stream_cons in Er. destruct Er as (c1 & ob & os & Er & Ers & ->).
  pose proof (stream_length_ok _ _ _ _ _ _ _ Es) as Lo. rewrite firstn_length, Nat.min_l in Lo by lia.
  exists c1. split.
  - rewrite Er. f_equal. f_equal. unfold outs. rewrite <- Eo2. rewrite app_nth2 by lia. rewrite Lo, Nat.sub_diag. reflexivity.
  - exists c00, c0, (o ++ [ob]). split; auto.
    replace (firstn (S t) all) with (firstn t all ++ [nth t all []]).
    + rewrite stream_app, Es. cbn [bind upc_stream]. rewrite Er. reflexivity.
    + clear - Ht. revert t Ht. induction all as [|x l IH]; intros [|t] H; cbn in *; try lia; auto. f_equal. apply IH. lia.
Qed.
End Mat.
End Kind.

(** The output for a partitioned response: the convolution. *)
Lemma partition_outs : forall kd k h all t, 0 < k < max_order -> 0 < length h -> t < length all ->
  (match kd with SparseUpols p | SparseUpola p => forall i j v, p i j v = true | _ => True end) ->
  let P := ceil_div (length h) (2 ^ k) in
  nth t (kind_outs kd k P (cell (effective kd P (2 ^ k + 1) (partition_spectra (2 ^ k) h))) all) [] =
    tab (2 ^ k) (fun i => lconv (concat all) h (t * 2 ^ k + i)).
Proof.
  intros kd k h all t Hk Hh Ht Hp P.
  assert (Ek : Nat.log2_up (2 ^ k) = k) by (apply Nat.log2_up_pow2; lia).
  assert (HB : 2 <= 2 ^ k) by (change 2 with (2 ^ 1) at 1; apply Nat.pow_le_mono_r; lia).
  assert (HM : 2 * 2 ^ k <= 2 ^ max_order) by (rewrite <- Nat.pow_succ_r'; apply Nat.pow_le_mono_r; lia).
  pose proof (partition_matrix (2 ^ k) h ltac:(lia)) as Hm. rewrite Ek in Hm.
  assert (E : forall a j, a < P -> cell (effective kd P (2 ^ k + 1) (partition_spectra (2 ^ k) h)) a j = cell (partition_spectra (2 ^ k) h) a j).
  { intros a j Ha. destruct kd; auto; unfold effective; rewrite drop_bins_cell by auto; unfold masked; rewrite Hp; reflexivity. }
  rewrite (kind_outs_ext _ _ _ _ _ _ E).
  assert (Ef : kind_outs kd k P (cell (partition_spectra (2 ^ k) h)) all = filtered (2 ^ k) h all).
  { pose proof (save_is_lconv (2 ^ k) h HB Hh) as S1. pose proof (add_is_lconv (2 ^ k) h HB Hh) as S2. rewrite Ek in S1, S2.
    destruct kd; unfold kind_outs, kind_out; first [apply S1; auto | apply S2; auto]. }
  rewrite Ef. unfold filtered. rewrite nth_tab by auto. rewrite Ek. apply tab_ext. intros i Hi. apply lconv_ext. apply stretched_pow2.
Qed.

(** ** Loops over channels *)

Section Channels.
Context {ov : overlap_type} {fdl : fdl_type} {flt : filter_type (fdl_row fdl)}.

Lemma rd_nth : forall T (l : list T) i v d, rd l i = Ok v -> nth i l d = v.
Proof. intros. eapply rd_inv in H. destruct H; eauto. Qed.

Lemma run_channels_ok : forall n convs block (C' : nat -> upc ov fdl flt) B', length convs = n -> length block = n ->
  (forall ch, ch < n -> exists c, rd convs ch = Ok c /\ upc_run c (nth ch block []) = Ok (C' ch, B' ch)) ->
  run_channels n (convs, block) = Ok (tab n C', tab n B').
Proof.
  intros n convs block C' B' Lc Lb H. destruct n as [|n1]; [destruct convs, block; try discriminate; reflexivity|]. set (n := S n1) in *.
  set (dc := C' 0).
  destruct (for_range_inv _ (fun t (st : list (upc ov fdl flt) * list (list R)) => let (cs, b) := st in
      cs = tab n (fun i => if i <? t then C' i else nth i convs dc) /\ b = tab n (fun i => if i <? t then B' i else nth i block []))
      0 n (fun ch (st : list (upc ov fdl flt) * list (list R)) =>
    let (convolvers, block) := st in
    c <- rd convolvers ch ;;
    row <- rd block ch ;;
    '(c, row) <- upc_run c row ;;
    convolvers <- wr convolvers ch c ;;
    block <- wr block ch row ;;
    Ok (convolvers, block)) (convs, block)) as ((cs & b) & E & Ec & Eb); [lia| | |].
  - split; symmetry; [rewrite <- Lc at 1|rewrite <- Lb at 1]; symmetry; apply tab_nth.
  - intros ch (cs, b) Hch (Ec & Eb). destruct (H ch) as (c & Hc & Hr); [lia|].
    rewrite (rd_ok _ _ _ dc) by (subst cs; rewrite tab_length; lia). cbn [bind].
    rewrite (rd_ok _ _ _ []) by (subst b; rewrite tab_length; lia). cbn [bind].
    assert (E1 : nth ch cs dc = c) by (rewrite Ec, nth_tab, (proj2 (Nat.ltb_ge ch ch)) by lia; apply (rd_nth _ _ _ _ dc Hc)).
    assert (E2 : nth ch b [] = nth ch block []) by (rewrite Eb, nth_tab, (proj2 (Nat.ltb_ge ch ch)) by lia; reflexivity).
    rewrite E1, E2, Hr. cbn [bind]. rewrite wr_ok by (subst; rewrite tab_length; lia). cbn [bind].
    rewrite wr_ok by (subst; rewrite tab_length; lia). cbn [bind]. eexists. split; [reflexivity|]. cbv beta iota. split.
    + apply (list_eq_nth _ dc); rewrite upd_length, ?tab_length; subst cs; rewrite ?tab_length; auto. intros i Hi.
      rewrite nth_upd, tab_length, !nth_tab by auto.
      destruct (Nat.eqb_spec i ch), (Nat.ltb_spec ch n), (Nat.ltb_spec i ch), (Nat.ltb_spec i (S ch)); cbn [andb]; subst; auto; lia.
    + apply (list_eq_nth _ []); rewrite upd_length, ?tab_length; subst b; rewrite ?tab_length; auto. intros i Hi.
      rewrite nth_upd, tab_length, !nth_tab by auto.
      destruct (Nat.eqb_spec i ch), (Nat.ltb_spec ch n), (Nat.ltb_spec i ch), (Nat.ltb_spec i (S ch)); cbn [andb]; subst; auto; lia.
  - unfold run_channels. rewrite E, Ec, Eb. do 2 f_equal; apply tab_ext; intros i Hi; rewrite (proj2 (Nat.ltb_lt i n)) by auto; reflexivity.
Qed.

Lemma filter_channels_ok : forall n (filter : list (list (list C))) args convs (Q : nat -> upc ov fdl flt -> Prop), length convs = n -> n <= length filter ->
  (forall ch (c : upc ov fdl flt), ch < n -> exists row c', rd (nth ch filter []) 0 = Ok row /\
     upc_filter c (length (nth ch filter [])) (length row) (nth ch filter []) args = Ok c' /\ Q ch c') ->
  exists convs', filter_channels n filter args convs = Ok convs' /\ length convs' = n /\ forall ch, ch < n -> exists c, rd convs' ch = Ok c /\ Q ch c.
Proof.
  intros n filter args convs Q Lc Lf H.
  destruct (for_range_inv _ (fun t (cs : list (upc ov fdl flt)) => length cs = n /\ forall ch, ch < t -> exists c, rd cs ch = Ok c /\ Q ch c)
      0 n (fun ch convolvers =>
    channel <- rd filter ch ;;
    row <- rd channel 0 ;;
    c <- rd convolvers ch ;;
    c <- upc_filter c (length channel) (length row) channel args ;;
    wr convolvers ch c) convs) as (cs & E & Lcs & Hcs); [lia| | |].
  - split; auto. intros ch Hch. lia.
  - intros ch cs Hch (Ls & Hs). rewrite (rd_ok _ _ _ []) by lia. cbn [bind].
    assert (Hrd : exists c, rd cs ch = Ok c).
    { destruct cs as [|c0 cs']; [cbn in Ls; lia|]. exists (nth ch (c0 :: cs') c0). apply rd_ok. lia. }
    destruct Hrd as (c & Hc). destruct (H ch c) as (row & c' & E1 & E2 & HQ); [lia|]. rewrite E1. cbn [bind]. rewrite Hc. cbn [bind]. rewrite E2. cbn [bind].
    rewrite wr_ok by lia. eexists. split; [reflexivity|]. split; [rewrite upd_length; auto|].
    intros i Hi. destruct (Nat.eq_dec i ch) as [->|N].
    + exists c'. split; auto. rewrite (rd_ok _ _ _ c') by (rewrite upd_length; lia). f_equal. apply nth_upd_eq. lia.
    + destruct (Hs i) as (ci & Hci & Qi); [lia|]. exists ci. split; auto. rewrite (rd_ok _ _ _ ci) by (rewrite upd_length; lia). f_equal.
      rewrite nth_upd_neq by auto. apply (rd_nth _ _ _ _ _ Hci).
  - exists cs. auto.
Qed.

Lemma filter_channels_missing : forall n (filter : list (list (list C))) args (convs : list (upc ov fdl flt)), length convs = n -> length filter < n ->
  (forall ch (c : upc ov fdl flt), ch < length filter -> exists row c', rd (nth ch filter []) 0 = Ok row /\
     upc_filter c (length (nth ch filter [])) (length row) (nth ch filter []) args = Ok c') ->
  filter_channels n filter args convs = UB.
Proof.
  intros n filter args convs Lc Lf H. unfold filter_channels.
  rewrite (for_range_split _ 0 (length filter) n) by lia.
  assert (G : exists cs, for_range 0 (length filter) (fun ch convolvers =>
    channel <- rd filter ch ;;
    row <- rd channel 0 ;;
    c <- rd convolvers ch ;;
    c <- upc_filter c (length channel) (length row) channel args ;;
    wr convolvers ch c) convs = Ok cs /\ length cs = n).
  { destruct (for_range_inv _ (fun t (cs : list (upc ov fdl flt)) => length cs = n)
      0 (length filter) (fun ch convolvers =>
    channel <- rd filter ch ;;
    row <- rd channel 0 ;;
    c <- rd convolvers ch ;;
    c <- upc_filter c (length channel) (length row) channel args ;;
    wr convolvers ch c) convs) as (cs & E & Lcs); [lia|auto| |eauto].
    intros ch cs Hch Ls. rewrite (rd_ok _ _ _ []) by lia. cbn [bind].
    assert (Hrd : exists c, rd cs ch = Ok c).
    { destruct cs as [|c0 cs']; [cbn in Ls; lia|]. exists (nth ch (c0 :: cs') c0). apply rd_ok. lia. }
    destruct Hrd as (c & Hc). destruct (H ch c) as (row & c' & E1 & E2); [lia|]. rewrite E1. cbn [bind]. rewrite Hc. cbn [bind]. rewrite E2. cbn [bind].
    rewrite wr_ok by lia. eexists. split; [reflexivity|]. rewrite upd_length. auto. }
  destruct G as (cs & -> & Ls). cbn [bind]. rewrite for_range_S by lia. rewrite rd_ub by lia. reflexivity.
Qed.

Lemma resize_ok : forall (l : list (upc ov fdl flt)) n c, make_upc ov fdl flt = Ok c ->
  exists l', resize_convolvers l n = Ok l' /\ length l' = n.
Proof.
  intros l n c E. unfold resize_convolvers. rewrite E. cbn [bind]. eexists. split; [reflexivity|].
  rewrite app_length, firstn_length, repeat_length. lia.
Qed.
End Channels.
