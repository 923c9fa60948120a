(** Proofs about extra/cli/src/convolver.cpp. *)
From Coq Require Import Reals List Arith Bool ZArith Lia.
From Verif Require Import Base.Outcome Base.OutcomeFacts Base.Sums Base.Cplx Spec.Dft Spec.Sparse Spec.Stft Spec.Convolution Spec.Convolvers Spec.Statistics
  Model.Fft2 Model.Integers Model.Algorithm Model.Statistics Model.Stft Model.Convolution Model.Cli
  Proof.AlgorithmProof Proof.ConvTheory Proof.StreamProof Proof.StftProof Proof.UpcFinal Proof.ConvCorollaries Proof.StatisticsProof.
Import ListNotations.
Open Scope nat_scope.
Open Scope outcome_scope.
Local Arguments Nat.div : simpl never.
Local Arguments Nat.modulo : simpl never.
Local Arguments Nat.pow : simpl never.

(** A channel cut into zero-padded blocks. *)
Definition cut (B : nat) (x : list R) : list (list R) := tab (ceil_div (length x) B) (part B x).

Lemma cut_blocks : forall B x, blocks_of B (cut B x).
Proof. intros B x b H. unfold cut, tab in H. apply in_map_iff in H. destruct H as (t & <- & _). apply tab_length. Qed.

Lemma cut_concat : forall B x, 0 < B -> concat (cut B x) = pad (ceil_div (length x) B * B) x.
Proof.
  intros B x HB. unfold cut, part. rewrite concat_tab_blocks. unfold pad. apply tab_ext. intros i Hi.
  f_equal. pose proof (Nat.div_mod i B ltac:(lia)). lia.
Qed.

Lemma ceil_div_ge : forall n B, 0 < B -> n <= ceil_div n B * B < n + B.
Proof.
  intros n B HB. unfold ceil_div. pose proof (Nat.div_mod (n + B - 1) B ltac:(lia)).
  pose proof (Nat.mod_upper_bound (n + B - 1) B ltac:(lia)). nia.
Qed.

Lemma lconv_pad : forall n x h k, length x <= n -> lconv (pad n x) h k = lconv x h k.
Proof.
  intros n x h k Hn. unfold lconv. apply Rsum_ext. intros m Hm. f_equal. unfold pad. destruct (Nat.lt_ge_cases m n).
  - apply nth_tab; auto.
  - rewrite nth_tab_ge by auto. symmetry. apply nth_overflow. lia.
Qed.

Lemma int32_small : forall v, (- 2 ^ 31 <= v < 2 ^ 31)%Z -> iarith int32 v = Ok v.
Proof.
  intros v Hv. unfold iarith, promote, int32, fitsb, imin, imax. cbn [iwidth isigned Z.ltb Z.compare Pos.compare Pos.compare_cont].
  replace ((- 2 ^ (32 - 1) <=? v)%Z && (v <=? 2 ^ (32 - 1) - 1)%Z) with true; auto.
  symmetry. apply andb_true_intro. split; apply Z.leb_le; change (32 - 1)%Z with 31%Z; lia.
Qed.

Lemma int32_conv : forall v, (0 <= v < 2 ^ 31)%Z -> iconv int32 v = v.
Proof.
  intros v Hv. unfold iconv, int32. cbn [iwidth isigned]. change (2 ^ (32 - 1))%Z with (2 ^ 31)%Z.
  rewrite Z.mod_small; lia.
Qed.

Lemma skipn_tl : forall T (l : list T) t, tl (skipn t l) = skipn (S t) l.
Proof. induction l; intros [|t]; cbn [skipn tl]; auto. rewrite IHl. reflexivity. Qed.

Section Channel.
Variable ov : overlap_type.
Variable fdl : fdl_type.
Variable flt : filter_type (fdl_row fdl).
Variable args : flt_args flt.

Lemma stream_cons : forall (c : upc ov fdl flt) b rest c' outs, upc_stream c (b :: rest) = Ok (c', outs) ->
  exists c1 o os, upc_run c b = Ok (c1, o) /\ upc_stream c1 rest = Ok (c', os) /\ outs = o :: os.
Proof.
  intros c b rest c' outs E. cbn [upc_stream] in E. apply bind_ok in E. destruct E as ((c1, o) & E1 & E).
  apply bind_ok in E. destruct E as ((c2, os) & E2 & E). inversion E; subst. eauto 8.
Qed.

Lemma cli_loop : forall x B c buf out c' outs, 0 < B -> length buf = B -> length out = length x ->
  (Z.of_nat (length x) + Z.of_nat B <= 2 ^ 31)%Z ->
  upc_stream c (cut B x) = Ok (c', outs) -> blocks_of B outs ->
  exists c2 buf2, for_step 0 (length out) B (fun i st => cli_block ov fdl flt x B i st) (c, buf, out) = Ok (c2, buf2, pad (length x) (concat outs)) /\
    length buf2 = B.
Proof.
  intros x B c buf out c' outs HB Hbuf Hout Hint Est Hbo.
  set (S := length x) in *. set (n := ceil_div S B). pose proof (ceil_div_ge S B HB) as Hn. fold n in Hn.
  unfold for_step. destruct (Nat.eqb_spec B 0); [lia|]. rewrite Hout.
  replace ((S - 0 + (B - 1)) / B) with n by (unfold n, ceil_div; f_equal; lia).
  assert (Lc : length (cut B x) = n) by apply tab_length.
  destruct (loop_inv _ (fun t (st : upc ov fdl flt * list R * list R) => let '(ct, b, o) := st in
     length b = B /\ upc_stream ct (skipn t (cut B x)) = Ok (c', skipn t outs) /\
     o = tab S (fun i => if i <? t * B then nth i (concat outs) 0%R else nth i out 0%R)) n 0 B
     (fun i st => cli_block ov fdl flt x B i st) (c, buf, out)) as (((c2, b2), o2) & E & (L2 & _ & E2)).
  - split; auto. split; auto. cbn [Nat.mul]. symmetry. transitivity (tab (length out) (fun i => nth i out 0%R)).
    { rewrite Hout. reflexivity. } symmetry. apply tab_nth.
  - intros t ((ct, b), o) Ht (Lb & Es & Eo). rewrite Nat.add_0_l.
    assert (Ecut : skipn t (cut B x) = part B x t :: skipn (Datatypes.S t) (cut B x)).
    {       assert (G : forall (l : list (list R)) t, t < length l -> skipn t l = nth t l [] :: skipn (Datatypes.S t) l).
      { clear. induction l; intros [|t] H; cbn in *; try lia; auto. apply IHl. lia. }
      rewrite (G (cut B x) t) by lia. f_equal. unfold cut. apply nth_tab. exact Ht. }
    rewrite Ecut in Es. apply stream_cons in Es. destruct Es as (c1 & ob & os & Er & Es & Eos).
    assert (Lo : length outs > t). { apply Nat.nle_gt. intros L. rewrite skipn_all2 in Eos by auto. discriminate. }
    assert (Eob : ob = nth t outs []).
    { rewrite <- (Nat.add_0_r t), <- nth_skipn_add, Eos. reflexivity. }
    assert (Eos' : os = skipn (Datatypes.S t) outs).
    { rewrite <- (skipn_tl _ outs t), Eos. reflexivity. }
    assert (Lob : length ob = B) by (subst ob; apply Hbo, nth_In; lia).
    set (num := Nat.min (S - t * B) B).
    assert (HtB : t * B < S) by nia. 
    unfold cli_block. rewrite fill_ok. cbn [bind].
    assert (Lo2 : length o = S) by (rewrite Eo; apply tab_length). rewrite Lo2.
    rewrite int32_conv by lia. rewrite int32_small by lia. cbn [bind].
    replace (0 <=? Z.min (Z.of_nat S - Z.of_nat (t * B)) (Z.of_nat B))%Z with true by (symmetry; apply Z.leb_le; lia).
    cbn [guard bind]. replace (Z.to_nat (Z.min (Z.of_nat S - Z.of_nat (t * B)) (Z.of_nat B))) with num by (unfold num; lia).
    rewrite (slice_spec _ 0%R) by (fold S; lia). cbn [bind].
    rewrite (copy_into_ok _ 0%R) by (rewrite ?repeat_length, ?tab_length; lia). cbn [bind].
    assert (Eb : tab (length (repeat 0%R (length b))) (fun i => if (0 <=? i) && (i <? 0 + length (tab (t * B + num - t * B) (fun j => nth (t * B + j) x 0%R)))
        then nth (i - 0) (tab (t * B + num - t * B) (fun j => nth (t * B + j) x 0%R)) 0%R else nth i (repeat 0%R (length b)) 0%R) = part B x t).
    { unfold part. rewrite repeat_length, Lb, tab_length. apply tab_ext. intros i Hi. cbn [Nat.leb andb Nat.add].
      destruct (Nat.ltb_spec i (t * B + num - t * B)).
      - rewrite Nat.sub_0_r. apply nth_tab. lia.
      - rewrite nth_repeat. symmetry. apply nth_overflow. fold S. lia. }
    rewrite Eb, Er. cbn [bind]. rewrite (slice_spec _ 0%R) by lia. cbn [bind].
    rewrite (copy_into_ok _ 0%R) by (rewrite ?tab_length; lia). cbn [bind].
    rewrite int32_small by lia. cbn [bind]. eexists. split; [reflexivity|]. split; auto. split.
    { rewrite <- Eos'. exact Es. }
    rewrite Lo2. apply tab_ext. intros i Hi. rewrite !tab_length, !Nat.sub_0_r.
    destruct (Nat.leb_spec (t * B) i), (Nat.ltb_spec i (t * B + num)), (Nat.ltb_spec i (Datatypes.S t * B)); cbn [andb]; try (unfold num in *; lia).
    + rewrite nth_tab by lia. cbn [Nat.add]. rewrite Eob.
      replace i with (t * B + (i - t * B)) at 2 by lia. rewrite (nth_concat_blocks B) by (auto; lia). reflexivity.
    + rewrite Eo, nth_tab by auto. destruct (Nat.ltb_spec i (t * B)); auto; unfold num in *; lia.
    + rewrite Eo, nth_tab by auto. destruct (Nat.ltb_spec i (t * B)); auto; lia.
  - exists c2, b2. split; auto. rewrite E, E2. do 2 f_equal. unfold pad. apply tab_ext. intros i Hi.
    destruct (Nat.ltb_spec i (n * B)); auto. lia.
Qed.
End Channel.

(** ** All channels *)

Lemma partition_convolver : forall kd k h blocks, valid_kind kd ->
  (match kd with SparseUpols p | SparseUpola p => forall i j v, p i j v = true | _ => True end) ->
  0 < k < max_order -> 0 < length h -> (Z.of_nat (length h) < 2 ^ 64)%Z ->
  (Z.of_nat (ceil_div (length h) (2 ^ k)) * Z.of_nat (2 ^ k + 1) < max_elements)%Z -> blocks_of (2 ^ k) blocks ->
  let mat := partition_spectra (2 ^ k) h in
  exists row outs, rd mat 0 = Ok row /\ convolver kd (length mat) (length row) mat blocks = Ok outs /\
    concat outs = tab (length (concat blocks)) (lconv (concat blocks) h) /\ blocks_of (2 ^ k) outs.
Proof.
  intros kd k h blocks HV Hp Hk Hh H64 Hmax Hb mat.
  destruct (partitioned_pow2 kd k h blocks) as (outs & E & Ec & _ & Hbo); auto.
  unfold partitioned in E. rewrite partition_one in E; auto.
  - cbn [bind rd nth_error] in E. apply bind_ok in E. destruct E as (row & E1 & E2). exists row, outs. auto.
  - apply Nat.neq_0_lt_0, Nat.pow_nonzero. lia.
  - rewrite <- Nat.pow_succ_r'. apply Nat.pow_le_mono_r; lia.
  - rewrite Nat.log2_up_pow2 by lia. auto.
Qed.

(** [kd] describes the class template with these arguments. *)
Definition describes (kd : convolver_kind) (ov : overlap_type) (fdl : fdl_type) (flt : filter_type (fdl_row fdl)) (args : flt_args flt) : Prop :=
  forall rows cols mat blocks, convolver kd rows cols mat blocks =
    (c <- make_upc ov fdl flt ;; filter_and_run c rows cols mat args blocks).

Lemma describes_upola : describes Upola ola dense_fdl dense_filter tt.
Proof. intros rows cols mat blocks. reflexivity. Qed.
Lemma describes_split : forall lanes, describes (SplitUpola lanes) ola dense_split_fdl (dense_split_filter lanes) tt.
Proof. intros lanes rows cols mat blocks. reflexivity. Qed.
Lemma describes_upols : describes Upols ols dense_fdl dense_filter tt.
Proof. intros rows cols mat blocks. reflexivity. Qed.

Section Convolve.
Variable kd : convolver_kind.
Variable ov : overlap_type.
Variable fdl : fdl_type.
Variable flt : filter_type (fdl_row fdl).
Variable args : flt_args flt.
Hypothesis Hkd : describes kd ov fdl flt args.
Hypothesis HV : valid_kind kd.
Hypothesis Hp : match kd with SparseUpols p | SparseUpola p => forall i j v, p i j v = true | _ => True end.

Lemma cli_channel_ok : forall k partitions signal ch buf output h x, 0 < k < max_order ->
  rd partitions ch = Ok (partition_spectra (2 ^ k) h) -> 0 < length h -> (Z.of_nat (length h) < 2 ^ 64)%Z ->
  (Z.of_nat (ceil_div (length h) (2 ^ k)) * Z.of_nat (2 ^ k + 1) < max_elements)%Z ->
  rd signal ch = Ok x -> (Z.of_nat (length x) + Z.of_nat (2 ^ k) <= 2 ^ 31)%Z ->
  length buf = 2 ^ k -> ch < length output -> length (nth ch output []) = length x ->
  exists buf', cli_channel ov fdl flt args partitions signal (2 ^ k) ch (buf, output) =
    Ok (buf', upd output ch (tab (length x) (lconv x h))) /\ length buf' = 2 ^ k.
Proof.
  intros k partitions signal ch buf output h x Hk Hpart Hh H64 Hmax Hx Hint Hbuf Hch Hout.
  assert (HB : 0 < 2 ^ k) by (apply Nat.neq_0_lt_0, Nat.pow_nonzero; lia).
  destruct (partition_convolver kd k h (cut (2 ^ k) x)) as (row & outs & Erow & Econv & Ec & Hbo); auto. { apply cut_blocks. }
  rewrite Hkd in Econv. apply bind_ok in Econv. destruct Econv as (c & Em & Econv).
  unfold filter_and_run in Econv. apply bind_ok in Econv. destruct Econv as (c0 & Ef & Econv).
  apply bind_ok in Econv. destruct Econv as ((c', o') & Es & Eo). inversion Eo; subst o'.
  unfold cli_channel. rewrite Em. cbn [bind]. rewrite Hpart. cbn [bind]. rewrite Erow. cbn [bind]. rewrite Ef. cbn [bind].
  rewrite Hx. cbn [bind]. rewrite (rd_ok _ _ _ []) by auto. cbn [bind].
  destruct (cli_loop ov fdl flt x (2 ^ k) c0 buf (nth ch output []) c' outs) as (c2 & buf2 & El & Lb); auto.
  rewrite El. cbn [bind]. rewrite wr_ok by auto. cbn [bind]. exists buf2. split; auto.
  repeat f_equal. rewrite Ec, cut_concat by auto. unfold pad at 1 2. rewrite tab_length. unfold pad at 1.
  apply tab_ext. intros i Hi. pose proof (ceil_div_ge (length x) (2 ^ k) HB). rewrite nth_tab by lia. apply lconv_pad. lia.
Qed.


Section Run.
Variables (k channels frames ichannels iframes : nat) (signal impulse m : list (list R)).
Hypothesis Hk : 0 < k < max_order.
Hypothesis Hs : matrix_of channels frames signal.
Hypothesis Hif : 0 < iframes.
Hypothesis H64 : (Z.of_nat iframes < 2 ^ 64)%Z.
Hypothesis Hmax : (Z.of_nat ichannels * Z.of_nat (ceil_div iframes (2 ^ k)) * Z.of_nat (2 ^ k + 1) < max_elements)%Z.
Hypothesis Hc31 : (Z.of_nat channels < 2 ^ 31)%Z.
Hypothesis Hf31 : (Z.of_nat frames + Z.of_nat (2 ^ k) <= 2 ^ 31)%Z.
Hypothesis Hm : matrix_of ichannels iframes m.
Hypothesis En : normalize_impulse (Mat ichannels iframes impulse) = Ok (Mat ichannels iframes m).

Let parts := tab ichannels (fun c => partition_spectra (2 ^ k) (nth c m [])).
Let body := (fun channel st =>
    st <- cli_channel ov fdl flt args parts signal (2 ^ k) channel st ;;
    _ <- guard (Z.of_nat channel + 1 <? 2 ^ 31)%Z ;; Ok st).
Let s0 : list R * list (list R) := (repeat 0%R (2 ^ k), repeat (repeat 0%R frames) channels).

Lemma cli_convolve_loop : cli_convolve ov fdl flt args channels frames signal ichannels iframes impulse (2 ^ k) =
  ('(_, output) <- for_range 0 channels body s0 ;; Ok output).
Proof using Hk Hif H64 Hmax Hm En.
  unfold cli_convolve. rewrite En. cbn [bind].
  rewrite uniform_partition_ok; auto.
  - apply Nat.neq_0_lt_0, Nat.pow_nonzero; lia.
  - rewrite <- Nat.pow_succ_r'. apply Nat.pow_le_mono_r; lia.
  - rewrite Nat.log2_up_pow2 by lia. auto.
Qed.

Lemma cli_prefix : forall n, n <= channels -> n <= ichannels -> exists b, length b = 2 ^ k /\
  for_range 0 n body s0 = Ok (b, tab channels (fun c =>
    if c <? n then tab frames (lconv (nth c signal []) (nth c m [])) else repeat 0%R frames)).
Proof using All.
  intros n Hn Hn2.
  destruct (for_range_inv _ (fun t (st : list R * list (list R)) => length (fst st) = 2 ^ k /\
      snd st = tab channels (fun c => if c <? t then tab frames (lconv (nth c signal []) (nth c m [])) else repeat 0%R frames))
      0 n body s0) as ((b2, o2) & E & L2 & E2); [lia| | |].
  - unfold s0. cbn [fst snd]. split; [apply repeat_length|]. symmetry. apply (list_eq_nth _ []); rewrite ?tab_length, ?repeat_length; auto.
    intros i Hi0. rewrite nth_tab by auto. cbn [Nat.ltb Nat.leb]. rewrite (nth_indep _ [] (repeat 0%R frames)) by (rewrite repeat_length; auto).
    rewrite nth_repeat. reflexivity.
  - intros ch (b, o) Hch (Lb & Eo). cbn [fst snd] in Lb, Eo.
    assert (Lx : length (nth ch signal []) = frames) by (destruct Hs as [L W]; apply W, nth_In; lia).
    assert (Lh : length (nth ch m []) = iframes) by (destruct Hm as [L W]; apply W, nth_In; lia).
    destruct (cli_channel_ok k parts signal ch b o (nth ch m []) (nth ch signal [])) as (b' & Ech & Lb'); auto; try lia.
    + rewrite (rd_ok _ _ _ []) by (unfold parts; rewrite tab_length; lia). f_equal. unfold parts. rewrite nth_tab by lia. reflexivity.
    + rewrite Lh. eapply Z.le_lt_trans; [|exact Hmax]. rewrite <- Z.mul_assoc. nia.
    + apply rd_ok. destruct Hs as [L _]. lia.
    + rewrite Eo, tab_length. lia.
    + rewrite Eo, nth_tab by lia. rewrite (proj2 (Nat.ltb_ge ch ch)) by lia. rewrite repeat_length. auto.
    + eexists. split.
      * unfold body. rewrite Ech. cbn [bind]. replace (Z.of_nat ch + 1 <? 2 ^ 31)%Z with true by (symmetry; apply Z.ltb_lt; lia). reflexivity.
      * cbn [fst snd]. split; auto. apply (list_eq_nth _ []); rewrite upd_length, ?tab_length, Eo, ?tab_length; auto.
        intros i Hi0. rewrite nth_upd, tab_length, !nth_tab by lia. rewrite Lx.
        destruct (Nat.eqb_spec i ch), (Nat.ltb_spec ch channels), (Nat.ltb_spec i ch), (Nat.ltb_spec i (S ch)); cbn [andb]; subst; auto; lia.
  - exists b2. cbn [fst snd] in *. split; auto. rewrite E, E2. reflexivity.
Qed.

Lemma cli_convolve_ok : channels <= ichannels ->
  cli_convolve ov fdl flt args channels frames signal ichannels iframes impulse (2 ^ k) =
    Ok (tab channels (fun c => tab frames (lconv (nth c signal []) (nth c m [])))).
Proof using All.
  intros Hle. rewrite cli_convolve_loop. destruct (cli_prefix channels) as (b & _ & E); auto. rewrite E. cbn [bind]. f_equal.
  apply tab_ext. intros c Hc. rewrite (proj2 (Nat.ltb_lt c channels)) by auto. reflexivity.
Qed.

(** Fewer impulse response channels than signal channels: the partitions are read out of range. *)
Lemma cli_convolve_missing : 0 < ichannels < channels ->
  cli_convolve ov fdl flt args channels frames signal ichannels iframes impulse (2 ^ k) = UB.
Proof using All.
  intros Hlt. rewrite cli_convolve_loop. destruct (cli_prefix ichannels) as (b & _ & E); try lia.
  rewrite (for_range_split _ 0 ichannels channels) by lia. rewrite E. cbn [bind].
  rewrite for_range_S by lia. unfold body at 1. unfold cli_channel at 1.
  assert (Hc : exists c, make_upc ov fdl flt = Ok c).
  { destruct (partition_convolver kd k (nth 0 m []) []) as (row & outs & _ & Ec & _); auto.
    - destruct Hm as [L W]. rewrite W; [auto|]. apply nth_In. lia.
    - destruct Hm as [L W]. rewrite W; [auto|]. apply nth_In. lia.
    - destruct Hm as [L W]. rewrite W by (apply nth_In; lia). eapply Z.le_lt_trans; [|exact Hmax]. rewrite <- Z.mul_assoc. nia.
    - intros x [].
    - rewrite Hkd in Ec. apply bind_ok in Ec. destruct Ec as (c & Ec & _). eauto. }
  destruct Hc as (c & Ec). rewrite Ec. cbn [bind]. rewrite rd_ub by (unfold parts; rewrite tab_length; lia). reflexivity.
Qed.

(** 2^31 samples or more: static_cast<int> of the length is negative. *)
Lemma cli_convolve_long : 0 < ichannels -> 0 < channels -> (2 ^ 31 <= Z.of_nat frames < 2 ^ 32)%Z ->
  cli_convolve ov fdl flt args channels frames signal ichannels iframes impulse (2 ^ k) = UB.
Proof using Hkd HV Hp Hk Hs Hif H64 Hmax Hm En.
  clear Hf31 Hc31. intros Hi Hch Hlong. rewrite cli_convolve_loop. rewrite for_range_S by lia. unfold body at 1, s0. unfold cli_channel at 1.
  assert (Lh : length (nth 0 m []) = iframes) by (destruct Hm as [L W]; apply W, nth_In; lia).
  destruct (partition_convolver kd k (nth 0 m []) []) as (row & outs & Erow & Ec & _); auto; rewrite ?Lh; auto.
  - eapply Z.le_lt_trans; [|exact Hmax]. rewrite <- Z.mul_assoc. nia.
  - intros x [].
  - rewrite Hkd in Ec. apply bind_ok in Ec. destruct Ec as (c & Ec & Ef). unfold filter_and_run in Ef. apply bind_ok in Ef.
    destruct Ef as (c0 & Ef & _). rewrite Ec. cbn [bind].
    assert (Ep : rd parts 0 = Ok (partition_spectra (2 ^ k) (nth 0 m []))).
    { rewrite (rd_ok _ _ _ []) by (unfold parts; rewrite tab_length; lia). unfold parts. rewrite nth_tab by lia. reflexivity. }
    rewrite Ep. cbn [bind]. rewrite Erow. cbn [bind]. rewrite Ef. cbn [bind].
    rewrite (rd_ok _ _ _ []) by (destruct Hs; lia). cbn [bind].
    rewrite (rd_ok _ _ _ (repeat 0%R frames)) by (rewrite repeat_length; lia). cbn [bind]. rewrite nth_repeat.
    unfold for_step. assert (HB : 2 ^ k <> 0) by (apply Nat.pow_nonzero; lia).
    destruct (Nat.eqb_spec (2 ^ k) 0); [lia|]. rewrite repeat_length.
    assert (Hcnt : exists n, (frames - 0 + (2 ^ k - 1)) / 2 ^ k = S n).
    { assert (1 <= (frames - 0 + (2 ^ k - 1)) / 2 ^ k) by (apply Nat.div_le_lower_bound; lia).
      exists ((frames - 0 + (2 ^ k - 1)) / 2 ^ k - 1). lia. }
    destruct Hcnt as (n1 & ->). cbn [loop]. unfold cli_block at 1. rewrite fill_ok. cbn [bind]. rewrite repeat_length.
    assert (Ei : iconv int32 (Z.of_nat frames) = (Z.of_nat frames - 2 ^ 32)%Z).
    { unfold iconv, int32; cbn [isigned iwidth]. change (32 - 1)%Z with 31%Z.
      replace (Z.of_nat frames + 2 ^ 31)%Z with (Z.of_nat frames - 2 ^ 31 + 1 * 2 ^ 32)%Z by lia.
      rewrite Z.mod_add by lia. rewrite Z.mod_small by lia. lia. }
    rewrite Ei. change (Z.of_nat 0) with 0%Z. rewrite int32_small by lia.
    cbn [bind]. replace (0 <=? Z.min (Z.of_nat frames - 2 ^ 32 - 0) (Z.of_nat (2 ^ k)))%Z with false; [reflexivity|].
    symmetry. apply Z.leb_gt. lia.
Qed.
End Run.
End Convolve.

Lemma lconv_scale : forall x h a n, lconv x (map (fun v => v * a)%R h) n = (lconv x h n * a)%R.
Proof.
  intros x h a n. unfold lconv. rewrite <- Rsum_mul_r. apply Rsum_ext. intros i Hi.
  replace 0%R with (0 * a)%R at 2 by ring. rewrite (map_nth (fun v => v * a)%R). ring.
Qed.

Lemma scaled_matrix : forall r c m a, matrix_of r c m -> matrix_of r c (map (map (fun v : R => v * a)%R) m).
Proof.
  intros r c m a [L W]. split; [rewrite map_length; auto|]. intros row H. apply in_map_iff in H. destruct H as (q & <- & Hq).
  rewrite map_length. auto.
Qed.

Lemma nth_scaled : forall (m : list (list R)) a c, nth c (map (map (fun v => v * a)%R) m) [] = map (fun v => v * a)%R (nth c m []).
Proof. intros. change (@nil R) with (map (fun v => v * a)%R []) at 1. apply map_nth. Qed.
