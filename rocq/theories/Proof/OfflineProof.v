(** Proofs about the plugin's offline convolution. *)
From Coq Require Import Reals List Arith Bool ZArith Lia Lra.
From Verif Require Import Base.Outcome Base.OutcomeFacts Base.Sums Base.Cplx Spec.Dft Spec.Sparse Spec.Stft Spec.Convolution Spec.Convolvers Spec.Statistics
  Model.Fft2 Model.Integers Model.Algorithm Model.Statistics Model.Units Model.Stft Model.Convolution Model.PluginConvolution
  Proof.AlgorithmProof Proof.DftTheory Proof.ConvTheory Proof.StreamProof Proof.UpcProof Proof.UpcInstances Proof.StftProof Proof.UpcFinal Proof.ConvCorollaries Proof.StatisticsProof Proof.CliProof Proof.PluginProof Spec.Offline.
Import ListNotations.
Open Scope nat_scope.
Open Scope outcome_scope.
Local Arguments Nat.div : simpl never.
Local Arguments Nat.modulo : simpl never.
Local Arguments Nat.pow : simpl never.

Section Kind.
Variables (kd : convolver_kind) (ov : overlap_type) (fdl : fdl_type) (flt : filter_type (fdl_row fdl)) (args : flt_args flt).
Hypothesis Hkd : refilters kd ov fdl flt args.
Hypothesis HV : valid_kind kd.
Variables (k frames : nat).
Hypothesis Hk : 0 < k < max_order.
Let B := 2 ^ k.
Hypothesis Hint : (Z.of_nat frames + Z.of_nat B <= 2 ^ 31)%Z.

Definition outs_of (P : nat) (mat : list (list C)) (x : list R) : list (list R) := kind_outs kd k P (cell (effective kd P (2 ^ k + 1) mat)) (cut B x).

Lemma outs_blocks : forall P mat x, blocks_of B (outs_of P mat x).
Proof using. intros P mat x b H. unfold outs_of, kind_outs, tab in H. apply in_map_iff in H. destruct H as (t & <- & _). apply tab_length. Qed.

Lemma outs_length : forall P mat x, length (outs_of P mat x) = ceil_div (length x) B.
Proof using. intros. unfold outs_of, kind_outs, cut. rewrite !tab_length. reflexivity. Qed.

(** The start of [out] replaced by the output stream, up to block [t]. *)
Definition done_until (t : nat) (y out : list R) : list R := tab frames (fun i => if i <? t * B then nth i y 0%R else nth i out 0%R).

Lemma B_pos : 0 < B.
Proof using. apply Nat.neq_0_lt_0, Nat.pow_nonzero. discriminate. Qed.

Lemma offline_step : forall P mat x t c block out0, 0 < P -> matrix_of P (2 ^ k + 1) mat -> length x = frames -> length block = B -> t < ceil_div frames B ->
  at_step ov fdl flt args P (2 ^ k + 1) mat (cut B x) t c ->
  exists c' block', offline_block ov fdl flt x frames B (t * B) (c, block, done_until t (concat (outs_of P mat x)) out0) =
      Ok (c', block', done_until (S t) (concat (outs_of P mat x)) out0) /\
    length block' = B /\ at_step ov fdl flt args P (2 ^ k + 1) mat (cut B x) (S t) c'.
Proof using All.
  intros P mat x t c block out0 HP Hm Hx Hb Ht Hs. pose proof B_pos as HB.
  pose proof (ceil_div_ge frames B HB) as Hn.
  assert (HtB : t * B < frames) by nia.
  assert (Lc : length (cut B x) = ceil_div frames B) by (unfold cut; rewrite tab_length, Hx; reflexivity).
  destruct (run_step kd ov fdl flt args Hkd HV k P mat Hk HP Hm (cut B x) t c) as (c' & Er & Hs'); auto; [apply cut_blocks|lia|].
  set (y := concat (outs_of P mat x)). set (num := Nat.min (frames - t * B) B).
  assert (Ecut : nth t (cut B x) [] = part B x t) by (unfold cut; rewrite nth_tab by (rewrite Hx; lia); reflexivity). rewrite Ecut in Er.
  fold (outs_of P mat x) in Er.
  assert (Lo : length (nth t (outs_of P mat x) []) = B) by (apply (outs_blocks P mat x), nth_In; rewrite outs_length, Hx; lia).
  unfold offline_block. rewrite int32_small by lia. cbn [bind].
  replace (Z.to_nat (Z.min (Z.of_nat frames - Z.of_nat (t * B)) (Z.of_nat B))) with num by (unfold num; lia).
  rewrite fill_ok. cbn [bind]. rewrite (slice_spec _ 0%R) by lia. cbn [bind].
  rewrite (copy_into_ok _ 0%R) by (rewrite ?repeat_length, ?tab_length; lia). cbn [bind].
  assert (Eb : tab (length (repeat 0%R (length block))) (fun i => if (0 <=? i) && (i <? 0 + length (tab (t * B + num - t * B) (fun j => nth (t * B + j) x 0%R)))
      then nth (i - 0) (tab (t * B + num - t * B) (fun j => nth (t * B + j) x 0%R)) 0%R else nth i (repeat 0%R (length block)) 0%R) = part B x t).
  { unfold part. rewrite repeat_length, Hb, tab_length. apply tab_ext. intros i Hi. cbn [Nat.leb andb Nat.add].
    destruct (Nat.ltb_spec i (t * B + num - t * B)).
    - rewrite Nat.sub_0_r. apply nth_tab. lia.
    - rewrite nth_repeat. symmetry. apply nth_overflow. lia. }
  rewrite Eb, Er. cbn [bind]. rewrite (slice_spec _ 0%R) by lia. cbn [bind].
  rewrite (copy_into_ok _ 0%R) by (unfold done_until; rewrite ?tab_length; lia). cbn [bind].
  eexists c', _. split; [|split; [exact Lo|exact Hs']]. f_equal. f_equal.
  unfold done_until at 2. unfold done_until at 1. rewrite !tab_length, !Nat.sub_0_r. apply tab_ext. intros i Hi.
  destruct (Nat.leb_spec (t * B) i), (Nat.ltb_spec i (t * B + num)), (Nat.ltb_spec i (S t * B)); cbn [andb]; try (unfold num in *; lia).
  - rewrite nth_tab by lia. cbn [Nat.add]. replace i with (t * B + (i - t * B)) at 2 by lia.
    unfold y. rewrite (nth_concat_blocks B); [reflexivity|apply outs_blocks|rewrite outs_length, Hx; lia|lia].
  - unfold done_until. rewrite nth_tab by auto. destruct (Nat.ltb_spec i (t * B)); auto; unfold num in *; lia.
  - unfold done_until. rewrite nth_tab by auto. destruct (Nat.ltb_spec i (t * B)); auto; lia.
Qed.

Lemma done_0 : forall y out, length out = frames -> done_until 0 y out = out.
Proof using. intros y out L. unfold done_until. cbn [Nat.mul]. rewrite <- L. symmetry. apply tab_nth. Qed.

Lemma done_all : forall y out, done_until (ceil_div frames B) y out = pad frames y.
Proof using Hk.
  intros y out. pose proof (ceil_div_ge frames B B_pos) as Hn. unfold done_until, pad. apply tab_ext. intros i Hi.
  destruct (Nat.ltb_spec i (ceil_div frames B * B)); auto. lia.
Qed.

(** One channel by itself: sparse_convolve(). *)
Lemma channel_run : forall P mat x c block out0, 0 < P -> matrix_of P (2 ^ k + 1) mat -> length x = frames -> length out0 = frames -> length block = B ->
  at_step ov fdl flt args P (2 ^ k + 1) mat (cut B x) 0 c ->
  exists c' block', for_step 0 frames B (fun i st => st <- offline_block ov fdl flt x frames B i st ;; _ <- iarith int32 (Z.of_nat i + Z.of_nat B) ;; Ok st) (c, block, out0) =
    Ok (c', block', pad frames (concat (outs_of P mat x))) /\ length block' = B.
Proof using All.
  intros P mat x c block out0 HP Hm Hx Ho Hb Hs. pose proof B_pos as HB. pose proof (ceil_div_ge frames B HB) as Hn.
  unfold for_step. destruct (Nat.eqb_spec B 0); [lia|]. replace ((frames - 0 + (B - 1)) / B) with (ceil_div frames B) by (unfold ceil_div; f_equal; lia).
  destruct (loop_inv _ (fun t (st : upc ov fdl flt * list R * list R) => let '(ct, b, o) := st in
     length b = B /\ at_step ov fdl flt args P (2 ^ k + 1) mat (cut B x) t ct /\ o = done_until t (concat (outs_of P mat x)) out0) (ceil_div frames B) 0 B
     (fun i st => st <- offline_block ov fdl flt x frames B i st ;; _ <- iarith int32 (Z.of_nat i + Z.of_nat B) ;; Ok st) (c, block, out0)) as (((c2, b2), o2) & E & (L2 & _ & E2)).
  - split; auto. split; auto. symmetry. apply done_0. auto.
  - intros t ((ct, b), o) Ht (Lb & Hst & ->). rewrite Nat.add_0_l.
    destruct (offline_step P mat x t ct b out0 HP Hm Hx Lb Ht Hst) as (c' & b' & Es & Lb' & Hs'). rewrite Es. cbn [bind].
    rewrite int32_small by nia. cbn [bind]. eexists. split; [reflexivity|]. cbv beta iota. auto.
  - exists c2, b2. split; auto. rewrite E, E2, done_all. reflexivity.
Qed.

(** All channels, block by block: dense_convolve(). *)
Section All.
Variables (channels P : nat) (mats : nat -> list (list C)) (signal output0 : list (list R)).
Hypothesis HP : 0 < P.
Hypothesis Hm : forall ch, ch < channels -> matrix_of P (2 ^ k + 1) (mats ch).
Hypothesis Hs : matrix_of channels frames signal.
Hypothesis Ho : matrix_of channels frames output0.
Let y ch := concat (outs_of P (mats ch) (nth ch signal [])).
Let state := (list (upc ov fdl flt) * list R * list (list R))%type.

Definition channel_body (i ch : nat) (st : state) : outcome state :=
  let '(convolvers, block, output) := st in
  inp <- rd signal ch ;;
  out <- rd output ch ;;
  convolver <- rd convolvers ch ;;
  '(convolver, block, out) <- offline_block ov fdl flt inp frames B i (convolver, block, out) ;;
  convolvers <- wr convolvers ch convolver ;;
  output <- wr output ch out ;;
  Ok (convolvers, block, output).

(** Channels below [n] are at block S t, the others at block t. *)
Definition all_inv (t n : nat) (st : state) : Prop :=
  let '(convs, block, output) := st in
  length block = B /\ length convs = channels /\
  (forall ch, ch < channels -> exists c, rd convs ch = Ok c /\
     at_step ov fdl flt args P (2 ^ k + 1) (mats ch) (cut B (nth ch signal [])) (if ch <? n then S t else t) c) /\
  output = tab channels (fun ch => done_until (if ch <? n then S t else t) (y ch) (nth ch output0 [])).

Lemma all_channels : forall t st, t < ceil_div frames B -> all_inv t 0 st -> exists st', for_range 0 channels (channel_body (t * B)) st = Ok st' /\ all_inv t channels st'.
Proof using All.
  intros t st Ht H0. apply (for_range_inv _ (all_inv t) 0 channels (channel_body (t * B)) st); [lia|auto|].
  intros ch ((convs & block) & output) Hch (Lb & Lc & Hc & Eo). destruct (Hc ch ltac:(lia)) as (c & Erd & Hst). rewrite Nat.ltb_irrefl in Hst.
  unfold channel_body. rewrite (rd_ok _ signal ch []) by (rewrite (proj1 Hs); lia). cbn [bind].
  assert (Lout : length output = channels) by (rewrite Eo; apply tab_length).
  rewrite (rd_ok _ output ch []) by lia. cbn [bind]. rewrite Erd. cbn [bind].
  assert (Eout : nth ch output [] = done_until t (y ch) (nth ch output0 [])) by (rewrite Eo, nth_tab by lia; rewrite Nat.ltb_irrefl; reflexivity).
  rewrite Eout.
  destruct (offline_step P (mats ch) (nth ch signal []) t c block (nth ch output0 []) HP (Hm ch ltac:(lia)) (matrix_row _ _ _ _ ch Hs ltac:(lia)) Lb Ht Hst) as (c' & b' & Es & Lb' & Hs').
  unfold y. rewrite Es. cbn [bind]. rewrite (wr_ok _ convs) by lia. cbn [bind]. rewrite (wr_ok _ output) by lia. cbn [bind].
  eexists. split; [reflexivity|]. split; auto. split; [rewrite upd_length; auto|]. split.
  - intros ch' Hch'. destruct (Nat.eqb_spec ch' ch) as [->|N].
    + exists c'. rewrite (rd_ok _ _ _ c) by (rewrite upd_length; lia). rewrite nth_upd_eq by lia. split; auto.
      replace (ch <? S ch) with true by (symmetry; apply Nat.ltb_lt; lia). exact Hs'.
    + destruct (Hc ch' Hch') as (c2 & E2 & H2). exists c2. split.
      * rewrite (rd_ok _ _ _ c) by (rewrite upd_length; lia). rewrite nth_upd_neq by auto. f_equal. apply rd_nth. exact E2.
      * replace (ch' <? S ch) with (ch' <? ch); auto. destruct (Nat.ltb_spec ch' ch), (Nat.ltb_spec ch' (S ch)); auto; lia.
  - apply (list_eq_nth _ []). { rewrite upd_length, tab_length. auto. }
    intros ch' Hch'. rewrite upd_length, Lout in Hch'. rewrite nth_tab by auto. destruct (Nat.eqb_spec ch' ch) as [->|N].
    + rewrite nth_upd_eq by lia. replace (ch <? S ch) with true by (symmetry; apply Nat.ltb_lt; lia). reflexivity.
    + rewrite nth_upd_neq by auto. rewrite Eo, nth_tab by auto. replace (ch' <? S ch) with (ch' <? ch); auto. destruct (Nat.ltb_spec ch' ch), (Nat.ltb_spec ch' (S ch)); auto; lia.
Qed.

Lemma all_blocks : forall convs block, length block = B -> length convs = channels ->
  (forall ch, ch < channels -> exists c, rd convs ch = Ok c /\ at_step ov fdl flt args P (2 ^ k + 1) (mats ch) (cut B (nth ch signal [])) 0 c) ->
  exists convs' block', for_step 0 frames B (fun i (st : state) => st <- for_range 0 channels (channel_body i) st ;; _ <- iarith int32 (Z.of_nat i + Z.of_nat B) ;; Ok st)
    (convs, block, output0) = Ok (convs', block', tab channels (fun ch => pad frames (y ch))).
Proof using All.
  intros convs block Lb Lc Hc. pose proof B_pos as HB. pose proof (ceil_div_ge frames B HB) as Hn.
  unfold for_step. destruct (Nat.eqb_spec B 0); [lia|]. replace ((frames - 0 + (B - 1)) / B) with (ceil_div frames B) by (unfold ceil_div; f_equal; lia).
  destruct (loop_inv _ (fun t st => all_inv t 0 st) (ceil_div frames B) 0 B
    (fun i (st : state) => st <- for_range 0 channels (channel_body i) st ;; _ <- iarith int32 (Z.of_nat i + Z.of_nat B) ;; Ok st) (convs, block, output0))
    as (((c2 & b2) & o2) & E & (_ & _ & _ & Eo)).
  - split; auto. split; auto. split; [intros ch Hch; apply Hc; auto|].
    apply (list_eq_nth _ []). { rewrite tab_length. apply Ho. } intros ch Hch. rewrite (proj1 Ho) in Hch. rewrite nth_tab by auto. cbn [Nat.ltb Nat.leb].
    symmetry. apply done_0. apply (matrix_row _ _ _ _ ch Ho Hch).
  - intros t st Ht Hi. rewrite Nat.add_0_l. destruct (all_channels t st Ht Hi) as (st' & E' & Hi'). rewrite E'. cbn [bind]. rewrite int32_small by nia. cbn [bind].
    exists st'. split; auto. destruct st' as ((cs & bl) & o). destruct Hi' as (A1 & A2 & A3 & A4). split; auto. split; auto. split.
    + intros ch Hch. specialize (A3 ch Hch). replace (ch <? channels) with true in A3 by (symmetry; apply Nat.ltb_lt; auto). exact A3.
    + rewrite A4. apply tab_ext. intros ch Hch. replace (ch <? channels) with true by (symmetry; apply Nat.ltb_lt; auto). reflexivity.
  - exists c2, b2. rewrite E, Eo. do 2 f_equal. apply tab_ext. intros ch Hch. cbn [Nat.ltb Nat.leb]. apply done_all.
Qed.
End All.
End Kind.

(** ** The bins sparse_convolve() keeps *)
Lemma power_abs : forall v, (Cabs v * Cabs v)%R = bin_power v.
Proof. intros v. unfold Cabs, bin_power. rewrite sqrt_sqrt by apply Cnorm2_pos. reflexivity. Qed.

Lemma bin_power_pos : forall v, (0 <= bin_power v)%R.
Proof. intros v. rewrite <- power_abs. apply Rle_0_sqr. Qed.

Lemma max_power_row : forall row m0, (0 <= m0)%R -> exists m, for_range 0 (length row) (fun bin maxPower =>
      v <- rd row bin ;;
      let amplitude := Cabs v in
      Ok (Rmax maxPower (amplitude * amplitude))) m0 = Ok m /\ (m0 <= m)%R /\ (forall v, In v row -> (bin_power v <= m)%R) /\
    (m = m0 \/ exists v, In v row /\ bin_power v = m).
Proof.
  intros row m0 H0. destruct (for_range_inv _ (fun n m => (m0 <= m)%R /\ (forall i, i < n -> (bin_power (nth i row C0) <= m)%R) /\ (m = m0 \/ exists v, In v row /\ bin_power v = m))
    0 (length row) (fun bin maxPower => v <- rd row bin ;; let amplitude := Cabs v in Ok (Rmax maxPower (amplitude * amplitude))) m0) as (m & E & A & B & D); [lia| | |].
  - split; [lra|]. split; [intros; lia|auto].
  - intros n m Hn (A & B & D). rewrite (rd_ok _ _ _ C0) by lia. cbn [bind]. cbv zeta. rewrite power_abs. eexists. split; [reflexivity|].
    split; [eapply Rle_trans; [exact A|apply Rmax_l]|]. split.
    + intros i Hi. destruct (Nat.eq_dec i n) as [->|N]; [apply Rmax_r|]. eapply Rle_trans; [apply B; lia|apply Rmax_l].
    + unfold Rmax. destruct (Rle_dec m (bin_power (nth n row C0))); auto. right. eexists. split; [|reflexivity]. apply nth_In. lia.
  - exists m. split; auto. split; auto. split; auto. intros v Hv. destruct (In_nth _ _ C0 Hv) as (i & Hi & <-). apply B. auto.
Qed.

Lemma max_power_ok : forall rows cols mat, matrix_of rows cols mat -> 0 < rows -> 0 < cols -> exists m, max_power mat = Ok m /\ (0 <= m)%R /\ loudest mat m.
Proof.
  intros rows cols mat [L W] Hr Hc. unfold max_power.
  destruct (for_range_inv _ (fun n m => (0 <= m)%R /\ (forall i v, i < n -> In v (nth i mat []) -> (bin_power v <= m)%R) /\ (m = 0%R \/ exists row v, In row mat /\ In v row /\ bin_power v = m))
    0 (length mat) (fun p maxPower => partition <- rd mat p ;;
      for_range 0 (length partition) (fun bin maxPower => v <- rd partition bin ;; let amplitude := Cabs v in Ok (Rmax maxPower (amplitude * amplitude))) maxPower) 0%R)
    as (m & E & A & B & D); [lia| | |].
  - split; [lra|]. split; [intros; lia|auto].
  - intros n m Hn (A & B & D). rewrite (rd_ok _ _ _ []) by lia. cbn [bind].
    destruct (max_power_row (nth n mat []) m A) as (m' & E' & A' & B' & D'). exists m'. split; auto. split; [lra|]. split.
    + intros i v Hi Hv. destruct (Nat.eq_dec i n) as [->|N]; [auto|]. eapply Rle_trans; [apply (B i); [lia|auto]|auto].
    + destruct D' as [->|(v & Hv & <-)]; auto. right. exists (nth n mat []), v. split; auto. apply nth_In. lia.
  - exists m. split; auto. split; auto. split.
    + intros row v Hrow Hv. destruct (In_nth _ _ [] Hrow) as (i & Hi & <-). apply (B i); auto.
    + destruct D as [->|D]; auto. assert (H0 : In (nth 0 mat []) mat) by (apply nth_In; lia).
      exists (nth 0 mat []), (nth 0 (nth 0 mat []) C0). split; auto. assert (H1 : In (nth 0 (nth 0 mat []) C0) (nth 0 mat [])) by (apply nth_In; rewrite W; auto).
      split; auto. apply Rle_antisym; [apply (B 0); auto; lia|apply bin_power_pos].
Qed.

Definition weight_of (K low : nat) (rate : R) (i : nat) : option R :=
  if i <? low then Some 100%R else
    let frequency := rfftfreq (Z.of_nat K) (Z.of_nat i) (1 / rate) in if Req_EM_T frequency 0 then None else Some (a_weighting frequency).

Lemma bin_weights_ok : forall K bins low rate, low <= bins -> bin_weights K bins low rate = Ok (tab bins (weight_of K low rate)).
Proof.
  intros K bins low rate Hl. unfold bin_weights. rewrite (proj2 (Nat.leb_le _ _) Hl). cbn [guard bind].
  set (w0 := repeat (Some 100%R) low ++ repeat (Some 0%R) (bins - low)).
  assert (L0 : length w0 = bins) by (unfold w0; rewrite app_length, !repeat_length; lia).
  destruct (for_range_inv _ (fun n w => w = tab bins (fun i => if i <? n then weight_of K low rate i else Some 0%R)) low bins
    (fun i w => let frequency := rfftfreq (Z.of_nat K) (Z.of_nat i) (1 / rate) in wr w i (if Req_EM_T frequency 0 then None else Some (a_weighting frequency))) w0) as (w & E & Ew); auto.
  - apply (list_eq_nth _ None); rewrite ?tab_length; auto. intros i Hi. rewrite L0 in Hi. rewrite nth_tab by auto. unfold w0, weight_of.
    destruct (Nat.ltb_spec i low).
    + rewrite app_nth1 by (rewrite repeat_length; auto). rewrite (nth_indep _ None (Some 100%R)) by (rewrite repeat_length; auto). apply nth_repeat.
    + rewrite app_nth2 by (rewrite repeat_length; auto). rewrite (nth_indep _ None (Some 0%R)) by (rewrite !repeat_length; lia). apply nth_repeat.
  - intros n w Hn ->. rewrite wr_ok by (rewrite tab_length; lia). eexists. split; [reflexivity|].
    apply (list_eq_nth _ None); rewrite upd_length, ?tab_length; auto. intros i Hi. rewrite nth_upd, tab_length, !nth_tab by lia.
    destruct (Nat.eqb_spec i n) as [->|N].
    + rewrite (proj2 (Nat.ltb_lt n bins)) by lia. cbn [andb]. rewrite (proj2 (Nat.ltb_lt n (S n))) by lia. unfold weight_of. rewrite (proj2 (Nat.ltb_ge n low)) by lia. reflexivity.
    + cbn [andb]. destruct (Nat.ltb_spec i n), (Nat.ltb_spec i (S n)); auto; lia.
  - etransitivity; [exact E|]. rewrite Ew. f_equal. apply tab_ext. intros i Hi. rewrite (proj2 (Nat.ltb_lt i bins)) by auto. reflexivity.
Qed.

Lemma level_db : forall m v, (bin_power v <= m)%R -> level m v (amplitude_to_db (bin_power v * (1 / m)) * 0.5).
Proof.
  intros m v Hv. pose proof (bin_power_pos v) as H0. unfold level. destruct (Rle_lt_or_eq_dec _ _ H0) as [Hp|Hz].
  - right. split; auto. assert (Hm : (0 < m)%R) by lra. unfold amplitude_to_db, amplitude_to_db_floor.
    assert (Hq : (0 < bin_power v * (1 / m))%R) by (apply Rmult_lt_0_compat; auto; apply Rdiv_lt_0_compat; lra).
    destruct (Rle_dec (bin_power v * (1 / m)) 0); [lra|]. replace (bin_power v * (1 / m))%R with (bin_power v / m)%R by (field; lra).
    unfold log10. set (l := (ln (bin_power v / m) / ln 10)%R). unfold Rmax. destruct (Rle_dec (-144) (20 * l)), (Rle_dec (-72) (10 * l)); lra.
  - left. split; auto. unfold amplitude_to_db, amplitude_to_db_floor. rewrite <- Hz. rewrite Rmult_0_l. destruct (Rle_dec 0 0); lra.
Qed.

Lemma level_unique : forall m v d1 d2, level m v d1 -> level m v d2 -> d1 = d2.
Proof. intros m v d1 d2 [(A & ->)|(A & ->)] [(B & ->)|(B & ->)]; auto; lra. Qed.

Lemma keeps_iff : forall k low rate threshold m row j v, (0 < rate)%R -> j < 2 ^ k + 1 -> (bin_power v <= m)%R ->
  isAboveThreshold threshold (1 / m) (tab (2 ^ k + 1) (weight_of (2 ^ S k) low rate)) row j v = true <-> keeps (2 ^ k) rate threshold low m j v.
Proof.
  intros k low rate threshold m row j v Hr Hj Hv. pose proof (level_db m v Hv) as Hl. unfold isAboveThreshold. rewrite nth_tab by auto. rewrite power_abs.
  assert (HB : (0 < INR (2 * 2 ^ k))%R). { apply lt_0_INR. assert (2 ^ k <> 0) by (apply Nat.pow_nonzero; discriminate). lia. }
  assert (Ef : rfftfreq (Z.of_nat (2 ^ S k)) (Z.of_nat j) (1 / rate) = (INR j * rate / INR (2 * 2 ^ k))%R).
  { unfold rfftfreq. rewrite <- !INR_IZR_INZ. rewrite Nat.pow_succ_r'. field. lra. }
  unfold weight_of, keeps. rewrite Ef. destruct (Nat.ltb_spec j low) as [Hlo|Hlo].
  - destruct (Rlt_dec threshold (amplitude_to_db (bin_power v * (1 / m)) * 0.5 + 100)) as [Ht|Ht]; split; intro H; try discriminate; auto.
    + eexists. split; [exact Hl|]. left. auto.
    + destruct H as (dB & Hd & [(_ & H)|((H & _) & _)]); [|lia]. rewrite (level_unique _ _ _ _ Hd Hl) in H. lra.
  - destruct (Req_EM_T (INR j * rate / INR (2 * 2 ^ k)) 0) as [Ez|Ez].
    + split; intro H; [discriminate|]. destruct H as (dB & Hd & [(H & _)|((_ & H) & _)]); [lia|]. exfalso.
      assert (0 < INR j * rate / INR (2 * 2 ^ k))%R; [|lra]. apply Rdiv_lt_0_compat; auto. apply Rmult_lt_0_compat; auto. apply lt_0_INR. auto.
    + assert (Hj0 : 0 < j). { destruct j; [|lia]. exfalso. apply Ez. cbn [INR]. unfold Rdiv. rewrite !Rmult_0_l. reflexivity. }
      destruct (Rlt_dec threshold (amplitude_to_db (bin_power v * (1 / m)) * 0.5 + a_weighting (INR j * rate / INR (2 * 2 ^ k)))) as [Ht|Ht]; split; intro H; try discriminate; auto.
      * eexists. split; [exact Hl|]. right. auto.
      * destruct H as (dB & Hd & [(H & _)|(_ & H)]); [lia|]. rewrite (level_unique _ _ _ _ Hd Hl) in H. lra.
Qed.

(** ** Whole calls *)
Section Calls.
Variables (k channels frames ichannels iframes : nat) (signal filter m output0 : list (list R)).
Hypothesis Hk : 0 < k < max_order.
Hypothesis Hs : matrix_of channels frames signal.
Hypothesis Ho : matrix_of channels frames output0.
Hypothesis Hif : 0 < iframes.
Hypothesis H64 : (Z.of_nat iframes < 2 ^ 64)%Z.
Hypothesis Hmax : (Z.of_nat ichannels * Z.of_nat (ceil_div iframes (2 ^ k)) * Z.of_nat (2 ^ k + 1) < max_elements)%Z.
Hypothesis Hf31 : (Z.of_nat frames + Z.of_nat (2 ^ k) <= 2 ^ 31)%Z.
Hypothesis Hm : matrix_of ichannels iframes m.
Hypothesis En : normalize_impulse (Mat ichannels iframes filter) = Ok (Mat ichannels iframes m).
Let P := ceil_div iframes (2 ^ k).
Let mats ch := partition_spectra (2 ^ k) (nth ch m []).
Let parts := tab ichannels mats.

Lemma parts_ok : uniform_partition ichannels iframes m (2 ^ k) = Ok parts.
Proof using All.
  rewrite uniform_partition_ok; auto.
  - apply Nat.neq_0_lt_0, Nat.pow_nonzero; discriminate.
  - rewrite <- Nat.pow_succ_r'. apply Nat.pow_le_mono_r; lia.
  - rewrite Nat.log2_up_pow2 by lia. auto.
Qed.

Lemma P_pos : 0 < P.
Proof using All. unfold P, ceil_div. assert (2 ^ k <> 0) by (apply Nat.pow_nonzero; discriminate). apply Nat.div_str_pos. lia. Qed.

Lemma mats_ok : forall ch, ch < ichannels -> matrix_of P (2 ^ k + 1) (mats ch).
Proof using All.
  intros ch Hch. assert (HB : 0 < 2 ^ k) by (apply Nat.neq_0_lt_0, Nat.pow_nonzero; discriminate). pose proof (partition_matrix (2 ^ k) (nth ch m []) HB) as M.
  rewrite Nat.log2_up_pow2 in M by lia. rewrite (matrix_row _ _ _ _ ch Hm Hch) in M. exact M.
Qed.

Lemma first_row : forall ch, ch < ichannels -> exists row, rd (mats ch) 0 = Ok row /\ length row = 2 ^ k + 1 /\ length (mats ch) = P.
Proof using All.
  intros ch Hch. pose proof (mats_ok ch Hch) as M. exists (nth 0 (mats ch) []). rewrite (rd_ok _ _ _ []) by (rewrite (proj1 M); apply P_pos).
  split; auto. split; [apply (matrix_row _ _ _ _ 0 M P_pos)|apply M].
Qed.

Section Dense.
Variables (kd : convolver_kind) (ov : overlap_type) (fdl : fdl_type) (flt : filter_type (fdl_row fdl)) (args : flt_args flt).
Hypothesis Hkd : refilters kd ov fdl flt args.
Hypothesis Hdef : exists c, make_upc ov fdl flt = Ok c.
Hypothesis HV : valid_kind kd.
Hypothesis Hp : match kd with SparseUpols p | SparseUpola p => forall i j v, p i j v = true | _ => True end.

Lemma dense_channel : forall ch, ch < channels -> ch < ichannels ->
  pad frames (concat (outs_of kd k P (mats ch) (nth ch signal []))) = tab frames (lconv (nth ch signal []) (nth ch m [])).
Proof using All.
  intros ch Hch Hi. pose proof (matrix_row _ _ _ _ ch Hs Hch) as Lx. pose proof (matrix_row _ _ _ _ ch Hm Hi) as Lh.
  assert (HB : 0 < 2 ^ k) by (apply Nat.neq_0_lt_0, Nat.pow_nonzero; discriminate). pose proof (ceil_div_ge frames (2 ^ k) HB) as Hn.
  unfold pad. apply tab_ext. intros i Hi0.
  rewrite (Nat.div_mod i (2 ^ k)) at 1 by lia. rewrite (Nat.mul_comm (2 ^ k)).
  assert (Hq : i / 2 ^ k < ceil_div frames (2 ^ k)) by (apply Nat.div_lt_upper_bound; nia).
  rewrite (nth_concat_blocks (2 ^ k)); [|apply outs_blocks|rewrite outs_length, Lx; exact Hq|apply Nat.mod_upper_bound; lia].
  unfold outs_of, P, mats. rewrite <- Lh. rewrite partition_outs; auto; [| |unfold cut; rewrite tab_length, Lx; exact Hq].
  - rewrite nth_tab by (apply Nat.mod_upper_bound; lia). rewrite cut_concat by auto. rewrite lconv_pad by (rewrite Lx; lia). f_equal.
    rewrite (Nat.div_mod i (2 ^ k)) at 3 by lia. lia.
  - rewrite Lh. exact Hif.
Qed.

Lemma dense_convolve_ok : channels <= ichannels ->
  dense_convolve ov fdl flt channels frames signal ichannels iframes filter (2 ^ k) args output0 =
    Ok (tab channels (fun ch => tab frames (lconv (nth ch signal []) (nth ch m [])))).
Proof using All.
  intros Hle. unfold dense_convolve. rewrite En. cbn [bind]. rewrite parts_ok. cbn [bind].
  destruct Hdef as (c0 & Ec0). destruct (resize_ok (ov := ov) (fdl := fdl) (flt := flt) [] channels c0 Ec0) as (convs & Er & Lr). rewrite Er. cbn [bind].
  destruct (filter_channels_ok channels parts args convs
    (fun ch c => at_step ov fdl flt args P (2 ^ k + 1) (mats ch) (cut (2 ^ k) (nth ch signal [])) 0 c)) as (convs' & E' & L' & H'); auto.
  - unfold parts. rewrite tab_length. auto.
  - intros ch c Hch. unfold parts. rewrite nth_tab by lia. destruct (first_row ch ltac:(lia)) as (row & E1 & E2 & E3).
    destruct (filter_step kd ov fdl flt args Hkd HV k P (mats ch) Hk P_pos (mats_ok ch ltac:(lia)) (cut (2 ^ k) (nth ch signal [])) c) as (c1 & F1 & S1).
    exists row, c1. rewrite E2, E3. auto.
  - rewrite E'. cbn [bind].
    destruct (all_blocks kd ov fdl flt args Hkd HV k frames Hk Hf31 channels P mats signal output0 P_pos) with (convs := convs') (block := repeat 0%R (2 ^ k)) as (convs2 & block2 & E2); auto.
    { intros ch Hch. apply mats_ok. lia. } { apply repeat_length. }
    unfold channel_body in E2. rewrite E2. cbn [bind]. f_equal. apply tab_ext. intros ch Hch. apply dense_channel; auto; lia.
Qed.

Lemma dense_convolve_missing : ichannels < channels ->
  dense_convolve ov fdl flt channels frames signal ichannels iframes filter (2 ^ k) args output0 = UB.
Proof using All.
  intros Hlt. unfold dense_convolve. rewrite En. cbn [bind]. rewrite parts_ok. cbn [bind].
  destruct Hdef as (c0 & Ec0). destruct (resize_ok (ov := ov) (fdl := fdl) (flt := flt) [] channels c0 Ec0) as (convs & Er & Lr). rewrite Er. cbn [bind].
  rewrite filter_channels_missing; auto. { unfold parts. rewrite tab_length. auto. }
  intros ch c Hch. unfold parts in *. rewrite tab_length in Hch. rewrite nth_tab by lia. destruct (first_row ch ltac:(lia)) as (row & E1 & E2 & E3).
  destruct (filter_step kd ov fdl flt args Hkd HV k P (mats ch) Hk P_pos (mats_ok ch ltac:(lia)) [] c) as (c1 & F1 & S1).
  exists row, c1. rewrite E2, E3. auto.
Qed.
End Dense.

(** More low bins than there are bins: std::fill runs out of the vector. *)
Lemma sparse_convolve_low : forall rate threshold low, 2 ^ k + 1 < low -> 0 < ichannels ->
  sparse_convolve channels frames signal ichannels iframes filter (2 ^ k) rate threshold low output0 = UB.
Proof using All.
  intros rate threshold low Hlow.
  intros Hi. unfold sparse_convolve. rewrite En. cbn [bind]. rewrite parts_ok. cbn [bind].
  rewrite (rd_ok _ parts 0 []) by (unfold parts; rewrite tab_length; auto). cbn [bind].
  assert (E0 : nth 0 parts [] = mats 0) by (unfold parts; apply nth_tab; auto). rewrite E0.
  destruct (first_row 0 Hi) as (row & Er & Lr & _). rewrite Er. cbn [bind]. rewrite Lr.
  assert (EZ : ((Z.of_nat (2 ^ k + 1) - 1) * 2 = 2 ^ Z.of_nat (S k))%Z).
  { rewrite Nat2Z.inj_add, Nat2Z.inj_pow. replace (Z.of_nat (S k)) with (Z.succ (Z.of_nat k)) by lia. rewrite Z.pow_succ_r by lia. change (Z.of_nat 2) with 2%Z. lia. }
  rewrite EZ. rewrite usize_arith. cbn [bind].
  assert (Hk2 : (2 ^ Z.of_nat (S k) < 2 ^ 64)%Z) by (apply Z.pow_lt_mono_r; try lia; unfold max_order in Hk; lia).
  rewrite Z.mod_small by (split; [apply Z.pow_nonneg; lia|exact Hk2]).
  unfold bit_ceil. rewrite Z.log2_up_pow2 by lia. rewrite (proj2 (Z.ltb_lt _ _) Hk2). cbn [bind].
  replace (Z.to_nat (2 ^ Z.of_nat (S k))) with (2 ^ S k) by (rewrite <- (Nat2Z.id (2 ^ S k)), Nat2Z.inj_pow; reflexivity).
  unfold bin_weights. rewrite (proj2 (Nat.leb_gt _ _) Hlow). reflexivity.
Qed.

(** sparse_convolve(). *)
Section Sparse.
Variables (rate threshold : R) (low : nat).
Hypothesis Hrate : (0 < rate)%R.
Hypothesis Hlow : low <= 2 ^ k + 1.
Let weights := tab (2 ^ k + 1) (weight_of (2 ^ S k) low rate).
Let pred (mx : R) := isAboveThreshold threshold (1 / mx) weights.

Definition sparse_channel (ch : nat) (st : list R * list (list R)) : outcome (list R * list (list R)) :=
  let (block, output) := st in
  convolver <- make_upc ola dense_fdl sparse_filter ;;
  channelPartitions <- rd parts ch ;;
  row <- rd channelPartitions 0 ;;
  maxPower <- max_power channelPartitions ;;
  let scale := (1 / maxPower)%R in
  convolver <- upc_filter convolver (length channelPartitions) (length row) channelPartitions (isAboveThreshold threshold scale weights) ;;
  inp <- rd signal ch ;;
  out <- rd output ch ;;
  '(_, block, out) <- for_step 0 frames (2 ^ k) (fun i st =>
      st <- offline_block ola dense_fdl sparse_filter inp frames (2 ^ k) i st ;;
      _ <- iarith int32 (Z.of_nat i + Z.of_nat (2 ^ k)) ;;
      Ok st) (convolver, block, out) ;;
  output <- wr output ch out ;;
  Ok (block, output).

Lemma sparse_convolve_loop : 0 < ichannels ->
  sparse_convolve channels frames signal ichannels iframes filter (2 ^ k) rate threshold low output0 =
  ('(_, output) <- for_range 0 channels sparse_channel (repeat 0%R (2 ^ k), output0) ;; Ok output).
Proof using All.
  intros Hi. unfold sparse_convolve. rewrite En. cbn [bind]. rewrite parts_ok. cbn [bind].
  rewrite (rd_ok _ parts 0 []) by (unfold parts; rewrite tab_length; auto). cbn [bind].
  assert (E0 : nth 0 parts [] = mats 0) by (unfold parts; apply nth_tab; auto). rewrite E0.
  destruct (first_row 0 Hi) as (row & Er & Lr & _). rewrite Er. cbn [bind]. rewrite Lr.
  assert (EZ : ((Z.of_nat (2 ^ k + 1) - 1) * 2 = 2 ^ Z.of_nat (S k))%Z).
  { rewrite Nat2Z.inj_add, Nat2Z.inj_pow. replace (Z.of_nat (S k)) with (Z.succ (Z.of_nat k)) by lia. rewrite Z.pow_succ_r by lia. change (Z.of_nat 2) with 2%Z. lia. }
  rewrite EZ. rewrite usize_arith. cbn [bind].
  assert (Hk2 : (2 ^ Z.of_nat (S k) < 2 ^ 64)%Z) by (apply Z.pow_lt_mono_r; try lia; unfold max_order in Hk; lia).
  rewrite Z.mod_small by (split; [apply Z.pow_nonneg; lia|exact Hk2]).
  unfold bit_ceil. rewrite Z.log2_up_pow2 by lia. rewrite (proj2 (Z.ltb_lt _ _) Hk2). cbn [bind].
  replace (Z.to_nat (2 ^ Z.of_nat (S k))) with (2 ^ S k) by (rewrite <- (Nat2Z.id (2 ^ S k)), Nat2Z.inj_pow; reflexivity).
  rewrite bin_weights_ok by exact Hlow. cbn [bind]. reflexivity.
Qed.

Definition sparse_outs (mx : R) (ch : nat) : list (list R) := outs_of (SparseUpola (pred mx)) k P (mats ch) (nth ch signal []).

Lemma sparse_channel_ok : forall ch block output, ch < channels -> ch < ichannels -> length block = 2 ^ k -> ch < length output -> length (nth ch output []) = frames ->
  exists mx block', (0 <= mx)%R /\ loudest (mats ch) mx /\ max_power (mats ch) = Ok mx /\ length block' = 2 ^ k /\
    sparse_channel ch (block, output) = Ok (block', upd output ch (pad frames (concat (sparse_outs mx ch)))).
Proof using All.
  intros ch block output Hc Hi Lb Lo Lr. unfold sparse_channel.
  destruct (max_power_ok _ _ _ (mats_ok ch Hi) P_pos ltac:(lia)) as (mx & Emx & Hmx & Hl). exists mx.
  destruct (make_upc ola dense_fdl sparse_filter) as [c0| |] eqn:Ec0; [|discriminate Ec0|discriminate Ec0]. cbn [bind].
  rewrite (rd_ok _ parts ch []) by (unfold parts; rewrite tab_length; auto). cbn [bind].
  assert (E0 : nth ch parts [] = mats ch) by (unfold parts; apply nth_tab; auto). rewrite E0.
  destruct (first_row ch Hi) as (row & Er & Lrow & LP). rewrite Er. cbn [bind]. rewrite Emx. cbn [bind]. cbv zeta. rewrite Lrow, LP.
  destruct (filter_step (SparseUpola (pred mx)) ola dense_fdl sparse_filter (pred mx) (refilters_sparse _) I k P (mats ch) Hk P_pos (mats_ok ch Hi) (cut (2 ^ k) (nth ch signal [])) c0) as (c1 & F1 & S1).
  unfold pred in F1. rewrite F1. cbn [bind].
  rewrite (rd_ok _ signal ch []) by (rewrite (proj1 Hs); auto). cbn [bind]. rewrite (rd_ok _ output ch []) by auto. cbn [bind].
  destruct (channel_run (SparseUpola (pred mx)) ola dense_fdl sparse_filter (pred mx) (refilters_sparse _) I k frames Hk Hf31 P (mats ch) (nth ch signal []) c1 block (nth ch output []))
    as (c2 & b2 & E2 & L2); auto.
  { apply P_pos. } { apply mats_ok; auto. } { apply (matrix_row _ _ _ _ ch Hs Hc). }
  rewrite E2. cbn [bind]. rewrite wr_ok by auto. cbn [bind]. exists b2. auto.
Qed.

Definition loudness (ch : nat) : R := match max_power (mats ch) with Ok v => v | _ => 0%R end.

Lemma loudness_ok : forall ch, ch < ichannels -> (0 <= loudness ch)%R /\ loudest (mats ch) (loudness ch) /\ max_power (mats ch) = Ok (loudness ch).
Proof using All.
  intros ch Hch. destruct (max_power_ok _ _ _ (mats_ok ch Hch) P_pos ltac:(lia)) as (v & Ev & H0 & H1). unfold loudness. rewrite Ev. auto.
Qed.

Lemma sparse_prefix : forall n, n <= channels -> n <= ichannels -> exists b, length b = 2 ^ k /\
  for_range 0 n sparse_channel (repeat 0%R (2 ^ k), output0) =
    Ok (b, tab channels (fun ch => if ch <? n then pad frames (concat (sparse_outs (loudness ch) ch)) else nth ch output0 [])).
Proof using All.
  intros n1 Hc Hi.
  destruct (for_range_inv _ (fun n (st : list R * list (list R)) => length (fst st) = 2 ^ k /\
      snd st = tab channels (fun ch => if ch <? n then pad frames (concat (sparse_outs (loudness ch) ch)) else nth ch output0 []))
    0 n1 sparse_channel (repeat 0%R (2 ^ k), output0)) as ((b2 & o2) & E & L2 & Eo); [lia| | |].
  - cbn [fst snd]. split; [apply repeat_length|]. apply (list_eq_nth _ []). { rewrite tab_length. apply Ho. }
    intros ch Hch. rewrite (proj1 Ho) in Hch. rewrite nth_tab by auto. reflexivity.
  - intros n (b & o) Hn (Lb & Eo). cbn [fst snd] in *.
    assert (Lo : length o = channels) by (rewrite Eo; apply tab_length).
    assert (Lr : length (nth n o []) = frames). { rewrite Eo, nth_tab by lia. rewrite Nat.ltb_irrefl. apply (matrix_row _ _ _ _ n Ho). lia. }
    destruct (sparse_channel_ok n b o) as (v & b' & Hv & Hl & Ev & Lb' & Ech); auto; try lia.
    assert (v = loudness n) as -> by (destruct (loudness_ok n ltac:(lia)) as (_ & _ & E'); rewrite E' in Ev; inversion Ev; auto).
    eexists. split; [exact Ech|]. cbn [fst snd]. split; auto. apply (list_eq_nth _ []); rewrite upd_length, ?tab_length; auto.
    intros i Hi0. rewrite nth_upd, !nth_tab by lia. rewrite Eo, tab_length, nth_tab by lia.
    destruct (Nat.eqb_spec i n) as [->|N].
    + rewrite (proj2 (Nat.ltb_lt n channels)) by lia. cbn [andb]. rewrite (proj2 (Nat.ltb_lt n (S n))) by lia. reflexivity.
    + cbn [andb]. destruct (Nat.ltb_spec i n), (Nat.ltb_spec i (S n)); auto; lia.
  - cbn [fst snd] in *. exists b2. rewrite E, Eo. auto.
Qed.

Lemma sparse_convolve_ok : 0 < ichannels -> channels <= ichannels ->
  sparse_convolve channels frames signal ichannels iframes filter (2 ^ k) rate threshold low output0 =
    Ok (tab channels (fun ch => pad frames (concat (sparse_outs (loudness ch) ch)))).
Proof using All.
  intros H0 Hle. rewrite sparse_convolve_loop by lia. destruct (sparse_prefix channels) as (b & _ & E); auto. rewrite E. cbn [bind].
  f_equal. apply tab_ext. intros ch Hch. rewrite (proj2 (Nat.ltb_lt ch channels)) by auto. reflexivity.
Qed.

Lemma sparse_convolve_missing : 0 < ichannels < channels ->
  sparse_convolve channels frames signal ichannels iframes filter (2 ^ k) rate threshold low output0 = UB.
Proof using All.
  intros Hlt. rewrite sparse_convolve_loop by lia. destruct (sparse_prefix ichannels) as (b & _ & E); try lia.
  rewrite (for_range_split _ 0 ichannels channels) by lia. rewrite E. cbn [bind]. rewrite for_range_S by lia. unfold sparse_channel at 1.
  destruct (make_upc ola dense_fdl sparse_filter) as [c0| |] eqn:Ec0; [|discriminate Ec0|discriminate Ec0]. cbn [bind].
  rewrite rd_ub by (unfold parts; rewrite tab_length; lia). reflexivity.
Qed.

Lemma sparse_outs_convolver : forall mx ch, ch < channels -> ch < ichannels ->
  convolver Upola P (2 ^ k + 1) (drop_bins (pred mx) P (2 ^ k + 1) (mats ch)) (cut (2 ^ k) (nth ch signal [])) = Ok (sparse_outs mx ch).
Proof using All.
  intros mx ch Hc Hi. rewrite convolver_ok; auto; [exact I|apply P_pos|apply drop_bins_matrix|apply cut_blocks].
Qed.

Lemma sparse_all_kept : forall mx ch, ch < channels -> ch < ichannels -> (forall i j, i < P -> j < 2 ^ k + 1 -> pred mx i j (cell (mats ch) i j) = true) ->
  pad frames (concat (sparse_outs mx ch)) = tab frames (lconv (nth ch signal []) (nth ch m [])).
Proof using All.
  intros mx ch Hc Hi Hall. rewrite <- (dense_channel Upola ola dense_fdl dense_filter tt refilters_upola (ex_intro _ _ eq_refl) I I ch Hc Hi).
  do 2 f_equal. unfold sparse_outs, outs_of. change (effective Upola P (2 ^ k + 1) (mats ch)) with (mats ch).
  change (kind_outs (SparseUpola (pred mx)) k P) with (kind_outs Upola k P). unfold effective. apply kind_outs_ext. intros a j Ha.
  rewrite drop_bins_cell by (auto; apply mats_ok; auto). unfold masked. destruct (Nat.lt_ge_cases j (2 ^ k + 1)) as [Hj|Hj].
  - fold (cell (mats ch) a j). rewrite Hall by auto. reflexivity.
  - fold (cell (mats ch) a j). replace (cell (mats ch) a j) with C0; [destruct (pred mx a j C0); reflexivity|].
    unfold cell. symmetry. apply nth_overflow. rewrite (matrix_row _ _ _ _ a (mats_ok ch Hi) Ha). auto.
Qed.

Lemma sparse_none_kept : forall mx ch, ch < channels -> ch < ichannels -> (forall i j, i < P -> j < 2 ^ k + 1 -> pred mx i j (cell (mats ch) i j) = false) ->
  pad frames (concat (sparse_outs mx ch)) = repeat 0%R frames.
Proof using All.
  intros mx ch Hc Hi Hall. unfold sparse_outs, outs_of, effective.
  rewrite (kind_outs_ext _ _ _ _ (fun _ _ => C0)).
  - unfold pad. rewrite repeat_tab. apply tab_ext. intros i Hi0.
    assert (Z : forall x, In x (concat (kind_outs (SparseUpola (pred mx)) k P (fun _ _ => C0) (cut (2 ^ k) (nth ch signal [])))) -> x = 0%R).
    { intros x Hx. apply in_concat in Hx. destruct Hx as (bl & Hb & Hx). unfold kind_outs, tab in Hb. apply in_map_iff in Hb. destruct Hb as (t & <- & _).
      unfold kind_out in Hx. apply in_map_iff in Hx. destruct Hx as (j & <- & _). rewrite upola_windows.
      assert (Zw : forall W t0 j0, mac_windows k P (fun _ _ => C0) W t0 j0 = 0%R).
      { intros W t0 j0. rewrite mac_windows_sum by lia. rewrite (IRDFT_ext _ _ (fun _ => C0)), IRDFT_0; [unfold Rdiv; ring| |].
        - apply Nat.neq_0_lt_0, Nat.pow_nonzero. discriminate.
        - intros q Hq. apply Csum_0. intros s Hs0. unfold wterm. destruct (s <=? t0); ring. }
      rewrite !Zw. destruct (t =? 0); ring. }
    destruct (nth_in_or_default i (concat (kind_outs (SparseUpola (pred mx)) k P (fun _ _ => C0) (cut (2 ^ k) (nth ch signal [])))) 0%R) as [H|H]; auto.
  - intros a j Ha. rewrite drop_bins_cell by (auto; apply mats_ok; auto). unfold masked. fold (cell (mats ch) a j).
    destruct (Nat.lt_ge_cases j (2 ^ k + 1)) as [Hj|Hj]; [rewrite Hall by auto; reflexivity|].
    replace (cell (mats ch) a j) with C0; [destruct (pred mx a j C0); reflexivity|].
    unfold cell. symmetry. apply nth_overflow. rewrite (matrix_row _ _ _ _ a (mats_ok ch Hi) Ha). auto.
Qed.
End Sparse.
End Calls.
