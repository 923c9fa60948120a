(** Proofs about the plugin's Convolution: it refines the listener of Spec/PluginConv.v. *)
From Coq Require Import Reals List Arith Bool ZArith Lia Lra.
From Verif Require Import Base.Outcome Base.OutcomeFacts Base.Sums Base.Cplx Spec.Stft Spec.Convolution Spec.Convolvers Spec.Plugin Spec.PluginConv
  Model.Fft2 Model.Integers Model.Algorithm Model.FftApps Model.Stft Model.Convolution Model.PluginConvolution
  Proof.AlgorithmProof Proof.ConvTheory Proof.StreamProof Proof.UpcProof Proof.UpcInstances Proof.StftProof Proof.UpcFinal Proof.ConvCorollaries Proof.CliProof Proof.PluginProof Proof.StockhamProof Proof.DenseConvolutionProof Proof.OverlapProof.
Import ListNotations.
Open Scope nat_scope.
Open Scope outcome_scope.
Local Arguments Nat.div : simpl never.
Local Arguments Nat.modulo : simpl never.
Local Arguments Nat.pow : simpl never.

(** Fewer blocks' channels than convolvers: the others stay as they are. *)
Section Channels.
Context {ov : overlap_type} {fdl : fdl_type} {flt : filter_type (fdl_row fdl)}.
Let step := (fun ch (st : list (upc ov fdl flt) * list (list R)) =>
    let (convolvers, block) := st in
    c <- rd convolvers ch ;;
    row <- rd block ch ;;
    '(c, row) <- upc_run c row ;;
    convolvers <- wr convolvers ch c ;;
    block <- wr block ch row ;;
    Ok (convolvers, block)).

Lemma run_some : forall n convs block (Q : nat -> upc ov fdl flt -> Prop) (Q' : nat -> upc ov fdl flt -> Prop) B', n <= length convs -> n <= length block ->
  (forall ch, ch < length convs -> exists c, rd convs ch = Ok c /\ Q ch c) ->
  (forall ch c, ch < n -> Q ch c -> exists c', upc_run c (nth ch block []) = Ok (c', B' ch) /\ Q' ch c') ->
  exists convs', run_channels n (convs, block) = Ok (convs', tab (length block) (fun ch => if ch <? n then B' ch else nth ch block [])) /\ length convs' = length convs /\
    forall ch, ch < length convs -> exists c, rd convs' ch = Ok c /\ (if ch <? n then Q' ch c else Q ch c).
Proof using.
  intros n convs block Q Q' B' Lc Lb H HB.
  destruct (for_range_inv _ (fun t (st : list (upc ov fdl flt) * list (list R)) => let (cs, b) := st in
      length cs = length convs /\ (forall ch, ch < length convs -> exists c, rd cs ch = Ok c /\ (if ch <? t then Q' ch c else Q ch c)) /\
      b = tab (length block) (fun i => if i <? t then B' i else nth i block []))
      0 n step (convs, block)) as ((cs & b) & E & Ec & Hc & Eb); [lia| | |].
  - split; auto. split; auto. cbn [Nat.ltb Nat.leb]. symmetry. rewrite (tab_nth _ []). reflexivity.
  - intros ch (cs, b) Hch (Ls & Hs & Eb). destruct (Hs ch ltac:(lia)) as (c & Hc & HQ). rewrite Nat.ltb_irrefl in HQ.
    destruct (HB ch c ltac:(lia) HQ) as (c' & Hr & HQ'). unfold step. rewrite Hc. cbn [bind].
    rewrite (rd_ok _ _ _ []) by (subst b; rewrite tab_length; lia). cbn [bind].
    assert (E2 : nth ch b [] = nth ch block []) by (rewrite Eb, nth_tab, Nat.ltb_irrefl by lia; reflexivity).
    rewrite E2, Hr. cbn [bind]. rewrite wr_ok by lia. cbn [bind].
    rewrite wr_ok by (subst; rewrite tab_length; lia). cbn [bind]. eexists. split; [reflexivity|]. cbv beta iota. split; [rewrite upd_length; auto|]. split.
    + intros i Hi. destruct (Nat.eq_dec i ch) as [->|N].
      * exists c'. rewrite (proj2 (Nat.ltb_lt ch (S ch))) by lia. split; auto. rewrite (rd_ok _ _ _ c') by (rewrite upd_length; lia). f_equal. apply nth_upd_eq. lia.
      * destruct (Hs i Hi) as (ci & Hci & Qi). exists ci. split.
        -- rewrite (rd_ok _ _ _ ci) by (rewrite upd_length; lia). f_equal. rewrite nth_upd_neq by auto. apply (rd_nth _ _ _ _ _ Hci).
        -- replace (i <? S ch) with (i <? ch); auto. destruct (Nat.ltb_spec i ch), (Nat.ltb_spec i (S ch)); auto; lia.
    + apply (list_eq_nth _ []); rewrite upd_length, ?tab_length; subst b; rewrite ?tab_length; auto. intros i Hi.
      rewrite nth_upd, tab_length, !nth_tab by auto.
      destruct (Nat.eqb_spec i ch), (Nat.ltb_spec ch (length block)), (Nat.ltb_spec i ch), (Nat.ltb_spec i (S ch)); cbn [andb]; subst; auto; lia.
  - exists cs. unfold run_channels. fold step. rewrite E, Eb. auto.
Qed.

Lemma run_too_many : forall convs block (Q : nat -> upc ov fdl flt -> Prop) (Q' : nat -> upc ov fdl flt -> Prop) B', length convs < length block ->
  (forall ch, ch < length convs -> exists c, rd convs ch = Ok c /\ Q ch c) ->
  (forall ch c, ch < length convs -> Q ch c -> exists c', upc_run c (nth ch block []) = Ok (c', B' ch) /\ Q' ch c') ->
  run_channels (length block) (convs, block) = UB.
Proof using.
  intros convs block Q Q' B' Hlt H HB.
  destruct (run_some (length convs) convs block Q Q' B') as (cs & E & Ls & _); auto; [lia|].
  unfold run_channels in E |- *. fold step in E |- *. rewrite (for_range_split _ 0 (length convs) (length block)) by lia. rewrite E. cbn [bind].
  rewrite for_range_S by lia. unfold step at 1. rewrite rd_ub by lia. reflexivity.
Qed.
End Channels.

(** A block shorter than the overlap-save block size: the result does not fit into it. *)
Lemma save_short_block : forall St (o : overlap_save) b (cb : list C -> St -> outcome (list C * St)) st window, 0 < os_block o ->
  slide_window_left (os_block o) (os_window o) = Ok window -> length window = 2 ^ rf_order (os_plan o) -> os_block o <= length window -> length b < os_block o ->
  (exists r, overlap_save_run o (b ++ skipn (length window - os_block o + length b) window) cb st = Ok r) -> overlap_save_run o b cb st = UB.
Proof.
  intros St o b cb st window HB Ew Lw Hle Hb (r & E). unfold overlap_save_run in *. set (K := 2 ^ rf_order (os_plan o)) in *. set (B := os_block o) in *.
  set (b' := b ++ skipn (length window - B + length b) window) in *.
  assert (Lb' : length b' = B) by (unfold b'; rewrite app_length, skipn_length; lia).
  assert (Ec : copy_into b window (K - B) K = copy_into b' window (K - B) K).
  { rewrite (copy_into_ok _ 0%R b window), (copy_into_ok _ 0%R b' window) by lia. f_equal. apply tab_ext. intros i Hi.
    destruct (Nat.leb_spec (K - B) i); cbn [andb]; auto. destruct (Nat.ltb_spec i (K - B + length b')); [|lia].
    destruct (Nat.ltb_spec i (K - B + length b)); unfold b'; [rewrite app_nth1 by lia; auto|]. rewrite app_nth2 by lia. rewrite nth_skipn_add. f_equal. lia. }
  apply bind_ok in E. destruct E as (x0 & E0 & E). rewrite E0. cbn [bind].
  rewrite Ew in E |- *. cbn [bind] in E |- *. rewrite Ec. apply bind_ok in E. destruct E as (w1 & E1 & E). rewrite E1. cbn [bind].
  apply bind_ok in E. destruct E as ((plan & cbuf) & E2 & E). rewrite E2. cbn [bind].
  apply bind_ok in E. destruct E as (coeffs & E3 & E). rewrite E3. cbn [bind].
  apply bind_ok in E. destruct E as ((coeffs2 & st2) & E4 & E). rewrite E4. cbn [bind].
  apply bind_ok in E. destruct E as (cbuf2 & E5 & E). rewrite E5. cbn [bind].
  apply bind_ok in E. destruct E as ((plan2 & rbuf) & E6 & E). rewrite E6. cbn [bind].
  apply bind_ok in E. destruct E as (rbuf2 & E7 & E). rewrite E7. cbn [bind].
  apply bind_ok in E. destruct E as (keep & E8 & E). rewrite E8. cbn [bind].
  rewrite copy_too_short; auto.
  assert (Lk : length keep = B). { unfold slice in E8. destruct ((K - B <=? K) && (K <=? length rbuf2)) eqn:G; [|discriminate]. apply andb_prop in G. destruct G as [_ G]. apply Nat.leb_le in G.
    injection E8 as <-. rewrite firstn_length, skipn_length. lia. }
  lia.
Qed.

Section Short.
Variables (lanes : option nat) (Hlanes : match lanes with Some l => 0 < l | None => True end).
Local Notation flt := (dense_split_filter lanes).

(** A convolver with partitions of 2^k samples, called with a shorter block. *)
Lemma short_block : forall k P mat (c0 c : upc ols dense_split_fdl flt) b, 0 < k < max_order -> 0 < P -> matrix_of P (2 ^ k + 1) mat ->
  upc_filter c0 P (2 ^ k + 1) mat tt = Ok c -> length b < 2 ^ k -> upc_run c b = UB.
Proof using All.
  intros k P mat c0 c b Hk HP Hm Ef Hb. assert (H2 : 2 <= 2 ^ k) by (change 2 with (2 ^ 1) at 1; apply Nat.pow_le_mono_r; lia).
  assert (HV : valid_kind (SplitUpols lanes)) by (destruct lanes; cbn; auto).
  pose proof Ef as Ef'. unfold upc_filter in Ef'. destruct (0 <? 2 ^ k + 1); [|discriminate]. cbn [guard bind] in Ef'. replace (2 ^ k + 1 - 1) with (2 ^ k) in Ef' by lia.
  assert (Hmax : 2 ^ k + 2 ^ k - 1 <= 2 ^ max_order). { assert (2 ^ S k <= 2 ^ max_order) by (apply Nat.pow_le_mono_r; lia). rewrite Nat.pow_succ_r' in H. lia. }
  destruct (make_overlap_save_ok (2 ^ k) (2 ^ k)) as (o & Eo & [Ib Ifl Ip Iw Lw Ir Ic]); [lia|exact Hmax|].
  cbn [ov_make ols] in Ef'. rewrite Eo in Ef'. cbn [bind] in Ef'. apply bind_ok in Ef'. destruct Ef' as (f & Eflt & Ef'). injection Ef' as Ec.
  assert (Eov : u_overlap c = o) by (rewrite <- Ec; reflexivity).
  set (K := 2 ^ Nat.log2_up (2 ^ k + 2 ^ k - 1)) in *.
  assert (HK : 2 ^ k <= K). { unfold K. pose proof (Nat.log2_up_spec (2 ^ k + 2 ^ k - 1) ltac:(lia)). lia. }
  set (w := slid (2 ^ k) (os_window o)). assert (Lw2 : length w = K). { unfold w, slid. rewrite tab_length, Iw, repeat_length. reflexivity. }
  assert (Ew : slide_window_left (os_block o) (os_window o) = Ok w) by (rewrite Ib; apply slide_ok; lia).
  set (b' := b ++ skipn (length w - os_block o + length b) w).
  assert (Lb' : length b' = 2 ^ k) by (unfold b'; rewrite app_length, skipn_length, Ib; lia).
  destruct (run_step (SplitUpols lanes) ols dense_split_fdl flt tt (refilters_split lanes) HV k P mat Hk HP Hm [b'] 0 c) as (c' & Er & _).
  { intros x [<-|[]]. exact Lb'. } { cbn. lia. } { exists c0, c, []. split; auto. }
  cbn [nth] in Er. unfold upc_run in *. cbn [ov_run ols] in *. rewrite Eov in *. apply bind_ok in Er. destruct Er as (r & Er & _).
  destruct Ip as (Ro & _).
  rewrite (save_short_block _ o b _ _ w); [reflexivity|rewrite Ib; lia|exact Ew|rewrite Ro; exact Lw2|lia|lia|]. exists r. exact Er.
Qed.

(** After prepare() with a maximum block size that is no power of two, a block of that size. *)
Lemma odd_block_size : forall resampler (c : pconv lanes) spec a b, pc_impulse lanes c = Some a -> 1 < maximumBlockSize spec ->
  let B := maximumBlockSize spec in let M := 2 ^ Nat.log2_up B in let r := resample resampler a (sampleRate spec) in
  B <> M -> 2 * M <= 2 ^ max_order -> matrix_of (a_channels r) (a_samples r) (a_data r) -> 0 < a_samples r -> (Z.of_nat (a_samples r) < 2 ^ 31)%Z ->
  (Z.of_nat (a_channels r) * Z.of_nat (ceil_div (a_samples r) B) * Z.of_nat (M + 1) < max_elements)%Z ->
  0 < numChannels spec <= a_channels r -> 0 < length b -> length (nth 0 b []) = B ->
  exists c', pc_prepare resampler lanes spec c = Ok c' /\ pc_process lanes (samples_of b) b c' = UB.
Proof using All.
  intros resampler c spec a b Ea HB1 B M r HBM HM Hm Hs H31 Hmax (Hn0 & Hn) Lb Lrow.
  assert (HlB : 0 < Nat.log2_up B < max_order).
  { split; [apply Nat.log2_up_pos; unfold B; lia|]. destruct (Nat.lt_ge_cases (Nat.log2_up B) max_order) as [|G]; auto. exfalso.
    assert (2 ^ max_order <= M) by (apply Nat.pow_le_mono_r; lia). assert (0 < 2 ^ max_order) by (apply Nat.neq_0_lt_0, Nat.pow_nonzero; discriminate). lia. }
  assert (HBltM : B < M). { pose proof (Nat.log2_up_spec B ltac:(unfold B; lia)). fold M in H. lia. }
  assert (Hr : forall ch, ch < a_channels r -> length (nth ch (a_data r) []) = a_samples r) by (intros; apply (UpcInstances.matrix_row _ _ _ _ ch Hm); auto).
  assert (Ep : uniform_partition (a_channels r) (a_samples r) (a_data r) B = Ok (tab (a_channels r) (fun ch => partition_spectra B (nth ch (a_data r) [])))).
  { rewrite uniform_partition_ok; auto; lia. }
  unfold pc_prepare. cbn [pc_impulse]. rewrite Ea. unfold pc_update. cbn [pc_spec pc_impulse pc_convolvers]. fold B. fold r. rewrite Ep. cbn [bind].
  destruct (resize_ok (ov := ols) (fdl := dense_split_fdl) (flt := flt) (pc_convolvers lanes c) (numChannels spec) _ eq_refl) as (convs & Er & Lr).
  unfold split_upols_convolver in *. rewrite Er. cbn [bind].
  assert (HP : 0 < ceil_div (a_samples r) B) by (unfold ceil_div; apply Nat.div_str_pos; lia).
  assert (HV : valid_kind (SplitUpols lanes)) by (destruct lanes; cbn; auto).
  destruct (filter_channels_ok (ov := ols) (fdl := dense_split_fdl) (flt := flt) (numChannels spec) (tab (a_channels r) (fun ch => partition_spectra B (nth ch (a_data r) []))) tt convs
    (fun ch u => exists (u0 : upc ols dense_split_fdl flt) P mat, 0 < P /\ matrix_of P (2 ^ Nat.log2_up B + 1) mat /\ upc_filter u0 P (2 ^ Nat.log2_up B + 1) mat tt = Ok u)) as (convs' & E' & L' & H'); auto.
  { rewrite tab_length. auto. }
  { intros ch u Hch. rewrite nth_tab by lia. pose proof (partition_matrix B (nth ch (a_data r) []) ltac:(lia)) as Mp. rewrite Hr in Mp by lia.
    destruct (filter_step (SplitUpols lanes) ols dense_split_fdl flt tt (refilters_split lanes) HV _ _ (partition_spectra B (nth ch (a_data r) [])) HlB HP Mp [] u) as (u1 & F1 & _).
    exists (nth 0 (partition_spectra B (nth ch (a_data r) [])) []), u1. split; [apply rd_ok; rewrite (proj1 Mp); auto|].
    rewrite (proj1 Mp), (UpcInstances.matrix_row _ _ _ _ 0 Mp HP). split; [exact F1|]. exists u, (ceil_div (a_samples r) B), (partition_spectra B (nth ch (a_data r) [])). auto. }
  rewrite E'. cbn [bind]. eexists. split; [reflexivity|]. unfold pc_process. cbn [pc_convolvers pc_spec].
  destruct convs' as [|u0 us]; [cbn in L'; lia|]. destruct b as [|row rest]; [cbn in Lb; lia|]. cbn [nth] in Lrow. cbn [samples_of]. rewrite Lrow. fold B. rewrite Nat.eqb_refl. cbn [negb].
  destruct (H' 0 Hn0) as (u & Hu & x & P & mat & HP' & Mp & F). cbn in Hu. injection Hu as ->.
  cbn [length]. unfold run_channels. rewrite for_range_S by lia. cbn [rd nth_error bind].
  rewrite (short_block (Nat.log2_up B) P mat x u row); auto. rewrite Lrow. exact HBltM.
Qed.
End Short.

Section Plugin.
Variables (resampler : audio -> R -> audio) (lanes : option nat).
Hypothesis Hlanes : match lanes with Some l => 0 < l | None => True end.
Let kd := SplitUpols lanes.
Local Notation flt := (dense_split_filter lanes).

(** The response of a channel. *)
Definition resp (spec : process_spec) (a : audio) (ch : nat) : list R := nth ch (a_data (resample resampler a (sampleRate spec))) [].

(** A convolver that has heard the stream [x]. *)
Definition conv_heard (B : nat) (h x : list R) (c : upc ols dense_split_fdl flt) : Prop :=
  exists blocks, blocks_of B blocks /\ concat blocks = x /\
    at_step ols dense_split_fdl flt tt (ceil_div (length h) B) (B + 1) (partition_spectra B h) blocks (length blocks) c.

Lemma vkd : valid_kind kd.
Proof using All. unfold kd. destruct lanes; cbn; auto. Qed.

Lemma heard_step : forall k h x b c, 0 < k < max_order -> 0 < length h -> length b = 2 ^ k -> conv_heard (2 ^ k) h x c ->
  exists c', upc_run c b = Ok (c', tab (2 ^ k) (fun i => lconv (x ++ b) h (length x + i))) /\ conv_heard (2 ^ k) h (x ++ b) c'.
Proof using All.
  intros k h x b c Hk Hh Lb (blocks & Hb & Ex & c00 & c0 & o & Ef & Es).
  set (all := blocks ++ [b]). assert (HB : 0 < 2 ^ k) by (apply Nat.neq_0_lt_0, Nat.pow_nonzero; discriminate).
  assert (Hall : blocks_of (2 ^ k) all). { intros y Hy. apply in_app_or in Hy. destruct Hy as [Hy|[<-|[]]]; auto. }
  assert (Lall : length all = S (length blocks)) by (unfold all; rewrite app_length; cbn; lia).
  assert (HP : 0 < ceil_div (length h) (2 ^ k)) by (unfold ceil_div; apply Nat.div_str_pos; lia).
  pose proof (partition_matrix (2 ^ k) h HB) as M. rewrite Nat.log2_up_pow2 in M by lia.
  destruct (run_step kd ols dense_split_fdl flt tt (refilters_split lanes) vkd k (ceil_div (length h) (2 ^ k)) (partition_spectra (2 ^ k) h) Hk HP M
    all (length blocks) c) as (c' & Er & Es'); auto; [lia| |].
  - exists c00, c0, o. split; auto. unfold all. rewrite firstn_app, firstn_all, Nat.sub_diag. cbn [firstn]. rewrite app_nil_r.
    rewrite firstn_all in Es. exact Es.
  - exists c'. assert (En : nth (length blocks) all [] = b) by (unfold all; rewrite app_nth2, Nat.sub_diag by lia; reflexivity).
    assert (Ec : concat all = x ++ b) by (unfold all; rewrite concat_app, Ex; cbn [concat]; rewrite app_nil_r; reflexivity).
    assert (Lx : length x = length blocks * 2 ^ k) by (rewrite <- Ex; apply concat_blocks_length; auto).
    split.
    + rewrite En in Er. rewrite Er. do 2 f_equal.
      rewrite (partition_outs kd k h all (length blocks)); auto; [|lia|exact I]. rewrite Ec, Lx. reflexivity.
    + exists all. split; auto. split; auto. rewrite Lall. exact Es'.
Qed.

(** Which specifications and responses may occur. *)
Variables (okS : process_spec -> Prop) (okA : audio -> Prop).
Hypothesis HS : forall spec, okS spec -> exists k, 0 < k < max_order /\ maximumBlockSize spec = 2 ^ k.
Hypothesis HA : forall spec a, okS spec -> okA a -> response_fits (maximumBlockSize spec) (resample resampler a (sampleRate spec)).

Definition tracks (s : listener) (c : pconv lanes) : Prop :=
  pc_spec lanes c = l_spec s /\ pc_impulse lanes c = l_response s /\ length (pc_convolvers lanes c) = length (heard s) /\
  (forall spec, l_spec s = Some spec -> okS spec) /\ (forall a, l_response s = Some a -> okA a) /\
  (l_spec s = None \/ l_response s = None -> heard s = []) /\
  (forall spec a, l_spec s = Some spec -> l_response s = Some a -> heard s = [] \/
     (numChannels spec <= a_channels (resample resampler a (sampleRate spec)) /\ length (heard s) = numChannels spec /\
      forall ch, ch < length (heard s) -> exists u, rd (pc_convolvers lanes c) ch = Ok u /\ conv_heard (maximumBlockSize spec) (resp spec a ch) (nth ch (heard s) []) u)).

Lemma resp_length : forall spec a ch, okS spec -> okA a -> ch < a_channels (resample resampler a (sampleRate spec)) -> length (resp spec a ch) = a_samples (resample resampler a (sampleRate spec)).
Proof using All. intros spec a ch H1 H2 Hch. destruct (HA spec a H1 H2) as (M & _). unfold resp. apply (UpcInstances.matrix_row _ _ _ _ ch M Hch). Qed.

(** update() on an object whose members are those of [s] and whatever convolvers. *)
Lemma update_tracks : forall s c, pc_spec lanes c = l_spec s -> pc_impulse lanes c = l_response s ->
  (forall spec, l_spec s = Some spec -> okS spec) -> (forall a, l_response s = Some a -> okA a) ->
  (l_spec s = None \/ l_response s = None -> heard s = [] /\ pc_convolvers lanes c = []) ->
  match start_over resampler s with
  | Ok s' => exists c', pc_update resampler lanes c = Ok c' /\ tracks s' c'
  | UB => pc_update resampler lanes c = UB
  | Throw => False
  end.
Proof using All.
  intros s c E1 E2 O1 O2 Hn. unfold start_over, pc_update. rewrite E1, E2.
  destruct (l_spec s) as [spec|] eqn:Es; [destruct (l_response s) as [a|] eqn:Ea|].
  - pose proof (O1 spec eq_refl) as HO1. pose proof (O2 a eq_refl) as HO2. destruct (HS spec HO1) as (k & Hk & EB).
    pose proof (HA spec a HO1 HO2) as Hfit. pose proof Hfit as (M & Hc & Hsm & H31 & Hmax). set (r := resample resampler a (sampleRate spec)) in *.
    assert (HB : 0 < 2 ^ k) by (apply Nat.neq_0_lt_0, Nat.pow_nonzero; discriminate). rewrite EB in *.
    assert (Ep : uniform_partition (a_channels r) (a_samples r) (a_data r) (2 ^ k) = Ok (tab (a_channels r) (fun ch => partition_spectra (2 ^ k) (resp spec a ch)))).
    { rewrite uniform_partition_ok; auto.
      - rewrite <- Nat.pow_succ_r'. apply Nat.pow_le_mono_r; lia.
      - eapply Z.lt_trans; [exact H31|reflexivity].
      - rewrite Nat.log2_up_pow2 by lia. auto. }
    rewrite Ep. cbn [bind].
    destruct (resize_ok (ov := ols) (fdl := dense_split_fdl) (flt := flt) (pc_convolvers lanes c) (numChannels spec) _ eq_refl) as (convs & Er & Lr).
    unfold split_upols_convolver in *. rewrite Er. cbn [bind].
    assert (Hf : forall ch (u : upc ols dense_split_fdl flt), ch < a_channels r -> exists row u', rd (partition_spectra (2 ^ k) (resp spec a ch)) 0 = Ok row /\
      upc_filter u (length (partition_spectra (2 ^ k) (resp spec a ch))) (length row) (partition_spectra (2 ^ k) (resp spec a ch)) tt = Ok u' /\ conv_heard (2 ^ k) (resp spec a ch) [] u').
    { intros ch u Hch. pose proof (partition_matrix (2 ^ k) (resp spec a ch) HB) as Mp. rewrite Nat.log2_up_pow2 in Mp by lia.
      assert (HP : 0 < ceil_div (length (resp spec a ch)) (2 ^ k)) by (rewrite resp_length by auto; unfold ceil_div; apply Nat.div_str_pos; fold r; lia).
      destruct (filter_step kd ols dense_split_fdl flt tt (refilters_split lanes) vkd k _ (partition_spectra (2 ^ k) (resp spec a ch)) Hk HP Mp [] u) as (u1 & F1 & S1).
      exists (nth 0 (partition_spectra (2 ^ k) (resp spec a ch)) []), u1. split; [apply rd_ok; rewrite (proj1 Mp); auto|].
      rewrite (proj1 Mp), (UpcInstances.matrix_row _ _ _ _ 0 Mp HP). split; [exact F1|]. exists []. split; [intros y []|]. split; auto. }
    destruct (Nat.leb_spec (numChannels spec) (a_channels r)) as [Hle|Hgt].
    + destruct (filter_channels_ok (ov := ols) (fdl := dense_split_fdl) (flt := flt) (numChannels spec) (tab (a_channels r) (fun ch => partition_spectra (2 ^ k) (resp spec a ch))) tt convs
        (fun ch u => conv_heard (2 ^ k) (resp spec a ch) [] u)) as (convs' & E' & L' & H'); auto.
      { rewrite tab_length. auto. } { intros ch u Hch. rewrite nth_tab by lia. apply Hf. lia. }
      rewrite E'. cbn [bind]. eexists. split; [reflexivity|]. split; [cbn; auto|]. split; [cbn; auto|]. cbn [pc_convolvers heard l_spec l_response].
      split; [rewrite repeat_length; auto|]. rewrite ?Es, ?Ea. split; auto. split; auto. split; [intros [H|H]; discriminate|].
      intros spec' a' Q1 Q2. inversion Q1; inversion Q2; subst spec' a'. right. split; [exact Hle|]. rewrite repeat_length. split; auto. intros ch Hch.
      destruct (H' ch Hch) as (u & Hu & Hq). exists u. split; auto. rewrite EB. rewrite nth_repeat. exact Hq.
    + rewrite (filter_channels_missing (ov := ols) (fdl := dense_split_fdl) (flt := flt)); auto. { rewrite tab_length. auto. }
      intros ch u Hch. rewrite tab_length in Hch. rewrite nth_tab by auto. destruct (Hf ch u Hch) as (row & u' & A1 & A2 & _). eauto.
  - exists c. destruct (Hn (or_intror eq_refl)) as (Hh & Hcv). split; auto. split; [congruence|]. split; [congruence|]. rewrite Hh, Hcv. split; [reflexivity|].
    rewrite Es, Ea. split; [exact O1|]. split; [exact O2|]. split; [reflexivity|]. intros ? ? _ H. discriminate.
  - exists c. destruct (Hn (or_introl eq_refl)) as (Hh & Hcv). split; auto. split; [congruence|]. split; [congruence|]. rewrite Hh, Hcv. split; [reflexivity|].
    rewrite Es. split; [exact O1|]. split; [exact O2|]. split; [reflexivity|]. intros ? ? H. discriminate.
Qed.

Lemma process_tracks : forall s c b, tracks s c -> (forall row, In row b -> length row = samples_of b) ->
  match listen resampler s b with
  | Ok (s', out) => exists c', pc_process lanes (samples_of b) b c = Ok (c', out) /\ tracks s' c'
  | UB => pc_process lanes (samples_of b) b c = UB
  | Throw => False
  end.
Proof using All.
  intros s c b HT Hb. pose proof HT as (E1 & E2 & Lc & O1 & O2 & Hn & Hc). unfold listen, pc_process. rewrite E1.
  destruct (l_spec s) as [spec|] eqn:Es.
  2:{ exists c. destruct (pc_convolvers lanes c); auto. }
  destruct (l_response s) as [a|] eqn:Ea.
  2:{ exists c. rewrite (Hn (or_intror eq_refl)) in Lc. destruct (pc_convolvers lanes c); [auto|discriminate]. }
  specialize (Hc spec a eq_refl eq_refl).
  destruct (Nat.eqb_spec (length (heard s)) 0) as [Z|NZ]; cbn [orb].
  { exists c. rewrite Z in Lc. destruct (pc_convolvers lanes c); [auto|discriminate]. }
  destruct (pc_convolvers lanes c) as [|u0 us] eqn:Eu; [cbn in Lc; lia|]. rewrite <- Eu in *. 
  destruct (negb (samples_of b =? maximumBlockSize spec)) eqn:En; [exists c; auto|].
  apply negb_false_iff, Nat.eqb_eq in En. pose proof (O1 spec eq_refl) as HO1. pose proof (O2 a eq_refl) as HO2. destruct (HS spec HO1) as (k & Hk & EB).
  pose proof (HA spec a HO1 HO2) as (M & _ & Hsm & _). destruct Hc as [Hc|(Hle & Lh & Hc)]; [rewrite Hc in NZ; cbn in NZ; lia|].
  assert (Hstep : forall ch u, ch < length (heard s) -> ch < length b -> conv_heard (2 ^ k) (resp spec a ch) (nth ch (heard s) []) u ->
    exists u', upc_run u (nth ch b []) = Ok (u', tab (2 ^ k) (fun i => lconv (nth ch (heard s) [] ++ nth ch b []) (resp spec a ch) (length (nth ch (heard s) []) + i))) /\
      conv_heard (2 ^ k) (resp spec a ch) (nth ch (heard s) [] ++ nth ch b []) u').
  { intros ch u Hch Hchb Hu. apply heard_step; auto.
    - rewrite resp_length by (auto; lia). exact Hsm.
    - rewrite Hb by (apply nth_In; auto). congruence. }
  assert (Hall : forall ch, ch < length (pc_convolvers lanes c) -> exists u, rd (pc_convolvers lanes c) ch = Ok u /\ conv_heard (2 ^ k) (resp spec a ch) (nth ch (heard s) []) u).
  { intros ch Hch. rewrite <- EB. apply Hc. lia. }
  unfold split_upols_convolver in *.
  destruct (Nat.ltb_spec (length (heard s)) (length b)) as [Hlt|Hge].
  - rewrite (run_too_many (pc_convolvers lanes c) b (fun ch u => conv_heard (2 ^ k) (resp spec a ch) (nth ch (heard s) []) u)
      (fun ch u => conv_heard (2 ^ k) (resp spec a ch) (nth ch (heard s) [] ++ nth ch b []) u)
      (fun ch => tab (2 ^ k) (fun i => lconv (nth ch (heard s) [] ++ nth ch b []) (resp spec a ch) (length (nth ch (heard s) []) + i)))); auto; [lia|].
    intros ch u Hch Hu. apply Hstep; auto; lia.
  - destruct (run_some (length b) (pc_convolvers lanes c) b (fun ch u => conv_heard (2 ^ k) (resp spec a ch) (nth ch (heard s) []) u)
      (fun ch u => conv_heard (2 ^ k) (resp spec a ch) (nth ch (heard s) [] ++ nth ch b []) u)
      (fun ch => tab (2 ^ k) (fun i => lconv (nth ch (heard s) [] ++ nth ch b []) (resp spec a ch) (length (nth ch (heard s) []) + i))))
      as (convs' & E & L' & H'); auto; try lia.
    { intros ch u Hch Hu. apply Hstep; auto; lia. }
    rewrite E. cbn [bind]. eexists. split.
    + f_equal. f_equal. rewrite EB. apply tab_ext. intros ch Hch. rewrite (proj2 (Nat.ltb_lt ch (length b))) by auto. reflexivity.
    + split; [cbn; auto|]. split; [cbn; auto|]. cbn [pc_convolvers heard l_spec l_response]. rewrite tab_length. split; [exact (eq_trans L' Lc)|].
      split; [congruence|]. split; [congruence|]. split; [intros [H|H]; discriminate|].
      intros spec' a' Q1 Q2. inversion Q1; inversion Q2; subst spec' a'. right. split; auto. split; auto. intros ch Hch.
      destruct (H' ch ltac:(lia)) as (u & Hu & Hq). exists u. split; auto. rewrite nth_tab by auto. rewrite EB. destruct (ch <? length b); auto.
Qed.

Lemma calls_track : forall calls s c, tracks s c ->
  (forall spec, In (CallPrepare spec) calls -> okS spec) -> (forall a, In (CallLoad (Some a)) calls -> okA a) ->
  (forall b, In (CallProcess b) calls -> forall row, In row b -> length row = samples_of b) ->
  match listen_all resampler calls s with
  | Ok (s', outs) => exists c', run_calls resampler lanes calls c = Ok (c', outs) /\ tracks s' c'
  | UB => run_calls resampler lanes calls c = UB
  | Throw => False
  end.
Proof using All.
  induction calls as [|call rest IH]; intros s c HT CS CA CB; cbn [listen_all run_calls]; [eauto|].
  pose proof HT as (E1 & E2 & Lc & O1 & O2 & Hn & Hc).
  assert (IH' : forall s c, tracks s c -> match listen_all resampler rest s with
    | Ok (s', outs) => exists c', run_calls resampler lanes rest c = Ok (c', outs) /\ tracks s' c' | UB => run_calls resampler lanes rest c = UB | Throw => False end).
  { intros s1 c1 H1. apply IH; auto; intros; [apply CS|apply CA|eapply CB]; eauto; right; auto. }
  destruct call as [spec|file| |b].
  - pose proof (update_tracks (Listener (Some spec) (l_response s) (heard s)) (PConv lanes (Some spec) (pc_impulse lanes c) (pc_convolvers lanes c))) as U.
    cbn [l_spec l_response heard pc_spec pc_impulse pc_convolvers] in U.
    specialize (U eq_refl E2). assert (U' := U ltac:(intros ? [= <-]; apply CS; left; auto) O2). clear U. 
    assert (X : Some spec = None \/ l_response s = None -> heard s = [] /\ pc_convolvers lanes c = []).
    { intros [H|H]; [discriminate|]. assert (Hh := Hn (or_intror H)). split; auto. rewrite Hh in Lc. apply length_zero_iff_nil. exact Lc. }
    specialize (U' X). unfold pc_prepare. cbn [pc_impulse]. rewrite E2 in *.
    assert (Epc : match l_response s with Some _ => pc_update resampler lanes (PConv lanes (Some spec) (l_response s) (pc_convolvers lanes c)) | None => Ok (PConv lanes (Some spec) (l_response s) (pc_convolvers lanes c)) end
      = pc_update resampler lanes (PConv lanes (Some spec) (l_response s) (pc_convolvers lanes c))).
    { destruct (l_response s); reflexivity. }
    rewrite Epc. destruct (start_over resampler _) as [s1| |]; [|rewrite U'; reflexivity|auto].
    destruct U' as (c1 & Ec1 & T1). rewrite Ec1. cbn [bind]. apply IH'. auto.
  - set (s1 := Listener (l_spec s) (match file with Some a => Some a | None => l_response s end) (heard s)).
    pose proof (update_tracks s1 (PConv lanes (pc_spec lanes c) (match file with Some a => Some a | None => pc_impulse lanes c end) (pc_convolvers lanes c))) as U.
    unfold s1 in U. cbn [l_spec l_response heard pc_spec pc_impulse pc_convolvers] in U. fold s1 in U. unfold pc_load.
    assert (X2 : match file with Some a => Some a | None => pc_impulse lanes c end = match file with Some a => Some a | None => l_response s end) by (destruct file; auto).
    specialize (U E1 X2 O1).
    assert (U' := U ltac:(intros a Q; destruct file as [f|]; [inversion Q; subst; apply CA; left; auto|auto])). clear U.
    assert (X : l_spec s = None \/ match file with Some a => Some a | None => l_response s end = None -> heard s = [] /\ pc_convolvers lanes c = []).
    { intros H. assert (Hh : heard s = []). { apply Hn. destruct H as [H|H]; auto. destruct file; [discriminate|auto]. }
      split; auto. rewrite Hh in Lc. apply length_zero_iff_nil. exact Lc. }
    specialize (U' X). destruct (start_over resampler s1) as [s2| |]; [|rewrite U'; reflexivity|auto].
    destruct U' as (c1 & Ec1 & T1). rewrite Ec1. cbn [bind]. apply IH'. auto.
  - apply IH'. unfold tracks, pc_reset. cbn [pc_spec pc_impulse pc_convolvers l_spec l_response heard]. repeat (split; auto).
  - pose proof (process_tracks s c b HT (CB b (or_introl eq_refl))) as Hp. destruct (listen resampler s b) as [[s1 out]| |]; [|rewrite Hp; reflexivity|auto].
    destruct Hp as (c1 & Ec1 & T1). rewrite Ec1. cbn [bind]. specialize (IH' s1 c1 T1). destruct (listen_all resampler rest s1) as [[s2 outs]| |]; cbn [bind].
    + destruct IH' as (c2 & Ec2 & T2). rewrite Ec2. cbn [bind]. eauto.
    + rewrite IH'. reflexivity.
    + auto.
Qed.

Lemma sub_block_ok : forall channels n input i num, matrix_of channels n input -> i + num <= n ->
  sub_block input i num = Ok (tab channels (fun ch => tab num (fun j => nth (i + j) (nth ch input []) 0%R))).
Proof using.
  intros channels n input i num [L M] H. unfold sub_block.
  rewrite (mapM_tab _ _ _ _ (fun row => tab num (fun j => nth (i + j) row 0%R))).
  - f_equal. rewrite (tab_nth _ [] input) at 1. rewrite map_tab, L. reflexivity.
  - intros row Hr. rewrite (slice_spec _ 0%R) by (try rewrite (M row Hr); lia). f_equal. f_equal. lia.
Qed.

Lemma blocks_step : forall spec a n input k t (c : pconv lanes) out, 0 < k < max_order -> maximumBlockSize spec = 2 ^ k -> okS spec -> okA a ->
  0 < numChannels spec <= a_channels (resample resampler a (sampleRate spec)) -> matrix_of (numChannels spec) n input -> t * 2 ^ k < n ->
  tracks (Listener (Some spec) (Some a) (tab (numChannels spec) (fun ch => firstn (t * 2 ^ k) (nth ch input [])))) c ->
  out = tab (numChannels spec) (fun ch => tab (Nat.min (n - t * 2 ^ k) (2 ^ k)) (fun j => nth (t * 2 ^ k + j) (nth ch input []) 0%R)) ->
  exists c', pc_process lanes (Nat.min (n - t * 2 ^ k) (2 ^ k)) out c =
    Ok (c', tab (numChannels spec) (fun ch => tab (Nat.min (n - t * 2 ^ k) (2 ^ k)) (fun j => played (2 ^ k) n (resp spec a ch) (nth ch input []) (t * 2 ^ k + j)))) /\
    exists heard, (S t * 2 ^ k <= n -> heard = tab (numChannels spec) (fun ch => firstn (S t * 2 ^ k) (nth ch input []))) /\
      tracks (Listener (Some spec) (Some a) heard) c'.
Proof using All.
  intros spec a n input k t c out Hk EB HO1 HO2 (Hch0 & Hle) [L M] Ht HT Eo. set (nch := numChannels spec) in *. set (num := Nat.min (n - t * 2 ^ k) (2 ^ k)) in *.
  assert (HB : 0 < 2 ^ k) by (apply Nat.neq_0_lt_0, Nat.pow_nonzero; discriminate).
  assert (Es : samples_of out = num). { subst out. destruct nch as [|m]; [lia|]. unfold samples_of, tab. cbn [seq map]. rewrite map_length, seq_length. reflexivity. }
  assert (Hrows : forall row, In row out -> length row = samples_of out).
  { intros row Hr. rewrite Es. subst out. apply In_nth with (d := []) in Hr. destruct Hr as (i & Hi & <-). rewrite tab_length in Hi. rewrite nth_tab by auto. apply tab_length. }
  pose proof (process_tracks _ c out HT Hrows) as P. rewrite Es in P. unfold listen in P. cbn [l_spec l_response heard] in P.
  rewrite tab_length in P. destruct (Nat.eqb_spec nch 0); [lia|]. cbn [orb] in P. rewrite Es, EB in P.
  assert (Lrow : forall ch, ch < nch -> length (nth ch input []) = n) by (intros; apply M, nth_In; lia).
  assert (Hq : S t * 2 ^ k <= n -> S t <= n / 2 ^ k) by (intros; apply Nat.div_le_lower_bound; lia).
  assert (Hd := Nat.div_mod n (2 ^ k) ltac:(lia)). assert (Hm := Nat.mod_upper_bound n (2 ^ k) ltac:(lia)).
  destruct (Nat.eqb_spec num (2 ^ k)) as [En|Nn]; cbn [negb] in P.
  - assert (Hfull : S t * 2 ^ k <= n) by (cbn [Nat.mul]; lia). specialize (Hq Hfull).
    assert (Lo : length out = nch) by (subst out; apply tab_length). rewrite Lo, Nat.ltb_irrefl in P. destruct P as (c' & Ep & T').
    assert (Eapp : forall ch, ch < nch -> firstn (t * 2 ^ k) (nth ch input []) ++ nth ch out [] = firstn (S t * 2 ^ k) (nth ch input [])).
    { intros ch Hch. subst out. rewrite nth_tab by auto. pose proof (Lrow ch Hch) as Lr. apply (list_eq_nth _ 0%R).
      - rewrite app_length, tab_length, !firstn_length, Lr. rewrite En. cbn [Nat.mul]. lia.
      - intros i Hi. rewrite app_length, tab_length, firstn_length, Lr in Hi. rewrite (nth_firstn_lt _ (nth ch input []) (S t * 2 ^ k)) by (cbn [Nat.mul]; lia).
        destruct (Nat.lt_ge_cases i (t * 2 ^ k)) as [Hlt|Hge].
        + rewrite app_nth1 by (rewrite firstn_length; lia). apply nth_firstn_lt. lia.
        + rewrite app_nth2 by (rewrite firstn_length; lia). rewrite firstn_length, Lr, Nat.min_l by lia. rewrite nth_tab by lia. f_equal. lia. }
    exists c'. split.
    + rewrite Ep. f_equal. f_equal. rewrite En. apply tab_ext. intros ch Hch. apply tab_ext. intros i Hi.
      rewrite (nth_tab _ _ _ _ _ Hch), Eapp by auto. rewrite firstn_length, Lrow, Nat.min_l by (auto; lia).
      assert (Hb : t * 2 ^ k + i < n / 2 ^ k * 2 ^ k) by (apply Nat.lt_le_trans with (S t * 2 ^ k); [cbn [Nat.mul]; lia|apply Nat.mul_le_mono_r; auto]).
      unfold played. rewrite (proj2 (Nat.ltb_lt _ _)) by exact Hb. apply lconv_prefix. intros m Hmm. apply nth_firstn_lt. cbn [Nat.mul]. lia.
    + eexists. split; [|exact T']. intros _. apply tab_ext. intros ch Hch. rewrite (proj2 (Nat.ltb_lt ch nch)) by auto. rewrite nth_tab by auto. apply Eapp. auto.
  - destruct P as (c' & Ep & T'). exists c'. split.
    + rewrite Ep. f_equal. f_equal. rewrite Eo. apply tab_ext. intros ch Hch. apply tab_ext. intros i Hi. unfold played.
      assert (Hb : n / 2 ^ k * 2 ^ k <= t * 2 ^ k + i).
      { assert (n / 2 ^ k <= t). { apply Nat.lt_succ_r, Nat.div_lt_upper_bound; [lia|]. assert (E3 : 2 ^ k * S t = t * 2 ^ k + 2 ^ k) by ring. rewrite E3. lia. }
        assert (n / 2 ^ k * 2 ^ k <= t * 2 ^ k) by (apply Nat.mul_le_mono_r; auto). lia. }
      destruct (Nat.ltb_spec (t * 2 ^ k + i) (n / 2 ^ k * 2 ^ k)); [lia|reflexivity].
    + eexists. split; [|exact T']. cbn [Nat.mul]. lia.
Qed.

Lemma process_blocks_ok : forall c a spec n input output k, pc_impulse lanes c = Some a -> 0 < k < max_order -> maximumBlockSize spec = 2 ^ k -> okS spec -> okA a ->
  0 < numChannels spec -> matrix_of (numChannels spec) n input -> matrix_of (numChannels spec) n output ->
  (numChannels spec <= a_channels (resample resampler a (sampleRate spec)) ->
   exists c', processBlocks resampler lanes (numChannels spec) n input output (2 ^ k) (sampleRate spec) c =
     Ok (c', tab (numChannels spec) (fun ch => tab n (played (2 ^ k) n (resp spec a ch) (nth ch input [])))) /\
     tracks (Listener (Some spec) (Some a) []) c') /\
  (a_channels (resample resampler a (sampleRate spec)) < numChannels spec ->
   processBlocks resampler lanes (numChannels spec) n input output (2 ^ k) (sampleRate spec) c = UB).
Proof using All.
  intros c a spec n input output k Ea Hk EB HO1 HO2 Hch0 HMi HMo.
  assert (Espec : ProcessSpec (sampleRate spec) (2 ^ k) (numChannels spec) = spec) by (destruct spec; cbn in *; subst; reflexivity).
  pose proof (update_tracks (Listener (Some spec) (Some a) []) (PConv lanes (Some spec) (Some a) (pc_convolvers lanes c)) eq_refl eq_refl) as U.
  cbn [l_spec l_response heard pc_spec pc_impulse pc_convolvers] in U.
  assert (U' := U ltac:(intros ? [= <-]; auto) ltac:(intros ? [= <-]; auto) ltac:(intros [H|H]; discriminate)). clear U. unfold start_over in U'. cbn [l_spec l_response] in U'.
  assert (Ep : pc_prepare resampler lanes (ProcessSpec (sampleRate spec) (2 ^ k) (numChannels spec)) c = pc_update resampler lanes (PConv lanes (Some spec) (Some a) (pc_convolvers lanes c))).
  { unfold pc_prepare. cbn [pc_impulse]. rewrite Ea, Espec. reflexivity. }
  unfold processBlocks. rewrite Ep. split; intros Hle.
  2:{ destruct (Nat.leb_spec (numChannels spec) (a_channels (resample resampler a (sampleRate spec)))); [lia|]. rewrite U'. reflexivity. }
  rewrite (proj2 (Nat.leb_le _ _)) in U' by exact Hle. destruct U' as (c1 & Eu & T1). rewrite Eu. cbn [bind].
  set (nch := numChannels spec) in *. assert (HB : 0 < 2 ^ k) by (apply Nat.neq_0_lt_0, Nat.pow_nonzero; discriminate).
  set (body := fun (i : nat) (st : pconv lanes * list (list R)) => _).
  set (N := (n - 0 + (2 ^ k - 1)) / 2 ^ k).
  destruct (loop_inv _ (fun t (st : pconv lanes * list (list R)) => let (c, out) := st in
    (exists hd, (t * 2 ^ k <= n -> hd = tab nch (fun ch => firstn (t * 2 ^ k) (nth ch input []))) /\ tracks (Listener (Some spec) (Some a) hd) c) /\
    out = tab nch (fun ch => tab n (fun i => if i <? t * 2 ^ k then played (2 ^ k) n (resp spec a ch) (nth ch input []) i else nth i (nth ch output []) 0%R)))
    N 0 (2 ^ k) body (c1, output)) as ((c2 & out2) & El & (hd & _ & T2) & Eo).
  - split.
    + exists (repeat [] nch). split; [|exact T1]. intros _. rewrite repeat_tab. apply tab_ext. intros ch _. reflexivity.
    + destruct HMo as [Lo Mo]. rewrite (tab_nth _ [] output) at 1. rewrite Lo. apply tab_ext. intros ch Hch. cbn [Nat.mul Nat.ltb Nat.leb].
      rewrite <- (Mo (nth ch output [])) by (apply nth_In; lia). apply tab_nth.
  - intros t (c2, out) Ht ((hd & Hhd & T2) & Eo).
    assert (Htn : t * 2 ^ k < n).
    { unfold N in Ht. assert (S t <= (n - 0 + (2 ^ k - 1)) / 2 ^ k) by lia. apply (Nat.mul_le_mono_l _ _ (2 ^ k)) in H.
      pose proof (Nat.mul_div_le (n - 0 + (2 ^ k - 1)) (2 ^ k) ltac:(lia)). assert (2 ^ k * S t = t * 2 ^ k + 2 ^ k) by ring. lia. }
    rewrite (Hhd ltac:(lia)) in T2. cbn [Nat.add]. unfold body. set (num := Nat.min (n - t * 2 ^ k) (2 ^ k)).
    rewrite (sub_block_ok nch n) by (auto; lia). cbn [bind].
    destruct (blocks_step spec a n input k t c2 _ Hk EB HO1 HO2 (conj Hch0 Hle) HMi Htn T2 eq_refl) as (c3 & Ep3 & hd3 & Hhd3 & T3).
    fold nch num in Ep3. rewrite Ep3. cbn [bind].
    rewrite (for_range_tab _ [] nch _ out (fun ch => tab n (fun i => if i <? S t * 2 ^ k then played (2 ^ k) n (resp spec a ch) (nth ch input []) i else nth i (nth ch output []) 0%R))).
    + cbn [bind]. eexists. split; [reflexivity|]. split; eauto.
    + rewrite Eo, tab_length. reflexivity.
    + intros ch l Hch Ll Nl. rewrite Eo in Ll. rewrite tab_length in Ll. rewrite (rd_ok _ _ _ []) by lia. cbn [bind].
      rewrite (rd_ok _ _ _ []) by (rewrite tab_length; auto). cbn [bind]. rewrite nth_tab by auto.
      rewrite Eo in Nl. rewrite nth_tab in Nl by auto.
      destruct (splice_spec _ 0%R (nth ch l []) (tab num (fun j => played (2 ^ k) n (resp spec a ch) (nth ch input []) (t * 2 ^ k + j))) (t * 2 ^ k)) as (l' & El & Ll' & Hl').
      { rewrite Nl, !tab_length. lia. }
      rewrite El. cbn [bind]. rewrite wr_ok by lia. do 2 f_equal. rewrite Nl in Ll', Hl'. rewrite tab_length in Ll'.
      apply list_eq_tab with (d := 0%R); auto. intros i Hi. rewrite Hl', tab_length.
      assert (E3 : S t * 2 ^ k = t * 2 ^ k + 2 ^ k) by ring. rewrite E3.
      destruct (Nat.leb_spec (t * 2 ^ k) i) as [A|A]; cbn [andb].
      * destruct (Nat.ltb_spec i (t * 2 ^ k + num)) as [A2|A2].
        -- rewrite nth_tab by lia. destruct (Nat.ltb_spec i (t * 2 ^ k + 2 ^ k)); [|lia]. f_equal. lia.
        -- rewrite nth_tab by auto. destruct (Nat.ltb_spec i (t * 2 ^ k)); [lia|]. destruct (Nat.ltb_spec i (t * 2 ^ k + 2 ^ k)); [lia|reflexivity].
      * rewrite nth_tab by auto. destruct (Nat.ltb_spec i (t * 2 ^ k)); [|lia]. destruct (Nat.ltb_spec i (t * 2 ^ k + 2 ^ k)); [reflexivity|lia].
  - unfold for_step. destruct (Nat.eqb_spec (2 ^ k) 0); [lia|]. fold N. rewrite El. cbn [bind]. eexists. split.
    + f_equal. f_equal. rewrite Eo. apply tab_ext. intros ch Hch. apply tab_ext. intros i Hi.
      assert (HN : n <= N * 2 ^ k).
      { unfold N. pose proof (Nat.div_mod (n - 0 + (2 ^ k - 1)) (2 ^ k) ltac:(lia)) as D. pose proof (Nat.mod_upper_bound (n - 0 + (2 ^ k - 1)) (2 ^ k) ltac:(lia)).
        set (q := (n - 0 + (2 ^ k - 1)) / 2 ^ k) in *. assert (2 ^ k * q = q * 2 ^ k) by ring. lia. }
      destruct (Nat.ltb_spec i (N * 2 ^ k)); [reflexivity|lia].
    + unfold tracks, pc_reset. destruct T2 as (A1 & A2 & _ & A3 & A4 & _). cbn [pc_spec pc_impulse pc_convolvers l_spec l_response heard] in *. repeat (split; auto).
Qed.
End Plugin.
