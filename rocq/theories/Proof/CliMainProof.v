(** The command line tool from files to files. *)
From Coq Require Import String Reals List Arith ZArith Lia Lra Bool.
From Verif Require Import Base.Outcome Base.OutcomeFacts Base.Cplx Spec.Stft Spec.Convolution Spec.Statistics Spec.Wav.
From Verif Require Import Model.Fft2 Model.Integers Model.Statistics Model.Stft Model.Convolution Model.Cli Model.CliMain.
From Verif Require Import Proof.StatisticsProof Proof.StftProof Proof.CliProof Props.CliProps.
Import ListNotations.
Local Arguments Nat.div : simpl never.
Local Arguments Nat.modulo : simpl never.
Local Arguments Nat.pow : simpl never.
Local Arguments Z.pow : simpl never.
Local Open Scope nat_scope.

(** * Reading *)

Lemma load_complete : forall fs p f, f_content fs p = Some f -> complete_wav f ->
  load_wav_file fs p = (AudioBuffer (wf_channels f) (wf_frames f) (wf_data f), wf_rate f).
Proof.
  intros fs p f E (H0 & _ & _ & HL). unfold load_wav_file. rewrite E, HL.
  rewrite Nat.mul_comm at 1. rewrite Nat.div_mul by lia. rewrite Nat.min_id, Nat.eqb_refl.
  rewrite firstn_all2 by lia. auto.
Qed.

Lemma load_unreadable : forall fs p, unreadable fs p -> load_wav_file fs p = no_audio.
Proof.
  intros fs p [E|(f & E & H0 & HL)]; unfold load_wav_file; rewrite E; auto.
  assert (length (wf_data f) / wf_channels f < wf_frames f) by (apply Nat.div_lt_upper_bound; lia).
  destruct (Nat.eqb_spec (Nat.min (wf_frames f) (length (wf_data f) / wf_channels f)) (wf_frames f)); auto. lia.
Qed.

Lemma rows_channels : forall f, buffer_rows (AudioBuffer (wf_channels f) (wf_frames f) (wf_data f)) = tab (wf_channels f) (wav_channel f).
Proof.
  intros f. unfold buffer_rows, wav_channel, wav_sample. simpl. unfold tab. apply map_ext. intros ch. apply map_ext. intros n.
  f_equal. lia.
Qed.

Lemma tab_matrix : forall r c (g : nat -> nat -> R), matrix_of r c (tab r (fun i => tab c (g i))).
Proof.
  intros. split. apply tab_length. intros row H. unfold tab in H. apply in_map_iff in H. destruct H as (i & <- & _). apply tab_length.
Qed.

Lemma nth_channels : forall f ch, ch < wf_channels f -> nth ch (tab (wf_channels f) (wav_channel f)) [] = wav_channel f ch.
Proof. intros. apply nth_tab. auto. Qed.

(** * Writing *)

Lemma write_ok : forall fs b rate p, (0 <= rate < 2 ^ 32)%Z -> (Z.of_nat (ab_channels b) < 2 ^ 16)%Z -> f_writable fs p = true ->
  write_wav_file fs b rate p = Ok [(p, WavFile (ab_channels b) rate (ab_frames b) (ab_data b))].
Proof.
  intros fs b rate p Hr Hc Hw. unfold write_wav_file. 
  replace ((0 <=? rate) && (rate <? 2 ^ 32))%Z with true.
  2:{ symmetry. apply andb_true_intro. split; [apply Z.leb_le|apply Z.ltb_lt]; lia. }
  cbn [guard bind]. rewrite Hw. rewrite Z.mod_small by lia. rewrite Nat2Z.id. auto.
Qed.

Lemma rows_sample : forall channels frames rows rate ch n, ch < channels -> n < frames ->
  let b := rows_buffer channels frames rows in
  wav_sample (WavFile (ab_channels b) rate (ab_frames b) (ab_data b)) ch n = nth n (nth ch rows []) 0%R.
Proof.
  intros channels frames rows rate ch n Hc Hn. unfold wav_sample, rows_buffer. simpl.
  rewrite nth_tab by nia. f_equal.
  - rewrite Nat.add_comm, Nat.div_add, Nat.div_small by lia. auto.
  - rewrite Nat.add_comm, Nat.mod_add, Nat.mod_small by lia. auto.
Qed.

(** * The whole program *)

Lemma rate_ok : forall r, (0 <= r < 2 ^ 31)%Z -> rate_to_int r = Ok tt.
Proof.
  intros r H. unfold rate_to_int. replace ((- 2 ^ 31 <=? r) && (r <? 2 ^ 31))%Z with true; auto.
  symmetry. apply andb_true_intro. split; [apply Z.leb_le|apply Z.ltb_lt]; lia.
Qed.

Lemma entries_sample : forall channels frames rows v, matrix_of channels frames rows ->
  In v (concat rows) <-> exists ch n, ch < channels /\ n < frames /\ nth n (nth ch rows []) 0%R = v.
Proof.
  intros channels frames rows v [HL HR]. rewrite in_concat. split.
  - intros (row & Hr & Hv). apply (In_nth _ _ []) in Hr. destruct Hr as (ch & Hc & Er). 
    apply (In_nth _ _ 0%R) in Hv. destruct Hv as (n & Hn & Ev). exists ch, n. subst row. 
    rewrite HR in Hn by (apply nth_In; auto). repeat split; auto. lia.
  - intros (ch & n & Hc & Hn & <-). exists (nth ch rows []). split. { apply nth_In. lia. }
    apply nth_In. rewrite HR; auto. apply nth_In. lia.
Qed.

Lemma program_success : forall lanes fs prog sp fp op s f, (forall l, lanes = Some l -> 0 < l) ->
  f_content fs sp = Some s -> f_content fs fp = Some f -> complete_wav s -> complete_wav f ->
  wf_channels s = wf_channels f -> wf_rate s = wf_rate f -> (wf_rate s < 2 ^ 31)%Z ->
  sizes_fit 15 (wf_channels f) (wf_frames f) -> (Z.of_nat (wf_frames s) + 2 ^ 15 <= 2 ^ 31)%Z ->
  f_writable fs op = true ->
  exists a F, (0 < a)%R /\ cli_program lanes fs [prog; sp; fp; op] = Ok (ExitSuccess, [(op, F); (op, F)]) /\
    complete_wav F /\ wf_channels F = wf_channels s /\ wf_rate F = wf_rate s /\ wf_frames F = wf_frames s /\
    (forall ch n, ch < wf_channels s -> n < wf_frames s ->
       wav_sample F ch n = (lconv (wav_channel s ch) (wav_channel f ch) n * a)%R) /\
    ((exists ch n, ch < wf_channels s /\ n < wf_frames s /\ wav_sample F ch n <> 0%R) ->
     (forall ch n, ch < wf_channels s -> n < wf_frames s -> (Rabs (wav_sample F ch n) <= 1)%R) /\
     exists ch n, ch < wf_channels s /\ n < wf_frames s /\ Rabs (wav_sample F ch n) = 1%R).
Proof.
  intros lanes fs prog sp fp op s f Hl Es Ef Cs Cf Hch Hrt Hr31 Hsz Hfr Hw.
  pose proof Cs as (S1 & S2 & S3 & S4). pose proof Cf as (F1 & F2 & F3 & F4).
  assert (Ms : matrix_of (wf_channels s) (wf_frames s) (tab (wf_channels s) (wav_channel s))) by apply tab_matrix.
  assert (Mf : matrix_of (wf_channels f) (wf_frames f) (tab (wf_channels f) (wav_channel f))) by apply tab_matrix.
  destruct (proj2 (C54_main lanes (wf_channels s) (wf_frames s) (tab (wf_channels s) (wav_channel s)) (IZR (wf_rate s))
    (wf_channels f) (wf_frames f) (tab (wf_channels f) (wav_channel f)) (IZR (wf_rate f)) Hl)) as (a & Pa & Em & Pk);
    auto. { rewrite Hrt. auto. } { lia. }
  cbv zeta in Em, Pk.
  set (rows := map (map (fun v => (v * a)%R)) (convolved (wf_channels s) (wf_frames s) (tab (wf_channels s) (wav_channel s)) (tab (wf_channels f) (wav_channel f)))) in *.
  set (b := rows_buffer (wf_channels s) (wf_frames s) rows).
  set (F := WavFile (ab_channels b) (wf_rate s) (ab_frames b) (ab_data b)).
  assert (MR : matrix_of (wf_channels s) (wf_frames s) rows).
  { apply scaled_matrix. apply tab_matrix. }
  assert (SF : forall ch n, ch < wf_channels s -> n < wf_frames s -> wav_sample F ch n = nth n (nth ch rows []) 0%R).
  { intros. apply rows_sample; auto. }
  exists a, F. split; auto. split; [|split; [|split; [|split; [|split; [|split]]]]].
  - unfold cli_program. rewrite (load_complete fs sp s), (load_complete fs fp f) by auto. cbn [ab_channels ab_frames].
    rewrite !rows_channels. rewrite <- Hch. rewrite Nat.eqb_refl. cbn [negb].
    rewrite !rate_ok by lia. cbn [bind]. rewrite <- Hrt, Z.eqb_refl. cbn [negb].
    unfold cli_main in Em. rewrite <- Hch, Nat.eqb_refl in Em. cbn [negb] in Em. rewrite <- Hrt in Em.
    assert (Ex : exact (IZR (wf_rate s)) (IZR (wf_rate s)) = true) by (apply exact_true; reflexivity). rewrite Ex in Em. cbn [negb] in Em.
    unfold cli_runs in Em. unfold cli_one_run.
    destruct (cli_convolve ola dense_fdl dense_filter tt (wf_channels s) (wf_frames s) (tab (wf_channels s) (wav_channel s)) (wf_channels s) (wf_frames f) (tab (wf_channels s) (wav_channel f)) (2 ^ 15)) as [o1| |]; cbn [bind] in Em; try discriminate.
    cbn [bind]. destruct (normalize_peak (Mat (wf_channels s) (wf_frames s) o1)) as [n1| |]; cbn [bind] in Em; try discriminate.
    destruct (cli_convolve ola dense_split_fdl (dense_split_filter lanes) tt (wf_channels s) (wf_frames s) (tab (wf_channels s) (wav_channel s)) (wf_channels s) (wf_frames f) (tab (wf_channels s) (wav_channel f)) (2 ^ 15)) as [o2| |]; cbn [bind] in Em; try discriminate.
    cbn [bind]. destruct (normalize_peak (Mat (wf_channels s) (wf_frames s) o2)) as [n2| |]; cbn [bind] in Em; try discriminate.
    inversion Em. subst n1 n2. cbn [bind]. fold b. rewrite write_ok by (auto; cbn [ab_channels]; unfold b, rows_buffer; cbn [ab_channels]; lia).
    cbn [bind]. reflexivity.
  - unfold complete_wav, F, b, rows_buffer. cbn [wf_channels wf_rate wf_data wf_frames ab_channels ab_frames ab_data]. rewrite tab_length. repeat split; auto; lia.
  - reflexivity.
  - reflexivity.
  - reflexivity.
  - intros ch n Hc Hn. rewrite SF by auto. unfold rows. rewrite nth_scaled. unfold convolved. rewrite nth_tab by lia.
    rewrite (nth_indep _ 0%R (0 * a)%R) by (rewrite map_length, tab_length; auto).
    rewrite (map_nth (fun v => (v * a)%R)). rewrite nth_tab by lia. rewrite !nth_tab by lia. auto.
  - intros (ch & n & Hc & Hn & Nz). rewrite SF in Nz by auto.
    destruct Pk as (P1 & v & Pv & P2).
    { exists (nth n (nth ch rows []) 0%R). split; auto. cbn [entries]. apply (entries_sample (wf_channels s) (wf_frames s)); auto. exists ch, n. auto. }
    cbn [entries] in P1, Pv. split.
    + intros ch' n' Hc' Hn'. rewrite SF by auto. apply P1. apply (entries_sample (wf_channels s) (wf_frames s)); auto. exists ch', n'. auto.
    + apply (entries_sample (wf_channels s) (wf_frames s)) in Pv; auto. destruct Pv as (ch' & n' & Hc' & Hn' & Ev). exists ch', n'. split; auto. split; auto. rewrite SF by auto. rewrite Ev. auto.
Qed.

(** * Everything else *)

Lemma program_writes : forall lanes fs args c w, cli_program lanes fs args = Ok (c, w) ->
  (c = ExitFailure -> w = []) /\ (c = ExitSuccess -> length args = 4 /\ length w <= 2) /\
  forall p f, In (p, f) w -> p = nth 3 args EmptyString /\ f_writable fs p = true.
Proof.
  intros lanes fs args c w E. unfold cli_program in E.
  destruct args as [|a0 [|sp [|fp [|op [|]]]]];
    try (inversion E; subst; split; [auto|split; [discriminate|intros p f []]]).
  destruct (load_wav_file fs sp) as [s sr]. destruct (load_wav_file fs fp) as [g gr].
  destruct (negb (ab_channels s =? ab_channels g)). { inversion E; subst; split; [auto|split; [discriminate|intros p f []]]. }
  destruct (rate_to_int sr); cbn [bind] in E; try discriminate. destruct (rate_to_int gr); cbn [bind] in E; try discriminate.
  destruct (negb (sr =? gr)%Z). { inversion E; subst; split; [auto|split; [discriminate|intros p f []]]. }
  assert (G : forall conv ch fr rows, cli_one_run fs conv ch fr sr op = Ok rows -> length rows <= 1 /\ forall p f, In (p, f) rows -> p = op /\ f_writable fs p = true).
  { intros conv ch fr rows H. unfold cli_one_run in H. destruct conv as [o| |]; cbn [bind] in H; try discriminate.
    destruct (normalize_peak (Mat ch fr o)) as [n| |]; cbn [bind] in H; try discriminate. destruct n as [v|r q m]; cbn [bind] in H; try discriminate.
    unfold write_wav_file in H. destruct ((0 <=? sr) && (sr <? 2 ^ 32))%Z; cbn [guard bind] in H; try discriminate.
    destruct (f_writable fs op) eqn:W.
    - inversion H. simpl. split; auto. intros p f [Q|[]]. inversion Q. subst. auto.
    - destruct (ab_frames (rows_buffer ch fr m) =? 0); cbn [guard bind] in H; inversion H. simpl. split; auto. intros p f []. }
  match type of E with (w1 <- ?X ;; _) = _ => destruct X as [w1| |] eqn:E1; cbn [bind] in E; try discriminate end.
  match type of E with (w2 <- ?X ;; _) = _ => destruct X as [w2| |] eqn:E2; cbn [bind] in E; try discriminate end.
  apply G in E1. apply G in E2. inversion E; subst. split; [discriminate|]. split.
  - intros _. rewrite app_length. simpl. split; auto. lia.
  - intros p f H. apply in_app_or in H. cbn [nth]. destruct H; [apply E1 in H|apply E2 in H]; auto.
Qed.

Lemma program_usage : forall lanes fs args, length args <> 4 -> cli_program lanes fs args = Ok (ExitFailure, []).
Proof. intros lanes fs args H. destruct args as [|a0 [|sp [|fp [|op [|]]]]]; auto. simpl in H. lia. Qed.

Lemma program_one_missing : forall lanes fs prog sp fp op g,
  (unreadable fs sp /\ f_content fs fp = Some g \/ unreadable fs fp /\ f_content fs sp = Some g) -> complete_wav g ->
  cli_program lanes fs [prog; sp; fp; op] = Ok (ExitFailure, []).
Proof.
  intros lanes fs prog sp fp op g H Cg. unfold cli_program.
  destruct H as [[U E]|[U E]]; rewrite (load_unreadable _ _ U), (load_complete _ _ _ E Cg); unfold no_audio; cbn [ab_channels];
    destruct Cg as [G _].
  - destruct (Nat.eqb_spec 0 (wf_channels g)); auto. lia.
  - destruct (Nat.eqb_spec (wf_channels g) 0); auto. lia.
Qed.

Lemma program_mismatch : forall lanes fs prog sp fp op s f,
  f_content fs sp = Some s -> f_content fs fp = Some f -> complete_wav s -> complete_wav f ->
  (wf_rate s < 2 ^ 31)%Z -> (wf_rate f < 2 ^ 31)%Z -> wf_channels s <> wf_channels f \/ wf_rate s <> wf_rate f ->
  cli_program lanes fs [prog; sp; fp; op] = Ok (ExitFailure, []).
Proof.
  intros lanes fs prog sp fp op s f Es Ef Cs Cf R1 R2 H. unfold cli_program.
  rewrite (load_complete _ _ _ Es Cs), (load_complete _ _ _ Ef Cf). cbn [ab_channels].
  destruct Cs as (_ & _ & S & _). destruct Cf as (_ & _ & F & _).
  destruct (Nat.eqb_spec (wf_channels s) (wf_channels f)); auto. cbn [negb].
  rewrite !rate_ok by lia. cbn [bind]. destruct (Z.eqb_spec (wf_rate s) (wf_rate f)); auto. tauto.
Qed.

(** Empty buffers pass both tests of main(). *)
Lemma partition_empty : uniform_partition 0 0 [] (2 ^ 15) = Ok [].
Proof.
  unfold uniform_partition. 
  assert (E : iarith usize (Z.of_nat (2 ^ 15) * 2) = Ok 65536%Z).
  { rewrite Nat2Z.inj_pow. reflexivity. }
  rewrite E. cbn [bind]. unfold stft.
  assert (T : Z.to_nat 65536 = 2 ^ 16). { apply Nat2Z.inj. rewrite Z2Nat.id by lia. rewrite Nat2Z.inj_pow. reflexivity. }
  destruct (make_stft_ok (StftOptions (2 ^ 15) (Z.to_nat 65536) 0 rectangular_window)) as (p & Ep & I).
  { cbn [so_transform]. rewrite T. split. { change 2 with (2 ^ 1) at 1. apply Nat.pow_le_mono_r; lia. } apply Nat.pow_le_mono_r; unfold max_order; lia. }
  rewrite Ep. cbn [bind]. unfold stft_run. rewrite (sti_options _ _ I). cbn [so_frame so_overlap].
  assert (N : num_sftf_frames (Z.of_nat 0) (Z.of_nat (2 ^ 15)) (Z.of_nat 0) = Ok (2 ^ 49)%Z).
  { rewrite Nat2Z.inj_pow. reflexivity. }
  rewrite N. cbn [bind]. change (Z.of_nat 0 * 2 ^ 49)%Z with 0%Z. rewrite Z.mul_0_l.
  change (max_elements <=? 0)%Z with false. cbv iota. reflexivity.
Qed.

Lemma convolve_empty : forall ov fdl flt args, cli_convolve ov fdl flt args 0 0 [] 0 0 [] (2 ^ 15) = Ok [].
Proof.
  intros. unfold cli_convolve. change (normalize_impulse (Mat 0 0 [])) with (@Ok (object R) (Mat 0 0 [])). cbn [bind].
  rewrite partition_empty. cbn [bind]. reflexivity.
Qed.

Lemma program_both_missing : forall lanes fs prog sp fp op, unreadable fs sp -> unreadable fs fp -> f_writable fs op = true ->
  cli_program lanes fs [prog; sp; fp; op] =
    Ok (ExitSuccess, [(op, WavFile 0 0%Z 0 []); (op, WavFile 0 0%Z 0 [])]).
Proof.
  intros lanes fs prog sp fp op U1 U2 W. unfold cli_program. rewrite (load_unreadable _ _ U1), (load_unreadable _ _ U2).
  unfold no_audio. cbn [ab_channels ab_frames]. cbn [Nat.eqb negb]. rewrite rate_ok by lia. cbn [bind]. cbn [Z.eqb negb].
  unfold buffer_rows. cbn [ab_channels ab_frames ab_data]. change (tab 0 (fun ch => tab 0 (fun n => nth (ch + n * 0) (@nil R) 0%R))) with (@nil (list R)).
  rewrite !convolve_empty. unfold cli_one_run. cbn [bind].
  change (normalize_peak (Mat 0 0 [])) with (@Ok (object R) (Mat 0 0 [])). cbn [bind].
  rewrite write_ok by (auto; cbn; lia). cbn [bind]. reflexivity.
Qed.

Lemma program_unwritable : forall lanes fs prog sp fp op s f, (forall l, lanes = Some l -> 0 < l) ->
  f_content fs sp = Some s -> f_content fs fp = Some f -> complete_wav s -> complete_wav f ->
  wf_channels s = wf_channels f -> wf_rate s = wf_rate f -> (wf_rate s < 2 ^ 31)%Z ->
  sizes_fit 15 (wf_channels f) (wf_frames f) -> (Z.of_nat (wf_frames s) + 2 ^ 15 <= 2 ^ 31)%Z ->
  f_writable fs op = false -> 0 < wf_frames s ->
  cli_program lanes fs [prog; sp; fp; op] = UB.
Proof.
  intros lanes fs prog sp fp op s f Hl Es Ef Cs Cf Hch Hrt Hr31 Hsz Hfr Hw H0.
  destruct (program_success lanes (Files (f_content fs) (fun _ => true)) prog sp fp op s f) as (a & F & _ & E & _); auto.
  unfold cli_program in *.
  change (load_wav_file {| f_content := f_content fs; f_writable := fun _ => true |}) with (load_wav_file fs) in E.
  rewrite (load_complete fs sp s), (load_complete fs fp f) in * by auto. cbn [ab_channels ab_frames] in *.
  destruct (negb (wf_channels s =? wf_channels f)); [discriminate|].
  destruct (rate_to_int (wf_rate s)); cbn [bind] in *; try discriminate. destruct (rate_to_int (wf_rate f)); cbn [bind] in *; try discriminate.
  destruct (negb (wf_rate s =? wf_rate f)%Z); [discriminate|].
  unfold cli_one_run in *.
  match goal with |- bind (bind ?X _) _ = _ => destruct X as [o1| |]; cbn [bind] in *; try discriminate end.
  destruct (normalize_peak (Mat (wf_channels s) (wf_frames s) o1)) as [n1| |]; cbn [bind] in *; try discriminate.
  destruct n1 as [v|r c m]; cbn [bind] in *; try discriminate.
  unfold write_wav_file at 1. destruct ((0 <=? wf_rate s) && (wf_rate s <? 2 ^ 32))%Z eqn:G.
  2:{ unfold write_wav_file in E. rewrite G in E. discriminate. }
  cbn [guard bind]. rewrite Hw. cbn [ab_frames rows_buffer].
  destruct (Nat.eqb_spec (wf_frames s) 0); [lia|]. reflexivity.
Qed.

Lemma program_high_rate : forall lanes fs prog sp fp op s f,
  f_content fs sp = Some s -> f_content fs fp = Some f -> complete_wav s -> complete_wav f ->
  wf_channels s = wf_channels f -> (2 ^ 31 <= wf_rate s)%Z ->
  cli_program lanes fs [prog; sp; fp; op] = UB.
Proof.
  intros lanes fs prog sp fp op s f Es Ef Cs Cf Hc Hr. unfold cli_program.
  rewrite (load_complete _ _ _ Es Cs), (load_complete _ _ _ Ef Cf). cbn [ab_channels].
  rewrite <- Hc, Nat.eqb_refl. cbn [negb]. unfold rate_to_int at 1.
  replace (wf_rate s <? 2 ^ 31)%Z with false by (symmetry; apply Z.ltb_ge; lia). rewrite andb_false_r. reflexivity.
Qed.

(** Writing a buffer and reading it back. *)
Lemma wav_round_trip : forall fs b rate p, 0 < ab_channels b -> (Z.of_nat (ab_channels b) < 2 ^ 16)%Z -> (0 <= rate < 2 ^ 32)%Z ->
  length (ab_data b) = ab_channels b * ab_frames b -> f_writable fs p = true ->
  exists F, write_wav_file fs b rate p = Ok [(p, F)] /\ complete_wav F /\
    forall fs', f_content fs' p = Some F -> load_wav_file fs' p = (b, rate).
Proof.
  intros fs b rate p H0 H1 Hr HL W. eexists. split; [apply write_ok; auto|]. split.
  - unfold complete_wav. simpl. auto.
  - intros fs' E. rewrite (load_complete _ _ _ E). { simpl. destruct b. auto. } unfold complete_wav. simpl. auto.
Qed.

(** Rows and data of a buffer. *)
Lemma rows_round_trip : forall channels frames rows, 0 < channels -> matrix_of channels frames rows ->
  buffer_rows (rows_buffer channels frames rows) = rows.
Proof.
  intros channels frames rows H0 [HL HR]. unfold buffer_rows, rows_buffer. simpl.
  apply (list_eq_nth _ []). { rewrite tab_length. auto. } intros ch Hch. rewrite tab_length in Hch. rewrite nth_tab by auto.
  apply (list_eq_nth _ 0%R). { rewrite tab_length. symmetry. apply HR. apply nth_In. lia. } intros n Hn. rewrite tab_length in Hn.
  rewrite nth_tab by auto. rewrite nth_tab by nia.
  rewrite Nat.div_add, Nat.mod_add by lia. rewrite Nat.div_small, Nat.mod_small by lia. auto.
Qed.
