(** Property theorems C76: the benchmark tab of the plugin's editor, its background jobs and the
    message loop, under every schedule.  Specification: Spec/Benchmark.v, lconv (Spec/Convolution.v),
    is_peak (Spec/Statistics.v). *)
From Coq Require Import Reals List Arith Bool ZArith Lia Lra.
From Verif Require Import Base.Outcome Base.OutcomeFacts Base.Sums Base.Cplx Spec.Stft Spec.Convolution Spec.Statistics Spec.Plugin Spec.Benchmark.
From Verif Require Import Model.Fft2 Model.Integers Model.Statistics Model.Stft Model.Convolution Model.ConstantOverlapAdd Model.PluginConvolution Model.BenchmarkTab.
From Verif Require Import Proof.StatisticsProof Proof.CliProof Proof.FramerProof Proof.BenchmarkProof Proof.BenchmarkEngines Props.StatisticsProps Props.OfflineProps.
Import ListNotations.
Local Arguments Nat.pow : simpl never.
Local Open Scope nat_scope.

Section C76.
Variable resampler : audio -> R -> audio.
Variable lanes : option nat.
Variable juce : option audio -> audio -> R -> list (list R).
Variable memory : nat -> nat -> list (list R).
Notation run := (run_events resampler lanes juce memory).
Notation works := (succeeds resampler lanes juce memory).
Notation output := (output_of resampler lanes juce memory).

(** C76.  However clicks on Render, changes of the selection, turns of the background thread and
    deliveries of its callbacks are interleaved: nothing goes wrong, the files written are the first
    ones of the files all requested jobs write one after the other, the lines shown and the ones
    still to be delivered are the first ones of theirs, and nothing is missing once the pool is idle. *)
Theorem C76_renders : forall t0 evs out err,
  let m := t_members t0 in
  let jobs := requested (m_engine m) evs in
  idle t0 -> t_inbox t0 = [] -> 0 < a_channels (m_signal m) -> 0 < a_samples (m_signal m) ->
  Forall harmless evs -> (forall e, In e jobs -> works m out err e) ->
  exists t later_files later_lines, run evs (Tab t0) = Ok (Tab t) /\
    t_files t0 ++ files_of out (sampleRate (m_spec m)) jobs = t_files t ++ later_files /\
    t_text t0 ++ lines_of err jobs = t_text t ++ callback_lines (t_inbox t) ++ later_lines /\
    t_members t = choose m (last_selection (m_engine m) evs) /\
    (idle t -> later_files = [] /\ later_lines = []).
Proof.
  intros t0 evs out err m jobs Hi Hb Hc Hn Hh Hok.
  destruct (session_ok resampler lanes juce memory m out err (t_text t0) (t_files t0) evs (m_engine m) [] t0 Hc Hn) as (t & E & I & _); auto.
  { apply invariant_start; auto. }
  cbn [app] in I. pose proof I as (p & f & Hp & Hm & Ht & Hf). exists t, f, (callback_lines p). repeat split; auto; intros.
  - destruct H as [H1 H2]. rewrite H1, H2 in Hp. cbn in Hp. injection Hp as <- <-. reflexivity.
  - destruct H as [H1 H2]. rewrite H1, H2 in Hp. cbn in Hp. injection Hp as <- <-. reflexivity.
Qed.

(** C76.  From any such point on, the pool becomes idle after finitely many turns, and the text is
    complete after finitely many deliveries, whatever else is interleaved (except more renders). *)
Theorem C76_finishes : forall t0 evs out err,
  let m := t_members t0 in
  let jobs := requested (m_engine m) evs in
  idle t0 -> t_inbox t0 = [] -> 0 < a_channels (m_signal m) -> 0 < a_samples (m_signal m) ->
  Forall harmless evs -> (forall e, In e jobs -> works m out err e) ->
  exists turns, forall more, Forall harmless more -> ~ In Render more -> turns <= pool_turns more ->
    exists t, run (evs ++ more) (Tab t0) = Ok (Tab t) /\ idle t /\ t_files t = t_files t0 ++ files_of out (sampleRate (m_spec m)) jobs /\
    exists callbacks, forall rest, Forall (fun ev => ev = Deliver) rest -> callbacks <= length rest ->
      exists t', run (evs ++ more ++ rest) (Tab t0) = Ok (Tab t') /\ t_inbox t' = [] /\ t_text t' = t_text t0 ++ lines_of err jobs /\ t_files t' = t_files t.
Proof.
  intros t0 evs out err m jobs Hi Hb Hc Hn Hh Hok.
  assert (App : forall a b w, run (a ++ b) w = bind (run a w) (run b)).
  { induction a as [|ev a IH]; intros b w; [reflexivity|]. cbn [app run_events]. destruct (step resampler lanes juce memory ev w); try reflexivity. cbn [bind]. apply IH. }
  assert (NoReq : forall evs sel, ~ In Render evs -> requested sel evs = []).
  { induction evs0 as [|ev evs0 IH]; intros sel H; [reflexivity|]. destruct ev; cbn [requested]; try (apply IH; intros G; apply H; right; exact G). exfalso. apply H. left. reflexivity. }
  destruct (session_ok resampler lanes juce memory m out err (t_text t0) (t_files t0) evs (m_engine m) [] t0 Hc Hn) as (t1 & E1 & I1 & _); auto.
  { apply invariant_start; auto. }
  cbn [app] in I1. fold jobs in I1. exists (left t1). intros more Hm Hr Hl.
  destruct (session_ok resampler lanes juce memory m out err (t_text t0) (t_files t0) more _ _ t1 Hc Hn I1 Hm) as (t2 & E2 & I2 & L2).
  { rewrite NoReq by auto. intros e []. }
  rewrite NoReq in I2, L2 by auto. rewrite app_nil_r in I2. destruct (L2 eq_refl) as [L _]. assert (Hid : idle t2) by (apply left_idle; lia).
  pose proof (inv_idle resampler lanes juce memory _ _ _ _ _ _ _ _ Hid I2) as [Ht2 Hf2]. exists t2. rewrite App, E1. cbn [bind]. rewrite E2. repeat split; try apply Hid; auto.
  exists (length (t_inbox t2)). intros rest Hrest Hlen.
  assert (Hh3 : Forall harmless rest) by (eapply Forall_impl; [|exact Hrest]; intros ev ->; exact I).
  assert (Hn3 : ~ In Render rest) by (intros G; rewrite Forall_forall in Hrest; discriminate (Hrest _ G)).
  assert (Hp3 : pool_turns rest = 0 /\ deliveries rest = length rest).
  { clear -Hrest. unfold pool_turns, deliveries. induction Hrest as [|ev rest -> _ [IH1 IH2]]; [auto|]. cbn [filter length]. split; auto. }
  destruct (session_ok resampler lanes juce memory m out err (t_text t0) (t_files t0) rest _ _ t2 Hc Hn I2 Hh3) as (t3 & E3 & I3 & L3).
  { rewrite NoReq by auto. intros e []. }
  rewrite NoReq in I3, L3 by auto. rewrite app_nil_r in I3. destruct (L3 eq_refl) as [L4 L5]. destruct Hp3 as [Hp3 Hd3]. specialize (L5 Hp3).
  assert (Hid3 : idle t3). { apply left_idle. destruct Hid as [G1 G2]. unfold left in L4 at 2. rewrite G1, G2 in L4. cbn in L4. exact L4. }
  pose proof (inv_idle resampler lanes juce memory _ _ _ _ _ _ _ _ Hid3 I3) as [Ht3 Hf3].
  assert (Hin3 : t_inbox t3 = []) by (destruct (t_inbox t3); [reflexivity|cbn in L5; lia]).
  exists t3. rewrite App, E1. cbn [bind]. rewrite App, E2. cbn [bind]. rewrite E3. rewrite Hin3 in Ht3. cbn in Ht3. rewrite app_nil_r in Ht3. repeat split; auto. rewrite <- Hf3, <- Hf2. reflexivity.
Qed.

(** C76.  Jobs run in the order of the list of engines, whatever order they were selected in, and
    each once per render. *)
Theorem C76_order : forall es es' evs, (forall e, In e es <-> In e es') -> requested es (Render :: evs) = requested es [Render] ++ requested es evs /\
  requested es [Render] = requested es' [Render] /\ NoDup (requested es [Render]) /\ forall e, In e (requested es [Render]) <-> In e es.
Proof.
  intros es es' evs H. cbn [requested]. rewrite !app_nil_r. split; [reflexivity|].
  assert (Ef : forall e, (if in_dec engine_eq_dec e es then true else false) = (if in_dec engine_eq_dec e es' then true else false)).
  { intros e. destruct (in_dec engine_eq_dec e es) as [G|G], (in_dec engine_eq_dec e es') as [G'|G']; auto; exfalso; [apply G', (proj1 (H e)), G|apply G, (proj2 (H e)), G']. }
  split; [apply filter_ext; auto|]. split.
  - apply NoDup_filter. unfold engines. repeat constructor; cbn; intuition discriminate.
  - intros e. rewrite filter_In. destruct (in_dec engine_eq_dec e es) as [G|G]; split; intros K; auto; try tauto; [|destruct K; discriminate].
    split; auto. unfold engines. destruct e; cbn; tauto.
Qed.

(** C76.  While the pool is idle the data can be changed: a new signal or settings give the tab
    with that signal or these settings; a response or a sample rate do so if the pictures can be
    drawn (C77). *)
Theorem C76_edit_when_idle : forall t, idle t ->
  let m := t_members t in
  (forall a, (0 < sampleRate (m_spec m))%R -> run [LoadSignal a] (Tab t) =
     Ok (Tab (set_members t (Members (m_spec m) (Some a) (m_impulseFile m) (resample resampler a (sampleRate (m_spec m))) (m_impulse m) (m_binsToKeep m) (m_dynamicRange m) (m_weighted m) (m_engine m) (m_stftSize m))))) /\
  (forall n, run [SetBins n] (Tab t) =
     Ok (Tab (set_members t (Members (m_spec m) (m_signalFile m) (m_impulseFile m) (m_signal m) (m_impulse m) n (m_dynamicRange m) (m_weighted m) (m_engine m) (m_stftSize m))))) /\
  (forall n, run [SetStft n] (Tab t) =
     Ok (Tab (set_members t (Members (m_spec m) (m_signalFile m) (m_impulseFile m) (m_signal m) (m_impulse m) (m_binsToKeep m) (m_dynamicRange m) (m_weighted m) (m_engine m) n)))) /\
  (forall a p, let h := resample resampler a (sampleRate (m_spec m)) in
     updateImages h (m_weighted m) (sampleRate (m_spec m)) (m_dynamicRange m) = Ok p -> run [LoadImpulse a] (Tab t) =
     Ok (Tab (set_text (set_members t (Members (m_spec m) (m_signalFile m) (Some a) (m_signal m) h (m_binsToKeep m) (m_dynamicRange m) (m_weighted m) (m_engine m) (m_stftSize m)))
        [FileName; Percentage p]))) /\
  (forall r p, m_impulseFile m <> None -> updateImages (m_impulse m) (m_weighted m) (sampleRate (m_spec m)) r = Ok p -> run [SetRange r] (Tab t) =
     Ok (Tab (set_text (set_members t (Members (m_spec m) (m_signalFile m) (m_impulseFile m) (m_signal m) (m_impulse m) (m_binsToKeep m) r (m_weighted m) (m_engine m) (m_stftSize m)))
        (t_text t ++ [Percentage p])))) /\
  (forall spec a b p, m_signalFile m = Some a -> m_impulseFile m = Some b -> (0 < sampleRate spec)%R ->
     let h := resample resampler b (sampleRate spec) in
     updateImages h (m_weighted m) (sampleRate spec) (m_dynamicRange m) = Ok p -> run [Prepare spec] (Tab t) =
     Ok (Tab (set_text (set_members t (Members spec (Some a) (Some b) (resample resampler a (sampleRate spec)) h (m_binsToKeep m) (m_dynamicRange m) (m_weighted m) (m_engine m) (m_stftSize m)))
        [FileName; Percentage p]))).
Proof.
  intros [m q job inbox text files] (H1 & H2). cbn [t_job t_queue t_members] in *. subst. split; [|split; [|split; [|split; [|split]]]].
  - intros a Hr. cbn [run_events step]. unfold loadSignalFile. cbn [t_members]. destruct (Rle_dec _ 0); [lra|]. reflexivity.
  - intros n. reflexivity.
  - intros n. reflexivity.
  - intros a p E. cbn [run_events step]. unfold setImpulseResponseFile, redraw. cbn [t_members t_job free_of_race guard bind set_members set_text m_impulseFile m_impulse m_weighted m_spec m_dynamicRange]. rewrite E. reflexivity.
  - intros r p Hf E. cbn [run_events step]. unfold set_setting, redraw. cbn [t_members t_job free_of_race guard bind set_members set_text m_impulseFile m_impulse m_weighted m_spec m_dynamicRange].
    destruct (m_impulseFile m); [|congruence]. rewrite E. reflexivity.
  - intros spec a b p Ea Eb Hr E. cbn [run_events step]. unfold processSpecChanged. cbn [t_members t_job free_of_race guard bind set_members]. rewrite Ea, Eb. unfold loadSignalFile.
    cbn -[updateImages resample Rle_dec]. destruct (Rle_dec (sampleRate spec) 0); [lra|]. cbn -[updateImages resample]. cbv zeta in E. rewrite E. reflexivity.
Qed.

(** C76, refuted: a new response, signal or sample rate while a job convolves is a data race, for
    every engine that convolves; so is a change of the setting an engine reads. *)
Theorem C76_edit_while_rendering_refuted : forall t e q a,
  let m := t_members t in
  idle t -> 0 < a_channels (m_signal m) -> 0 < a_samples (m_signal m) -> requested (m_engine m) [Render] = e :: q -> e <> ETests ->
  run [Render; Pool; LoadImpulse a] (Tab t) = UB /\
  ((0 < sampleRate (m_spec m))%R -> run [Render; Pool; LoadSignal a] (Tab t) = UB) /\
  (forall spec b, m_signalFile m = Some b -> (0 < sampleRate spec)%R -> run [Render; Pool; Prepare spec] (Tab t) = UB) /\
  (e = ESparse -> forall r n, run [Render; Pool; SetRange r] (Tab t) = UB /\ run [Render; Pool; SetBins n] (Tab t) = UB).
Proof.
  intros [m q0 job inbox text files] e q a m' (H1 & H2) Hc Hn Ej Ne. subst m'. cbn [t_job t_queue t_members] in *. subst.
  set (t2 := TabState m q (Some (e, job_program e, no_locals)) inbox text files).
  assert (E2 : forall evs, run (Render :: Pool :: evs) (Tab (TabState m [] None inbox text files)) = run evs (Tab t2)).
  { intros evs. cbn [run_events step bind]. unfold runBenchmarks. cbn [t_members].
    rewrite (proj2 (Nat.eqb_neq _ 0)) by lia. rewrite (proj2 (Nat.eqb_neq (a_samples _) 0)) by lia. cbn [orb]. unfold pool_step. cbn [t_job set_queue t_queue app].
    cbn [requested] in Ej. rewrite app_nil_r in Ej. unfold jobs, hasEngineEnabled. rewrite Ej. reflexivity. }
  assert (Hp : exists rest, job_program e = Convolve :: rest) by (destruct e; try congruence; eexists; reflexivity).
  destruct Hp as (rest & Hp). unfold t2 in *. rewrite Hp in E2. clear t2 Hp. rewrite !E2. split; [|split; [|split]].
  - cbn [run_events step]. unfold setImpulseResponseFile, free_of_race. cbn [t_job t_members]. destruct e; try congruence; reflexivity.
  - intros Hr. cbn [run_events step]. unfold loadSignalFile, free_of_race. cbn [t_job t_members]. destruct (Rle_dec _ 0); [lra|]. destruct e; try congruence; reflexivity.
  - intros spec b Eb Hr. rewrite E2. cbn [run_events step]. unfold processSpecChanged, free_of_race. cbn [t_job t_members]. rewrite Eb. unfold loadSignalFile, free_of_race.
    cbn [set_members t_members m_spec t_job]. destruct (Rle_dec _ 0); [lra|]. destruct e; try congruence; reflexivity.
  - intros -> r n. rewrite !E2. cbn [run_events step]. unfold set_setting, free_of_race. cbn [t_job]. split; reflexivity.
Qed.

(** C76, refuted: a job does not use the data of the moment Render was clicked.  A signal loaded
    before the background thread takes the job is the one that is rendered. *)
Theorem C76_snapshot_refuted : forall t a evs,
  let m := t_members t in
  let s := resample resampler a (sampleRate (m_spec m)) in
  t_job t = None -> (0 < sampleRate (m_spec m))%R -> 0 < a_channels (m_signal m) -> 0 < a_samples (m_signal m) -> 0 < a_channels s -> 0 < a_samples s ->
  run (Render :: LoadSignal a :: evs) (Tab t) = run (LoadSignal a :: Render :: evs) (Tab t).
Proof.
  intros [m q job inbox text files] a evs m' s H1 Hr Hc Hn Hc' Hn'. subst m' s. cbn [t_job t_members] in *. subst.
  set (m' := Members (m_spec m) (Some a) (m_impulseFile m) (resample resampler a (sampleRate (m_spec m))) (m_impulse m) (m_binsToKeep m) (m_dynamicRange m) (m_weighted m) (m_engine m) (m_stftSize m)).
  assert (LS : forall q, loadSignalFile resampler a (TabState m q None inbox text files) = Ok (TabState m' q None inbox text files)).
  { intros q0. unfold loadSignalFile. cbn [t_members]. destruct (Rle_dec (sampleRate (m_spec m)) 0); [lra|]. reflexivity. }
  assert (RB : forall m q, 0 < a_channels (m_signal m) -> 0 < a_samples (m_signal m) -> runBenchmarks (TabState m q None inbox text files) = TabState m (q ++ jobs m) None inbox text files).
  { intros m0 q0 G1 G2. unfold runBenchmarks. cbn [t_members]. rewrite (proj2 (Nat.eqb_neq _ 0)) by lia. rewrite (proj2 (Nat.eqb_neq (a_samples _) 0)) by lia. reflexivity. }
  cbn [run_events step bind]. rewrite RB, !LS by auto. cbn [bind step]. rewrite ?LS. cbn [bind]. rewrite RB by auto. reflexivity.
Qed.

(** C76.  Closing a tab that is idle, or whose jobs have not begun, without callbacks on their
    way is safe: nothing more is written and nothing that happens later matters. *)
Theorem C76_close : forall t in_time evs, t_job t = None -> t_inbox t = [] -> run (Close in_time :: evs) (Tab t) = Ok (Gone [] (t_files t)).
Proof.
  intros t b evs H1 H2. cbn [run_events step]. unfold destroy. rewrite H1. cbn [bind]. rewrite H2.
  induction evs as [|ev evs IH]; [reflexivity|]. cbn [run_events]. replace (step resampler lanes juce memory ev (Gone [] (t_files t))) with (Ok (Gone [] (t_files t))) by (destruct ev; reflexivity). exact IH.
Qed.

(** C76, refuted: closing the editor while a job runs.  The destructor waits for the job, whose
    callback then runs on the destroyed tab; a job that does not end in time is killed. *)
Theorem C76_close_while_rendering_refuted : forall t e q out err,
  let m := t_members t in
  idle t -> t_inbox t = [] -> 0 < a_channels (m_signal m) -> 0 < a_samples (m_signal m) -> requested (m_engine m) [Render] = e :: q -> e <> ETests ->
  works m out err e ->
  (exists inbox, run [Render; Pool; Close true] (Tab t) = Ok (Gone inbox (t_files t ++ files_of out (sampleRate (m_spec m)) [e])) /\ inbox <> []) /\
  run [Render; Pool; Close true; Deliver] (Tab t) = UB /\ run [Render; Pool; Close false] (Tab t) = UB.
Proof.
  intros [m q0 job inbox text files] e q out err m' (H1 & H2) H3 Hc Hn Ej Ne Hw. subst m'. cbn [t_job t_queue t_members t_inbox t_files] in *. subst.
  set (t2 := TabState m q (Some (e, job_program e, no_locals)) [] text files).
  assert (E2 : forall evs, run (Render :: Pool :: evs) (Tab (TabState m [] None [] text files)) = run evs (Tab t2)).
  { intros evs. cbn [run_events step bind]. unfold runBenchmarks. cbn [t_members].
    rewrite (proj2 (Nat.eqb_neq _ 0)) by lia. rewrite (proj2 (Nat.eqb_neq (a_samples _) 0)) by lia. cbn [orb]. unfold pool_step. cbn [t_job set_queue t_queue app].
    cbn [requested] in Ej. rewrite app_nil_r in Ej. unfold BenchmarkTab.jobs, hasEngineEnabled. rewrite Ej. reflexivity. }
  rewrite !E2.
  assert (Hpend : pending resampler lanes juce memory (Some (e, job_program e, no_locals)) [] m = Ok (job_posts err e, files_of out (sampleRate (m_spec m)) [e])).
  { unfold pending. rewrite (work_job _ _ _ _ e m out err Hw). cbn [bind work_queue]. rewrite !app_nil_r. reflexivity. }
  destruct (psteps_ok resampler lanes juce memory (length (job_program e)) (set_queue t2 []) _ _ Hpend) as (t3 & p1 & p2 & f1 & f2 & E3 & Ep & Ef & Hp3 & Hin & Hfi & Hl).
  assert (Hleft : left t3 = 1). { rewrite Hl. unfold left, t2. cbn [set_queue t_job t_queue map]. cbn [list_sum fold_right]. lia. }
  assert (Hdone : p2 = [] /\ f2 = []).
  { unfold left in Hleft. unfold pending in Hp3. destruct (t_job t3) as [[[e3 ops3] l3]|].
    - destruct (t_queue t3) as [|e4 q4]; [|unfold job_steps, list_sum in Hleft; cbn [map fold_right] in Hleft; lia]. cbn [map list_sum fold_right] in Hleft.
      destruct ops3; [|cbn [length] in Hleft; lia]. cbn in Hp3. injection Hp3 as <- <-. auto.
    - destruct (t_queue t3) as [|e4 q4]; [cbn in Hleft; lia|]. unfold job_steps, list_sum in Hleft. cbn [map fold_right] in Hleft. lia. }
  destruct Hdone as [-> ->]. rewrite app_nil_r in Ep, Ef.
  assert (Ec : step resampler lanes juce memory (Close true) (Tab t2) = Ok (Gone (job_posts err e) (files ++ files_of out (sampleRate (m_spec m)) [e]))).
  { cbn [step]. unfold destroy, t2. cbn [t_job guard bind]. change (set_queue _ []) with (set_queue t2 []). rewrite E3. cbn [bind]. rewrite Hin, Hfi, <- Ep, <- Ef. reflexivity. }
  assert (Np : job_posts err e <> []) by (destruct e; try congruence; discriminate).
  split; [|split].
  - exists (job_posts err e). cbn [run_events]. rewrite Ec. auto.
  - cbn [run_events]. rewrite Ec. cbn [bind step]. destruct (job_posts err e); [congruence|reflexivity].
  - reflexivity.
Qed.

(** The engines built on dense_convolve(). *)
Definition dense_engines : list engine := [EUpols; EUpola; EUpolaV2; ESplitUpola; ESplitUpols].

(** C76.  The five partitioned engines write the same file: the signal convolved with the
    response, channel by channel, cut to the length of the signal and scaled to a peak of 1. *)
Theorem C76_dense_files : forall m, let s := m_signal m in let h := m_impulse m in
  match lanes with Some l => 0 < l | None => True end -> (forall channels n, matrix_of channels n (memory channels n)) ->
  offline_fits 12 (a_channels s) (a_samples s) (a_channels h) (a_samples h) ->
  matrix_of (a_channels s) (a_samples s) (a_data s) -> matrix_of (a_channels h) (a_samples h) (a_data h) ->
  (a_channels s <= a_channels h -> exists gain, (0 < gain)%R /\
     let file := tab (a_channels s) (fun ch => tab (a_samples s) (fun n => lconv (nth ch (a_data s) []) (nth ch (a_data h) []) n * gain)%R) in
     ((exists v, In v (concat file) /\ v <> 0%R) -> is_peak (concat file) 1) /\
     forall e, In e dense_engines -> output m e file) /\
  (a_channels h < a_channels s -> forall e, In e dense_engines -> convolve resampler lanes juce memory e m = UB).
Proof.
  intros m s h Hl Hmem Hfit Hs Hh.
  assert (Hconv : forall e, In e dense_engines -> exists c, offline_valid c /\
    convolve resampler lanes juce memory e m = offline_dense c (a_channels s) (a_samples s) (a_data s) (a_channels h) (a_samples h) (a_data h) (2 ^ 12) (memory (a_channels s) (a_samples s))).
  { intros e [<-|[<-|[<-|[<-|[<-|[]]]]]]; [exists OffUpols|exists OffUpola|exists OffUpolaV2|exists (OffSplitUpola lanes)|exists (OffSplitUpols lanes)]; (split; [try exact I; exact Hl|reflexivity]). }
  split.
  - intros Hle. destruct (C59_dense OffUpols 12 _ _ _ _ _ _ (memory (a_channels s) (a_samples s)) I Hfit Hs Hh (Hmem _ _) Hle) as (a & Ha & _).
    set (raw := convolved_by a (a_channels s) (a_samples s) (a_data s) (a_data h)).
    assert (Hraw : forall e, In e dense_engines -> convolve resampler lanes juce memory e m = Ok raw).
    { intros e He. destruct (Hconv e He) as (c & Hc & ->). destruct (C59_dense c 12 _ _ _ _ _ _ (memory (a_channels s) (a_samples s)) Hc Hfit Hs Hh (Hmem _ _) Hle) as (b & Hb & ->).
      f_equal. unfold raw. destruct Ha as (_ & Ea & _), Hb as (_ & Eb & _). rewrite Ea in Eb. injection Eb as Eb.
      rewrite <- !convolved_scaled. rewrite Eb. reflexivity. }
    assert (Hw : well_formed (Mat (a_channels s) (a_samples s) raw)).
    { apply matrix_intro; [apply tab_length|]. intros i Hi. unfold raw, convolved_by. rewrite nth_tab by auto. apply tab_length. }
    destruct (C17_normalize_peak _ Hw) as (c & Hc & En & Hp & _).
    exists (a * c)%R. split; [apply Rmult_lt_0_compat; [apply Ha|exact Hc]|]. intros file.
    assert (Ef : map (map (fun v => v * c)%R) raw = file).
    { unfold raw, convolved_by, file. unfold tab at 1. rewrite map_map. apply map_ext. intros ch. unfold tab. rewrite map_map. apply map_ext. intros n. ring. }
    cbn [obj_map entries] in Hp, En. rewrite Ef in Hp, En. split.
    + intros (v & Hv & Nv). apply Hp. rewrite <- Ef, <- concat_map, in_map_iff in Hv. destruct Hv as (x & <- & Hx). exists x. split; auto. intros ->. apply Nv. ring.
    + intros e He. exists raw. split; [apply Hraw; auto|]. unfold normalised_peak. fold s. rewrite En. reflexivity.
  - intros Hlt e He. destruct (Hconv e He) as (c & Hc & ->). apply C59_dense_missing_channels; auto.
Qed.

(** C76, refuted for DenseConvolution: the job does not reset() the processor it prepared, and
    the first samples are what its buffer happened to contain.  For a signal shorter than a frame
    all samples are: the file does not depend on the signal. *)
Theorem C76_dense_convolution_refuted : forall m a, m_impulseFile m = Some a -> (forall channels n, matrix_of channels n (memory channels n)) ->
  let s := m_signal m in let N := maximumBlockSize (m_spec m) in let F := frame_size N in let r := resample resampler a (sampleRate (m_spec m)) in
  block_size_ok N -> 0 < a_channels s -> matrix_of (a_channels s) (a_samples s) (a_data s) -> 0 < a_samples s <= N -> a_samples s < F ->
  response_fits F r -> a_channels s <= a_channels r ->
  convolve resampler lanes juce memory EDense m = Ok (map (firstn (a_samples s)) (memory (a_channels s) (output_samples F F N))).
Proof. intros m a Ea Hmem s N F r HB Hc Hs Hn HF Hr Hle. exact (dense_engine_short resampler memory Hmem m a Ea HB Hc Hs Hn HF Hr Hle). Qed.
End C76.

(** A tab with a signal of three samples and a response of two, both at 44100 Hz, and two engines
    selected; new buffers contain sevens. *)
Definition some_signal : audio := Audio 1 3 44100%R [[2; 0; 0]]%R.
Definition some_response : audio := Audio 1 2 44100%R [[3; -4]]%R.
Definition some_tab : tab_state :=
  TabState (Members (ProcessSpec 44100 512 2) (Some some_signal) (Some some_response) some_signal some_response 10 90 true [EUpolaV2; EUpols] 512) [] None [] [FileName] [].
Definition sevens (channels n : nat) : list (list R) := repeat (repeat 7%R n) channels.

(** The schedule of the example, for any members from which both engines compute [l]. *)
Lemma some_schedule : forall resampler juce m l,
  compute resampler None juce sevens EUpols Convolve m no_locals = Ok l -> compute resampler None juce sevens EUpolaV2 Convolve m no_locals = Ok l ->
  (forall e o, o = PostTime \/ o = WriteFile -> compute resampler None juce sevens e o m l = Ok l) ->
  runBenchmarks (TabState m [] None [] [FileName] []) = TabState m [EUpols; EUpolaV2] None [] [FileName] [] ->
  run_events resampler None juce sevens [Render; Pool; Pool; Deliver; Pool; Deliver; Pool; Pool; Pool; Pool; Pool] (Tab (TabState m [] None [] [FileName] []))
  = Ok (Tab (TabState m [] (Some (EUpolaV2, [WriteFile], l)) [Some (Elapsed EUpolaV2)] [FileName; Elapsed EUpols] [(EUpols, l_output l, sampleRate (m_spec m))])).
Proof.
  intros resampler juce m l S1 S2 S3 S4.
  assert (run : forall e es w w' r, step resampler None juce sevens e w = Ok w' -> run_events resampler None juce sevens es w' = r -> run_events resampler None juce sevens (e :: es) w = r)
    by (intros e es w w' r H1 H2; cbn [run_events]; rewrite H1; exact H2).
  assert (op : forall e o rest l0 l1 q inbox text files, compute resampler None juce sevens e o m l0 = Ok l1 ->
    step resampler None juce sevens Pool (Tab (TabState m q (Some (e, o :: rest, l0)) inbox text files))
    = Ok (Tab (TabState m q (Some (e, rest, l1)) (match posts e o l1 with Some c => inbox ++ [c] | None => inbox end) text
        (match o with WriteFile => files ++ [(e, l_output l1, sampleRate (m_spec m))] | _ => files end)))).
  { intros e o rest l0 l1 q inbox text files H. cbn [step]. unfold pool_step, perform. cbn [t_job t_members]. rewrite H. cbn [bind]. destruct (posts e o l1), o; reflexivity. }
  eapply run; [cbn [step]; rewrite S4; reflexivity|].
  eapply run; [reflexivity|]. eapply run; [exact (op _ _ _ _ _ _ _ _ _ S1)|]. cbn [posts app].
  eapply run; [reflexivity|]. eapply run; [exact (op _ _ _ _ _ _ _ _ _ (S3 EUpols PostTime (or_introl eq_refl)))|]. cbn [posts app].
  eapply run; [reflexivity|]. eapply run; [exact (op _ _ _ _ _ _ _ _ _ (S3 EUpols WriteFile (or_intror eq_refl)))|]. cbn [posts app].
  eapply run; [reflexivity|]. eapply run; [reflexivity|]. eapply run; [exact (op _ _ _ _ _ _ _ _ _ S2)|]. cbn [posts app].
  eapply run; [exact (op _ _ _ _ _ _ _ _ _ (S3 EUpolaV2 PostTime (or_introl eq_refl)))|]. reflexivity.
Qed.

Example C76_instance : forall resampler juce,
  let out := fun _ : engine => [[3 / 4; -1; 0]]%R in
  (forall e, In e [EUpolaV2; EUpols] -> succeeds resampler None juce sevens (t_members some_tab) out (fun _ => 0%R) e) /\
  requested [EUpolaV2; EUpols] [Render; Deliver; Pool; Select [EUpola]; Render] = [EUpols; EUpolaV2; EUpola] /\
  exists t, run_events resampler None juce sevens [Render; Pool; Pool; Deliver; Pool; Deliver; Pool; Pool; Pool; Pool; Pool] (Tab some_tab) = Ok (Tab t) /\
    t_files t = [(EUpols, [[3 / 4; -1; 0]]%R, 44100%R)] /\ t_text t = [FileName; Elapsed EUpols] /\ t_inbox t = [Some (Elapsed EUpolaV2)].
Proof.
  intros resampler juce out.
  assert (Hok : forall e, In e [EUpolaV2; EUpols] -> succeeds resampler None juce sevens (t_members some_tab) out (fun _ => 0%R) e).
  { destruct (C76_dense_files resampler None juce sevens (t_members some_tab)) as [A _].
    - exact I.
    - intros channels n. split; [apply repeat_length|]. intros row H. apply repeat_spec in H. subst. apply repeat_length.
    - cbn [t_members some_tab m_signal m_impulse some_signal some_response a_channels a_samples]. unfold offline_fits, max_order. repeat split; try lia; vm_compute; auto; discriminate.
    - split; [reflexivity|]. intros row [<-|[]]. reflexivity.
    - split; [reflexivity|]. intros row [<-|[]]. reflexivity.
    - destruct A as (g & Hg & Hp & Ho); [cbn; lia|].
      assert (Ef : tab 1 (fun ch => tab 3 (fun n => lconv (nth ch [[2; 0; 0]] []) (nth ch [[3; -4]] []) n * g))%R = [[6 * g; -8 * g; 0]]%R).
      { unfold tab. cbn [map seq nth]. unfold lconv, Rsum. cbn [bsum Nat.sub nth]. repeat f_equal; ring. }
      cbn [t_members some_tab m_signal m_impulse some_signal some_response a_channels a_samples a_data] in Hp, Ho. rewrite Ef in Hp, Ho.
      assert (Hg8 : (g = 1 / 8)%R).
      { destruct Hp as [H1 (v & Hv & E1)]. { exists (6 * g)%R. split; [left; reflexivity|]. lra. }
        assert (G : (Rabs (-8 * g) <= 1)%R) by (apply H1; right; left; reflexivity). rewrite Rabs_left in G by lra.
        destruct Hv as [<-|[<-|[<-|[]]]]; [rewrite Rabs_right in E1 by lra|rewrite Rabs_left in E1 by lra|rewrite Rabs_R0 in E1]; lra. }
      subst g. replace (6 * (1 / 8))%R with (3 / 4)%R in Ho by lra. replace (-8 * (1 / 8))%R with (-1)%R in Ho by lra.
      intros e [<-|[<-|[]]]; apply Ho; unfold dense_engines; cbn; tauto. }
  split; [exact Hok|]. split; [reflexivity|].
  assert (H0 : forall e, In e [EUpolaV2; EUpols] -> exists raw, convolve resampler None juce sevens e (t_members some_tab) = Ok raw /\ normalised_peak 1 3 raw = Ok [[3 / 4; -1; 0]]%R).
  { intros e He. pose proof (Hok e He) as G. destruct He as [<-|[<-|[]]]; exact G. }
  destruct (H0 EUpols ltac:(cbn; tauto)) as (raw1 & C1 & N1). destruct (H0 EUpolaV2 ltac:(cbn; tauto)) as (raw2 & C2 & N2).
  assert (S1 : compute resampler None juce sevens EUpols Convolve (t_members some_tab) no_locals = Ok (Locals [[3 / 4; -1; 0]]%R [] 512 10 0)).
  { unfold compute. rewrite C1. cbn [bind]. change (a_channels _) with 1. change (a_samples _) with 3. rewrite N1. reflexivity. }
  assert (S2 : compute resampler None juce sevens EUpolaV2 Convolve (t_members some_tab) no_locals = Ok (Locals [[3 / 4; -1; 0]]%R [] 512 10 0)).
  { unfold compute. rewrite C2. cbn [bind]. change (a_channels _) with 1. change (a_samples _) with 3. rewrite N2. reflexivity. }
  set (m := t_members some_tab) in *. set (l := Locals [[3 / 4; -1; 0]]%R [] 512 10 0) in *.
  change (Tab some_tab) with (Tab (TabState m [] None [] [FileName] [])).
  assert (S3 : forall e o, o = PostTime \/ o = WriteFile -> compute resampler None juce sevens e o m l = Ok l) by (intros e o [-> | ->]; reflexivity).
  assert (S4 : runBenchmarks (TabState m [] None [] [FileName] []) = TabState m [EUpols; EUpolaV2] None [] [FileName] []) by reflexivity.
  assert (S5 : sampleRate (m_spec m) = 44100%R) by reflexivity. assert (S6 : l_output l = [[3 / 4; -1; 0]]%R) by reflexivity.
  exists (TabState m [] (Some (EUpolaV2, [WriteFile], l)) [Some (Elapsed EUpolaV2)] [FileName; Elapsed EUpols] [(EUpols, [[3 / 4; -1; 0]]%R, 44100%R)]).
  split; [|repeat split]. clearbody m l. rewrite <- S5, <- S6.
  exact (some_schedule resampler juce m l S1 S2 S3 S4).
Qed.

Print Assumptions C76_renders.
Print Assumptions C76_finishes.
Print Assumptions C76_order.
Print Assumptions C76_edit_when_idle.
Print Assumptions C76_edit_while_rendering_refuted.
Print Assumptions C76_snapshot_refuted.
Print Assumptions C76_close.
Print Assumptions C76_close_while_rendering_refuted.
Print Assumptions C76_dense_files.
Print Assumptions C76_dense_convolution_refuted.
