(** Proofs for C76: the benchmark tab under every schedule. *)
From Coq Require Import Reals List Arith Bool ZArith Lia.
From Verif Require Import Base.Outcome Base.OutcomeFacts Base.Cplx Model.Stft Model.Statistics Model.Convolution Model.PluginConvolution Model.BenchmarkTab Spec.Benchmark.
Import ListNotations.
Local Arguments Nat.pow : simpl never.

Section Proofs.
Variable resampler : audio -> R -> audio.
Variable lanes : option nat.
Variable juce_convolution : option audio -> audio -> R -> list (list R).
Variable memory : nat -> nat -> list (list R).
Notation comp := (compute resampler lanes juce_convolution memory).
Notation stp := (step resampler lanes juce_convolution memory).
Notation run := (run_events resampler lanes juce_convolution memory).
Notation pstep := (pool_step resampler lanes juce_convolution memory).
Notation psteps := (pool_steps resampler lanes juce_convolution memory).
Notation ok := (succeeds resampler lanes juce_convolution memory).

Definition file := (engine * list (list R) * R)%type.
Definition post_list (e : engine) (o : op) (l : locals) : list (option line) := match posts e o l with Some c => [c] | None => [] end.
Definition file_list (e : engine) (o : op) (l : locals) (m : members) : list file := match o with WriteFile => [(e, l_output l, sampleRate (m_spec m))] | _ => [] end.

(** What the rest of a job will post and write. *)
Fixpoint work (e : engine) (ops : list op) (l : locals) (m : members) : outcome (list (option line) * list file) :=
  match ops with
  | [] => Ok ([], [])
  | o :: rest => l <- comp e o m l ;; '(p, f) <- work e rest l m ;; Ok (post_list e o l ++ p, file_list e o l m ++ f)
  end.

Definition job_posts (err : nat -> R) (e : engine) : list (option line) :=
  match e with
  | ETests => []
  | EQuality => None :: map (fun i => Some (Quality i (err i))) (rev (seq 1 180)) ++ [Some QualityDone]
  | _ => [Some (Elapsed e)]
  end.

Lemma work_writer : forall e m out err, ok m out err e -> e <> ETests -> e <> EQuality ->
  work e [Convolve; PostTime; WriteFile] no_locals m = Ok ([Some (Elapsed e)], [(e, out e, sampleRate (m_spec m))]).
Proof.
  intros e m out err H N1 N2. assert (Ho : output_of resampler lanes juce_convolution memory m e (out e)) by (destruct e; try congruence; exact H).
  destruct Ho as (raw & E1 & E2). unfold work, compute at 1. rewrite E1. cbn [bind]. rewrite E2. cbn [bind].
  destruct e; try congruence; reflexivity.
Qed.

Lemma work_compare : forall m D err is l,
  l_spectrogram l = D -> l_size l = m_stftSize m -> l_bins l = m_binsToKeep m ->
  (forall i, In i is -> exists raw sparse S, sparse_run memory (quality_range i) (m_binsToKeep m) m = Ok raw /\
     normalised_peak (a_channels (m_signal m)) (a_samples (m_signal m)) raw = Ok sparse /\
     quality_stft (m_stftSize m) (a_channels (m_signal m)) (a_samples (m_signal m)) sparse = Ok S /\ maxChannelRMSError D S = Ok (err i)) ->
  work EQuality (flat_map (fun i => [Compare i; PostError i]) is ++ [PostDone]) l m = Ok (map (fun i => Some (Quality i (err i))) is ++ [Some QualityDone], []).
Proof.
  intros m D err is. induction is as [|i is IH]; intros l H1 H2 H3 H.
  - reflexivity.
  - destruct (H i (or_introl eq_refl)) as (raw & sp & S & E1 & E2 & E3 & E4).
    change (flat_map (fun i => [Compare i; PostError i]) (i :: is) ++ [PostDone]) with
      (Compare i :: PostError i :: (flat_map (fun i => [Compare i; PostError i]) is ++ [PostDone])).
    cbn [work]. unfold compute at 1. rewrite H1, H2, H3, E1. cbn [bind]. rewrite E2. cbn [bind]. rewrite E3. cbn [bind]. rewrite E4. cbn [bind compute].
    rewrite IH; auto. intros j Hj. apply H. right; auto.
Qed.

Lemma work_job : forall e m out err, ok m out err e -> work e (job_program e) no_locals m = Ok (job_posts err e, files_of out (sampleRate (m_spec m)) [e]).
Proof.
  intros e m out err H. destruct e; try (unfold job_program; rewrite (work_writer _ _ out err H); [reflexivity|discriminate|discriminate]).
  - reflexivity.
  - unfold job_program, job_posts, files_of. cbn [flat_map app]. cbn [succeeds] in H.
    destruct (H 1 ltac:(lia)) as (dense & D & _ & _ & _ & (raw & Er & En) & ED & _).
    assert (Er' : convolve resampler lanes juce_convolution memory EQuality m = Ok raw) by exact Er.
    remember (flat_map (fun i => [Compare i; PostError i]) (rev (seq 1 180)) ++ [PostDone]) as ops eqn:Eops.
    cbn [work]. unfold compute at 1. rewrite Er'. cbn [bind]. rewrite En. cbn [bind]. rewrite ED. cbn [bind compute]. subst ops.
    rewrite (work_compare m D err); try reflexivity.
    intros i Hi. apply in_rev, in_seq in Hi. destruct (H i ltac:(lia)) as (dense' & D' & raw' & sp & S & (r2 & Er2 & En2) & ED' & E1 & E2 & E3 & E4).
    rewrite Er in Er2. injection Er2 as <-. rewrite En in En2. injection En2 as <-. rewrite ED in ED'. injection ED' as <-. eauto 8.
Qed.

(** The choice of engines does not matter to a job. *)
Lemma comp_choose : forall e o m es l, comp e o (choose m es) l = comp e o m l.
Proof. intros. reflexivity. Qed.
Lemma work_choose : forall e ops m es l, work e ops l (choose m es) = work e ops l m.
Proof. induction ops as [|o ops IH]; intros; [reflexivity|]. cbn [work]. rewrite comp_choose. destruct (comp e o m l); try reflexivity. cbn [bind]. rewrite IH. reflexivity. Qed.

Fixpoint work_queue (q : list engine) (m : members) : outcome (list (option line) * list file) :=
  match q with
  | [] => Ok ([], [])
  | e :: q => '(p, f) <- work e (job_program e) no_locals m ;; '(p', f') <- work_queue q m ;; Ok (p ++ p', f ++ f')
  end.
Definition pending (job : option (engine * list op * locals)) (q : list engine) (m : members) : outcome (list (option line) * list file) :=
  match job with
  | None => work_queue q m
  | Some (e, ops, l) => '(p, f) <- work e ops l m ;; '(p', f') <- work_queue q m ;; Ok (p ++ p', f ++ f')
  end.

Lemma queue_choose : forall q m es, work_queue q (choose m es) = work_queue q m.
Proof. induction q as [|e q IH]; intros; [reflexivity|]. cbn [work_queue]. rewrite work_choose, IH. reflexivity. Qed.
Lemma pending_choose : forall job q m es, pending job q (choose m es) = pending job q m.
Proof. intros [[[e ops] l]|] q m es; unfold pending; rewrite ?work_choose, queue_choose; reflexivity. Qed.

Lemma queue_ok : forall m out err q, (forall e, In e q -> ok m out err e) ->
  work_queue q m = Ok (flat_map (job_posts err) q, files_of out (sampleRate (m_spec m)) q).
Proof.
  induction q as [|e q IH]; intros H; [reflexivity|]. cbn [work_queue]. rewrite (work_job e m out err) by (apply H; left; auto). cbn [bind].
  rewrite IH by (intros; apply H; right; auto). cbn [bind flat_map]. f_equal. f_equal. unfold files_of. cbn [flat_map]. rewrite app_nil_r. reflexivity.
Qed.
Lemma queue_app : forall m q q' p f p' f', work_queue q m = Ok (p, f) -> work_queue q' m = Ok (p', f') -> work_queue (q ++ q') m = Ok (p ++ p', f ++ f').
Proof.
  induction q as [|e q IH]; intros q' p f p' f' H H'.
  - injection H as <- <-. exact H'.
  - cbn [work_queue app] in *. destruct (work e (job_program e) no_locals m) as [[p1 f1]| |]; try discriminate. cbn [bind] in *.
    destruct (work_queue q m) as [[p2 f2]| |] eqn:E; try discriminate. cbn [bind] in *. injection H as <- <-.
    rewrite (IH q' p2 f2 p' f' eq_refl H'). cbn [bind]. rewrite !app_assoc. reflexivity.
Qed.
Lemma pending_app : forall m job q q' p f p' f', pending job q m = Ok (p, f) -> work_queue q' m = Ok (p', f') -> pending job (q ++ q') m = Ok (p ++ p', f ++ f').
Proof.
  intros m [[[e ops] l]|] q q' p f p' f' H H'; unfold pending in *; [|apply queue_app; auto].
  destruct (work e ops l m) as [[p1 f1]| |]; try discriminate. cbn [bind] in *.
  destruct (work_queue q m) as [[p2 f2]| |] eqn:E; try discriminate. cbn [bind] in *. injection H as <- <-.
  rewrite (queue_app m q q' p2 f2 p' f' E H'). cbn [bind]. rewrite !app_assoc. reflexivity.
Qed.

Lemma lines_posts : forall err q, callback_lines (flat_map (job_posts err) q) = lines_of err q.
Proof.
  intros err q. induction q as [|e q IH]; [reflexivity|]. unfold lines_of in *. cbn [flat_map]. rewrite <- IH. unfold callback_lines. rewrite flat_map_app. f_equal.
  destruct e; reflexivity.
Qed.

(** Pool steps left. *)
Definition job_steps (e : engine) : nat := length (job_program e) + 2.
Definition left (t : tab_state) : nat :=
  match t_job t with Some (_, ops, _) => length ops + 1 | None => 0 end + list_sum (map job_steps (t_queue t)).

Lemma left_idle : forall t, left t = 0 -> idle t.
Proof.
  intros t H. unfold left in H. unfold idle. destruct (t_job t) as [[[e ops] l]|]; [lia|]. split; [reflexivity|].
  destruct (t_queue t); [reflexivity|]. cbn [map list_sum fold_right] in H. unfold job_steps in H. unfold list_sum in H. cbn [fold_right] in H. lia.
Qed.

(** The pool's thread does what is pending, step by step. *)
Lemma pool_ok : forall t p f, pending (t_job t) (t_queue t) (t_members t) = Ok (p, f) ->
  exists t' p1 p2 f1 f2, pstep t = Ok t' /\ p = p1 ++ p2 /\ f = f1 ++ f2 /\ pending (t_job t') (t_queue t') (t_members t') = Ok (p2, f2) /\
    t_inbox t' = t_inbox t ++ p1 /\ t_files t' = t_files t ++ f1 /\ t_text t' = t_text t /\ t_members t' = t_members t /\ left t' = left t - 1.
Proof.
  intros [m q [[[e ops] l]|] inbox text files] p f H; cbn [t_job t_queue t_members t_inbox t_files t_text] in *.
  - destruct ops as [|o rest].
    + exists (TabState m q None inbox text files), [], p, [], f. unfold pool_step. cbn [t_job t_queue t_members t_inbox t_files t_text set_job].
      rewrite !app_nil_r. cbn [pending work bind] in H. destruct (work_queue q m) as [[p' f']| |] eqn:E; try discriminate. cbn [bind app] in H. injection H as <- <-.
      repeat split; auto. unfold left. cbn [t_job t_queue length]. lia.
    + unfold pending in H. cbn [work] in H. unfold pool_step. cbn [t_job]. unfold perform. cbn [t_members].
      destruct (comp e o m l) as [l'| |]; try discriminate. cbn [bind] in *.
      destruct (work e rest l' m) as [[p2 f2]| |] eqn:Ew; try discriminate. cbn [bind] in *.
      destruct (work_queue q m) as [[p3 f3]| |] eqn:Eq; try discriminate. cbn [bind] in *. injection H as <- <-.
      exists (TabState m q (Some (e, rest, l')) (inbox ++ post_list e o l') text (files ++ file_list e o l' m)), (post_list e o l'), (p2 ++ p3), (file_list e o l' m), (f2 ++ f3).
      split. { unfold post_list, file_list. destruct o; cbn [posts]; cbn [set_job set_inbox add_file t_members t_queue t_job t_inbox t_text t_files]; rewrite ?app_nil_r; reflexivity. }
      split; [symmetry; apply app_assoc|]. split; [symmetry; apply app_assoc|]. cbn [t_job t_queue t_members t_inbox t_files t_text].
      split. { unfold pending. rewrite Ew. cbn [bind]. rewrite Eq. reflexivity. }
      repeat split; auto. unfold left. cbn [t_job t_queue length]. lia.
  - destruct q as [|e q].
    + cbn in H. injection H as <- <-. exists (TabState m [] None inbox text files), [], [], [], []. cbn. rewrite !app_nil_r. repeat split.
    + exists (TabState m q (Some (e, job_program e, no_locals)) inbox text files), [], p, [], f. cbn [t_job t_queue t_members t_inbox t_files t_text]. rewrite !app_nil_r.
      repeat split; auto. unfold left. cbn [t_job t_queue map list_sum fold_right]. unfold list_sum. cbn [fold_right]. unfold job_steps at 2. lia.
Qed.

(** The invariant of a session. *)
Definition invariant (m0 : members) (err : nat -> R) (out : engine -> list (list R)) (text0 : list line) (files0 : list file) (sel J : list engine) (t : tab_state) : Prop :=
  exists p f, pending (t_job t) (t_queue t) m0 = Ok (p, f) /\ t_members t = choose m0 sel /\
    text0 ++ lines_of err J = t_text t ++ callback_lines (t_inbox t) ++ callback_lines p /\
    files0 ++ files_of out (sampleRate (m_spec m0)) J = t_files t ++ f.

Lemma callback_app : forall a b, callback_lines (a ++ b) = callback_lines a ++ callback_lines b.
Proof. intros. apply flat_map_app. Qed.

Lemma inv_idle : forall m0 err out text0 files0 sel J t, idle t -> invariant m0 err out text0 files0 sel J t ->
  text0 ++ lines_of err J = t_text t ++ callback_lines (t_inbox t) /\ files0 ++ files_of out (sampleRate (m_spec m0)) J = t_files t.
Proof.
  intros m0 err out text0 files0 sel J t (H1 & H2) (p & f & Hp & _ & Ht & Hf). rewrite H1, H2 in Hp. cbn in Hp. injection Hp as <- <-.
  cbn in Ht. rewrite !app_nil_r in *. auto.
Qed.

Lemma jobs_choose : forall m es, jobs (choose m es) = filter (fun e => if in_dec engine_eq_dec e es then true else false) engines.
Proof. reflexivity. Qed.

Lemma session_ok : forall m0 out err text0 files0 evs sel J t, 0 < a_channels (m_signal m0) -> 0 < a_samples (m_signal m0) ->
  invariant m0 err out text0 files0 sel J t -> Forall harmless evs -> (forall e, In e (requested sel evs) -> ok m0 out err e) ->
  exists t', run evs (Tab t) = Ok (Tab t') /\ invariant m0 err out text0 files0 (last_selection sel evs) (J ++ requested sel evs) t' /\
    (requested sel evs = [] -> left t' = left t - pool_turns evs /\ (pool_turns evs = 0 -> length (t_inbox t') = length (t_inbox t) - deliveries evs)).
Proof.
  intros m0 out err text0 files0 evs. induction evs as [|ev evs IH]; intros sel J t Hc Hn Hi Hh Hok.
  - exists t. split; [reflexivity|]. cbn. rewrite app_nil_r. split; auto. intros _. split; [lia|intros; lia].
  - inversion Hh as [|? ? Hev Hh']; subst. destruct Hi as (p & f & Hp & Hm & Ht & Hf). destruct ev; try contradiction; cbn [run_events].
    + (* Select *)
      cbn [step]. unfold set_setting, free_of_race.
      assert (G : guard match t_job t with Some (e, o :: _, _) => negb (existsb (fun f => if in_dec field_eq_dec f [] then true else false) (reads e o)) | _ => true end = Ok tt).
      { destruct (t_job t) as [[[e [|o r]] l]|]; try reflexivity. destruct (existsb _ (reads e o)) eqn:E; [|reflexivity].
        apply existsb_exists in E. destruct E as (x & _ & E). destruct (in_dec field_eq_dec x []) as [[]|]; discriminate. }
      rewrite G. cbn [bind].
      destruct (IH es J (set_members t (choose m0 es)) Hc Hn) as (t' & E & I & L); auto.
      { exists p, f. repeat split; auto. }
      rewrite Hm. cbn [choose m_spec m_signalFile m_impulseFile m_signal m_impulse m_binsToKeep m_dynamicRange m_weighted m_stftSize].
      change (Members _ _ _ _ _ _ _ _ _ _) with (choose m0 es). exists t'. split; [exact E|]. split; [exact I|]. exact L.
    + (* Render *)
      cbn [step bind]. unfold runBenchmarks. rewrite Hm. cbn [choose m_signal].
      rewrite (proj2 (Nat.eqb_neq _ 0)) by lia. rewrite (proj2 (Nat.eqb_neq (a_samples _) 0)) by lia. cbn [orb].
      change (Members _ _ _ _ _ _ _ _ _ _) with (choose m0 sel). rewrite jobs_choose. cbn [requested] in Hok |- *. set (js := filter _ engines) in *.
      assert (Hq := queue_ok m0 out err js ltac:(intros; apply Hok; apply in_or_app; auto)).
      destruct (IH sel (J ++ js) (set_queue t (t_queue t ++ js)) Hc Hn) as (t' & E & I & L); auto.
      { exists (p ++ flat_map (job_posts err) js), (f ++ files_of out (sampleRate (m_spec m0)) js). cbn [set_queue t_job t_queue t_members t_text t_inbox t_files].
        split; [apply pending_app; auto|]. split; auto. split.
        - rewrite callback_app, lines_posts. unfold lines_of in *. rewrite flat_map_app, app_assoc, Ht, !app_assoc. reflexivity.
        - unfold files_of in *. rewrite flat_map_app, app_assoc. etransitivity; [apply (f_equal (fun z => z ++ _)); exact Hf|symmetry; apply app_assoc]. }
      { intros; apply Hok; apply in_or_app; auto. }
      exists t'. split; [exact E|]. rewrite <- app_assoc in I. split; [exact I|]. intros H0. apply app_eq_nil in H0. destruct H0 as [H0 H1]. destruct (L H1) as [L1 L2].
      unfold left in *. cbn [set_queue t_job t_queue t_inbox] in *. rewrite H0, app_nil_r in *. split; auto.
    + (* Deliver *)
      cbn [step requested last_selection]. destruct (t_inbox t) as [|c inbox] eqn:Ei.
      * cbn [bind]. destruct (IH sel J t Hc Hn) as (t' & E & I & L); auto. { exists p, f. rewrite Ei. auto. }
        exists t'. split; [exact E|]. split; [exact I|]. intros H0. destruct (L H0) as [L1 L2]. split; [exact L1|]. intros Hz. rewrite (L2 Hz), Ei. reflexivity.
      * cbn [bind]. destruct (IH sel J (say (set_inbox t inbox) c) Hc Hn) as (t' & E & I & L); auto.
        { exists p, f. destruct c as [l|]; cbn [say set_text set_inbox t_job t_queue t_members t_text t_inbox t_files]; repeat split; auto; rewrite Ht;
            change (callback_lines (Some l :: inbox)) with (l :: callback_lines inbox) || change (callback_lines (None :: inbox)) with (callback_lines inbox); rewrite <- ?app_assoc; reflexivity. }
        exists t'. split; [exact E|]. split; [exact I|]. intros H0. destruct (L H0) as [L1 L2]. split.
        { rewrite L1. destruct c; reflexivity. }
        intros Hz. change (pool_turns (Deliver :: evs)) with (pool_turns evs) in Hz. rewrite (L2 Hz). change (deliveries (Deliver :: evs)) with (S (deliveries evs)).
        destruct c; reflexivity.
    + (* Pool *)
      cbn [step requested last_selection]. rewrite <- (pending_choose _ _ m0 sel), <- Hm in Hp.
      destruct (pool_ok t p f Hp) as (t1 & p1 & p2 & f1 & f2 & E1 & -> & -> & Hp2 & Hin & Hfi & Hte & Hme & Hl). rewrite E1. cbn [bind].
      destruct (IH sel J t1 Hc Hn) as (t' & E & I & L); auto.
      { exists p2, f2. rewrite Hme, Hm, pending_choose in Hp2. rewrite Hme, Hte, Hin, Hfi, callback_app. rewrite <- !app_assoc. split; [exact Hp2|]. split; [exact Hm|].
        rewrite Ht, Hf, callback_app. auto. }
      exists t'. split; [exact E|]. split; [exact I|]. intros H0. destruct (L H0) as [L1 L2]. change (pool_turns (Pool :: evs)) with (S (pool_turns evs)). split; [lia|discriminate].
Qed.

Lemma invariant_start : forall t out err, idle t -> t_inbox t = [] ->
  invariant (t_members t) err out (t_text t) (t_files t) (m_engine (t_members t)) [] t.
Proof.
  intros t out err (H1 & H2) H3. exists [], []. rewrite H1, H2, H3. cbn. rewrite !app_nil_r. repeat split. destruct (t_members t); reflexivity.
Qed.

(** Running a job out, as the destructor does. *)
Lemma psteps_ok : forall n t p f, pending (t_job t) (t_queue t) (t_members t) = Ok (p, f) ->
  exists t' p1 p2 f1 f2, psteps n t = Ok t' /\ p = p1 ++ p2 /\ f = f1 ++ f2 /\ pending (t_job t') (t_queue t') (t_members t') = Ok (p2, f2) /\
    t_inbox t' = t_inbox t ++ p1 /\ t_files t' = t_files t ++ f1 /\ left t' = left t - n.
Proof.
  induction n as [|n IH]; intros t p f H.
  - exists t, [], p, [], f. rewrite !app_nil_r. repeat split; auto. lia.
  - destruct (pool_ok t p f H) as (t1 & p1 & p2 & f1 & f2 & E1 & -> & -> & Hp2 & Hin & Hfi & _ & _ & Hl).
    destruct (IH t1 p2 f2 Hp2) as (t2 & q1 & q2 & g1 & g2 & E2 & -> & -> & Hq & Hin2 & Hfi2 & Hl2).
    exists t2, (p1 ++ q1), q2, (f1 ++ g1), g2. cbn [pool_steps]. rewrite E1. cbn [bind]. rewrite Hin2, Hin, Hfi2, Hfi, !app_assoc. repeat split; auto. lia.
Qed.
End Proofs.
