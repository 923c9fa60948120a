(** The benchmark tab of the plugin's editor: extra/plugin/src/ui/BenchmarkTab.{hpp,cpp}.

    The tab lives on the message thread.  Its ThreadPool has one thread, which runs the jobs in
    the order they were added; a job's callAsync() calls are run later, one at a time, on the
    message thread.  Simplifications: files are decoded audio and stay readable; the wall clock
    times in the texts are left out; processSpecChanged() is called on the message thread;
    listeners of a juce::Value run at once instead of on a later turn of the message loop; an
    access by one thread is ordered before any access of the other that does not overlap it; a
    job that outlives the few seconds the destructor and the pool's own wait for it is undefined
    behaviour (JUCE kills the thread). *)
From Coq Require Import Reals List Arith Bool ZArith.
From Verif Require Import Base.Outcome Base.Cplx Model.Integers Model.Algorithm Model.Statistics Model.Units Model.Stft Model.Convolution
  Model.ConstantOverlapAdd Model.PluginConvolution Model.OfflineV2 Model.Spectrum.
Import ListNotations.
Open Scope outcome_scope.

(** ** The pictures and the percentage *)

(** BenchmarkTab.cpp:59-78 — FrequencySpectrumWeighting{1024, sr}. *)
Definition weighting_table (sr : R) : outcome (list R) :=
  for_range 0 (2 ^ 10) (fun i w =>
    let frequency := rfftfreq 1024 (Z.of_nat i) (1 / sr) in
    wr w i (if Req_EM_T frequency 0 then 0%R else a_weighting frequency)) (repeat 0%R (2 ^ 10)).

(** BenchmarkTab.cpp:187-194 — the partitions of the normalised response, without its first
    512 samples.  A slice that ends before it begins violates the precondition of submdspan. *)
Definition filter_partitions (a : audio) : outcome (list (list (list C))) :=
  impulse <- normalize_impulse (Mat (a_channels a) (a_samples a) (a_data a)) ;;
  impulse <- match impulse with Mat _ _ m => Ok m | Vec _ => UB end ;;
  _ <- guard (2 ^ 9 <=? a_samples a) ;;
  late <- mapM (fun row => slice row (2 ^ 9) (a_samples a)) impulse ;;
  uniform_partition (a_channels a) (a_samples a - 2 ^ 9) late (2 ^ 9).

(** BenchmarkTab.cpp:340-350 — one bin of the loop in runWeightingTests(). *)
Definition count_bin (partitions : list (list (list C))) (weighted : bool) (weights : list R) (scale threshold : R) (f b ch : nat) (count : Z) : outcome Z :=
  weight <- (if weighted then rd weights b else Ok 0%R) ;;
  channel <- rd partitions ch ;;
  row <- rd channel f ;;
  bin <- rd row b ;;
  let dB := weighted_level scale weight bin in
  iarith int32 (count + (if Rlt_dec threshold dB then 1 else 0)).

(** BenchmarkTab.cpp:316-358 — the percentage runWeightingTests() prints; the loop over all bins
    for the loudest one (lines 318-331) is [max_power] of all rows.  No bins: 0 / 0. *)
Definition share (partitions : list (list (list C))) (weighted : bool) (sr range : R) : outcome R :=
  maxPower <- max_power (concat partitions) ;;
  let scale := (1 / maxPower)%R in
  weights <- weighting_table sr ;;
  let threshold := (- range)%R in
  channel <- rd partitions 0 ;;
  row <- rd channel 0 ;;
  count <- for_range 0 (length channel) (fun f count =>
    for_range 0 (length row) (fun b count =>
      for_range 0 (length partitions) (fun ch count =>
        count_bin partitions weighted weights scale threshold f b ch count) count) count) 0%Z ;;
  let total := length partitions * length channel * length row in
  Ok (IZR count / INR total * 100)%R.

(** BenchmarkTab.cpp:526-551 — updateImages(): the images of the first channel's spectrogram
    (kept from BenchmarkTab.cpp:184-185), then runWeightingTests(). *)
Definition updateImages (a : audio) (weighted : bool) (sr range : R) : outcome R :=
  spectrum <- stft_size (a_channels a) (a_samples a) (a_data a) (2 ^ 10) ;;
  partitions <- filter_partitions a ;;
  weights <- weighting_table sr ;;
  let weighting y := if weighted then nth y weights 0%R else 0%R in
  first <- rd spectrum 0 ;;
  row <- rd first 0 ;;
  _ <- powerSpectrumImage (length first) (length row) first weighting (- range)%R ;;
  _ <- powerHistogramImage (length first) (length row) first weighting ;;
  share partitions weighted sr range.

(** ** The jobs *)

(** BenchmarkTab.cpp:122-134 — the engines, in the order of the ifs in runBenchmarks()
    (BenchmarkTab.cpp:277-313). *)
Inductive engine := EJuce | ENeo | EDense | EUpols | EUpola | EUpolaV2 | ESplitUpola | ESplitUpols | ESparse | ETests | EQuality.
Definition engines : list engine := [EJuce; ENeo; EDense; EUpols; EUpola; EUpolaV2; ESplitUpola; ESplitUpols; ESparse; ETests; EQuality].
Definition engine_eq_dec : forall a b : engine, {a = b} + {a <> b}.
Proof. decide equality. Defined.

(** BenchmarkTab.hpp:74-98 — the members the jobs can read and the user's own settings. *)
Record members := Members { m_spec : process_spec; m_signalFile : option audio; m_impulseFile : option audio; m_signal : audio; m_impulse : audio;
  m_binsToKeep : nat; m_dynamicRange : R; m_weighted : bool; m_engine : list engine; m_stftSize : nat }.

(** BenchmarkTab.cpp:260-269 — hasEngineEnabled(), and the jobs runBenchmarks() adds. *)
Definition hasEngineEnabled (m : members) (e : engine) : bool := if in_dec engine_eq_dec e (m_engine m) then true else false.
Definition jobs (m : members) : list engine := filter (hasEngineEnabled m) engines.

Section Tab.
Variable resampler : audio -> R -> audio.
Variable lanes : option nat.
(** What juce::dsp::Convolution makes of a response, a signal and a sample rate. *)
Variable juce_convolution : option audio -> audio -> R -> list (list R).
(** What a new buffer of some channels and samples contains. *)
Variable memory : nat -> nat -> list (list R).

Definition normalised_peak (channels frames : nat) (out : list (list R)) : outcome (list (list R)) :=
  o <- normalize_peak (Mat channels frames out) ;; match o with Mat _ _ m => Ok m | Vec _ => UB end.

(** BenchmarkTab.cpp:404-429 — runDenseConvolutionBenchmark() up to the last block; there is no
    reset() between prepare() and process(). *)
Definition dense_engine (m : members) : outcome (list (list R)) :=
  let s := m_signal m in
  let N := maximumBlockSize (m_spec m) in
  let spec := ProcessSpec (sampleRate (m_spec m)) N (a_channels s) in
  proc <- dense_make N ;;
  proc <- match m_impulseFile m with Some a => dense_load resampler a proc | None => Ok proc end ;;
  let F := _frameSize _ proc in
  proc <- dense_prepare resampler spec (memory (a_channels s) F) (memory (a_channels s) (F - 1))
            (memory (a_channels s) (output_samples F (_hopSize _ proc) N)) proc ;;
  '(_, out) <- for_step 0 (a_samples s) N (fun i (st : cola dense * list (list R)) =>
      let (proc, out) := st in
      let numSamples := Nat.min (a_samples s - i) N in
      block <- sub_block (a_data s) i numSamples ;;
      '(proc, block) <- process dense dense_processFrame (a_channels s) numSamples block block proc ;;
      out <- for_range 0 (a_channels s) (fun ch out =>
        row <- rd out ch ;; o <- rd block ch ;; row <- splice row i o ;; wr out ch row) out ;;
      Ok (proc, out)) (proc, memory (a_channels s) (a_samples s)) ;;
  Ok out.

(** BenchmarkTab.cpp:515 — juce::jmap(i, 1.0, 180.0, 1.0, 90.0). *)
Definition quality_range (i : nat) : R := (1 + (INR i - 1) / 179 * 89)%R.

(** DenseConvolution.hpp:39-70 with the 4096 of BenchmarkTab.hpp:51 and BenchmarkTab.cpp:483-487. *)
Definition dense_run (ov : overlap_type) (fdl : fdl_type) (flt : filter_type (fdl_row fdl)) (args : flt_args flt) (m : members) : outcome (list (list R)) :=
  let s := m_signal m in
  let h := m_impulse m in
  dense_convolve ov fdl flt (a_channels s) (a_samples s) (a_data s) (a_channels h) (a_samples h) (a_data h) (2 ^ 12) args (memory (a_channels s) (a_samples s)).

(** BenchmarkTab.cpp:449-450 and 497-504 *)
Definition sparse_run (range : R) (bins : nat) (m : members) : outcome (list (list R)) :=
  let s := m_signal m in
  let h := m_impulse m in
  sparse_convolve (a_channels s) (a_samples s) (a_data s) (a_channels h) (a_samples h) (a_data h) (2 ^ 12) (a_rate h) (- range)%R bins (memory (a_channels s) (a_samples s)).

(** The signal convolved by an engine: BenchmarkTab.hpp:51, BenchmarkTab.cpp:360-368 (juce),
    382-390 (neo; ProcessChainConvolver, lines 31-57, loads the file before it prepares), 404-429
    (DenseConvolution), 445-451 (sparse), 482-490 (the dense run of the quality test). *)
Definition convolve (e : engine) (m : members) : outcome (list (list R)) :=
  let s := m_signal m in
  let h := m_impulse m in
  let new := memory (a_channels s) (a_samples s) in
  match e with
  | EJuce => Ok (juce_convolution (m_impulseFile m) s (sampleRate (m_spec m)))
  | ENeo =>
      c <- pc_load resampler lanes (m_impulseFile m) (pc_make lanes) ;;
      '(_, out) <- processBlocks resampler lanes (a_channels s) (a_samples s) (a_data s) new (2 ^ 12) (sampleRate (m_spec m)) c ;;
      Ok out
  | EDense => dense_engine m
  | EUpols | EQuality => dense_run ols dense_fdl dense_filter tt m
  | EUpola => dense_run ola dense_fdl dense_filter tt m
  | EUpolaV2 => dense_convolve_v2 (a_channels s) (a_samples s) (a_data s) (a_channels h) (a_samples h) (a_data h) (2 ^ 12) new
  | ESplitUpola => dense_run ola dense_split_fdl (dense_split_filter lanes) tt m
  | ESplitUpols => dense_run ols dense_split_fdl (dense_split_filter lanes) tt m
  | ESparse => sparse_run (m_dynamicRange m) (m_binsToKeep m) m
  | ETests => Ok []
  end.

(** BenchmarkTab.cpp:474-480, 492, 507-508 — the spectrogram of the quality test. *)
Definition quality_stft (size channels frames : nat) (x : list (list R)) : outcome (list (list (list C))) :=
  stft channels frames x (StftOptions size (size * 2) (size / 2) hann_window).

(** BenchmarkTab.cpp:80-92 — maxChannelRMSError(). *)
Definition maxChannelRMSError (signal reconstructed : list (list (list C))) : outcome R :=
  for_range 0 (length signal) (fun ch rmse =>
    s <- rd signal ch ;; r <- rd reconstructed ch ;;
    s0 <- rd s 0 ;; r0 <- rd r 0 ;;
    e <- rmse_c (Mat (length s) (length s0) s) (Mat (length r) (length r0) r) ;;
    Ok (Rmax rmse e)) 0%R.

(** The local variables of a job: its normalised output and, in the quality test, the spectrogram
    of the dense run, the two settings it copies and the last error. *)
Record locals := Locals { l_output : list (list R); l_spectrogram : list (list (list C)); l_size : nat; l_bins : nat; l_error : R }.
Definition no_locals : locals := Locals [] [] 0 0 0.

(** What a job does, one after the other: convolve (and normalise), run the quality test's sparse
    convolver for a range, post a callback, write the wav file. *)
Inductive line := Elapsed (e : engine) | Quality (i : nat) (error : R) | QualityDone | FileName | Percentage (p : R).
Inductive op := Convolve | Compare (i : nat) | PostTime | PostCaret | PostError (i : nat) | PostDone | WriteFile.

(** BenchmarkTab.hpp:48-66, BenchmarkTab.cpp:360-524 — the jobs; runConvolverTests() is empty
    (BenchmarkTab.cpp:470).  DenseConvolution's job posts before it normalises (432-439), the
    others after: it makes no difference to what they post or write. *)
Definition job_program (e : engine) : list op :=
  match e with
  | ETests => []
  | EQuality => Convolve :: PostCaret :: flat_map (fun i => [Compare i; PostError i]) (rev (seq 1 180)) ++ [PostDone]
  | _ => [Convolve; PostTime; WriteFile]
  end.

(** The computation of one operation: BenchmarkTab.hpp:54-55, BenchmarkTab.cpp:370-371, 392-393,
    438-439, 453-454 and, for the quality test, 472-510. *)
Definition compute (e : engine) (o : op) (m : members) (l : locals) : outcome locals :=
  let channels := a_channels (m_signal m) in
  let frames := a_samples (m_signal m) in
  match o with
  | Convolve =>
      out <- convolve e m ;;
      out <- normalised_peak channels frames out ;;
      spectrogram <- match e with EQuality => quality_stft (m_stftSize m) channels frames out | _ => Ok [] end ;;
      Ok (Locals out spectrogram (m_stftSize m) (m_binsToKeep m) 0)
  | Compare i =>
      out <- sparse_run (quality_range i) (l_bins l) m ;;
      out <- normalised_peak channels frames out ;;
      spectrogram <- quality_stft (l_size l) channels frames out ;;
      error <- maxChannelRMSError (l_spectrogram l) spectrogram ;;
      Ok (Locals out (l_spectrogram l) (l_size l) (l_bins l) error)
  | _ => Ok l
  end.

(** The callback an operation posts: [Some None] only moves the caret. *)
Definition posts (e : engine) (o : op) (l : locals) : option (option line) :=
  match o with
  | PostTime => Some (Some (Elapsed e))
  | PostCaret => Some None
  | PostError i => Some (Some (Quality i (l_error l)))
  | PostDone => Some (Some QualityDone)
  | _ => None
  end.

(** ** The threads *)

(** The tab: the members, the pool's queue, the job its thread runs with what it still has to do
    and the last convolution, the callbacks not yet run, the text and the files written. *)
Record tab_state := TabState { t_members : members; t_queue : list engine; t_job : option (engine * list op * locals);
  t_inbox : list (option line); t_text : list line; t_files : list (engine * list (list R) * R) }.

(** A tab, or what its destruction leaves behind: callbacks that will still be run. *)
Inductive world := Tab (t : tab_state) | Gone (inbox : list (option line)) (files : list (engine * list (list R) * R)).

Definition set_members (t : tab_state) m := TabState m (t_queue t) (t_job t) (t_inbox t) (t_text t) (t_files t).
Definition set_queue (t : tab_state) q := TabState (t_members t) q (t_job t) (t_inbox t) (t_text t) (t_files t).
Definition set_job (t : tab_state) j := TabState (t_members t) (t_queue t) j (t_inbox t) (t_text t) (t_files t).
Definition set_inbox (t : tab_state) i := TabState (t_members t) (t_queue t) (t_job t) i (t_text t) (t_files t).
Definition set_text (t : tab_state) x := TabState (t_members t) (t_queue t) (t_job t) (t_inbox t) x (t_files t).
Definition add_file (t : tab_state) f := TabState (t_members t) (t_queue t) (t_job t) (t_inbox t) (t_text t) (t_files t ++ [f]).

(** The members in memory the threads share. *)
Inductive field := FSpec | FSignal | FImpulse | FImpulseFile | FBins | FRange | FStft.
Definition field_eq_dec : forall a b : field, {a = b} + {a <> b}.
Proof. decide equality. Defined.

(** What an operation reads while it runs: see [compute]; lines 445-446, 474 and 494 copy the
    settings once. *)
Definition reads (e : engine) (o : op) : list field :=
  match o with
  | Convolve =>
      match e with
      | EJuce | ENeo | EDense => [FSignal; FImpulseFile; FSpec]
      | ESparse => [FSignal; FImpulse; FRange; FBins]
      | EQuality => [FSignal; FImpulse; FBins; FStft]
      | ETests => []
      | _ => [FSignal; FImpulse]
      end
  | Compare _ => [FSignal; FImpulse]
  | WriteFile => [FSpec]
  | _ => []
  end.

(** Neither thread takes a lock: a write by the message thread to something the operation in
    progress reads is a data race. *)
Definition free_of_race (t : tab_state) (written : list field) : bool :=
  match t_job t with
  | Some (e, o :: _, _) => negb (existsb (fun f => if in_dec field_eq_dec f written then true else false) (reads e o))
  | _ => true
  end.

Definition say (t : tab_state) (l : option line) : tab_state := match l with Some x => set_text t (t_text t ++ [x]) | None => t end.

(** BenchmarkTab.cpp:245-256 — loadSignalFile() with an existing file. *)
Definition loadSignalFile (a : audio) (t : tab_state) : outcome tab_state :=
  let m := t_members t in
  if Rle_dec (sampleRate (m_spec m)) 0 then Ok t else
  _ <- guard (free_of_race t [FSignal]) ;;
  Ok (set_members t (Members (m_spec m) (Some a) (m_impulseFile m) (resample resampler a (sampleRate (m_spec m))) (m_impulse m)
        (m_binsToKeep m) (m_dynamicRange m) (m_weighted m) (m_engine m) (m_stftSize m))).

(** BenchmarkTab.cpp:526-551 — updateImages() and the line it adds; without a spectrum nothing. *)
Definition redraw (t : tab_state) : outcome tab_state :=
  let m := t_members t in
  match m_impulseFile m with
  | None => Ok t
  | Some _ =>
      p <- updateImages (m_impulse m) (m_weighted m) (sampleRate (m_spec m)) (m_dynamicRange m) ;;
      Ok (say t (Some (Percentage p)))
  end.

(** BenchmarkTab.cpp:175-200 — setImpulseResponseFile() with an existing file. *)
Definition setImpulseResponseFile (a : audio) (t : tab_state) : outcome tab_state :=
  let m := t_members t in
  _ <- guard (free_of_race t [FImpulse; FImpulseFile]) ;;
  redraw (set_text (set_members t (Members (m_spec m) (m_signalFile m) (Some a) (m_signal m) (resample resampler a (sampleRate (m_spec m)))
        (m_binsToKeep m) (m_dynamicRange m) (m_weighted m) (m_engine m) (m_stftSize m))) [FileName]).

(** BenchmarkTab.cpp:222-227 — processSpecChanged(). *)
Definition processSpecChanged (spec : process_spec) (t : tab_state) : outcome tab_state :=
  let m := t_members t in
  _ <- guard (free_of_race t [FSpec]) ;;
  let t := set_members t (Members spec (m_signalFile m) (m_impulseFile m) (m_signal m) (m_impulse m)
        (m_binsToKeep m) (m_dynamicRange m) (m_weighted m) (m_engine m) (m_stftSize m)) in
  t <- match m_signalFile m with Some a => loadSignalFile a t | None => Ok t end ;;
  match m_impulseFile m with Some a => setImpulseResponseFile a t | None => Ok t end.

(** The user's settings (juce::Value); BenchmarkTab.cpp:102-103, 220: the range and the weighting
    redraw. *)
Definition set_setting (t : tab_state) (written : list field) (bins : nat) (range : R) (weighted : bool) (sel : list engine) (size : nat) : outcome tab_state :=
  let m := t_members t in
  _ <- guard (free_of_race t written) ;;
  Ok (set_members t (Members (m_spec m) (m_signalFile m) (m_impulseFile m) (m_signal m) (m_impulse m) bins range weighted sel size)).

(** BenchmarkTab.cpp:258-314 — runBenchmarks(). *)
Definition runBenchmarks (t : tab_state) : tab_state :=
  let s := m_signal (t_members t) in
  if (a_channels s =? 0) || (a_samples s =? 0) then t else set_queue t (t_queue t ++ jobs (t_members t)).

(** One operation of a job, on the pool's thread. *)
Definition perform (e : engine) (o : op) (rest : list op) (l : locals) (t : tab_state) : outcome tab_state :=
  l <- compute e o (t_members t) l ;;
  let t := set_job t (Some (e, rest, l)) in
  let t := match posts e o l with Some c => set_inbox t (t_inbox t ++ [c]) | None => t end in
  Ok (match o with WriteFile => add_file t (e, l_output l, sampleRate (m_spec (t_members t))) | _ => t end).

(** One step of the pool's thread: the next operation, the end of a job or the next job. *)
Definition pool_step (t : tab_state) : outcome tab_state :=
  match t_job t with
  | Some (e, o :: rest, l) => perform e o rest l t
  | Some (_, [], _) => Ok (set_job t None)
  | None => match t_queue t with [] => Ok t | e :: q => Ok (set_job (set_queue t q) (Some (e, job_program e, no_locals))) end
  end.

(** The pool's thread alone, [n] steps: what it does while the message thread waits for it. *)
Fixpoint pool_steps (n : nat) (t : tab_state) : outcome tab_state :=
  match n with 0 => Ok t | S n => t <- pool_step t ;; pool_steps n t end.

(** BenchmarkTab.cpp:169-173 — the destructor: removeAllJobs() drops the queue and waits for the
    running job to end. *)
Definition destroy (in_time : bool) (t : tab_state) : outcome world :=
  t <- match t_job t with
       | None => Ok t
       | Some (_, ops, _) => _ <- guard in_time ;; pool_steps (length ops) (set_queue t [])
       end ;;
  Ok (Gone (t_inbox t) (t_files t)).

(** What can happen next: the user, the host, the message loop or the pool's thread. *)
Inductive event :=
  | LoadSignal (a : audio) | LoadImpulse (a : audio) | Prepare (spec : process_spec)
  | SetBins (n : nat) | SetRange (r : R) | SetWeighted (b : bool) | SetStft (n : nat) | Select (es : list engine)
  | Render | Close (in_time : bool) | Deliver | Pool.

(** The callbacks capture [this] (e.g. BenchmarkTab.cpp:374-377): after the destructor they use a
    tab that is gone. *)
Definition step (ev : event) (w : world) : outcome world :=
  match w with
  | Gone inbox files => match ev, inbox with Deliver, _ :: _ => UB | _, _ => Ok w end
  | Tab t =>
      let m := t_members t in
      match ev with
      | LoadSignal a => t <- loadSignalFile a t ;; Ok (Tab t)
      | LoadImpulse a => t <- setImpulseResponseFile a t ;; Ok (Tab t)
      | Prepare spec => t <- processSpecChanged spec t ;; Ok (Tab t)
      | SetBins n => t <- set_setting t [FBins] n (m_dynamicRange m) (m_weighted m) (m_engine m) (m_stftSize m) ;; Ok (Tab t)
      | SetRange r => t <- set_setting t [FRange] (m_binsToKeep m) r (m_weighted m) (m_engine m) (m_stftSize m) ;; t <- redraw t ;; Ok (Tab t)
      | SetWeighted b => t <- set_setting t [] (m_binsToKeep m) (m_dynamicRange m) b (m_engine m) (m_stftSize m) ;; t <- redraw t ;; Ok (Tab t)
      | SetStft n => t <- set_setting t [FStft] (m_binsToKeep m) (m_dynamicRange m) (m_weighted m) (m_engine m) n ;; Ok (Tab t)
      | Select es => t <- set_setting t [] (m_binsToKeep m) (m_dynamicRange m) (m_weighted m) es (m_stftSize m) ;; Ok (Tab t)
      | Render => Ok (Tab (runBenchmarks t))
      | Close in_time => destroy in_time t
      | Deliver => match t_inbox t with [] => Ok w | l :: rest => Ok (Tab (say (set_inbox t rest) l)) end
      | Pool => t <- pool_step t ;; Ok (Tab t)
      end
  end.

Fixpoint run_events (evs : list event) (w : world) : outcome world :=
  match evs with [] => Ok w | ev :: rest => w <- step ev w ;; run_events rest w end.
End Tab.
