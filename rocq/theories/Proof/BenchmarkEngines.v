(** Proofs for C76: what the engines of the benchmark tab write. *)
From Coq Require Import Reals List Arith Bool ZArith Lia Lra.
From Verif Require Import Base.Outcome Base.OutcomeFacts Base.Cplx Spec.Stft Spec.Convolution Spec.Framer Spec.Plugin.
From Verif Require Import Model.Fft2 Model.Integers Model.Algorithm Model.Statistics Model.Stft Model.Convolution Model.ConstantOverlapAdd Model.PluginConvolution Model.OfflineV2 Model.BenchmarkTab.
From Verif Require Import Proof.IntegersProof Proof.StftProof Proof.FramerProof Proof.DenseConvolutionProof Proof.PluginConvProof.
Import ListNotations.
Local Arguments Nat.pow : simpl never.
Local Open Scope nat_scope.

Lemma write_rows : forall channels n (out0 rows : list (list R)), matrix_of channels n out0 -> matrix_of channels n rows ->
  for_range 0 channels (fun ch out => row <- rd out ch ;; o <- rd rows ch ;; row <- splice row 0 o ;; wr out ch row) out0 = Ok rows.
Proof.
  intros channels n out0 rows H0 H1.
  destruct (each_channel_spec channels (fun ch row => o <- rd rows ch ;; splice row 0 o) out0 (fun ch row => row = nth ch rows []) (proj1 H0)) as (buf & E & L & Hb).
  - intros ch Hch. exists (nth ch rows []). split; [|reflexivity]. rewrite (rd_ok _ rows ch []) by (rewrite (proj1 H1); auto). cbn [bind]. unfold splice.
    rewrite (matrix_row _ _ _ ch H1 Hch), (matrix_row _ _ _ ch H0 Hch). cbn [Nat.add]. rewrite Nat.leb_refl. f_equal. cbn [firstn app].
    rewrite skipn_all2, app_nil_r; auto. rewrite (matrix_row _ _ _ ch H0 Hch). lia.
  - transitivity (each_channel channels (fun ch row => o <- rd rows ch ;; splice row 0 o) out0).
    { unfold each_channel. apply for_range_ext. intros i s Hi. destruct (rd s i); try reflexivity. cbn [bind]. destruct (rd rows i); reflexivity. }
    rewrite E. f_equal. apply (matrix_ext channels n).
    + apply matrix_intro; auto. intros i Hi. rewrite Hb by auto. apply (matrix_row _ _ _ i H1 Hi).
    + exact H1.
    + intros i j Hi Hj. rewrite Hb by auto. reflexivity.
Qed.

Section Engines.
Variable resampler : audio -> R -> audio.
Variable memory : nat -> nat -> list (list R).
Hypothesis Hmem : forall channels n, matrix_of channels n (memory channels n).

(** DenseConvolution's job for a signal shorter than a frame. *)
Lemma dense_engine_short : forall m a, m_impulseFile m = Some a ->
  let s := m_signal m in let N := maximumBlockSize (m_spec m) in let r := resample resampler a (sampleRate (m_spec m)) in
  block_size_ok N -> 0 < a_channels s -> matrix_of (a_channels s) (a_samples s) (a_data s) -> 0 < a_samples s <= N -> a_samples s < frame_size N ->
  response_fits (frame_size N) r -> a_channels s <= a_channels r ->
  dense_engine resampler memory m = Ok (map (firstn (a_samples s)) (memory (a_channels s) (output_samples (frame_size N) (frame_size N) N))).
Proof using Hmem.
  intros m a Ea s N r HB Hc Hs Hn HF Hr Hle. unfold dense_engine. rewrite Ea. fold s N.
  assert (Em : dense_make N = Ok (cola_make dense (Nat.log2_up N) 0 (Dense None None []))).
  { unfold dense_make. rewrite next_order_ok; [reflexivity|]. apply (block_size_Z N HB). }
  rewrite Em. cbn [bind]. set (c0 := cola_make dense (Nat.log2_up N) 0 (Dense None None [])) in *.
  assert (El : dense_load resampler a c0 = Ok (cola_make dense (Nat.log2_up N) 0 (Dense (Some a) None []))) by reflexivity.
  rewrite El. cbn [bind]. set (c1 := cola_make dense (Nat.log2_up N) 0 (Dense (Some a) None [])) in *.
  assert (EF : _frameSize dense c1 = frame_size N) by reflexivity.
  assert (EH : _hopSize dense c1 = frame_size N) by (unfold c1, cola_make, frame_size; cbn [_hopSize]; rewrite Nat.pow_0_r; apply Nat.div_1_r).
  rewrite EF, EH.
  destruct (ready_ok resampler N (a_channels s) N (sampleRate (m_spec m)) a HB Hr Hle) as (P & _ & _).
  destruct (P c0 c1 (memory (a_channels s) (frame_size N)) (memory (a_channels s) (frame_size N - 1)) (memory (a_channels s) (output_samples (frame_size N) (frame_size N) N))) as (c & Ep).
  { constructor 1. exact Em. } { repeat split; apply Hmem. } { exact El. }
  rewrite Ep. cbn [bind].
  assert (Ec : exists d, c = prepare dense (cola_make dense (Nat.log2_up N) 0 d) (memory (a_channels s) (frame_size N)) (memory (a_channels s) (frame_size N - 1))
                (memory (a_channels s) (output_samples (frame_size N) (frame_size N) N))).
  { unfold dense_prepare in Ep. destruct (updateImpulseResponse resampler _) as [d| |]; try discriminate. cbn [bind] in Ep. injection Ep as <-. exists d. reflexivity. }
  destruct Ec as (d & ->). set (out := memory (a_channels s) (output_samples (frame_size N) (frame_size N) N)) in *.
  unfold for_step. rewrite (proj2 (Nat.eqb_neq N 0)) by lia.
  replace ((a_samples s - 0 + (N - 1)) / N) with 1.
  2:{ apply (Nat.div_unique _ _ _ (a_samples s - 1)); lia. }
  cbn [loop]. rewrite Nat.sub_0_r, Nat.min_l by lia.
  rewrite (sub_block_ok (a_channels s) (a_samples s)) by (auto; lia). cbn [bind]. set (b := tab _ _).
  assert (Mb : matrix_of (a_channels s) (a_samples s) b).
  { unfold b. apply matrix_intro; [apply tab_length|]. intros i Hi. rewrite nth_tab by auto. apply tab_length. }
  assert (Lb : block_length b = a_samples s).
  { unfold block_length. destruct Mb as [L W]. destruct b as [|row b']; [cbn in L; lia|]. apply W. left. reflexivity. }
  destruct (emit_first dense dense_processFrame (Nat.log2_up N) 0 (a_channels s) N d (memory (a_channels s) (frame_size N)) (memory (a_channels s) (frame_size N - 1)) out b) as (c' & E);
    try (rewrite ?Lb; first [lia | apply Hmem | auto]; fail).
  { unfold out. replace (2 ^ Nat.log2_up N / 2 ^ 0) with (frame_size N) by (unfold frame_size; rewrite Nat.pow_0_r, Nat.div_1_r; reflexivity). apply Hmem. }
  rewrite Lb in E. rewrite E. cbn [bind]. rewrite (write_rows (a_channels s) (a_samples s)).
  - reflexivity.
  - apply Hmem.
  - assert (Mo := Hmem (a_channels s) (output_samples (frame_size N) (frame_size N) N)). fold out in Mo. destruct Mo as [L W]. split; [rewrite map_length; exact L|].
    intros row Hrow. apply in_map_iff in Hrow. destruct Hrow as (x & <- & Hx). rewrite firstn_length, (W x Hx). unfold output_samples.
    assert (1 <= 1 + (N - 1) / frame_size N) by lia. nia.
Qed.
End Engines.
