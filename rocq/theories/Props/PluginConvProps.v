(** Property theorems C60: the plugin's Convolution and processBlocks().
    Specification: lconv (Spec/Convolution.v), channel_stream (Spec/Framer.v), response_fits
    (Spec/Plugin.v), listener, host_calls and played (Spec/PluginConv.v). *)
From Coq Require Import Reals List Arith ZArith Lia Lra Bool.
From Verif Require Import Base.Outcome Base.OutcomeFacts Base.Sums Base.Cplx Spec.Stft Spec.Convolution Spec.Framer Spec.Plugin Spec.PluginConv.
From Verif Require Import Model.Fft2 Model.Integers Model.Statistics Model.Stft Model.Convolution Model.PluginConvolution.
From Verif Require Import Proof.ConvTheory Proof.StreamProof Proof.PluginProof Proof.DenseConvolutionProof Proof.PluginConvProof Props.DenseConvolutionProps.
Import ListNotations.
Local Arguments Nat.div : simpl never.
Local Arguments Nat.pow : simpl never.
Local Open Scope nat_scope.

Definition lanes_ok (lanes : option nat) : Prop := match lanes with Some l => 0 < l | None => True end.

(** What the calls of a history may contain, as predicates. *)
Lemma host_split : forall resampler calls, host_calls resampler calls ->
  let okS spec := In (CallPrepare spec) calls in let okA a := In (CallLoad (Some a)) calls in
  (forall spec, okS spec -> exists k, 0 < k < max_order /\ maximumBlockSize spec = 2 ^ k) /\
  (forall spec a, okS spec -> okA a -> response_fits (maximumBlockSize spec) (resample resampler a (sampleRate spec))).
Proof. intros resampler calls (H1 & H2 & _). split; auto. Qed.

Lemma deaf_tracks : forall resampler lanes okS okA, tracks resampler lanes okS okA deaf (pc_make lanes).
Proof. intros. unfold tracks, deaf, pc_make. cbn. repeat (split; auto); intros; discriminate. Qed.

Lemma history_tracks : forall resampler lanes calls, lanes_ok lanes -> host_calls resampler calls ->
  match listen_all resampler calls deaf with
  | Ok (s', outs) => exists c', run_calls resampler lanes calls (pc_make lanes) = Ok (c', outs) /\
      tracks resampler lanes (fun spec => In (CallPrepare spec) calls) (fun a => In (CallLoad (Some a)) calls) s' c'
  | UB => run_calls resampler lanes calls (pc_make lanes) = UB
  | Throw => False
  end.
Proof.
  intros resampler lanes calls Hl H. destruct (host_split resampler calls H) as (H1 & H2). destruct H as (_ & _ & H3).
  apply (calls_track resampler lanes Hl _ _ H1 H2); auto. apply deaf_tracks.
Qed.

(** C60.  Every sequence of prepare(), reset(), loadImpulseResponse() and process() calls: the
    blocks that come out are those of the listener, and the object leaves its arrays exactly when
    the listener says so, that is when a response or the object has too few channels. *)
Theorem C60_calls : forall resampler lanes calls, lanes_ok lanes -> host_calls resampler calls ->
  (forall s outs, listen_all resampler calls deaf = Ok (s, outs) -> exists c, run_calls resampler lanes calls (pc_make lanes) = Ok (c, outs)) /\
  (forall c outs, run_calls resampler lanes calls (pc_make lanes) = Ok (c, outs) -> exists s, listen_all resampler calls deaf = Ok (s, outs)) /\
  (listen_all resampler calls deaf = UB <-> run_calls resampler lanes calls (pc_make lanes) = UB).
Proof.
  intros resampler lanes calls Hl H. pose proof (history_tracks resampler lanes calls Hl H) as T.
  destruct (listen_all resampler calls deaf) as [[s outs]| |]; [|rewrite T|contradiction].
  - destruct T as (c & E & _). rewrite E. split; [|split].
    + intros s' outs' [= <- <-]. eauto.
    + intros c' outs' [= <- <-]. eauto.
    + split; discriminate.
  - split; [discriminate|]. split; [discriminate|]. tauto.
Qed.

(** Blocks of the prepared size, on every channel that was prepared. *)
Definition full_blocks (spec : process_spec) (blocks : list (list (list R))) : Prop :=
  forall b, In b blocks -> matrix_of (numChannels spec) (maximumBlockSize spec) b.

Lemma calls_app : forall resampler lanes l1 l2 c, run_calls resampler lanes (l1 ++ l2) c =
  ('(c, o1) <- run_calls resampler lanes l1 c ;; '(c, o2) <- run_calls resampler lanes l2 c ;; Ok (c, o1 ++ o2))%outcome.
Proof.
  induction l1 as [|x l IH]; intros l2 c; cbn [app run_calls bind].
  - destruct (run_calls resampler lanes l2 c) as [[c' o]| |]; reflexivity.
  - destruct x as [spec|file| |b].
    + destruct (pc_prepare resampler lanes spec c); cbn [bind]; auto.
    + destruct (pc_load resampler lanes file c); cbn [bind]; auto.
    + apply IH.
    + destruct (pc_process lanes (samples_of b) b c) as [[c1 o]| |]; cbn [bind]; auto. rewrite IH.
      destruct (run_calls resampler lanes l c1) as [[c2 o1]| |]; cbn [bind]; auto. destruct (run_calls resampler lanes l2 c2) as [[c3 o2]| |]; reflexivity.
Qed.

Lemma listen_app : forall resampler l1 l2 s, listen_all resampler (l1 ++ l2) s =
  ('(s, o1) <- listen_all resampler l1 s ;; '(s, o2) <- listen_all resampler l2 s ;; Ok (s, o1 ++ o2))%outcome.
Proof.
  induction l1 as [|x l IH]; intros l2 s; cbn [app listen_all bind].
  - destruct (listen_all resampler l2 s) as [[s' o]| |]; reflexivity.
  - destruct x as [spec|file| |b].
    + destruct (start_over resampler _); cbn [bind]; auto.
    + destruct (start_over resampler _); cbn [bind]; auto.
    + apply IH.
    + destruct (listen resampler s b) as [[s1 o]| |]; cbn [bind]; auto. rewrite IH.
      destruct (listen_all resampler l s1) as [[s2 o1]| |]; cbn [bind]; auto. destruct (listen_all resampler l2 s2) as [[s3 o2]| |]; reflexivity.
Qed.

(** The listener on full blocks. *)
Lemma listen_stream : forall resampler spec a blocks before, 0 < numChannels spec -> 0 < maximumBlockSize spec -> full_blocks spec blocks -> length before = numChannels spec ->
  exists s outs, listen_all resampler (map CallProcess blocks) (Listener (Some spec) (Some a) before) = Ok (s, outs) /\ length outs = length blocks /\
    forall ch, ch < numChannels spec -> channel_stream outs ch =
      tab (length (channel_stream blocks ch)) (fun i => lconv (nth ch before [] ++ channel_stream blocks ch) (nth ch (a_data (resample resampler a (sampleRate spec))) []) (length (nth ch before []) + i)).
Proof.
  intros resampler spec a blocks. set (nch := numChannels spec). set (B := maximumBlockSize spec).
  induction blocks as [|b rest IH]; intros before Hn HB Hb Lb; cbn [map listen_all].
  - exists (Listener (Some spec) (Some a) before), []. split; auto.
  - destruct (Hb b ltac:(left; auto)) as [L M]. fold nch in L. fold B in M. unfold listen. cbn [l_spec l_response heard]. fold B.
    assert (Es : samples_of b = B). { destruct b as [|row t]; [cbn in L; lia|]. cbn. apply M. left; auto. }
    rewrite Lb, Es, Nat.eqb_refl. fold nch. destruct (Nat.eqb_spec nch 0); [lia|]. cbn [orb negb]. rewrite L, Nat.ltb_irrefl. cbn [bind].
    set (next := tab nch _). assert (Ln : length next = nch) by apply tab_length.
    destruct (IH next Hn HB ltac:(intros x Hx; apply Hb; right; auto) Ln) as (s & outs & E & Lo & V). rewrite E. cbn [bind].
    eexists. eexists. split; [reflexivity|]. split; [cbn; lia|]. intros ch Hch. specialize (V ch Hch). unfold channel_stream in *. cbn [map concat].
    rewrite V. rewrite nth_tab by auto. set (rest_ch := concat (map (fun b0 => nth ch b0 []) rest)) in *.
    assert (Enext : nth ch next [] = nth ch before [] ++ nth ch b []). { unfold next. rewrite nth_tab by auto. rewrite (proj2 (Nat.ltb_lt ch nch)) by auto. reflexivity. }
    assert (Lbch : length (nth ch b []) = B) by (apply M, nth_In; lia). rewrite Enext.
    apply (list_eq_nth _ 0%R).
    + rewrite app_length, !tab_length, app_length. lia.
    + intros i Hi. rewrite app_length, !tab_length in Hi. rewrite (nth_tab _ (length (nth ch b [] ++ rest_ch))) by (rewrite app_length; lia).
      destruct (Nat.lt_ge_cases i B) as [A|A].
      * rewrite app_nth1 by (rewrite tab_length; auto). rewrite nth_tab by auto. apply lconv_prefix. intros m Hm. rewrite app_assoc.
        rewrite (app_nth1 (_ ++ _) rest_ch) by (rewrite app_length; lia). reflexivity.
      * rewrite app_nth2 by (rewrite tab_length; auto). rewrite tab_length, nth_tab by lia. rewrite app_assoc. f_equal. rewrite app_length. lia.
Qed.

(** C60.  After any calls that returned: load a response and prepare, in either order, with
    blocks of the prepared size from then on.  Every channel is the linear convolution of what it
    was given with its (resampled) response, without delay, from a clean start. *)
Theorem C60_stream : forall resampler lanes history a spec blocks c0 outs0 setup, lanes_ok lanes ->
  setup = [CallLoad (Some a); CallPrepare spec] \/ setup = [CallPrepare spec; CallLoad (Some a)] ->
  host_calls resampler (history ++ setup) -> 0 < numChannels spec -> full_blocks spec blocks ->
  run_calls resampler lanes (history ++ setup) (pc_make lanes) = Ok (c0, outs0) ->
  exists c outs, run_calls resampler lanes (map CallProcess blocks) c0 = Ok (c, outs) /\ length outs = length blocks /\
    forall ch, ch < numChannels spec -> channel_stream outs ch =
      tab (length (channel_stream blocks ch)) (lconv (channel_stream blocks ch) (nth ch (a_data (resample resampler a (sampleRate spec))) [])).
Proof.
  intros resampler lanes history a spec blocks c0 outs0 setup Hl Hs H Hn Hb E0.
  pose proof (history_tracks resampler lanes _ Hl H) as T. destruct (listen_all resampler (history ++ setup) deaf) as [[s outs1]| |] eqn:El; [|rewrite E0 in T; discriminate|contradiction].
  destruct T as (c1 & E1 & T). rewrite E1 in E0. inversion E0; subst c1 outs1; clear E0.
  assert (Hst : s = Listener (Some spec) (Some a) (repeat [] (numChannels spec))).
  { rewrite listen_app in El. destruct (listen_all resampler history deaf) as [[s1 o1]| |]; [|discriminate|discriminate]. cbn [bind] in El.
    destruct Hs as [-> | ->]; cbn [listen_all] in El.
    - destruct (start_over resampler _) as [s2| |] eqn:E2 in El; [|discriminate|discriminate]. cbn [bind] in El.
      destruct (start_over resampler _) as [s3| |] eqn:E3 in El; [|discriminate|discriminate]. cbn [bind] in El. inversion El; subst s.
      assert (R2 : l_response s2 = Some a). { unfold start_over in E2. cbn [l_spec l_response heard] in E2. destruct (l_spec s1); [destruct (_ <=? _) in E2; [|discriminate]|]; inversion E2; reflexivity. }
      unfold start_over in E3. cbn [l_spec l_response heard] in E3. rewrite R2 in E3. destruct (_ <=? _) in E3; [|discriminate]. inversion E3. reflexivity.
    - destruct (start_over resampler _) as [s2| |] eqn:E2 in El; [|discriminate|discriminate]. cbn [bind] in El.
      destruct (start_over resampler _) as [s3| |] eqn:E3 in El; [|discriminate|discriminate]. cbn [bind] in El. inversion El; subst s.
      assert (R2 : l_spec s2 = Some spec). { unfold start_over in E2. cbn [l_spec l_response heard] in E2. destruct (l_response s1); [destruct (_ <=? _) in E2; [|discriminate]|]; inversion E2; reflexivity. }
      unfold start_over in E3. cbn [l_spec l_response heard] in E3. rewrite R2 in E3. destruct (_ <=? _) in E3; [|discriminate]. inversion E3. reflexivity. }
  destruct (host_split resampler _ H) as (H1 & H2).
  assert (HS : In (CallPrepare spec) (history ++ setup)) by (apply in_or_app; right; destruct Hs as [-> | ->]; cbn; auto).
  destruct (H1 spec HS) as (k & Hk & EB). assert (HB : 0 < 2 ^ k) by (apply Nat.neq_0_lt_0, Nat.pow_nonzero; lia). rewrite Hst in T.
  destruct (listen_stream resampler spec a blocks (repeat [] (numChannels spec)) Hn ltac:(lia) Hb (repeat_length _ _)) as (s' & outs & Ea & Lo & V).
  pose proof (calls_track resampler lanes Hl _ _ H1 H2 (map CallProcess blocks) _ c0 T) as P. rewrite Ea in P.
  destruct P as (c & Ec & _).
  - intros spec' Hin. apply in_map_iff in Hin. destruct Hin as (? & ? & _). discriminate.
  - intros a' Hin. apply in_map_iff in Hin. destruct Hin as (? & ? & _). discriminate.
  - intros b Hin row Hr. apply in_map_iff in Hin. destruct Hin as (b' & [= ->] & Hin). destruct (Hb b Hin) as [L M]. rewrite (M row Hr).
    destruct b as [|r0 t]; [destruct Hr|]. symmetry. cbn. apply M. left; auto.
  - exists c, outs. split; [exact Ec|]. split; [exact Lo|]. intros ch Hch. rewrite (V ch Hch). rewrite nth_repeat. reflexivity.
Qed.

(** Until both a response and a specification are there, and after reset(), every block is passed
    on unchanged, of any size. *)
Theorem C60_dry : forall resampler lanes history c0 outs0 blocks, lanes_ok lanes -> host_calls resampler history ->
  run_calls resampler lanes history (pc_make lanes) = Ok (c0, outs0) ->
  (forall spec, ~ In (CallPrepare spec) history) \/ (forall a, ~ In (CallLoad (Some a)) history) \/ (exists h, history = h ++ [CallReset]) ->
  run_calls resampler lanes (map CallProcess blocks) c0 = Ok (c0, blocks).
Proof.
  intros resampler lanes history c0 outs0 blocks Hl H E Hcase.
  assert (Hc : pc_convolvers lanes c0 = []).
  { destruct Hcase as [Hc|[Hc|(h & ->)]].
    3:{ rewrite calls_app in E. destruct (run_calls resampler lanes h (pc_make lanes)) as [[c1 o1]| |]; [|discriminate|discriminate]. cbn [bind run_calls] in E. inversion E. reflexivity. }
    all: pose proof (history_tracks resampler lanes _ Hl H) as T; destruct (listen_all resampler history deaf) as [[s outs1]| |]; [|rewrite E in T; discriminate|contradiction];
      destruct T as (c1 & E1 & T); rewrite E1 in E; inversion E; subst c1 outs1; destruct T as (_ & _ & Lc & O1 & O2 & Hn & _).
    - rewrite Hn in Lc. { apply length_zero_iff_nil. exact Lc. } left. destruct (l_spec s) as [spec|]; auto. exfalso. apply (Hc spec). auto.
    - rewrite Hn in Lc. { apply length_zero_iff_nil. exact Lc. } right. destruct (l_response s) as [a|]; auto. exfalso. apply (Hc a). auto. }
  induction blocks as [|b rest IH]; cbn [map run_calls]; auto. unfold pc_process. rewrite Hc. cbn [bind]. rewrite IH. reflexivity.
Qed.

(** C60.  processBlocks() on a signal of any length, with an object in any state that has the
    response [a] loaded: the whole blocks are the linear convolution; the rest is not convolved.
    The object ends up reset. *)
Theorem C60_process_blocks : forall resampler lanes c0 a k channels n rate input output, lanes_ok lanes -> pc_impulse lanes c0 = Some a ->
  let r := resample resampler a rate in 0 < k < max_order -> 0 < channels -> response_fits (2 ^ k) r -> matrix_of channels n input -> matrix_of channels n output ->
  (channels <= a_channels r ->
   exists c, processBlocks resampler lanes channels n input output (2 ^ k) rate c0 =
     Ok (c, tab channels (fun ch => tab n (played (2 ^ k) n (nth ch (a_data r) []) (nth ch input [])))) /\
     forall blocks, run_calls resampler lanes (map CallProcess blocks) c = Ok (c, blocks)) /\
  (a_channels r < channels -> processBlocks resampler lanes channels n input output (2 ^ k) rate c0 = UB).
Proof.
  intros resampler lanes c0 a k channels n rate input output Hl Ea r Hk Hch Hr Mi Mo.
  set (spec := ProcessSpec rate (2 ^ k) channels). set (okS := fun p => p = spec). set (okA := fun x => x = a).
  assert (HS : forall p, okS p -> exists k0, 0 < k0 < max_order /\ maximumBlockSize p = 2 ^ k0) by (intros p ->; exists k; auto).
  assert (HA : forall p x, okS p -> okA x -> response_fits (maximumBlockSize p) (resample resampler x (sampleRate p))) by (intros p x -> ->; exact Hr).
  destruct (process_blocks_ok resampler lanes Hl okS okA HS HA c0 a spec n input output k) as [P1 P2]; try reflexivity; auto.
  split; intros Hle.
  - destruct (P1 Hle) as (c & Ec & Tc). exists c. split; [exact Ec|]. intros blocks.
    assert (Hc : pc_convolvers lanes c = []) by (apply length_zero_iff_nil; apply Tc).
    induction blocks as [|b rest IH]; cbn [map run_calls]; auto. unfold pc_process. rewrite Hc. cbn [bind]. rewrite IH. reflexivity.
  - apply P2. exact Hle.
Qed.

(** A maximum block size that is no power of two: the first block of that size writes out of range. *)
Theorem C60_other_block_sizes_out_of_bounds : forall resampler lanes c spec a b, lanes_ok lanes -> pc_impulse lanes c = Some a ->
  let B := maximumBlockSize spec in let r := resample resampler a (sampleRate spec) in
  1 < B -> 2 ^ Nat.log2_up B <> B -> 4 * B <= 2 ^ max_order -> response_fits (2 * B) r ->
  (Z.of_nat (a_channels r) * Z.of_nat (ceil_div (a_samples r) B) * Z.of_nat (2 * B + 1) < max_elements)%Z ->
  0 < numChannels spec <= a_channels r -> 0 < length b -> length (nth 0 b []) = B ->
  exists c', pc_prepare resampler lanes spec c = Ok c' /\ pc_process lanes (samples_of b) b c' = UB.
Proof.
  intros resampler lanes c spec a b Hl Ea B r HB1 HBM HM (Mm & Hc0 & Hs & H31 & _) Hmax Hn Lb Lrow.
  assert (HM2 : 2 ^ Nat.log2_up B <= 2 * B).
  { pose proof (Nat.log2_up_spec B ltac:(lia)) as [G _]. assert (0 < Nat.log2_up B) by (apply Nat.log2_up_pos; lia).
    replace (Nat.log2_up B) with (S (Nat.pred (Nat.log2_up B))) by lia. rewrite Nat.pow_succ_r'. lia. }
  apply (odd_block_size lanes Hl resampler c spec a b); auto; fold B r; try lia.
  eapply Z.le_lt_trans; [|exact Hmax]. apply Z.mul_le_mono_nonneg_l; lia.
Qed.

(** A load that fails should leave the object as it is; it drops what was played so far.  And the
    end of a signal should be convolved like its beginning. *)
Definition call_echo : list call := [CallLoad (Some late_echo); CallPrepare (ProcessSpec 48000 2 1)].

Lemma echo_calls : forall resampler rest, (forall spec, ~ In (CallPrepare spec) rest) -> (forall a, ~ In (CallLoad (Some a)) rest) ->
  (forall b, In (CallProcess b) rest -> forall row, In row b -> length row = samples_of b) -> host_calls resampler (call_echo ++ rest).
Proof.
  intros resampler rest H1 H2 H3. split; [|split].
  - intros spec [H|[H|H]]; [discriminate| |exfalso; eapply H1; eauto]. injection H as <-. exists 1. unfold max_order. split; [lia|reflexivity].
  - intros spec a [H|[H|H]] [G|[G|G]]; try discriminate; try (exfalso; eapply H1; eauto; fail); try (exfalso; eapply H2; eauto; fail).
    injection H as <-. injection G as <-. exact (echo_fits resampler).
  - intros b [H|[H|H]]; try discriminate. auto.
Qed.

Lemma echo_heard : forall resampler rest, listen_all resampler (call_echo ++ rest) deaf = listen_all resampler rest (Listener (Some (ProcessSpec 48000 2 1)) (Some late_echo) [[]]).
Proof.
  intros resampler rest. unfold call_echo, start_over. cbn -[resample late_echo listen]. rewrite echo_is. reflexivity.
Qed.

Theorem C60_failed_load_refuted : forall resampler lanes, lanes_ok lanes -> exists c c',
  run_calls resampler lanes (call_echo ++ [CallProcess [[1; 0]]; CallProcess [[0; 0]]]%R) (pc_make lanes) = Ok (c, [[[0; 0]]; [[1; 0]]]%R) /\
  run_calls resampler lanes (call_echo ++ [CallProcess [[1; 0]]; CallLoad None; CallProcess [[0; 0]]]%R) (pc_make lanes) = Ok (c', [[[0; 0]]; [[0; 0]]]%R).
Proof.
  intros resampler lanes Hl.
  destruct (C60_calls resampler lanes (call_echo ++ [CallProcess [[1; 0]]; CallProcess [[0; 0]]]%R) Hl) as (A & _).
  { apply echo_calls; [intros ? [H|[H|[]]]; discriminate|intros ? [H|[H|[]]]; discriminate|]. intros b [H|[H|[]]] row Hr; injection H as <-; destruct Hr as [<-|[]]; reflexivity. }
  destruct (C60_calls resampler lanes (call_echo ++ [CallProcess [[1; 0]]; CallLoad None; CallProcess [[0; 0]]]%R) Hl) as (A2 & _).
  { apply echo_calls; [intros ? [H|[H|[H|[]]]]; discriminate|intros ? [H|[H|[H|[]]]]; discriminate|]. intros b [H|[H|[H|[]]]] row Hr; try discriminate; injection H as <-; destruct Hr as [<-|[]]; reflexivity. }
  assert (Z0 : lconv [1; 0]%R [0; 0; 1]%R 0 = 0%R) by (unfold lconv, Rsum; cbn; ring). assert (Z1 : lconv [1; 0]%R [0; 0; 1]%R 1 = 0%R) by (unfold lconv, Rsum; cbn; ring).
  assert (Z2 : lconv [1; 0; 0; 0]%R [0; 0; 1]%R 2 = 1%R) by (unfold lconv, Rsum; cbn; ring). assert (Z3 : lconv [1; 0; 0; 0]%R [0; 0; 1]%R 3 = 0%R) by (unfold lconv, Rsum; cbn; ring).
  assert (Y0 : lconv [0; 0]%R [0; 0; 1]%R 0 = 0%R) by (unfold lconv, Rsum; cbn; ring). assert (Y1 : lconv [0; 0]%R [0; 0; 1]%R 1 = 0%R) by (unfold lconv, Rsum; cbn; ring).
  assert (L1 : exists s, listen_all resampler (call_echo ++ [CallProcess [[1; 0]]; CallProcess [[0; 0]]]%R) deaf = Ok (s, [[[0; 0]]; [[1; 0]]]%R)).
  { rewrite echo_heard. unfold listen_all, listen. cbn -[lconv resample]. rewrite !echo_is. cbn -[lconv]. rewrite Z0, Z1, Z2, Z3. eauto. }
  assert (L2 : exists s, listen_all resampler (call_echo ++ [CallProcess [[1; 0]]; CallLoad None; CallProcess [[0; 0]]]%R) deaf = Ok (s, [[[0; 0]]; [[0; 0]]]%R)).
  { rewrite echo_heard. unfold listen_all, listen, start_over. cbn -[lconv resample]. rewrite !echo_is. cbn -[lconv resample]. rewrite ?echo_is. cbn -[lconv]. rewrite Z0, Z1, Y0, Y1. eauto. }
  destruct L1 as (s1 & L1), L2 as (s2 & L2). destruct (A _ _ L1) as (c & E). destruct (A2 _ _ L2) as (c' & E'). exists c, c'. auto.
Qed.

Theorem C60_process_blocks_end_refuted : forall resampler lanes, lanes_ok lanes -> exists c,
  processBlocks resampler lanes 1 3 [[1; 0; 0]]%R [[7; 7; 7]]%R 2 48000 (PConv lanes None (Some late_echo) []) = Ok (c, [[0; 0; 0]]%R) /\
  lconv [1; 0; 0]%R [0; 0; 1]%R 2 = 1%R.
Proof.
  intros resampler lanes Hl.
  destruct (C60_process_blocks resampler lanes (PConv lanes None (Some late_echo) []) late_echo 1 1 3 48000 [[1; 0; 0]]%R [[7; 7; 7]]%R Hl eq_refl) as [A _]; try (unfold max_order; lia).
  - exact (echo_fits resampler).
  - split; auto. intros row [<-|[]]. reflexivity.
  - split; auto. intros row [<-|[]]. reflexivity.
  - rewrite echo_is in A. destruct A as (c & E & _); [cbn; lia|]. exists c. split; [|unfold lconv, Rsum; cbn; ring].
    change (2 ^ 1) with 2 in E. rewrite E. do 2 f_equal. unfold played. change (3 / 2 * 2) with 2. cbn. unfold lconv, Rsum. cbn. repeat (f_equal; try ring).
Qed.

(** The hypotheses of the theorems are met: a stereo response, after a failed and a successful load. *)
Example C60_instance : forall resampler lanes, lanes_ok lanes ->
  let a := Audio 2 3 48000 [[1; 2; 3]; [0; 0; 1]]%R in let spec := ProcessSpec 48000 2 2 in
  let history := [CallProcess [[5; 6; 7]]%R; CallLoad None; CallReset] in let setup := [CallLoad (Some a); CallPrepare spec] in
  exists c0 outs0 c outs, run_calls resampler lanes (history ++ setup) (pc_make lanes) = Ok (c0, outs0) /\
    run_calls resampler lanes (map CallProcess [[[1; 0]; [1; 0]]; [[0; 0]; [0; 0]]]%R) c0 = Ok (c, outs) /\
    channel_stream outs 0 = [1; 2; 3; 0]%R /\ channel_stream outs 1 = [0; 0; 1; 0]%R.
Proof.
  intros resampler lanes Hl a spec history setup.
  assert (Er : resample resampler a 48000 = a) by (unfold resample; cbn [a_rate a]; rewrite exact_refl; reflexivity).
  assert (H : host_calls resampler (history ++ setup)).
  { split; [|split].
    - intros sp [H|[H|[H|[H|[H|[]]]]]]; try discriminate. injection H as <-. exists 1. unfold max_order. split; [lia|reflexivity].
    - intros sp x [H|[H|[H|[H|[H|[]]]]]] [G|[G|[G|[G|[G|[]]]]]]; try discriminate. injection H as <-. injection G as <-. cbn [sampleRate spec maximumBlockSize]. rewrite Er.
      split; [split; auto; intros row [<-|[<-|[]]]; auto|]. split; [cbn; lia|]. split; [cbn; lia|]. split; reflexivity.
    - intros b [H|[H|[H|[H|[H|[]]]]]] row Hr; try discriminate. injection H as <-. destruct Hr as [<-|[]]; reflexivity. }
  destruct (C60_calls resampler lanes _ Hl H) as (A & _).
  destruct (A (Listener (Some spec) (Some a) [[]; []]) [[[5; 6; 7]]]%R) as (c0 & E0).
  { cbn. unfold start_over. cbn. rewrite Er. reflexivity. }
  assert (Hb : full_blocks spec [[[1; 0]; [1; 0]]; [[0; 0]; [0; 0]]]%R) by (intros b [<-|[<-|[]]]; (split; auto; intros row [<-|[<-|[]]]; auto)).
  destruct (C60_stream resampler lanes history a spec [[[1; 0]; [1; 0]]; [[0; 0]; [0; 0]]]%R c0 _ setup Hl (or_introl eq_refl) H ltac:(cbn; lia) Hb E0) as (c & outs & E & _ & V).
  exists c0, [[[5; 6; 7]]]%R, c, outs. split; [exact E0|]. split; [exact E|]. rewrite (V 0), (V 1) by (cbn; lia). cbn [sampleRate spec]. rewrite Er.
  split; unfold lconv, Rsum; cbn; repeat (f_equal; try ring).
Qed.

Print Assumptions C60_calls.
Print Assumptions C60_stream.
Print Assumptions C60_dry.
Print Assumptions C60_process_blocks.
Print Assumptions C60_other_block_sizes_out_of_bounds.
Print Assumptions C60_failed_load_refuted.
Print Assumptions C60_process_blocks_end_refuted.
