(** Property theorems C54: the command line convolver.
    Specification: lconv (Spec/Convolution.v), energy and is_peak (Spec/Statistics.v). *)
From Coq Require Import Reals List Arith ZArith Lia Lra Bool.
From Verif Require Import Base.Outcome Base.OutcomeFacts Base.Sums Base.Cplx Spec.Stft Spec.Convolution Spec.Convolvers Spec.Statistics.
From Verif Require Import Model.Fft2 Model.Integers Model.Statistics Model.Stft Model.Convolution Model.Cli.
From Verif Require Import Proof.StatisticsProof Proof.CliProof Props.StatisticsProps.
Import ListNotations.
Local Arguments Nat.div : simpl never.
Local Arguments Nat.pow : simpl never.
Local Open Scope nat_scope.

(** The convolvers convolve() is instantiated with (the CLI uses the first two). *)
Inductive cli_convolver := CliUpola | CliSplitUpola (lanes : option nat) | CliUpols.
Definition cli_valid (c : cli_convolver) : Prop := match c with CliSplitUpola (Some l) => 0 < l | _ => True end.
Definition convolve (c : cli_convolver) :=
  match c with
  | CliUpola => cli_convolve ola dense_fdl dense_filter tt
  | CliSplitUpola lanes => cli_convolve ola dense_split_fdl (dense_split_filter lanes) tt
  | CliUpols => cli_convolve ols dense_fdl dense_filter tt
  end.

(** Sizes that fit the types the tool uses: a response that has samples and whose partitions can
    be allocated. *)
Definition sizes_fit (k ichannels iframes : nat) : Prop :=
  0 < k < max_order /\ 0 < ichannels /\ 0 < iframes /\ (Z.of_nat iframes < 2 ^ 64)%Z /\
  (Z.of_nat ichannels * Z.of_nat (ceil_div iframes (2 ^ k)) * Z.of_nat (2 ^ k + 1) < max_elements)%Z.

Ltac run_convolve c lem mm :=
  destruct c as [|lanes|]; unfold convolve;
  [ eapply (lem Upola _ _ _ _ describes_upola I I) with (m := mm)
  | eapply (lem (SplitUpola lanes) _ _ _ _ (describes_split lanes)) with (m := mm); [assumption|exact I|..]
  | eapply (lem Upols _ _ _ _ describes_upols I I) with (m := mm) ];
  first [eassumption | lia | apply scaled_matrix; assumption].

(** C54.  Every signal length, also when it is no multiple of the block size: each output channel
    is the start of the convolution of the signal with the response of that channel; all responses
    are scaled by the same factor, which leaves no channel with energy above 1. *)
Theorem C54_convolve : forall c k channels frames signal ichannels iframes impulse, cli_valid c -> sizes_fit k ichannels iframes ->
  matrix_of channels frames signal -> matrix_of ichannels iframes impulse -> channels <= ichannels ->
  (Z.of_nat channels < 2 ^ 31)%Z -> (Z.of_nat frames + Z.of_nat (2 ^ k) <= 2 ^ 31)%Z ->
  exists a, (0 < a)%R /\
    convolve c channels frames signal ichannels iframes impulse (2 ^ k) =
      Ok (tab channels (fun ch => tab frames (fun n => lconv (nth ch signal []) (nth ch impulse []) n * a)%R)) /\
    normalize_impulse (Mat ichannels iframes impulse) = Ok (Mat ichannels iframes (map (map (fun v => v * a)%R) impulse)) /\
    (forall ch, ch < ichannels -> energy (nth ch impulse []) <> 0%R -> (energy (map (fun v => v * a) (nth ch impulse [])) <= 1)%R).
Proof.
  intros c k channels frames signal ichannels iframes impulse Hv (Hk & Hi & Hif & H64 & Hmax) Hs Hm Hle Hc Hf.
  destruct (C18_normalize_impulse ichannels iframes impulse) as (a & Ha & En & He & _); auto.
  exists a. split; auto. split; [|split; auto].
  2:{ intros ch Hch N. apply He; auto. apply nth_In. destruct Hm as [L _]. lia. }
  replace (tab channels _) with (tab channels (fun ch => tab frames (lconv (nth ch signal []) (nth ch (map (map (fun v => v * a)%R) impulse) [])))).
  2:{ apply tab_ext. intros ch Hch. apply tab_ext. intros n Hn. rewrite nth_scaled. apply lconv_scale. }
  run_convolve c cli_convolve_ok (map (map (fun v => v * a)%R) impulse).
Qed.

(** A response with fewer channels than the signal (main() refuses these): out of bounds. *)
Theorem C54_convolve_missing_channels : forall c k channels frames signal ichannels iframes impulse, cli_valid c -> sizes_fit k ichannels iframes ->
  matrix_of channels frames signal -> matrix_of ichannels iframes impulse -> ichannels < channels ->
  (Z.of_nat channels < 2 ^ 31)%Z -> (Z.of_nat frames + Z.of_nat (2 ^ k) <= 2 ^ 31)%Z ->
  convolve c channels frames signal ichannels iframes impulse (2 ^ k) = UB.
Proof.
  intros c k channels frames signal ichannels iframes impulse Hv (Hk & Hi & Hif & H64 & Hmax) Hs Hm Hle Hc Hf.
  destruct (C18_normalize_impulse ichannels iframes impulse) as (a & Ha & En & _); auto.
  run_convolve c cli_convolve_missing (map (map (fun v => v * a)%R) impulse).
Qed.

(** A signal of 2^31 samples or more (below 2^32): the length is cast to int and gets negative. *)
Theorem C54_convolve_long_signal : forall c k channels frames signal ichannels iframes impulse, cli_valid c -> sizes_fit k ichannels iframes ->
  matrix_of channels frames signal -> matrix_of ichannels iframes impulse -> 0 < channels ->
  (2 ^ 31 <= Z.of_nat frames < 2 ^ 32)%Z ->
  convolve c channels frames signal ichannels iframes impulse (2 ^ k) = UB.
Proof.
  intros c k channels frames signal ichannels iframes impulse Hv (Hk & Hi & Hif & H64 & Hmax) Hs Hm Hc Hf.
  destruct (C18_normalize_impulse ichannels iframes impulse) as (a & Ha & En & _); auto.
  run_convolve c cli_convolve_long (map (map (fun v => v * a)%R) impulse).
Qed.

(** The convolution of each channel with its response, cut to the length of the signal. *)
Definition convolved (channels frames : nat) (signal filter : list (list R)) : list (list R) :=
  tab channels (fun ch => tab frames (lconv (nth ch signal []) (nth ch filter []))).

(** The tool: nothing is written when the numbers of channels or the sample rates differ;
    otherwise both runs write the same file, the convolution with the response (the gain of
    normalize_impulse has no effect) scaled to peak 1. *)
Theorem C54_main : forall lanes channels frames signal sr ichannels iframes filter fsr, (forall l, lanes = Some l -> 0 < l) ->
  (channels <> ichannels \/ sr <> fsr -> cli_main lanes channels frames signal sr ichannels iframes filter fsr = Ok None) /\
  (channels = ichannels -> sr = fsr -> sizes_fit 15 ichannels iframes -> matrix_of channels frames signal ->
   matrix_of ichannels iframes filter -> (Z.of_nat channels < 2 ^ 31)%Z -> (Z.of_nat frames + 2 ^ 15 <= 2 ^ 31)%Z ->
   exists a, (0 < a)%R /\
     let file := Mat channels frames (map (map (fun v => v * a)%R) (convolved channels frames signal filter)) in
     cli_main lanes channels frames signal sr ichannels iframes filter fsr = Ok (Some (file, file)) /\
     ((exists v, In v (entries file) /\ v <> 0%R) -> is_peak (entries file) 1)).
Proof.
  intros lanes channels frames signal sr ichannels iframes filter fsr Hl. split.
  - intros H. unfold cli_main. destruct (Nat.eqb_spec channels ichannels); [|reflexivity]. cbn [negb].
    destruct (exact sr fsr) eqn:E; [|reflexivity]. apply exact_true in E. tauto.
  - intros <- <- Hsz Hs Hm Hc Hf.
    assert (Hf' : (Z.of_nat frames + Z.of_nat (2 ^ 15) <= 2 ^ 31)%Z) by (rewrite Nat2Z.inj_pow; exact Hf).
    assert (V : cli_valid (CliSplitUpola lanes)) by (destruct lanes; cbn; auto).
    destruct (C54_convolve CliUpola 15 channels frames signal channels iframes filter I Hsz Hs Hm (le_n _) Hc Hf') as (a & Pa & E1 & En & _).
    destruct (C54_convolve (CliSplitUpola lanes) 15 channels frames signal channels iframes filter V Hsz Hs Hm (le_n _) Hc Hf') as (a2 & Pa2 & E2 & En2 & _).
    unfold cli_main, cli_runs, convolve in *. rewrite Nat.eqb_refl. cbn [negb].
    assert (Ex : exact sr sr = true) by (apply exact_true; reflexivity). rewrite Ex. cbn [negb].
    set (big := Mat channels frames (convolved channels frames signal filter)).
    assert (W : well_formed big).
    { split; [apply tab_length|]. intros row Hr. apply in_map_iff in Hr. destruct Hr as (q & <- & _). apply tab_length. }
    assert (Q : forall b, Mat channels frames (tab channels (fun ch => tab frames (fun n => lconv (nth ch signal []) (nth ch filter []) n * b)%R)) = obj_map (fun v => v * b)%R big).
    { intros b. unfold big, convolved, obj_map. f_equal. unfold tab. rewrite map_map. apply map_ext. intros ch. rewrite map_map. reflexivity. }
    destruct (C17_normalize_peak big W) as (f & Pf & Enp & Epk & Ez).
    exists f. split; auto. cbv zeta. split.
    + rewrite E1. cbn [bind]. rewrite (Q a), C17_normalize_peak_rescaled, Enp by auto. cbn [bind].
      rewrite E2. cbn [bind]. rewrite (Q a2), C17_normalize_peak_rescaled, Enp by auto. reflexivity.
    + intros (v & Hv & Nv). apply Epk.
      change (entries (Mat channels frames (map (map (fun v => v * f)%R) (convolved channels frames signal filter))))
        with (entries (obj_map (fun v => v * f)%R big)) in Hv.
      rewrite obj_map_entries in Hv. apply in_map_iff in Hv. destruct Hv as (u & <- & Hu). exists u. split; auto.
      intros ->. apply Nv. ring.
Qed.

(** The hypotheses are met: a stereo signal of three samples, blocks of two, a response of four
    samples. *)
Example C54_instance : exists a, (0 < a)%R /\
  convolve CliUpola 2 3 [[1; 2; 3]; [0; 1; 0]]%R 2 4 [[1; 0; 0; 1]; [0; 0; 2; 0]]%R (2 ^ 1) =
    Ok [[1 * a; 2 * a; 3 * a]; [0 * a; 0 * a; 0 * a]]%R.
Proof.
  destruct (C54_convolve CliUpola 1 2 3 [[1; 2; 3]; [0; 1; 0]]%R 2 4 [[1; 0; 0; 1]; [0; 0; 2; 0]]%R I) as (a & Pa & E & _); auto.
  - unfold sizes_fit, max_order, max_elements. repeat split; try lia; reflexivity.
  - split; [reflexivity|]. intros row [<-|[<-|[]]]; reflexivity.
  - split; [reflexivity|]. intros row [<-|[<-|[]]]; reflexivity.
  - reflexivity.
  - change (2 ^ 1) with 2. lia.
  - exists a. split; auto. rewrite E. unfold tab, lconv, Rsum. cbn. repeat (f_equal; try ring).
Qed.

Print Assumptions C54_convolve.
Print Assumptions C54_convolve_missing_channels.
Print Assumptions C54_convolve_long_signal.
Print Assumptions C54_main.
