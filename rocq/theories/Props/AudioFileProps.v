(** Property theorems C83: reading and writing the plugin's audio files. *)
From Coq Require Import Reals List Arith ZArith Lia Lra Bool.
From Flocq Require Import Core.
From Verif Require Import Base.Outcome Base.OutcomeFacts Spec.Stft Model.Integers Model.Statistics Model.PluginConvolution Model.AudioFile.
Import ListNotations.
Local Open Scope nat_scope.

Lemma exact_same : forall x, exact x x = true. Proof. intros x. unfold exact. destruct (Req_EM_T x x); tauto. Qed.
Lemma exact_other : forall x y, x <> y -> exact x y = false. Proof. intros x y H. unfold exact. destruct (Req_EM_T x y); tauto. Qed.

Lemma int32_small : forall v, (0 <= v < 2 ^ 31)%Z -> iconv int32 v = v.
Proof.
  intros v H. unfold iconv, int32. cbn [isigned iwidth]. change (32 - 1)%Z with 31%Z. rewrite Z.mod_small by lia. lia.
Qed.

Lemma uint32_small : forall v, (0 <= v < 2 ^ 32)%Z -> iconv (Ity 32 false) v = v.
Proof. intros v H. unfold iconv. cbn [isigned iwidth]. apply Z.mod_small. lia. Qed.

Lemma rows_eq : forall (r c : nat) (m : list (list R)), matrix_of r c m -> tab r (fun i => tab c (fun j => nth j (nth i m []) 0%R)) = m.
Proof.
  intros r c m [Hl Hr]. apply (nth_ext _ _ [] []). { rewrite tab_length. auto. }
  intros i Hi. rewrite tab_length in Hi. rewrite nth_tab by auto. assert (L : length (nth i m []) = c) by (apply Hr, nth_In; lia).
  apply (nth_ext _ _ 0%R 0%R). { rewrite tab_length. auto. }
  intros j Hj. rewrite tab_length in Hj. rewrite nth_tab by auto. reflexivity.
Qed.

(** A recording with fewer than 2^31 channels and samples. *)
Definition int_sized (r : recording) : Prop := (0 <= rec_channels r < 2 ^ 31 /\ 0 <= rec_length r < 2 ^ 31)%Z.

(** C83.  Loading a file delivers every sample of its recording and its rate; a file that holds
    no recording or cannot be read delivers an empty buffer with rate 0. *)
Theorem C83_load : forall r rest, int_sized r -> rec_intact r = true ->
  exists a, load_file (r :: rest) = Ok a /\
    Z.of_nat (a_channels a) = rec_channels r /\ Z.of_nat (a_samples a) = rec_length r /\ a_rate a = rec_rate r /\
    matrix_of (a_channels a) (a_samples a) (a_data a) /\
    forall ch i, ch < a_channels a -> i < a_samples a -> nth i (nth ch (a_data a) []) 0%R = rec_sample r ch i.
Proof.
  intros r rest [Hc Hn] I. eexists. split.
  { unfold load_file, new_buffer. rewrite !int32_small by auto. rewrite (proj2 (Z.leb_le 0 (rec_channels r))) by lia.
    rewrite (proj2 (Z.leb_le 0 (rec_length r))) by lia. cbn [andb guard bind]. rewrite I. reflexivity. }
  cbn [a_channels a_samples a_rate a_data]. split; [lia|]. split; [lia|]. split; [reflexivity|]. split.
  - split; [apply tab_length|]. intros row Hr. apply (In_nth _ _ []) in Hr. destruct Hr as (i & Hi & <-). rewrite tab_length in Hi.
    rewrite nth_tab by auto. apply tab_length.
  - intros ch i Hch Hi. rewrite nth_tab by auto. rewrite nth_tab by auto. reflexivity.
Qed.

Theorem C83_load_failed : load_file [] = Ok (Audio 0 0 0%R []) /\
  forall r rest, int_sized r -> rec_intact r = false -> load_file (r :: rest) = Ok (Audio 0 0 0%R []).
Proof.
  split; [reflexivity|]. intros r rest [Hc Hn] I. unfold load_file, new_buffer. rewrite !int32_small by auto.
  rewrite (proj2 (Z.leb_le 0 (rec_channels r))) by lia. rewrite (proj2 (Z.leb_le 0 (rec_length r))) by lia. cbn [andb guard bind]. rewrite I. reflexivity.
Qed.

(** Longer recordings are cut to their length modulo 2^32 without notice, or are undefined. *)
Theorem C83_long_file_refuted : forall r rest, (0 <= rec_channels r < 2 ^ 31)%Z -> rec_intact r = true ->
  (forall k, (2 ^ 32 + k = rec_length r)%Z -> (0 <= k < 2 ^ 31)%Z ->
     exists a, load_file (r :: rest) = Ok a /\ Z.of_nat (a_samples a) = k) /\
  ((2 ^ 31 <= rec_length r < 2 ^ 32)%Z -> load_file (r :: rest) = UB).
Proof.
  intros r rest Hc I. unfold load_file, new_buffer. rewrite (int32_small _ Hc). rewrite (proj2 (Z.leb_le 0 (rec_channels r))) by lia. split.
  - intros k E Hk. assert (W : iconv int32 (rec_length r) = k).
    { unfold iconv, int32. cbn [isigned iwidth]. change (32 - 1)%Z with 31%Z. rewrite <- E. replace (2 ^ 32 + k + 2 ^ 31)%Z with (k + 2 ^ 31 + 1 * 2 ^ 32)%Z by ring.
      rewrite Z.mod_add by lia. rewrite Z.mod_small by lia. lia. }
    rewrite W, (proj2 (Z.leb_le 0 k)) by lia. cbn [andb guard bind]. rewrite I. eexists. split; [reflexivity|]. cbn [a_samples]. lia.
  - intros Hn. assert (W : iconv int32 (rec_length r) = (rec_length r - 2 ^ 32)%Z).
    { unfold iconv, int32. cbn [isigned iwidth]. change (32 - 1)%Z with 31%Z. replace (rec_length r + 2 ^ 31)%Z with (rec_length r - 2 ^ 31 + 1 * 2 ^ 32)%Z by ring.
      rewrite Z.mod_add by lia. rewrite Z.mod_small by lia. lia. }
    rewrite W, (proj2 (Z.leb_gt 0 (rec_length r - 2 ^ 32))) by lia. reflexivity.
Qed.

(** Loading at a given rate: a recording of that rate as it is; any other with the channels it
    has, the rate asked for and a length that is right to half a sample, but at least one. *)
Theorem C83_load_and_resample : forall interpolated r rest dest, int_sized r -> rec_intact r = true -> (0 < rec_rate r)%R -> (0 < dest)%R ->
  (rec_rate r = dest -> load_and_resample interpolated (r :: rest) dest = load_file (r :: rest)) /\
  (let wanted := (IZR (rec_length r) * dest / rec_rate r)%R in
   rec_rate r <> dest -> (wanted < 2 ^ 31 - 1)%R ->
   exists a, load_and_resample interpolated (r :: rest) dest = Ok a /\
     Z.of_nat (a_channels a) = rec_channels r /\ a_rate a = dest /\ matrix_of (a_channels a) (a_samples a) (a_data a) /\
     0 < a_samples a /\ (Rabs (INR (a_samples a) - Rmax 1 wanted) <= / 2)%R).
Proof.
  intros interpolated r rest dest Hs I Hr Hd. destruct (C83_load r rest Hs I) as (b & E & Ec & En & Er & _). split.
  - intros Q. unfold load_and_resample. rewrite E. cbn [bind]. rewrite Er, Q, exact_same. reflexivity.
  - intros wanted Q W. unfold load_and_resample. rewrite E. cbn [bind]. rewrite Er, exact_other by auto. cbn [negb].
    unfold resample_buffer, final_size. rewrite Er, !exact_other by (auto; lra). cbn [bind].
    assert (Ew : (INR (a_samples b) / (rec_rate r / dest))%R = wanted).
    { unfold wanted. rewrite <- En, <- INR_IZR_INZ. field. lra. }
    rewrite Ew. set (m := Rmax 1 wanted). assert (M1 : (1 <= m)%R) by apply Rmax_l.
    assert (M2 : (m <= 2 ^ 31 - 1)%R) by (apply Rmax_lub; lra).
    assert (Z1 : (1 <= ZnearestE m)%Z) by (rewrite <- (Zrnd_IZR ZnearestE 1); apply Zrnd_le; [apply valid_rnd_N|auto]).
    assert (Z2 : (ZnearestE m <= 2 ^ 31 - 1)%Z).
    { rewrite <- (Zrnd_IZR ZnearestE (2 ^ 31 - 1)). apply Zrnd_le; [apply valid_rnd_N|]. change (2 ^ 31 - 1)%Z with 2147483647%Z. lra. }
    rewrite int32_small by lia. unfold new_buffer. rewrite (proj2 (Z.leb_le 0 (Z.of_nat (a_channels b)))) by lia. rewrite (proj2 (Z.leb_le 0 (ZnearestE m))) by lia.
    cbn [andb guard bind]. eexists. split; [reflexivity|]. cbn [a_channels a_samples a_rate a_data].
    split; [rewrite Z2Nat.id; lia|]. split; [reflexivity|]. split.
    { split; [apply tab_length|]. intros row Hrow. apply (In_nth _ _ []) in Hrow. destruct Hrow as (i & Hi & <-). rewrite tab_length in Hi. rewrite nth_tab by auto. apply tab_length. }
    split; [lia|]. rewrite INR_IZR_INZ, Z2Nat.id by lia. rewrite Rabs_minus_sym. apply Znearest_half.
Qed.

(** A file that cannot be loaded is resampled too: no channels, but one sample. *)
Theorem C83_failed_load_resampled_refuted : forall interpolated dest, dest <> 0%R ->
  load_and_resample interpolated [] dest = Ok (Audio 0 1 dest []).
Proof.
  intros interpolated dest H. unfold load_and_resample, load_file. cbn [bind no_file a_rate]. rewrite exact_other by auto. cbn [negb].
  unfold resample_buffer, final_size. cbn [no_file a_rate a_samples a_channels]. rewrite exact_other by auto. rewrite exact_same. reflexivity.
Qed.

(** Before the host has told the sample rate it is 0: every file with a rate shrinks to one sample. *)
Theorem C83_rate_zero_refuted : forall interpolated r rest, int_sized r -> rec_intact r = true -> rec_rate r <> 0%R ->
  exists a, load_and_resample interpolated (r :: rest) 0 = Ok a /\ a_samples a = 1 /\ a_rate a = 0%R.
Proof.
  intros interpolated r rest Hs I H. destruct (C83_load r rest Hs I) as (b & E & Ec & En & Er & _).
  unfold load_and_resample. rewrite E. cbn [bind]. rewrite Er, exact_other by auto. cbn [negb].
  unfold resample_buffer, final_size. rewrite Er, exact_other, exact_same by auto. cbn [bind]. unfold new_buffer.
  rewrite (proj2 (Z.leb_le 0 (Z.of_nat (a_channels b)))) by lia. cbn [andb guard bind]. eexists. split; [reflexivity|]. split; reflexivity.
Qed.

(** Written with 32 bits to a new file and loaded again, a buffer is what it was. *)
Theorem C83_write_then_load : forall quantised channels samples buffer rate, matrix_of channels samples buffer ->
  0 < samples -> (Z.of_nat channels < 2 ^ 31)%Z -> (Z.of_nat samples < 2 ^ 31)%Z ->
  exists file, write_to_wav_file quantised (Some []) channels samples buffer rate 32 = Ok (Some file) /\
    load_file file = Ok (Audio channels samples rate buffer).
Proof.
  intros quantised channels samples buffer rate M Hs Hc Hn. unfold write_to_wav_file.
  rewrite uint32_small by lia. rewrite (proj2 (Z.ltb_lt 0 (Z.of_nat samples))) by lia. rewrite orb_true_r. cbn [guard bind existsb wav_depths Z.eqb Pos.eqb orb].
  eexists. split; [reflexivity|]. cbn [app]. unfold load_file, new_buffer. cbn [rec_channels rec_length rec_intact rec_rate rec_sample].
  rewrite !(int32_small (Z.of_nat _)) by lia. rewrite Z.max_r by lia. rewrite int32_small by lia.
  rewrite (proj2 (Z.leb_le 0 (Z.of_nat channels))) by lia. rewrite (proj2 (Z.leb_le 0 (Z.of_nat samples))) by lia. cbn [andb guard bind].
  rewrite !Nat2Z.id. unfold stored. cbn [Z.eqb Pos.eqb]. rewrite rows_eq by auto. reflexivity.
Qed.

(** Written over an existing recording it is appended, and loading delivers the old one. *)
Theorem C83_existing_file_refuted : forall quantised r rest channels samples buffer rate bits file,
  write_to_wav_file quantised (Some (r :: rest)) channels samples buffer rate bits = Ok (Some file) ->
  load_file file = load_file [r].
Proof.
  intros quantised r rest channels samples buffer rate bits file H. unfold write_to_wav_file in H.
  destruct ((iconv (Ity 32 false) (Z.of_nat channels) =? 0)%Z || (0 <? Z.of_nat samples)%Z)%bool; cbn [guard bind] in H; [|discriminate].
  destruct (existsb (Z.eqb bits) wav_depths); injection H as <-; reflexivity.
Qed.

(** A buffer with channels but no samples cannot be written; other bit depths write nothing. *)
Theorem C83_empty_buffer_undefined : forall quantised file channels buffer rate bits, (0 < Z.of_nat channels < 2 ^ 32)%Z ->
  write_to_wav_file quantised file channels 0 buffer rate bits = UB.
Proof.
  intros quantised file channels buffer rate bits H. unfold write_to_wav_file. rewrite uint32_small by lia.
  rewrite (proj2 (Z.eqb_neq (Z.of_nat channels) 0)) by lia. reflexivity.
Qed.

Theorem C83_other_depths : forall quantised old channels samples buffer rate bits, 0 < samples ->
  (bits <> 8 /\ bits <> 16 /\ bits <> 24 /\ bits <> 32)%Z ->
  write_to_wav_file quantised (Some old) channels samples buffer rate bits = Ok (Some old) /\
  write_to_wav_file quantised None channels samples buffer rate bits = Ok None.
Proof.
  intros quantised old channels samples buffer rate bits Hs (B1 & B2 & B3 & B4). unfold write_to_wav_file.
  rewrite (proj2 (Z.ltb_lt 0 (Z.of_nat samples))) by lia. rewrite orb_true_r. cbn [guard bind existsb wav_depths].
  rewrite (proj2 (Z.eqb_neq bits 8)), (proj2 (Z.eqb_neq bits 16)), (proj2 (Z.eqb_neq bits 24)), (proj2 (Z.eqb_neq bits 32)) by auto. auto.
Qed.

(** A stereo recording of two samples, loaded at twice its rate, written and loaded again. *)
Example C83_example : forall interpolated quantised,
  let r := Recording 2 2 22050 true (fun ch i => INR (10 * ch + i)) in
  int_sized r /\ load_file [r] = Ok (Audio 2 2 22050 [[INR 0; INR 1]; [INR 10; INR 11]]) /\
  (exists a, load_and_resample interpolated [r] 44100 = Ok a /\ a_channels a = 2 /\ a_samples a = 4) /\
  (exists file, write_to_wav_file quantised (Some []) 2 2 [[1; 2]; [3; 4]]%R 22050 32 = Ok (Some file) /\
     load_file file = Ok (Audio 2 2 22050 [[1; 2]; [3; 4]]%R)).
Proof.
  intros interpolated quantised r. assert (S : int_sized r) by (split; cbn; lia). split; [auto|]. split; [reflexivity|]. split.
  - destruct (C83_load_and_resample interpolated r [] 44100 S eq_refl) as [_ H]; [cbn; lra|lra|]. cbv zeta in H. cbn [rec_rate rec_length rec_channels r] in H.
    destruct H as (a & E & Ec & _ & _ & _ & B); [lra|lra|]. exists a. split; [auto|]. split; [lia|].
    replace (2 * 44100 / 22050)%R with 4%R in B by lra. rewrite Rmax_right in B by lra. apply Rabs_le_inv in B.
    assert (3 < a_samples a < 5); [|lia]. split; apply INR_lt; rewrite (INR_IZR_INZ (_)); [|rewrite INR_IZR_INZ in *]; cbn [INR] in *; rewrite ?INR_IZR_INZ in *; cbn [Z.of_nat Pos.of_succ_nat Pos.succ] in *; lra.
  - apply C83_write_then_load; try lia; try (cbn; lia). split; [reflexivity|]. intros row [<-|[<-|[]]]; reflexivity.
Qed.

Print Assumptions C83_load.
Print Assumptions C83_load_failed.
Print Assumptions C83_long_file_refuted.
Print Assumptions C83_load_and_resample.
Print Assumptions C83_failed_load_resampled_refuted.
Print Assumptions C83_rate_zero_refuted.
Print Assumptions C83_write_then_load.
Print Assumptions C83_existing_file_refuted.
Print Assumptions C83_empty_buffer_undefined.
Print Assumptions C83_other_depths.
