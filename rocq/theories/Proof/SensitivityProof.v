(** Lemmas for C70. *)
From Coq Require Import Reals List Arith Lia Lra Bool ZArith.
From Verif Require Import Base.Outcome Base.OutcomeFacts Base.Sums Base.Cplx Base.VecNorm Base.Alias Spec.Dft Spec.Transforms
  Spec.Convolution Spec.Stft Spec.Convolvers Spec.Sensitivity Model.Fft2 Model.Convolution Model.Stft
  Proof.DftTheory Proof.ConvTheory Proof.OverlapProof Proof.StreamProof Proof.LtiProof Proof.UpcProof Proof.UpcInstances Proof.UpcFinal
  Proof.RoundedError Proof.StftProof Proof.ConvCorollaries Model.Integers.
Import ListNotations.
Local Arguments Nat.div : simpl never.
Local Arguments Nat.modulo : simpl never.
Local Arguments Nat.pow : simpl never.
Local Open Scope R_scope.

Lemma Rsum_abs : forall n f, Rabs (Rsum n f) <= Rsum n (fun i => Rabs (f i)).
Proof.
  induction n; intros f. { unfold Rsum. simpl. rewrite Rabs_R0. lra. }
  rewrite !Rsum_S. eapply Rle_trans; [apply Rabs_triang|]. specialize (IHn f). lra.
Qed.

Lemma Csum_abs : forall n f, Cabs (Csum n f) <= Rsum n (fun i => Cabs (f i)).
Proof.
  induction n; intros f. { unfold Rsum, Csum. simpl. rewrite Cabs_0. lra. }
  rewrite Csum_S, Rsum_S. eapply Rle_trans; [apply Cabs_triang|]. specialize (IHn f). lra.
Qed.

Lemma Cabs_Cexp : forall a, Cabs (Cexp a) = 1.
Proof. intros a. unfold Cabs. rewrite Cexp_norm2. apply sqrt_1. Qed.

Lemma Cabs_RtoC : forall r, Cabs (RtoC r) = Rabs r.
Proof. intros r. unfold Cabs, Cnorm2, RtoC. cbn [fst snd]. replace (r * r + 0 * 0) with (r²) by (unfold Rsqr; ring). apply sqrt_Rsqr_abs. Qed.

(** The projection of a value on a direction. *)
Lemma rotated : forall (x : C) a, Rabs (fst x * cos a - snd x * sin a) <= Cabs x.
Proof.
  intros x a. replace (fst x * cos a - snd x * sin a) with (fst (x * Cexp a)%C) by reflexivity.
  eapply Rle_trans; [apply Rabs_le_Cabs|]. rewrite Cabs_mul, Cabs_Cexp. lra.
Qed.

Lemma weight_pos : forall B j, 1 <= bin_weight B j <= 2.
Proof. intros B j. unfold bin_weight. destruct (_ || _)%bool; lra. Qed.

Lemma weight_sum : forall B c, (0 < B)%nat -> Rsum (B + 1) (fun j => bin_weight B j * c) = 2 * INR B * c.
Proof.
  intros B c HB. rewrite Rsum_mul_r. f_equal. replace (B + 1)%nat with (S (S (B - 1))) by lia. rewrite Rsum_S, Rsum_first.
  rewrite (Rsum_ext _ _ (fun _ => 2)), Rsum_const.
  - replace (S (B - 1)) with B by lia. unfold bin_weight. rewrite !Nat.eqb_refl, orb_true_r. cbn [orb].
    rewrite minus_INR by lia. cbn [INR]. ring.
  - intros i Hi. unfold bin_weight. replace (S i =? B)%nat with false by (symmetry; apply Nat.eqb_neq; lia). reflexivity.
Qed.

Lemma IRDFT_bound : forall m X j, (0 < m)%nat -> Rabs (IRDFT m X j) <= Rsum (m + 1) (fun i => bin_weight m i * Cabs (X i)).
Proof.
  intros m X j Hm. unfold IRDFT.
  assert (E : Rsum (m + 1) (fun i => bin_weight m i * Cabs (X i)) = Cabs (X O) + Cabs (X m) + 2 * Rsum (m - 1) (fun i => Cabs (X (S i)))).
  { replace (m + 1)%nat with (S (S (m - 1))) by lia. rewrite Rsum_S, Rsum_first. replace (S (m - 1)) with m by lia.
    rewrite (Rsum_ext _ _ (fun i => 2 * Cabs (X (S i)))), Rsum_mul_l.
    - unfold bin_weight. cbn [Nat.eqb orb]. rewrite Nat.eqb_refl, orb_true_r. ring.
    - intros i Hi. unfold bin_weight. replace (S i =? m)%nat with false by (symmetry; apply Nat.eqb_neq; lia). reflexivity. }
  rewrite E. clear E.
  eapply Rle_trans; [apply Rabs_triang|]. apply Rplus_le_compat.
  - eapply Rle_trans; [apply Rabs_triang|]. apply Rplus_le_compat; [apply Rabs_le_Cabs|].
    rewrite Rabs_mult, pow_1_abs, Rmult_1_l. apply Rabs_le_Cabs.
  - rewrite Rabs_mult, (Rabs_pos_eq 2) by lra. apply Rmult_le_compat_l; [lra|].
    eapply Rle_trans; [apply Rsum_abs|]. apply Rsum_mono. intros i Hi. apply rotated.
Qed.

(** A bin of a window is at most the sum of the magnitudes of its samples. *)
Lemma RDFT_bound : forall d x i, Cabs (nth i (RDFT_list d x) C0) <= Rsum (length x) (fun n => Rabs (nth n x 0)).
Proof.
  intros d x i. destruct (Nat.lt_ge_cases i (length x / 2 + 1)).
  - rewrite nth_RDFT by auto. unfold DFT. eapply Rle_trans; [apply Csum_abs|]. apply Rsum_mono. intros n Hn.
    rewrite Cabs_mul, W_abs, Cabs_RtoC. lra.
  - rewrite nth_overflow by (rewrite RDFT_list_length; auto). rewrite Cabs_0. apply Rsum_nonneg. intros. apply Rabs_pos.
Qed.

Definition entry_mass (B P : nat) (F : nat -> nat -> C) : R :=
  Rsum P (fun a => Rsum (B + 1) (fun i => bin_weight B i * Cabs (F a i))).

Lemma entry_mass_pos : forall B P F, 0 <= entry_mass B P F.
Proof.
  intros. apply Rsum_nonneg. intros a Ha. apply Rsum_nonneg. intros i Hi. apply Rmult_le_pos; [|apply Cabs_pos].
  pose proof (weight_pos B i). lra.
Qed.

Section Bound.
Variables (k P : nat).
Hypothesis Hk : (0 < k)%nat.
Let B := (2 ^ k)%nat.

Lemma B_pos : (0 < B)%nat. Proof using All. unfold B. apply Nat.neq_0_lt_0, Nat.pow_nonzero. lia. Qed.

Lemma mac_windows_bound : forall F Wn t j L, 0 <= L ->
  (forall u i, (u <= t)%nat -> Cabs (nth i (RDFT_list Forward (Wn u)) C0) <= L) ->
  Rabs (mac_windows k P F Wn t j) <= L * entry_mass B P F / INR (2 * B).
Proof using All.
  intros F Wn t j L HL H. pose proof B_pos as HB. rewrite mac_windows_sum. fold B. unfold Rdiv. rewrite Rabs_mult.
  assert (Hn : 0 < / INR (2 * B)) by (apply Rinv_0_lt_compat, lt_0_INR; lia).
  rewrite (Rabs_pos_eq (/ _)) by lra. apply Rmult_le_compat_r; [lra|].
  eapply Rle_trans; [apply IRDFT_bound; exact HB|].
  apply Rle_trans with (Rsum (B + 1) (fun i => bin_weight B i * Rsum P (fun a => L * Cabs (F a i)))).
  - apply Rsum_mono. intros i Hi. apply Rmult_le_compat_l. { pose proof (weight_pos B i). lra. }
    eapply Rle_trans; [apply Csum_abs|]. apply Rsum_mono. intros a Ha. unfold wterm. destruct (Nat.leb_spec a t).
    + rewrite Cabs_mul. apply Rmult_le_compat_r; [apply Cabs_pos|]. apply H. lia.
    + rewrite Cabs_0. apply Rmult_le_pos; [auto|apply Cabs_pos].
  - right. unfold entry_mass. rewrite <- Rsum_mul_l. rewrite (Rsum_ext _ _ (fun i => Rsum P (fun a => L * (bin_weight B i * Cabs (F a i))))).
    + rewrite Rsum_swap. apply Rsum_ext. intros a Ha. rewrite Rsum_mul_l. reflexivity.
    + intros i Hi. rewrite <- Rsum_mul_l. apply Rsum_ext. intros. ring.
Qed.

Lemma mac_windows_minus : forall F G Wn t j,
  mac_windows k P F Wn t j - mac_windows k P G Wn t j = mac_windows k P (fun a i => F a i - G a i)%C Wn t j.
Proof using All.
  intros F G Wn t j. pose proof B_pos as HB. rewrite !mac_windows_sum. fold B.
  assert (E : forall i, Csum P (fun a => wterm F Wn t a i) =
    (Csum P (fun a => wterm G Wn t a i) + Csum P (fun a => wterm (fun a i => F a i - G a i)%C Wn t a i))%C).
  { intros i. rewrite <- Csum_add. apply Csum_ext. intros a Ha. unfold wterm. destruct (a <=? t)%nat; ring. }
  rewrite (IRDFT_ext B (fun i => Csum P (fun a => wterm F Wn t a i)) _ j HB (fun i _ => E i)), IRDFT_add.
  unfold Rdiv. ring.
Qed.

Lemma peak_nth : forall M all n, 0 <= M -> peak_of M all -> Rabs (nth n (concat all) 0) <= M.
Proof using All.
  intros M all n HM H. destruct (Nat.lt_ge_cases n (length (concat all))) as [Hn|Hn].
  - apply (nth_In _ 0) in Hn. apply in_concat in Hn. destruct Hn as (b & Hb & Hv). eapply H; eauto.
  - rewrite nth_overflow, Rabs_R0 by auto. auto.
Qed.

Lemma save_bins : forall M all u i, 0 <= M -> peak_of M all ->
  Cabs (nth i (RDFT_list Forward (save_win k all u)) C0) <= INR (2 * B) * M.
Proof using All.
  intros M all u i HM H. eapply Rle_trans; [apply RDFT_bound|]. rewrite (save_win_length k Hk). fold B. rewrite <- Rsum_const.
  apply Rsum_mono. intros n Hn. rewrite nth_save_win by (fold B; auto). unfold delayed.
  destruct (_ <=? _)%nat; [apply peak_nth; auto|rewrite Rabs_R0; auto].
Qed.

Lemma add_bins : forall M all u i, 0 <= M -> peak_of M all ->
  Cabs (nth i (RDFT_list Forward (add_win k all u)) C0) <= INR B * M.
Proof using All.
  intros M all u i HM H. eapply Rle_trans; [apply RDFT_bound|]. rewrite (add_win_length k Hk). fold B. replace (2 * B)%nat with (B + B)%nat by lia.
  rewrite Rsum_split. rewrite (Rsum_0 B (fun i => Rabs (nth (B + i) _ 0))).
  - rewrite Rplus_0_r, <- Rsum_const. apply Rsum_mono. intros n Hn. rewrite nth_add_win by (fold B; lia). fold B.
    destruct (Nat.ltb_spec n B); [|lia]. apply peak_nth; auto.
  - intros n Hn. rewrite nth_add_win by (fold B; lia). fold B. destruct (Nat.ltb_spec (B + n) B); [lia|]. apply Rabs_R0.
Qed.

Lemma upols_bound : forall F M all t i, 0 <= M -> peak_of M all -> Rabs (upols_out k P F all t i) <= M * entry_mass B P F.
Proof using All.
  intros F M all t i HM H. rewrite upols_windows. eapply Rle_trans.
  - apply mac_windows_bound with (L := INR (2 * B) * M).
    + apply Rmult_le_pos; [apply pos_INR|auto].
    + intros u n _. apply save_bins; auto.
  - right. field. apply not_0_INR. pose proof B_pos. lia.
Qed.

Lemma upola_bound : forall F M all t i, 0 <= M -> peak_of M all -> Rabs (upola_out k P F all t i) <= M * entry_mass B P F.
Proof using All.
  intros F M all t i HM H. rewrite upola_windows.
  assert (G : forall t j, Rabs (mac_windows k P F (add_win k all) t j) <= M * entry_mass B P F / 2).
  { intros u j. eapply Rle_trans.
    - apply mac_windows_bound with (L := INR B * M).
      + apply Rmult_le_pos; [apply pos_INR|auto].
      + intros v n _. apply add_bins; auto.
    - right. rewrite mult_INR. cbn [INR]. field. apply not_0_INR. pose proof B_pos. lia. }
  pose proof (entry_mass_pos B P F). assert (0 <= M * entry_mass B P F) by (apply Rmult_le_pos; auto).
  eapply Rle_trans; [apply Rabs_triang|]. pose proof (G t i). destruct (t =? 0)%nat.
  - rewrite Rabs_R0. lra.
  - pose proof (G (t - 1)%nat (2 ^ k + i)%nat). lra.
Qed.

Lemma kind_bound : forall kd F M all t i, 0 <= M -> peak_of M all -> Rabs (kind_out kd k P F all t i) <= M * entry_mass B P F.
Proof using All. intros kd F M all t i HM H. destruct kd; cbn [kind_out]; first [apply upols_bound; auto | apply upola_bound; auto]. Qed.

Lemma kind_minus : forall kd F G all t i,
  kind_out kd k P F all t i - kind_out kd k P G all t i = kind_out kd k P (fun a i => F a i - G a i)%C all t i.
Proof using All.
  intros kd F G all t i. destruct kd; cbn [kind_out]; rewrite ?upols_windows, ?upola_windows, <- ?mac_windows_minus; auto;
    destruct (t =? 0)%nat; ring.
Qed.

Lemma kind_distance : forall kd F G M all t i, 0 <= M -> peak_of M all ->
  Rabs (kind_out kd k P F all t i - kind_out kd k P G all t i) <= M * entry_mass B P (fun a i => F a i - G a i)%C.
Proof using All. intros. rewrite kind_minus. apply kind_bound; auto. Qed.

Lemma Forall2_tab : forall A (R : A -> A -> Prop) n f g, (forall i, (i < n)%nat -> R (f i) (g i)) -> Forall2 R (tab n f) (tab n g).
Proof using All.
  intros A R n f g H. unfold tab. assert (G : forall s, (forall i, In i (seq s n) -> R (f i) (g i)) -> Forall2 R (map f (seq s n)) (map g (seq s n))).
  { clear H. revert f g. induction n; intros f g s H; cbn [seq map]; constructor. { apply H. left. reflexivity. }
    apply IHn. intros i Hi. apply H. right. auto. }
  apply G. intros i Hi. apply in_seq in Hi. apply H. lia.
Qed.

Lemma kind_within : forall kd kd' F G M all, 0 <= M -> peak_of M all ->
  (forall H t i, kind_out kd k P H all t i = kind_out kd' k P H all t i) ->
  within (M * entry_mass B P (fun a i => F a i - G a i)%C) (kind_outs kd k P F all) (kind_outs kd' k P G all).
Proof using All.
  intros kd kd' F G M all HM H E. unfold within, kind_outs. apply Forall2_tab. intros t Ht. apply Forall2_tab. intros i Hi.
  rewrite <- E. apply kind_distance; auto.
Qed.
End Bound.

Lemma entry_mass_ext : forall B P F G, (forall a i, (a < P)%nat -> (i < B + 1)%nat -> Cabs (F a i) = Cabs (G a i)) -> entry_mass B P F = entry_mass B P G.
Proof.
  intros B P F G H. unfold entry_mass. apply Rsum_ext. intros a Ha. apply Rsum_ext. intros i Hi. rewrite H by auto. reflexivity.
Qed.

Lemma entry_mass_level : forall B P F e, (0 < B)%nat -> (forall a i, (a < P)%nat -> (i < B + 1)%nat -> Cabs (F a i) <= e) ->
  entry_mass B P F <= 2 * INR B * INR P * e.
Proof.
  intros B P F e HB H. unfold entry_mass. replace (2 * INR B * INR P * e) with (Rsum P (fun _ => 2 * INR B * e)).
  - apply Rsum_mono. intros a Ha. rewrite <- weight_sum by auto. apply Rsum_mono. intros i Hi. apply Rmult_le_compat_l; auto.
    pose proof (weight_pos B i). lra.
  - rewrite Rsum_const. ring.
Qed.

(** ** Streams as one signal *)

Lemma within_concat : forall d xs ys, within d xs ys -> 0 <= d -> length (concat xs) = length (concat ys) /\
  forall n, Rabs (nth n (concat xs) 0 - nth n (concat ys) 0) <= d.
Proof.
  intros d xs ys H Hd. induction H as [|x y xs ys Hx H IH]. { split; auto. intros n. destruct n; cbn; rewrite Rminus_0_r, Rabs_R0; auto. }
  cbn [concat]. destruct IH as (L & IH). assert (Lx : length x = length y) by (clear - Hx; induction Hx; cbn; congruence). split. { rewrite !app_length. lia. }
  intros n. destruct (Nat.lt_ge_cases n (length x)).
  - rewrite !app_nth1 by lia. clear - Hx H0. revert n H0. induction Hx; intros n Hn; [cbn in Hn; lia|]. destruct n; cbn [nth]; auto.
    apply IHHx. cbn in Hn. lia.
  - rewrite !app_nth2 by lia. rewrite Lx. apply IH.
Qed.

Lemma within_le : forall d e xs ys, d <= e -> within d xs ys -> within e xs ys.
Proof.
  intros d e xs ys H. unfold within. intros HW. induction HW; constructor; auto.
  clear - H0 H. induction H0; constructor; auto. lra.
Qed.

Lemma partitioned_convolver : forall kd k h all, (0 < k < max_order)%nat -> (0 < length h)%nat ->
  (Z.of_nat (length h) < 2 ^ 64)%Z -> (Z.of_nat (Convolution.ceil_div (length h) (2 ^ k)) * Z.of_nat (2 ^ k + 1) < max_elements)%Z ->
  partitioned kd (2 ^ k) h all = convolver kd (Convolution.ceil_div (length h) (2 ^ k)) (2 ^ k + 1) (partition_spectra (2 ^ k) h) all /\
  matrix_of (Convolution.ceil_div (length h) (2 ^ k)) (2 ^ k + 1) (partition_spectra (2 ^ k) h) /\
  (0 < Convolution.ceil_div (length h) (2 ^ k))%nat.
Proof.
  intros kd k h all Hk Hh H64 Hmax. unfold partitioned.
  assert (E : Nat.log2_up (2 ^ k) = k) by (apply Nat.log2_up_pow2; lia).
  assert (HB : (2 <= 2 ^ k)%nat) by (change 2%nat with (2 ^ 1)%nat at 1; apply Nat.pow_le_mono_r; lia).
  assert (HM : (2 * 2 ^ k <= 2 ^ max_order)%nat) by (rewrite <- Nat.pow_succ_r'; apply Nat.pow_le_mono_r; lia).
  rewrite partition_one by (rewrite ?E; auto; lia). cbn [bind rd nth_error].
  pose proof (partition_matrix (2 ^ k) h ltac:(lia)) as Hm. pose proof (P_pos (2 ^ k) h HB Hh ltac:(rewrite E; auto)) as HP. rewrite E in Hm.
  rewrite (rd_ok _ _ 0 []) by (destruct Hm as [-> _]; exact HP). cbn [bind].
  rewrite (matrix_row _ _ _ _ 0 Hm HP). destruct Hm as [Lm Wm]. rewrite Lm. repeat split; auto.
Qed.

Lemma dense_concat : forall kd k h all, (0 < k < max_order)%nat -> (0 < length h)%nat -> blocks_of (2 ^ k) all ->
  concat (kind_outs kd k (Convolution.ceil_div (length h) (2 ^ k)) (cell (partition_spectra (2 ^ k) h)) all) =
  tab (length (concat all)) (lconv (concat all) h).
Proof.
  intros kd k h all Hk Hh Hall.
  assert (E : Nat.log2_up (2 ^ k) = k) by (apply Nat.log2_up_pow2; lia).
  assert (HB : (2 <= 2 ^ k)%nat) by (change 2%nat with (2 ^ 1)%nat at 1; apply Nat.pow_le_mono_r; lia).
  assert (HM : (2 * 2 ^ k <= 2 ^ max_order)%nat) by (rewrite <- Nat.pow_succ_r'; apply Nat.pow_le_mono_r; lia).
  destruct (filtered_concat (2 ^ k) h ltac:(auto) ltac:(auto) ltac:(rewrite E; auto) all ltac:(rewrite E; auto)) as (C1 & _). rewrite E in C1.
  transitivity (concat (filtered (2 ^ k) h all)).
  - pose proof (save_is_lconv (2 ^ k) h HB Hh ltac:(rewrite E; auto) all) as S1.
    pose proof (add_is_lconv (2 ^ k) h HB Hh ltac:(rewrite E; auto) all) as A1. rewrite E in S1, A1.
    f_equal. destruct kd; unfold kind_outs, kind_out; auto.
  - rewrite C1. apply tab_ext. intros i Hi. apply lconv_ext. apply stretched_pow2.
Qed.

(** ** A filter that only passes the mean *)

Lemma DFT_bin0 : forall x, nth 0 (RDFT_list Forward x) C0 = RtoC (Rsum (length x) (fun n => nth n x 0)).
Proof.
  intros x. rewrite nth_RDFT by lia. unfold DFT. rewrite <- Csum_RtoC. apply Csum_ext. intros n Hn. rewrite Nat.mul_0_r.
  unfold W. cbn [INR]. replace (dsign Forward * (2 * PI) * 0 / INR (length x)) with 0 by (unfold Rdiv; ring).
  unfold Cexp. rewrite cos_0, sin_0. unfold RtoC, Cmul. cbn [fst snd]. f_equal; ring.
Qed.

Lemma mean_window : forall k c F Wn t j, F 0%nat 0%nat = RtoC c -> (forall i, (0 < i)%nat -> F 0%nat i = C0) ->
  mac_windows k 1 F Wn t j = c * Rsum (length (Wn t)) (fun n => nth n (Wn t) 0) / INR (2 * 2 ^ k).
Proof.
  intros k c F Wn t j H0 H1. assert (HB : (0 < 2 ^ k)%nat) by (apply Nat.neq_0_lt_0, Nat.pow_nonzero; lia).
  rewrite mac_windows_sum. f_equal. set (S := Rsum _ _).
  rewrite (IRDFT_ext _ _ (fun i => if (i =? 0)%nat then RtoC (c * S) else C0) j HB).
  - unfold IRDFT. cbn [Nat.eqb]. replace (2 ^ k =? 0)%nat with false by (symmetry; apply Nat.eqb_neq; lia).
    rewrite Rsum_0. { unfold RtoC, C0. cbn [fst snd]. ring. } intros i Hi. unfold C0. cbn [fst snd]. ring.
  - intros i Hi. rewrite Csum_S. unfold Csum, bsum, wterm. cbn [Nat.leb]. rewrite Nat.sub_0_r. destruct i.
    + cbn [Nat.eqb]. rewrite DFT_bin0, H0. fold S. unfold RtoC, Cadd, Cmul, C0. cbn [fst snd]. f_equal; ring.
    + cbn [Nat.eqb]. rewrite H1 by lia. ring.
Qed.
