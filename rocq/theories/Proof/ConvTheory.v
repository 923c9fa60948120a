(** Real circular convolution, its spectrum, and when it agrees with linear convolution. *)
From Coq Require Import Reals List Arith Lia Lra Bool.
From Verif Require Import Base.Outcome Base.OutcomeFacts Base.Sums Base.Cplx Base.Alias Spec.Dft Spec.Transforms
  Spec.Convolution Model.Algorithm Model.FftApps Model.Convolution
  Proof.DftTheory Proof.AlgorithmProof Proof.RfftProof.
Import ListNotations.
Local Arguments Nat.div : simpl never.
Local Arguments Nat.modulo : simpl never.

Definition rcconv (n : nat) (a b : nat -> R) (i : nat) : R :=
  Rsum n (fun j => a j * b ((i + (n - j)) mod n)%nat)%R.

Lemma IRDFT_ext : forall m X Y j, 0 < m -> (forall k, k <= m -> X k = Y k) -> IRDFT m X j = IRDFT m Y j.
Proof.
  intros m X Y j Hm H. unfold IRDFT. rewrite (H 0), (H m) by lia. f_equal. f_equal.
  apply Rsum_ext. intros i Hi. rewrite (H (S i)) by lia. reflexivity.
Qed.

Lemma IRDFT_add : forall m X Y j, IRDFT m (fun k => X k + Y k)%C j = (IRDFT m X j + IRDFT m Y j)%R.
Proof.
  intros. unfold IRDFT, Cadd. cbn [fst snd].
  rewrite (Rsum_ext _ _ (fun k =>
    (fst (X (S k)) * cos (2 * PI * INR j * INR (S k) / INR (2 * m)) - snd (X (S k)) * sin (2 * PI * INR j * INR (S k) / INR (2 * m)))
  + (fst (Y (S k)) * cos (2 * PI * INR j * INR (S k) / INR (2 * m)) - snd (Y (S k)) * sin (2 * PI * INR j * INR (S k) / INR (2 * m))))%R).
  - rewrite Rsum_add. ring.
  - intros. ring.
Qed.

Lemma IRDFT_0 : forall m j, IRDFT m (fun _ => C0) j = 0%R.
Proof.
  intros. unfold IRDFT, C0. cbn [fst snd]. rewrite Rsum_0. ring. intros. ring.
Qed.

Lemma IRDFT_sum : forall n m (X : nat -> nat -> C) j,
  IRDFT m (fun k => Csum n (fun s => X s k)) j = Rsum n (fun s => IRDFT m (X s) j).
Proof.
  induction n; intros.
  - change (Csum 0) with (fun _ : nat -> C => C0). cbv beta. rewrite IRDFT_0. reflexivity.
  - rewrite Rsum_S, <- IHn, <- IRDFT_add. f_equal.
Qed.

Lemma irdft_mul : forall m (a b : nat -> R) j, 0 < m -> j < 2 * m ->
  IRDFT m (fun k => DFT Forward (2 * m) (fun i => RtoC (a i)) k * DFT Forward (2 * m) (fun i => RtoC (b i)) k)%C j
  = (INR (2 * m) * rcconv (2 * m) a b j)%R.
Proof.
  intros m a b j Hm Hj. rewrite <- irdft_rdft by auto. apply IRDFT_ext; auto. intros k _.
  rewrite <- DFT_cconv by lia. apply DFT_ext. intros i _. unfold cconv, rcconv.
  rewrite <- Csum_RtoC. apply Csum_ext. intros. unfold RtoC, Cmul. cbn [fst snd]. f_equal; ring.
Qed.

Lemma rcconv_ext : forall n a a' b b' i, 0 < n -> (forall j, j < n -> a j = a' j) -> (forall j, j < n -> b j = b' j) ->
  rcconv n a b i = rcconv n a' b' i.
Proof.
  intros n a a' b b' i Hn Ha Hb. unfold rcconv. apply Rsum_ext. intros j Hj. rewrite Ha by auto.
  rewrite Hb; auto. apply Nat.mod_upper_bound. lia.
Qed.

(** No wrap-around when the supports fit. *)
Lemma rcconv_linear : forall n A D a b i, i < n -> 0 < n -> A + D <= n + 1 ->
  (forall j, A <= j -> a j = 0%R) -> (forall j, D <= j -> b j = 0%R) ->
  rcconv n a b i = Rsum (S i) (fun j => a j * b (i - j)%nat)%R.
Proof.
  intros n A D a b i Hi Hn HAB Ha Hb. unfold rcconv.
  rewrite (Rsum_le_zero (S i) n).
  2: lia.
  2:{ intros j Hj. destruct (le_lt_dec A j). { rewrite Ha by lia. ring. }
    replace (i + (n - j)) with (n + i - j) by lia. rewrite Nat.mod_small by lia. rewrite Hb by lia. ring. }
  apply Rsum_ext. intros j Hj. replace (i + (n - j)) with (i - j + 1 * n) by lia.
  rewrite Nat.mod_add, Nat.mod_small by lia. reflexivity.
Qed.

(** The last samples of a circular convolution with a short kernel see no wrap-around. *)
Lemma rcconv_tail : forall n A a b i, i < n -> A <= i + 1 ->
  (forall j, A <= j -> a j = 0%R) ->
  rcconv n a b i = Rsum A (fun j => a j * b (i - j)%nat)%R.
Proof.
  intros n A a b i Hi HA Ha. unfold rcconv.
  rewrite (Rsum_le_zero A n) by (try lia; intros j Hj; rewrite Ha by lia; ring).
  apply Rsum_ext. intros j Hj. replace (i + (n - j)) with (i - j + 1 * n) by lia.
  rewrite Nat.mod_add, Nat.mod_small by lia. reflexivity.
Qed.

(** Sub-range writes. *)
Lemma copy_into_ok : forall T (d : T) inp out lo hi, lo <= hi -> hi <= length out -> length inp <= hi - lo ->
  copy_into inp out lo hi = Ok (tab (length out) (fun i =>
    if (lo <=? i) && (i <? lo + length inp) then nth (i - lo) inp d else nth i out d)).
Proof.
  intros T d inp out lo hi H1 H2 H3. unfold copy_into.
  rewrite (slice_spec _ d) by auto. cbn [bind].
  rewrite copy_ok by (rewrite tab_length; auto). cbn [bind]. rewrite map_id.
  set (s := inp ++ _). assert (Ls : length s = hi - lo).
  { unfold s. rewrite app_length, skipn_length, tab_length. lia. }
  destruct (splice_spec _ d out s lo) as (l' & E & L & N). { lia. }
  rewrite E. f_equal. apply (list_eq_tab _ d); auto. intros i Hi. rewrite N, Ls.
  destruct (Nat.leb_spec lo i); cbn [andb]; [|reflexivity].
  destruct (Nat.ltb_spec i (lo + (hi - lo))) as [A|A], (Nat.ltb_spec i (lo + length inp)) as [B|B]; try lia; auto.
  - unfold s. rewrite app_nth1 by lia. reflexivity.
  - unfold s. rewrite app_nth2 by lia. rewrite nth_skipn_add, nth_tab by lia. f_equal. lia.
Qed.

Lemma copy_into_oob : forall T (inp out : list T) lo hi, length out < hi -> copy_into inp out lo hi = UB.
Proof.
  intros. unfold copy_into, slice. replace (hi <=? length out) with false by (symmetry; apply Nat.leb_gt; auto).
  rewrite Bool.andb_false_r. reflexivity.
Qed.

Lemma fill_into_ok : forall T (d v : T) out lo hi, lo <= hi -> hi <= length out ->
  fill_into v out lo hi = Ok (tab (length out) (fun i => if (lo <=? i) && (i <? hi) then v else nth i out d)).
Proof.
  intros T d v out lo hi H1 H2. unfold fill_into.
  rewrite (slice_spec _ d) by auto. cbn [bind]. rewrite fill_ok. cbn [bind]. rewrite tab_length.
  destruct (splice_spec _ d out (repeat v (hi - lo)) lo) as (l' & E & L & N). { rewrite repeat_length. lia. }
  rewrite E. f_equal. apply (list_eq_tab _ d); auto. intros i Hi. rewrite N, repeat_length.
  destruct (Nat.leb_spec lo i); cbn [andb]; [|reflexivity].
  destruct (Nat.ltb_spec i (lo + (hi - lo))) as [A|A], (Nat.ltb_spec i hi) as [B|B]; try lia; auto.
  rewrite nth_indep with (d' := v) by (rewrite repeat_length; lia). apply nth_repeat.
Qed.

Lemma fill_into_oob : forall T (v : T) out lo hi, length out < hi -> fill_into v out lo hi = UB.
Proof.
  intros. unfold fill_into, slice. replace (hi <=? length out) with false by (symmetry; apply Nat.leb_gt; auto).
  rewrite Bool.andb_false_r. reflexivity.
Qed.

Lemma pad_length : forall n x, length (pad n x) = n.
Proof. intros. apply tab_length. Qed.

Lemma nth_pad : forall n x i, i < n -> nth i (pad n x) 0%R = nth i x 0%R.
Proof. intros. unfold pad. rewrite nth_tab; auto. Qed.

Lemma RDFT_list_length : forall d x, length (RDFT_list d x) = length x / 2 + 1.
Proof. intros. apply tab_length. Qed.

Lemma nth_RDFT : forall d x k, k < length x / 2 + 1 ->
  nth k (RDFT_list d x) C0 = DFT d (length x) (fun j => RtoC (nth j x 0%R)) k.
Proof. intros. unfold RDFT_list. rewrite nth_tab; auto. Qed.

(** Product of half spectra back in time. *)
Lemma irdft_rdft_mul : forall m a b j, 0 < m -> length a = 2 * m -> length b = 2 * m -> j < 2 * m ->
  IRDFT m (fun k => nth k (RDFT_list Forward a) C0 * nth k (RDFT_list Forward b) C0)%C j
  = (INR (2 * m) * rcconv (2 * m) (fun i => nth i a 0%R) (fun i => nth i b 0%R) j)%R.
Proof.
  intros m a b j Hm Ha Hb Hj. rewrite <- irdft_mul by auto. apply IRDFT_ext; auto. intros k Hk.
  rewrite !nth_RDFT by (rewrite ?Ha, ?Hb, half_of_double; lia). rewrite Ha, Hb. reflexivity.
Qed.

Lemma scale_map : forall a x, scale_r a x = Ok (map (fun v => v * a)%R x).
Proof. intros. unfold scale_r. apply linalg_unary_ok. Qed.

Lemma map_tab : forall A B (f : A -> B) n g, map f (tab n g) = tab n (fun i => f (g i)).
Proof. intros. unfold tab. rewrite map_map. reflexivity. Qed.
