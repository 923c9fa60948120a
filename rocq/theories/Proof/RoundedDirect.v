(** Direct convolution in rounded arithmetic. *)
From Coq Require Import Reals List Arith ZArith Lia Lra.
From Flocq Require Import Core.
From Verif Require Import Base.Outcome Base.OutcomeFacts Base.Sums Base.Cplx Spec.Rounding Spec.RoundedSums Spec.Convolution Spec.Statistics Model.Convolution Model.RoundedStats
  Proof.StatisticsProof Proof.DirectConvProof Proof.RoundedSums.
Import ListNotations.
Local Open Scope nat_scope.
Local Open Scope outcome_scope.

(** Output sample k is the sum, in this order, of the products that exist; nothing is assumed of
    the operations. *)
Section Order.
Variable T : Type.
Variable zero : T.
Variables add mul : T -> T -> T.

Definition osum (a b : list T) (k lo hi : nat) (s : T) : T :=
  fold_left (fun s m => add s (mul (nth m a zero) (nth (k - m) b zero))) (seq lo (hi - lo)) s.
Definition direct_at (a b : list T) (k : nat) : T := osum a b k (k + 1 - length b) (Nat.min (k + 1) (length a)) zero.

Lemma inner_order : forall a b k lo hi out, k < length out -> lo <= hi ->
  (forall m, lo <= m < hi -> m < length a /\ m <= k /\ k - m < length b) ->
  for_range lo hi (fun m out => o <- rd out k ;; x <- rd a m ;; y <- rd b (k - m) ;; wr out k (add o (mul x y))) out
  = Ok (upd out k (osum a b k lo hi (nth k out zero))).
Proof.
  intros a b k lo hi out Hk Hle Hm.
  match goal with |- for_range _ _ ?body ?s0 = _ => edestruct (for_range_inv _ (fun m o => o = upd out k (osum a b k lo m (nth k out zero))) lo hi body s0) as (s' & E & I) end.
  - exact Hle.
  - unfold osum. rewrite Nat.sub_diag. cbn [seq fold_left]. symmetry. apply upd_same.
  - intros j s Hj ->. destruct (Hm j Hj) as (A & B & D).
    rewrite (rd_ok _ _ k zero) by (rewrite upd_length; auto). cbn [bind].
    rewrite (rd_ok _ a j zero) by auto. cbn [bind]. rewrite (rd_ok _ b _ zero) by auto. cbn [bind].
    rewrite wr_ok by (rewrite upd_length; auto). eexists; split; [reflexivity|].
    rewrite upd_upd, nth_upd_eq by auto. f_equal. unfold osum.
    replace (S j - lo) with ((j - lo) + 1) by lia. rewrite seq_app, fold_left_app. cbn [seq fold_left]. replace (lo + (j - lo)) with j by lia. auto.
  - rewrite E, I. reflexivity.
Qed.

Lemma direct_half_order : forall a b out, length b <= length a -> 0 < length a -> length out = length a + length b - 1 ->
  direct_half T zero add mul a b (length a + length b - 1) out = Ok (tab (length a + length b - 1) (direct_at a b)).
Proof.
  intros a b out Hba Ha Ho. unfold direct_half.
  set (n := length a) in *. set (l := length b) in *. set (mm := n + l - 1) in *.
  match goal with |- bind (for_range _ _ ?body ?s0) _ = _ =>
  edestruct (for_range_inv _ (fun k o => length o = mm /\ forall j, j < k -> nth j o zero = direct_at a b j) 0 l body s0)
    as (o1 & E1 & L1 & N1); [lia | split; [exact Ho | intros; lia] | | rewrite E1; clear E1; cbn [bind]] end.
  { intros k o Hk (L & N). rewrite wr_ok by lia. cbn [bind].
    rewrite inner_order by (try lia; rewrite ?upd_length; try lia; intros; fold n l; lia).
    rewrite upd_upd. eexists; split; [reflexivity|]. split. { now rewrite upd_length. }
    intros j Hj. destruct (Nat.eq_dec j k) as [->|Hn].
    - rewrite nth_upd_eq by lia. rewrite nth_upd_eq by lia. unfold direct_at. fold n l. replace (k + 1 - l) with 0 by lia. replace (Nat.min (k + 1) n) with (k + 1) by lia. auto.
    - rewrite nth_upd_neq by auto. apply N. lia. }
  destruct (Nat.le_gt_cases l mm) as [Hl|Hl].
  - match goal with |- bind (for_range _ _ ?body ?s0) _ = _ =>
    edestruct (for_range_inv _ (fun k (s : nat * list T) => fst s = k - l /\ length (snd s) = mm /\ forall j, j < k -> nth j (snd s) zero = direct_at a b j) l mm body s0)
      as ((i, o2) & E2 & I2 & L2 & N2); [lia | cbn [fst snd]; split; [lia|auto] | | rewrite E2; clear E2; cbn [bind]] end.
    { intros k (i, o) Hk (I & L & N). cbn [fst snd] in *. rewrite wr_ok by lia. cbn [bind].
      rewrite inner_order by (try lia; rewrite ?upd_length; try lia; intros; fold n l; lia). cbn [bind].
      rewrite upd_upd. eexists; split; [reflexivity|]. cbn [fst snd]. split; [lia|]. split. { now rewrite upd_length. }
      intros j Hj. destruct (Nat.eq_dec j k) as [->|Hn].
      - rewrite nth_upd_eq by lia. rewrite nth_upd_eq by lia. unfold direct_at. fold n l. subst i. f_equal; lia.
      - rewrite nth_upd_neq by auto. apply N. lia. }
    cbn [fst snd] in *. f_equal. apply (list_eq_tab _ zero); auto.
  - rewrite for_range_empty by lia. cbn [bind]. f_equal. apply (list_eq_tab _ zero); auto. intros i Hi. apply N1. lia.
Qed.

(** The longer operand is walked forwards. *)
Definition longer (a b : list T) : list T := if length b <=? length a then a else b.
Definition shorter (a b : list T) : list T := if length b <=? length a then b else a.

Lemma direct_into_order : forall a b out, 0 < length a + length b -> length out = length a + length b - 1 ->
  direct_convolve_into T zero add mul a b out = Ok (tab (length a + length b - 1) (direct_at (longer a b) (shorter a b))).
Proof.
  intros a b out H Ho. unfold direct_convolve_into, longer, shorter.
  replace (0 <? length a + length b) with true by (symmetry; apply Nat.ltb_lt; lia). cbn [guard bind].
  destruct (Nat.leb_spec (length b) (length a)) as [Hl|Hl].
  - apply direct_half_order; lia.
  - replace (length a + length b - 1) with (length b + length a - 1) in * by lia. apply direct_half_order; lia.
Qed.

Lemma direct_order : forall a b, 0 < length a + length b ->
  direct_convolve T zero add mul a b = Ok (tab (length a + length b - 1) (direct_at (longer a b) (shorter a b))).
Proof.
  intros a b H. unfold direct_convolve. destruct (Nat.eqb_spec (length a + length b) 0); [lia|].
  apply direct_into_order; [auto|]. now rewrite repeat_length.
Qed.
End Order.
Arguments longer {T} a b.
Arguments shorter {T} a b.

Local Open Scope R_scope.

(** The exact sums, term by term. *)
Lemma total_seq : forall f n lo, total (map f (seq lo n)) = Rsum n (fun i => f (lo + i)%nat).
Proof.
  intros f n. induction n; intros lo; [reflexivity|]. rewrite <- Nat.add_1_r at 1. rewrite seq_app, map_app, total_app. cbn [seq map total]. rewrite IHn.
  change (Rsum (S n) (fun i => f (lo + i)%nat)) with (Rsum n (fun i => f (lo + i)%nat) + f (lo + n)%nat). lra.
Qed.

Lemma window_sum : forall f k lo hi, (forall m, (m < lo)%nat -> (m <= k)%nat -> f m = 0) -> (forall m, (hi <= m)%nat -> (m <= k)%nat -> f m = 0) -> (hi <= S k)%nat ->
  total (map f (seq lo (hi - lo))) = Rsum (S k) f.
Proof.
  intros f k lo hi H1 H2 Hh. rewrite total_seq. rewrite (Rsum_le_zero hi (S k)) by (auto; intros; apply H2; lia).
  destruct (Nat.le_gt_cases lo hi) as [L|L].
  - replace hi with (lo + (hi - lo))%nat at 2 by lia. rewrite Rsum_split, (Rsum_0 lo f) by (intros; apply H1; lia). lra.
  - replace (hi - lo)%nat with 0%nat by lia. symmetry. apply Rsum_0. intros. apply H1; lia.
Qed.

Definition prod_at (a b : list R) (k m : nat) : R := nth m a 0 * nth (k - m) b 0.
Definition window (a b : list R) (k : nat) : list nat := seq (k + 1 - length b) (Nat.min (k + 1) (length a) - (k + 1 - length b)).

Lemma window_total : forall a b k, total (map (prod_at a b k) (window a b k)) = lconv a b k.
Proof.
  intros a b k. unfold lconv. apply (window_sum (prod_at a b k)); unfold prod_at.
  - intros m Hm Hk. rewrite (nth_overflow b) by lia. ring.
  - intros m Hm Hk. rewrite (nth_overflow a) by lia. ring.
  - lia.
Qed.

Lemma lconv_comm : forall a b k, lconv a b k = lconv b a k.
Proof. intros. apply (conv_sum_comm R 0 1 Rplus Rmult Rminus Ropp RTheory). Qed.

Lemma lconv_abs : forall a b k, lconv (map Rabs a) (map Rabs b) k = total (map (fun m => Rabs (prod_at a b k m)) (window a b k)).
Proof.
  intros a b k. rewrite <- window_total. unfold window. rewrite !map_length. f_equal. apply map_ext. intros m. unfold prod_at. rewrite Rabs_mult.
  rewrite <- (map_nth Rabs a 0 m), <- (map_nth Rabs b 0 (k - m)). rewrite Rabs_R0. auto.
Qed.

Lemma window_length : forall a b k, (length (window a b k) <= Nat.min (length a) (length b))%nat.
Proof. intros. unfold window. rewrite seq_length. lia. Qed.

Lemma longer_lconv : forall a b k, lconv (longer a b) (shorter a b) k = lconv a b k.
Proof. intros. unfold longer, shorter. destruct (_ <=? _)%nat; auto. apply lconv_comm. Qed.

Lemma longer_map : forall A B (f : A -> B) a b, longer (map f a) (map f b) = map f (longer a b) /\ shorter (map f a) (map f b) = map f (shorter a b).
Proof. intros. unfold longer, shorter. rewrite !map_length. destruct (_ <=? _)%nat; auto. Qed.

Lemma longer_min : forall A (a b : list A), Nat.min (length (longer a b)) (length (shorter a b)) = Nat.min (length a) (length b).
Proof. intros. unfold longer, shorter. destruct (_ <=? _)%nat; auto. apply Nat.min_comm. Qed.

Lemma total_zeros : forall A (f : A -> R) p, (forall m, In m p -> f m = 0) -> total (map f p) = 0.
Proof. intros A f p H. induction p as [|m p IH]; [reflexivity|]. cbn [map total]. rewrite H by (left; auto). rewrite IH; [lra|]. intros; apply H; right; auto. Qed.

Lemma single_total : forall (f : nat -> R) c p, NoDup p -> (forall m, In m p -> m <> c -> f m = 0) -> total (map f p) = 0 \/ total (map f p) = f c.
Proof.
  intros f c p. induction p as [|m p IH]; intros ND Z; [left; reflexivity|]. inversion ND; subst. cbn [map total]. destruct (Nat.eq_dec m c) as [-> |N].
  - right. rewrite total_zeros; [lra|]. intros q Hq. apply Z; [right; auto|]. intro; subst; auto.
  - rewrite Z by (auto; left; auto). rewrite Rplus_0_l. apply IH; auto. intros; apply Z; auto. right; auto.
Qed.

Lemma NoDup_prefix : forall A (p s : list A), NoDup (p ++ s) -> NoDup p.
Proof. intros A p s. induction p; intros H; [constructor|]. cbn [app] in H. inversion H; subst. constructor; auto. intro. apply H2. apply in_or_app. auto. Qed.

Section Format.
Variables (prec emin emax : Z) (rnd : R -> R).
Hypotheses (HF : ieee prec emin emax) (Hrnd : rounds_to_nearest prec emin emax rnd).
Let u := unit_roundoff prec.
Let eta := underflow emin.
Let Om := bpow radix2 emax.

Definition rprod (a b : list R) (k m : nat) : R := rnd (prod_at a b k m).
Definition rdirect_at (a b : list R) (k : nat) : R := rsum rnd nat (rprod a b k) (window a b k).

Lemma rdirect_ok : forall a b, (0 < length a + length b)%nat -> rdirect_convolve rnd a b = Ok (tab (length a + length b - 1) (rdirect_at (longer a b) (shorter a b))).
Proof using. intros a b H. unfold rdirect_convolve. rewrite direct_order by auto. reflexivity. Qed.

Lemma rdirect_into_ok : forall a b out, (0 < length a + length b)%nat -> length out = (length a + length b - 1)%nat ->
  rdirect_convolve_into rnd a b out = Ok (tab (length a + length b - 1) (rdirect_at (longer a b) (shorter a b))).
Proof using. intros a b out H L. unfold rdirect_convolve_into. rewrite direct_into_order by auto. reflexivity. Qed.

Lemma rdirect_at_error : forall a b k L, (length (window a b k) <= L)%nat ->
  growth prec (S L) * lconv (map Rabs a) (map Rabs b) k + INR L * growth prec L * eta <= Om ->
  Rabs (rdirect_at a b k - lconv a b k) <= (growth prec (S L) - 1) * lconv (map Rabs a) (map Rabs b) k + INR L * growth prec L * eta.
Proof using All.
  intros a b k L HL Ho. unfold rdirect_at. rewrite <- window_total. rewrite lconv_abs in *. set (w := window a b k) in *. set (M := total (map (fun m => Rabs (prod_at a b k m)) w)) in *.
  pose proof (u_pos prec emin emax HF) as U. pose proof (eta_pos emin) as E0. fold u eta in U, E0. assert (M0 : 0 <= M) by apply total_abs_nonneg.
  pose proof (growth_mono prec emin emax HF _ _ HL) as G. pose proof (growth_1 prec emin emax HF (length w)) as G1. pose proof (le_INR _ _ HL) as NL. pose proof (pos_INR (length w)) as N0.
  rewrite growth_S in Ho |- *. fold u in Ho |- *. set (c := growth prec (length w)) in *. set (c' := growth prec L) in *.
  assert (X1 : c * ((1 + u) * M) <= c' * ((1 + u) * M)) by (apply Rmult_le_compat_r; [apply Rmult_le_pos; lra|auto]).
  assert (X2 : INR (length w) * c * eta <= INR L * c' * eta) by (apply Rmult_le_compat_r; [lra|]; apply Rmult_le_compat; lra).
  destruct (rsum_error prec emin emax HF rnd Hrnd nat (rprod a b k) (prod_at a b k) u eta w) as [_ E]; try lra.
  - intros m Hm. assert (B : Rabs (prod_at a b k m) <= Om).
    { apply Rle_trans with M.
      - unfold M. clear - Hm. induction w as [|x w IH]; [destruct Hm|]. cbn [map total]. destruct Hm as [-> |Hm].
        + pose proof (total_abs_nonneg nat (prod_at a b k) w). lra.
        + specialize (IH Hm). pose proof (Rabs_pos (prod_at a b k x)). lra.
      - assert (M <= c' * (1 + u) * M) by (rewrite <- (Rmult_1_l M) at 1; apply Rmult_le_compat_r; [auto|]; nra). assert (0 <= INR L * c' * eta) by (apply Rmult_le_pos; [apply Rmult_le_pos; lra|lra]). lra. }
    split; [apply (rnd_float prec emin emax HF rnd Hrnd); auto|]. apply (rnd_error prec emin emax HF rnd Hrnd); auto.
  - fold c M Om. replace (c * ((1 + u) * M + INR (length w) * eta)) with (c * ((1 + u) * M) + INR (length w) * c * eta) by ring. nra.
  - fold c M in E. eapply Rle_trans; [exact E|]. nra.
Qed.

(** Sums that need no rounding. *)
Lemma rsum_exact : forall A (g : A -> R) l, (forall p s, l = p ++ s -> is_float prec emin (total (map g p)) /\ Rabs (total (map g p)) <= Om) -> rsum rnd A g l = total (map g l).
Proof using All.
  intros A g l. induction l as [|v l IH] using rev_ind; intros H; [reflexivity|]. unfold rsum in *. rewrite fold_left_app. cbn [fold_left]. rewrite IH.
  - rewrite map_app, total_app. cbn [map total]. rewrite Rplus_0_r. destruct (H (l ++ [v]) [] ltac:(now rewrite app_nil_r)) as [F B]. rewrite map_app, total_app in F, B. cbn [map total] in F, B. rewrite Rplus_0_r in F, B.
    apply (rnd_id prec emin emax HF rnd Hrnd); auto.
  - intros p s ->. apply (H p (s ++ [v])). now rewrite app_assoc.
Qed.

Local Instance prec_pos2 : Prec_gt_0 prec := ltac:(unfold Prec_gt_0; pose proof (prec_range prec emin emax HF); lia).

(** A multiple of a power of two with few bits is a float. *)
Lemma multiple_float : forall e x, (emin <= e)%Z -> (exists z, x = IZR z * bpow radix2 e) -> Rabs x <= bpow radix2 (prec + e) -> is_float prec emin x.
Proof using HF.
  intros e x He (z & ->) Hx. pose proof (prec_range prec emin emax HF) as P. pose proof (bpow_gt_0 radix2 e) as B0.
  rewrite Rabs_mult, (Rabs_pos_eq (bpow radix2 e)), bpow_plus in Hx by lra. assert (Hz : Rabs (IZR z) <= bpow radix2 prec) by (apply Rmult_le_reg_r with (bpow radix2 e); auto).
  rewrite <- abs_IZR, <- IZR_Zpower in Hz by lia. apply le_IZR in Hz. apply Z.lt_eq_cases in Hz. destruct Hz as [Hz|Hz].
  - apply generic_format_FLT. exists (Float radix2 z e); auto.
  - assert (C : IZR z = bpow radix2 prec \/ IZR z = - bpow radix2 prec). { rewrite <- IZR_Zpower by lia. rewrite <- opp_IZR. destruct (Z.abs_eq_or_opp z) as [A|A]; rewrite A in Hz; [left|right]; f_equal; lia. }
    assert (F : is_float prec emin (bpow radix2 (prec + e))) by (apply generic_format_bpow; unfold FLT_exp; lia).
    rewrite bpow_plus in F. destruct C as [-> | ->]; [auto|]. rewrite Ropp_mult_distr_l_reverse. apply generic_format_opp. auto.
Qed.
End Format.
