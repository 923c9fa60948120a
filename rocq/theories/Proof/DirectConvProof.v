(** Direct convolution. *)
From Coq Require Import List Arith Lia Bool Ring Reals.
From Verif Require Import Base.Outcome Base.OutcomeFacts Base.Sums Base.Cplx Model.Convolution Spec.Convolution.
Import ListNotations.
Open Scope outcome_scope.

Lemma upd_upd : forall T (l : list T) i a b, upd (upd l i a) i b = upd l i b.
Proof. intros T l. induction l; intros [|i] x y; simpl; auto. now rewrite IHl. Qed.

Lemma upd_same : forall T (d : T) (l : list T) i, upd l i (nth i l d) = l.
Proof. intros T d l. induction l; intros [|i]; simpl; auto. now rewrite IHl. Qed.

Section Direct.
Variable T : Type.
Variables zero one : T.
Variables add mul sub : T -> T -> T.
Variable opp : T -> T.
Hypothesis rt : ring_theory zero one add mul sub opp (@eq T).
Add Ring TR : rt.

Definition conv_sum (a b : list T) (k : nat) : T :=
  bsum zero add (S k) (fun m => mul (nth m a zero) (nth (k - m) b zero)).

Lemma inner_ok : forall a b k lo hi out, k < length out -> lo <= hi ->
  (forall m, lo <= m < hi -> m < length a /\ m <= k /\ k - m < length b) ->
  for_range lo hi (fun m out => o <- rd out k ;; x <- rd a m ;; y <- rd b (k - m) ;; wr out k (add o (mul x y))) out
  = Ok (upd out k (add (nth k out zero) (bsum zero add (hi - lo) (fun j => mul (nth (lo + j) a zero) (nth (k - (lo + j)) b zero))))).
Proof.
  intros a b k lo hi out Hk Hle Hm.
  match goal with |- for_range _ _ ?body ?s0 = _ => edestruct (for_range_inv _ (fun m o => o = upd out k (add (nth k out zero) (bsum zero add (m - lo) (fun j => mul (nth (lo + j) a zero) (nth (k - (lo + j)) b zero)))))
    lo hi body s0) as (s' & E & I) end.
  - exact Hle.
  - rewrite Nat.sub_diag. simpl. replace (add (nth k out zero) zero) with (nth k out zero) by ring. symmetry. apply upd_same.
  - intros j s Hj ->. destruct (Hm j Hj) as (A & B & D).
    rewrite (rd_ok _ _ k zero) by (rewrite upd_length; auto). simpl bind.
    rewrite (rd_ok _ a j zero) by auto. simpl bind. rewrite (rd_ok _ b _ zero) by auto. simpl bind.
    rewrite wr_ok by (rewrite upd_length; auto). eexists; split; [reflexivity|].
    rewrite upd_upd, nth_upd_eq by auto. f_equal.
    replace (S j - lo) with (S (j - lo)) by lia. simpl bsum. replace (lo + (j - lo)) with j by lia. ring.
  - rewrite E, I. reflexivity.
Qed.

Lemma direct_half_ok : forall a b out, length b <= length a -> 0 < length a ->
  length out = length a + length b - 1 ->
  direct_half T zero add mul a b (length a + length b - 1) out = Ok (tab (length a + length b - 1) (conv_sum a b)).
Proof.
  intros a b out Hba Ha Ho. unfold direct_half.
  set (n := length a) in *. set (l := length b) in *. set (mm := n + l - 1) in *.
  assert (Hl : l <= mm \/ l = 0) by lia.
  match goal with |- bind (for_range _ _ ?body ?s0) _ = _ =>
  edestruct (for_range_inv _ (fun k o => length o = mm /\ forall j, j < k -> nth j o zero = conv_sum a b j) 0 l body s0)
    as (o1 & E1 & L1 & N1); [lia | split; [exact Ho | intros; lia] | | rewrite E1; clear E1; cbn [bind]] end.
  { intros k o Hk (L & N). rewrite wr_ok by lia. cbn [bind].
    rewrite inner_ok by (try lia; rewrite ?upd_length; try lia; intros; fold n l; lia).
    rewrite upd_upd. eexists; split; [reflexivity|]. split. { now rewrite upd_length. }
    intros j Hj. destruct (Nat.eq_dec j k) as [->|Hn].
    - rewrite nth_upd_eq by lia. rewrite nth_upd_eq by lia. unfold conv_sum.
      replace (k + 1 - 0) with (S k) by lia.
      transitivity (bsum zero add (S k) (fun j => mul (nth (0 + j) a zero) (nth (k - (0 + j)) b zero))).
      { generalize (bsum zero add (S k) (fun j => mul (nth (0 + j) a zero) (nth (k - (0 + j)) b zero))). intro; ring. }
      apply bsum_ext. intros. reflexivity.
    - rewrite nth_upd_neq by auto. apply N. lia. }
  destruct (le_lt_dec l mm) as [Hlm|Hlm].
  - match goal with |- bind (for_range _ _ ?body ?s0) _ = _ =>
    edestruct (for_range_inv _ (fun k (s : nat * list T) => fst s = k - l /\ length (snd s) = mm /\ forall j, j < k -> nth j (snd s) zero = conv_sum a b j) l mm body s0)
      as ([i o2] & E2 & I2 & L2 & N2); [exact Hlm | | | rewrite E2; cbn [bind]] end.
    { cbn [fst snd]. repeat split; [lia|exact L1|exact N1]. }
    2:{ f_equal. apply (list_eq_tab _ zero); auto. }
    intros k [i o] Hk (I & L & N). cbn [fst snd] in *. subst i.
    rewrite wr_ok by lia. cbn [bind]. cbv zeta.
    rewrite inner_ok; [| rewrite upd_length; lia | lia | intros m Hm; fold n l; lia ].
    cbn [bind]. rewrite upd_upd. eexists; split; [reflexivity|]. cbn [fst snd]. split; [lia|]. split. { now rewrite upd_length. }
    intros j Hj. destruct (Nat.eq_dec j k) as [->|Hn].
    + rewrite !nth_upd_eq by lia. unfold conv_sum.
      set (lo := k - l + 1). set (f := fun m => mul (nth m a zero) (nth (k - m) b zero)).
      assert (Z1 : forall m, m < lo -> f m = zero).
      { intros m Hm. unfold f. rewrite (nth_overflow b) by (fold l; unfold lo in Hm; lia). ring. }
      assert (Z2 : forall m, n <= m -> f m = zero).
      { intros m Hm. unfold f. rewrite (nth_overflow a) by (fold n; lia). ring. }
      set (hi := Nat.min (l + lo) n).
      assert (Hlo : lo <= hi) by (unfold lo, hi; lia).
      assert (Hhi : hi <= S k) by (unfold lo, hi; lia).
      assert (E : bsum zero add (S k) f = bsum zero add hi f).
      { eapply bsum_le; [exact rt|exact Hhi|]. intros m Hm. apply Z2. unfold hi, lo in Hm. lia. }
      rewrite E. replace hi with (lo + (hi - lo)) at 2 by lia.
      erewrite bsum_split by exact rt. rewrite (bsum_0 _ zero one add mul sub opp rt lo f Z1).
      reflexivity.
    + rewrite nth_upd_neq by auto. apply N. lia.
  - rewrite for_range_empty by lia. cbn [bind]. f_equal. apply (list_eq_tab _ zero); auto.
    intros i Hi. apply N1. lia.
Qed.

Lemma conv_sum_comm : forall a b k, conv_sum a b k = conv_sum b a k.
Proof.
  intros a b k. unfold conv_sum. erewrite (bsum_rev _ zero one add mul sub opp rt).
  apply bsum_ext. intros i Hi. replace (S k - 1 - i) with (k - i) by lia. replace (k - (k - i)) with i by lia. ring.
Qed.

Lemma direct_convolve_into_ok : forall a b out, 0 < length a + length b -> length out = length a + length b - 1 ->
  direct_convolve_into T zero add mul a b out = Ok (tab (length a + length b - 1) (conv_sum a b)).
Proof.
  intros a b out H Ho. unfold direct_convolve_into.
  replace (0 <? length a + length b) with true by (symmetry; apply Nat.ltb_lt; lia). cbn [guard bind].
  destruct (Nat.leb_spec (length b) (length a)) as [Hl|Hl].
  - apply direct_half_ok; lia.
  - replace (length a + length b - 1) with (length b + length a - 1) in * by lia.
    rewrite direct_half_ok by lia. f_equal. apply tab_ext. intros. apply conv_sum_comm.
Qed.

Lemma direct_convolve_ok : forall a b, 0 < length a + length b ->
  direct_convolve T zero add mul a b = Ok (tab (length a + length b - 1) (conv_sum a b)).
Proof.
  intros a b H. unfold direct_convolve. destruct (Nat.eqb_spec (length a + length b) 0); [lia|].
  apply direct_convolve_into_ok; [auto|]. now rewrite repeat_length.
Qed.

Lemma conv_sum_add_l : forall a a' b k, length a = length a' ->
  conv_sum (tab (length a) (fun i => add (nth i a zero) (nth i a' zero))) b k = add (conv_sum a b k) (conv_sum a' b k).
Proof.
  intros a a' b k H. unfold conv_sum. rewrite <- (bsum_add _ zero one add mul sub opp rt). apply bsum_ext. intros m _.
  destruct (le_lt_dec (length a) m).
  - rewrite nth_tab_ge by auto. rewrite (nth_overflow a), (nth_overflow a') by lia. ring.
  - rewrite nth_tab by auto. ring.
Qed.

Lemma conv_sum_scale_l : forall c a b k,
  conv_sum (map (mul c) a) b k = mul c (conv_sum a b k).
Proof.
  intros c a b k. unfold conv_sum. rewrite <- (bsum_mul_l _ zero one add mul sub opp rt). apply bsum_ext. intros m _.
  destruct (le_lt_dec (length a) m).
  - rewrite nth_overflow by (rewrite map_length; auto). rewrite (nth_overflow a) by auto. ring.
  - rewrite (nth_indep _ zero (mul c zero)) by (rewrite map_length; auto). rewrite map_nth. ring.
Qed.
End Direct.
