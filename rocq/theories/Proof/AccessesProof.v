(** The accesses of the programs of Model/Concurrent.v (property C74): which they are is
    read off the program, without looking at the values in the vectors. *)
From Coq Require Import List Arith Lia Bool Reals Permutation.
From Verif Require Import Base.Outcome Base.OutcomeFacts Base.Cplx Spec.Dft Spec.DigitRev Spec.Interleaving Spec.Jobs Spec.Accesses.
From Verif Require Import Model.Fft2 Model.Concurrent.
From Verif Require Import Proof.DigitRevTheory Proof.Fft2Proof Proof.RfftProof Proof.InterleavingProof Proof.ConcurrentProof.
Import ListNotations.
Local Arguments Nat.div : simpl never.
Local Arguments Nat.modulo : simpl never.
Local Arguments Nat.pow : simpl never.

(** Program [p] makes the accesses [tr], unless it crashes, in any memory whose values meet [P];
    its value meets [Q]. *)
Fixpoint follows {A} (P : location -> value -> Prop) (p : prog A) (tr : list (location * bool)) (Q : A -> Prop) : Prop :=
  match p with
  | Done a => tr = [] /\ Q a
  | Crash => True
  | Read l k => exists tr', tr = (l, false) :: tr' /\ forall v, P l v -> follows P (k v) tr' Q
  | Write l v k => exists tr', tr = (l, true) :: tr' /\ P l v /\ follows P k tr' Q
  end.

Lemma follows_run : forall A (P : location -> value -> Prop) (p : prog A) tr Q m a m', (forall l v, m l = Some v -> P l v) ->
  run p m = Ok (a, m') -> follows P p tr Q -> accesses p m = tr.
Proof.
  intros A P p. induction p as [a|l k IH|l v k IH|]; intros tr Q m b m' Hm R F; simpl in *.
  - destruct F. auto.
  - destruct F as [tr' [-> F]]. destruct (m l) as [v|] eqn:E; [|discriminate]. f_equal.
    apply (IH v tr' Q m b m'); auto.
  - destruct F as [tr' [-> [Hv F]]]. destruct (m l) as [w|] eqn:E; [|discriminate]. f_equal.
    apply (IH tr' Q (store m l v) b m'); auto.
    intros l' v'. unfold store. destruct (loc_eqb_spec l' l) as [->|]; auto. intros H. inversion H; subst. auto.
  - discriminate.
Qed.

Lemma follows_bind : forall A B (P : location -> value -> Prop) (p : prog A) (k : A -> prog B) t1 t2 Q1 Q,
  follows P p t1 Q1 -> (forall a, Q1 a -> follows P (k a) t2 Q) -> follows P (pbind p k) (t1 ++ t2) Q.
Proof.
  intros A B P p. induction p as [a|l f IH|l v q IH|]; intros k t1 t2 Q1 Q F G; simpl in *; auto.
  - destruct F as [-> F]. simpl. auto.
  - destruct F as [t [-> F]]. exists (t ++ t2). split; auto. intros v Hv. apply (IH v k t t2 Q1); auto.
  - destruct F as [t [-> [Hv F]]]. exists (t ++ t2). repeat split; auto. apply (IH k t t2 Q1); auto.
Qed.

Definition any {A} (a : A) : Prop := True.

Lemma follows_c : forall (P : location -> value -> Prop) o n i, follows P (get_c o n i) [((o, i), false)] any.
Proof.
  intros. unfold get_c. destruct (i <? n); simpl; auto. exists []. split; auto. intros [k|c|r] _; simpl; auto. split; unfold any; auto.
Qed.
Lemma follows_r : forall (P : location -> value -> Prop) o n i, follows P (get_r o n i) [((o, i), false)] any.
Proof.
  intros. unfold get_r. destruct (i <? n); simpl; auto. exists []. split; auto. intros [k|c|r] _; simpl; auto. split; unfold any; auto.
Qed.
Lemma follows_i : forall (P : location -> value -> Prop) o n i, follows P (get_i o n i) [((o, i), false)] (fun t => P (o, i) (Index t)).
Proof.
  intros. unfold get_i. destruct (i <? n); simpl; auto. exists []. split; auto. intros [k|c|r] H; simpl; auto.
Qed.
Lemma follows_put : forall (P : location -> value -> Prop) o n i v, P (o, i) v -> follows P (put o n i v) [((o, i), true)] any.
Proof. intros. unfold put. destruct (i <? n); simpl; auto. exists []. repeat split; auto. Qed.

(** Accesses of a loop. *)
Fixpoint over (n lo st : nat) (f : nat -> list (location * bool)) : list (location * bool) :=
  match n with O => [] | S n' => f lo ++ over n' (lo + st) st f end.

Lemma follows_loop : forall (P : location -> value -> Prop) body f n lo st, (forall i, lo <= i < lo + n * st + 1 -> follows P (body i) (f i) any) ->
  follows P (ploop n lo st body) (over n lo st f) any.
Proof.
  intros P body f n. induction n; intros lo st H; simpl.
  - split; unfold any; auto.
  - eapply follows_bind. apply H. lia. intros _ _. apply IHn. intros i Hi. apply H. simpl. lia.
Qed.

Lemma over_length : forall f c n lo st, (forall i, length (f i) = c) -> length (over n lo st f) = n * c.
Proof. intros f c n. induction n; intros lo st H; simpl; auto. rewrite app_length, H, IHn; auto. Qed.

Definition rd_of (o i : nat) : location * bool := ((o, i), false).
Definition wr_of (o i : nat) : location * bool := ((o, i), true).

Definition swap_tr (x i j : nat) := [rd_of x i; rd_of x j; wr_of x i; wr_of x j].
Definition bitrev_tr (T : nat -> nat) (table x n : nat) :=
  over n 0 1 (fun i => rd_of table i :: if i <? T i then rd_of table i :: swap_tr x i (T i) else []).
Definition stage0_tr (x n : nat) :=
  over ((n - 0 + (2 - 1)) / 2) 0 2 (fun k => [rd_of x k; rd_of x (k + 1); rd_of x k; rd_of x (k + 1); wr_of x (k + 1); wr_of x k]).
Definition stage_tr (tw x n len stride ts : nat) :=
  over ((n - 0 + (stride - 1)) / stride) 0 stride (fun k => over len 0 1 (fun pair =>
    [rd_of tw (pair * ts); rd_of x (k + pair); rd_of x (k + pair + len); rd_of x (k + pair); rd_of x (k + pair + len);
     wr_of x (k + pair + len); wr_of x (k + pair)])).
Definition kernel_tr (order tw x : nat) :=
  stage0_tr x (2 ^ order) ++ over (order - 1) 1 1 (fun stage => stage_tr tw x (2 ^ order) (2 ^ stage) (2 ^ (stage + 1)) (2 ^ (order - stage - 1))).
Definition fft_tr (p : plan_arrays) (x : nat) (d : direction) :=
  bitrev_tr (digit_rev 2 (pa_order p)) (pa_table p) x (2 ^ pa_order p) ++
  kernel_tr (pa_order p) (match d with Forward => pa_wf p | Backward => pa_wb p end) x.
Definition copy_tr (src dst n : nat) := over n 0 1 (fun i => [rd_of src i; wr_of dst i]).
Definition rfft_tr (p : plan_arrays) (buf inp out : nat) :=
  (copy_tr inp buf (2 ^ pa_order p) ++ fft_tr p buf Forward) ++ copy_tr buf out (2 ^ pa_order p / 2 + 1).
Definition irfft_tr (p : plan_arrays) (buf inp out : nat) :=
  let n := 2 ^ pa_order p in let c := n / 2 + 1 in
  copy_tr inp buf c ++ over (n - c) c 1 (fun i => [rd_of buf (n - i); wr_of buf i]) ++ fft_tr p buf Backward ++ copy_tr buf out n.

(** Memories whose reorder table is that of the plan. *)
Definition table_ok (p : plan_arrays) (l : location) (v : value) : Prop :=
  fst l = pa_table p -> v = Index (digit_rev 2 (pa_order p) (snd l)).

Ltac fol := repeat first
  [ match goal with |- follows _ (pbind (get_c ?o _ ?i) _) (rd_of ?o ?i :: ?t) _ =>
      change (rd_of o i :: t) with ([((o, i), false)] ++ t); eapply follows_bind; [apply follows_c|intros ? _] end
  | match goal with |- follows _ (pbind (get_r ?o _ ?i) _) (rd_of ?o ?i :: ?t) _ =>
      change (rd_of o i :: t) with ([((o, i), false)] ++ t); eapply follows_bind; [apply follows_r|intros ? _] end
  | match goal with |- follows _ (pbind (put ?o _ ?i _) _) (wr_of ?o ?i :: ?t) _ =>
      change (wr_of o i :: t) with ([((o, i), true)] ++ t); eapply follows_bind; [apply follows_put|intros ? _] end
  | apply follows_put ].

Lemma follows_swap : forall p x n i j, x <> pa_table p -> follows (table_ok p) (swap_prog x n i j) (swap_tr x i j) any.
Proof. intros p x n i j N. unfold swap_prog, swap_tr. fol; intros K; simpl in K; congruence. Qed.

Lemma follows_bitrev : forall p x n, x <> pa_table p ->
  follows (table_ok p) (bitrev_prog (pa_table p) x n) (bitrev_tr (digit_rev 2 (pa_order p)) (pa_table p) x n) any.
Proof.
  intros p x n N. unfold bitrev_prog, bitrev_tr, pfor. rewrite Nat.sub_0_r. apply follows_loop. intros i _.
  set (T := digit_rev 2 (pa_order p)).
  change (rd_of (pa_table p) i :: (if i <? T i then rd_of (pa_table p) i :: swap_tr x i (T i) else []))
    with ([((pa_table p, i), false)] ++ (if i <? T i then rd_of (pa_table p) i :: swap_tr x i (T i) else [])).
  eapply follows_bind. apply follows_i. intros t Ht. specialize (Ht eq_refl). cbn [snd] in Ht. fold T in Ht. inversion Ht; subst t.
  destruct (i <? T i).
  - change (rd_of (pa_table p) i :: swap_tr x i (T i)) with ([((pa_table p, i), false)] ++ swap_tr x i (T i)).
    eapply follows_bind. apply follows_i. intros t' Ht'. specialize (Ht' eq_refl). cbn [snd] in Ht'. fold T in Ht'. inversion Ht'; subst t'.
    apply follows_swap; auto.
  - split; unfold any; auto.
Qed.

Lemma follows_kernel : forall p order tw x, x <> pa_table p -> follows (table_ok p) (kernel_prog order tw x) (kernel_tr order tw x) any.
Proof.
  intros p order tw x N. unfold kernel_prog, kernel_tr. cbv zeta.
  assert (W : forall i v, table_ok p (x, i) v) by (intros i v K; simpl in K; congruence).
  eapply follows_bind.
  - unfold stage0_prog, stage0_tr, pfor_step. apply follows_loop. intros k _. fol; auto.
  - intros _ _. unfold pfor. apply follows_loop. intros s _. unfold stage_prog, stage_tr, pfor_step.
    apply follows_loop. intros k _. unfold pfor. rewrite Nat.sub_0_r. apply follows_loop. intros pair _. cbv zeta. fol; auto.
Qed.

Lemma follows_fft : forall p x d, x <> pa_table p -> follows (table_ok p) (fft_prog p x d) (fft_tr p x d) any.
Proof.
  intros p x d N. unfold fft_prog, fft_tr. eapply follows_bind. apply follows_bitrev; auto. intros _ _. apply follows_kernel. auto.
Qed.

Lemma follows_rfft : forall p buf inp out, buf <> pa_table p -> out <> pa_table p ->
  follows (table_ok p) (rfft_prog p buf inp out) (rfft_tr p buf inp out) any.
Proof.
  intros p buf inp out N1 N2. unfold rfft_prog, rfft_tr, rfft_transform_prog, rfft_output_prog, copy_tr. cbv zeta.
  assert (W1 : forall i v, table_ok p (buf, i) v) by (intros i v K; simpl in K; congruence).
  assert (W2 : forall i v, table_ok p (out, i) v) by (intros i v K; simpl in K; congruence).
  eapply follows_bind.
  - eapply follows_bind.
    + unfold pfor. rewrite Nat.sub_0_r. apply follows_loop. intros i _. fol; auto.
    + intros _ _. apply follows_fft; auto.
  - intros _ _. unfold pfor. rewrite Nat.sub_0_r. apply follows_loop. intros i _. fol; auto.
Qed.

Lemma follows_irfft : forall p buf inp out, buf <> pa_table p -> out <> pa_table p ->
  follows (table_ok p) (irfft_prog p buf inp out) (irfft_tr p buf inp out) any.
Proof.
  intros p buf inp out N1 N2. unfold irfft_prog, irfft_tr, copy_tr. cbv zeta.
  assert (W1 : forall i v, table_ok p (buf, i) v) by (intros i v K; simpl in K; congruence).
  assert (W2 : forall i v, table_ok p (out, i) v) by (intros i v K; simpl in K; congruence).
  eapply follows_bind; [|intros _ _; eapply follows_bind; [|intros _ _; eapply follows_bind; [|intros _ _]]].
  - unfold pfor. rewrite Nat.sub_0_r. apply follows_loop. intros i _. fol; auto.
  - unfold pfor. apply follows_loop. intros i _. fol; auto.
  - apply follows_fft; auto.
  - unfold pfor. rewrite Nat.sub_0_r. apply follows_loop. intros i _. fol; auto.
Qed.

(** ** Counting *)
Lemma stages_length : forall order tw x, 0 < order -> length (kernel_tr order tw x) = 3 * 2 ^ order + (order - 1) * (7 * (2 ^ order / 2)).
Proof.
  intros order tw x Ho. unfold kernel_tr. rewrite app_length.
  destruct (pow2_half order Ho) as [m [Hm [En _]]].
  assert (H2 : 2 ^ order / 2 = m) by (rewrite En; apply half_of_double).
  f_equal.
  - unfold stage0_tr. rewrite (over_length _ 6) by reflexivity. rewrite En.
    replace ((2 * m - 0 + (2 - 1)) / 2) with m; [lia|]. apply (Nat.div_unique _ 2 m 1); lia.
  - assert (G : forall k lo, 1 <= lo -> lo + k <= order -> length (over k lo 1 (fun stage => stage_tr tw x (2 ^ order) (2 ^ stage) (2 ^ (stage + 1)) (2 ^ (order - stage - 1)))) = k * (7 * (2 ^ order / 2))).
    { induction k; intros lo H1 Hk; simpl; auto. rewrite app_length, IHk by lia. f_equal.
      unfold stage_tr. rewrite (over_length _ (2 ^ lo * 7)) by (intros; apply over_length; reflexivity).
      assert (E : 2 ^ order = 2 ^ (lo + 1) * 2 ^ (order - lo - 1)) by (rewrite <- Nat.pow_add_r; f_equal; lia).
      pose proof (pow_pos (lo + 1)) as P1.
      replace ((2 ^ order - 0 + (2 ^ (lo + 1) - 1)) / 2 ^ (lo + 1)) with (2 ^ (order - lo - 1)).
      - rewrite H2. assert (E2 : 2 ^ (lo + 1) = 2 * 2 ^ lo) by (rewrite Nat.add_1_r; apply Nat.pow_succ_r').
        rewrite En, E2 in E. nia.
      - apply (Nat.div_unique _ (2 ^ (lo + 1)) _ (2 ^ (lo + 1) - 1)); lia. }
    apply G; lia.
Qed.

Definition swaps (p : nat) : list nat := filter (fun i => i <? digit_rev 2 p i) (seq 0 (2 ^ p)).

Lemma bitrev_length : forall p table x, length (bitrev_tr (digit_rev 2 p) table x (2 ^ p)) = 2 ^ p + 5 * length (swaps p).
Proof.
  intros p table x. unfold bitrev_tr, swaps.
  assert (G : forall k lo, length (over k lo 1 (fun i => rd_of table i :: (if i <? digit_rev 2 p i then rd_of table i :: swap_tr x i (digit_rev 2 p i) else []))) =
    k + 5 * length (filter (fun i => i <? digit_rev 2 p i) (seq lo k))); [|apply G].
  induction k; intros lo; simpl; auto. rewrite app_length, Nat.add_1_r, IHk.
  destruct (lo <? digit_rev 2 p lo); simpl; lia.
Qed.

(** Palindromes. *)
Definition pal (p : nat) : list nat := filter (fun i => digit_rev 2 p i =? i) (seq 0 (2 ^ p)).

Lemma in_pal : forall p i, In i (pal p) <-> i < 2 ^ p /\ digit_rev 2 p i = i.
Proof. intros. unfold pal. rewrite filter_In, in_seq, Nat.eqb_eq. lia. Qed.

Lemma rev_outer : forall p a m c, a < 2 -> c < 2 -> m < 2 ^ p ->
  digit_rev 2 (S (S p)) (a * 2 ^ S p + 2 * m + c) = c * 2 ^ S p + 2 * digit_rev 2 p m + a.
Proof.
  intros p a m c Ha Hc Hm.
  assert (E : 2 ^ S p = 2 * 2 ^ p) by apply Nat.pow_succ_r'.
  replace (a * 2 ^ S p + 2 * m + c) with ((a * 2 ^ p + m) * 2 + c) by lia.
  rewrite digit_rev_snoc by auto. rewrite <- Nat.add_assoc. f_equal.
  rewrite digit_rev_top by nia.
  rewrite (Nat.add_comm (a * 2 ^ p)), Nat.mod_add, Nat.div_add by lia.
  rewrite Nat.mod_small, Nat.div_small by auto. lia.
Qed.

Lemma NoDup_append : forall (l1 l2 : list nat), NoDup l1 -> NoDup l2 -> (forall x, In x l1 -> ~ In x l2) -> NoDup (l1 ++ l2).
Proof.
  induction l1; intros l2 H1 H2 D; simpl; auto. inversion H1; subst. constructor.
  - rewrite in_app_iff. intros [K|K]; auto. apply (D a); simpl; auto.
  - apply IHl1; auto. intros x Hx. apply D. simpl. auto.
Qed.

Lemma NoDup_image : forall (f : nat -> nat) l, (forall x y, In x l -> In y l -> f x = f y -> x = y) -> NoDup l -> NoDup (map f l).
Proof.
  induction l; intros H N; simpl; [constructor|]. inversion N; subst. constructor.
  - intros K. apply in_map_iff in K. destruct K as [y [E Hy]]. assert (y = a) by (apply H; simpl; auto). subst. auto.
  - apply IHl; auto. intros x y Hx Hy. apply H; simpl; auto.
Qed.

Lemma pal_step : forall p, length (pal (S (S p))) = 2 * length (pal p).
Proof.
  intros p.
  assert (E1 : 2 ^ S p = 2 * 2 ^ p) by apply Nat.pow_succ_r'.
  assert (E2 : 2 ^ S (S p) = 2 * 2 ^ S p) by apply Nat.pow_succ_r'.
  set (f := fun a m => a * 2 ^ S p + 2 * m + a).
  assert (ND : forall q, NoDup (pal q)) by (intros q; apply NoDup_filter, seq_NoDup).
  assert (P : Permutation (pal (S (S p))) (map (f 0) (pal p) ++ map (f 1) (pal p))).
  { apply NoDup_Permutation; auto.
    - apply NoDup_append.
      + apply NoDup_image; auto. unfold f. intros; lia.
      + apply NoDup_image; auto. unfold f. intros; lia.
      + intros x H1 H2. apply in_map_iff in H1, H2. destruct H1 as [y [Ey Hy]], H2 as [z [Ez Hz]].
        unfold f in *. lia.
    - intros i. rewrite in_app_iff, !in_map_iff. rewrite in_pal. split.
      + intros [Hi Hr].
        set (a := i / 2 ^ S p) in *. set (r := i mod 2 ^ S p).
        assert (Ei : i = a * 2 ^ S p + r) by (unfold a, r; rewrite (Nat.mul_comm (i / _)); apply Nat.div_mod; lia).
        assert (Hr' : r < 2 ^ S p) by (apply Nat.mod_upper_bound; lia).
        assert (Ha : a < 2) by nia.
        set (m := r / 2) in *. set (c := r mod 2).
        assert (Er : r = 2 * m + c) by (apply Nat.div_mod; lia).
        assert (Hc : c < 2) by (apply Nat.mod_upper_bound; lia).
        assert (Hm : m < 2 ^ p) by lia.
        assert (Ei' : i = a * 2 ^ S p + 2 * m + c) by lia.
        rewrite Ei' in Hr. rewrite rev_outer in Hr by auto.
        pose proof (digit_rev_lt 2 p m ltac:(lia)) as Hd.
        assert (a = c /\ digit_rev 2 p m = m) as [Eac Em].
        { clear - Hr Ha Hc Hd Hm E1. clearbody a c. destruct a as [|[|a]]; destruct c as [|[|c]]; lia. }
        destruct (Nat.eq_dec a 0); [left|right]; exists m; (split; [unfold f; nia|apply in_pal; auto]).
      + assert (G : forall a m, a < 2 -> f a m = i -> In m (pal p) -> i < 2 ^ S (S p) /\ digit_rev 2 (S (S p)) i = i).
        { intros a m Ha <- Hm. apply in_pal in Hm. destruct Hm as [Hm Em]. unfold f. split; [nia|].
          rewrite rev_outer by auto. lia. }
        intros [[m [E H]]|[m [E H]]]; [apply (G 0 m)|apply (G 1 m)]; auto. }
  rewrite (Permutation_length P), app_length, !map_length. lia.
Qed.

Lemma pal_count : forall p, length (pal p) = 2 ^ ((p + 1) / 2) /\ length (pal (S p)) = 2 ^ ((S p + 1) / 2).
Proof.
  induction p as [|p [IH1 IH2]].
  - split; reflexivity.
  - split; auto. rewrite pal_step, IH1.
    replace ((S (S p) + 1) / 2) with (S ((p + 1) / 2)); [symmetry; apply Nat.pow_succ_r'|].
    replace (S (S p) + 1) with (p + 1 + 1 * 2) by lia. rewrite Nat.div_add by lia. lia.
Qed.

Lemma swaps_count : forall p, 2 * length (swaps p) + 2 ^ ((p + 1) / 2) = 2 ^ p.
Proof.
  intros p. rewrite <- (proj1 (pal_count p)).
  set (down := filter (fun i => digit_rev 2 p i <? i) (seq 0 (2 ^ p))).
  assert (E : length (swaps p) = length down).
  { rewrite <- (map_length (digit_rev 2 p) (swaps p)). apply Permutation_length. apply NoDup_Permutation.
    - apply NoDup_image; [|apply NoDup_filter, seq_NoDup]. intros x y Hx Hy.
      apply filter_In in Hx, Hy. destruct Hx as [Hx _], Hy as [Hy _]. apply in_seq in Hx, Hy.
      apply digit_rev_inj; lia.
    - apply NoDup_filter, seq_NoDup.
    - intros i. rewrite in_map_iff. unfold down, swaps. rewrite filter_In, in_seq, Nat.ltb_lt. split.
      + intros [j [<- Hj]]. apply filter_In in Hj. rewrite in_seq, Nat.ltb_lt in Hj.
        rewrite digit_rev_invol by lia. pose proof (digit_rev_lt 2 p j ltac:(lia)). lia.
      + intros [Hi Hd]. exists (digit_rev 2 p i). rewrite digit_rev_invol by lia. split; auto.
        apply filter_In. rewrite in_seq, Nat.ltb_lt, digit_rev_invol by lia.
        pose proof (digit_rev_lt 2 p i ltac:(lia)). lia. }
  assert (G : forall l, length (filter (fun i => i <? digit_rev 2 p i) l) + length (filter (fun i => digit_rev 2 p i <? i) l) +
    length (filter (fun i => digit_rev 2 p i =? i) l) = length l).
  { induction l as [|i l IH]; simpl; auto.
    destruct (Nat.ltb_spec i (digit_rev 2 p i)), (Nat.ltb_spec (digit_rev 2 p i) i), (Nat.eqb_spec (digit_rev 2 p i) i); simpl; lia. }
  specialize (G (seq 0 (2 ^ p))). rewrite seq_length in G. unfold swaps, pal, down in *. lia.
Qed.

(** ** The calls *)
Definition job_tr (j : job) : list (location * bool) :=
  match j with
  | FftJob p x d => fft_tr p x d
  | RfftJob p buf inp out => rfft_tr p buf inp out
  | IrfftJob p buf inp out => irfft_tr p buf inp out
  end.

Lemma table_in : forall m p, plan_in m p -> 0 < pa_order p -> forall l v, m l = Some v -> table_ok p l v.
Proof.
  intros m p (pl & E & H & _) Hp [o i] v Hv K. cbn [fst snd] in *. subst o.
  rewrite (make_dit2_plan_ok _ (conj Hp (order_le _ _ E))) in E. inversion E; subst pl. cbn [p_reorder] in H.
  rewrite (H i) in Hv. rewrite nth_error_map in Hv.
  destruct (nth_error (tab (2 ^ pa_order p) (digit_rev 2 (pa_order p))) i) as [t|] eqn:F; [|discriminate].
  inversion Hv; subst. f_equal.
  assert (Hi : i < 2 ^ pa_order p).
  { rewrite <- (tab_length nat (2 ^ pa_order p) (digit_rev 2 (pa_order p))). apply nth_error_Some. congruence. }
  apply (nth_error_nth _ _ 0) in F. rewrite nth_tab in F by auto. auto.
Qed.

Lemma job_accesses : forall m j, ready m j -> accesses (job_prog j) m = job_tr j.
Proof.
  intros m j Hr. destruct (job_run m j Hr) as [m' [R _]].
  destruct j as [p x d|p buf inp out|p buf inp out]; destruct Hr as (Own & _ & Hp & Hpl & _);
    cbn [writes reads] in Own; cbn [job_prog job_tr] in *; refine (follows_run _ _ _ _ _ m tt m' (table_in m p Hpl Hp) R _);
    [apply follows_fft|apply follows_rfft|apply follows_irfft]; intros K; subst;
    match goal with K : ?o = pa_table p |- _ => apply (Own o); [simpl; auto|rewrite K; simpl; auto 6] | _ => apply (Own (pa_table p)); simpl; auto 6 end.
Qed.

Lemma cost_accesses : forall A (p : prog A) m a m', run p m = Ok (a, m') -> cost p m = length (accesses p m).
Proof.
  intros A p. induction p as [b|l k IH|l v k IH|]; intros m a m' H; simpl in *; auto.
  - destruct (m l) as [v|]; [|discriminate]. simpl. f_equal. eapply IH; eauto.
  - destruct (m l) as [w|]; [|discriminate]. simpl. f_equal. eapply IH; eauto.
Qed.

Lemma schedule_length : forall m0 jobs,
  (forall j, In j jobs -> ready m0 j) ->
  (forall s t a b, s <> t -> nth_error jobs s = Some a -> nth_error jobs t = Some b -> separate a b) ->
  forall n c, steps n (map job_prog jobs, m0) c -> finished c ->
    n = list_sum (map (fun j => length (accesses (job_prog j) m0)) jobs).
Proof.
  intros m0 jobs Hr Hs n c Hc Fin. destruct (schedules m0 jobs Hr Hs n c Hc) as (_ & _ & _ & _ & F).
  destruct (F Fin) as [E _]. rewrite E. f_equal. apply map_ext_in. intros j Hj.
  destruct (job_run m0 j (Hr j Hj)) as [m' [R _]]. eapply cost_accesses; eauto.
Qed.
