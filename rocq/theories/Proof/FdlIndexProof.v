(** The delay line index over any number of calls. *)
From Coq Require Import List Arith Lia Bool Reals.
From Verif Require Import Base.Outcome Base.OutcomeFacts Model.Convolution Spec.FdlIndex Proof.StreamProof Proof.UpcProof.
Import ListNotations.
Local Arguments Nat.div : simpl never.
Local Arguments Nat.modulo : simpl never.

Definition call_log (n t : nat) : list event :=
  Insert (t mod n) :: tab n (fun r => Multiply r (age_of n t r)).

Lemma logged_call_ok : forall n t, 0 < n ->
  logged_call (FdlIndex n (t mod n)) = Ok (FdlIndex n (S t mod n), call_log n t).
Proof.
  intros n t Hn. unfold logged_call, fdl_index_run. cbn [fi_num fi_pos bind app].
  match goal with |- context [for_range 0 n ?body ?s0] =>
    destruct (for_range_inv _ (fun r s => s = Insert (t mod n) :: tab r (fun r => Multiply r (age_of n t r))) 0 n body s0) as (s & E & ->) end.
  - lia.
  - reflexivity.
  - intros r s Hr ->. eexists; split; [reflexivity|]. rewrite tab_snoc. reflexivity.
  - rewrite E. cbn [bind]. rewrite next_pos by auto. reflexivity.
Qed.

Lemma logged_calls_ok : forall n T, 0 < n ->
  logged_calls n T = Ok (FdlIndex n (T mod n), tab T (call_log n)).
Proof.
  intros n T Hn. induction T.
  - cbn [logged_calls]. unfold make_fdl_index. rewrite Nat.mod_small by auto. reflexivity.
  - cbn [logged_calls]. rewrite IHT. cbn [bind]. rewrite logged_call_ok by auto. cbn [bind]. rewrite tab_snoc. reflexivity.
Qed.

Lemma in_tab : forall T n (f : nat -> T) v, In v (tab n f) <-> exists i, i < n /\ f i = v.
Proof.
  intros T n f v. split.
  - intros H. destruct (In_nth _ _ v H) as (j & Hj & E). rewrite tab_length in Hj. rewrite nth_tab in E by auto. eauto.
  - intros (i & Hi & <-). rewrite <- (nth_tab _ n f i (f i) Hi). apply nth_In. rewrite tab_length. auto.
Qed.

Lemma insert_in : forall n t r, In (Insert r) (call_log n t) <-> r = t mod n.
Proof.
  intros n t r. unfold call_log. split.
  - intros [H|H]; [congruence|]. apply in_tab in H. destruct H as (i & _ & E). discriminate.
  - intros ->. left. reflexivity.
Qed.

Lemma multiply_in : forall n t r s, 0 < n -> s < n -> (In (Multiply r s) (call_log n t) <-> r = row_of n t s).
Proof.
  intros n t r s Hn Hs. unfold call_log. split.
  - intros [H|H]; [discriminate|]. apply in_tab in H. destruct H as (i & Hi & E). inversion E; subst.
    symmetry. apply row_of_age; auto.
  - intros ->. right. apply in_tab. exists (row_of n t s). split; [apply row_of_lt; auto|]. rewrite age_of_row by auto. reflexivity.
Qed.

Lemma uses_tab : forall m n t s, 0 < n -> s < n -> m <= n ->
  uses s (tab m (fun r => Multiply r (age_of n t r))) = if row_of n t s <? m then 1 else 0.
Proof.
  intros m n t s Hn Hs Hm. induction m.
  - reflexivity.
  - rewrite tab_snoc. unfold uses in *. rewrite filter_app, app_length, IHm by lia. cbn [filter].
    destruct (Nat.eqb_spec (age_of n t m) s) as [E|E].
    + assert (row_of n t s = m) by (rewrite <- E; apply row_of_age; auto). rewrite H. 
      destruct (Nat.ltb_spec m m), (Nat.ltb_spec m (S m)); try lia. reflexivity.
    + assert (row_of n t s <> m) by (intros <-; apply E; apply age_of_row; auto).
      destruct (Nat.ltb_spec (row_of n t s) m), (Nat.ltb_spec (row_of n t s) (S m)); try lia; reflexivity.
Qed.

Lemma uses_log : forall n t s, 0 < n -> s < n -> uses s (call_log n t) = 1.
Proof.
  intros n t s Hn Hs. change (uses s (call_log n t)) with (uses s (tab n (fun r => Multiply r (age_of n t r)))).
  rewrite uses_tab by auto. destruct (Nat.ltb_spec (row_of n t s) n); auto. pose proof (row_of_lt n t s Hn). lia.
Qed.

Lemma mod_row : forall n t s, 0 < n -> s < n -> s <= t -> (t - s) mod n = row_of n t s.
Proof.
  intros n t s Hn Hs Ht. unfold row_of. replace (t + n - s) with (t - s + 1 * n) by lia. rewrite Nat.mod_add by lia. reflexivity.
Qed.

Lemma fdl_history : forall n T, 0 < n -> exists x logs, logged_calls n T = Ok (x, logs) /\ length logs = T /\
  forall t, t < T ->
    (exists rest, nth t logs [] = Insert (t mod n) :: rest /\ forall r, ~ In (Insert r) rest) /\
    forall s, s < n -> uses s (nth t logs []) = 1 /\
    forall row, In (Multiply row s) (nth t logs []) -> row < n /\
      (s <= t -> In (Insert row) (nth (t - s) logs []) /\
                 forall u, t - s < u <= t -> ~ In (Insert row) (nth u logs [])) /\
      (t < s -> forall u, u <= t -> ~ In (Insert row) (nth u logs [])).
Proof.
  intros n T Hn. rewrite logged_calls_ok by auto. do 2 eexists. split; [reflexivity|]. rewrite tab_length. split; [reflexivity|].
  intros t Ht. rewrite nth_tab by auto. split.
  { exists (tab n (fun r => Multiply r (age_of n t r))). split; [reflexivity|]. intros r H. apply in_tab in H.
    destruct H as (i & _ & E). discriminate. }
  intros s Hs. split; [apply uses_log; auto|]. intros row Hrow. apply multiply_in in Hrow; auto. subst row.
  split; [apply row_of_lt; auto|]. split.
  - intros Hst. rewrite nth_tab by lia. split. { apply insert_in. symmetry. apply mod_row; auto. }
    intros u Hu Hin. rewrite nth_tab in Hin by lia. apply insert_in in Hin.
    assert (E : row_of n t s = row_of n t (t - u)).
    { rewrite Hin. rewrite <- mod_row by lia. f_equal. lia. }
    apply row_of_inj in E; lia.
  - intros Hts u Hu Hin. rewrite nth_tab in Hin by lia. apply insert_in in Hin.
    assert (E : row_of n t s = row_of n t (t - u)).
    { rewrite Hin. rewrite <- mod_row by lia. f_equal. lia. }
    apply row_of_inj in E; lia.
Qed.
