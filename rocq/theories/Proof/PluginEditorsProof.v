(** The editors of the plugin over every history. *)
From Coq Require Import String Reals List Arith ZArith Lia Bool.
From Verif Require Import Base.Outcome Base.OutcomeFacts Spec.HostCalls Model.PluginEditors.
Import ListNotations.
Local Open Scope nat_scope.
Local Arguments Z.pow : simpl never.
Local Arguments Z.modulo : simpl never.

Lemma listener_eqb_eq : forall a b, listener_eqb a b = true <-> a = b.
Proof.
  intros [i|i] [j|j]; simpl; split; intros H; try discriminate; try (apply Nat.eqb_eq in H; subst; auto);
    inversion H; apply Nat.eqb_refl.
Qed.

Lemma listener_existsb : forall l ls, existsb (listener_eqb l) ls = true <-> In l ls.
Proof.
  intros l ls. rewrite existsb_exists. split.
  - intros (k & I & E). apply listener_eqb_eq in E. subst. auto.
  - intros I. exists l. split; auto. apply listener_eqb_eq. auto.
Qed.

Lemma remove_first_in : forall l ls, NoDup ls -> NoDup (remove_first l ls) /\ forall k, In k (remove_first l ls) <-> In k ls /\ k <> l.
Proof.
  intros l ls. induction ls as [|m ls IH]; intros N. { simpl. split; auto. intros; tauto. }
  inversion N as [|? ? N1 N2]; subst. destruct (IH N2) as [I1 I2]. simpl.
  destruct (listener_eqb l m) eqn:E.
  - apply listener_eqb_eq in E. subst m. split; auto. intros k. split.
    + intros H. split; auto. intros Q. subst. auto.
    + intros [[H|H] Q]; auto. congruence.
  - assert (D : l <> m) by (intros Q; apply listener_eqb_eq in Q; congruence). split.
    + constructor; auto. rewrite I2. tauto.
    + intros k. simpl. rewrite I2. split; [intros [H|H]; [subst; auto|tauto]|]. intros [[H|H] Q]; auto.
Qed.

Section Proofs.
Variables (show_double : R -> string) (show_uint : Z -> string).

Definition shows (s : host_spec) : editor :=
  Editor (Some ("Samplerate: " ++ show_double (hs_rate s))%string) (Some ("Block-size: " ++ show_uint (hs_block s))%string)
         (Some ("Channels: " ++ show_uint (hs_channels s))%string) (Some s).

Record tracks (calls : list host_call) (i : instance) : Prop := {
  tr_spec : getProcessSpec i = spec_after calls;
  tr_nodup : NoDup (in_listeners i);
  tr_ed : forall a, In (EditorListener a) (in_listeners i) <-> open_after calls a = true;
  tr_tab : forall a, In (TabListener a) (in_listeners i) <-> open_after calls a = true;
  tr_editors : forall a, in_editors i a = if open_after calls a then Some (shows (spec_after calls)) else None }.

Definition after_calls (s : host_spec) (ls : list listener) (a : nat) (e : editor) : editor :=
  let ed := existsb (listener_eqb (EditorListener a)) ls in
  Editor (if ed then ed_rate (shows s) else ed_rate e) (if ed then ed_block (shows s) else ed_block e)
         (if ed then ed_channels (shows s) else ed_channels e)
         (if existsb (listener_eqb (TabListener a)) ls then Some s else ed_tab e).

Lemma call_ok : forall s ls i,
  (forall a, In (EditorListener a) ls \/ In (TabListener a) ls -> in_editors i a <> None) ->
  exists i', fold_left (fun i l => bind i (fun i => processSpecChanged show_double show_uint l s i)) ls (Ok i) = Ok i' /\
    in_spec i' = in_spec i /\ in_listeners i' = in_listeners i /\
    forall a, in_editors i' a = match in_editors i a with None => None | Some e => Some (after_calls s ls a e) end.
Proof using All.
  intros s ls. induction ls as [|l ls IH]; intros i H.
  { exists i. split; auto. split; auto. split; auto. intros a. destruct (in_editors i a) as [[]|]; auto. }
  assert (St : exists i1, processSpecChanged show_double show_uint l s i = Ok i1 /\ in_spec i1 = in_spec i /\ in_listeners i1 = in_listeners i /\
    forall a, in_editors i1 a = match in_editors i a with None => None | Some e => Some (after_calls s [l] a e) end).
  { destruct l as [b|b]; simpl; destruct (in_editors i b) as [e|] eqn:E; try (exfalso; apply (H b); simpl; auto; fail);
      (eexists; split; [reflexivity|]; split; [reflexivity|]; split; [reflexivity|]); intros a; simpl;
      destruct (Nat.eqb_spec a b) as [->|D]; try rewrite E; unfold after_calls; simpl; try rewrite Nat.eqb_refl; auto;
      destruct (in_editors i a) as [[]|]; auto; destruct (Nat.eqb_spec a b); try contradiction; auto. }
  destruct St as (i1 & E1 & S1 & L1 & A1).
  destruct (IH i1) as (i2 & E2 & S2 & L2 & A2).
  { intros a Ha. rewrite A1. assert (in_editors i a <> None) by (apply H; simpl; tauto). destruct (in_editors i a); [discriminate|auto]. }
  exists i2. cbn [fold_left bind]. rewrite E1. split; auto. split; [congruence|]. split; [congruence|].
  intros a. rewrite A2, A1. destruct (in_editors i a) as [e|]; auto. f_equal. unfold after_calls. simpl.
  destruct l as [b|b]; simpl; destruct (a =? b); simpl; auto;
    destruct (existsb (listener_eqb (EditorListener a)) ls), (existsb (listener_eqb (TabListener a)) ls); auto.
Qed.

Lemma spec_snoc : forall calls c, spec_after (calls ++ [c]) = match c with Prepare r n k => HostSpec r (n mod 2 ^ 32) (k mod 2 ^ 32) | _ => spec_after calls end.
Proof using. intros. unfold spec_after. rewrite fold_left_app. simpl. destruct c; auto. Qed.

Lemma open_snoc : forall calls c b, open_after (calls ++ [c]) b =
  match c with OpenEditor a => if b =? a then true else open_after calls b | CloseEditor a => if b =? a then false else open_after calls b | Prepare _ _ _ => open_after calls b end.
Proof using. intros. unfold open_after. rewrite fold_left_app. simpl. destruct c; auto. Qed.

Lemma set_editor_at : forall i a e b, in_editors (set_editor i a e) b = if b =? a then e else in_editors i b.
Proof using. reflexivity. Qed.

Lemma add_in : forall l i, NoDup (in_listeners i) ->
  NoDup (in_listeners (addProcessSpecListener l i)) /\ (forall k, In k (in_listeners (addProcessSpecListener l i)) <-> k = l \/ In k (in_listeners i)) /\
  in_spec (addProcessSpecListener l i) = in_spec i /\ in_editors (addProcessSpecListener l i) = in_editors i.
Proof using.
  intros l i N. unfold addProcessSpecListener. destruct (existsb (listener_eqb l) (in_listeners i)) eqn:E.
  - apply listener_existsb in E. split; auto. split; auto. intros k. split; auto. intros [->|]; auto.
  - assert (D : ~ In l (in_listeners i)) by (intros Q; apply listener_existsb in Q; congruence). simpl. split; [|split; auto].
    + apply NoDup_rev in N. rewrite <- (rev_involutive (in_listeners i ++ [l])). apply NoDup_rev. rewrite rev_app_distr. simpl.
      constructor; auto. rewrite <- in_rev. auto.
    + intros k. rewrite in_app_iff. simpl. intuition.
Qed.

Lemma step_ok : forall calls c i, tracks calls i ->
  match c with OpenEditor a => open_after calls a = false | CloseEditor a => open_after calls a = true | Prepare _ _ _ => True end ->
  exists i', host_step show_double show_uint c i = Ok i' /\ tracks (calls ++ [c]) i'.
Proof using All.
  intros calls c i [TS TN TE TT TD] P. destruct c as [a|a|r n k].
  - (* open *)
    pose proof (TD a) as Da. rewrite P in Da. cbn [host_step]. unfold open_editor. rewrite Da. cbn [guard bind].
    set (i0 := set_editor i a (Some (Editor None None None None))).
    change (getProcessSpec i0) with (getProcessSpec i). rewrite TS. set (s := spec_after calls).
    assert (E0 : in_editors i0 a = Some (Editor None None None None)) by (unfold i0; rewrite set_editor_at, Nat.eqb_refl; auto).
    unfold processSpecChanged at 1. rewrite E0. cbn [bind ed_rate ed_block ed_channels].
    set (i1 := set_editor i0 a (Some (Editor None None None (Some s)))).
    destruct (add_in (TabListener a) i1) as (N2 & I2 & S2 & D2); auto.
    set (i2 := addProcessSpecListener (TabListener a) i1) in *.
    assert (G2 : getProcessSpec i2 = s). { unfold getProcessSpec. rewrite S2. exact TS. }
    rewrite G2. unfold processSpecChanged. rewrite D2. unfold i1 at 1. rewrite set_editor_at, Nat.eqb_refl. cbn [bind ed_tab].
    match goal with |- context [set_editor i2 a (Some ?E)] => set (i3 := set_editor i2 a (Some E)); change E with (shows s) in i3 end.
    destruct (add_in (EditorListener a) i3) as (N4 & I4 & S4 & D4); auto.
    eexists. split; [reflexivity|]. constructor.
    + unfold getProcessSpec. rewrite S4. change (in_spec i3) with (in_spec i2). rewrite S2, spec_snoc. exact TS.
    + auto.
    + intros b. rewrite I4. change (in_listeners i3) with (in_listeners i2). rewrite I2. change (in_listeners i1) with (in_listeners i).
      rewrite TE, open_snoc. destruct (Nat.eqb_spec b a) as [->|D]. { split; auto. }
      split; [intros [Q|[Q|Q]]; congruence|auto].
    + intros b. rewrite I4. change (in_listeners i3) with (in_listeners i2). rewrite I2. change (in_listeners i1) with (in_listeners i).
      rewrite TT, open_snoc. destruct (Nat.eqb_spec b a) as [->|D]. { split; auto. }
      split; [intros [Q|[Q|Q]]; congruence|auto].
    + intros b. rewrite D4, open_snoc, spec_snoc. unfold i3. rewrite set_editor_at. destruct (Nat.eqb_spec b a) as [->|D]; auto.
      rewrite D2. unfold i1, i0. rewrite !set_editor_at. apply Nat.eqb_neq in D. rewrite D. apply TD.
  - (* close *)
    pose proof (TD a) as Da. rewrite P in Da. cbn [host_step]. unfold close_editor. rewrite Da. cbn [guard bind].
    destruct (remove_first_in (EditorListener a) (in_listeners i)) as [N1 I1]; auto.
    destruct (remove_first_in (TabListener a) (remove_first (EditorListener a) (in_listeners i))) as [N2 I2]; auto.
    eexists. split; [reflexivity|]. constructor; cbn [in_listeners set_editor removeProcessSpecListener].
    + rewrite spec_snoc. exact TS.
    + auto.
    + intros b. rewrite I2, I1, TE, open_snoc. destruct (Nat.eqb_spec b a) as [->|D].
      * split; [intros [[_ Q] _]; congruence|discriminate].
      * split; [tauto|]. intros Q. split; [split; [auto|]|]; congruence.
    + intros b. rewrite I2, I1, TT, open_snoc. destruct (Nat.eqb_spec b a) as [->|D].
      * split; [intros [_ Q]; congruence|discriminate].
      * split; [tauto|]. intros Q. split; [split; [auto|]|]; congruence.
    + intros b. rewrite open_snoc, spec_snoc. simpl. destruct (b =? a); auto.
  - (* prepare *)
    cbn [host_step]. unfold prepareToPlay. cbv zeta. cbn [in_listeners].
    set (s := HostSpec r (n mod 2 ^ 32) (k mod 2 ^ 32)).
    destruct (call_ok s (in_listeners i) (Instance (Some s) (in_listeners i) (in_editors i))) as (i' & E & S & L & A).
    { cbn [in_editors]. intros a Q. rewrite TE, TT in Q. rewrite TD. destruct Q as [->| ->]; discriminate. }
    exists i'. split; [exact E|]. cbn [in_listeners in_spec in_editors] in *. constructor.
    + unfold getProcessSpec. rewrite S, spec_snoc. auto.
    + rewrite L. auto.
    + intros a. rewrite L, open_snoc. auto.
    + intros a. rewrite L, open_snoc. auto.
    + intros a. rewrite A, TD, open_snoc, spec_snoc. destruct (open_after calls a) eqn:O; auto. f_equal. unfold after_calls.
      replace (existsb (listener_eqb (EditorListener a)) (in_listeners i)) with true by (symmetry; apply listener_existsb, TE; auto).
      replace (existsb (listener_eqb (TabListener a)) (in_listeners i)) with true by (symmetry; apply listener_existsb, TT; auto).
      reflexivity.
Qed.

Lemma run_ok : forall calls, proper calls -> exists i, host_run show_double show_uint calls = Ok i /\ tracks calls i.
Proof using All.
  intros calls. induction calls as [|c calls IH] using rev_ind; intros P.
  - exists instance_make. split; [reflexivity|]. constructor; simpl; auto; try (constructor; fail); try (intros; split; [intros []|discriminate]).
  - destruct IH as (i & E & T).
    { intros before d after Q. apply (P before d (after ++ [c])). rewrite Q, <- app_assoc. reflexivity. }
    destruct (step_ok calls c i T) as (i' & E' & T'). { exact (P calls c [] eq_refl). }
    exists i'. split; auto. unfold host_run in *. rewrite fold_left_app, E. simpl. auto.
Qed.
End Proofs.
