(** Parameters and saved state of the plugin. *)
From Coq Require Import Reals List Lra Lia Bool.
From Verif Require Import Spec.HostState Model.PluginState.
Import ListNotations.
Local Open Scope R_scope.

Lemma gain_skew : r_skew gainRange = 1 / 2.
Proof.
  unfold gainRange, setSkewForCentre. simpl. replace ((1 - 0) / (4 - 0)) with (/ 2 * / 2) by lra.
  rewrite ln_mult by lra. replace (1 / 2) with (/ 2) by lra.
  assert (ln (/ 2) < 0). { rewrite <- ln_1. apply ln_increasing; lra. }
  field. lra.
Qed.

Lemma clamp_id : forall x, 0 <= x <= 1 -> clamp01 x = x.
Proof. intros x H. unfold clamp01. rewrite Rmin_right by lra. apply Rmax_right. lra. Qed.

Lemma clamp_range : forall x, 0 <= clamp01 x <= 1.
Proof.
  intros x. unfold clamp01. pose proof (Rmax_l 0 (Rmin 1 x)). pose proof (Rmin_l 1 x).
  split; auto. apply Rmax_lub; lra.
Qed.

Lemma from_position : forall p x, convertFrom0to1 (param_range p) x = at_position p (clamp01 x).
Proof.
  assert (G : forall x, convertFrom0to1 gainRange x = 4 * clamp01 x ^ 2).
  { intros x. unfold convertFrom0to1. rewrite gain_skew. change (r_start gainRange) with 0. change (r_end gainRange) with 4.
    destruct (Req_EM_T (1 / 2) 1); [lra|]. pose proof (clamp_range x). destruct (Rlt_dec 0 (clamp01 x)) as [L|L].
    - replace (ln (clamp01 x) / (1 / 2)) with (ln (clamp01 x) + ln (clamp01 x)) by lra. rewrite exp_plus, exp_ln by auto. lra.
    - replace (clamp01 x) with 0 by lra. lra. }
  intros [] x; simpl; auto; try (apply G). unfold convertFrom0to1, normalised. simpl. destruct (Req_EM_T 1 1); lra.
Qed.

Lemma to_position : forall p v, 0 <= v <= highest p -> at_position p (convertTo0to1 (param_range p) v) = v /\ 0 <= convertTo0to1 (param_range p) v <= 1.
Proof.
  assert (G : forall v, 0 <= v <= 4 -> 4 * convertTo0to1 gainRange v ^ 2 = v /\ 0 <= convertTo0to1 gainRange v <= 1).
  { intros v H. unfold convertTo0to1. rewrite gain_skew. change (r_start gainRange) with 0. change (r_end gainRange) with 4.
    rewrite clamp_id by lra. destruct (Req_EM_T (1 / 2) 1); [lra|]. destruct (Req_EM_T ((v - 0) / (4 - 0)) 0) as [Z|Z]. { split; lra. }
    replace (1 / 2) with (/ 2) by lra. rewrite Rpower_sqrt by lra.
    pose proof (sqrt_pos ((v - 0) / (4 - 0))). pose proof (sqrt_sqrt ((v - 0) / (4 - 0))). split; [nra|].
    split; auto. rewrite <- sqrt_1. apply sqrt_le_1_alt. lra. }
  intros [] v H; simpl in *; try (apply G; lra). unfold convertTo0to1, normalised. simpl. rewrite clamp_id by lra. destruct (Req_EM_T 1 1); lra.
Qed.

Lemma at_range : forall p x, 0 <= x <= 1 -> 0 <= at_position p x <= highest p.
Proof. intros [] x H; simpl; nra. Qed.

Lemma at_mono : forall p x y, 0 <= x -> x < y -> at_position p x < at_position p y.
Proof. intros [] x y H0 H; simpl; nra. Qed.

Lemma at_inj : forall p x y, 0 <= x -> 0 <= y -> at_position p x = at_position p y -> x = y.
Proof.
  intros p x y Hx Hy E. destruct (Rtotal_order x y) as [L|[L|L]]; auto.
  - pose proof (at_mono p x y Hx L). lra.
  - pose proof (at_mono p y x Hy L). lra.
Qed.

Lemma value_back : forall p v, 0 <= v <= highest p -> convertFrom0to1 (param_range p) (convertTo0to1 (param_range p) v) = v.
Proof. intros p v H. destruct (to_position p v H) as [E R]. rewrite from_position, clamp_id by auto. auto. Qed.

Lemma position_back : forall p x, 0 <= x <= 1 -> convertTo0to1 (param_range p) (convertFrom0to1 (param_range p) x) = x.
Proof.
  intros p x H. rewrite from_position, clamp_id by auto. destruct (to_position p (at_position p x)) as [E R]. { apply at_range; auto. }
  apply (at_inj p); lra.
Qed.

(** * Histories *)

Definition in_range (s : state) : Prop := forall p, 0 <= st_value s p <= highest p.

Lemma from_range : forall p x, 0 <= convertFrom0to1 (param_range p) x <= highest p.
Proof. intros. rewrite from_position. apply at_range, clamp_range. Qed.

Lemma step_range : forall s e, in_range s -> in_range (state_step s e).
Proof.
  intros s e H p. destruct e as [q x| |[t|]]; simpl; auto.
  - unfold automate. simpl. destruct (param_eqb p q) eqn:E; auto.
    assert (p = q) by (destruct p, q; auto; discriminate). subst. apply from_range.
  - unfold restored. destruct (Req_EM_T (t p) (st_value s p)); simpl; auto. apply from_range.
Qed.

Lemma run_snoc : forall es e, state_run (es ++ [e]) = state_step (state_run es) e.
Proof. intros. unfold state_run. rewrite fold_left_app. auto. Qed.

Lemma run_range : forall es, in_range (state_run es).
Proof.
  intros es. induction es as [|e es IH] using rev_ind.
  - intros []; simpl; unfold param_default; lra.
  - rewrite run_snoc. apply step_range. auto.
Qed.

(** What the tree holds: the values when they were last written down, except that values restored
    out of range are the parameter's after correction. *)
Definition settled (s : state) : Prop := forall p, st_changed s p = false -> st_tree s p = st_value s p.

Lemma flush_settled : forall s, settled s -> forall p, st_tree (flush s) p = st_value s p.
Proof. intros s H p. simpl. destruct (st_changed s p) eqn:E; auto. Qed.

Lemma step_settled : forall s e, settled s -> settled (state_step s e).
Proof.
  intros s e H p. destruct e as [q x| |[t|]]; simpl; auto.
  - unfold automate. simpl. destruct (param_eqb p q); auto. discriminate.
  - intros _. destruct (st_changed s p) eqn:E; auto.
  - intros _. unfold restored. destruct (Req_EM_T (t p) (st_value s p)) as [Q|Q]; simpl; auto. destruct (st_changed s p); auto.
Qed.

Lemma run_settled : forall es, settled (state_run es).
Proof.
  intros es. induction es as [|e es IH] using rev_ind. { intros p _. reflexivity. }
  rewrite run_snoc. apply step_settled. auto.
Qed.

Lemma written_snoc : forall es e, written_down (es ++ [e]) = if writes e then es ++ [e] else written_down es.
Proof.
  intros es e. unfold written_down. rewrite rev_app_distr. simpl. destruct (writes e); auto.
  simpl. rewrite rev_involutive. auto.
Qed.

Lemma run_tree : forall es p, st_tree (state_run es) p = st_value (state_run (written_down es)) p.
Proof.
  intros es. induction es as [|e es IH] using rev_ind; intros p. { reflexivity. }
  rewrite written_snoc. destruct e as [q x| |[t|]]; cbn [writes]; rewrite run_snoc; simpl; auto.
  - apply flush_settled. apply run_settled.
  - unfold restored. destruct (Req_EM_T (t p) (st_value (state_run es) p)) as [Q|Q]; simpl; auto.
    destruct (st_changed (state_run es) p); auto.
Qed.

Lemma restore_values : forall s t p, 0 <= t p <= highest p -> st_value (setStateInformation (Some t) s) p = t p.
Proof.
  intros s t p H. simpl. unfold restored. destruct (Req_EM_T (t p) (st_value s p)); simpl; auto. apply value_back. auto.
Qed.
