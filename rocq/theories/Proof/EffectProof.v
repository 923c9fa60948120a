(** Proofs about the plugin as a whole. *)
From Coq Require Import Reals List Arith Bool ZArith Lia Lra.
From Verif Require Import Base.Outcome Base.OutcomeFacts Spec.Stft Spec.Convolution Spec.Framer Spec.Plugin Spec.Effect
  Model.Fft2 Model.ConstantOverlapAdd Model.PluginConvolution Model.PluginEffect Proof.CliProof Proof.IntegersProof Proof.FramerProof Proof.DenseConvolutionProof.
Import ListNotations.
Open Scope nat_scope.
Open Scope outcome_scope.
Local Arguments Nat.div : simpl never.
Local Arguments Nat.modulo : simpl never.
Local Arguments Nat.pow : simpl never.

(** ** Smoothed gains *)

(** The state before sample t when the target of sample t is [target t]. *)
Fixpoint sv_at (target : nat -> R) (s : smoothed) (t : nat) : smoothed :=
  match t with 0 => s | S t => snd (sv_next (sv_set (target t) (sv_at target s t))) end.

Definition steady (S : nat) (v : R) (s : smoothed) : Prop := sv_current s = v /\ sv_target s = v /\ sv_countdown s = 0 /\ sv_steps s = S.

Lemma set_target : forall v s, sv_target (sv_set v s) = v.
Proof. intros v s. unfold sv_set. destruct (Req_EM_T v (sv_target s)); auto. destruct (sv_steps s =? 0); reflexivity. Qed.
Lemma set_same : forall s, sv_set (sv_target s) s = s.
Proof. intros s. unfold sv_set. destruct (Req_EM_T (sv_target s) (sv_target s)); congruence. Qed.
Lemma set_steps : forall v s, sv_steps (sv_set v s) = sv_steps s.
Proof. intros v s. unfold sv_set. destruct (Req_EM_T v (sv_target s)); auto. destruct (Nat.eqb_spec (sv_steps s) 0); auto. Qed.
Lemma next_target : forall s, sv_target (snd (sv_next s)) = sv_target s.
Proof. intros s. unfold sv_next. destruct (sv_countdown s); reflexivity. Qed.
Lemma next_steps : forall s, sv_steps (snd (sv_next s)) = sv_steps s.
Proof. intros s. unfold sv_next. destruct (sv_countdown s); reflexivity. Qed.

(** A smoothed value that is not on its way is at its target. *)
Definition sound (s : smoothed) : Prop := sv_countdown s = 0 -> sv_current s = sv_target s.
Lemma set_sound : forall v s, sound s -> sound (sv_set v s).
Proof.
  intros v s H. unfold sv_set. destruct (Req_EM_T v (sv_target s)); auto. destruct (Nat.eqb_spec (sv_steps s) 0); unfold sound; cbn; auto. intros E. contradiction.
Qed.
Lemma next_sound : forall s, sound s -> sound (snd (sv_next s)) /\ fst (sv_next s) = sv_current (snd (sv_next s)).
Proof.
  intros s H. unfold sv_next. destruct (sv_countdown s) as [|k] eqn:E; cbn [fst snd].
  - split; auto. symmetry. auto.
  - split; auto. unfold sound. cbn. intros ->. reflexivity.
Qed.
Lemma at_sound : forall target s t, sound s -> sound (sv_at target s t).
Proof. intros target s t H. induction t as [|t IH]; auto. cbn [sv_at]. apply next_sound, set_sound, IH. Qed.
Lemma at_steps : forall target s t, sv_steps (sv_at target s t) = sv_steps s.
Proof. intros target s t. induction t as [|t IH]; auto. cbn [sv_at]. rewrite next_steps, set_steps. exact IH. Qed.
Lemma at_target : forall target s t, sv_target (sv_at target s (S t)) = target t.
Proof. intros. cbn [sv_at]. rewrite next_target, set_target. reflexivity. Qed.
Lemma at_ext : forall f g s t, (forall u, u < t -> f u = g u) -> sv_at f s t = sv_at g s t.
Proof. intros f g s t. induction t as [|t IH]; intros H; auto. cbn [sv_at]. rewrite IH, H by (intros; auto; apply H; lia). reflexivity. Qed.
Lemma at_add : forall f s a t, sv_at f s (a + t) = sv_at (fun u => f (a + u)) (sv_at f s a) t.
Proof. intros f s a t. induction t as [|t IH]; [rewrite Nat.add_0_r; reflexivity|]. rewrite Nat.add_succ_r. cbn [sv_at]. rewrite IH. reflexivity. Qed.

(** Where the gain is, k samples after the target changed. *)
Definition on_way (S k : nat) (before v : R) (s : smoothed) : Prop :=
  sv_target s = v /\ sv_current s = (before + (v - before) * Rmin 1 (INR k / INR S))%R /\
  (sv_countdown s = S - k /\ sv_step s = ((v - before) / INR S)%R \/ sv_countdown s = 0 /\ before = v).

Lemma frac_lt : forall k S, k < S -> Rmin 1 (INR k / INR S) = (INR k / INR S)%R.
Proof.
  intros k S H. assert (HS : (0 < INR S)%R) by (apply lt_0_INR; lia). apply Rmin_right. apply (Rmult_le_reg_r (INR S)); auto.
  unfold Rdiv. rewrite Rmult_assoc, Rinv_l by lra. apply lt_INR in H. lra.
Qed.
Lemma frac_ge : forall k S, 0 < S -> S <= k -> Rmin 1 (INR k / INR S) = 1%R.
Proof.
  intros k S HS H. assert (H0 : (0 < INR S)%R) by (apply lt_0_INR; lia). apply Rmin_left. apply (Rmult_le_reg_r (INR S)); auto.
  unfold Rdiv. rewrite Rmult_assoc, Rinv_l by lra. apply le_INR in H. lra.
Qed.

Lemma way_step : forall S k before v s, 0 < S -> on_way S k before v s -> on_way S (k + 1) before v (snd (sv_next s)).
Proof.
  intros S k before v s HS (T & Cu & D). assert (H0 : (0 < INR S)%R) by (apply lt_0_INR; lia).
  unfold sv_next. destruct (sv_countdown s) as [|c] eqn:Ec; cbn [snd].
  - split; auto. destruct D as [[D1 D2]|[_ ->]].
    + rewrite Cu, !frac_ge by lia. split; auto. left. split; [lia|auto].
    + split; [rewrite Cu; ring|]. right. auto.
  - destruct D as [[D1 D2]|[D _]]; [|lia]. unfold on_way. cbn [sv_target sv_current sv_countdown sv_step]. split; auto. split.
    + destruct (Nat.eqb_spec c 0).
      * rewrite frac_ge by lia. rewrite T. ring.
      * rewrite Cu, D2, !frac_lt by lia. rewrite plus_INR. cbn [INR]. field. lra.
    + left. split; [lia|auto].
Qed.

Lemma way_start : forall S v s, 0 < S -> sv_steps s = S -> sound s -> v <> sv_target s -> on_way S 0 (sv_current s) v (sv_set v s).
Proof.
  intros S v s HS Es Hs Hv. unfold sv_set. destruct (Req_EM_T v (sv_target s)); [contradiction|]. rewrite Es. destruct (Nat.eqb_spec S 0); [lia|].
  unfold on_way. cbn [sv_target sv_current sv_countdown sv_step]. rewrite frac_lt by auto. cbn [INR]. split; auto. split; [unfold Rdiv; ring|]. left. split; [lia|auto].
Qed.

Lemma at_follows : forall St v0 n target s, steady St v0 s -> follows St v0 n target (fun t => sv_current (sv_at target s (S t))).
Proof.
  intros St v0 n target s (C1 & C2 & C3 & C4) t t0 Ht Hrun Hst before.
  assert (Hs : sound s) by (intros _; congruence).
  destruct (Nat.eqb_spec St 0) as [->|NS].
  { assert (Z : forall t, sv_countdown (sv_at target s t) = 0).
    { clear - C3 C4. induction t as [|t IH]; auto. cbn [sv_at]. unfold sv_next. assert (E : sv_countdown (sv_set (target t) (sv_at target s t)) = 0).
      { unfold sv_set. destruct (Req_EM_T _ _); auto. rewrite at_steps, C4. reflexivity. }
      rewrite E. cbn [snd]. exact E. }
    rewrite (at_sound target s (S t) Hs (Z _)). apply at_target. }
  assert (HS : 0 < St) by lia.
  assert (Eb : before = sv_current (sv_at target s t0)).
  { unfold before. destruct (Nat.eqb_spec t0 0) as [->|N0]; [symmetry; exact C1|]. replace (S (t0 - 1)) with t0 by lia. reflexivity. }
  assert (W : forall k, t0 + k <= t -> on_way St (k + 1) before (target t) (sv_at target s (S (t0 + k)))).
  { induction k as [|k IH]; intros Hk.
    - rewrite Nat.add_0_r in *. cbn [sv_at]. rewrite (Hrun t0) by lia. apply (way_step St 0); auto.
      destruct (Req_EM_T (target t) (sv_target (sv_at target s t0))) as [E|N].
      + destruct Hst as [->|Hst].
        * cbn [sv_at] in *. rewrite E, set_same. rewrite Eb, C1, C2. split; auto. split; [rewrite C1; ring|]. right. auto.
        * exfalso. destruct t0 as [|t0]; [cbn in Hst; congruence|]. rewrite at_target in E. replace (S t0 - 1) with t0 in Hst by lia. rewrite (Hrun (S t0)) in Hst by lia. congruence.
      + rewrite Eb. apply way_start; auto. { rewrite at_steps. exact C4. } apply at_sound. exact Hs.
    - specialize (IH ltac:(lia)). replace (t0 + S k) with (S (t0 + k)) by lia.
      assert (T : sv_target (sv_at target s (S (t0 + k))) = target t) by (rewrite at_target; apply Hrun; lia).
      change (sv_at target s (S (S (t0 + k)))) with (snd (sv_next (sv_set (target (S (t0 + k))) (sv_at target s (S (t0 + k)))))).
      rewrite (Hrun (S (t0 + k))) by lia. rewrite <- T at 2. rewrite set_same. replace (S k + 1) with (k + 1 + 1) by lia. apply way_step; auto. }
  destruct (W (t - t0) ltac:(lia)) as (_ & E & _). replace (t0 + (t - t0)) with t in E by lia. exact E.
Qed.

(** Consequences of [follows] alone. *)
Lemma run_start : forall (target : nat -> R) t, exists t0, t0 <= t /\ (forall u, t0 <= u <= t -> target u = target t) /\ (t0 = 0 \/ target (t0 - 1) <> target t0).
Proof.
  intros target. induction t as [|t (t0 & H1 & H2 & H3)].
  - exists 0. split; auto. split; auto. intros u Hu. f_equal. lia.
  - destruct (Req_EM_T (target t) (target (S t))) as [E|N].
    + exists t0. split; [lia|]. split; auto. intros u Hu. destruct (Nat.eq_dec u (S t)) as [->|]; auto. rewrite H2 by lia. exact E.
    + exists (S t). split; auto. split. { intros u Hu. f_equal. lia. } right. replace (S t - 1) with t by lia. exact N.
Qed.

Lemma frac_01 : forall k S, (0 <= Rmin 1 (INR k / INR S) <= 1)%R \/ S = 0.
Proof.
  intros k S. destruct (Nat.eq_dec S 0); auto. left. split; [|apply Rmin_l]. apply Rmin_glb; [lra|].
  apply Rmult_le_pos; [apply pos_INR|]. left. apply Rinv_0_lt_compat, lt_0_INR. lia.
Qed.

Lemma follows_between : forall S v0 n target gain lo hi, follows S v0 n target gain -> (lo <= v0 <= hi)%R -> (forall t, t < n -> (lo <= target t <= hi)%R) ->
  forall t, t < n -> (lo <= gain t <= hi)%R.
Proof.
  intros S v0 n target gain lo hi HF H0 HT t. induction t as [t IH] using lt_wf_ind. intros Ht.
  destruct (run_start target t) as (t0 & L & R1 & R2). rewrite (HF t t0) by auto. destruct (Nat.eqb_spec S 0); auto.
  set (before := if t0 =? 0 then v0 else gain (t0 - 1)).
  assert (B : (lo <= before <= hi)%R) by (unfold before; destruct (Nat.eqb_spec t0 0); auto; apply IH; lia).
  specialize (HT t Ht). destruct (frac_01 (t - t0 + 1) S) as [Q|]; [|contradiction]. set (q := Rmin 1 _) in *.
  replace (before + (target t - before) * q)%R with (before * (1 - q) + target t * q)%R by ring. nra.
Qed.

Lemma follows_settled : forall S v0 n target gain t, follows S v0 n target gain -> t < n -> S <= t + 1 -> (forall u, t + 1 - S <= u <= t -> target u = target t) -> gain t = target t.
Proof.
  intros S v0 n target gain t HF Ht HS Hc. destruct (Nat.eq_dec S 0) as [->|N].
  - destruct (run_start target t) as (t0 & L & R1 & R2). rewrite (HF t t0) by auto. reflexivity.
  - destruct (run_start target t) as (t0 & L & R1 & R2). rewrite (HF t t0) by auto. destruct (Nat.eqb_spec S 0); [lia|].
    assert (t0 <= t + 1 - S).
    { destruct (Nat.le_gt_cases t0 (t + 1 - S)); auto. exfalso. destruct R2 as [->|R2]; [lia|]. apply R2. rewrite (Hc (t0 - 1)), (Hc t0) by lia. reflexivity. }
    rewrite frac_ge by lia. ring.
Qed.

Lemma follows_steady : forall S v0 n target gain, follows S v0 n target gain -> forall t, t < n -> (forall u, u <= t -> target u = v0) -> gain t = v0.
Proof.
  intros S v0 n target gain HF t Ht Hc. rewrite (HF t 0); auto.
  - cbn [Nat.eqb]. rewrite Hc by auto. destruct (S =? 0); ring.
  - split; [lia|auto].
  - intros u Hu. rewrite !Hc by lia. reflexivity.
Qed.

Lemma follows_smooth : forall S v0 n target gain, 0 < S -> follows S v0 n target gain -> (0 <= v0 <= 1)%R -> (forall t, t < n -> (0 <= target t <= 1)%R) ->
  forall t, t < n -> (Rabs (gain t - (if (t =? 0)%nat then v0 else gain (t - 1)%nat)) <= 1 / INR S)%R.
Proof.
  intros S v0 n target gain HS HF H0 HT t Ht. assert (HI : (0 < INR S)%R) by (apply lt_0_INR; lia).
  pose proof (follows_between S v0 n target gain 0 1 HF H0 HT) as HB.
  destruct (run_start target t) as (t0 & L & R1 & R2). rewrite (HF t t0) by auto. destruct (Nat.eqb_spec S 0); [lia|].
  set (before := if t0 =? 0 then v0 else gain (t0 - 1)).
  assert (B : (0 <= before <= 1)%R) by (unfold before; destruct (Nat.eqb_spec t0 0); auto; apply HB; lia).
  pose proof (HT t Ht) as Tt.
  assert (Ep : (if t =? 0 then v0 else gain (t - 1)) = (before + (target t - before) * Rmin 1 (INR (t - t0) / INR S))%R).
  { destruct (Nat.eq_dec t0 t) as [->|N].
    - rewrite Nat.sub_diag. rewrite frac_lt by auto. cbn [INR]. unfold before, Rdiv. ring.
    - destruct (Nat.eqb_spec t 0); [lia|]. rewrite (HF (t - 1) t0); auto; [|lia|intros u Hu; rewrite (R1 u), (R1 (t - 1)) by lia; reflexivity].
      destruct (Nat.eqb_spec S 0); [lia|]. fold before. rewrite (R1 (t - 1)) by lia. replace (t - 1 - t0 + 1) with (t - t0) by lia. reflexivity. }
  rewrite Ep.
  assert (Q : (0 <= Rmin 1 (INR (t - t0 + 1) / INR S) - Rmin 1 (INR (t - t0) / INR S) <= 1 / INR S)%R).
  { assert (P : (0 < 1 / INR S)%R) by (apply Rdiv_lt_0_compat; lra).
    replace (INR (t - t0 + 1) / INR S)%R with (INR (t - t0) / INR S + 1 / INR S)%R by (rewrite plus_INR; cbn [INR]; field; lra).
    set (x := (INR (t - t0) / INR S)%R). unfold Rmin. destruct (Rle_dec 1 (x + 1 / INR S)), (Rle_dec 1 x); lra. }
  set (q := Rmin 1 (INR (t - t0 + 1) / INR S)) in *. set (q' := Rmin 1 (INR (t - t0) / INR S)) in *.
  replace (before + (target t - before) * q - (before + (target t - before) * q'))%R with ((target t - before) * (q - q'))%R by ring.
  rewrite Rabs_mult, (Rabs_pos_eq (q - q')) by lra.
  assert (Rabs (target t - before) <= 1)%R by (apply Rabs_le; lra). pose proof (Rabs_pos (target t - before)). nra.
Qed.

(** ** One block *)
Lemma take_at : forall v l s, sv_target s = v -> sound s -> fst (sv_take l s) = tab l (fun t => sv_current (sv_at (fun _ => v) s (S t))) /\ snd (sv_take l s) = sv_at (fun _ => v) s l.
Proof.
  intros v l. induction l as [|l IH]; intros s T Hs; [split; reflexivity|]. cbn [sv_take]. destruct (sv_next s) as (g, s1) eqn:E.
  assert (T1 : sv_target s1 = v) by (pose proof (next_target s) as Q; rewrite E in Q; cbn in Q; congruence).
  destruct (next_sound s Hs) as [S1 G]. rewrite E in S1, G. cbn [fst snd] in S1, G.
  destruct (IH s1 T1 S1) as [I1 I2]. destruct (sv_take l s1) as (gs, s2). cbn [fst snd] in *.
  assert (A1 : sv_at (fun _ => v) s 1 = s1). { cbn [sv_at]. rewrite <- T, set_same, E. reflexivity. }
  split.
  - unfold tab. cbn [seq map]. rewrite A1, <- G. f_equal. rewrite I1. unfold tab. rewrite <- seq_shift, map_map. apply map_ext. intros t.
    change (S (S t)) with (1 + S t). rewrite (at_add _ s 1), A1. reflexivity.
  - rewrite I2. change (S l) with (1 + l). rewrite at_add, A1. reflexivity.
Qed.

(** A nonempty block whose target is set before it: the same as setting it before each sample. *)
Lemma block_gains : forall v l s, 0 < l -> sound s -> fst (sv_take l (sv_set v s)) = tab l (fun t => sv_current (sv_at (fun _ => v) s (S t))) /\ snd (sv_take l (sv_set v s)) = sv_at (fun _ => v) s l.
Proof.
  intros v l s Hl Hs. destruct (take_at v l (sv_set v s) (set_target v s) (set_sound v s Hs)) as [E1 E2].
  assert (Q : forall t, sv_at (fun _ => v) (sv_set v s) (S t) = sv_at (fun _ => v) s (S t)).
  { induction t as [|t IH].
    - cbn [sv_at]. rewrite <- (set_target v s) at 1. rewrite set_same. reflexivity.
    - change (sv_at (fun _ => v) (sv_set v s) (S (S t))) with (snd (sv_next (sv_set v (sv_at (fun _ => v) (sv_set v s) (S t))))). rewrite IH. reflexivity. }
  split.
  - rewrite E1. apply tab_ext. intros t _. rewrite Q. reflexivity.
  - rewrite E2. destruct l as [|l]; [lia|]. apply Q.
Qed.

Lemma nth_multiply_each : forall gs row t, length gs = length row -> t < length row -> nth t (multiply_each gs row) 0%R = (nth t row 0 * nth t gs 0)%R.
Proof.
  intros gs row t L Ht. unfold multiply_each. set (f := fun vg : R * R => (fst vg * snd vg)%R). rewrite (nth_indep _ 0%R (f (0%R, 0%R))) by (rewrite map_length, combine_length; lia).
  rewrite (map_nth f), combine_nth by lia. reflexivity.
Qed.
Lemma multiply_each_length : forall gs row, length gs = length row -> length (multiply_each gs row) = length row.
Proof. intros. unfold multiply_each. rewrite map_length, combine_length. lia. Qed.

Lemma nth_map_list : forall (f : list R -> list R) (m : list (list R)) ch, ch < length m -> nth ch (map f m) [] = f (nth ch m []).
Proof. intros f m ch H. rewrite (nth_indep _ [] (f [])) by (rewrite map_length; auto). apply map_nth. Qed.

Lemma scaled_matrix : forall nch l g b, matrix_of nch l b -> matrix_of nch l (multiply_by g b).
Proof. intros nch l g b [L H]. split; [unfold multiply_by; rewrite map_length; auto|]. intros r Hr. apply in_map_iff in Hr. destruct Hr as (x & <- & Hx). rewrite map_length. auto. Qed.

Lemma matrix_len : forall nch l (b : list (list R)), 0 < nch -> matrix_of nch l b -> block_length b = l.
Proof. intros nch l b Hn [L H]. destruct b as [|r rest]; [cbn in L; lia|]. cbn. apply H. left. reflexivity. Qed.

(** mixWetSamples() and the output gain, one channel. *)
Lemma mixed_row : forall nch l og wet dry (m : mixer) ch, matrix_of nch l wet -> matrix_of nch l dry -> ch < nch ->
  let gw := fst (sv_take l (mx_wet m)) in let gd := fst (sv_take l (mx_dry m)) in length gw = l -> length gd = l ->
  nth ch (multiply_by og (fst (mixer_mix l dry wet m))) [] =
    tab l (fun t => (nth t (nth ch wet []) 0 * nth t gw 0 + nth t (nth ch dry []) 0 * nth t gd 0) * og)%R /\
  length (multiply_by og (fst (mixer_mix l dry wet m))) = nch /\
  snd (mixer_mix l dry wet m) = Mixer (mx_mix m) (snd (sv_take l (mx_dry m))) (snd (sv_take l (mx_wet m))).
Proof.
  intros nch l og wet dry m ch Mw Md Hch gw gd Lw Ld. unfold mixer_mix, multiply_smoothed. subst gw gd.
  destruct (sv_take l (mx_wet m)) as (gw, w). destruct (sv_take l (mx_dry m)) as (gd, d). cbn [fst snd] in *.
  assert (Rw : length (nth ch wet []) = l) by (apply Mw, nth_In; rewrite (proj1 Mw); auto).
  assert (Rd : length (nth ch dry []) = l) by (apply Md, nth_In; rewrite (proj1 Md); auto).
  destruct Mw as [Lw' _], Md as [Ld' _].
  assert (LA : length (add_block (map (multiply_each gw) wet) (map (multiply_each gd) dry)) = nch).
  { unfold add_block. rewrite map_length, combine_length, !map_length. lia. }
  split; [|split; [unfold multiply_by; rewrite map_length; auto|reflexivity]].
  unfold multiply_by. rewrite nth_map_list by lia. unfold add_block.
  set (f := fun rows : list R * list R => map (fun vw => fst vw + snd vw)%R (combine (fst rows) (snd rows))).
  rewrite (nth_indep _ [] (f ([], []))) by (unfold add_block in LA; fold f in LA; lia). rewrite (map_nth f).
  rewrite combine_nth by (rewrite !map_length; lia). unfold f. cbn [fst snd]. rewrite !nth_map_list by lia.
  apply (list_eq_tab _ 0%R).
  - rewrite !map_length, combine_length, !multiply_each_length by lia. lia.
  - intros t Ht. set (A := multiply_each gw (nth ch wet [])). set (B := multiply_each gd (nth ch dry [])).
    assert (LAA : length A = l) by (unfold A; rewrite multiply_each_length; lia). assert (LB : length B = l) by (unfold B; rewrite multiply_each_length; lia).
    set (g := fun v => (v * og)%R). set (h := fun vw : R * R => (fst vw + snd vw)%R).
    rewrite (nth_indep _ 0%R (g (h (0%R, 0%R)))) by (rewrite !map_length, combine_length; lia).
    rewrite (map_nth g), (map_nth h), combine_nth by lia. unfold g, h. cbn [fst snd]. unfold A, B. rewrite !nth_multiply_each by lia. reflexivity.
Qed.

(** ** A session *)
Lemma seq_shift_n : forall n a k, map (Nat.add k) (seq a n) = seq (k + a) n.
Proof. induction n as [|n IH]; intros a k; auto. cbn [seq map]. f_equal. rewrite IH. f_equal. lia. Qed.
Lemma tab_app : forall T a b (f : nat -> T), tab (a + b) f = tab a f ++ tab b (fun t => f (a + t)).
Proof. intros T a b f. unfold tab. rewrite seq_app, map_app. f_equal. cbn [Nat.add]. rewrite <- (Nat.add_0_r a) at 1. rewrite <- (seq_shift_n b 0 a), map_map. reflexivity. Qed.
Definition gained (session : list (params * list (list R))) : list (list (list R)) := map (fun pb => multiply_by (p_inGain (fst pb)) (snd pb)) session.
Definition stream_of (f : params -> R) session : nat -> R := fun t => nth t (parameter_stream f session) 0%R.

Lemma gained_host : forall nch N session, 0 < nch -> host_blocks nch N (session_blocks session) -> host_blocks nch N (gained session).
Proof.
  intros nch N session Hn H b Hb. unfold gained in Hb. apply in_map_iff in Hb. destruct Hb as ((p, x) & <- & Hx). cbn [fst snd].
  destruct (H x) as [M L]. { apply in_map_iff. exists (p, x). auto. }
  pose proof (scaled_matrix _ _ (p_inGain p) _ M) as M2. rewrite (matrix_len _ _ _ Hn M2). auto.
Qed.

Lemma parameter_length : forall f session, length (parameter_stream f session) = stream_length (session_blocks session).
Proof.
  intros f session. induction session as [|(p, b) rest IH]; auto. unfold parameter_stream in *. cbn [map concat fst snd]. rewrite app_length, repeat_length, IH. reflexivity.
Qed.

Lemma gained_stream : forall nch N session ch, 0 < nch -> host_blocks nch N (session_blocks session) -> ch < nch ->
  channel_stream (gained session) ch = amplified (parameter_stream p_inGain session) (channel_stream (session_blocks session) ch).
Proof.
  intros nch N session ch Hn H Hch. induction session as [|(p, b) rest IH]; auto.
  assert (Hb : matrix_of nch (block_length b) b) by (apply H; left; reflexivity).
  assert (Lr : length (nth ch b []) = block_length b) by (apply Hb, nth_In; rewrite (proj1 Hb); auto).
  unfold channel_stream, gained, session_blocks in *. cbn [map concat fst snd]. rewrite IH by (intros x Hx; apply H; right; auto).
  unfold amplified, parameter_stream. cbn [map concat fst snd]. rewrite app_length, tab_app. f_equal.
  - unfold multiply_by. rewrite nth_map_list by (rewrite (proj1 Hb); auto).
    apply (list_eq_tab _ 0%R); [apply map_length|]. intros t Ht. rewrite app_nth1 by (rewrite repeat_length; lia). rewrite app_nth1 by lia.
    rewrite nth_repeat_lt by lia. replace 0%R with (0 * p_inGain p)%R at 1 by ring. rewrite (map_nth (fun v => v * p_inGain p)%R). ring.
  - apply tab_ext. intros t Ht. rewrite !app_nth2 by (rewrite ?repeat_length; lia). rewrite repeat_length, Lr. f_equal; f_equal; lia.
Qed.

Lemma stream_cons : forall f p b rest t, stream_of f ((p, b) :: rest) t = if t <? block_length b then f p else stream_of f rest (t - block_length b).
Proof.
  intros f p b rest t. unfold stream_of, parameter_stream. cbn [map concat fst snd]. destruct (Nat.ltb_spec t (block_length b)).
  - rewrite app_nth1 by (rewrite repeat_length; auto). apply nth_repeat_lt. auto.
  - rewrite app_nth2 by (rewrite repeat_length; auto). rewrite repeat_length. reflexivity.
Qed.

Lemma at_cons : forall f p b rest s t, sv_at (stream_of f ((p, b) :: rest)) s (block_length b + t) =
  sv_at (stream_of f rest) (sv_at (fun _ => f p) s (block_length b)) t.
Proof.
  intros f p b rest s t. rewrite at_add. rewrite (at_ext _ (stream_of f rest)).
  - f_equal. apply at_ext. intros u Hu. rewrite stream_cons. destruct (Nat.ltb_spec u (block_length b)); [reflexivity|lia].
  - intros u Hu. rewrite stream_cons. destruct (Nat.ltb_spec (block_length b + u) (block_length b)); [lia|]. f_equal. lia.
Qed.
Lemma at_head : forall f p b rest s t, t <= block_length b -> sv_at (stream_of f ((p, b) :: rest)) s t = sv_at (fun _ => f p) s t.
Proof. intros f p b rest s t Ht. apply at_ext. intros u Hu. rewrite stream_cons. destruct (Nat.ltb_spec u (block_length b)); [reflexivity|lia]. Qed.

Lemma last_cons : forall d p b rest, last_wet d ((p, b) :: rest) = last_wet (p_wet p) rest.
Proof.
  intros d p b rest. unfold last_wet. cbn [map fst]. generalize (map (fun pb : params * list (list R) => p_wet (fst pb)) rest) as l. clear. intros l. revert p d.
  assert (H : forall l (x d : R), last (x :: l) d = last l x).
  { clear. induction l as [|y l IH]; intros x d; auto. change (last (x :: y :: l) d) with (last (y :: l) d). rewrite IH. symmetry. apply IH. }
  intros p d. apply H.
Qed.

Lemma process_block : forall main_in main_out p b c m c1 w, let nch := set_size main_out in 0 < nch -> set_size main_in = nch -> matrix_of nch (block_length b) b ->
  process dense dense_processFrame nch (block_length b) (multiply_by (p_inGain p) b) (multiply_by (p_inGain p) b) c = Ok (c1, w) ->
  let mx := mixer_mix (block_length b) (multiply_by (p_inGain p) b) w (mixer_set (p_wet p) m) in
  processBlock main_in main_out p b (Effect (Some c) m) = Ok (Effect (Some c1) (snd mx), multiply_by (p_outGain p) (fst mx)).
Proof.
  intros mi mo p b c m c1 w nch Hn Ei M E mx. unfold processBlock. fold nch. rewrite Ei. unfold for_range. rewrite Nat.sub_diag. cbn [loop bind].
  unfold effect_process. cbn [ef_convolution ef_mixer]. rewrite (proj1 M). fold (block_length b). fold nch. rewrite E. cbn [bind].
  fold mx. destruct mx as (o, m1). reflexivity.
Qed.

Section Play.
Variables (main_in main_out : channel_set) (N : nat).
Let nch := set_size main_out.
Hypothesis Hn : 0 < nch.
Hypothesis Hin : set_size main_in = nch.

Lemma play_streams : forall session c m c' wets, host_blocks nch N (session_blocks session) -> nonempty_blocks session -> sound (mx_dry m) -> sound (mx_wet m) ->
  dense_process_all nch (gained session) c = Ok (c', wets) ->
  (forall k, k < length session -> matrix_of nch (block_length (nth k (gained session) [])) (nth k wets [])) ->
  let n := stream_length (session_blocks session) in
  exists outs m', play main_in main_out session (Effect (Some c) m) = Ok (Effect (Some c') m', outs) /\ length outs = length session /\
    mx_mix m' = last_wet (mx_mix m) session /\
    (forall k, k < length session -> matrix_of nch (block_length (nth k (session_blocks session) [])) (nth k outs [])) /\
    forall ch, ch < nch -> channel_stream outs ch = tab n (fun t =>
      (nth t (channel_stream wets ch) 0 * sv_current (sv_at (stream_of (fun p => wet_volume (p_wet p)) session) (mx_wet m) (S t)) +
       nth t (channel_stream (gained session) ch) 0 * sv_current (sv_at (stream_of (fun p => dry_volume (p_wet p)) session) (mx_dry m) (S t))) *
      stream_of p_outGain session t)%R.
Proof using All.
  induction session as [|(p, b) rest IH]; intros c m c' wets Hb Hne Sd Sw E Mw n.
  - cbn [gained map dense_process_all process_all] in E. injection E as <- <-. exists [], m. cbn. repeat (split; auto); intros; lia.
  - assert (Mb : matrix_of nch (block_length b) b) by (apply Hb; left; reflexivity).
    assert (Hl : 0 < block_length b) by (apply (Hne p b); left; reflexivity). set (l := block_length b) in *.
    pose proof (scaled_matrix _ _ (p_inGain p) _ Mb) as Mx. pose proof (matrix_len _ _ _ Hn Mx) as Lx.
    unfold dense_process_all in E. cbn [gained map fst snd process_all] in E. fold (gained rest) in E.
    change (match multiply_by (p_inGain p) b with [] => 0 | row :: _ => length row end) with (block_length (multiply_by (p_inGain p) b)) in E. rewrite Lx in E.
    apply bind_ok in E. destruct E as ((c1, w) & E1 & E). apply bind_ok in E. destruct E as ((c2, ws) & E2 & E). injection E as -> <-.
    pose proof (Mw 0 ltac:(cbn; lia)) as Mw0. cbn [gained map nth fst snd] in Mw0. rewrite Lx in Mw0.
    pose proof (block_gains (wet_volume (p_wet p)) l (mx_wet m) Hl Sw) as (Gw & Nw). pose proof (block_gains (dry_volume (p_wet p)) l (mx_dry m) Hl Sd) as (Gd & Nd).
    set (m1 := mixer_set (p_wet p) m) in *.
    change (sv_set (wet_volume (p_wet p)) (mx_wet m)) with (mx_wet m1) in Gw, Nw. change (sv_set (dry_volume (p_wet p)) (mx_dry m)) with (mx_dry m1) in Gd, Nd.
    pose proof (process_block main_in main_out p b c m c1 w Hn Hin Mb E1) as Ep. cbv zeta in Ep. fold l m1 in Ep.
    set (mx := mixer_mix l (multiply_by (p_inGain p) b) w m1) in *.
    assert (Row : forall ch, ch < nch -> nth ch (multiply_by (p_outGain p) (fst mx)) [] = tab l (fun t =>
      (nth t (nth ch w []) 0 * sv_current (sv_at (fun _ => wet_volume (p_wet p)) (mx_wet m) (S t)) +
       nth t (nth ch (multiply_by (p_inGain p) b) []) 0 * sv_current (sv_at (fun _ => dry_volume (p_wet p)) (mx_dry m) (S t))) * p_outGain p)%R /\
      length (multiply_by (p_outGain p) (fst mx)) = nch /\ snd mx = Mixer (mx_mix m1) (snd (sv_take l (mx_dry m1))) (snd (sv_take l (mx_wet m1)))).
    { intros ch Hch. destruct (mixed_row nch l (p_outGain p) w (multiply_by (p_inGain p) b) m1 ch Mw0 Mx Hch) as (R1 & R2 & R3).
      { rewrite Gw. apply tab_length. } { rewrite Gd. apply tab_length. }
      split; [|split; [exact R2|exact R3]]. unfold mx. rewrite R1. apply tab_ext. intros t Ht. rewrite Gw, Gd, !nth_tab by auto. reflexivity. }
    destruct (Row 0 Hn) as (_ & Lo & Em). rewrite Nd, Nw in Em.
    destruct (IH c1 (snd mx) c' ws) as (outs & m' & Eo & Loo & Emix & Mo & V).
    { intros x Hx. apply Hb. right. exact Hx. } { intros q x Hx. apply (Hne q x). right. exact Hx. }
    { rewrite Em. cbn [mx_dry]. apply at_sound. exact Sd. } { rewrite Em. cbn [mx_wet]. apply at_sound. exact Sw. } { exact E2. }
    { intros k Hk. apply (Mw (S k)). cbn. lia. }
    exists (multiply_by (p_outGain p) (fst mx) :: outs), m'. cbn [play]. rewrite Ep. cbn [bind]. rewrite Eo. cbn [bind]. split; [reflexivity|].
    split; [cbn; auto|]. split. { rewrite Emix, Em, last_cons. reflexivity. } split.
    { intros [|k] Hk; [|apply (Mo k); cbn in Hk; lia]. cbn [nth session_blocks map snd]. split; [exact Lo|]. intros r Hr. apply (In_nth _ _ []) in Hr. destruct Hr as (ch & Hch & <-).
      rewrite Lo in Hch. destruct (Row ch Hch) as (-> & _). apply tab_length. }
    intros ch Hch. destruct (Row ch Hch) as (R & _). unfold channel_stream. cbn [map concat]. rewrite R. fold (channel_stream outs ch). rewrite V by auto.
    assert (Lw : length (nth ch w []) = l) by (apply Mw0, nth_In; rewrite (proj1 Mw0); auto).
    assert (Lg : length (nth ch (multiply_by (p_inGain p) b) []) = l) by (apply Mx, nth_In; rewrite (proj1 Mx); auto).
    change n with (l + stream_length (session_blocks rest)). rewrite tab_app. f_equal.
    + apply tab_ext. intros t Ht. rewrite !at_head by (fold l; lia). rewrite stream_cons. fold l. rewrite (proj2 (Nat.ltb_lt t l) Ht).
      cbn [gained map concat fst snd]. rewrite !app_nth1 by lia. reflexivity.
    + apply tab_ext. intros t Ht. rewrite <- !Nat.add_succ_r. rewrite !at_cons. fold l. rewrite stream_cons. fold l. destruct (Nat.ltb_spec (l + t) l); [lia|].
      replace (l + t - l) with t by lia. rewrite Em. cbn [mx_wet mx_dry]. cbn [gained map concat fst snd]. fold (gained rest). rewrite !app_nth2 by lia. rewrite Lw, Lg. replace (l + t - l) with t by lia. reflexivity.
Qed.
End Play.

(** ** Prepared *)
Lemma prepared_mixer : forall rate m, let S := Z.to_nat (Int_part (5 / 100 * rate)) in
  steady S (dry_volume (mx_mix m)) (mx_dry (mixer_prepare rate m)) /\ steady S (wet_volume (mx_mix m)) (mx_wet (mixer_prepare rate m)) /\ mx_mix (mixer_prepare rate m) = mx_mix m.
Proof.
  intros rate m S. unfold mixer_prepare, mixer_set, sv_reset, steady. cbn [mx_dry mx_wet mx_mix sv_current sv_target sv_countdown sv_steps]. rewrite !set_target. repeat split.
Qed.
Lemma steady_sound : forall S v s, steady S v s -> sound s.
Proof. intros S v s (A & B & _) _. congruence. Qed.

Lemma amplified_length : forall g x, length (amplified g x) = length x.
Proof. intros. apply tab_length. Qed.

(** What the host hears in a session after prepareToPlay(), given what the convolution returns. *)
Lemma session_heard : forall main_in main_out N rate c m session c' wets (wet_of : nat -> list R), let nch := set_size main_out in 0 < nch -> set_size main_in = nch ->
  host_blocks nch N (session_blocks session) -> nonempty_blocks session ->
  dense_process_all nch (gained session) c = Ok (c', wets) ->
  (forall k, k < length session -> matrix_of nch (block_length (nth k (gained session) [])) (nth k wets [])) ->
  (forall ch, ch < nch -> channel_stream wets ch = wet_of ch) ->
  let n := stream_length (session_blocks session) in let S := Z.to_nat (Int_part (5 / 100 * rate)) in
  exists outs e' dry wet, play main_in main_out session (Effect (Some c) (mixer_prepare rate m)) = Ok (e', outs) /\
    mx_mix (ef_mixer e') = last_wet (mx_mix m) session /\
    (forall k, k < length session -> matrix_of nch (block_length (nth k (session_blocks session) [])) (nth k outs [])) /\
    volumes_follow S (mx_mix m) session dry wet /\
    forall ch, ch < nch -> channel_stream outs ch = effect_stream session dry wet (wet_of ch) ch.
Proof.
  intros mi mo N rate c m session c' wets wet_of nch Hn Hin Hb Hne E Mw Hw n S.
  destruct (prepared_mixer rate m) as (Sd & Sw & Em). fold S in Sd, Sw.
  destruct (play_streams mi mo N Hn Hin session c (mixer_prepare rate m) c' wets Hb Hne (steady_sound _ _ _ Sd) (steady_sound _ _ _ Sw) E Mw) as (outs & m' & Ep & Lo & Emx & Mo & V).
  assert (Comp : forall (g : R -> R) t, t < n -> stream_of (fun p => g (p_wet p)) session t = g (nth t (parameter_stream p_wet session) 0%R)).
  { intros g. unfold n. clear. induction session as [|(p, b) rest IH]; intros t Ht; [cbn in Ht; lia|]. rewrite stream_cons.
    change (nth t (parameter_stream p_wet ((p, b) :: rest)) 0%R) with (stream_of p_wet ((p, b) :: rest) t). rewrite stream_cons.
    destruct (Nat.ltb_spec t (block_length b)); auto. apply IH. cbn in Ht. unfold stream_length, session_blocks. cbn. unfold list_sum in *. lia. }
  pose (D := fun t => dry_volume (nth t (parameter_stream p_wet session) 0%R)). pose (W := fun t => wet_volume (nth t (parameter_stream p_wet session) 0%R)).
  exists outs, (Effect (Some c') m'), (fun t => sv_current (sv_at D (mx_dry (mixer_prepare rate m)) (Datatypes.S t))), (fun t => sv_current (sv_at W (mx_wet (mixer_prepare rate m)) (Datatypes.S t))).
  split; [exact Ep|]. split; [cbn [ef_mixer]; rewrite Emx, Em; reflexivity|]. split; [exact Mo|]. split; [split; apply at_follows; assumption|].
  intros ch Hch. rewrite V by auto. unfold effect_stream. fold n. apply tab_ext. intros t Ht. rewrite Hw by auto. rewrite (gained_stream nch N session ch Hn Hb Hch).
  rewrite (at_ext (stream_of (fun p => wet_volume (p_wet p)) session) W) by (intros u Hu; apply (Comp wet_volume); lia). rewrite (at_ext (stream_of (fun p => dry_volume (p_wet p)) session) D) by (intros u Hu; apply (Comp dry_volume); lia).
  unfold amplified. rewrite nth_tab by (rewrite (stream_len nch N) by auto; exact Ht). unfold stream_of. ring.
Qed.

(** ** Any history *)
Lemma mix_kept : forall l dry wet m, mx_mix (snd (mixer_mix l dry wet m)) = mx_mix m.
Proof. intros l dry wet m. unfold mixer_mix. destruct (multiply_smoothed l (mx_wet m) wet), (multiply_smoothed l (mx_dry m) dry). reflexivity. Qed.

Lemma played_mix : forall mi mo session e e' outs, play mi mo session e = Ok (e', outs) ->
  (ef_convolution e = None -> ef_convolution e' = None /\ mx_mix (ef_mixer e') = mx_mix (ef_mixer e)) /\
  (ef_convolution e <> None -> ef_convolution e' <> None /\ mx_mix (ef_mixer e') = last_wet (mx_mix (ef_mixer e)) session).
Proof.
  intros mi mo session. induction session as [|(p, b) rest IH]; intros e e' outs E.
  - injection E as <- <-. auto.
  - cbn [play] in E. apply bind_ok in E. destruct E as ((e1, o) & E1 & E). apply bind_ok in E. destruct E as ((e2, os) & E2 & E). injection E as -> <-.
    destruct (IH e1 e' os E2) as [I1 I2]. unfold processBlock in E1. apply bind_ok in E1. destruct E1 as (buf & _ & E1). unfold effect_process in E1.
    destruct (ef_convolution e) as [c|] eqn:Ec.
    + split; [discriminate|]. intros _. apply bind_ok in E1. destruct E1 as ((c1, w) & _ & E1).
      pose proof (mix_kept (match buf with [] => 0 | row :: _ => length row end) (multiply_by (p_inGain p) buf) w (mixer_set (p_wet p) (ef_mixer e))) as K.
      destruct (mixer_mix _ _ _ _) as (o1, m1). injection E1 as <- <-. cbn [ef_convolution ef_mixer snd] in *. destruct I2 as [J1 J2]; [discriminate|]. split; auto.
      rewrite J2, K, last_cons. reflexivity.
    + injection E1 as <- <-. split; [intros _; apply I1; exact Ec|congruence].
Qed.

Lemma reach_mix : forall b w e, effect_reach b w e -> mx_mix (ef_mixer e) = w /\ (if b then ef_convolution e <> None else ef_convolution e = None).
Proof.
  intros b w e H. induction H as [|b w e rs file rate N mo f u o e' H (I1 & I2) E|b w e H (I1 & I2)|b w e mi mo session e' outs H (I1 & I2) E].
  - split; reflexivity.
  - unfold prepareToPlay, effect_prepare in E. repeat (apply bind_ok in E; destruct E as (? & _ & E)). injection E as <-. cbn. split; [exact I1|discriminate].
  - split; [exact I1|]. destruct b; cbn; destruct (ef_convolution e); congruence.
  - destruct (played_mix _ _ _ _ _ _ E) as [P1 P2]. destruct b.
    + destruct (P2 I2) as [Q1 Q2]. split; auto. rewrite Q2, I1. reflexivity.
    + destruct (P1 I2) as [Q1 Q2]. split; auto. congruence.
Qed.

(** ** prepareToPlay() *)
Lemma ramp_unique : forall S rate, ramp_length S rate -> Z.to_nat (Int_part (5 / 100 * rate)) = S.
Proof.
  intros S rate [H1 H2]. assert (E : Int_part (5 / 100 * rate) = Z.of_nat S).
  { unfold Int_part. enough (Q : (Z.of_nat S + 1)%Z = up (5 / 100 * rate)) by lia. apply tech_up; rewrite plus_IZR, <- INR_IZR_INZ; lra. }
  rewrite E. apply Nat2Z.id.
Qed.

Section Prepare.
Variables (resampler : audio -> R -> audio) (rate : R) (N : nat) (main_in main_out : channel_set).
Let nch := set_size main_out.
Let F := frame_size N.
Hypothesis HN : block_size_ok N.
Hypothesis Hn : 0 < nch.
Hypothesis Hin : set_size main_in = nch.
Variables (frame unused output : list (list R)).
Hypothesis Hbuf : buffers_for F nch N frame unused output.
Variables (S : nat) (w0 : R) (b0 : bool) (e0 : effect).
Hypothesis HS : ramp_length S rate.
Hypothesis He : effect_reach b0 w0 e0.
Variable session : list (params * list (list R)).
Hypothesis Hb : host_blocks nch N (session_blocks session).
Hypothesis Hne : nonempty_blocks session.

Lemma gained_len : forall ch, ch < nch -> channel_stream (gained session) ch = amplified_input session ch /\ length (amplified_input session ch) = stream_length (session_blocks session) /\
  stream_length (gained session) = stream_length (session_blocks session).
Proof using Hn Hb.
  intros ch Hch. pose proof (gained_stream nch N session ch Hn Hb Hch) as G. split; [exact G|].
  assert (L : length (amplified_input session ch) = stream_length (session_blocks session)) by (unfold amplified_input; rewrite amplified_length; apply (stream_len nch N); auto). split; auto.
  rewrite <- (stream_len nch N (gained session) ch (gained_host nch N session Hn Hb) Hch), G. exact L.
Qed.

(** A session from a convolution that was just prepared. *)
Lemma fresh_session : forall c hs, shaped (Nat.log2_up N) 0 nch N c -> _outputOffset _ c = (Z.of_nat F - 1)%Z -> _unusedInputCount _ c = 0%Z -> _output _ c = output ->
  (forall ch, ch < nch -> 0 < length (hs ch)) -> has_heard (Nat.log2_up N) nch hs (fun _ => []) (_user _ c) ->
  exists e' outs dry wet, play main_in main_out session (Effect (Some c) (mixer_prepare rate (ef_mixer e0))) = Ok (e', outs) /\
    (forall k, k < length session -> matrix_of nch (block_length (nth k (session_blocks session) [])) (nth k outs [])) /\
    volumes_follow S w0 session dry wet /\
    forall ch, ch < nch -> channel_stream outs ch = effect_stream session dry wet (after_memory (F - 1) (nth ch output [])
      (tab (stream_length (session_blocks session)) (fun t => lconv (map (fun v => 2 * v)%R (amplified_input session ch)) (hs ch) (t - (F - 1))))) ch.
Proof using All.
  intros c hs Sh Eo Ec Eout Hhs Hh. pose proof (order_ok N HN) as Hp. assert (HN0 : 0 < N) by (destruct HN; lia).
  destruct (session_from _ nch N hs Hp Hhs Hn HN0 (fun _ => []) c (gained session) Sh Eo Ec Hh) as (c' & wets & E & _ & _ & _ & _ & Lw & Mw & V).
  { intros ch _ x []. } { apply gained_host; auto. }
  assert (Lg : length (gained session) = length session) by apply map_length. rewrite Lg in *.
  destruct (session_heard main_in main_out N rate c (ef_mixer e0) session c' wets (fun ch => channel_stream wets ch) Hn Hin Hb Hne E Mw) as (outs & e' & dry & wet & Ep & _ & Mo & Fo & Vo); auto.
  rewrite (ramp_unique S rate HS), (proj1 (reach_mix _ _ _ He)) in Fo.
  exists e', outs, dry, wet. split; [exact Ep|]. split; [exact Mo|]. split; [exact Fo|]. intros ch Hch. rewrite Vo by auto. unfold effect_stream. apply tab_ext. intros t Ht.
  destruct (gained_len ch Hch) as (G1 & G2 & G3).
  do 3 f_equal. rewrite V, G3 by auto. unfold after_memory. rewrite tab_length, !nth_tab by auto. fold (frame_size N). fold F. rewrite Eout, G1. reflexivity.
Qed.

Lemma prepare_with : forall impulse, let r := resample resampler impulse rate in response_fits F r -> nch <= a_channels r ->
  exists a e e' outs dry wet, normalised_by a r /\ prepareToPlay resampler (Some impulse) rate N main_out frame unused output e0 = Ok e /\
    play main_in main_out session e = Ok (e', outs) /\
    (forall k, k < length session -> matrix_of nch (block_length (nth k (session_blocks session) [])) (nth k outs [])) /\
    volumes_follow S w0 session dry wet /\
    forall ch, ch < nch -> channel_stream outs ch = effect_stream session dry wet
      (after_memory (F - 1) (nth ch output []) (convolved_stream F (2 * a) [] (amplified_input session ch) (nth ch (a_data r) []))) ch.
Proof using All.
  intros impulse r Hr Hle. pose proof (order_ok N HN) as Hp. destruct (block_size_Z N HN) as [HB1 HB63].
  destruct (ready_ok resampler N nch N rate impulse HN Hr Hle) as (A1 & _ & A3). pose proof Hr as (M & _ & Hs & _).
  assert (Q0 : exists c0, dense_make N = Ok c0) by (unfold dense_make; rewrite next_order_ok by auto; eexists; reflexivity). destruct Q0 as (c0 & E0).
  assert (Q1 : exists c1, dense_load resampler impulse c0 = Ok c1).
  { unfold dense_make in E0. apply bind_ok in E0. destruct E0 as (k & _ & E0). injection E0 as <-. eexists. reflexivity. } destruct Q1 as (c1 & E1).
  destruct (A1 c0 c1 frame unused output (dr_made _ _ _ E0) Hbuf E1) as (c & E2).
  destruct (A3 c) as (a & Ha & Sh & Hh). { exists c0, c1, frame, unused, output. split; [exact (dr_made _ _ _ E0)|]. split; auto. }
  pose proof (reach_sized resampler N c1 HB1 HB63 (dr_load _ _ _ _ _ (dr_made _ _ _ E0) E1)) as [Sz1 Sz2].
  destruct (prepared_as _ _ _ _ _ _ _ E2) as (_ & Ec & _).
  destruct (fresh_session c (scaled_response r a)) as (e' & outs & dry & wet & Ep & Mo & Fo & V); auto.
  { rewrite Ec. cbn. rewrite Sz1. reflexivity. } { rewrite Ec. reflexivity. } { rewrite Ec. reflexivity. }
  { intros ch Hch. rewrite scaled_length by (auto; lia). auto. }
  exists a, (Effect (Some c) (mixer_prepare rate (ef_mixer e0))), e', outs, dry, wet. split; auto. split.
  { unfold prepareToPlay, effect_prepare. cbn [maximumBlockSize sampleRate]. rewrite E0. cbn [bind]. rewrite E1. cbn [bind]. fold nch. rewrite E2. reflexivity. }
  split; auto. split; auto. split; auto. intros ch Hch. rewrite V by auto. unfold effect_stream. apply tab_ext. intros t Ht. do 3 f_equal.
  unfold after_memory, convolved_stream. destruct (gained_len ch Hch) as (_ & G2 & _). rewrite !tab_length, G2, !nth_tab by auto. destruct (t <? F - 1) eqn:Et; auto.
  unfold scaled_response. rewrite lconv_scale. cbn [app length Nat.add]. rewrite (lconv_scaled_prefix _ (amplified_input session ch) (nth ch (a_data r) []) 2). { ring. }
  intros i Hi. change 0%R with (0)%R. replace 0%R with (2 * 0)%R at 1 by ring. rewrite (map_nth (fun v => 2 * v)%R). reflexivity.
Qed.

Lemma prepare_without : exists e e' outs dry wet, prepareToPlay resampler None rate N main_out frame unused output e0 = Ok e /\
    play main_in main_out session e = Ok (e', outs) /\
    (forall k, k < length session -> matrix_of nch (block_length (nth k (session_blocks session) [])) (nth k outs [])) /\
    volumes_follow S w0 session dry wet /\
    forall ch, ch < nch -> channel_stream outs ch = effect_stream session dry wet (after_memory (F - 1) (nth ch output []) (doubled_late F (amplified_input session ch))) ch.
Proof using All.
  pose proof (order_ok N HN) as Hp. destruct (block_size_Z N HN) as [HB1 HB63].
  assert (Q0 : exists c0, dense_make N = Ok c0) by (unfold dense_make; rewrite next_order_ok by auto; eexists; reflexivity). destruct Q0 as (c0 & E0).
  pose proof (reach_sized resampler N c0 HB1 HB63 (dr_made _ _ _ E0)) as S0.
  assert (I0 : _impulse (_user _ c0) = None).
  { unfold dense_make in E0. apply bind_ok in E0. destruct E0 as (k & _ & E0). injection E0 as <-. reflexivity. }
  destruct (update_identity resampler (Nat.log2_up N) nch Hp (Dense (_impulse (_user _ c0)) (Some (ProcessSpec rate (_frameSize _ c0) nch)) (_convolvers (_user _ c0)))
    (ProcessSpec rate (_frameSize _ c0) nch)) as (d & Eu & Hh & _); auto. { apply S0. }
  set (c := set_user _ (prepare _ c0 frame unused output) d).
  assert (E2 : dense_prepare resampler (ProcessSpec rate N nch) frame unused output c0 = Ok c).
  { unfold dense_prepare. cbn [prepare _frameSize _user sampleRate numChannels]. rewrite Eu. reflexivity. }
  destruct (fresh_session c (fun _ => unit_impulse (Nat.log2_up N))) as (e' & outs & dry & wet & Ep & Mo & Fo & V); auto.
  { apply (prepare_shape N nch N c0 frame unused output S0 Hbuf). } { unfold c. cbn. rewrite (proj1 S0). reflexivity. } { intros ch Hch. cbn. lia. }
  exists (Effect (Some c) (mixer_prepare rate (ef_mixer e0))), e', outs, dry, wet. split.
  { unfold prepareToPlay, effect_prepare. cbn [maximumBlockSize sampleRate]. rewrite E0. cbn [bind]. fold nch. rewrite E2. reflexivity. }
  split; auto. split; auto. split; auto. intros ch Hch. rewrite V by auto. unfold effect_stream. apply tab_ext. intros t Ht. do 3 f_equal.
  unfold after_memory, doubled_late. destruct (gained_len ch Hch) as (_ & G2 & _). rewrite !tab_length, G2, !nth_tab by auto. destruct (t <? F - 1) eqn:Et; auto.
  rewrite lconv_unit by auto. replace 0%R with (2 * 0)%R at 1 by ring. rewrite (map_nth (fun v => 2 * v)%R). reflexivity.
Qed.
End Prepare.
