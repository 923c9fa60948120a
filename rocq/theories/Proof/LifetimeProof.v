(** Proofs about the life of library handles. *)
From Coq Require Import List Arith Bool Lia.
From Verif Require Import Base.Outcome Base.OutcomeFacts Model.PlanLifetime Spec.Lifetime.
Import ListNotations.

Definition winv (b : vendor) (w : world) : Prop :=
  (forall h, In h (live w) -> h < fresh w) /\
  (forall x o h, objs w x = Some o -> own o = Some h -> In h (live w)) /\
  (forall x y o o' h, objs w x = Some o -> objs w y = Some o' -> own o = Some h -> own o' = Some h -> x = y) /\
  (forall x o h, objs w x = Some o -> own o = Some h -> raw o = Some h) /\
  (b <> Ipp -> forall x o, objs w x = Some o -> raw o = own o).

Lemma winv_start : forall b, winv b start.
Proof. intros b. unfold winv, start. simpl. repeat split; intros; try discriminate; try contradiction. Qed.

Lemma set_eq : forall f x o, set f x o x = o.
Proof. intros. unfold set. rewrite Nat.eqb_refl. reflexivity. Qed.
Lemma set_neq : forall f x o y, y <> x -> set f x o y = f y.
Proof. intros f x o y H. unfold set. destruct (Nat.eqb_spec y x); congruence. Qed.

Lemma existsb_in : forall h l, existsb (Nat.eqb h) l = true <-> In h l.
Proof.
  intros h l. rewrite existsb_exists. split.
  - intros [x [H E]]. apply Nat.eqb_eq in E. subst. exact H.
  - intros H. exists h. split; [exact H|apply Nat.eqb_refl].
Qed.

Lemma release_live : forall h l, In h l -> release (Some h) l = Ok (filter (fun k => negb (Nat.eqb k h)) l).
Proof. intros h l H. unfold release. apply existsb_in in H. rewrite H. reflexivity. Qed.

Lemma in_removed : forall h k l, In k (filter (fun k => negb (Nat.eqb k h)) l) <-> In k l /\ k <> h.
Proof.
  intros h k l. rewrite filter_In. split; intros [A B]; split; auto.
  - apply negb_true_iff, Nat.eqb_neq in B. exact B.
  - apply negb_true_iff, Nat.eqb_neq. exact B.
Qed.

Lemma moved_own : forall b o, own (moved_from b o) = None.
Proof. intros [] o; reflexivity. Qed.

Ltac slots := repeat match goal with
  | H : context [set ?f ?x ?o ?y] |- _ => destruct (Nat.eq_dec y x) as [->|]; [rewrite set_eq in H|rewrite set_neq in H by assumption]
  end.
Ltac someinv := repeat match goal with H : Some _ = Some _ |- _ => injection H as H; try subst end.

(** Releasing what a plan owns succeeds. *)
Lemma release_own : forall b w x o, winv b w -> objs w x = Some o ->
  exists l, release (own o) (live w) = Ok l /\
    forall k, In k l <-> In k (live w) /\ own o <> Some k.
Proof.
  intros b w x o [_ [I _]] H. destruct (own o) as [h|] eqn:E.
  - rewrite release_live by (eapply I; eauto). eexists. split; [reflexivity|]. intros k. rewrite in_removed.
    split; intros [A B]; split; auto; congruence.
  - exists (live w). split; [reflexivity|]. intros k. split; [|tauto]. intros K. split; [exact K|discriminate].
Qed.

Lemma vendor_eq : forall b, b = Ipp \/ b <> Ipp.
Proof. intros []; [right|right|left]; congruence. Qed.

(** Effect of each operation on a world that satisfies the invariant. *)
Lemma step_effect : forall b w op, winv b w ->
  match step b w op with
  | UB => exists x, op = Run x /\ empty_plan w x
  | Throw => True
  | Ok w' => winv b w' /\ fresh w <= fresh w' /\
      (forall h, In h (live w') <->
        (In h (live w) /\ (owned w h -> owned w' h \/ (b <> Ipp /\ In h (overwritten w op)))) \/ (h = fresh w /\ owned w' h)) /\
      (forall h, owned w' h -> owned w h \/ h = fresh w) /\
      (forall h, owned w h -> owned w' h -> b <> Ipp -> ~ In h (overwritten w op))
  end.
Proof.
  intros b w op W. assert (W0 := W). destruct W as [F [O [D [Rw Nv]]]]. destruct op as [x|x y|x y|x|x]; unfold step.
  - (* Create *)
    destruct (objs w x) eqn:E. { exact I. }
    set (w' := World _ _ _). split; [|split; [|split; [|split]]].
    + unfold winv. cbn. split; [|split; [|split; [|split]]].
      * intros h [<-|H]; [lia|]. apply F in H. lia.
      * intros x0 o h H1 H2. slots; someinv. { cbn in H2. someinv. left; reflexivity. } right. eapply O; eauto.
      * intros x0 y0 o o' h H1 H2 H3 H4. slots; someinv; try reflexivity.
        -- cbn in H4. someinv. exfalso. apply (O _ _ _ H1) in H3. apply F in H3. lia.
        -- cbn in H3. someinv. exfalso. apply (O _ _ _ H2) in H4. apply F in H4. lia.
        -- eapply D; eauto.
      * intros x0 o h H1 H2. slots; someinv. { exact H2. } eapply Rw; eauto.
      * intros Hb x0 o H1. slots; someinv. { reflexivity. } eapply Nv; eauto.
    + cbn. lia.
    + intros h. cbn. split.
      * intros [<-|H].
        -- right. split; [reflexivity|]. exists x. eexists. cbn. rewrite set_eq. split; reflexivity.
        -- left. split; [exact H|]. intros [x0 [o [H1 H2]]]. left. exists x0, o. cbn. rewrite set_neq; [auto|]. congruence.
      * intros [[H _]|[-> _]]; auto.
    + intros h [x0 [o [H1 H2]]]. cbn in H1. slots; someinv. { cbn in H2. someinv. right. reflexivity. }
      left. exists x0, o. auto.
    + cbn. auto.
  - (* MoveConstruct *)
    destruct (objs w x) eqn:E. { exact I. } destruct (objs w y) as [o|] eqn:Ey; [|exact I].
    assert (Nxy : x <> y) by congruence.
    set (w' := World _ _ _). split; [|split; [|split; [|split]]].
    + unfold winv. cbn. split; [|split; [|split; [|split]]].
      * exact F.
      * intros x0 o0 h H1 H2. slots; someinv. { eapply O; eauto. } { rewrite moved_own in H2. discriminate. } eapply O; eauto.
      * intros x0 y0 o0 o' h H1 H2 H3 H4. slots; someinv; try reflexivity; try (rewrite moved_own in *; discriminate);
        first [eapply D; eauto; fail|exfalso; match goal with
          | A : objs _ ?p = Some ?u, B : objs _ ?q = Some ?v, C : own ?u = Some ?k, E' : own ?v = Some ?k, N : ?p <> ?q |- _ =>
            exact (N (D p q u v k A B C E')) end].
      * intros x0 o0 h H1 H2. slots; someinv; try (rewrite moved_own in *; discriminate); eapply Rw; eauto.
      * intros Hb x0 o0 H1. slots; someinv; try (eapply Nv; eauto; fail). destruct b; try reflexivity. congruence.
    + cbn. lia.
    + intros h. cbn. split.
      * intros H. left. split; [exact H|]. intros [x0 [o0 [H1 H2]]]. left.
        destruct (Nat.eq_dec x0 y) as [->|N].
        -- exists x, o. cbn. rewrite set_eq. split; [reflexivity|]. congruence.
        -- exists x0, o0. cbn. rewrite set_neq by congruence. rewrite set_neq by exact N. auto.
      * intros [[H _]|[-> [x0 [o0 [H1 H2]]]]]; [exact H|]. cbn in H1. exfalso.
        slots; someinv; try (rewrite moved_own in *; discriminate); eapply O in H2; eauto; apply F in H2; lia.
    + intros h [x0 [o0 [H1 H2]]]. cbn in H1. left. slots; someinv; try (rewrite moved_own in *; discriminate);
        [exists y, o0; auto|exists x0, o0; auto].
    + cbn. auto.
  - (* MoveAssign *)
    destruct (objs w x) as [ox|] eqn:Ex; [|exact I]. destruct (objs w y) as [o|] eqn:Ey; [|exact I].
    set (objs1 := set (objs w) y (Some (moved_from b o))).
    set (old := match objs1 x with Some d => own d | None => None end).
    set (objs2 := set objs1 x (Some o)).
    assert (Old : old = if Nat.eqb x y then None else own ox).
    { unfold old, objs1. destruct (Nat.eqb_spec x y) as [->|N].
      - rewrite set_eq. apply moved_own.
      - rewrite set_neq by exact N. rewrite Ex. reflexivity. }
    assert (O2 : forall z, objs2 z = if Nat.eqb z x then Some o else if Nat.eqb z y then Some (moved_from b o) else objs w z).
    { intros z. unfold objs2, objs1. unfold set. reflexivity. }
    assert (OW : forall z oz h, objs2 z = Some oz -> own oz = Some h ->
      exists z', objs w z' = Some oz /\ (z = x /\ z' = y \/ z <> x /\ z <> y /\ z' = z)).
    { intros z oz h H1 H2. rewrite O2 in H1. destruct (Nat.eqb_spec z x) as [->|Nx].
      - someinv. exists y. auto.
      - destruct (Nat.eqb_spec z y) as [->|Ny]. { someinv. rewrite moved_own in H2. discriminate. }
        exists z. auto. }
    assert (Keep : forall h l, (forall k, In k l -> In k (live w)) -> (forall k, own ox = Some k -> x <> y -> b = Ipp -> ~ In k l) ->
      (forall z oz k, objs2 z = Some oz -> own oz = Some k -> In k l) ->
      winv b (World objs2 l (fresh w)) /\ fresh w <= h + fresh w).
    { intros h l L1 L2 L3. split; [|lia]. unfold winv. cbn. split; [|split; [|split; [|split]]].
      - auto.
      - exact L3.
      - intros x0 y0 o0 o' k H1 H2 H3 H4.
        destruct (OW _ _ _ H1 H3) as [a [A1 A2]]. destruct (OW _ _ _ H2 H4) as [c [C1 C2]].
        assert (a = c) by (eapply D; eauto). subst c. destruct A2 as [[A2 A3]|[A2 [A3 A4]]], C2 as [[C2 C3]|[C2 [C3 C4]]]; congruence.
      - intros x0 o0 k H1 H2. destruct (OW _ _ _ H1 H2) as [a [A1 _]]. eapply Rw; eauto.
      - intros Hb x0 o0 H1. rewrite O2 in H1. destruct (Nat.eqb x0 x). { someinv. eapply Nv; eauto. }
        destruct (Nat.eqb x0 y). { someinv. destruct b; try reflexivity. congruence. } eapply Nv; eauto. }
    assert (OwnedW : forall h l f, owned w h -> own ox <> Some h \/ x = y -> owned (World objs2 l f) h).
    { intros h l f [z [oz [H1 H2]]] H. destruct (Nat.eq_dec z y) as [->|Ny].
      - exists x, o. cbn. rewrite O2, Nat.eqb_refl. split; [reflexivity|]. congruence.
      - exists z, oz. cbn. rewrite O2. destruct (Nat.eqb_spec z x) as [->|Nx].
        + exfalso. destruct H as [H|H]; [apply H; congruence|congruence].
        + destruct (Nat.eqb_spec z y); [congruence|]. auto. }
    assert (OwnedB : forall h l f, owned (World objs2 l f) h -> owned w h /\ (own ox = Some h -> x = y)).
    { intros h l f [z [oz [H1 H2]]]. cbn in H1. destruct (OW _ _ _ H1 H2) as [a [A1 A2]]. split. { exists a, oz. auto. }
      intros H. assert (a = x) by (eapply D; eauto). subst a. destruct A2 as [[A2 A3]|[A2 [A3 A4]]]; congruence. }
    assert (Ov : forall h, In h (overwritten w (MoveAssign x y)) <-> x <> y /\ own ox = Some h).
    { intros h. unfold overwritten. destruct (Nat.eqb_spec x y) as [->|N].
      - simpl. tauto.
      - rewrite Ex. destruct (own ox); simpl; [|intuition congruence]. intuition congruence. }
    assert (Der : own ox = own ox) by reflexivity.
    assert (NonIpp : b <> Ipp -> winv b (World objs2 (live w) (fresh w)) /\ fresh w <= fresh (World objs2 (live w) (fresh w)) /\
      (forall h, In h (live (World objs2 (live w) (fresh w))) <->
        (In h (live w) /\ (owned w h -> owned (World objs2 (live w) (fresh w)) h \/ (b <> Ipp /\ In h (overwritten w (MoveAssign x y))))) \/
        (h = fresh w /\ owned (World objs2 (live w) (fresh w)) h)) /\
      (forall h, owned (World objs2 (live w) (fresh w)) h -> owned w h \/ h = fresh w) /\
      (forall h, owned w h -> owned (World objs2 (live w) (fresh w)) h -> b <> Ipp -> ~ In h (overwritten w (MoveAssign x y)))).
    { intros Hb. split; [|split; [|split; [|split]]].
      - apply (Keep 0). { auto. } { congruence. }
        intros z oz k H1 H2. destruct (OW _ _ _ H1 H2) as [a [A1 _]]. eapply O; eauto.
      - cbn. lia.
      - intros h. cbn [live]. split.
        + intros H. left. split; [exact H|]. intros Hw.
          destruct (Nat.eq_dec x y) as [Exy|Nxy]. { left. apply OwnedW; auto. }
          destruct (own ox) as [k|] eqn:Eo.
          * destruct (Nat.eq_dec k h) as [->|Nk]. { right. split; [exact Hb|]. apply Ov. auto. }
            left. apply OwnedW; [exact Hw|]. left. congruence.
          * left. apply OwnedW; [exact Hw|]. left. discriminate.
        + intros [[H _]|[-> H]]; [exact H|]. apply OwnedB in H. destruct H as [[z [oz [H1 H2]]] _]. eapply O; eauto.
      - intros h H. left. apply OwnedB in H. tauto.
      - intros h _ H _ Hin. apply Ov in Hin. apply OwnedB in H. tauto. }
    destruct b; try (apply NonIpp; discriminate).
    assert (Rl : exists l, release old (live w) = Ok l /\ forall k, In k l <-> In k (live w) /\ (own ox = Some k -> x = y)).
    { rewrite Old. destruct (Nat.eqb_spec x y) as [Exy|Nxy].
      - exists (live w). split; [reflexivity|]. intros k. tauto.
      - destruct (release_own Ipp w x ox W0 Ex) as [l [E1 E2]]. exists l. split; [exact E1|]. intros k. rewrite E2. tauto. }
    destruct Rl as [l [E1 E2]]. rewrite E1. cbn [bind]. split; [|split; [|split; [|split]]].
    + apply (Keep 0).
      * intros k Hk. apply E2 in Hk. tauto.
      * intros k H1 H2 _ H3. apply E2 in H3. tauto.
      * intros z oz k H1 H2. apply E2. destruct (OW _ _ _ H1 H2) as [a [A1 A2]]. split. { eapply O; eauto. }
        intros H. assert (a = x) by (eapply D; eauto). subst a. destruct A2 as [[A2 A3]|[A2 [A3 A4]]]; congruence.
    + cbn. lia.
    + intros h. cbn [live]. split.
      * intros H. left. apply E2 in H. destruct H as [H1 H2]. split; [exact H1|]. intros Hw. left.
        destruct (Nat.eq_dec x y) as [Exy|Nxy]; apply OwnedW; auto.
      * intros [[H1 H2]|[-> H]].
        -- apply E2. split; [exact H1|]. intros H3. assert (Hw : owned w h) by (exists x, ox; auto).
           destruct (H2 Hw) as [H4|[H4 _]]; [|congruence]. apply OwnedB in H4. tauto.
        -- apply OwnedB in H. destruct H as [[z [oz [H1 H2]]] H3]. exfalso. eapply O in H2; eauto. apply F in H2. lia.
    + intros h H. left. apply OwnedB in H. tauto.
    + intros. congruence.
  - (* Destroy *)
    destruct (objs w x) as [o|] eqn:Ex; [|exact I].
    destruct (release_own b w x o W0 Ex) as [l [E1 E2]]. rewrite E1. cbn [bind]. split; [|split; [|split; [|split]]].
    + unfold winv. cbn. split; [|split; [|split; [|split]]].
      * intros h H. apply E2 in H. apply F. tauto.
      * intros x0 o0 h H1 H2. slots; [discriminate|]. apply E2. split. { eapply O; eauto. }
        intros H. assert (x0 = x) by (eapply D; eauto). congruence.
      * intros x0 y0 o0 o' h H1 H2 H3 H4. slots; try discriminate. eapply D; eauto.
      * intros x0 o0 h H1 H2. slots; [discriminate|]. eapply Rw; eauto.
      * intros Hb x0 o0 H1. slots; [discriminate|]. eapply Nv; eauto.
    + cbn. lia.
    + intros h. cbn [live]. split.
      * intros H. left. apply E2 in H. destruct H as [H1 H2]. split; [exact H1|]. intros [z [oz [H3 H4]]]. left.
        exists z, oz. cbn. rewrite set_neq; [auto|]. intros ->. congruence.
      * intros [[H1 H2]|[-> [z [oz [H3 H4]]]]].
        -- apply E2. split; [exact H1|]. intros H3. destruct H2 as [[z [oz [H4 H5]]]|[_ []]]. { exists x, o. auto. }
           cbn in H4. slots; [discriminate|]. assert (z = x) by (eapply D; eauto). congruence.
        -- cbn in H3. slots; [discriminate|]. exfalso. eapply O in H4; eauto. apply F in H4. lia.
    + intros h [z [oz [H1 H2]]]. cbn in H1. slots; [discriminate|]. left. exists z, oz. auto.
    + cbn. auto.
  - (* Run *)
    destruct (objs w x) as [o|] eqn:Ex; [|exact I].
    assert (Emp : forall h, raw o = Some h -> ~ In h (live w) -> own o = None).
    { intros h H1 H2. destruct (own o) as [k|] eqn:Eo; [|reflexivity]. assert (raw o = Some k) by (eapply Rw; eauto).
      exfalso. apply H2. replace h with k by congruence. eapply O; eauto. }
    destruct (raw o) as [h|] eqn:Er.
    + destruct (existsb (Nat.eqb h) (live w)) eqn:El.
      * split; [exact W0|]. split; [lia|]. split; [|split; [auto|cbn; auto]].
        intros k. split; [tauto|]. intros [[H _]|[-> [z [oz [H1 H2]]]]]; [exact H|]. eapply O; eauto.
      * exists x. split; [reflexivity|]. exists o. split; [exact Ex|]. apply (Emp h eq_refl). intros H. apply existsb_in in H. congruence.
    + exists x. split; [reflexivity|]. exists o. split; [exact Ex|].
      destruct (own o) as [k|] eqn:Eo; [|reflexivity]. apply (Rw x o k Ex) in Eo. congruence.
Qed.

Lemma exec_inv : forall b ops w w', winv b w -> exec b w ops = Ok w' ->
  winv b w' /\ fresh w <= fresh w'.
Proof.
  intros b ops. induction ops as [|op ops IH]; intros w w' W E; simpl in E.
  - injection E as <-. split; [exact W|lia].
  - apply bind_ok in E. destruct E as [w1 [E1 E2]]. pose proof (step_effect b w op W) as S. rewrite E1 in S.
    destruct S as [W1 [F1 _]]. destruct (IH w1 w' W1 E2) as [A B]. split; [exact A|lia].
Qed.

Lemma exec_app : forall b ops1 ops2 w, exec b w (ops1 ++ ops2) = (w <- exec b w ops1 ;; exec b w ops2).
Proof.
  intros b ops1. induction ops1 as [|op ops1 IH]; intros ops2 w; simpl; [reflexivity|].
  destruct (step b w op); simpl; auto.
Qed.

(** ** The theorems *)

Theorem only_empty_plans_fail : forall b ops w op, exec b start ops = Ok w -> step b w op = UB ->
  exists x, op = Run x /\ empty_plan w x.
Proof.
  intros b ops w op E H. destruct (exec_inv b ops start w (winv_start b) E) as [W _].
  pose proof (step_effect b w op W) as S. rewrite H in S. exact S.
Qed.

Theorem running_empty_plan : forall b ops w x, b <> Ipp -> exec b start ops = Ok w -> empty_plan w x -> step b w (Run x) = UB.
Proof.
  intros b ops w x Hb E [o [H1 H2]]. destruct (exec_inv b ops start w (winv_start b) E) as [[_ [_ [_ [_ Nv]]]] _].
  unfold step. rewrite H1. rewrite (Nv Hb x o H1), H2. reflexivity.
Qed.

Theorem running_full_plan : forall b ops w x o h, exec b start ops = Ok w -> objs w x = Some o -> own o = Some h ->
  step b w (Run x) = Ok w.
Proof.
  intros b ops w x o h E H1 H2. destruct (exec_inv b ops start w (winv_start b) E) as [[_ [O [_ [Rw _]]]] _].
  unfold step. rewrite H1, (Rw x o h H1 H2). replace (existsb (Nat.eqb h) (live w)) with true; [reflexivity|].
  symmetry. apply existsb_in. eapply O; eauto.
Qed.

Lemma live_account : forall b ops w w', winv b w -> (forall h, In h (live w) -> owned w h) ->
  b = Ipp -> exec b w ops = Ok w' -> forall h, In h (live w') <-> owned w' h.
Proof.
  intros b ops. induction ops as [|op ops IH]; intros w w' W L Hb E; simpl in E.
  - injection E as <-. intros h. split; [apply L|]. intros [x [o [H1 H2]]]. destruct W as [_ [O _]]. eapply O; eauto.
  - apply bind_ok in E. destruct E as [w1 [E1 E2]]. pose proof (step_effect b w op W) as S. rewrite E1 in S.
    destruct S as [W1 [_ [S1 _]]]. apply (IH w1 w' W1); auto.
    intros h H. apply S1 in H. destruct H as [[H1 H2]|[_ H]]; [|exact H]. destruct (H2 (L h H1)) as [H|[H _]]; [exact H|congruence].
Qed.

Theorem ipp_live_owned : forall ops w, exec Ipp start ops = Ok w -> forall h, In h (live w) <-> owned w h.
Proof. intros ops w E. apply (live_account Ipp ops start w (winv_start Ipp)); auto. intros h []. Qed.

Theorem leak_account : forall b ops w, b <> Ipp -> exec b start ops = Ok w ->
  (forall h, In h (live w) <-> owned w h \/ In h (all_overwritten b start ops)) /\
  (forall h, owned w h -> ~ In h (all_overwritten b start ops)).
Proof.
  intros b ops w Hb E.
  assert (G : forall ops w0 lost w, winv b w0 -> (forall h, In h (live w0) <-> owned w0 h \/ In h lost) ->
    (forall h, owned w0 h -> ~ In h lost) -> exec b w0 ops = Ok w ->
    (forall h, In h (live w) <-> owned w h \/ In h (lost ++ all_overwritten b w0 ops)) /\
    (forall h, owned w h -> ~ In h (lost ++ all_overwritten b w0 ops))).
  { clear ops w E. intros ops. induction ops as [|op ops IH]; intros w0 lost w W L X E; simpl in E.
    - injection E as <-. simpl. rewrite app_nil_r. auto.
    - apply bind_ok in E. destruct E as [w1 [E1 E2]]. pose proof (step_effect b w0 op W) as S. rewrite E1 in S.
      destruct S as [W1 [_ [S1 [S2 S3]]]]. cbn [all_overwritten]. rewrite E1. rewrite app_assoc.
      assert (Ovl : forall h, In h (overwritten w0 op) -> owned w0 h).
      { intros h H. destruct op; try contradiction H. unfold overwritten in H. destruct (Nat.eqb x y); [contradiction H|].
        destruct (objs w0 x) as [o|] eqn:Ex; [|contradiction H]. destruct (own o) as [k|] eqn:Eo; [|contradiction H].
        destruct H as [<-|[]]. exists x, o. auto. }
      assert (Ll : forall h, In h (live w0) -> h <> fresh w0). { destruct W as [F _]. intros h H. apply F in H. lia. }
      apply IH; auto.
      + intros h. rewrite in_app_iff. split.
        * intros H. apply S1 in H. destruct H as [[H1 H2]|[_ H]]; [|auto]. apply L in H1.
          destruct H1 as [H1|H1]; [|auto]. destruct (H2 H1) as [H|[_ H]]; auto.
        * intros [H|[H|H]]; apply S1.
          -- destruct (S2 h H) as [H1| ->]; [|right; auto]. left. split; [apply L; auto|]. auto.
          -- left. split; [apply L; auto|]. intros H1. exfalso. exact (X h H1 H).
          -- left. split; [apply L; left; apply Ovl; exact H|]. auto.
      + intros h H. rewrite in_app_iff. intros [H1|H1].
        * destruct (S2 h H) as [H2| ->]. { exact (X h H2 H1). } apply (Ll (fresh w0)); [|reflexivity]. apply L. auto.
        * exact (S3 h (Ovl h H1) H Hb H1). }
  destruct (G ops start [] w (winv_start b)) as [A B]; auto.
  - intros h. simpl. split; [tauto|]. intros [[x [o [H _]]]|[]]. discriminate H.
Qed.

(** A handle overwritten by a move assignment is never released and never used again. *)
Theorem overwritten_is_leaked : forall b ops1 w x y o h ops2 w', b <> Ipp -> exec b start ops1 = Ok w ->
  objs w x = Some o -> own o = Some h -> x <> y -> exec b w (MoveAssign x y :: ops2) = Ok w' ->
  In h (live w') /\ ~ owned w' h.
Proof.
  intros b ops1 w x y o h ops2 w' Hb E H1 H2 Nxy E2.
  assert (E3 : exec b start (ops1 ++ MoveAssign x y :: ops2) = Ok w'). { rewrite exec_app, E. exact E2. }
  destruct (leak_account b _ w' Hb E3) as [A B].
  assert (L : In h (all_overwritten b start (ops1 ++ MoveAssign x y :: ops2))).
  { clear A B E3. revert E. generalize start. induction ops1 as [|op ops1 IH]; intros w0 E; simpl in E.
    - injection E as ->. simpl. apply Nat.eqb_neq in Nxy. rewrite Nxy, H1, H2. left. reflexivity.
    - apply bind_ok in E. destruct E as [w1 [E1 E3]]. simpl. rewrite E1. apply in_or_app. right. apply IH. exact E3. }
  split; [apply A; auto|]. intros Hw. exact (B h Hw L).
Qed.

(** Without move assignment over a plan that has a handle, destroying every plan releases everything. *)
Theorem all_released : forall b ops w, exec b start ops = Ok w -> (forall x, objs w x = None) ->
  (b = Ipp \/ all_overwritten b start ops = []) -> live w = [].
Proof.
  intros b ops w E H Hb. destruct (live w) as [|h l] eqn:El; [reflexivity|]. exfalso.
  assert (Hh : In h (live w)) by (rewrite El; left; reflexivity).
  assert (Hw : owned w h).
  { destruct (vendor_eq b) as [->|N].
    - apply (ipp_live_owned ops w E). exact Hh.
    - apply (leak_account b ops w N E) in Hh. destruct Hb as [Hb|Hb]; [congruence|]. rewrite Hb in Hh. destruct Hh as [Hh|[]]. exact Hh. }
  destruct Hw as [x [o [H1 _]]]. rewrite H in H1. discriminate.
Qed.
