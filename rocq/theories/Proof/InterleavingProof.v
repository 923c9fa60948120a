(** Threads whose writes stay out of what the others access: every interleaving ends as if
    each had run alone.  Used by Proof/ConcurrentProof.v. *)
From Coq Require Import List Arith Lia Bool FunctionalExtensionality.
From Verif Require Import Base.Outcome Base.OutcomeFacts Spec.Interleaving.
Import ListNotations.

Lemma loc_eqb_spec : forall a b, reflect (a = b) (loc_eqb a b).
Proof.
  intros [a1 a2] [b1 b2]. unfold loc_eqb. simpl.
  destruct (Nat.eqb_spec a1 b1), (Nat.eqb_spec a2 b2); simpl; constructor; congruence.
Qed.

Lemma store_same : forall m l v, store m l v l = Some v.
Proof. intros. unfold store. destruct (loc_eqb_spec l l); congruence. Qed.

Lemma store_other : forall m l v l', l' <> l -> store m l v l' = m l'.
Proof. intros. unfold store. destruct (loc_eqb_spec l' l); congruence. Qed.

(** ** Running alone *)
Fixpoint run {A} (p : prog A) (m : memory) : outcome (A * memory) :=
  match p with
  | Done a => Ok (a, m)
  | Read l k => match m l with Some v => run (k v) m | None => UB end
  | Write l v k => match m l with Some _ => run k (store m l v) | None => UB end
  | Crash => UB
  end.

Lemma run_pbind : forall A B (p : prog A) (k : A -> prog B) m,
  run (pbind p k) m = bind (run p m) (fun r => run (k (fst r)) (snd r)).
Proof.
  induction p; intros; simpl; auto.
  - destruct (m l); simpl; auto.
  - destruct (m l); simpl; auto.
Qed.

Fixpoint solo (n : nat) (p : prog unit) (m : memory) : option (prog unit * memory) :=
  match n with
  | O => Some (p, m)
  | S n' => match solo n' p m with Some (q, m') => thread_step q m' | None => None end
  end.

Lemma solo_first : forall n p m p' m', thread_step p m = Some (p', m') -> solo (S n) p m = solo n p' m'.
Proof.
  induction n; intros p m p' m' H. { simpl. auto. }
  change (solo (S (S n)) p m) with (match solo (S n) p m with Some (q, m1) => thread_step q m1 | None => None end).
  rewrite (IHn _ _ _ _ H). reflexivity.
Qed.

Fixpoint cost {A} (p : prog A) (m : memory) : nat :=
  match p with
  | Read l k => match m l with Some v => S (cost (k v) m) | None => 0 end
  | Write l v k => S (cost k (store m l v))
  | _ => 0
  end.

Lemma run_cost : forall p m m', run p m = Ok (tt, m') -> solo (cost p m) p m = Some (Done tt, m').
Proof.
  induction p as [a|l k IH|l v k IH|]; intros m m' H; simpl in H; cbn [cost].
  - destruct a. simpl. congruence.
  - destruct (m l) as [v|] eqn:E; [|discriminate].
    rewrite (solo_first _ _ _ (k v) m); auto. simpl. rewrite E. auto.
  - destruct (m l) as [u|] eqn:E; [|discriminate].
    rewrite (solo_first _ _ _ k (store m l v)); auto. simpl. rewrite E. auto.
  - discriminate.
Qed.

Lemma solo_none : forall n p m, solo n p m = None -> solo (S n) p m = None.
Proof. intros n p m H. simpl. rewrite H. auto. Qed.

Lemma solo_done_last : forall n k p m m', solo n p m = Some (Done tt, m') -> solo (n + S k) p m = None.
Proof.
  intros n k p m m' H. induction k.
  - replace (n + 1) with (S n) by lia. simpl. rewrite H. auto.
  - replace (n + S (S k)) with (S (n + S k)) by lia. apply solo_none. auto.
Qed.

Lemma solo_crash_last : forall n k p m m', solo n p m = Some (Crash, m') -> solo (n + S k) p m = None.
Proof.
  intros n k p m m' H. induction k.
  - replace (n + 1) with (S n) by lia. simpl. rewrite H. auto.
  - replace (n + S (S k)) with (S (n + S k)) by lia. apply solo_none. auto.
Qed.

Lemma solo_le : forall n k p m q m', solo n p m = Some (Done tt, m') -> solo k p m = Some q -> k <= n.
Proof.
  intros n k p m q m' H K. destruct (Nat.le_gt_cases k n); auto.
  replace k with (n + S (k - n - 1)) in K by lia. erewrite solo_done_last in K; eauto. discriminate.
Qed.

(** ** Footprints *)
Fixpoint confined {A} (W R : location -> Prop) (p : prog A) : Prop :=
  match p with
  | Done _ | Crash => True
  | Read l k => (W l \/ R l) /\ forall v, confined W R (k v)
  | Write l _ k => W l /\ confined W R k
  end.

Lemma confined_pbind : forall A B W R (p : prog A) (k : A -> prog B),
  confined W R p -> (forall a, confined W R (k a)) -> confined W R (pbind p k).
Proof. induction p; simpl; intros; auto. - destruct H0. split; auto. - destruct H. split; auto. Qed.

Lemma confined_weaken : forall A (W R W' R' : location -> Prop) (p : prog A),
  (forall l, W l -> W' l) -> (forall l, R l -> R' l) -> confined W R p -> confined W' R' p.
Proof.
  induction p; simpl; intros; auto.
  - destruct H2 as [[?|?] ?]; split; auto.
  - destruct H1. split; auto.
Qed.

(** ** Interleaving *)
Lemma nth_error_upd : forall T (l : list T) t u v,
  nth_error (upd l t v) u = if (t =? u) && (t <? length l) then Some v else nth_error l u.
Proof.
  induction l; intros t u v; simpl.
  - rewrite Nat.ltb_irrefl || idtac. destruct (t =? u); destruct t; simpl; auto.
  - destruct t; simpl.
    + destruct u; simpl; auto.
    + destruct u; simpl; auto. rewrite IHl. change (S t <? S (length l)) with (t <? length l). reflexivity.
Qed.

Section Threads.
Variable ps0 : list (prog unit).
Variable m0 : memory.
Variable W R : nat -> location -> Prop.
Variable steps_of : nat -> nat.
Variable final : nat -> memory.
Hypothesis Hconf : forall t p, nth_error ps0 t = Some p -> confined (W t) (R t) p.
Hypothesis Hsolo : forall t p, nth_error ps0 t = Some p -> solo (steps_of t) p m0 = Some (Done tt, final t).
Hypothesis Hsep : forall t u l, t < length ps0 -> u < length ps0 -> t <> u -> W t l -> ~ W u l /\ ~ R u l.

Definition total_steps : nat := list_sum (map steps_of (seq 0 (length ps0))).

Record inv (ct : nat -> nat) (ps : list (prog unit)) (m : memory) : Prop := {
  i_len : length ps = length ps0;
  i_solo : forall t p0 p, nth_error ps0 t = Some p0 -> nth_error ps t = Some p ->
    confined (W t) (R t) p /\ exists mt, solo (ct t) p0 m0 = Some (p, mt) /\ forall l, W t l \/ R t l -> m l = mt l;
  i_rest : forall l, (forall t, t < length ps0 -> ~ W t l) -> m l = m0 l
}.

Lemma inv_start : inv (fun _ => 0) ps0 m0.
Proof.
  constructor; auto. intros t p0 p H1 H2. split; auto. exists m0. simpl. split; auto. congruence.
Qed.

Lemma inv_step : forall ct ps m t p p' m', inv ct ps m -> nth_error ps t = Some p -> thread_step p m = Some (p', m') ->
  inv (fun u => if u =? t then S (ct u) else ct u) (upd ps t p') m'.
Proof.
  intros ct ps m t p p' m' I Ht Hs. destruct I as [L S0 Rst].
  assert (Lt : t < length ps) by (apply nth_error_Some; congruence).
  assert (Lt0 : t < length ps0) by lia.
  destruct (nth_error ps0 t) as [p0|] eqn:E0; [|apply nth_error_None in E0; lia].
  destruct (S0 t p0 p E0 Ht) as [Cf [mt [Sl Ag]]].
  (* the effect of the access, and that the solo run makes the same one *)
  assert (X : confined (W t) (R t) p' /\ exists mt', thread_step p mt = Some (p', mt') /\
     (forall l, W t l \/ R t l -> m' l = mt' l) /\ (forall l, ~ W t l -> m' l = m l)).
  { destruct p as [a|l k|l v k|]; simpl in Hs; try discriminate.
    - destruct Cf as [Cl Ck]. rewrite (Ag l Cl) in Hs. simpl.
      destruct (mt l) as [v|]; inversion Hs; subst; split; simpl; auto; eexists; repeat split; auto.
    - destruct Cf as [Cl Ck]. rewrite (Ag l (or_introl Cl)) in Hs. simpl.
      destruct (mt l) as [w|].
      + inversion Hs; subst; split; simpl; auto. eexists. split; [reflexivity|]. split.
        * intros l' Hl'. unfold store. destruct (loc_eqb l' l); auto.
        * intros l' Hl'. apply store_other. congruence.
      + inversion Hs; subst; split; simpl; auto; eexists; repeat split; auto. }
  destruct X as [Cf' [mt' [St' [Ag' Oth]]]].
  constructor.
  - rewrite upd_length. auto.
  - intros u q0 q Hu0 Hu. rewrite nth_error_upd in Hu.
    destruct (Nat.eqb_spec t u) as [<-|N].
    + rewrite Nat.eqb_refl. replace (t <? length ps) with true in Hu by (symmetry; apply Nat.ltb_lt; lia).
      simpl in Hu. inversion Hu; subst q. split; auto. exists mt'. rewrite E0 in Hu0. inversion Hu0; subst q0.
      simpl. rewrite Sl. split; auto.
    + simpl in Hu. replace (u =? t) with false by (symmetry; apply Nat.eqb_neq; auto).
      destruct (S0 u q0 q Hu0 Hu) as [Cq [mu [Su Au]]]. split; auto. exists mu. split; auto.
      intros l Hl. rewrite Oth; auto. intros Wl.
      assert (u < length ps0) by (apply nth_error_Some; congruence).
      destruct (Hsep t u l) as [A B]; auto. tauto.
  - intros l Hl. rewrite Oth; auto.
Qed.

Lemma sum_bump : forall ct t n a, a <= t < a + n ->
  list_sum (map (fun u => if u =? t then S (ct u) else ct u) (seq a n)) = S (list_sum (map ct (seq a n))).
Proof.
  induction n; intros a H. lia. simpl. destruct (Nat.eqb_spec a t) as [<-|N].
  - simpl. do 2 f_equal. f_equal. apply map_ext_in. intros u Hu. apply in_seq in Hu.
    destruct (Nat.eqb_spec u a); auto; lia.
  - rewrite IHn by lia. lia.
Qed.

Lemma reach_inv : forall n c, steps n (ps0, m0) c ->
  exists ct, inv ct (fst c) (snd c) /\ n = list_sum (map ct (seq 0 (length ps0))).
Proof.
  intros n c H. remember (ps0, m0) as c0 eqn:E. induction H as [c1|n c1 c2 c3 H1 IH H2].
  - exists (fun _ => 0). rewrite E. simpl. split. apply inv_start.
    assert (Z : forall l : list nat, list_sum (map (fun _ => 0) l) = 0) by (induction l; simpl; auto).
    symmetry. apply Z.
  - destruct (IH E) as [ct [I N]]. inversion H2; subst. simpl in I.
    eexists. split. { simpl. eapply inv_step; eauto. }
    rewrite sum_bump; auto. assert (t < length ps) by (apply nth_error_Some; congruence).
    rewrite (i_len _ _ _ I) in H3. lia.
Qed.

Lemma sum_le : forall (f g : nat -> nat) l, (forall i, In i l -> f i <= g i) -> list_sum (map f l) <= list_sum (map g l).
Proof. induction l; simpl; intros; auto. pose proof (H a (or_introl eq_refl)). pose proof (IHl (fun i Hi => H i (or_intror Hi))). lia. Qed.

Theorem interleaved : forall n c, steps n (ps0, m0) c ->
  ~ racing c /\ ~ crashed c /\ n <= total_steps /\ (finished c \/ exists c', step c c') /\
  (finished c -> n = total_steps /\ forall l,
     (forall t, t < length ps0 -> W t l -> snd c l = final t l) /\
     ((forall t, t < length ps0 -> ~ W t l) -> snd c l = m0 l)).
Proof.
  intros n c H. destruct (reach_inv n c H) as [ct [I N]]. destruct c as [ps m]. simpl in *.
  pose proof (i_len _ _ _ I) as L.
  assert (G : forall t, t < length ps0 -> exists p0 p, nth_error ps0 t = Some p0 /\ nth_error ps t = Some p).
  { intros t Ht. destruct (nth_error ps0 t) as [p0|] eqn:E0; [|apply nth_error_None in E0; lia].
    destruct (nth_error ps t) as [p|] eqn:E1; [|apply nth_error_None in E1; lia]. eauto. }
  assert (NC : ~ crashed (ps, m)).
  { intros Cr. unfold crashed in Cr. simpl in Cr. apply In_nth_error in Cr. destruct Cr as [t Ht].
    assert (t < length ps) by (apply nth_error_Some; congruence).
    destruct (G t ltac:(lia)) as [p0 [p [E0 E1]]]. rewrite Ht in E1. inversion E1; subst p.
    destruct (i_solo _ _ _ I t p0 Crash E0 Ht) as [_ [mt [Sl _]]].
    pose proof (Hsolo t p0 E0) as F. pose proof (solo_le _ _ _ _ _ _ F Sl) as Le.
    destruct (Nat.eq_dec (ct t) (steps_of t)) as [Eq|Ne].
    - rewrite Eq in Sl. congruence.
    - replace (steps_of t) with (ct t + S (steps_of t - ct t - 1)) in F by lia.
      erewrite solo_crash_last in F; eauto. discriminate. }
  split; [|split; [exact NC|split; [|split]]].
  - intros (t & u & p & q & l & w & Ntu & Hp & Hq & Tp & Tq). simpl in Hp, Hq.
    assert (t < length ps) by (apply nth_error_Some; congruence).
    assert (u < length ps) by (apply nth_error_Some; congruence).
    destruct (G t ltac:(lia)) as [p0 [p' [E0 E1]]]. destruct (G u ltac:(lia)) as [q0 [q' [F0 F1]]].
    destruct (i_solo _ _ _ I t p0 p E0 Hp) as [Cp _]. destruct (i_solo _ _ _ I u q0 q F0 Hq) as [Cq _].
    assert (Wl : W t l).
    { destruct p; simpl in Tp; try tauto; destruct Tp as [<- Z]; try discriminate. simpl in Cp. tauto. }
    destruct (Hsep t u l ltac:(lia) ltac:(lia) Ntu Wl) as [A B].
    destruct q; simpl in Tq; try tauto; destruct Tq as [<- _]; simpl in Cq; tauto.
  - rewrite N. unfold total_steps. apply sum_le. intros t Ht. apply in_seq in Ht.
    destruct (G t ltac:(lia)) as [p0 [p [E0 E1]]]. destruct (i_solo _ _ _ I t p0 p E0 E1) as [_ [mt [Sl _]]].
    eapply solo_le; eauto.
  - (* progress *)
    clear N H.
    assert (D : (forall p, In p ps -> p = Done tt) \/ exists t p, nth_error ps t = Some p /\ p <> Done tt).
    { clear. induction ps as [|p ps IH]. { left. simpl. tauto. }
      destruct p as [[]|l k|l v k|].
      - destruct IH as [IH|[t [p [E1 E2]]]].
        + left. intros p [<-|Hp]; auto.
        + right. exists (S t), p. auto.
      - right. exists 0. eexists. simpl. split; [reflexivity|discriminate].
      - right. exists 0. eexists. simpl. split; [reflexivity|discriminate].
      - right. exists 0. eexists. simpl. split; [reflexivity|discriminate]. }
    destruct D as [D|[t [p [E1 E2]]]]; [left; exact D|right].
    assert (exists p' m', thread_step p m = Some (p', m')) as [p' [m' Hs]].
    { destruct p as [[]|l k|l v k|]; simpl.
      - congruence.
      - destruct (m l); eauto.
      - destruct (m l); eauto.
      - exfalso. apply NC. unfold crashed. simpl. eapply nth_error_In; eauto. }
    eexists. econstructor; eauto.
  - intros F.
    assert (E : forall t, t < length ps0 -> ct t = steps_of t /\ forall l, W t l -> m l = final t l).
    { intros t Ht. destruct (G t Ht) as [p0 [p [E0 E1]]].
      assert (p = Done tt) by (apply F; simpl; eapply nth_error_In; eauto). subst p.
      destruct (i_solo _ _ _ I t p0 _ E0 E1) as [_ [mt [Sl Ag]]].
      pose proof (Hsolo t p0 E0) as S1. pose proof (solo_le _ _ _ _ _ _ S1 Sl). pose proof (solo_le _ _ _ _ _ _ Sl S1).
      assert (E : ct t = steps_of t) by lia. split; auto. intros l Wl. rewrite Ag by auto. rewrite E in Sl. congruence. }
    split.
    + rewrite N. unfold total_steps. f_equal. apply map_ext_in. intros t Ht. apply in_seq in Ht. apply E. lia.
    + intros l. split; [|apply (i_rest _ _ _ I)]. intros t Ht Wl. apply E; auto.
Qed.

End Threads.

(** ** Building schedules *)
Lemma steps_trans : forall a b c n k, steps n a b -> steps k b c -> steps (n + k) a c.
Proof.
  intros a b c n k H1 H2. revert H1. induction H2; intros. { rewrite Nat.add_0_r. auto. }
  rewrite Nat.add_succ_r. econstructor; eauto.
Qed.

(** One thread runs a part of its program to its end, undisturbed. *)
Lemma steps_alone : forall (q : prog unit) (k : unit -> prog unit) m m' ps t,
  nth_error ps t = Some (pbind q k) -> run q m = Ok (tt, m') ->
  exists n, steps n (ps, m) (upd ps t (k tt), m').
Proof.
  induction q as [a|l f IH|l v q IH|]; intros k m m' ps t Ht Hr; simpl in Hr.
  - destruct a. inversion Hr; subst. exists 0. simpl in Ht.
    replace (upd ps t (k tt)) with ps. constructor.
    clear - Ht. revert t Ht. induction ps; intros; destruct t; simpl in *; try discriminate.
    + congruence.
    + f_equal. auto.
  - destruct (m l) as [v|] eqn:E; [|discriminate].
    assert (Lt : t < length ps) by (apply nth_error_Some; congruence).
    destruct (IH v k m m' (upd ps t (pbind (f v) k)) t) as [n Hn]; auto.
    { rewrite nth_error_upd, Nat.eqb_refl. replace (t <? length ps) with true by (symmetry; apply Nat.ltb_lt; auto). auto. }
    exists (1 + n). eapply steps_trans with (b := (upd ps t (pbind (f v) k), m)).
    + econstructor. constructor. econstructor; eauto. simpl. rewrite E. auto.
    + replace (upd ps t (k tt)) with (upd (upd ps t (pbind (f v) k)) t (k tt)); auto.
      clear. revert t. induction ps; intros; destruct t; simpl; auto. f_equal. auto.
  - destruct (m l) as [w|] eqn:E; [|discriminate].
    assert (Lt : t < length ps) by (apply nth_error_Some; congruence).
    destruct (IH k (store m l v) m' (upd ps t (pbind q k)) t) as [n Hn]; auto.
    { rewrite nth_error_upd, Nat.eqb_refl. replace (t <? length ps) with true by (symmetry; apply Nat.ltb_lt; auto). auto. }
    exists (1 + n). eapply steps_trans with (b := (upd ps t (pbind q k), store m l v)).
    + econstructor. constructor. econstructor; eauto. simpl. rewrite E. auto.
    + replace (upd ps t (k tt)) with (upd (upd ps t (pbind q k)) t (k tt)); auto.
      clear. revert t. induction ps; intros; destruct t; simpl; auto. f_equal. auto.
  - discriminate.
Qed.

Lemma pbind_done : forall p : prog unit, pbind p (fun _ => Done tt) = p.
Proof.
  induction p as [[]|l k IH|l v k IH|]; simpl; auto.
  - f_equal. apply functional_extensionality. auto.
  - f_equal. auto.
Qed.

Lemma steps_to_end : forall (q : prog unit) m m' ps t, nth_error ps t = Some q -> run q m = Ok (tt, m') ->
  exists n, steps n (ps, m) (upd ps t (Done tt), m').
Proof.
  intros q m m' ps t H R. rewrite <- (pbind_done q) in H. apply (steps_alone q (fun _ => Done tt)); auto.
Qed.
