(** Lemmas about arrays and loops. *)
From Coq Require Import List Arith Lia Bool.
From Verif Require Import Base.Outcome.
Import ListNotations.

Lemma upd_length : forall T (l : list T) i v, length (upd l i v) = length l.
Proof. induction l; destruct i; simpl; intros; auto. Qed.

Lemma nth_upd : forall T (l : list T) i j v d,
  nth j (upd l i v) d = if (j =? i) && (i <? length l) then v else nth j l d.
Proof.
  induction l as [|h t IH]; intros i j v d; simpl.
  - destruct j; destruct i; simpl; rewrite ?andb_false_r; auto.
  - destruct i; destruct j; simpl; auto.
    rewrite IH. reflexivity.
Qed.

Lemma nth_upd_eq : forall T (l : list T) i v d, i < length l -> nth i (upd l i v) d = v.
Proof.
  intros. rewrite nth_upd, Nat.eqb_refl. simpl.
  destruct (Nat.ltb_spec i (length l)); auto; lia.
Qed.

Lemma nth_upd_neq : forall T (l : list T) i j v d, j <> i -> nth j (upd l i v) d = nth j l d.
Proof.
  intros. rewrite nth_upd. destruct (Nat.eqb_spec j i); simpl; auto; contradiction.
Qed.

Lemma rd_ok : forall T (l : list T) i d, i < length l -> rd l i = Ok (nth i l d).
Proof.
  intros. unfold rd. destruct (nth_error l i) eqn:E.
  - apply nth_error_nth with (d := d) in E. congruence.
  - apply nth_error_None in E. lia.
Qed.

Lemma rd_ub : forall T (l : list T) i, length l <= i -> rd l i = UB.
Proof.
  intros. unfold rd. apply nth_error_None in H. rewrite H. auto.
Qed.

Lemma rd_inv : forall T (l : list T) i v d, rd l i = Ok v -> i < length l /\ nth i l d = v.
Proof.
  unfold rd; intros T l i v d H.
  destruct (nth_error l i) eqn:E; inversion H; subst.
  split.
  - apply nth_error_Some. congruence.
  - apply nth_error_nth; auto.
Qed.

Lemma wr_ok : forall T (l : list T) i v, i < length l -> wr l i v = Ok (upd l i v).
Proof.
  intros. unfold wr. destruct (Nat.ltb_spec i (length l)); auto; lia.
Qed.

Lemma wr_ub : forall T (l : list T) i v, length l <= i -> wr l i v = UB.
Proof.
  intros. unfold wr. destruct (Nat.ltb_spec i (length l)); auto; lia.
Qed.

Lemma wr_inv : forall T (l : list T) i v l', wr l i v = Ok l' -> i < length l /\ l' = upd l i v.
Proof.
  unfold wr; intros. destruct (Nat.ltb_spec i (length l)); inversion H; auto.
Qed.

Lemma tab_length : forall T n (f : nat -> T), length (tab n f) = n.
Proof. intros. unfold tab. rewrite map_length, seq_length. auto. Qed.

Lemma nth_tab : forall T n (f : nat -> T) i d, i < n -> nth i (tab n f) d = f i.
Proof.
  intros. unfold tab.
  rewrite (nth_indep _ d (f 0)) by (rewrite map_length, seq_length; auto).
  rewrite map_nth, seq_nth by auto. auto.
Qed.

Lemma nth_tab_ge : forall T n (f : nat -> T) i d, n <= i -> nth i (tab n f) d = d.
Proof. intros. apply nth_overflow. rewrite tab_length. auto. Qed.

Lemma tab_ext : forall T n (f g : nat -> T), (forall i, i < n -> f i = g i) -> tab n f = tab n g.
Proof.
  intros. unfold tab. apply map_ext_in. intros a Ha. apply in_seq in Ha. apply H. lia.
Qed.

Lemma list_eq_nth : forall T (d : T) (l l' : list T),
  length l = length l' -> (forall i, i < length l -> nth i l d = nth i l' d) -> l = l'.
Proof.
  intros. apply nth_ext with (d := d) (d' := d); auto.
Qed.

Lemma list_eq_tab : forall T (d : T) (l : list T) n f,
  length l = n -> (forall i, i < n -> nth i l d = f i) -> l = tab n f.
Proof.
  intros. apply list_eq_nth with (d := d).
  - rewrite tab_length; auto.
  - intros. rewrite nth_tab by lia. apply H0. lia.
Qed.

Lemma tab_nth : forall T (d : T) (l : list T), l = tab (length l) (fun i => nth i l d).
Proof. intros. apply list_eq_tab with (d := d); auto. Qed.

(** General loop invariant rule. *)
Lemma loop_inv : forall St (I : nat -> St -> Prop) n lo step body s0,
  I 0 s0 ->
  (forall j s, j < n -> I j s -> exists s', body (lo + j * step) s = Ok s' /\ I (S j) s') ->
  exists s', loop n lo step body s0 = Ok s' /\ I n s'.
Proof.
  intros St I n. revert I.
  induction n as [|n IH]; intros I lo step body s0 H0 Hs; simpl.
  - eauto.
  - destruct (Hs 0 s0) as [s1 [E1 I1]]; auto; try lia.
    rewrite Nat.add_0_r in E1. rewrite E1. simpl.
    destruct (IH (fun j => I (S j)) (lo + step) step body s1) as [s' [E' I']]; auto.
    + intros j s Hj HI. destruct (Hs (S j) s) as [s2 [E2 I2]]; auto; try lia.
      exists s2. split; auto. rewrite <- E2. f_equal. lia.
    + eauto.
Qed.

Lemma for_range_inv : forall St (I : nat -> St -> Prop) lo hi body s0,
  lo <= hi ->
  I lo s0 ->
  (forall j s, lo <= j < hi -> I j s -> exists s', body j s = Ok s' /\ I (S j) s') ->
  exists s', for_range lo hi body s0 = Ok s' /\ I hi s'.
Proof.
  intros St I lo hi body s0 Hle H0 Hs. unfold for_range.
  destruct (loop_inv St (fun j => I (lo + j)) (hi - lo) lo 1 body s0) as [s' [E I']].
  - rewrite Nat.add_0_r. auto.
  - intros j s Hj HI. rewrite Nat.mul_1_r.
    destruct (Hs (lo + j) s) as [s1 [E1 I1]]; auto; try lia.
    exists s1. rewrite Nat.add_succ_r. auto.
  - exists s'. split; auto. replace hi with (lo + (hi - lo)) by lia. auto.
Qed.

Lemma for_step_inv : forall St (I : nat -> St -> Prop) cnt lo hi step body s0,
  0 < step -> hi = lo + cnt * step ->
  I 0 s0 ->
  (forall j s, j < cnt -> I j s -> exists s', body (lo + j * step) s = Ok s' /\ I (S j) s') ->
  exists s', for_step lo hi step body s0 = Ok s' /\ I cnt s'.
Proof.
  intros St I cnt lo hi step body s0 Hp Hhi H0 Hs. unfold for_step.
  destruct (Nat.eqb_spec step 0); try lia.
  replace ((hi - lo + (step - 1)) / step) with cnt.
  - apply loop_inv; auto.
  - subst hi. replace (lo + cnt * step - lo) with (cnt * step) by lia.
    rewrite Nat.add_comm, Nat.div_add by lia.
    rewrite Nat.div_small; lia.
Qed.

Lemma for_step_loop : forall St cnt lo hi step (body : nat -> St -> outcome St) s0,
  0 < step -> hi = lo + cnt * step ->
  for_step lo hi step body s0 = loop cnt lo step body s0.
Proof.
  intros. unfold for_step. destruct (Nat.eqb_spec step 0); try lia.
  f_equal. subst hi. replace (lo + cnt * step - lo) with (cnt * step) by lia.
  rewrite Nat.add_comm, Nat.div_add by lia.
  rewrite Nat.div_small; lia.
Qed.

(** Loop whose iterations update disjoint sets of array elements: iteration [j] owns
    the locations [i] with [who i = j] and turns each of them into [F i]. *)
Lemma loop_who : forall T (d : T) n lo step body (l0 : list T) (who : nat -> nat) (F : nat -> T),
  (forall j l, j < n -> length l = length l0 ->
     (forall i, i < length l0 -> who i = j -> nth i l d = nth i l0 d) ->
     exists l', body (lo + j * step) l = Ok l' /\ length l' = length l0 /\
       (forall i, i < length l0 -> nth i l' d = if who i =? j then F i else nth i l d)) ->
  exists l', loop n lo step body l0 = Ok l' /\ length l' = length l0 /\
    (forall i, i < length l0 -> nth i l' d = if who i <? n then F i else nth i l0 d).
Proof.
  intros T d n lo step body l0 who F Hb.
  destruct (loop_inv (list T)
    (fun j l => length l = length l0 /\
       forall i, i < length l0 -> nth i l d = if who i <? j then F i else nth i l0 d)
    n lo step body l0) as [l' [E [HL HI]]].
  - split; auto.
  - intros j l Hj [HL HI].
    destruct (Hb j l) as [l' [E [HL' HI']]]; auto.
    + intros i Hi Hw. rewrite HI by auto. rewrite Hw.
      destruct (Nat.ltb_spec j j); auto; lia.
    + exists l'. split; auto. split; auto.
      intros i Hi. rewrite HI' by auto. rewrite HI by auto.
      destruct (Nat.eqb_spec (who i) j); destruct (Nat.ltb_spec (who i) (S j));
        destruct (Nat.ltb_spec (who i) j); auto; try lia.
  - eauto.
Qed.

Lemma for_range_who : forall T (d : T) lo hi body (l0 : list T) (who : nat -> nat) (F : nat -> T),
  (forall j l, lo <= j < hi -> length l = length l0 ->
     (forall i, i < length l0 -> who i = j -> nth i l d = nth i l0 d) ->
     exists l', body j l = Ok l' /\ length l' = length l0 /\
       (forall i, i < length l0 -> nth i l' d = if who i =? j then F i else nth i l d)) ->
  exists l', for_range lo hi body l0 = Ok l' /\ length l' = length l0 /\
    (forall i, i < length l0 ->
       nth i l' d = if (lo <=? who i) && (who i <? hi) then F i else nth i l0 d).
Proof.
  intros T d lo hi body l0 who F Hb. unfold for_range.
  destruct (loop_who T d (hi - lo) lo 1 body l0
    (fun i => if lo <=? who i then who i - lo else hi - lo) F) as [l' [E [HL HI]]].
  - intros j l Hj HL HI. rewrite Nat.mul_1_r.
    destruct (Hb (lo + j) l) as [l' [E [HL' HI']]]; auto; try lia.
    + intros i Hi Hw. apply HI; auto. rewrite Hw.
      destruct (Nat.leb_spec lo (lo + j)); lia.
    + exists l'. split; auto. split; auto. intros i Hi. rewrite HI' by auto.
      destruct (Nat.leb_spec lo (who i)).
      * destruct (Nat.eqb_spec (who i) (lo + j)); destruct (Nat.eqb_spec (who i - lo) j); auto; lia.
      * destruct (Nat.eqb_spec (who i) (lo + j)); destruct (Nat.eqb_spec (hi - lo) j); auto; lia.
  - exists l'. split; auto. split; auto. intros i Hi. rewrite HI by auto.
    destruct (Nat.leb_spec lo (who i)); simpl.
    + destruct (Nat.ltb_spec (who i - lo) (hi - lo)); destruct (Nat.ltb_spec (who i) hi); auto; lia.
    + destruct (Nat.ltb_spec (hi - lo) (hi - lo)); auto; lia.
Qed.

(** Loop that writes exactly element [j] in iteration [j]. *)
Lemma for_range_map : forall T (d : T) lo hi body (l0 : list T) (F : nat -> T),
  hi <= length l0 ->
  (forall j l, lo <= j < hi -> length l = length l0 -> nth j l d = nth j l0 d ->
     body j l = Ok (upd l j (F j))) ->
  exists l', for_range lo hi body l0 = Ok l' /\ length l' = length l0 /\
    (forall i, i < length l0 ->
       nth i l' d = if (lo <=? i) && (i <? hi) then F i else nth i l0 d).
Proof.
  intros T d lo hi body l0 F Hhi Hb.
  apply for_range_who with (who := fun i => i).
  intros j l Hj HL HI. exists (upd l j (F j)).
  split. { apply Hb; auto. apply HI; auto; lia. }
  split. { rewrite upd_length; auto. }
  intros i Hi. rewrite nth_upd.
  destruct (Nat.eqb_spec i j); simpl; auto.
  destruct (Nat.ltb_spec j (length l)); try lia. subst; auto.
Qed.

Lemma for_range_tab : forall T (d : T) hi body (l0 : list T) (F : nat -> T),
  hi = length l0 ->
  (forall j l, j < hi -> length l = length l0 -> nth j l d = nth j l0 d ->
     body j l = Ok (upd l j (F j))) ->
  for_range 0 hi body l0 = Ok (tab hi F).
Proof.
  intros. destruct (for_range_map T d 0 hi body l0 F) as [l' [E [HL HI]]]; try lia.
  - intros. apply H0; auto; lia.
  - rewrite E. f_equal. apply list_eq_tab with (d := d); try lia.
    intros. rewrite HI by lia. simpl. destruct (Nat.ltb_spec i hi); auto; lia.
Qed.

Lemma slice_ok : forall T (l : list T) lo hi, lo <= hi -> hi <= length l ->
  slice l lo hi = Ok (firstn (hi - lo) (skipn lo l)).
Proof.
  intros. unfold slice.
  destruct (Nat.leb_spec lo hi); destruct (Nat.leb_spec hi (length l)); simpl; auto; lia.
Qed.

Lemma nth_firstn_lt : forall T (l : list T) n i d, i < n -> nth i (firstn n l) d = nth i l d.
Proof.
  induction l; destruct n; destruct i; simpl; intros; auto; try lia.
  apply IHl. lia.
Qed.

Lemma nth_skipn_add : forall T (l : list T) n i d, nth i (skipn n l) d = nth (n + i) l d.
Proof.
  induction l; destruct n; simpl; intros; auto. destruct i; auto.
Qed.

Lemma nth_firstn : forall T (l : list T) n i d,
  nth i (firstn n l) d = if i <? n then nth i l d else d.
Proof.
  intros. destruct (Nat.ltb_spec i n).
  - apply nth_firstn_lt; auto.
  - apply nth_overflow. rewrite firstn_length. lia.
Qed.

Lemma slice_spec : forall T (d : T) (l : list T) lo hi, lo <= hi -> hi <= length l ->
  slice l lo hi = Ok (tab (hi - lo) (fun i => nth (lo + i) l d)).
Proof.
  intros. rewrite slice_ok by auto. f_equal.
  apply list_eq_tab with (d := d).
  - rewrite firstn_length, skipn_length. lia.
  - intros. rewrite nth_firstn_lt by auto. apply nth_skipn_add.
Qed.

Lemma splice_spec : forall T (d : T) (l s : list T) lo, lo + length s <= length l ->
  exists l', splice l lo s = Ok l' /\ length l' = length l /\
   forall i, nth i l' d = if (lo <=? i) && (i <? lo + length s) then nth (i - lo) s d else nth i l d.
Proof.
  intros. unfold splice.
  destruct (Nat.leb_spec (lo + length s) (length l)); try lia.
  eexists. split; [reflexivity|].
  split.
  { rewrite !app_length, firstn_length, skipn_length. lia. }
  intros i.
  destruct (Nat.leb_spec lo i); simpl.
  - rewrite app_nth2 by (rewrite firstn_length; lia).
    rewrite firstn_length, Nat.min_l by lia.
    destruct (Nat.ltb_spec i (lo + length s)).
    + rewrite app_nth1 by lia. auto.
    + rewrite app_nth2 by lia. rewrite nth_skipn_add. f_equal. lia.
  - rewrite app_nth1 by (rewrite firstn_length; lia). apply nth_firstn_lt. auto.
Qed.

Lemma mapM_ok : forall A B (f : A -> outcome B) (g : A -> B) l,
  (forall a, In a l -> f a = Ok (g a)) -> mapM f l = Ok (map g l).
Proof.
  induction l; simpl; intros; auto.
  rewrite H by auto. simpl. rewrite IHl by auto. auto.
Qed.

Lemma bind_ok : forall A B (m : outcome A) (k : A -> outcome B) r,
  bind m k = Ok r -> exists a, m = Ok a /\ k a = Ok r.
Proof. intros A B [a| |] k r H; simpl in H; try discriminate. eauto. Qed.

Lemma bind_assoc : forall A B D (m : outcome A) (f : A -> outcome B) (g : B -> outcome D),
  bind (bind m f) g = bind m (fun a => bind (f a) g).
Proof. intros. destruct m; auto. Qed.

Lemma loop_ext : forall St n lo step (b1 b2 : nat -> St -> outcome St) s,
  (forall j s, j < n -> b1 (lo + j * step) s = b2 (lo + j * step) s) ->
  loop n lo step b1 s = loop n lo step b2 s.
Proof.
  induction n; simpl; intros; auto.
  rewrite <- (Nat.add_0_r lo) at 1 2. pose proof (H 0 s) as H'. simpl in H'.
  rewrite H' by lia. destruct (b2 (lo + 0) s); simpl; auto.
  apply IHn. intros. pose proof (H (S j) s0) as H2. simpl in H2.
  rewrite Nat.add_assoc in H2. apply H2. lia.
Qed.

Lemma for_range_ext : forall St lo hi (b1 b2 : nat -> St -> outcome St) s,
  (forall j s, lo <= j < hi -> b1 j s = b2 j s) ->
  for_range lo hi b1 s = for_range lo hi b2 s.
Proof.
  intros. unfold for_range. apply loop_ext. intros. apply H. lia.
Qed.

Lemma loop_app : forall St n m lo step (b : nat -> St -> outcome St) s,
  loop (n + m) lo step b s = bind (loop n lo step b s) (loop m (lo + n * step) step b).
Proof.
  induction n; simpl; intros.
  - rewrite Nat.add_0_r. auto.
  - destruct (b lo s); simpl; auto. rewrite IHn. destruct (loop n (lo + step) step b a); simpl; auto.
    f_equal. lia.
Qed.

Lemma for_range_split : forall St lo mid hi (b : nat -> St -> outcome St) s,
  lo <= mid <= hi ->
  for_range lo hi b s = bind (for_range lo mid b s) (for_range mid hi b).
Proof.
  intros. unfold for_range. replace (hi - lo) with ((mid - lo) + (hi - mid)) by lia.
  rewrite loop_app. destruct (loop (mid - lo) lo 1 b s); simpl; auto. f_equal. lia.
Qed.

Lemma for_range_empty : forall St lo hi (b : nat -> St -> outcome St) s,
  hi <= lo -> for_range lo hi b s = Ok s.
Proof. intros. unfold for_range. replace (hi - lo) with 0 by lia. auto. Qed.

Lemma for_range_S : forall St lo hi (b : nat -> St -> outcome St) s,
  lo < hi -> for_range lo hi b s = bind (b lo s) (for_range (S lo) hi b).
Proof.
  intros. unfold for_range. replace (hi - lo) with (S (hi - S lo)) by lia. simpl.
  rewrite Nat.add_1_r. auto.
Qed.

Lemma for_range_last : forall St lo hi (b : nat -> St -> outcome St) s,
  lo <= hi -> for_range lo (S hi) b s = bind (for_range lo hi b s) (b hi).
Proof.
  intros. rewrite for_range_split with (mid := hi) by lia.
  destruct (for_range lo hi b s); simpl; auto.
  rewrite for_range_S by lia. destruct (b hi a); simpl; auto.
  apply for_range_empty. lia.
Qed.

Lemma while_stop : forall St f (c : St -> bool) b s, c s = false -> while_fuel f c b s = Ok s.
Proof. intros. destruct f; simpl; rewrite H; auto. Qed.

Lemma while_step : forall St f (c : St -> bool) b s, c s = true ->
  while_fuel (S f) c b s = bind (b s) (while_fuel f c b).
Proof. intros. simpl. rewrite H. auto. Qed.

(** Loop whose iterations touch disjoint sets [P j] of array elements; iteration [j]
    turns element [l] of [P j] into [F j l].  [A j] is a loop-carried accumulator. *)
Lemma loop_touch_acc : forall T (d : T) Acc n lo step
    (body : nat -> Acc * list T -> outcome (Acc * list T)) (l0 : list T)
    (A : nat -> Acc) (P : nat -> nat -> Prop) (F : nat -> nat -> T),
  (forall j j' l, j < n -> j' < n -> j <> j' -> P j l -> ~ P j' l) ->
  (forall j y, j < n -> length y = length l0 ->
     (forall l, P j l -> nth l y d = nth l l0 d) ->
     exists y', body (lo + j * step) (A j, y) = Ok (A (S j), y') /\ length y' = length l0 /\
       (forall l, P j l -> nth l y' d = F j l) /\
       (forall l, ~ P j l -> nth l y' d = nth l y d)) ->
  exists y', loop n lo step body (A 0, l0) = Ok (A n, y') /\ length y' = length l0 /\
    (forall j l, j < n -> P j l -> nth l y' d = F j l) /\
    (forall l, (forall j, j < n -> ~ P j l) -> nth l y' d = nth l l0 d).
Proof.
  intros T d Acc n lo step body l0 A P F Hd Hb.
  destruct (loop_inv (Acc * list T)
    (fun J s => J <= n /\ fst s = A J /\ length (snd s) = length l0 /\
      (forall j l, j < J -> P j l -> nth l (snd s) d = F j l) /\
      (forall l, (forall j, j < J -> ~ P j l) -> nth l (snd s) d = nth l l0 d))
    n lo step body (A 0, l0)) as [[a y] [E [_ [Ha [HL [H1 H2]]]]]].
  - simpl. repeat split; auto; try lia; intros; lia.
  - intros J [a y] HJ [HJn [Ha [HL [H1 H2]]]]. simpl in *. subst a.
    destruct (Hb J y) as [y' [E [HL' [Hv Hf]]]]; auto.
    { intros l Hl. apply H2. intros j Hj Hp. apply (Hd j J l); auto; lia. }
    exists (A (S J), y'). simpl. repeat split; auto.
    + intros j l Hj Hp. destruct (Nat.eq_dec j J).
      * subst. apply Hv; auto.
      * rewrite Hf. apply H1; auto; lia. apply (Hd j J l); auto; lia.
    + intros l Hl. rewrite Hf by (apply Hl; lia). apply H2. intros. apply Hl. lia.
  - simpl in *. subst a. exists y. auto.
Qed.

Lemma loop_touch : forall T (d : T) n lo step
    (body : nat -> list T -> outcome (list T)) (l0 : list T)
    (P : nat -> nat -> Prop) (F : nat -> nat -> T),
  (forall j j' l, j < n -> j' < n -> j <> j' -> P j l -> ~ P j' l) ->
  (forall j y, j < n -> length y = length l0 ->
     (forall l, P j l -> nth l y d = nth l l0 d) ->
     exists y', body (lo + j * step) y = Ok y' /\ length y' = length l0 /\
       (forall l, P j l -> nth l y' d = F j l) /\
       (forall l, ~ P j l -> nth l y' d = nth l y d)) ->
  exists y', loop n lo step body l0 = Ok y' /\ length y' = length l0 /\
    (forall j l, j < n -> P j l -> nth l y' d = F j l) /\
    (forall l, (forall j, j < n -> ~ P j l) -> nth l y' d = nth l l0 d).
Proof.
  intros T d n lo step body l0 P F Hd Hb.
  destruct (loop_inv (list T)
    (fun J s => J <= n /\ length s = length l0 /\
      (forall j l, j < J -> P j l -> nth l s d = F j l) /\
      (forall l, (forall j, j < J -> ~ P j l) -> nth l s d = nth l l0 d))
    n lo step body l0) as [y [E [_ [HL [H1 H2]]]]].
  - repeat split; auto; try lia; intros; lia.
  - intros J y HJ [HJn [HL [H1 H2]]].
    destruct (Hb J y) as [y' [E [HL' [Hv Hf]]]]; auto.
    { intros l Hl. apply H2. intros j Hj Hp. apply (Hd j J l); auto; lia. }
    exists y'. repeat split; auto.
    + intros j l Hj Hp. destruct (Nat.eq_dec j J).
      * subst. apply Hv; auto.
      * rewrite Hf. apply H1; auto; lia. apply (Hd j J l); auto; lia.
    + intros l Hl. rewrite Hf by (apply Hl; lia). apply H2. intros. apply Hl. lia.
  - exists y. auto.
Qed.

(** Homomorphic images of loops. *)
Definition omap {A B} (f : A -> B) (m : outcome A) : outcome B := bind m (fun a => Ok (f a)).

Lemma loop_hom : forall S1 S2 (f : S1 -> S2) n lo step b1 b2 s,
  (forall i s, b2 i (f s) = omap f (b1 i s)) ->
  loop n lo step b2 (f s) = omap f (loop n lo step b1 s).
Proof.
  induction n; simpl; intros; auto.
  rewrite H. unfold omap at 1. destruct (b1 lo s); simpl; auto.
Qed.

Lemma for_range_hom : forall S1 S2 (f : S1 -> S2) lo hi b1 b2 s,
  (forall i s, b2 i (f s) = omap f (b1 i s)) ->
  for_range lo hi b2 (f s) = omap f (for_range lo hi b1 s).
Proof. intros. unfold for_range. apply loop_hom; auto. Qed.

(** A property kept by every returning iteration holds after a returning loop. *)
Lemma loop_keeps : forall St (P : St -> Prop) n lo step (b : nat -> St -> outcome St) s s',
  (forall j t t', P t -> b j t = Ok t' -> P t') -> P s -> loop n lo step b s = Ok s' -> P s'.
Proof.
  intros St P n. induction n; intros lo step b s s' Hb Hs H; simpl in H.
  - inversion H. subst. auto.
  - apply bind_ok in H. destruct H as [t [E H]]. apply (IHn _ _ _ _ _ Hb (Hb _ _ _ Hs E) H).
Qed.

Lemma for_range_keeps : forall St (P : St -> Prop) lo hi (b : nat -> St -> outcome St) s s',
  (forall j t t', P t -> b j t = Ok t' -> P t') -> P s -> for_range lo hi b s = Ok s' -> P s'.
Proof. intros. unfold for_range in *. eapply loop_keeps; eauto. Qed.
