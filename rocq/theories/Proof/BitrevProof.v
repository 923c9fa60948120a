(** Reordering plans: digit reversal tables, interleaved and split variants,
    table-free functions. *)
From Coq Require Import List Arith Bool Lia.
From Verif Require Import Base.Outcome Base.OutcomeFacts Spec.DigitRev.
From Verif Require Import Proof.DigitRevTheory Model.Fft2 Model.FftRadix Proof.Fft2Proof.
Import ListNotations.
Open Scope outcome_scope.
Local Arguments Nat.div : simpl never.
Local Arguments Nat.modulo : simpl never.

(** * Incrementing a reversed index *)

Lemma digit_rev_incr_low : forall r p i, 1 < r -> i mod r < r - 1 ->
  digit_rev r (S p) (i + 1) = digit_rev r (S p) i + r ^ p.
Proof.
  intros. simpl.
  assert (E1 : (i + 1) / r = i / r).
  { symmetry. apply Nat.div_unique with (i mod r + 1); try lia.
    pose proof (Nat.div_mod i r). lia. }
  assert (E2 : (i + 1) mod r = i mod r + 1).
  { symmetry. apply Nat.mod_unique with (i / r); try lia.
    pose proof (Nat.div_mod i r). lia. }
  rewrite E1, E2. lia.
Qed.

Lemma digit_rev_incr_carry : forall r p i, 1 < r -> i mod r = r - 1 ->
  digit_rev r (S p) (i + 1) = digit_rev r p (i / r + 1).
Proof.
  intros. simpl.
  assert (E1 : (i + 1) / r = i / r + 1).
  { symmetry. apply Nat.div_unique with 0; try lia.
    pose proof (Nat.div_mod i r). lia. }
  assert (E2 : (i + 1) mod r = 0).
  { symmetry. apply Nat.mod_unique with (i / r + 1); try lia.
    pose proof (Nat.div_mod i r). lia. }
  rewrite E1, E2. lia.
Qed.

Lemma carry_loop : forall r p i fuel, 1 < r -> i < r ^ p - 1 -> digit_rev r p i < fuel ->
  exists k j, while_fuel fuel (fun s : nat * nat => fst s <=? snd s)
      (fun s => Ok (fst s / r, snd s - fst s)) ((r - 1) * r ^ (p - 1), digit_rev r p i) = Ok (k, j)
    /\ j + k / (r - 1) = digit_rev r p (i + 1).
Proof.
  induction p; intros i fuel Hr Hi Hf.
  - simpl in Hi. lia.
  - rewrite Nat.sub_succ, Nat.sub_0_r.
    assert (Hm : i mod r < r) by (apply Nat.mod_upper_bound; lia).
    assert (Hp : 0 < r ^ p) by (apply pow_pos; lia).
    assert (Hb := digit_rev_lt r p (i / r) ltac:(lia)).
    destruct (Nat.eq_dec (i mod r) (r - 1)) as [E|E].
    + assert (Hq : i / r < r ^ p - 1).
      { pose proof (Nat.div_mod i r ltac:(lia)). simpl in Hi. nia. }
      assert (Hp0 : 0 < p). { destruct p; [simpl in *; lia|lia]. }
      assert (EJ : digit_rev r (S p) i = (r - 1) * r ^ p + digit_rev r p (i / r)) by (simpl; rewrite E; auto).
      assert (0 < (r - 1) * r ^ p) by nia.
      destruct fuel; [lia|].
      destruct (IHp (i / r) fuel) as [k [j [Ek Ej]]]; auto; try lia.
      exists k, j. split.
      * rewrite while_step. 2:{ cbn [fst snd]. apply Nat.leb_le. lia. }
        cbn [fst snd bind]. rewrite <- Ek. f_equal. f_equal.
        -- replace p with (S (p - 1)) at 1 by lia. rewrite Nat.pow_succ_r'.
           replace ((r - 1) * (r * r ^ (p - 1))) with ((r - 1) * r ^ (p - 1) * r) by lia.
           apply Nat.div_mul. lia.
        -- rewrite EJ. lia.
      * rewrite Ej. symmetry. apply digit_rev_incr_carry; auto.
    + exists ((r - 1) * r ^ p), (digit_rev r (S p) i). split.
      * apply while_stop. cbn [fst snd]. apply Nat.leb_gt. simpl. nia.
      * rewrite (Nat.mul_comm (r - 1)), Nat.div_mul by lia.
        symmetry. apply digit_rev_incr_low; lia.
Qed.

(** * One step of a swap loop along an involution *)

Definition perm_upto {T} (d : T) (n : nat) (s : nat -> nat) (x : list T) (i : nat) (y : list T) : Prop :=
  length y = n /\
  forall l, l < n -> nth l y d = if Nat.min l (s l) <? i then nth (s l) x d else nth l x d.

Lemma perm_upto_0 : forall T (d : T) n s x, length x = n -> perm_upto d n s x 0 x.
Proof. intros. split; auto. Qed.

Lemma perm_upto_end : forall T (d : T) n s x y,
  perm_upto d n s x n y -> y = tab n (fun i => nth (s i) x d).
Proof.
  intros T d n s x y [L N]. apply list_eq_tab with (d := d); auto.
  intros i Hi. rewrite N by auto. destruct (Nat.ltb_spec (Nat.min i (s i)) n); auto; lia.
Qed.

Lemma swap_step : forall T (d : T) n s x i y,
  length x = n -> i < n ->
  (forall i, i < n -> s i < n) -> (forall i, i < n -> s (s i) = i) ->
  perm_upto d n s x i y ->
  exists y', (if i <? s i then swap y i (s i) else Ok y) = Ok y' /\ perm_upto d n s x (S i) y'.
Proof.
  intros T d n s x i y HLx Hi Hr Hinv [HL HN].
  assert (Hsi := Hr i Hi). assert (Hssi := Hinv i Hi).
  destruct (Nat.ltb_spec i (s i)).
  - destruct (swap_ok T y i (s i)) as [y' [E [L N]]]; try lia.
    exists y'. split; auto. split; [lia|].
    intros l Hl. rewrite N.
    destruct (Nat.eqb_spec l (s i)).
    + subst l. rewrite Hssi.
      destruct (Nat.ltb_spec (Nat.min (s i) i) (S i)); [|lia].
      rewrite HN by auto. destruct (Nat.ltb_spec (Nat.min i (s i)) i); auto; lia.
    + destruct (Nat.eqb_spec l i).
      * subst l. destruct (Nat.ltb_spec (Nat.min i (s i)) (S i)); [|lia].
        rewrite HN by auto. rewrite Hssi.
        destruct (Nat.ltb_spec (Nat.min (s i) i) i); auto; lia.
      * rewrite HN by auto.
        destruct (Nat.ltb_spec (Nat.min l (s l)) i); destruct (Nat.ltb_spec (Nat.min l (s l)) (S i)); auto; try lia.
        exfalso. assert (s l = i) by lia. apply n0. rewrite <- H2. symmetry. auto.
  - exists y. split; auto. split; auto. intros l Hl. rewrite HN by auto.
    destruct (Nat.ltb_spec (Nat.min l (s l)) i); destruct (Nat.ltb_spec (Nat.min l (s l)) (S i)); auto; try lia.
    assert (Nat.min l (s l) = i) by lia.
    assert (s l = l).
    { destruct (Nat.eq_dec l i); [subst l; lia|]. assert (s l = i) by lia.
      assert (l = s i) by (rewrite <- H3; symmetry; auto). lia. }
    congruence.
Qed.

(** * Table-free bit reversal *)

Lemma rev_max : forall r p, 1 < r -> digit_rev r p (r ^ p - 1) = r ^ p - 1.
Proof.
  induction p; intros Hr; simpl; auto.
  assert (Hp : 0 < r ^ p) by (apply pow_pos; lia).
  assert (E1 : (r * r ^ p - 1) / r = r ^ p - 1).
  { symmetry. apply Nat.div_unique with (r - 1); nia. }
  assert (E2 : (r * r ^ p - 1) mod r = r - 1).
  { symmetry. apply Nat.mod_unique with (r ^ p - 1); nia. }
  rewrite E1, E2, IHp by auto. nia.
Qed.

Lemma bitrevorder_ok : forall T (d : T) p (x : list T), length x = 2 ^ p ->
  bitrevorder x = Ok (tab (2 ^ p) (fun i => nth (digit_rev 2 p i) x d)).
Proof.
  intros T d p x Hx. unfold bitrevorder.
  assert (Hp : 0 < 2 ^ p) by (apply pow_pos; lia).
  destruct (Nat.eqb_spec (length x) 0); [lia|].
  destruct (for_range_inv (nat * list T)
    (fun i s => fst s = digit_rev 2 p i /\ perm_upto d (2 ^ p) (digit_rev 2 p) x i (snd s))
    0 (length x - 1)
    (fun (i : nat) (s : nat * list T) =>
      x' <- (if i <? fst s then swap (snd s) i (fst s) else Ok (snd s));;
      ' (k, j) <- bitrev_carry (length x / 2) (fst s);; Ok (j + k, x')) (0, x))
    as [[j y] [E [Ej Py]]]; try lia.
  - simpl. rewrite digit_rev_0 by lia. split; auto. apply perm_upto_0; auto.
  - intros i [j y] Hi [Ej Py]. cbn [fst snd] in *. subst j.
    destruct (swap_step T d (2 ^ p) (digit_rev 2 p) x i y) as [y' [E' P']]; auto; try lia.
    { intros. apply digit_rev_lt. lia. }
    { intros. apply digit_rev_invol; auto. }
    rewrite E'. cbn [bind].
    destruct (carry_loop 2 p i (digit_rev 2 p i + 1)) as [k [j [Ek Ejk]]]; try lia.
    assert (Ep : 0 < p). { destruct p; [simpl in *; lia|lia]. }
    unfold bitrev_carry. rewrite Hx.
    replace (2 ^ p / 2) with ((2 - 1) * 2 ^ (p - 1)).
    2:{ replace p with (S (p - 1)) at 2 by lia. rewrite Nat.pow_succ_r', (Nat.mul_comm 2), Nat.div_mul; lia. }
    rewrite Ek. cbn [bind]. eexists. split; [reflexivity|]. cbn [fst snd].
    split; auto. rewrite Nat.add_1_r in Ejk. rewrite <- Ejk.
    replace (2 - 1) with 1 by lia. rewrite Nat.div_1_r. auto.
  - rewrite E. cbn [bind]. f_equal. cbn [snd] in Py.
    apply perm_upto_end with (s := digit_rev 2 p).
    destruct Py as [L N]. split; auto.
    intros l Hl. rewrite N by auto. rewrite Hx.
    destruct (Nat.ltb_spec (Nat.min l (digit_rev 2 p l)) (2 ^ p));
      destruct (Nat.ltb_spec (Nat.min l (digit_rev 2 p l)) (2 ^ p - 1)); auto; try lia.
    assert (l = 2 ^ p - 1) by lia. subst l. rewrite rev_max; auto.
Qed.

(** * Interleaved and split variants *)

Fixpoint interleave {T} (x : list (T * T)) : list T :=
  match x with
  | [] => []
  | (a, b) :: t => a :: b :: interleave t
  end.

Lemma interleave_length : forall T (x : list (T * T)), length (interleave x) = 2 * length x.
Proof. induction x as [|[a b] t IH]; simpl; auto. rewrite IH. lia. Qed.

Lemma nth_interleave : forall T (x : list (T * T)) i d,
  nth (i * 2) (interleave x) d = fst (nth i x (d, d)) /\
  nth (i * 2 + 1) (interleave x) d = snd (nth i x (d, d)).
Proof.
  induction x as [|[a b] t IH]; intros i d.
  - destruct i; simpl; auto.
  - destruct i; simpl; auto.
Qed.

Lemma upd_interleave : forall T (x : list (T * T)) i a b,
  upd (upd (interleave x) (i * 2) a) (i * 2 + 1) b = interleave (upd x i (a, b)).
Proof.
  induction x as [|[u v] t IH]; intros i a b; destruct i; simpl; auto.
  rewrite IH. auto.
Qed.

Lemma swap_interleave : forall T (x : list (T * T)) i j,
  i <> j ->
  (x1 <- swap (interleave x) (i * 2) (j * 2) ;; swap x1 (i * 2 + 1) (j * 2 + 1))
  = omap interleave (swap x i j).
Proof.
  intros T x i j Hij.
  destruct (le_lt_dec (length x) i) as [Hi|Hi].
  { unfold swap at 1 3. rewrite (rd_ub _ (interleave x) (i * 2)), (rd_ub _ x i) by (rewrite ?interleave_length; lia). auto. }
  destruct (le_lt_dec (length x) j) as [Hj|Hj].
  { unfold swap at 1 3.
    destruct x as [|[u0 v0] xs] eqn:Ex; [simpl in *; lia|]. rewrite <- Ex in *.
    rewrite (rd_ok _ (interleave x) (i * 2) u0) by (rewrite interleave_length; lia).
    rewrite (rd_ok _ x i (u0, u0)) by lia. cbn [bind].
    rewrite (rd_ub _ (interleave x) (j * 2)), (rd_ub _ x j) by (rewrite ?interleave_length; lia). auto. }
  destruct (swap_ok T (interleave x) (i * 2) (j * 2)) as [y [Ey [Ly Ny]]]; try (rewrite interleave_length; lia).
  rewrite Ey. cbn [bind].
  rewrite interleave_length in Ly.
  destruct (swap_ok T y (i * 2 + 1) (j * 2 + 1)) as [z [Ez [Lz Nz]]]; try lia.
  rewrite Ez.
  destruct (swap_ok (T * T) x i j) as [w [Ew [Lw Nw]]]; auto.
  rewrite Ew. unfold omap. cbn [bind]. f_equal.
  destruct x as [|[u0 v0] xs] eqn:Ex; [simpl in *; lia|]. rewrite <- Ex in *.
  apply list_eq_nth with (d := u0).
  { rewrite interleave_length. lia. }
  intros l Hl. rewrite Nz, !Ny.
  destruct (Nat.Even_or_Odd l) as [[q Eq]|[q Eq]].
  - replace l with (q * 2) by lia.
    destruct (nth_interleave T w q u0) as [H1 _]. rewrite H1, Nw.
    destruct (Nat.eqb_spec (q * 2) (j * 2 + 1)); [lia|].
    destruct (Nat.eqb_spec (q * 2) (i * 2 + 1)); [lia|].
    destruct (Nat.eqb_spec (q * 2) (j * 2)); destruct (Nat.eqb_spec q j); try lia.
    + apply nth_interleave.
    + destruct (Nat.eqb_spec (q * 2) (i * 2)); destruct (Nat.eqb_spec q i); try lia; apply nth_interleave.
  - replace l with (q * 2 + 1) by lia.
    destruct (nth_interleave T w q u0) as [_ H1]. rewrite H1, Nw.
    destruct (Nat.eqb_spec (q * 2 + 1) (j * 2)); [lia|].
    destruct (Nat.eqb_spec (q * 2 + 1) (i * 2)); [lia|].
    destruct (Nat.eqb_spec (i * 2 + 1) (j * 2)); [lia|].
    destruct (Nat.eqb_spec (i * 2 + 1) (i * 2)); [lia|].
    destruct (Nat.eqb_spec (j * 2 + 1) (j * 2)); [lia|].
    destruct (Nat.eqb_spec (j * 2 + 1) (i * 2)); [lia|].
    destruct (Nat.eqb_spec (q * 2 + 1) (j * 2 + 1)); destruct (Nat.eqb_spec q j); try lia.
    + apply nth_interleave.
    + destruct (Nat.eqb_spec (q * 2 + 1) (i * 2 + 1)); destruct (Nat.eqb_spec q i); try lia; apply nth_interleave.
Qed.

Lemma bitrev_apply_interleaved_hom : forall T table (x : list (T * T)),
  bitrev_apply_interleaved table (interleave x) = omap interleave (bitrev_apply table x).
Proof.
  intros. unfold bitrev_apply_interleaved, bitrev_apply. apply for_range_hom.
  intros i s. destruct (rd table i); simpl; auto.
  destruct (Nat.ltb_spec i a); auto. apply swap_interleave. lia.
Qed.

Definition unzip {T} (x : list (T * T)) : list T * list T := (map fst x, map snd x).

Lemma swap_map : forall A B (f : A -> B) x i j, swap (map f x) i j = omap (map f) (swap x i j).
Proof.
  intros A B f x i j.
  destruct (le_lt_dec (length x) i) as [Hi|Hi].
  { unfold swap. rewrite (rd_ub _ (map f x) i), (rd_ub _ x i) by (rewrite ?map_length; lia). auto. }
  destruct (le_lt_dec (length x) j) as [Hj|Hj].
  { unfold swap. destruct x as [|x0 xs] eqn:Ex; [simpl in *; lia|]. rewrite <- Ex in *.
    rewrite (rd_ok _ (map f x) i (f x0)) by (rewrite map_length; lia).
    rewrite (rd_ok _ x i x0) by lia. cbn [bind]. rewrite (rd_ub _ (map f x) j), (rd_ub _ x j) by (rewrite ?map_length; lia). auto. }
  destruct (swap_ok A x i j) as [y [Ey [Ly Ny]]]; auto.
  destruct (swap_ok B (map f x) i j) as [z [Ez [Lz Nz]]]; try (rewrite map_length; auto).
  rewrite Ey, Ez. unfold omap. cbn [bind]. f_equal.
  destruct x as [|x0 xs] eqn:Ex; [simpl in *; lia|]. rewrite <- Ex in *.
  rewrite map_length in Lz.
  apply list_eq_nth with (d := f x0). { rewrite map_length. lia. }
  intros l Hl. rewrite Nz. rewrite !map_nth. rewrite (Ny x0).
  destruct (l =? j); auto. destruct (l =? i); auto.
Qed.

Lemma bitrev_apply_split_hom : forall T table (x : list (T * T)),
  bitrev_apply_split table (unzip x) = omap unzip (bitrev_apply table x).
Proof.
  intros. unfold bitrev_apply_split, bitrev_apply. apply for_range_hom.
  intros i s. destruct (rd table i); simpl; auto.
  destruct (Nat.ltb_spec i a); auto.
  rewrite !swap_map. unfold omap. destruct (swap s i a); simpl; auto.
Qed.

(** Table-free version on interleaved floats. *)

Lemma carry_f_sim : forall p j fuel, j < 2 ^ p - 1 -> j < fuel ->
  forall k' j',
  while_fuel fuel (fun s : nat * nat => fst s <=? snd s)
      (fun s => Ok (fst s / 2, snd s - fst s)) (2 ^ (p - 1), j) = Ok (k', j') ->
  exists m', while_fuel (2 * j + 1) (fun s : nat * nat => (2 <=? fst s) && (fst s <? snd s))
      (fun s => Ok (fst s / 2, snd s - fst s)) (2 ^ p, 2 * j + 1) = Ok (m', 2 * j' + 1) /\ m' = 2 * k'.
Proof.
  assert (G : forall p j fuel fuel2, 2 * j + 1 <= fuel2 -> j < 2 ^ p - 1 ->
    forall k' j',
    while_fuel fuel (fun s : nat * nat => fst s <=? snd s)
      (fun s => Ok (fst s / 2, snd s - fst s)) (2 ^ (p - 1), j) = Ok (k', j') ->
    exists m', while_fuel fuel2 (fun s : nat * nat => (2 <=? fst s) && (fst s <? snd s))
      (fun s => Ok (fst s / 2, snd s - fst s)) (2 ^ p, 2 * j + 1) = Ok (m', 2 * j' + 1) /\ m' = 2 * k').
  { induction p; intros j fuel fuel2 Hf2 Hj k' j' H.
    - simpl in Hj. lia.
    - rewrite Nat.sub_succ, Nat.sub_0_r in H.
      assert (Hp : 0 < 2 ^ p) by (apply pow_pos; lia).
      destruct (le_lt_dec (2 ^ p) j) as [Hc|Hc].
      + destruct fuel.
        { simpl in H. destruct (Nat.leb_spec (2 ^ p) j); [discriminate|lia]. }
        rewrite while_step in H by (cbn [fst snd]; apply Nat.leb_le; auto).
        cbn [fst snd bind] in H.
        assert (Hp1 : 0 < p). { destruct p; [simpl in *; lia|lia]. }
        assert (EP : 2 ^ p = 2 * 2 ^ (p - 1)).
        { replace p with (S (p - 1)) at 1 by lia. apply Nat.pow_succ_r'. }
        replace (2 ^ p / 2) with (2 ^ (p - 1)) in H by (rewrite EP, Nat.mul_comm, Nat.div_mul; lia).
        destruct fuel2; [lia|].
        destruct (IHp (j - 2 ^ p) fuel fuel2) with (k' := k') (j' := j') as [m' [Em Hm]]; auto; try lia.
        { simpl in Hj. lia. }
        exists m'. split; auto. rewrite while_step.
        2:{ cbn [fst snd]. simpl (2 ^ S p). apply andb_true_intro. split.
            apply Nat.leb_le. lia. apply Nat.ltb_lt. lia. }
        cbn [fst snd bind]. rewrite <- Em. f_equal. f_equal.
        * rewrite Nat.pow_succ_r', (Nat.mul_comm 2), Nat.div_mul; lia.
        * simpl. lia.
      + rewrite while_stop in H by (cbn [fst snd]; apply Nat.leb_gt; auto).
        inversion H; subst. eexists. split.
        * apply while_stop. cbn [fst snd]. simpl (2 ^ S p).
          apply andb_false_iff. right. apply Nat.ltb_ge. lia.
        * simpl. lia. }
  intros. eapply G; eauto.
Qed.

Lemma carry_f_term : forall fuel m j, j <= fuel ->
  exists s, while_fuel fuel (fun s : nat * nat => (2 <=? fst s) && (fst s <? snd s))
      (fun s => Ok (fst s / 2, snd s - fst s)) (m, j) = Ok s.
Proof.
  induction fuel; intros m j Hj.
  - eexists. apply while_stop. cbn [fst snd]. apply andb_false_iff. right. apply Nat.ltb_ge. lia.
  - destruct (andb (2 <=? m) (m <? j)) eqn:E.
    + rewrite while_step by exact E. cbn [fst snd bind]. apply IHfuel.
      apply andb_prop in E. destruct E as [E1 E2]. apply Nat.leb_le in E1. apply Nat.ltb_lt in E2. lia.
    + eexists. apply while_stop. exact E.
Qed.

Lemma swap_comm : forall T (x : list T) i j, swap x i j = swap x j i.
Proof.
  intros T x i j.
  destruct (le_lt_dec (length x) i) as [Hi|Hi]; destruct (le_lt_dec (length x) j) as [Hj|Hj].
  - unfold swap. rewrite !rd_ub by auto. auto.
  - destruct x as [|x0 xs] eqn:Ex; [simpl in *; lia|]. rewrite <- Ex in *.
    unfold swap. rewrite (rd_ok _ x j x0), (rd_ub _ x i) by auto. auto.
  - destruct x as [|x0 xs] eqn:Ex; [simpl in *; lia|]. rewrite <- Ex in *.
    unfold swap. rewrite (rd_ok _ x i x0), (rd_ub _ x j) by auto. auto.
  - destruct (swap_ok T x i j) as [y [Ey [Ly Ny]]]; auto.
    destruct (swap_ok T x j i) as [z [Ez [Lz Nz]]]; auto.
    rewrite Ey, Ez. f_equal.
    destruct x as [|x0 xs] eqn:Ex; [simpl in *; lia|]. rewrite <- Ex in *.
    apply list_eq_nth with (d := x0); try lia. intros l Hl. rewrite Ny, Nz.
    destruct (Nat.eqb_spec l i); destruct (Nat.eqb_spec l j); subst; auto.
Qed.

Lemma bitrevorder_interleaved_ok : forall T (d : T * T) p (x : list (T * T)), length x = 2 ^ p ->
  bitrevorder_interleaved (interleave x)
  = Ok (interleave (tab (2 ^ p) (fun i => nth (digit_rev 2 p i) x d))).
Proof.
  intros T d p x Hx. unfold bitrevorder_interleaved. rewrite interleave_length.
  assert (Hp : 0 < 2 ^ p) by (apply pow_pos; lia).
  replace (2 * length x / 2) with (2 ^ p) by (rewrite Nat.mul_comm, Nat.div_mul; lia).
  destruct (Nat.eq_dec p 0) as [->|Hp0].
  { simpl in Hx. destruct x as [|[a b] [|? ?]]; simpl in Hx; try lia.
    vm_compute. reflexivity. }
  set (body := fun (i : nat) (s : nat * list T) =>
     x' <- (if i <? fst s then x1 <- swap (snd s) (fst s - 1) (i - 1) ;; swap x1 (fst s) i else Ok (snd s)) ;;
     ' (m, j) <- bitrev_carry_f (2 ^ p) (fst s) ;; Ok (j + m, x')).
  destruct (loop_inv (nat * list T)
    (fun i s => exists y, snd s = interleave y /\ perm_upto d (2 ^ p) (digit_rev 2 p) x i y /\
        (i < 2 ^ p -> fst s = 2 * digit_rev 2 p i + 1)) (2 ^ p) 1 2 body (1, interleave x))
    as [[j z] [E [y [Ez [Py _]]]]].
  - exists x. simpl. split; auto. split. apply perm_upto_0; auto.
    intros. rewrite digit_rev_0 by lia. auto.
  - intros i [j z] Hi [y [Ez [Py Ej]]]. cbn [fst snd] in *. subst z. rewrite Ej by auto. clear Ej.
    destruct (swap_step (T * T) d (2 ^ p) (digit_rev 2 p) x i y) as [y' [E' P']]; auto; try lia.
    { intros. apply digit_rev_lt. lia. }
    { intros. apply digit_rev_invol; auto. }
    set (s := digit_rev 2 p i) in *.
    unfold body. cbn [fst snd].
    assert (ES : (if 1 + i * 2 <? 2 * s + 1
       then x1 <- swap (interleave y) (2 * s + 1 - 1) (1 + i * 2 - 1);; swap x1 (2 * s + 1) (1 + i * 2)
       else Ok (interleave y)) = Ok (interleave y')).
    { destruct (Nat.ltb_spec (1 + i * 2) (2 * s + 1)); destruct (Nat.ltb_spec i s); try lia.
      - replace (2 * s + 1 - 1) with (s * 2) by lia. replace (1 + i * 2 - 1) with (i * 2) by lia.
        rewrite (swap_comm T (interleave y)).
        replace (1 + i * 2) with (i * 2 + 1) by lia. replace (2 * s + 1) with (s * 2 + 1) by lia.
        transitivity (x1 <- swap (interleave y) (i * 2) (s * 2);; swap x1 (i * 2 + 1) (s * 2 + 1)).
        { destruct (swap (interleave y) (i * 2) (s * 2)); simpl; auto. apply swap_comm. }
        rewrite swap_interleave by lia. rewrite E'. auto.
      - inversion E'; auto. }
    rewrite ES. cbn [bind].
    destruct (Nat.eq_dec i (2 ^ p - 1)) as [El|El].
    + destruct (carry_f_term (2 * s + 1) (2 ^ p) (2 * s + 1)) as [[m j'] Ec]; auto.
      unfold bitrev_carry_f. rewrite Ec. cbn [bind].
      eexists. split; [reflexivity|]. exists y'. cbn [fst snd]. split; auto. split; auto. lia.
    + destruct (carry_loop 2 p i (digit_rev 2 p i + 1)) as [k [j' [Ek Ejk]]]; try lia.
      replace ((2 - 1) * 2 ^ (p - 1)) with (2 ^ (p - 1)) in Ek by lia.
      fold s in Ek.
      assert (Hs : s < 2 ^ p - 1).
      { assert (s < 2 ^ p) by (apply digit_rev_lt; lia).
        assert (s <> 2 ^ p - 1); [|lia]. intro H0.
        rewrite <- (rev_max 2 p) in H0 by lia. apply El.
        apply (digit_rev_inj 2 p); auto; lia. }
      destruct (carry_f_sim p s (s + 1) ltac:(lia) ltac:(lia) k j' Ek) as [m' [Em Hm]].
      unfold bitrev_carry_f. rewrite Em. cbn [bind].
      eexists. split; [reflexivity|]. exists y'. cbn [fst snd]. split; auto. split; auto.
      intros _. rewrite Nat.add_1_r in Ejk. rewrite <- Ejk.
      replace (2 - 1) with 1 by lia. rewrite Nat.div_1_r. lia.
  - replace (for_step 1 (2 * length x) 2 _ (1, interleave x))
      with (loop (2 ^ p) 1 2 body (1, interleave x)).
    + rewrite E. cbn [bind]. f_equal. cbn [snd] in Ez. rewrite Ez. f_equal.
      apply perm_upto_end with (s := digit_rev 2 p). auto.
    + unfold for_step. cbn [Nat.eqb]. f_equal.
      rewrite Hx. apply Nat.div_unique with 0; lia.
Qed.

(** * Digit-reversal plan *)

Lemma digitrev_make_ok : forall r p, 1 < r ->
  exists lut, digitrev_make r (r ^ p) = Ok lut /\ length lut = r ^ p /\
    (forall i, i < r ^ p - 1 -> nth i lut 0 = digit_rev r p i) /\
    nth (r ^ p - 1) lut 0 = 0.
Proof.
  intros r p Hr. unfold digitrev_make.
  assert (Hp : 0 < r ^ p) by (apply pow_pos; lia).
  destruct (Nat.eqb_spec (r ^ p) 0); [lia|].
  destruct (for_range_inv (nat * list nat)
    (fun i s => fst s = digit_rev r p i /\ length (snd s) = r ^ p /\
       forall l, l < r ^ p -> nth l (snd s) 0 = if l <? i then digit_rev r p l else 0)
    0 (r ^ p - 1)
    (fun (i : nat) (s : nat * list nat) =>
      lut <- wr (snd s) i (fst s);;
      ' (k, j) <- digitrev_carry r ((r - 1) * r ^ p / r) (fst s);; Ok (j + k / (r - 1), lut))
    (0, repeat 0 (r ^ p))) as [[j lut] [E [Ej [L N]]]]; try lia.
  - simpl. rewrite digit_rev_0, repeat_length by lia. repeat split; auto.
    intros. apply nth_repeat.
  - intros i [j y] Hi [Ej [L N]]. cbn [fst snd] in *. subst j.
    rewrite wr_ok by lia. cbn [bind].
    destruct (carry_loop r p i (digit_rev r p i + 1)) as [k [j [Ek Ejk]]]; try lia.
    assert (Ep : 0 < p). { destruct p; [simpl in *; lia|lia]. }
    unfold digitrev_carry.
    replace ((r - 1) * r ^ p / r) with ((r - 1) * r ^ (p - 1)).
    2:{ replace p with (S (p - 1)) at 2 by lia. rewrite Nat.pow_succ_r'.
        replace ((r - 1) * (r * r ^ (p - 1))) with ((r - 1) * r ^ (p - 1) * r) by lia.
        rewrite Nat.div_mul; lia. }
    rewrite Ek. cbn [bind]. eexists. split; [reflexivity|]. cbn [fst snd].
    rewrite Nat.add_1_r in Ejk. split; auto. split. { rewrite upd_length; auto. }
    intros l Hl. rewrite nth_upd.
    destruct (Nat.ltb_spec i (length y)); [|lia].
    destruct (Nat.eqb_spec l i); cbn [andb].
    + subst l. destruct (Nat.ltb_spec i (S i)); auto; lia.
    + rewrite N by auto. destruct (Nat.ltb_spec l i); destruct (Nat.ltb_spec l (S i)); auto; lia.
  - rewrite E. cbn [bind]. exists lut. cbn [fst snd] in *. split; auto. split; auto. split.
    + intros i Hi. rewrite N by lia. destruct (Nat.ltb_spec i (r ^ p - 1)); auto; lia.
    + rewrite N by lia. destruct (Nat.ltb_spec (r ^ p - 1) (r ^ p - 1)); auto; lia.
Qed.

Lemma digitrev_apply_ok : forall T (d : T) r p lut x, 1 < r -> length x = r ^ p ->
  digitrev_make r (r ^ p) = Ok lut ->
  digitrev_apply lut x = Ok (tab (r ^ p) (fun i => nth (digit_rev r p i) x d)).
Proof.
  intros T d r p lut x Hr Hx Hm.
  destruct (digitrev_make_ok r p Hr) as [lut' [E [L [N1 N2]]]].
  assert (lut' = lut) by congruence. subst lut'.
  assert (Hp : 0 < r ^ p) by (apply pow_pos; lia).
  unfold digitrev_apply. rewrite L.
  destruct (for_range_inv (list T)
    (fun i y => perm_upto d (r ^ p) (digit_rev r p) x i y) 0 (r ^ p)
    (fun i x => t <- rd lut i ;; if i <? t then swap x i t else Ok x) x) as [y [Ey Py]]; try lia.
  - apply perm_upto_0; auto.
  - intros i y Hi Py.
    rewrite rd_ok with (d := 0) by lia. cbn [bind].
    destruct (swap_step T d (r ^ p) (digit_rev r p) x i y) as [y' [E' P']]; auto; try lia.
    { intros. apply digit_rev_lt. lia. }
    { intros. apply digit_rev_invol; auto. lia. }
    exists y'. split; auto. rewrite <- E'.
    destruct (Nat.eq_dec i (r ^ p - 1)).
    + subst i. rewrite N2, rev_max by auto.
      destruct (Nat.ltb_spec (r ^ p - 1) 0); [lia|].
      destruct (Nat.ltb_spec (r ^ p - 1) (r ^ p - 1)); auto; lia.
    + rewrite N1 by lia. auto.
  - rewrite Ey. f_equal. apply perm_upto_end with (s := digit_rev r p). auto.
Qed.
