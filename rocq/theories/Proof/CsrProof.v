(** Proofs about the sparse matrix. The matrix is shown to represent a list of rows,
    each a list of (column, value) entries. *)
From Coq Require Import List Arith Bool Lia.
From Verif Require Import Base.Outcome Base.OutcomeFacts Base.Alias Model.Csr Spec.Sparse.
Import ListNotations.

Section P.
Variable T : Type.
Variable zero : T.
Notation row := (list (nat * T)).

Definition off (rs : list row) (r : nat) : nat := length (concat (firstn r rs)).

(** m represents the rows rs. *)
Definition rep (m : csr T) (rs : list row) : Prop :=
  length rs = c_rows m /\ c_values m = map snd (concat rs) /\ c_colidx m = map fst (concat rs) /\
  c_rowidx m = tab (c_rows m + 1) (off rs).

Lemma firstn_succ : forall A (l : list A) n d, n < length l -> firstn (S n) l = firstn n l ++ [nth n l d].
Proof.
  intros A l. induction l; intros n d H; simpl in *; [lia|]. destruct n; simpl; auto. f_equal. apply IHl. lia.
Qed.

Lemma split_at : forall A (l : list A) n d, n < length l -> l = firstn n l ++ nth n l d :: skipn (S n) l.
Proof.
  intros A l. induction l; intros n d H; simpl in *; [lia|]. destruct n; simpl; auto. f_equal. apply IHl. lia.
Qed.

Lemma concat_split : forall (rs : list row) r, r < length rs ->
  concat rs = concat (firstn r rs) ++ nth r rs [] ++ concat (skipn (S r) rs).
Proof.
  intros rs r H. rewrite (split_at _ rs r [] H) at 1. rewrite concat_app. reflexivity.
Qed.

Lemma off_S : forall rs r, r < length rs -> off rs (S r) = off rs r + length (nth r rs []).
Proof.
  intros rs r H. unfold off. rewrite (firstn_succ _ rs r []) by auto. rewrite concat_app, app_length. simpl.
  rewrite app_nil_r. auto.
Qed.

Lemma off_0 : forall rs, off rs 0 = 0.
Proof. reflexivity. Qed.

Lemma off_all : forall rs, off rs (length rs) = length (concat rs).
Proof. intros. unfold off. rewrite firstn_all. auto. Qed.

Lemma nth_concat : forall rs r k d, r < length rs -> k < length (nth r rs []) ->
  nth (off rs r + k) (concat rs) d = nth k (nth r rs []) d.
Proof.
  intros rs r k d Hr Hk. rewrite (concat_split rs r Hr). rewrite app_nth2 by (unfold off; lia).
  rewrite app_nth1 by (unfold off; lia). f_equal. unfold off. lia.
Qed.

Lemma off_mono : forall rs r r', r <= r' -> r' <= length rs -> off rs r <= off rs r'.
Proof.
  intros rs r r' H. induction H; intros H'; auto. rewrite off_S by lia. specialize (IHle ltac:(lia)). lia.
Qed.

Lemma off_bound : forall rs r k, r < length rs -> k < length (nth r rs []) -> off rs r + k < length (concat rs).
Proof.
  intros rs r k Hr Hk. rewrite <- off_all. pose proof (off_mono rs (S r) (length rs) ltac:(lia) ltac:(lia)).
  rewrite off_S in H by auto. lia.
Qed.

Lemma rep_rowidx : forall m rs r, rep m rs -> r <= c_rows m -> rd (c_rowidx m) r = Ok (off rs r).
Proof.
  intros m rs r [H1 [H2 [H3 H4]]] Hr. rewrite H4. rewrite (rd_ok _ _ r 0) by (rewrite tab_length; lia).
  rewrite nth_tab by lia. auto.
Qed.

Lemma rep_col : forall m rs r k d, rep m rs -> r < c_rows m -> k < length (nth r rs []) ->
  rd (c_colidx m) (off rs r + k) = Ok (fst (nth k (nth r rs []) d)).
Proof.
  intros m rs r k d [H1 [H2 [H3 H4]]] Hr Hk. rewrite H3.
  rewrite (rd_ok _ _ _ (fst d)) by (rewrite map_length; apply off_bound; auto; lia).
  rewrite map_nth, nth_concat by (auto; lia). auto.
Qed.

Lemma rep_val : forall m rs r k d, rep m rs -> r < c_rows m -> k < length (nth r rs []) ->
  rd (c_values m) (off rs r + k) = Ok (snd (nth k (nth r rs []) d)).
Proof.
  intros m rs r k d [H1 [H2 [H3 H4]]] Hr Hk. rewrite H2.
  rewrite (rd_ok _ _ _ (snd d)) by (rewrite map_length; apply off_bound; auto; lia).
  rewrite map_nth, nth_concat by (auto; lia). auto.
Qed.

(** ** Element read *)
Definition lookup (l : row) (c : nat) : T :=
  match find (fun p => fst p =? c) l with Some p => snd p | None => zero end.

Lemma find_app : forall A (f : A -> bool) l1 l2, find f (l1 ++ l2) = match find f l1 with Some a => Some a | None => find f l2 end.
Proof. intros A f l1 l2. induction l1; simpl; auto. destruct (f a); auto. Qed.

Lemma csr_get_ok : forall m rs r c, rep m rs -> r < c_rows m ->
  csr_get zero m r c = Ok (lookup (nth r rs []) c).
Proof.
  intros m rs r c Hm Hr. unfold csr_get.
  assert (HL : length rs = c_rows m) by apply Hm.
  rewrite (rep_rowidx m rs r), (rep_rowidx m rs (r + 1)) by (auto; lia). cbn [bind].
  rewrite Nat.add_1_r, off_S by lia. set (l := nth r rs []).
  destruct (for_range_inv _ (fun j s => s = option_map snd (find (fun p => fst p =? c) (firstn (j - off rs r) l)))
    (off rs r) (off rs r + length l) (fun i found =>
    match found with
    | Some v => Ok (Some v)
    | None =>
      c' <- rd (c_colidx m) i ;;
      if c' =? c then v <- rd (c_values m) i ;; Ok (Some v) else Ok None
    end) None) as [s [E H]].
  - lia.
  - rewrite Nat.sub_diag. reflexivity.
  - intros j s Hj Hs.
    assert (Ej : j = off rs r + (j - off rs r)) by lia. set (k := j - off rs r) in *.
    assert (Hk : k < length l) by lia.
    replace (S j - off rs r) with (S k) by lia. rewrite (firstn_succ _ l k (0, zero)) by auto. rewrite find_app.
    destruct (find (fun p => fst p =? c) (firstn k l)) eqn:F; simpl in Hs; subst s.
    + eexists. split; [reflexivity|]. reflexivity.
    + rewrite Ej, (rep_col m rs r k (0, zero)), (rep_val m rs r k (0, zero)) by auto. cbn [bind]. simpl find.
      unfold l. destruct (fst (nth k (nth r rs []) (0, zero)) =? c); eexists; (split; [reflexivity|]); reflexivity.
  - rewrite E. cbn [bind]. rewrite H. replace (off rs r + length l - off rs r) with (length l) by lia.
    rewrite firstn_all. unfold lookup. destruct (find _ l); reflexivity.
Qed.

(** ** Insert *)
Fixpoint lead (l : row) (c : nat) : nat :=
  match l with [] => 0 | p :: t => if fst p <? c then S (lead t c) else 0 end.
Definition row_ins (l : row) (c : nat) (v : T) : row := firstn (lead l c) l ++ (c, v) :: skipn (lead l c) l.

Lemma lead_le : forall l c, lead l c <= length l.
Proof. induction l; simpl; intros; auto. destruct (fst a <? c); [specialize (IHl c)|]; lia. Qed.

Lemma lead_lt : forall l c k d, k < lead l c -> fst (nth k l d) < c.
Proof.
  induction l; simpl; intros c k d H; [lia|]. destruct (Nat.ltb_spec (fst a) c); [|lia].
  destruct k; simpl; auto. apply IHl. lia.
Qed.

Lemma lead_at : forall l c d, lead l c < length l -> c <= fst (nth (lead l c) l d).
Proof.
  induction l; simpl; intros c d H; [lia|]. destruct (Nat.ltb_spec (fst a) c); simpl; auto. apply IHl. lia.
Qed.

Lemma scan_ok : forall m rs r c, rep m rs -> r < c_rows m ->
  csr_scan (c_colidx m) (off rs r) (off rs r + length (nth r rs [])) c = Ok (off rs r + lead (nth r rs []) c).
Proof.
  intros m rs r c Hm Hr. unfold csr_scan. set (l := nth r rs []). set (o := off rs r).
  set (test := fun idx => if idx <? o + length l then c' <- rd (c_colidx m) idx ;; Ok (c' <? c) else Ok false).
  assert (TT : forall k, k <= lead l c -> test (o + k) = Ok (k <? lead l c)).
  { intros k Hk. unfold test. pose proof (lead_le l c).
    destruct (Nat.ltb_spec (o + k) (o + length l)).
    - unfold o. rewrite (rep_col m rs r k (0, zero)) by (auto; fold l; lia). cbn [bind]. f_equal. fold l.
      destruct (Nat.ltb_spec k (lead l c)).
      + apply Nat.ltb_lt. apply lead_lt; auto.
      + assert (k = lead l c) by lia. subst k. apply Nat.ltb_ge. apply lead_at. lia.
    - assert (k = lead l c) by lia. rewrite H1, Nat.ltb_irrefl. auto. }
  assert (G : forall n fuel k, k + n = lead l c -> n <= fuel ->
     while_fuel fuel (fun s : nat * bool => snd s) (fun s => go <- test (fst s + 1) ;; Ok (fst s + 1, go)) (o + k, k <? lead l c)
     = Ok (o + lead l c, false)).
  { intros n. induction n; intros fuel k Hk Hf.
    - assert (k = lead l c) by lia. subst k. rewrite Nat.ltb_irrefl. apply while_stop. auto.
    - destruct fuel; [lia|]. assert (Hb : (k <? lead l c) = true) by (apply Nat.ltb_lt; lia).
      rewrite while_step by (simpl; auto). simpl fst. rewrite <- Nat.add_assoc, TT by lia. cbn [bind].
      apply IHn; lia. }
  fold o. pose proof (TT 0 ltac:(lia)) as T0. rewrite Nat.add_0_r in T0.
  change (go <- test o ;; '(idx, _) <- while_fuel (o + length l - o) (fun s : nat * bool => snd s)
    (fun s => go <- test (fst s + 1) ;; Ok (fst s + 1, go)) (o, go) ;; Ok idx = Ok (o + lead l c)).
  rewrite T0. cbn [bind]. pose proof (G (lead l c) (o + length l - o) 0) as G0. rewrite Nat.add_0_r in G0.
  rewrite G0; auto. pose proof (lead_le l c). lia.
Qed.

Lemma upd_split : forall A (l : list A) n v, n < length l -> upd l n v = firstn n l ++ v :: skipn (S n) l.
Proof.
  intros A l. induction l; intros n v H; simpl in *; [lia|]. destruct n; simpl; auto. f_equal. apply IHl. lia.
Qed.

Lemma firstn_upd : forall A (l : list A) n i v, firstn i (upd l n v) = upd (firstn i l) n v.
Proof.
  intros A l. induction l; intros n i v; simpl. { destruct i; reflexivity. }
  destruct n, i; simpl; auto. f_equal. auto.
Qed.

Lemma concat_insert : forall rs r k (e : nat * T), r < length rs -> k <= length (nth r rs []) ->
  concat (upd rs r (firstn k (nth r rs []) ++ e :: skipn k (nth r rs []))) =
  firstn (off rs r + k) (concat rs) ++ e :: skipn (off rs r + k) (concat rs).
Proof.
  intros rs r k e Hr Hk. rewrite upd_split by auto. rewrite concat_app. simpl concat.
  rewrite (concat_split rs r Hr). set (l := nth r rs []). fold l in Hk.
  rewrite firstn_app, skipn_app. unfold off.
  rewrite (firstn_all2 (concat (firstn r rs))) by lia. rewrite (skipn_all2 (concat (firstn r rs))) by lia.
  replace (length (concat (firstn r rs)) + k - length (concat (firstn r rs))) with k by lia.
  rewrite firstn_app, skipn_app. replace (k - length l) with 0 by lia. simpl. rewrite app_nil_r.
  rewrite <- !app_assoc. simpl. auto.
Qed.

Lemma off_upd : forall rs r (e : nat * T) k i, r < length rs -> k <= length (nth r rs []) -> i <= length rs ->
  off (upd rs r (firstn k (nth r rs []) ++ e :: skipn k (nth r rs []))) i = off rs i + (if r <? i then 1 else 0).
Proof.
  intros rs r e k i Hr Hk Hi. unfold off. rewrite firstn_upd. destruct (Nat.ltb_spec r i).
  - assert (N : nth r (firstn i rs) [] = nth r rs []) by (apply nth_firstn_lt; auto).
    assert (L : r < length (firstn i rs)) by (rewrite firstn_length; lia).
    rewrite <- N. rewrite concat_insert by (auto; rewrite N; auto).
    rewrite app_length. simpl. rewrite <- (firstn_skipn (off (firstn i rs) r + k) (concat (firstn i rs))) at 3.
    rewrite app_length. lia.
  - rewrite Nat.add_0_r. f_equal. f_equal.
    apply (list_eq_nth _ []). { apply upd_length. } intros j Hj. rewrite upd_length, firstn_length in Hj.
    apply nth_upd_neq. lia.
Qed.

Lemma vec_insert_ok : forall A B (f : A -> B) (l : list A) i a, i <= length l ->
  vec_insert (map f l) i (f a) = Ok (map f (firstn i l ++ a :: skipn i l)).
Proof.
  intros A B f l i a H. unfold vec_insert. rewrite map_length. apply Nat.leb_le in H. rewrite H.
  rewrite map_app. simpl. rewrite firstn_map, skipn_map. auto.
Qed.

Lemma csr_insert_ok : forall m rs r c v, rep m rs -> r < c_rows m ->
  exists m', csr_insert m r c v = Ok m' /\ rep m' (upd rs r (row_ins (nth r rs []) c v)) /\
    c_rows m' = c_rows m /\ c_cols m' = c_cols m.
Proof.
  intros m rs r c v Hm Hr. assert (HL : length rs = c_rows m) by apply Hm. unfold csr_insert.
  rewrite (rep_rowidx m rs r), (rep_rowidx m rs (r + 1)) by (auto; lia). cbn [bind].
  rewrite Nat.add_1_r, off_S by lia. rewrite (scan_ok m rs r c Hm Hr). cbn [bind].
  set (l := nth r rs []). set (k := lead l c). assert (Hk : k <= length l) by apply lead_le.
  destruct Hm as [H1 [H2 [H3 H4]]]. rewrite H2, H3, H4.
  assert (HB : off rs r + k <= length (concat rs)).
  { rewrite <- off_all. pose proof (off_mono rs (S r) (length rs) ltac:(lia) ltac:(lia)).
    rewrite off_S in H by lia. fold l in H. lia. }
  pose proof (vec_insert_ok _ _ snd (concat rs) (off rs r + k) (c, v) HB) as V1.
  pose proof (vec_insert_ok _ _ fst (concat rs) (off rs r + k) (c, v) HB) as V2.
  cbn [fst snd] in V1, V2. rewrite V1. cbn [bind]. rewrite V2. cbn [bind]. clear V1 V2.
  destruct (for_range_map nat 0 (S r) (c_rows m + 1) (fun i rowidx => v0 <- rd rowidx i ;; wr rowidx i (v0 + 1))
    (tab (c_rows m + 1) (off rs)) (fun i => off rs i + 1)) as [y [E [L V]]].
  - rewrite tab_length. lia.
  - intros j y Hj Hy Hn. rewrite tab_length in Hy. rewrite (rd_ok _ y j 0) by lia. cbn [bind].
    rewrite wr_ok by lia. rewrite Hn, nth_tab by lia. auto.
  - rewrite E. cbn [bind]. eexists. split; [reflexivity|]. split; [|auto].
    unfold rep, row_ins. fold l k. simpl. rewrite upd_length, <- concat_insert by (fold l; auto; lia).
    repeat split; auto. rewrite tab_length in L. apply list_eq_tab with (d := 0); auto.
    intros i Hi. rewrite V by (rewrite tab_length; lia). rewrite nth_tab by lia.
    fold l. rewrite off_upd by (fold l; auto; lia).
    assert (B1 : (i <? c_rows m + 1) = true) by (apply Nat.ltb_lt; lia). rewrite B1, andb_true_r.
    change (S r <=? i) with (r <? i). destruct (r <? i); lia.
Qed.

Lemma lookup_ins : forall l c v c', lookup (row_ins l c v) c' = if c' =? c then v else lookup l c'.
Proof.
  intros l c v c'. unfold lookup, row_ins. rewrite find_app. simpl.
  assert (NF : forall n, n <= lead l c -> forall c', c <= c' -> find (fun p => fst p =? c') (firstn n l) = None).
  { intros n Hn c'' Hc. destruct (find _ (firstn n l)) eqn:F; auto. apply find_some in F. destruct F as [F1 F2].
    apply Nat.eqb_eq in F2. apply In_nth with (d := (0, zero)) in F1. destruct F1 as [k [Hk E]].
    rewrite firstn_length in Hk. rewrite nth_firstn_lt in E by lia.
    pose proof (lead_lt l c k (0, zero) ltac:(lia)). rewrite E in H. lia. }
  destruct (Nat.eqb_spec c' c).
  - subst. rewrite NF by auto. rewrite Nat.eqb_refl. reflexivity.
  - rewrite (proj2 (Nat.eqb_neq c c')) by auto.
    rewrite <- find_app, firstn_skipn. reflexivity.
Qed.

(** Columns of each row sorted and in range. *)
Definition sorted_row (n : nat) (l : row) : Prop :=
  (forall i j d, i <= j -> j < length l -> fst (nth i l d) <= fst (nth j l d)) /\
  (forall p, In p l -> fst p < n).

Lemma sorted_ins : forall n l c v, c < n -> sorted_row n l -> sorted_row n (row_ins l c v).
Proof.
  intros n l c v Hc [S1 S2]. unfold row_ins. set (k := lead l c).
  assert (Hk : k <= length l) by apply lead_le. split.
  - intros i j d Hij Hj. rewrite app_length in Hj. simpl in Hj. rewrite firstn_length, skipn_length in Hj.
    assert (G : forall a, a < length l + 1 -> nth a (firstn k l ++ (c, v) :: skipn k l) d =
      if a <? k then nth a l d else if a =? k then (c, v) else nth (a - 1) l d).
    { intros a Ha. destruct (Nat.ltb_spec a k).
      - rewrite app_nth1 by (rewrite firstn_length; lia). apply nth_firstn_lt; auto.
      - rewrite app_nth2 by (rewrite firstn_length; lia). rewrite firstn_length, Nat.min_l by lia.
        destruct (Nat.eqb_spec a k). { subst. rewrite Nat.sub_diag. auto. }
        replace (a - k) with (S (a - k - 1)) by lia. simpl. rewrite nth_skipn_add. f_equal. lia. }
    rewrite !G by lia.
    assert (A1 : forall a, a < k -> fst (nth a l d) < c) by (intros; apply lead_lt; auto).
    assert (A2 : forall a, k <= a < length l -> c <= fst (nth a l d)).
    { intros a Ha. pose proof (lead_at l c d). fold k in H. specialize (S1 k a d). lia. }
    destruct (Nat.ltb_spec i k); destruct (Nat.ltb_spec j k); try lia.
    + apply S1; lia.
    + destruct (Nat.eqb_spec j k); simpl. { specialize (A1 i H). lia. } apply S1; lia.
    + destruct (Nat.eqb_spec i k); destruct (Nat.eqb_spec j k); simpl; try lia.
      * apply A2. lia.
      * apply S1; lia.
  - intros p Hp. apply in_app_or in Hp. destruct Hp as [Hp|[Hp|Hp]].
    + apply S2. rewrite <- (firstn_skipn k l). apply in_or_app. auto.
    + subst. auto.
    + apply S2. rewrite <- (firstn_skipn k l). apply in_or_app. auto.
Qed.


Definition good (m : csr T) (rs : list row) : Prop :=
  rep m rs /\ forall r, r < c_rows m -> sorted_row (c_cols m) (nth r rs []).

Lemma good_wf : forall m rs, good m rs -> csr_wf m.
Proof.
  intros m rs [[H1 [H2 [H3 H4]]] S]. unfold csr_wf. rewrite H2, H3, H4. rewrite tab_length, !map_length.
  split; [auto|]. rewrite !nth_tab by lia. split; [auto|]. split. { rewrite <- H1. apply off_all. }
  split; [auto|]. split.
  - intros r Hr. rewrite !nth_tab by lia. apply off_mono; lia.
  - intros r i j Hr Hi Hj. rewrite !nth_tab in * by lia. rewrite Nat.add_1_r, off_S in Hj by lia.
    replace 0 with (fst (0, zero)) by auto. rewrite !map_nth.
    set (o := off rs r) in *. replace i with (o + (i - o)) by lia. replace j with (o + (j - o)) by lia.
    unfold o. rewrite !nth_concat by (fold o; lia). fold o. destruct (S r Hr) as [S1 S2]. split.
    + apply S1; lia.
    + apply S2. apply nth_In. lia.
Qed.

Lemma nth_upd_row : forall (rs : list row) r l i, r < length rs ->
  nth i (upd rs r l) [] = if i =? r then l else nth i rs [].
Proof.
  intros. rewrite nth_upd. apply Nat.ltb_lt in H. rewrite H, andb_true_r. auto.
Qed.

Lemma good_insert : forall m rs r c v, good m rs -> r < c_rows m -> c < c_cols m ->
  exists m', csr_insert m r c v = Ok m' /\ good m' (upd rs r (row_ins (nth r rs []) c v)) /\
    c_rows m' = c_rows m /\ c_cols m' = c_cols m.
Proof.
  intros m rs r c v [R S] Hr Hc. destruct (csr_insert_ok m rs r c v R Hr) as [m' [E [R' [E1 E2]]]].
  exists m'. split; auto. split; [|auto]. split; auto. rewrite E1, E2. intros i Hi.
  assert (length rs = c_rows m) by apply R. rewrite nth_upd_row by lia.
  destruct (Nat.eqb_spec i r); auto. subst. apply sorted_ins; auto.
Qed.

Lemma off_empty : forall n r, off (repeat [] n) r = 0.
Proof.
  intros n r. unfold off. revert r. induction n; intros r; simpl. { destruct r; auto. }
  destruct r; simpl; auto.
Qed.

Lemma good_empty : forall rows cols, good (csr_empty rows cols) (repeat [] rows).
Proof.
  intros rows cols. split.
  - unfold rep, csr_empty. simpl. rewrite repeat_length.
    assert (concat (repeat (@nil (nat * T)) rows) = []) by (induction rows; simpl; auto).
    rewrite H. repeat split; auto. apply list_eq_tab with (d := 0). { apply repeat_length. }
    intros i Hi. rewrite off_empty. rewrite nth_repeat. auto.
  - intros r Hr. simpl. rewrite nth_repeat. split; simpl; intros; try lia; try contradiction.
Qed.


Lemma inserts_history : forall rows cols ops,
  (forall r c v, In (r, c, v) ops -> r < rows /\ c < cols) ->
  exists m, run_inserts ops (csr_empty rows cols) = Ok m /\ csr_wf m /\ length (c_values m) = length ops /\
    forall r c, r < rows -> csr_get zero m r c = Ok (last_insert zero ops r c).
Proof.
  intros rows cols ops Hops.
  assert (G : exists m rs, run_inserts ops (csr_empty rows cols) = Ok m /\ good m rs /\ c_rows m = rows /\ c_cols m = cols /\
    length (concat rs) = length ops /\
    forall r c, r < rows -> lookup (nth r rs []) c = last_insert zero ops r c).
  { induction ops as [|[[r c] v] ops IH] using rev_ind.
    - exists (csr_empty rows cols), (repeat [] rows). split; [reflexivity|]. split; [apply good_empty|].
      split; [reflexivity|]. split; [reflexivity|]. split.
      + assert (concat (repeat (@nil (nat * T)) rows) = []) by (clear; induction rows; simpl; auto). rewrite H. auto.
      + intros r c Hr. rewrite nth_repeat. reflexivity.
    - destruct IH as [m [rs [E [Gd [E1 [E2 [EL LK]]]]]]].
      { intros. apply Hops with v0. apply in_or_app. auto. }
      destruct (Hops r c v) as [Hr Hc]. { apply in_or_app. simpl. auto. }
      destruct (good_insert m rs r c v Gd) as [m' [E' [Gd' [E1' E2']]]]; try lia.
      assert (HL : length rs = c_rows m) by apply Gd.
      exists m', (upd rs r (row_ins (nth r rs []) c v)).
      split. { unfold run_inserts in *. rewrite fold_left_app. simpl. rewrite E. auto. }
      split; auto. split; [lia|]. split; [lia|]. split.
      { unfold row_ins. rewrite concat_insert by (try apply lead_le; lia). rewrite !app_length. simpl.
        rewrite <- EL. pose proof (f_equal (@length _) (firstn_skipn (off rs r + lead (nth r rs []) c) (concat rs))) as FS.
        rewrite app_length in FS. lia. }
      intros r' c' Hr'. unfold last_insert. rewrite fold_left_app. simpl. fold (last_insert zero ops r' c').
      rewrite nth_upd_row by lia. destruct (Nat.eqb_spec r' r).
      + subst. rewrite lookup_ins. simpl. destruct (c' =? c); auto.
      + simpl. auto. }
  destruct G as [m [rs [E [Gd [E1 [E2 [EL LK]]]]]]]. exists m. split; auto. split. { eapply good_wf; eauto. }
  split. { destruct Gd as [[_ [V _]] _]. rewrite V, map_length. auto. }
  intros r c Hr. rewrite (csr_get_ok m rs r c). { rewrite LK; auto. } apply Gd. lia.
Qed.

(** ** Construction from a dense matrix *)
Section Build.
Variables (rows cols : nat) (mat : list (list T)) (pred : nat -> nat -> T -> bool).
Hypothesis Hrows : length mat = rows.
Hypothesis Hcols : forall r, In r mat -> length r = cols.

Definition kept (r j : nat) : row :=
  flat_map (fun c => if pred r c (elem zero mat r c) then [(c, elem zero mat r c)] else []) (seq 0 j).

Lemma kept_S : forall r j, kept r (S j) = kept r j ++ (if pred r j (elem zero mat r j) then [(j, elem zero mat r j)] else []).
Proof. clear Hrows Hcols.
  intros. unfold kept. rewrite seq_S, flat_map_app. simpl. rewrite app_nil_r. auto.
Qed.

Lemma kept_mono : forall r j j', j <= j' -> length (kept r j) <= length (kept r j').
Proof. clear Hrows Hcols. intros r j j' H. induction H; auto. rewrite kept_S, app_length. lia. Qed.

Definition krows (r : nat) : list row := tab r (fun r => kept r cols).

Lemma tab_S : forall A n (f : nat -> A), tab (S n) f = tab n f ++ [f n].
Proof. intros. unfold tab. rewrite seq_S, map_app. auto. Qed.

Lemma krows_S : forall r, concat (krows (S r)) = concat (krows r) ++ kept r cols.
Proof. clear Hrows Hcols. intros. unfold krows. rewrite tab_S, concat_app. simpl. rewrite app_nil_r. auto. Qed.

Lemma krows_mono : forall r r', r <= r' -> length (concat (krows r)) <= length (concat (krows r')).
Proof. clear Hrows Hcols. intros r r' H. induction H; auto. rewrite krows_S, app_length. lia. Qed.

Lemma mat_row : forall r, r < rows -> rd mat r = Ok (nth r mat []) /\ length (nth r mat []) = cols.
Proof.
  intros r Hr. split. { apply rd_ok. lia. } apply Hcols. apply nth_In. lia.
Qed.

Lemma count_ok : for_range 0 rows (fun r count =>
    row <- rd mat r ;;
    for_range 0 cols (fun c count =>
      v <- rd row c ;; Ok (if pred r c v then count + 1 else count)) count) 0 = Ok (length (concat (krows rows))).
Proof.
  destruct (for_range_inv _ (fun r n => n = length (concat (krows r))) 0 rows (fun r count =>
    row <- rd mat r ;;
    for_range 0 cols (fun c count =>
      v <- rd row c ;; Ok (if pred r c v then count + 1 else count)) count) 0) as [n [E H]]; auto; try lia.
  - intros r n Hr Hn. destruct (mat_row r ltac:(lia)) as [M1 M2]. rewrite M1. cbn [bind].
    destruct (for_range_inv _ (fun j n => n = length (concat (krows r)) + length (kept r j)) 0 cols
      (fun c count => v <- rd (nth r mat []) c ;; Ok (if pred r c v then count + 1 else count)) n) as [n' [E' H']]; try lia.
    + simpl. lia.
    + intros j k Hj Hk. rewrite (rd_ok _ _ j zero) by lia. cbn [bind]. eexists. split; [reflexivity|].
      rewrite kept_S, app_length. unfold elem. destruct (pred r j _); simpl; lia.
    + exists n'. split; auto. rewrite krows_S, app_length. auto.
  - rewrite E, H. auto.
Qed.

Lemma firstn_upd_S : forall A (l : list A) n v, n < length l -> firstn (S n) (upd l n v) = firstn n l ++ [v].
Proof.
  intros A l. induction l; intros n v H; simpl in *; [lia|]. destruct n; simpl; auto. f_equal. apply IHl. lia.
Qed.

Lemma csr_build_ok : exists m, csr_build zero rows cols mat pred = Ok m /\ rep m (krows rows) /\
  c_rows m = rows /\ c_cols m = cols.
Proof.
  unfold csr_build. rewrite count_ok. cbn [bind]. set (count := length (concat (krows rows))).
  set (I := fun r (s : nat * list T * list nat * list nat) => let '(idx, values, colidx, rowidx) := s in
    idx = length (concat (krows r)) /\ length values = count /\ length colidx = count /\ length rowidx = rows + 1 /\
    firstn idx values = map snd (concat (krows r)) /\ firstn idx colidx = map fst (concat (krows r)) /\
    forall i, i < r -> nth i rowidx 0 = length (concat (krows i))).
  destruct (for_range_inv _ I 0 rows (fun r s =>
      let '(idx, values, colidx, rowidx) := s in
      row <- rd mat r ;;
      rowidx <- wr rowidx r idx ;;
      for_range 0 cols (fun c s =>
        let '(idx, values, colidx, rowidx) := s in
        v <- rd row c ;;
        if pred r c v then
          values <- wr values idx v ;;
          colidx <- wr colidx idx c ;;
          Ok (idx + 1, values, colidx, rowidx)
        else Ok s) (idx, values, colidx, rowidx))
    (0, repeat zero count, repeat 0 count, repeat 0 (rows + 1))) as [s [E H]].
  - lia.
  - simpl. rewrite !repeat_length. repeat split; auto. intros; lia.
  - intros r [[[idx values] colidx] rowidx] Hr [H1 [H2 [H3 [H4 [H5 [H6 H7]]]]]].
    destruct (mat_row r ltac:(lia)) as [M1 M2]. rewrite M1. cbn [bind]. rewrite wr_ok by lia. cbn [bind].
    set (J := fun j (s : nat * list T * list nat * list nat) => let '(idx', values, colidx, rowidx') := s in
      idx' = length (concat (krows r) ++ kept r j) /\ length values = count /\ length colidx = count /\
      rowidx' = upd rowidx r idx /\
      firstn idx' values = map snd (concat (krows r) ++ kept r j) /\ firstn idx' colidx = map fst (concat (krows r) ++ kept r j)).
    destruct (for_range_inv _ J 0 cols (fun c s =>
        let '(idx, values, colidx, rowidx) := s in
        v <- rd (nth r mat []) c ;;
        if pred r c v then
          values <- wr values idx v ;;
          colidx <- wr colidx idx c ;;
          Ok (idx + 1, values, colidx, rowidx)
        else Ok s) (idx, values, colidx, upd rowidx r idx)) as [[[[idx' values'] colidx'] rowidx'] [E' [K1 [K2 [K3 [K4 [K5 K6]]]]]]].
    + lia.
    + simpl. rewrite app_nil_r. repeat split; auto.
    + intros j [[[i2 v2] c2] r2] Hj [J1 [J2 [J3 [J4 [J5 J6]]]]].
      rewrite (rd_ok _ _ j zero) by lia. cbn [bind]. fold (elem zero mat r j).
      destruct (pred r j (elem zero mat r j)) eqn:P.
      * assert (LT : i2 < count).
        { pose proof (kept_mono r (S j) cols ltac:(lia)). pose proof (krows_mono (S r) rows ltac:(lia)) as M.
          rewrite krows_S, app_length in M. rewrite kept_S, P, app_length in H. simpl in H.
          rewrite app_length in J1. unfold count. lia. }
        rewrite !wr_ok by lia. cbn [bind]. eexists. split; [reflexivity|]. unfold J.
        rewrite kept_S, P, !app_assoc, !upd_length. rewrite app_length, <- J1. simpl. repeat split; auto.
        -- rewrite Nat.add_1_r, firstn_upd_S by lia. rewrite J5, (map_app _ (concat (krows r) ++ kept r j)). auto.
        -- rewrite Nat.add_1_r, firstn_upd_S by lia. rewrite J6, (map_app _ (concat (krows r) ++ kept r j)). auto.
      * eexists. split; [reflexivity|]. unfold J. rewrite kept_S, P, app_nil_r. repeat split; auto.
    + eexists. split; [exact E'|]. unfold I. rewrite krows_S. rewrite K4, upd_length. repeat split; auto.
      intros i Hi. destruct (Nat.eq_dec i r). { subst i. rewrite nth_upd_eq by lia. auto. }
      rewrite nth_upd_neq by auto. apply H7. lia.
  - rewrite E. destruct s as [[[idx values] colidx] rowidx]. destruct H as [H1 [H2 [H3 [H4 [H5 [H6 H7]]]]]]. cbn [bind].
    rewrite wr_ok by lia. cbn [bind]. eexists. split; [reflexivity|]. simpl. split; [|auto].
    unfold rep. simpl. unfold krows at 1. rewrite tab_length. split; [auto|].
    rewrite H1 in H5, H6. fold count in H5, H6. rewrite firstn_all2 in H5, H6 by lia.
    split; auto. split; auto. apply list_eq_tab with (d := 0). { rewrite upd_length. auto. }
    assert (OF : forall i, i <= rows -> off (krows rows) i = length (concat (krows i))).
    { intros i Hi. unfold off. f_equal. f_equal. unfold krows, tab. rewrite firstn_map. f_equal.
      clear -Hi. revert i Hi. generalize 0. induction rows; intros a i Hi; simpl. { destruct i; [auto|lia]. }
      destruct i; simpl; auto. f_equal. apply IHn. lia. }
    intros i Hi. rewrite OF by lia. destruct (Nat.eq_dec i rows).
    + subst i. replace (length rowidx - 1) with rows by lia. rewrite nth_upd_eq by lia. auto.
    + rewrite nth_upd_neq by lia. apply H7. lia.
Qed.

Lemma find_kept : forall r j c, find (fun p => fst p =? c) (kept r j) =
  if (c <? j) && pred r c (elem zero mat r c) then Some (c, elem zero mat r c) else None.
Proof. clear Hrows Hcols.
  intros r j c. induction j. { reflexivity. }
  rewrite kept_S, find_app, IHj. destruct (Nat.ltb_spec c j).
  - assert (B : (c <? S j) = true) by (apply Nat.ltb_lt; lia). rewrite B. cbn [andb].
    destruct (pred r c (elem zero mat r c)); auto. destruct (pred r j (elem zero mat r j)); simpl; auto.
    destruct (Nat.eqb_spec j c); auto. lia.
  - cbn [andb]. destruct (Nat.eq_dec c j).
    + subst c. assert (B : (j <? S j) = true) by (apply Nat.ltb_lt; lia). rewrite B. cbn [andb].
      destruct (pred r j (elem zero mat r j)); simpl; auto. rewrite Nat.eqb_refl. auto.
    + assert (B : (c <? S j) = false) by (apply Nat.ltb_ge; lia). rewrite B. cbn [andb].
      destruct (pred r j (elem zero mat r j)); simpl; auto. destruct (Nat.eqb_spec j c); auto. lia.
Qed.

Lemma kept_cols : forall r j p, In p (kept r j) -> fst p < j.
Proof. clear Hrows Hcols.
  intros r j p H. unfold kept in H. apply in_flat_map in H. destruct H as [c [Hc H]]. apply in_seq in Hc.
  destruct (pred r c (elem zero mat r c)); [|contradiction]. destruct H as [<-|[]]. simpl. lia.
Qed.

(** Columns strictly increasing. *)
Definition strict_row (l : row) : Prop := forall i j d, i < j -> j < length l -> fst (nth i l d) < fst (nth j l d).

Lemma kept_strict : forall r j, strict_row (kept r j).
Proof. clear Hrows Hcols.
  intros r j. induction j; intros a b d Hab Hb. { simpl in Hb. lia. }
  rewrite kept_S in *. rewrite app_length in Hb. destruct (pred r j (elem zero mat r j)); simpl in Hb.
  - destruct (Nat.eq_dec b (length (kept r j))).
    + subst b. rewrite app_nth1 by lia. rewrite app_nth2, Nat.sub_diag by lia. simpl.
      eapply kept_cols. apply nth_In. lia.
    + rewrite !app_nth1 by lia. apply IHj; lia.
  - rewrite !app_nth1 by lia. apply IHj; lia.
Qed.

Lemma count_positions : forall r j, length (kept r j) =
  length (filter (fun c => pred r c (elem zero mat r c)) (seq 0 j)).
Proof. clear Hrows Hcols.
  intros r j. unfold kept. generalize (seq 0 j). induction l; simpl; auto.
  destruct (pred r a (elem zero mat r a)); simpl; auto.
Qed.

Lemma csr_build_get : exists m, csr_build zero rows cols mat pred = Ok m /\ csr_wf m /\
  c_rows m = rows /\ c_cols m = cols /\
  length (c_values m) = list_sum (map (fun r => length (filter (fun c => pred r c (elem zero mat r c)) (seq 0 cols))) (seq 0 rows)) /\
  forall r c, r < rows -> c < cols ->
    csr_get zero m r c = Ok (if pred r c (elem zero mat r c) then elem zero mat r c else zero).
Proof.
  destruct csr_build_ok as [m [E [R [E1 E2]]]]. exists m. split; auto. split.
  - apply good_wf with (krows rows). split; auto. rewrite E1, E2. intros r Hr. unfold krows. rewrite nth_tab by auto. split.
    + intros i j d Hij Hj. destruct (Nat.eq_dec i j). { subst; auto. }
      pose proof (kept_strict r cols i j d ltac:(lia) Hj). lia.
    + intros p Hp. eapply kept_cols; eauto.
  - split; auto. split; auto. split.
    + destruct R as [_ [V _]]. rewrite V, map_length. unfold krows, tab. clear. generalize (seq 0 rows).
      induction l; simpl; auto. rewrite app_length, IHl, count_positions. auto.
    + intros r c Hr Hc. rewrite (csr_get_ok m _ r c R) by lia. unfold krows. rewrite nth_tab by auto.
      unfold lookup. rewrite find_kept. apply Nat.ltb_lt in Hc. rewrite Hc. cbn [andb].
      destruct (pred r c (elem zero mat r c)); auto.
Qed.
End Build.

(** ** Multiply-add *)
Section Fma.
Variables mul add : T -> T -> T.

(** Effect of a row's entries on one output cell. *)
Definition row_effect (l : row) (xc : T) (z : T -> T) (c : nat) (acc : T) : T :=
  fold_left (fun acc p => if fst p =? c then add (mul xc (snd p)) (z acc) else acc) l acc.

Lemma csr_fma_ok : forall m rs r x z out, rep m rs -> r < c_rows m ->
  (forall p, In p (nth r rs []) -> fst p < length x /\ fst p < length out /\ fst p < length (contents z out)) ->
  csr_multiply_add mul add (Other x) m r z out =
  Ok (tab (length out) (fun c => row_effect (nth r rs []) (nth c x zero)
        (fun acc => match z with Self => acc | Other zl => nth c zl zero end) c (nth c out zero))).
Proof.
  intros m rs r x z out Hm Hr Hb. unfold csr_multiply_add. assert (HL : length rs = c_rows m) by apply Hm.
  rewrite (rep_rowidx m rs r), (rep_rowidx m rs (r + 1)) by (auto; lia). cbn [bind].
  rewrite Nat.add_1_r, off_S by lia. set (l := nth r rs []) in *.
  set (zf := fun c (acc : T) => match z with Self => acc | Other zl => nth c zl zero end).
  destruct (for_range_inv _ (fun j o => length o = length out /\ forall c, c < length out ->
      nth c o zero = row_effect (firstn (j - off rs r) l) (nth c x zero) (zf c) c (nth c out zero))
    (off rs r) (off rs r + length l) (fun i out0 =>
    col <- rd (c_colidx m) i ;;
    a <- rd x col ;; v <- rd (c_values m) i ;; c <- rd (contents z out0) col ;;
    wr out0 col (add (mul a v) c)) out) as [o [E [L V]]].
  - lia.
  - split; auto. intros. rewrite Nat.sub_diag. reflexivity.
  - intros j o Hj [L V]. assert (Ej : j = off rs r + (j - off rs r)) by lia. set (k := j - off rs r) in *.
    assert (Hk : k < length l) by lia. rewrite Ej.
    rewrite (rep_col m rs r k (0, zero)), (rep_val m rs r k (0, zero)) by auto. fold l. cbn [bind].
    destruct (Hb (nth k l (0, zero))) as [B1 [B2 B3]]. { apply nth_In; auto. }
    set (p := nth k l (0, zero)) in *.
    rewrite (rd_ok _ x (fst p) zero) by auto. cbn [bind].
    rewrite (rd_ok _ (contents z o) (fst p) zero). 2:{ rewrite (contents_length _ z o out) by auto. auto. }
    cbn [bind]. rewrite wr_ok by lia. eexists. split; [reflexivity|]. split. { rewrite upd_length; auto. }
    intros c Hc. replace (S (off rs r + k) - off rs r) with (S k) by lia. rewrite (firstn_succ _ l k (0, zero)) by auto.
    unfold row_effect. rewrite fold_left_app. simpl. fold p. fold (row_effect (firstn k l) (nth c x zero) (zf c) c (nth c out zero)).
    rewrite <- V by auto.
    destruct (Nat.eqb_spec (fst p) c).
    + subst c. rewrite nth_upd_eq by lia. f_equal. unfold zf. destruct z; auto.
    + rewrite nth_upd_neq by auto. auto.
  - simpl contents at 1 2 || idtac. cbn [contents]. cbn [contents] in E. rewrite E. f_equal.
    apply list_eq_tab with (d := zero); auto. intros c Hc. rewrite V by auto.
    replace (off rs r + length l - off rs r) with (length l) by lia. rewrite firstn_all. auto.
Qed.

(** No entry for a column: cell untouched; one entry: one update. *)
Lemma row_effect_none : forall l xc z c acc, find (fun p => fst p =? c) l = None -> row_effect l xc z c acc = acc.
Proof.
  intros l xc z c. induction l; intros acc H; simpl in *; auto. destruct (fst a =? c); [discriminate|]. auto.
Qed.

Lemma row_effect_one : forall l xc z c acc p, NoDup (map fst l) -> find (fun p => fst p =? c) l = Some p ->
  row_effect l xc z c acc = add (mul xc (snd p)) (z acc).
Proof.
  intros l xc z c. induction l; intros acc p N H; simpl in *; [discriminate|]. inversion N; subst.
  destruct (Nat.eqb_spec (fst a) c).
  - inversion H. subst p. apply row_effect_none. destruct (find _ l) eqn:F; auto. exfalso.
    apply find_some in F. destruct F as [F1 F2]. apply Nat.eqb_eq in F2. apply H2. rewrite e, <- F2. apply in_map; auto.
  - apply IHl; auto.
Qed.

Definition stored (l : row) (c : nat) : bool := existsb (fun p => fst p =? c) l.

Lemma csr_fma_distinct : forall m rs r x z out, rep m rs -> r < c_rows m -> NoDup (map fst (nth r rs [])) ->
  (forall p, In p (nth r rs []) -> fst p < length x /\ fst p < length out /\ fst p < length (contents z out)) ->
  csr_multiply_add mul add (Other x) m r z out =
  Ok (tab (length out) (fun c => if stored (nth r rs []) c
        then add (mul (nth c x zero) (lookup (nth r rs []) c)) (nth c (contents z out) zero)
        else nth c out zero)).
Proof.
  intros m rs r x z out Hm Hr N Hb. rewrite (csr_fma_ok m rs r x z out Hm Hr Hb). f_equal. apply tab_ext. intros c Hc.
  unfold lookup. destruct (find (fun p => fst p =? c) (nth r rs [])) eqn:F.
  - rewrite (row_effect_one _ _ _ _ _ p N F).
    assert (S : stored (nth r rs []) c = true).
    { unfold stored. apply existsb_exists. apply find_some in F. exists p. auto. }
    rewrite S. f_equal. destruct z; auto.
  - rewrite row_effect_none by auto.
    assert (S : stored (nth r rs []) c = false).
    { unfold stored. destruct (existsb _ _) eqn:S; auto. apply existsb_exists in S. destruct S as [p [S1 S2]].
      apply (find_none _ _ F) in S1. congruence. }
    rewrite S. auto.
Qed.

Lemma strict_NoDup : forall l, strict_row l -> NoDup (map fst l).
Proof.
  intros l H. apply (NoDup_nth _ 0). intros i j Hi Hj E. rewrite map_length in *.
  replace 0 with (fst (0, zero)) in E by auto. rewrite !map_nth in E.
  destruct (Nat.lt_trichotomy i j) as [G|[G|G]]; auto.
  - specialize (H i j (0, zero) G Hj). lia.
  - specialize (H j i (0, zero) G Hi). lia.
Qed.

(** Sparse matrix built from a dense one, multiplied in place or out of place. *)
Lemma csr_build_fma : forall rows cols mat pred, length mat = rows -> (forall r, In r mat -> length r = cols) ->
  exists m, csr_build zero rows cols mat pred = Ok m /\
  forall r x z out, r < rows -> length x = cols -> length out = cols -> length (contents z out) = cols ->
  csr_multiply_add mul add (Other x) m r z out =
  Ok (tab cols (fun c => if pred r c (elem zero mat r c)
        then add (mul (nth c x zero) (elem zero mat r c)) (nth c (contents z out) zero)
        else nth c out zero)).
Proof.
  intros rows cols mat pred H1 H2. destruct (csr_build_ok rows cols mat pred H1 H2) as [m [E [R [E1 E2]]]].
  exists m. split; auto. intros r x z out Hr Hx Ho Hz.
  assert (K : nth r (krows cols mat pred rows) [] = kept mat pred r cols) by (unfold krows; rewrite nth_tab; auto).
  rewrite (csr_fma_distinct m (krows cols mat pred rows) r x z out R).
  2:{ lia. } 2:{ rewrite K. apply strict_NoDup. apply kept_strict. }
  2:{ rewrite K. intros p Hp. apply kept_cols in Hp. lia. }
  rewrite Ho, K. f_equal. apply tab_ext. intros c Hc.
  assert (S : stored (kept mat pred r cols) c = pred r c (elem zero mat r c)).
  { unfold stored. pose proof (find_kept mat pred r cols c) as F. apply Nat.ltb_lt in Hc. rewrite Hc in F. cbn [andb] in F.
    destruct (pred r c (elem zero mat r c)).
    - apply existsb_exists. apply find_some in F. eexists; eauto.
    - destruct (existsb _ _) eqn:X; auto. apply existsb_exists in X. destruct X as [p [X1 X2]].
      apply (find_none _ _ F) in X1. congruence. }
  rewrite S. unfold lookup. rewrite find_kept. apply Nat.ltb_lt in Hc. rewrite Hc. cbn [andb].
  destruct (pred r c (elem zero mat r c)); auto.
Qed.

(** After inserts at distinct positions. *)
Lemma inserts_fma : forall rows cols ops,
  (forall r c v, In (r, c, v) ops -> r < rows /\ c < cols) -> NoDup (map fst ops) ->
  exists m, run_inserts ops (csr_empty rows cols) = Ok m /\
  forall r x z out, r < rows -> length x = cols -> length out = cols -> length (contents z out) = cols ->
  csr_multiply_add mul add (Other x) m r z out =
  Ok (tab cols (fun c => if existsb (fun op => (fst (fst op) =? r) && (snd (fst op) =? c)) ops
        then add (mul (nth c x zero) (last_insert zero ops r c)) (nth c (contents z out) zero)
        else nth c out zero)).
Proof.
  intros rows cols ops Hops ND.
  assert (G : exists m rs, run_inserts ops (csr_empty rows cols) = Ok m /\ good m rs /\ c_rows m = rows /\ c_cols m = cols /\
    (forall r c, r < rows -> lookup (nth r rs []) c = last_insert zero ops r c) /\
    (forall r p, r < rows -> In p (nth r rs []) <-> In (r, fst p, snd p) ops) /\
    (forall r, r < rows -> NoDup (map fst (nth r rs [])))).
  { induction ops as [|[[r c] v] ops IH] using rev_ind.
    - exists (csr_empty rows cols), (repeat [] rows). split; [reflexivity|]. split; [apply good_empty|]. split; auto. split; auto.
      split; [|split]; intros; rewrite nth_repeat; try reflexivity; try tauto. constructor.
    - destruct IH as [m [rs [E [Gd [E1 [E2 [LK [MEM NDr]]]]]]]].
      { intros. apply Hops with v0. apply in_or_app. auto. }
      { rewrite map_app in ND. apply NoDup_remove_1 in ND. rewrite app_nil_r in ND. auto. }
      destruct (Hops r c v) as [Hr Hc]. { apply in_or_app. simpl. auto. }
      destruct (good_insert m rs r c v Gd) as [m' [E' [Gd' [E1' E2']]]]; try lia.
      assert (HL : length rs = c_rows m) by apply Gd.
      exists m', (upd rs r (row_ins (nth r rs []) c v)).
      split. { unfold run_inserts in *. rewrite fold_left_app. simpl. rewrite E. auto. }
      split; auto. split; [lia|]. split; [lia|].
      assert (INS : forall p, In p (row_ins (nth r rs []) c v) <-> p = (c, v) \/ In p (nth r rs [])).
      { intros p. unfold row_ins. rewrite in_app_iff. simpl.
        pose proof (in_app_iff (firstn (lead (nth r rs []) c) (nth r rs [])) (skipn (lead (nth r rs []) c) (nth r rs [])) p) as I.
        rewrite firstn_skipn in I. rewrite I. intuition. }
      split; [|split].
      + intros r' c' Hr'. unfold last_insert. rewrite fold_left_app. simpl. fold (last_insert zero ops r' c').
        rewrite nth_upd_row by lia. destruct (Nat.eqb_spec r' r).
        * subst. rewrite lookup_ins. simpl. destruct (c' =? c); auto.
        * simpl. auto.
      + intros r' p Hr'. rewrite nth_upd_row by lia. rewrite in_app_iff. simpl.
        destruct (Nat.eqb_spec r' r).
        * subst. rewrite INS, (MEM r p Hr). split.
          -- intros [->|H]; simpl; auto.
          -- intros [H|[H|[]]]; auto. inversion H. destruct p. left. auto.
        * rewrite (MEM r' p Hr'). split; auto. intros [H|[H|[]]]; auto. inversion H. congruence.
      + intros r' Hr'. rewrite nth_upd_row by lia. destruct (Nat.eqb_spec r' r); auto. subst r'.
        unfold row_ins. rewrite map_app. simpl. apply NoDup_Add with (a := c) (l := map fst (nth r rs [])).
        * rewrite <- (firstn_skipn (lead (nth r rs []) c) (nth r rs [])) at 1. rewrite map_app. apply Add_app.
        * split; auto. intros X. apply in_map_iff in X. destruct X as [p [X1 X2]]. apply (MEM r p Hr) in X2.
          rewrite map_app in ND. apply NoDup_remove_2 in ND. apply ND. rewrite app_nil_r. simpl.
          rewrite X1 in X2. change (r, c) with (fst (r, c, snd p)). apply in_map. auto. }
  destruct G as [m [rs [E [Gd [E1 [E2 [LK [MEM NDr]]]]]]]]. exists m. split; auto. intros r x z out Hr Hx Ho Hz.
  rewrite (csr_fma_distinct m rs r x z out) ; try apply Gd; try lia.
  - rewrite Ho. f_equal. apply tab_ext. intros c Hc.
    assert (S : stored (nth r rs []) c = existsb (fun op => (fst (fst op) =? r) && (snd (fst op) =? c)) ops).
    { unfold stored. apply eq_true_iff_eq. rewrite !existsb_exists. split.
      - intros [p [H1 H2]]. apply (MEM r p Hr) in H1. eexists. split; [exact H1|]. simpl. rewrite Nat.eqb_refl. auto.
      - intros [[[r' c'] v'] [H1 H2]]. simpl in H2. apply andb_prop in H2. destruct H2 as [H2 H3].
        apply Nat.eqb_eq in H2, H3. subst. exists (c, v'). split; [|simpl; apply Nat.eqb_refl]. apply (MEM r (c, v') Hr). auto. }
    rewrite S, LK by auto. auto.
  - auto.
  - intros p Hp. apply (MEM r p Hr) in Hp. destruct (Hops _ _ _ Hp). lia.
Qed.
End Fma.

(** ** Every matrix reachable by construction and inserts *)
Lemma made_good : forall m, made zero m -> exists rs, good m rs.
Proof.
  intros m H. induction H.
  - exists (repeat [] rows). apply good_empty.
  - destruct (csr_build_ok rows cols mat keep H H0) as [m' [E [R [E1 E2]]]]. rewrite E in H1. inversion H1. subst m'.
    exists (krows cols mat keep rows). split; auto. rewrite E1, E2. intros r Hr. unfold krows. rewrite nth_tab by auto. split.
    + intros i j d Hij Hj. destruct (Nat.eq_dec i j). { subst; auto. }
      pose proof (kept_strict mat keep r cols i j d ltac:(lia) Hj). lia.
    + intros p Hp. eapply kept_cols; eauto.
  - destruct IHmade as [rs G]. destruct (good_insert m rs r c v G H0 H1) as [m'' [E [G' _]]]. rewrite E in H2. inversion H2. subst.
    eauto.
Qed.

Lemma insert_fresh_nodup : forall m rs r c v, rep m rs -> r < c_rows m -> fresh m r c ->
  NoDup (map fst (nth r rs [])) -> NoDup (map fst (row_ins (nth r rs []) c v)).
Proof.
  intros m rs r c v R Hr F N. unfold row_ins. rewrite map_app. simpl.
  apply NoDup_Add with (a := c) (l := map fst (nth r rs [])).
  - rewrite <- (firstn_skipn (lead (nth r rs []) c) (nth r rs [])) at 1. rewrite map_app. apply Add_app.
  - split; auto. intros X. apply in_map_iff in X. destruct X as [p [X1 X2]].
    apply In_nth with (d := (0, zero)) in X2. destruct X2 as [k [Hk E]].
    assert (HL : length rs = c_rows m) by apply R.
    pose proof (rep_rowidx m rs r R ltac:(lia)) as R1. pose proof (rep_rowidx m rs (r + 1) R ltac:(lia)) as R2.
    destruct (rd_inv _ _ _ _ 0 R1) as [_ R1']. destruct (rd_inv _ _ _ _ 0 R2) as [_ R2'].
    pose proof (rep_col m rs r k (0, zero) R Hr Hk) as R3. destruct (rd_inv _ _ _ _ 0 R3) as [_ R3'].
    apply (F (off rs r + k)).
    + rewrite R1', R2', Nat.add_1_r, off_S by lia. lia.
    + rewrite R3', E. auto.
Qed.

Lemma made_once_good : forall m, made_once zero m ->
  exists rs, good m rs /\ forall r, r < c_rows m -> NoDup (map fst (nth r rs [])).
Proof.
  intros m H. induction H.
  - exists (repeat [] rows). split. { apply good_empty. } intros r Hr. rewrite nth_repeat. constructor.
  - destruct (csr_build_ok rows cols mat keep H H0) as [m' [E [R [E1 E2]]]]. rewrite E in H1. inversion H1. subst m'.
    exists (krows cols mat keep rows). split.
    + split; auto. rewrite E1, E2. intros r Hr. unfold krows. rewrite nth_tab by auto. split.
      * intros i j d Hij Hj. destruct (Nat.eq_dec i j). { subst; auto. }
        pose proof (kept_strict mat keep r cols i j d ltac:(lia) Hj). lia.
      * intros p Hp. eapply kept_cols; eauto.
    + rewrite E1. intros r Hr. unfold krows. rewrite nth_tab by auto. apply strict_NoDup, kept_strict.
  - destruct IHmade_once as [rs [G N]]. destruct (good_insert m rs r c v G H0 H1) as [m'' [E [G' [E1 E2]]]].
    rewrite E in H3. inversion H3. subst m''.
    eexists. split; [exact G'|]. rewrite E1. intros i Hi. assert (HL : length rs = c_rows m) by apply G.
    rewrite nth_upd_row by lia. destruct (Nat.eqb_spec i r); auto. subst i.
    apply insert_fresh_nodup with m; auto. apply G.
Qed.

Lemma made_access : forall m, made zero m -> csr_wf m /\
  forall r c, r < c_rows m -> exists v, csr_get zero m r c = Ok v.
Proof.
  intros m H. destruct (made_good m H) as [rs G]. split. { eapply good_wf; eauto. }
  intros r c Hr. eexists. apply (csr_get_ok m rs r c (proj1 G) Hr).
Qed.

Lemma made_insert_get : forall m r c v, made zero m -> r < c_rows m -> c < c_cols m ->
  exists m', csr_insert m r c v = Ok m' /\ c_rows m' = c_rows m /\ c_cols m' = c_cols m /\
  length (c_values m') = S (length (c_values m)) /\
  csr_get zero m' r c = Ok v /\
  forall r' c', r' < c_rows m -> (r', c') <> (r, c) -> csr_get zero m' r' c' = csr_get zero m r' c'.
Proof.
  intros m r c v H Hr Hc. destruct (made_good m H) as [rs G].
  destruct (good_insert m rs r c v G Hr Hc) as [m' [E [G' [E1 E2]]]]. assert (HL : length rs = c_rows m) by apply G.
  exists m'. split; auto. split; auto. split; auto. split.
  { destruct G as [[_ [V _]] _]. destruct G' as [[_ [V' _]] _]. rewrite V, V', !map_length.
    unfold row_ins. rewrite concat_insert by (try apply lead_le; lia). rewrite !app_length. simpl.
    pose proof (f_equal (@length _) (firstn_skipn (off rs r + lead (nth r rs []) c) (concat rs))) as FS.
    rewrite app_length in FS. lia. }
  split.
  - rewrite (csr_get_ok m' _ r c (proj1 G')) by lia. rewrite nth_upd_row, Nat.eqb_refl, lookup_ins, Nat.eqb_refl by lia. auto.
  - intros r' c' Hr' N. rewrite (csr_get_ok m' _ r' c' (proj1 G')), (csr_get_ok m _ r' c' (proj1 G)) by lia.
    f_equal. rewrite nth_upd_row by lia. destruct (Nat.eqb_spec r' r); auto. subst. rewrite lookup_ins.
    destruct (Nat.eqb_spec c' c); auto. subst. congruence.
Qed.

Lemma made_once_fma : forall (mul add : T -> T -> T) m r x out, made_once zero m ->
  (forall a b, add (mul a zero) b = b) ->
  r < c_rows m -> length x = c_cols m -> length out = c_cols m ->
  exists out', csr_multiply_add mul add (Other x) m r Self out = Ok out' /\ length out' = length out /\
  forall c, c < c_cols m -> exists v, csr_get zero m r c = Ok v /\
  nth c out' zero = add (mul (nth c x zero) v) (nth c out zero).
Proof.
  intros mul add m r x out H Z1 Hr Hx Ho. destruct (made_once_good m H) as [rs [G N]].
  eexists. split. { apply (csr_fma_distinct mul add m rs r x Self out); auto. apply G.
    intros p Hp. destruct G as [_ S]. destruct (S r Hr) as [_ S2]. specialize (S2 p Hp). cbn [contents]. lia. }
  split. { apply tab_length. } intros c Hc. exists (lookup (nth r rs []) c).
  split. { apply csr_get_ok; auto. apply G. } rewrite nth_tab by lia. cbn [contents].
  destruct (stored (nth r rs []) c) eqn:S; auto. unfold lookup.
  destruct (find (fun p => fst p =? c) (nth r rs [])) eqn:F.
  - apply find_some in F. exfalso. assert (stored (nth r rs []) c = true); [|congruence].
    unfold stored. apply existsb_exists. eauto.
  - rewrite Z1. auto.
Qed.

(** Out of place, the cells of columns without an entry keep their old value. *)
Lemma made_once_fma_other : forall (mul add : T -> T -> T) m r x z out, made_once zero m ->
  r < c_rows m -> length x = c_cols m -> length z = c_cols m -> length out = c_cols m ->
  exists out', csr_multiply_add mul add (Other x) m r (Other z) out = Ok out' /\ length out' = length out /\
  forall c, c < c_cols m ->
      (fresh m r c -> nth c out' zero = nth c out zero) /\
  (~ fresh m r c -> exists v, csr_get zero m r c = Ok v /\
  nth c out' zero = add (mul (nth c x zero) v) (nth c z zero)).
Proof.
  intros mul add m r x z out H Hr Hx Hz Ho. destruct (made_once_good m H) as [rs [G N]].
  eexists. split. { apply (csr_fma_distinct mul add m rs r x (Other z) out); auto. apply G.
    intros p Hp. destruct G as [_ S]. destruct (S r Hr) as [_ S2]. specialize (S2 p Hp). cbn [contents]. lia. }
  split. { apply tab_length. } intros c Hc. rewrite nth_tab by lia. cbn [contents].
  assert (R : rep m rs) by apply G. assert (HL : length rs = c_rows m) by apply R.
  pose proof (rep_rowidx m rs r R ltac:(lia)) as R1. pose proof (rep_rowidx m rs (r + 1) R ltac:(lia)) as R2.
  destruct (rd_inv _ _ _ _ 0 R1) as [_ R1']. destruct (rd_inv _ _ _ _ 0 R2) as [_ R2'].
  assert (FI : fresh m r c <-> stored (nth r rs []) c = false).
  { unfold fresh. rewrite R1', R2', Nat.add_1_r, off_S by lia. split.
    - intros F. destruct (stored (nth r rs []) c) eqn:S; auto. exfalso. unfold stored in S. apply existsb_exists in S.
      destruct S as [p [S1 S2]]. apply Nat.eqb_eq in S2. apply In_nth with (d := (0, zero)) in S1. destruct S1 as [k [Hk E]].
      pose proof (rep_col m rs r k (0, zero) R Hr Hk) as R3. destruct (rd_inv _ _ _ _ 0 R3) as [_ R3'].
      apply (F (off rs r + k)); [lia|]. rewrite R3', E. auto.
    - intros S i Hi E. set (k := i - off rs r).
      pose proof (rep_col m rs r k (0, zero) R Hr ltac:(lia)) as R3. destruct (rd_inv _ _ _ _ 0 R3) as [_ R3'].
      replace (off rs r + k) with i in R3' by lia. rewrite E in R3'.
      assert (stored (nth r rs []) c = true); [|congruence]. unfold stored. apply existsb_exists.
      exists (nth k (nth r rs []) (0, zero)). split. { apply nth_In. lia. } rewrite <- R3'. apply Nat.eqb_refl. }
  split.
  - intros F. apply FI in F. rewrite F. auto.
  - intros F. destruct (stored (nth r rs []) c) eqn:S. 2:{ exfalso. apply F. apply FI. auto. }
    exists (lookup (nth r rs []) c). split; auto. apply csr_get_ok; auto.
Qed.
End P.
