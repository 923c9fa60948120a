(** Statistics, closeness and normalisation. *)
From Coq Require Import Reals List Arith Lia Lra Bool ZArith.
From Verif Require Import Base.Outcome Base.OutcomeFacts Base.Sums Base.Cplx Base.Alias Model.Algorithm Model.Statistics
  Spec.Statistics Proof.AlgorithmProof.
Import ListNotations.
Local Open Scope nat_scope.
Local Close Scope R_scope.

(** ** Loops *)

Lemma loop_over_ok : forall St int n (body : nat -> St -> outcome St) (F : St -> nat -> St) s,
  (int = true -> (Z.of_nat n < 2 ^ 31)%Z) -> (forall i s, i < n -> body i s = Ok (F s i)) ->
  loop_over int n body s = Ok (fold_left F (seq 0 n) s).
Proof.
  intros St int n body F s Hn Hb.
  assert (G : forall b2, (forall i s, i < n -> b2 i s = Ok (F s i)) -> for_range 0 n b2 s = Ok (fold_left F (seq 0 n) s)).
  { intros b2 H2. destruct (for_range_inv _ (fun i s' => s' = fold_left F (seq 0 i) s) 0 n b2 s) as (s' & E & ->); auto; try lia.
    intros j s' Hj ->. eexists. split; [apply H2; lia|]. rewrite seq_S, fold_left_app. reflexivity. }
  unfold loop_over. destruct int; [|apply G; auto]. unfold for_int. apply G. intros i s' Hi. rewrite Hb by auto. cbn [bind].
  replace (Z.of_nat i + 1 <? 2 ^ 31)%Z with true by (symmetry; apply Z.ltb_lt; specialize (Hn eq_refl); lia). reflexivity.
Qed.

Lemma fold_seq_nth : forall A S (d : A) (f : S -> A -> S) l s,
  fold_left (fun s i => f s (nth i l d)) (seq 0 (length l)) s = fold_left f l s.
Proof.
  intros A S d f l. induction l using rev_ind; intros s; [reflexivity|].
  rewrite app_length. cbn [length]. rewrite Nat.add_1_r, seq_S, !fold_left_app. cbn [fold_left Nat.add].
  rewrite app_nth2, Nat.sub_diag by lia. cbn [nth]. f_equal. rewrite <- IHl.
  assert (G : forall is t, (forall i, In i is -> i < length l) ->
    fold_left (fun s i => f s (nth i (l ++ [x]) d)) is t = fold_left (fun s i => f s (nth i l d)) is t).
  { induction is; intros t H; cbn; auto. rewrite app_nth1 by (apply H; left; auto). apply IHis. intros; apply H; right; auto. }
  apply G. intros i Hi. apply in_seq in Hi. lia.
Qed.

Lemma fold_ext_in : forall A S (f g : S -> A -> S) l s, (forall s a, In a l -> f s a = g s a) -> fold_left f l s = fold_left g l s.
Proof. intros A S f g l. induction l; intros s H; cbn; auto. rewrite H by (left; auto). apply IHl. intros; apply H; right; auto. Qed.

Definition ints_ok {T} (int : bool) (x : object T) : Prop := int = true -> int_extents x.

Lemma rd2_ok : forall T (d : T) m r c i j, length m = r -> (forall row, In row m -> length row = c) -> i < r -> j < c ->
  rd2 m i j = Ok (nth j (nth i m []) d).
Proof.
  intros T d m r c i j Hr Hc Hi Hj. unfold rd2. rewrite (rd_ok _ _ i []) by lia. cbn [bind].
  apply rd_ok. rewrite (Hc (nth i m [])); auto. apply nth_In. lia.
Qed.

Lemma fold_rows : forall A S (f : S -> A -> S) (m : list (list A)) s,
  fold_left (fun s row => fold_left f row s) m s = fold_left f (concat m) s.
Proof. intros A S f m. induction m; intros s; cbn; auto. rewrite fold_left_app. apply IHm. Qed.

Lemma fold_obj_ok : forall T St int (x : object T) (f : T -> St -> St) s, well_formed x -> ints_ok int x ->
  fold_obj int x f s = Ok (fold_left (fun s v => f v s) (entries x) s).
Proof.
  intros T St int x f s Hw Hi. destruct x as [v|r c m]; cbn [fold_obj entries].
  - destruct v as [|d v']. { destruct int; reflexivity. } set (v := d :: v') in *.
    rewrite (loop_over_ok _ _ _ _ (fun s i => f (nth i v d) s)).
    + f_equal. apply (fold_seq_nth _ _ d (fun s a => f a s)).
    + exact Hi.
    + intros i s' Hi'. rewrite (rd_ok _ _ i d) by auto. reflexivity.
  - destruct Hw as [Hr Hc].
    rewrite (loop_over_ok _ _ _ _ (fun s i => fold_left (fun s v => f v s) (nth i m []) s)).
    + f_equal. rewrite <- Hr. rewrite (fold_seq_nth _ _ [] (fun s row => fold_left (fun s v => f v s) row s)). apply fold_rows.
    + intros H. apply (Hi H).
    + intros i s' Hi'. assert (Lr : length (nth i m []) = c) by (apply Hc, nth_In; lia).
      destruct (nth i m []) as [|d row'] eqn:Er. { cbn in Lr. subst c. destruct int; reflexivity. }
      rewrite (loop_over_ok _ _ _ _ (fun s j => f (nth j (d :: row') d) s)).
      * f_equal. rewrite <- Lr. apply (fold_seq_nth _ _ d (fun s a => f a s)).
      * intros H. apply (Hi H).
      * intros j s'' Hj. rewrite (rd2_ok _ d m r c) by auto. rewrite Er. reflexivity.
Qed.

Lemma entries_length : forall T (x : object T), well_formed x -> length (entries x) = obj_size x.
Proof.
  intros T [v|r c m] H; cbn; auto. destruct H as [Hr Hc]. subst r. induction m; cbn; auto.
  rewrite app_length, IHm by (intros; apply Hc; right; auto). rewrite (Hc a) by (left; auto). reflexivity.
Qed.

Lemma combine_concat : forall A B (m : list (list A)) (n : list (list B)) c,
  (forall r, In r m -> length r = c) -> (forall r, In r n -> length r = c) -> length m = length n ->
  combine (concat m) (concat n) = concat (map (fun p => combine (fst p) (snd p)) (combine m n)).
Proof.
  intros A B m. induction m; intros n c Hm Hn Hl; destruct n; cbn in Hl |- *; try lia; auto.
  rewrite <- (IHm n c); [| intros; apply Hm; right; auto | intros; apply Hn; right; auto | lia].
  assert (L : length a = length l) by (rewrite (Hm a), (Hn l) by (left; auto); auto).
  clear IHm Hm Hn. revert l L. induction a; intros [|b l] L; cbn in L |- *; try lia; auto. f_equal. apply IHa. lia.
Qed.

Lemma fold_seq_nth2 : forall A B S (da : A) (db : B) (f : S -> A -> B -> S) l k s, length l = length k ->
  fold_left (fun s i => f s (nth i l da) (nth i k db)) (seq 0 (length l)) s = fold_left (fun s p => f s (fst p) (snd p)) (combine l k) s.
Proof.
  intros A B S da db f l k s H. rewrite <- (fold_seq_nth _ _ (da, db)). rewrite combine_length, H, Nat.min_id.
  apply fold_ext_in. intros t i Hi. rewrite combine_nth by auto. reflexivity.
Qed.

Lemma walk2_ok : forall A B St int (x : object A) (y : object B) body (g : A -> B -> St -> St) s,
  well_formed x -> well_formed y -> same_shape x y -> ints_ok int x ->
  (forall a b s, body (Ok a) (Ok b) s = Ok (g a b s)) ->
  walk2 int x y body s = Ok (fold_left (fun s p => g (fst p) (snd p) s) (combine (entries x) (entries y)) s).
Proof.
  intros A B St int x y body g s Wx Wy Hs Hi Hb. destruct x as [v|r c m], y as [w|r' c' n]; try contradiction; cbn [walk2 entries].
  - cbn in Hs. destruct v as [|da v']. { destruct int; reflexivity. } destruct w as [|db w']; [cbn in Hs; lia|].
    set (v := da :: v') in *. set (w := db :: w') in *.
    rewrite (loop_over_ok _ _ _ _ (fun s i => g (nth i v da) (nth i w db) s)).
    + f_equal. apply (fold_seq_nth2 _ _ _ da db (fun s a b => g a b s)). auto.
    + exact Hi.
    + intros i s' Hi'. rewrite (rd_ok _ _ i da), (rd_ok _ _ i db) by lia. apply Hb.
  - destruct Hs as [<- <-]. destruct Wx as [Hr Hc], Wy as [Hr' Hc'].
    rewrite (loop_over_ok _ _ _ _ (fun s i => fold_left (fun s p => g (fst p) (snd p) s) (combine (nth i m []) (nth i n [])) s)).
    + f_equal. rewrite (combine_concat _ _ m n c) by (auto; lia). rewrite <- fold_rows.
      rewrite <- Hr.
      rewrite (fold_seq_nth2 _ _ _ [] [] (fun s a b => fold_left (fun s p => g (fst p) (snd p) s) (combine a b) s)) by lia.
      generalize s. induction (combine m n); intros t; cbn; auto.
    + intros H. apply (Hi H).
    + intros i s' Hi'. assert (La : length (nth i m []) = c) by (apply Hc, nth_In; lia).
      assert (Lb : length (nth i n []) = c) by (apply Hc', nth_In; lia).
      destruct (nth i m []) as [|da ra] eqn:Ea. { cbn in La. subst c. destruct int; reflexivity. }
      destruct (nth i n []) as [|db rb] eqn:Eb. { cbn in La, Lb. lia. }
      rewrite (loop_over_ok _ _ _ _ (fun s j => g (nth j (da :: ra) da) (nth j (db :: rb) db) s)).
      * f_equal. rewrite <- La. apply (fold_seq_nth2 _ _ _ da db (fun s a b => g a b s)). lia.
      * intros H. apply (Hi H).
      * intros j s'' Hj. rewrite (rd2_ok _ da m r c), (rd2_ok _ db n r c) by auto. rewrite Ea, Eb. apply Hb.
Qed.

(** An int counter overflows. *)
Lemma loop_int_overflow : forall St n (body : nat -> St -> outcome St) s, (2 ^ 31 <= Z.of_nat n)%Z ->
  (forall i s, body i s <> Throw) -> loop_over true n body s = UB.
Proof.
  intros St n body s Hn Hb. unfold loop_over, for_int. 
  assert (exists N, (2 ^ 31 - 1)%Z = Z.of_nat N) as (N & EN) by (apply Z_of_nat_complete; lia).
  set (b := fun i s => _).
  assert (NT : forall i s, b i s <> Throw).
  { intros i s'. unfold b. pose proof (Hb i s'). destruct (body i s'); cbn; try congruence. destruct (_ <? _)%Z; cbn; congruence. }
  assert (Pre : for_range 0 N b s = UB \/ exists s', for_range 0 N b s = Ok s').
  { clear - NT. generalize N. intros M. induction M. { right. eexists. apply for_range_empty. lia. }
    rewrite for_range_last by lia. destruct IHM as [->|(s' & ->)]; auto. cbn [bind]. pose proof (NT M s'). destruct (b M s'); eauto. congruence. }
  rewrite (for_range_split _ 0 N n) by lia. destruct Pre as [->|(s' & ->)]; [reflexivity|]. cbn [bind].
  rewrite for_range_S by lia.
  assert (E : b N s' = UB).
  { unfold b. pose proof (Hb N s'). destruct (body N s'); auto; [|congruence]. cbn [bind].
    replace (Z.of_nat N + 1 <? 2 ^ 31)%Z with false by (symmetry; apply Z.ltb_ge; lia). reflexivity. }
  rewrite E. reflexivity.
Qed.

(** ** Sums *)
Local Open Scope R_scope.

Lemma fold_total : forall A (g : A -> R) l s, fold_left (fun s v => s + g v) l s = s + total (map g l).
Proof. intros A g l. induction l; intros s; cbn. { ring. } rewrite IHl. ring. Qed.

Lemma total_ext : forall A (f g : A -> R) l, (forall v, In v l -> f v = g v) -> total (map f l) = total (map g l).
Proof. intros A f g l. induction l; intros H; cbn; auto. rewrite H by (left; auto). rewrite IHl; auto. intros; apply H; right; auto. Qed.

Lemma total_add : forall A (f g : A -> R) l, total (map (fun v => f v + g v) l) = total (map f l) + total (map g l).
Proof. intros A f g l. induction l; cbn; [ring|]. rewrite IHl. ring. Qed.

Lemma total_scale : forall A c (f : A -> R) l, total (map (fun v => c * f v) l) = c * total (map f l).
Proof. intros A c f l. induction l; cbn; [ring|]. rewrite IHl. ring. Qed.

Lemma total_const : forall A c (l : list A), total (map (fun _ => c) l) = INR (length l) * c.
Proof. intros A c l. induction l. { cbn. ring. } cbn [map total length]. rewrite IHl, S_INR. ring. Qed.

Lemma total_bounds : forall l lo hi, (forall v, In v l -> lo <= v <= hi) -> INR (length l) * lo <= total l <= INR (length l) * hi.
Proof.
  induction l; intros lo hi H. { cbn. lra. } cbn [total length]. rewrite S_INR.
  pose proof (H a ltac:(left; auto)). pose proof (IHl lo hi ltac:(intros; apply H; right; auto)). lra.
Qed.

Lemma total_nonneg : forall l, (forall v, In v l -> 0 <= v) -> 0 <= total l.
Proof. induction l; intros H; cbn; [lra|]. pose proof (H a ltac:(left; auto)). pose proof (IHl ltac:(intros; apply H; right; auto)). lra. Qed.

Lemma total_zero : forall l, (forall v, In v l -> 0 <= v) -> total l = 0 -> forall v, In v l -> v = 0.
Proof.
  induction l; intros H E v []; cbn in E; pose proof (H a ltac:(left; auto));
  pose proof (total_nonneg l ltac:(intros; apply H; right; auto)).
  - subst. lra.
  - apply IHl; auto. { intros; apply H; right; auto. } lra.
Qed.

Lemma INR_len_pos : forall A (l : list A), l <> [] -> 0 < INR (length l).
Proof. intros A [|a l] H; [congruence|]. apply lt_0_INR. cbn. lia. Qed.

(** ** Mean and variance *)
Lemma mean_unchecked_ok : forall x, well_formed x -> int_extents x -> mean_unchecked x = Ok (average (entries x)).
Proof.
  intros x Hw Hi. unfold mean_unchecked. rewrite fold_obj_ok; auto; [|intros _; auto]. cbn [bind].
  rewrite <- entries_length by auto. rewrite (fold_total _ (fun v => v)), map_id, Rplus_0_l. reflexivity.
Qed.

Lemma mean_ok : forall x, well_formed x -> int_extents x ->
  mean x = Ok (if (obj_size x =? 0)%nat then None else Some (average (entries x))).
Proof.
  intros x Hw Hi. unfold mean. destruct (Nat.ltb_spec (obj_size x) 1), (Nat.eqb_spec (obj_size x) 0); try lia; auto.
  rewrite mean_unchecked_ok by auto. reflexivity.
Qed.

Lemma variance_ok : forall x, well_formed x -> int_extents x ->
  variance x = Ok (if (obj_size x <? 2)%nat then None else Some (pvariance (entries x))).
Proof.
  intros x Hw Hi. unfold variance. destruct (Nat.ltb_spec (obj_size x) 2); auto.
  rewrite mean_unchecked_ok by auto. cbn [bind]. rewrite fold_obj_ok; auto; [|intros _; auto]. cbn [bind]. cbv zeta.
  rewrite (fold_total _ (fun v => (v - average (entries x)) * (v - average (entries x)))), Rplus_0_l.
  unfold pvariance. unfold average at 3. rewrite map_length, entries_length by auto. reflexivity.
Qed.

Lemma average_bounds : forall l lo hi, l <> [] -> (forall v, In v l -> lo <= v <= hi) -> lo <= average l <= hi.
Proof.
  intros l lo hi Hl H. pose proof (total_bounds l lo hi H) as [H1 H2]. pose proof (INR_len_pos _ l Hl) as Hn. unfold average.
  split; apply (Rmult_le_reg_l (INR (length l))); auto; [|]; replace (INR (length l) * (total l / INR (length l))) with (total l) by (field; lra); auto.
Qed.

Lemma average_affine : forall a b l, l <> [] -> average (map (fun v => a * v + b) l) = a * average l + b.
Proof.
  intros a b l Hl. pose proof (INR_len_pos _ l Hl). unfold average. rewrite map_length, (total_add _ (fun v => a * v) (fun _ => b)), total_const.
  rewrite (total_scale _ a (fun v => v)), map_id. field. lra.
Qed.

Lemma pvariance_nonneg : forall l, l <> [] -> 0 <= pvariance l.
Proof.
  intros l Hl. unfold pvariance. set (m := average l). unfold average. rewrite map_length.
  apply Rmult_le_pos. { apply total_nonneg. intros v Hv. apply in_map_iff in Hv. destruct Hv as (u & <- & _). apply Rle_0_sqr. }
  apply Rlt_le, Rinv_0_lt_compat, INR_len_pos. auto.
Qed.

Lemma pvariance_zero : forall l, l <> [] -> pvariance l = 0 <-> forall u v, In u l -> In v l -> u = v.
Proof.
  intros l Hl. pose proof (INR_len_pos _ l Hl) as Hn. split.
  - unfold pvariance. set (m := average l). unfold average. rewrite map_length. intros E.
    assert (T : total (map (fun v => (v - m) * (v - m)) l) = 0).
    { apply (Rmult_eq_reg_r (/ INR (length l))); [|apply Rinv_neq_0_compat; lra]. rewrite Rmult_0_l. exact E. }
    assert (A : forall v, In v l -> v = m).
    { intros v Hv. assert (Q : (v - m) * (v - m) = 0); [|apply Rmult_integral in Q; lra].
      apply (total_zero _) with (2 := T). { intros w Hw. apply in_map_iff in Hw. destruct Hw as (u & <- & _). apply Rle_0_sqr. }
      apply in_map_iff. eauto. }
    intros u v Hu Hv. rewrite (A u), (A v); auto.
  - intros H. destruct l as [|a l]; [congruence|]. set (L := a :: l) in *.
    assert (Em : average L = a).
    { pose proof (average_bounds L a a Hl) as B. assert (a <= average L <= a); [|lra]. apply B.
      intros v Hv. rewrite (H v a Hv ltac:(left; auto)). lra. }
    unfold pvariance. rewrite Em. unfold average. rewrite (total_ext _ _ (fun _ => 0)).
    + rewrite total_const. unfold Rdiv. ring.
    + intros v Hv. rewrite (H v a Hv ltac:(left; auto)). ring.
Qed.

Lemma pvariance_affine : forall a b l, l <> [] -> pvariance (map (fun v => a * v + b) l) = a * a * pvariance l.
Proof.
  intros a b l Hl. unfold pvariance at 1. rewrite average_affine by auto. rewrite map_map. unfold pvariance.
  set (m := average l). unfold average. rewrite !map_length.
  rewrite (total_ext _ _ (fun v => a * a * ((v - m) * (v - m)))) by (intros; ring). rewrite total_scale. unfold Rdiv. ring.
Qed.

(** ** Closeness and errors *)
Lemma fold_forallb : forall A (p : A -> bool) l s, fold_left (fun (s : bool) a => if s then p a else false) l s = s && forallb p l.
Proof.
  intros A p l. induction l; intros s; cbn. { now rewrite andb_true_r. } rewrite IHl. destruct s; reflexivity.
Qed.

Lemma allmatch2_ok : forall A B (x : object A) (y : object B) p, well_formed x -> well_formed y -> same_shape x y -> int_extents x ->
  allmatch2 x y p = Ok (forallb (fun q => p (fst q) (snd q)) (combine (entries x) (entries y))).
Proof.
  intros A B x y p Wx Wy Hs Hi. unfold allmatch2.
  rewrite (walk2_ok _ _ _ true x y _ (fun a b (s : bool) => if s then p a b else false)); auto.
  - f_equal. apply (fold_forallb _ (fun q => p (fst q) (snd q))).
  - intros _. auto.
  - intros a b [|]; reflexivity.
Qed.

Lemma same_entries : forall A B (x : object A) (y : object B), well_formed x -> well_formed y -> same_shape x y -> length (entries x) = length (entries y).
Proof.
  intros A B x y Wx Wy H. rewrite !entries_length by auto. destruct x, y; cbn in *; try contradiction; auto. destruct H. congruence.
Qed.

Lemma forallb_combine : forall A B (da : A) (db : B) (p : A -> B -> bool) l k, length l = length k ->
  forallb (fun q => p (fst q) (snd q)) (combine l k) = true <-> forall i, (i < length l)%nat -> p (nth i l da) (nth i k db) = true.
Proof.
  intros A B da db p l. induction l; intros [|b k] L; cbn in L; try lia; cbn [combine forallb length].
  - split; auto. intros _ i Hi. lia.
  - rewrite andb_true_iff, IHl by lia. cbn [fst snd]. split.
    + intros [H1 H2] [|i] Hi; cbn; auto. apply H2. lia.
    + intros H. split. { apply (H 0%nat). lia. } intros i Hi. apply (H (S i)). lia.
Qed.

Lemma Rleb_true : forall x y, Rleb x y = true <-> x <= y.
Proof. intros x y. unfold Rleb. destruct (Rle_dec x y); split; auto; try discriminate. Qed.

Lemma mse_ok : forall T (mag : T -> R) x y, well_formed x -> well_formed y -> same_shape x y ->
  mean_squared_error mag x y =
    Ok (average (map (fun q => (mag (fst q) - mag (snd q)) * (mag (fst q) - mag (snd q))) (combine (entries x) (entries y)))).
Proof.
  intros T mag x y Wx Wy Hs. unfold mean_squared_error.
  rewrite (walk2_ok _ _ _ false x y _ (fun a b s => s + (mag a - mag b) * (mag a - mag b))); auto; [|discriminate]. cbn [bind].
  rewrite (fold_total _ (fun q => (mag (fst q) - mag (snd q)) * (mag (fst q) - mag (snd q)))), Rplus_0_l.
  unfold average. rewrite map_length, combine_length, (same_entries _ _ x y), Nat.min_id, <- (same_entries _ _ x y), entries_length by auto. reflexivity.
Qed.

(** ** Scaling and normalisation *)
Lemma scale_obj_ok : forall a x, well_formed x -> scale_obj a x = Ok (obj_map (fun v => v * a) x).
Proof.
  intros a [v|r c m] Hw; cbn [scale_obj obj_map].
  - unfold scale_r; rewrite linalg_unary_ok. reflexivity.
  - destruct Hw as [Hr Hc].
    rewrite (for_range_tab _ [] r _ m (fun i => map (fun v => v * a) (nth i m []))); auto.
    + cbn [bind]. f_equal. f_equal. symmetry. apply (list_eq_tab _ []). { rewrite map_length; auto. }
      intros i Hi. replace (@nil R) with (map (fun v => v * a) []) at 1 by reflexivity. apply map_nth.
    + intros i l Hi Ll Hn. assert (Lr : length (nth i m []) = c) by (apply Hc, nth_In; lia).
      destruct (for_range_inv _ (fun j l' => l' = upd l i (map (fun v => v * a) (firstn j (nth i m [])) ++ skipn j (nth i m []))) 0 c
        (fun j m => bind (rd m i) (fun row => bind (rd row j) (fun v => bind (wr row j (v * a)) (fun row => wr m i row)))) l) as (l' & E & V).
      * lia.
      * cbn [firstn skipn map app]. apply (list_eq_nth _ []). { now rewrite upd_length. }
        intros q Hq. rewrite nth_upd. destruct (Nat.eqb_spec q i); [subst|reflexivity].
        destruct (Nat.ltb_spec i (length l)); cbn [andb]; [exact Hn|lia].
      * intros j s Hj ->. set (row := nth i m []) in *.
        assert (Ls : length (map (fun v => v * a) (firstn j row) ++ skipn j row) = c).
        { rewrite app_length, map_length, firstn_length, skipn_length. lia. }
        rewrite (rd_ok _ _ i []) by (rewrite upd_length; lia). cbn [bind]. rewrite nth_upd_eq by lia.
        rewrite (rd_ok _ _ j 0) by lia. cbn [bind].
        assert (Lf : length (map (fun v => v * a) (firstn j row)) = j) by (rewrite map_length, firstn_length; lia).
        rewrite app_nth2, Lf, Nat.sub_diag by lia. rewrite wr_ok by lia. cbn [bind]. rewrite wr_ok by (rewrite upd_length; lia).
        eexists. split; [reflexivity|].
        apply (list_eq_nth _ []). { now rewrite !upd_length. } intros q Hq. rewrite !upd_length in Hq.
        rewrite !nth_upd, !upd_length. destruct (Nat.eqb_spec q i); [|reflexivity]. subst q.
        destruct (Nat.ltb_spec i (length l)); cbn [andb]; [|lia].
        apply (list_eq_nth _ 0).
        { rewrite upd_length, Ls, app_length, map_length, firstn_length, skipn_length. lia. }
        intros t Ht. rewrite upd_length, Ls in Ht. rewrite nth_upd, Ls.
        assert (G : forall u, (u < c)%nat -> (u <= c)%nat) by lia.
        assert (NA : forall J, (J <= c)%nat -> nth t (map (fun v => v * a) (firstn J row) ++ skipn J row) 0 = if (t <? J)%nat then nth t row 0 * a else nth t row 0).
        { intros J HJ. destruct (Nat.ltb_spec t J).
          - rewrite app_nth1 by (rewrite map_length, firstn_length; lia).
            rewrite (nth_indep _ 0 (0 * a)) by (rewrite map_length, firstn_length; lia).
            rewrite (map_nth (fun v => v * a)). rewrite nth_firstn_lt by lia. reflexivity.
          - rewrite app_nth2 by (rewrite map_length, firstn_length; lia). rewrite map_length, firstn_length, nth_skipn_add. f_equal. lia. }
        rewrite !NA by lia. rewrite nth_skipn_add, Nat.add_0_r.
        destruct (Nat.eqb_spec t j), (Nat.ltb_spec t c), (Nat.ltb_spec t j), (Nat.ltb_spec t (S j)); cbn [andb]; try lia; subst; auto. destruct (Nat.ltb_spec j (length row)); [reflexivity|lia].
      * rewrite E, V. rewrite firstn_all2, skipn_all2, app_nil_r by lia. reflexivity.
Qed.

Lemma obj_map_entries : forall A B (f : A -> B) x, entries (obj_map f x) = map f (entries x).
Proof. intros A B f [v|r c m]; cbn; auto. now rewrite concat_map. Qed.

Lemma obj_map_wf : forall A B (f : A -> B) x, well_formed x -> well_formed (obj_map f x).
Proof.
  intros A B f [v|r c m]; cbn; auto. intros [Hr Hc]. split. { now rewrite map_length. }
  intros row H. apply in_map_iff in H. destruct H as (u & <- & H). rewrite map_length. auto.
Qed.

Lemma exact_true : forall x y, exact x y = true <-> x = y.
Proof. intros x y. unfold exact. destruct (Req_EM_T x y); split; auto; try discriminate. Qed.

Definition energy_factor (l : list R) : R := if exact (energy l) 0 then 1 else 1 / sqrt (energy l).

Lemma normalize_energy_factor_ok : forall x, well_formed x -> normalize_energy_factor x = Ok (energy_factor (entries x)).
Proof.
  intros x Hw. unfold normalize_energy_factor. rewrite fold_obj_ok; auto; [|discriminate]. cbn [bind].
  rewrite (fold_total _ (fun v => v * v)), Rplus_0_l. fold (energy (entries x)). unfold energy_factor. destruct (exact _ _); reflexivity.
Qed.

Lemma normalize_energy_ok : forall x, well_formed x ->
  normalize_energy x = Ok (obj_map (fun v => v * energy_factor (entries x)) x).
Proof. intros x Hw. unfold normalize_energy. rewrite normalize_energy_factor_ok by auto. cbn [bind]. apply scale_obj_ok. auto. Qed.

Lemma energy_nonneg : forall l, 0 <= energy l.
Proof. intros l. apply total_nonneg. intros v H. apply in_map_iff in H. destruct H as (u & <- & _). apply Rle_0_sqr. Qed.

Lemma energy_zero : forall l, energy l = 0 <-> forall v, In v l -> v = 0.
Proof.
  intros l. split.
  - intros E v Hv. assert (Q : v * v = 0); [|apply Rmult_integral in Q; lra]. apply (total_zero (map (fun v => v * v) l)); auto.
    + intros w H. apply in_map_iff in H. destruct H as (u & <- & _). apply Rle_0_sqr.
    + apply in_map_iff. eauto.
  - intros H. unfold energy. rewrite (total_ext _ _ (fun _ => 0)). { rewrite total_const. ring. } intros v Hv. rewrite (H v Hv). ring.
Qed.

Lemma energy_scale : forall a l, energy (map (fun v => v * a) l) = a * a * energy l.
Proof. intros a l. unfold energy. rewrite map_map, <- total_scale. apply total_ext. intros; ring. Qed.

Lemma energy_factor_pos : forall l, 0 < energy_factor l.
Proof.
  intros l. unfold energy_factor. destruct (exact (energy l) 0) eqn:E; [lra|].
  assert (energy l <> 0) by (intros H; apply exact_true in H; congruence). pose proof (energy_nonneg l).
  apply Rmult_lt_0_compat; [lra|]. apply Rinv_0_lt_compat, sqrt_lt_R0. lra.
Qed.

Lemma energy_factor_unit : forall l, energy l <> 0 -> energy_factor l * energy_factor l * energy l = 1.
Proof.
  intros l H. pose proof (energy_nonneg l). unfold energy_factor. destruct (exact (energy l) 0) eqn:E; [apply exact_true in E; contradiction|].
  assert (P : 0 < sqrt (energy l)) by (apply sqrt_lt_R0; lra). rewrite <- (sqrt_sqrt (energy l)) at 3 by lra. field. lra.
Qed.

Lemma energy_factor_scale : forall c l, 0 < c -> energy l <> 0 -> energy_factor (map (fun v => v * c) l) = energy_factor l / c.
Proof.
  intros c l Hc H. pose proof (energy_nonneg l). unfold energy_factor. rewrite energy_scale.
  destruct (exact (energy l) 0) eqn:E; [apply exact_true in E; contradiction|].
  destruct (exact (c * c * energy l) 0) eqn:E2; [apply exact_true in E2; apply Rmult_integral in E2; destruct E2 as [E2|E2]; [apply Rmult_integral in E2; lra|contradiction]|].
  rewrite sqrt_mult by nra. rewrite sqrt_square by lra. field. split; [|lra]. apply Rgt_not_eq, sqrt_lt_R0. lra.
Qed.

(** Peak. *)
Definition peak_of (l : list R) : R := fold_left (fun s v => Rmax s (Rabs v)) l 0.

Lemma fold_peak : forall l s, (forall v, In v l -> Rabs v <= fold_left (fun s v => Rmax s (Rabs v)) l s) /\
  s <= fold_left (fun s v => Rmax s (Rabs v)) l s /\
  (fold_left (fun s v => Rmax s (Rabs v)) l s = s \/ exists v, In v l /\ Rabs v = fold_left (fun s v => Rmax s (Rabs v)) l s).
Proof.
  induction l; intros s; cbn [fold_left]. { split; [intros v []|]. split; [lra|auto]. }
  destruct (IHl (Rmax s (Rabs a))) as (H1 & H2 & H3). pose proof (Rmax_l s (Rabs a)). pose proof (Rmax_r s (Rabs a)).
  split; [|split].
  - intros v [->|Hv]; [lra|auto].
  - lra.
  - destruct H3 as [E|(v & Hv & E)].
    + destruct (Rle_dec s (Rabs a)).
      * right. exists a. split; [left; auto|]. rewrite E. symmetry. apply Rmax_right. auto.
      * left. rewrite E. apply Rmax_left. lra.
    + right. exists v. split; [right|]; auto.
Qed.

Lemma peak_of_spec : forall l, l <> [] -> is_peak l (peak_of l).
Proof.
  intros l Hl. destruct (fold_peak l 0) as (H1 & H2 & H3). split; auto. fold (peak_of l) in *. destruct H3 as [E|H]; auto.
  destruct l as [|a l]; [congruence|]. exists a. split; [left; auto|].
  pose proof (H1 a ltac:(left; auto)). pose proof (Rabs_pos a). lra.
Qed.

Lemma peak_nonneg : forall l, 0 <= peak_of l.
Proof. intros l. apply fold_peak. Qed.

Lemma peak_zero : forall l, peak_of l = 0 <-> forall v, In v l -> v = 0.
Proof.
  intros l. split.
  - intros E v Hv. destruct (fold_peak l 0) as (H1 & _). fold (peak_of l) in H1. rewrite E in H1. specialize (H1 v Hv).
    pose proof (Rabs_pos v). destruct (Req_dec v 0); auto. apply Rabs_no_R0 in H0. lra.
  - intros H. destruct (fold_peak l 0) as (_ & _ & [E|(v & Hv & E)]); auto. unfold peak_of. rewrite <- E, (H v Hv). apply Rabs_R0.
Qed.

Lemma is_peak_unique : forall l p q, is_peak l p -> is_peak l q -> p = q.
Proof. intros l p q [H1 (v & Hv & E)] [H2 (u & Hu & F)]. specialize (H1 u Hu). specialize (H2 v Hv). lra. Qed.

Lemma peak_scale : forall a l, 0 <= a -> peak_of (map (fun v => v * a) l) = peak_of l * a.
Proof.
  intros a l Ha. destruct l as [|b l']. { cbn. unfold peak_of. cbn. ring. } set (l := b :: l') in *.
  apply (is_peak_unique (map (fun v => v * a) l)). { apply peak_of_spec. discriminate. }
  destruct (peak_of_spec l ltac:(discriminate)) as [H1 (v & Hv & E)]. split.
  - intros w Hw. apply in_map_iff in Hw. destruct Hw as (u & <- & Hu). rewrite Rabs_mult, (Rabs_right a) by lra. apply Rmult_le_compat_r; auto.
  - exists (v * a). split. { apply in_map_iff. eauto. } rewrite Rabs_mult, (Rabs_right a) by lra. rewrite E. reflexivity.
Qed.

Definition peak_factor (l : list R) : R := if exact (peak_of l) 0 then 1 else 1 / peak_of l.

Lemma normalize_peak_factor_ok : forall x, well_formed x -> normalize_peak_factor x = Ok (peak_factor (entries x)).
Proof.
  intros x Hw. unfold normalize_peak_factor.
  assert (G : bind (fold_obj false x (fun v abs_max => Rmax abs_max (Rabs v)) 0)
    (fun abs_max => if exact abs_max 0 then Ok 1 else Ok (1 / Rabs abs_max)) = Ok (peak_factor (entries x))).
  { rewrite fold_obj_ok; auto; [|discriminate]. cbn [bind]. fold (peak_of (entries x)). unfold peak_factor.
    rewrite (Rabs_right (peak_of (entries x))) by (apply Rle_ge, peak_nonneg). destruct (exact _ _); reflexivity. }
  match goal with |- (if ?e then _ else _) = _ => destruct e eqn:E end; [|exact G].
  f_equal. assert (En : entries x = []).
  { destruct x as [v|r c m]. { apply Nat.eqb_eq in E. destruct v; [auto|discriminate]. }
    apply andb_true_iff in E. destruct E as [E _]. apply Nat.eqb_eq in E. destruct Hw as [Hr _]. destruct m; [auto|cbn in Hr; lia]. }
  rewrite En. unfold peak_factor. replace (exact (peak_of []) 0) with true; auto. symmetry. apply exact_true. reflexivity.
Qed.

Lemma normalize_peak_ok : forall x, well_formed x -> normalize_peak x = Ok (obj_map (fun v => v * peak_factor (entries x)) x).
Proof. intros x Hw. unfold normalize_peak. rewrite normalize_peak_factor_ok by auto. cbn [bind]. apply scale_obj_ok. auto. Qed.

Lemma peak_factor_pos : forall l, 0 < peak_factor l.
Proof.
  intros l. unfold peak_factor. destruct (exact (peak_of l) 0) eqn:E; [lra|].
  assert (peak_of l <> 0) by (intros H; apply exact_true in H; congruence). pose proof (peak_nonneg l).
  apply Rmult_lt_0_compat; [lra|]. apply Rinv_0_lt_compat. lra.
Qed.

(** Impulse responses. *)
Definition impulse_factor (m : list (list R)) : R :=
  match m with [] => 1 | c :: t => fold_left (fun s ch => Rmin s (energy_factor ch)) t (energy_factor c) end.

Lemma normalize_impulse_ok : forall r c m, well_formed (Mat r c m) ->
  normalize_impulse (Mat r c m) = Ok (obj_map (fun v => v * impulse_factor m) (Mat r c m)).
Proof.
  intros r c m [Hr Hc]. cbn [normalize_impulse]. destruct (Nat.ltb_spec r 1).
  - destruct m; [reflexivity|cbn in Hr; lia].
  - destruct m as [|c0 m]; [cbn in Hr; lia|]. cbn [rd nth_error bind]. rewrite normalize_energy_factor_ok by exact I. cbn [bind entries].
    destruct (for_range_inv _ (fun i f => f = fold_left (fun s ch => Rmin s (energy_factor ch)) (firstn (i - 1) m) (energy_factor c0)) 1 r
      (fun ch factor => bind (rd (c0 :: m) ch) (fun channel => bind (normalize_energy_factor (Vec channel)) (fun f => Ok (Rmin factor f))))
      (energy_factor c0)) as (f & E & V); auto.
    + intros j s Hj ->. rewrite (rd_ok _ _ j []) by (rewrite Hr; lia). cbn [bind]. rewrite normalize_energy_factor_ok by exact I. cbn [bind entries].
      eexists. split; [reflexivity|]. destruct j as [|j]; [lia|]. cbn [nth]. replace (S (S j) - 1)%nat with (S j) by lia.
      replace (S j - 1)%nat with j by lia. cbn [length] in Hr.
      assert (F : firstn (S j) m = firstn j m ++ [nth j m []]).
      { clear - Hj Hr. assert (Hjm : (j < length m)%nat) by lia. clear Hj Hr. revert m Hjm. induction j; intros [|a m] H; cbn in H; try lia; auto.
        cbn [firstn nth app]. f_equal. apply IHj. lia. }
      rewrite F, fold_left_app. reflexivity.
    + rewrite E. cbn [bind]. rewrite V. cbn [length] in Hr. rewrite firstn_all2 by lia.
      apply (scale_obj_ok _ (Mat r c (c0 :: m))). split; auto.
Qed.

Lemma fold_min : forall (l : list (list R)) s, fold_left (fun s ch => Rmin s (energy_factor ch)) l s <= s /\
  (forall ch, In ch l -> fold_left (fun s ch => Rmin s (energy_factor ch)) l s <= energy_factor ch) /\
  (fold_left (fun s ch => Rmin s (energy_factor ch)) l s = s \/ exists ch, In ch l /\ fold_left (fun s ch => Rmin s (energy_factor ch)) l s = energy_factor ch).
Proof.
  induction l; intros s; cbn [fold_left]. { split; [lra|]. split; [intros ch []|auto]. }
  destruct (IHl (Rmin s (energy_factor a))) as (H1 & H2 & H3). pose proof (Rmin_l s (energy_factor a)). pose proof (Rmin_r s (energy_factor a)).
  split; [lra|]. split.
  - intros ch [->|Hc]; [lra|auto].
  - destruct H3 as [E|(ch & Hc & E)]; [|right; exists ch; split; [right|]; auto].
    destruct (Rle_dec s (energy_factor a)).
    + left. rewrite E. apply Rmin_left. auto.
    + right. exists a. split; [left; auto|]. rewrite E. apply Rmin_right. lra.
Qed.

Lemma impulse_factor_spec : forall m, m <> [] ->
  (forall ch, In ch m -> impulse_factor m <= energy_factor ch) /\ exists ch, In ch m /\ impulse_factor m = energy_factor ch.
Proof.
  intros [|c m] H; [congruence|]. cbn [impulse_factor]. destruct (fold_min m (energy_factor c)) as (H1 & H2 & H3). split.
  - intros ch [<-|Hc]; auto.
  - destruct H3 as [E|(ch & Hc & E)]; [exists c; split; [left|]; auto|exists ch; split; [right|]; auto].
Qed.

(** Mismatched extents, rank 1. *)
Lemma allmatch2_prefix : forall A B (v : list A) (w z : list B) p, (length v <= length w)%nat ->
  allmatch2 (Vec v) (Vec (w ++ z)) p = allmatch2 (Vec v) (Vec w) p.
Proof.
  intros A B v w z p H. unfold allmatch2, walk2, loop_over, for_int. apply for_range_ext. intros i s Hi.
  replace (rd (w ++ z) i) with (rd w i); auto. unfold rd. rewrite nth_error_app1 by lia. reflexivity.
Qed.

Lemma allmatch2_longer_ub : forall A B (da : A) (db : B) (v : list A) (w : list B) p, (length w < length v)%nat ->
  (Z.of_nat (length w) < 2 ^ 31)%Z ->
  (forall i, (i < length w)%nat -> p (nth i v da) (nth i w db) = true) -> allmatch2 (Vec v) (Vec w) p = UB.
Proof.
  intros A B da db v w p H Hi Hp. unfold allmatch2, walk2, loop_over, for_int.
  rewrite (for_range_split _ 0 (length w)) by lia.
  destruct (for_range_inv _ (fun _ s => s = true) 0 (length w) (fun i (s : bool) => bind ((fun i (s : bool) => if s then bind (rd v i) (fun a => bind (rd w i) (fun b => Ok (p a b))) else Ok false) i s)
    (fun s => bind (guard (Z.of_nat i + 1 <? 2 ^ 31)%Z) (fun _ => Ok s))) true) as (s & E & V); auto; try lia.
  { intros j s Hj ->. rewrite (rd_ok _ _ j da), (rd_ok _ _ j db) by lia. cbn [bind]. rewrite Hp by lia.
    replace (Z.of_nat j + 1 <? 2 ^ 31)%Z with true by (symmetry; apply Z.ltb_lt; lia). cbn. eauto. }
  cbv beta in E. rewrite E. subst s. cbn [bind]. rewrite for_range_S by lia.
  rewrite (rd_ok _ _ _ da) by lia. rewrite rd_ub by lia. reflexivity.
Qed.

Lemma combine_map_map : forall A B (f g : A -> B) (l : list A), combine (map f l) (map g l) = map (fun v => (f v, g v)) l.
Proof. intros. induction l; cbn; congruence. Qed.

Lemma combine_swap : forall A B (l : list A) (k : list B), combine k l = map (fun q => (snd q, fst q)) (combine l k).
Proof. induction l; intros [|b k]; cbn; auto. f_equal. apply IHl. Qed.

Lemma shape_sym : forall A B (x : object A) (y : object B), same_shape x y -> same_shape y x.
Proof. intros A B [v|r c m] [w|r' c' n]; cbn; auto. intros [-> ->]; auto. Qed.

Lemma shape_refl : forall A (x : object A), same_shape x x.
Proof. intros A [v|r c m]; cbn; auto. Qed.

Lemma shape_ints : forall A B (x : object A) (y : object B), same_shape x y -> int_extents x -> int_extents y.
Proof. intros A B [v|r c m] [w|r' c' n]; cbn; try contradiction. { intros ->; auto. } intros [-> ->]; auto. Qed.

Lemma app_inv_len : forall A (a b u v : list A), length a = length b -> a ++ u = b ++ v -> a = b /\ u = v.
Proof.
  induction a; intros [|c b] u v L E; cbn in L, E; try lia; auto. inversion E; subst. destruct (IHa b u v) as [-> ->]; auto.
Qed.

Lemma shape_entries_eq : forall A (x y : object A), well_formed x -> well_formed y -> same_shape x y -> entries x = entries y -> x = y.
Proof.
  intros A [v|r c m] [w|r' c' n]; cbn; try contradiction. { congruence. }
  intros [Hr Hc] [Hr' Hc'] [<- <-] E. f_equal. assert (L : length m = length n) by lia. clear Hr Hr'. revert n L Hc' E.
  induction m; intros [|b n] L Hc' E; cbn in L; try lia; auto. cbn in E.
  assert (La : length a = length b) by (rewrite (Hc a), (Hc' b) by (left; auto); auto).
  apply app_inv_len in E; auto. destruct E as [-> E]. f_equal. apply IHm; auto.
  - intros; apply Hc; right; auto.
  - intros; apply Hc'; right; auto.
Qed.

Lemma combine_eq : forall A (l k : list A), length l = length k -> (forall q, In q (combine l k) -> fst q = snd q) -> l = k.
Proof.
  induction l; intros [|b k] L H; cbn in L; try lia; auto. f_equal.
  - apply (H (a, b)). left; auto.
  - apply IHl; [lia|]. intros q Hq. apply H. right; auto.
Qed.

Lemma obj_map_ext : forall A B (f g : A -> B) x, (forall v, In v (entries x) -> f v = g v) -> obj_map f x = obj_map g x.
Proof.
  intros A B f g [v|r c m] H; cbn in *. { f_equal. apply map_ext_in. auto. }
  f_equal. apply map_ext_in. intros row Hr. apply map_ext_in. intros u Hu. apply H. apply in_concat. eauto.
Qed.

Lemma obj_map_map : forall A B D (f : A -> B) (g : B -> D) x, obj_map g (obj_map f x) = obj_map (fun v => g (f v)) x.
Proof. intros A B D f g [v|r c m]; cbn. { now rewrite map_map. } f_equal. rewrite map_map. apply map_ext. intros; apply map_map. Qed.

Lemma obj_map_same : forall A (f : A -> A) x, (forall v, In v (entries x) -> f v = v) -> obj_map f x = x.
Proof.
  intros A f [v|r c m] H; cbn in *. { f_equal. rewrite (map_ext_in _ (fun v => v)) by auto. apply map_id. }
  f_equal. rewrite (map_ext_in _ (fun v => v)). { apply map_id. }
  intros row Hr. rewrite (map_ext_in _ (fun v => v)). { apply map_id. } intros u Hu. apply H, in_concat. eauto.
Qed.

Lemma energy_factor_one : forall l, energy l = 0 \/ energy l = 1 -> energy_factor l = 1.
Proof.
  intros l [H|H]; unfold energy_factor; rewrite H; destruct (exact _ 0) eqn:E; auto.
  - assert (exact 0 0 = true) by (apply exact_true; auto). congruence.
  - rewrite sqrt_1. lra.
Qed.

Lemma peak_factor_one : forall l, peak_of l = 0 \/ peak_of l = 1 -> peak_factor l = 1.
Proof.
  intros l [H|H]; unfold peak_factor; rewrite H; destruct (exact _ 0) eqn:E; auto.
  - assert (exact 0 0 = true) by (apply exact_true; auto). congruence.
  - lra.
Qed.

Lemma energy_normalised : forall l, energy l <> 0 -> energy (map (fun v => v * energy_factor l) l) = 1.
Proof. intros l H. rewrite energy_scale. apply energy_factor_unit. auto. Qed.

Lemma peak_normalised : forall l, peak_of l <> 0 -> peak_of (map (fun v => v * peak_factor l) l) = 1.
Proof.
  intros l H. rewrite peak_scale by (apply Rlt_le, peak_factor_pos). unfold peak_factor.
  destruct (exact (peak_of l) 0) eqn:E; [apply exact_true in E; contradiction|]. field. auto.
Qed.

Lemma peak_factor_scale : forall c l, 0 < c -> peak_of l <> 0 -> peak_factor (map (fun v => v * c) l) = peak_factor l / c.
Proof.
  intros c l Hc H. unfold peak_factor. rewrite peak_scale by lra.
  destruct (exact (peak_of l) 0) eqn:E; [apply exact_true in E; contradiction|].
  destruct (exact (peak_of l * c) 0) eqn:E2; [apply exact_true in E2; apply Rmult_integral in E2; destruct E2; [contradiction|lra]|].
  field. split; lra.
Qed.
