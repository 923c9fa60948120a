(** Finite sums over a commutative ring. *)
From Coq Require Import List Arith Lia Ring Ring_theory Permutation.
Import ListNotations.

Lemma NoDup_map_in : forall (X Y : Type) (s : X -> Y) l,
  (forall x y, In x l -> In y l -> s x = s y -> x = y) -> NoDup l -> NoDup (map s l).
Proof.
  induction l; simpl; intros H N; [constructor|].
  inversion N; subst. constructor.
  - intro Hin. apply in_map_iff in Hin. destruct Hin as [y [E Hy]].
    apply H in E; auto. subst. contradiction.
  - apply IHl; auto.
Qed.

Section Sums.
Variable A : Type.
Variables (z0 o1 : A) (add mul sub : A -> A -> A) (opp : A -> A).
Hypothesis Ath : ring_theory z0 o1 add mul sub opp (@eq A).
Add Ring ARing : Ath.
Local Infix "+" := add.
Local Infix "*" := mul.
Local Infix "-" := sub.

(** [bsum n f] = f 0 + f 1 + ... + f (n-1) *)
Fixpoint bsum (n : nat) (f : nat -> A) : A :=
  match n with
  | O => z0
  | S m => bsum m f + f m
  end.

Lemma bsum_ext : forall n f g, (forall i, i < n -> f i = g i) -> bsum n f = bsum n g.
Proof.
  induction n; simpl; intros; auto.
  rewrite (IHn f g) by auto. rewrite (H n) by lia. auto.
Qed.

Lemma bsum_0 : forall n f, (forall i, i < n -> f i = z0) -> bsum n f = z0.
Proof.
  induction n; simpl; intros; auto. rewrite IHn by auto. rewrite H by lia. ring.
Qed.

Lemma bsum_add : forall n f g, bsum n (fun i => f i + g i) = bsum n f + bsum n g.
Proof. induction n; simpl; intros. ring. rewrite IHn. ring. Qed.

Lemma bsum_sub : forall n f g, bsum n (fun i => f i - g i) = bsum n f - bsum n g.
Proof. induction n; simpl; intros. ring. rewrite IHn. ring. Qed.

Lemma bsum_opp : forall n f, bsum n (fun i => opp (f i)) = opp (bsum n f).
Proof. induction n; simpl; intros. ring. rewrite IHn. ring. Qed.

Lemma bsum_mul_l : forall n c f, bsum n (fun i => c * f i) = c * bsum n f.
Proof. induction n; simpl; intros. ring. rewrite IHn. ring. Qed.

Lemma bsum_mul_r : forall n c f, bsum n (fun i => f i * c) = bsum n f * c.
Proof. induction n; simpl; intros. ring. rewrite IHn. ring. Qed.

Lemma bsum_split : forall n m f, bsum (n + m) f = bsum n f + bsum m (fun i => f (n + i)%nat).
Proof.
  induction m; intros; simpl.
  - rewrite Nat.add_0_r. ring.
  - rewrite Nat.add_succ_r. simpl. rewrite IHm. ring.
Qed.

Lemma bsum_first : forall n f, bsum (S n) f = f 0 + bsum n (fun i => f (S i)).
Proof.
  intros. replace (S n) with (1 + n)%nat by lia. rewrite bsum_split. simpl. ring.
Qed.

Lemma bsum_le : forall n m f, n <= m -> (forall i, n <= i < m -> f i = z0) -> bsum m f = bsum n f.
Proof.
  intros. replace m with (n + (m - n))%nat by lia. rewrite bsum_split.
  rewrite (bsum_0 (m - n)). ring. intros. apply H0. lia.
Qed.

Lemma bsum_swap : forall n m (f : nat -> nat -> A),
  bsum n (fun i => bsum m (fun j => f i j)) = bsum m (fun j => bsum n (fun i => f i j)).
Proof.
  induction n; intros; simpl.
  - symmetry. apply bsum_0. auto.
  - rewrite IHn. rewrite <- bsum_add. auto.
Qed.

Lemma bsum_single : forall n k f, k < n -> (forall i, i < n -> i <> k -> f i = z0) -> bsum n f = f k.
Proof.
  induction n; intros; try lia. simpl.
  destruct (Nat.eq_dec k n).
  - subst. rewrite bsum_0. ring. intros. apply H0; lia.
  - rewrite (IHn k) by (intros; try apply H0; lia). rewrite (H0 n) by lia. ring.
Qed.

Lemma bsum_block : forall a b f,
  bsum (a * b)%nat f = bsum a (fun i => bsum b (fun j => f (i * b + j)%nat)).
Proof.
  induction a; intros; simpl; auto.
  rewrite (Nat.add_comm b). rewrite bsum_split. rewrite IHa. auto.
Qed.

Lemma bsum_stride : forall a b f,
  bsum (a * b)%nat f = bsum b (fun j => bsum a (fun i => f (i * b + j)%nat)).
Proof. intros. rewrite bsum_block. apply bsum_swap. Qed.

Lemma bsum_rev : forall n f, bsum n f = bsum n (fun i => f (n - 1 - i)%nat).
Proof.
  induction n; intros; auto.
  rewrite bsum_first. simpl. rewrite IHn.
  replace (n - 0 - n)%nat with 0 by lia.
  rewrite (bsum_ext n (fun i => f (S (n - 1 - i))%nat) (fun i => f (n - 0 - i)%nat)).
  ring. intros. f_equal. lia.
Qed.

(** Sum over a list of indices. *)
Definition lsum (l : list nat) (f : nat -> A) : A := fold_right (fun i s => f i + s) z0 l.

Lemma lsum_app : forall l l' f, lsum (l ++ l') f = lsum l f + lsum l' f.
Proof. induction l; simpl; intros. ring. rewrite IHl. ring. Qed.

Lemma bsum_lsum : forall n f, bsum n f = lsum (seq 0 n) f.
Proof.
  induction n; intros; auto.
  rewrite seq_S, lsum_app. simpl. rewrite IHn. ring.
Qed.

Lemma lsum_perm : forall l l' f, Permutation l l' -> lsum l f = lsum l' f.
Proof.
  intros l l' f H. induction H; simpl; auto.
  - rewrite IHPermutation; auto.
  - ring.
  - congruence.
Qed.

Lemma lsum_map : forall l (s : nat -> nat) f, lsum (map s l) f = lsum l (fun i => f (s i)).
Proof. induction l; simpl; intros; auto. rewrite IHl. auto. Qed.

(** Re-indexing by a permutation of [0..n-1]. *)
Lemma bsum_reindex : forall n (s : nat -> nat) f,
  (forall i, i < n -> s i < n) ->
  (forall i j, i < n -> j < n -> s i = s j -> i = j) ->
  bsum n f = bsum n (fun i => f (s i)).
Proof.
  intros n s f Hr Hi.
  rewrite (bsum_lsum n f), (bsum_lsum n (fun i => f (s i))).
  rewrite <- (lsum_map (seq 0 n) s f). apply lsum_perm. symmetry.
  apply NoDup_Permutation_bis.
  - apply NoDup_map_in; [|apply seq_NoDup].
    intros x y Hx Hy. apply in_seq in Hx. apply in_seq in Hy. apply Hi; lia.
  - rewrite map_length. auto.
  - intros x Hx. apply in_map_iff in Hx. destruct Hx as [y [E Hy]].
    apply in_seq in Hy. apply in_seq. subst x. specialize (Hr y). lia.
Qed.

(** Cyclic shift. *)
Lemma bsum_cyclic : forall n k f, 0 < n -> bsum n f = bsum n (fun i => f ((i + k) mod n)%nat).
Proof.
  intros. apply (bsum_reindex n (fun i => (i + k) mod n)%nat).
  - intros. apply Nat.mod_upper_bound. lia.
  - intros i j Hi Hj E.
    pose proof (Nat.div_mod (i + k) n). pose proof (Nat.div_mod (j + k) n).
    rewrite E in *.
    assert (((i + k) / n = (j + k) / n)%nat).
    { destruct (Nat.lt_trichotomy ((i + k) / n) ((j + k) / n)) as [L|[L|L]]; auto; exfalso.
      - assert (n * ((i + k) / n) + n <= n * ((j + k) / n))%nat by nia. lia.
      - assert (n * ((j + k) / n) + n <= n * ((i + k) / n))%nat by nia. lia. }
    rewrite H2 in *. lia.
Qed.

(** Geometric sum. *)
Fixpoint rpow (a : A) (n : nat) : A :=
  match n with
  | O => o1
  | S m => rpow a m * a
  end.

Lemma rpow_add : forall a n m, rpow a (n + m)%nat = rpow a n * rpow a m.
Proof.
  induction m; simpl.
  - rewrite Nat.add_0_r. ring.
  - rewrite Nat.add_succ_r. simpl. rewrite IHm. ring.
Qed.

Lemma rpow_mul : forall a n m, rpow a (n * m)%nat = rpow (rpow a n) m.
Proof.
  induction m; simpl.
  - rewrite Nat.mul_0_r. auto.
  - rewrite Nat.mul_succ_r, rpow_add, IHm. auto.
Qed.

Lemma bsum_geom : forall a n, (a - o1) * bsum n (rpow a) = rpow a n - o1.
Proof.
  induction n; simpl. ring.
  transitivity ((a - o1) * bsum n (rpow a) + (a - o1) * rpow a n). ring.
  rewrite IHn. ring.
Qed.

(** Product of two sums. *)
Lemma bsum_prod : forall n m f g,
  bsum n f * bsum m g = bsum n (fun i => bsum m (fun j => f i * g j)).
Proof.
  intros. rewrite <- bsum_mul_r. apply bsum_ext. intros. rewrite bsum_mul_l. auto.
Qed.

(** Indicator-weighted sum over a sub-range. *)
Lemma bsum_range : forall n lo len f, (lo + len <= n)%nat ->
  bsum n (fun i => if andb (lo <=? i) (i <? lo + len) then f i else z0)
  = bsum len (fun i => f (lo + i)%nat).
Proof.
  intros. replace n with (lo + (len + (n - lo - len)))%nat by lia.
  rewrite bsum_split, bsum_split.
  rewrite (bsum_0 lo), (bsum_0 (n - lo - len)).
  - rewrite (bsum_ext len _ (fun i => f (lo + i)%nat)). ring.
    intros. destruct (Nat.leb_spec lo (lo + i)); destruct (Nat.ltb_spec (lo + i) (lo + len)); simpl; auto; lia.
  - intros. destruct (Nat.ltb_spec (lo + (len + i)) (lo + len)); try lia.
    rewrite Bool.andb_false_r. auto.
  - intros. destruct (Nat.leb_spec lo i); auto; lia.
Qed.

End Sums.

Arguments bsum {A} z0 add n f.
Arguments rpow {A} o1 mul a n.
