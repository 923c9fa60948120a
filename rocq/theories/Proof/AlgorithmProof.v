(** Proofs about the element-wise algorithms. *)
From Coq Require Import Reals List Arith Bool Lia.
From Verif Require Import Base.Outcome Base.OutcomeFacts Base.Alias Base.Cplx Model.Algorithm Spec.Views.
Import ListNotations.
Local Arguments Nat.div : simpl never.
Local Arguments Nat.modulo : simpl never.

(** ** Lists *)
Lemma linalg_unary_ok : forall T (op : T -> T) obj, linalg_unary_op op obj = Ok (map op obj).
Proof.
  intros T op obj. unfold linalg_unary_op. destruct obj as [|d t]. { reflexivity. }
  set (obj := d :: t). rewrite (for_range_tab T d (length obj) _ obj (fun i => op (nth i obj d))); auto.
  - f_equal. symmetry. apply list_eq_tab with (d := op d).
    + apply map_length.
    + intros. apply map_nth.
  - intros j l Hj Hl Hn. rewrite (rd_ok _ l j d) by lia. cbn [bind]. rewrite wr_ok by lia. rewrite Hn. auto.
Qed.

Lemma linalg_binary_ok : forall T (op : T -> T -> T) x y out,
  length (contents x out) = length out -> length (contents y out) = length out ->
  linalg_binary_op op x y out = Ok (zip_with op (contents x out) (contents y out)).
Proof.
  intros T op x y out Hx Hy. unfold linalg_binary_op.
  destruct out as [|d t] eqn:E.
  { rewrite Hx. simpl. destruct (contents x []); [reflexivity|discriminate]. }
  rewrite <- E in *. assert (Hd : out = d :: t) by auto. clear E.
  rewrite (zip_with_tab _ _ _ op _ _ d d) by lia. rewrite Hx.
  apply for_range_tab with (d := d); auto. intros j l Hj Hl Hn.
  rewrite (rd_ok _ (contents x l) j d) by (rewrite (contents_length _ x l out) by auto; lia).
  rewrite (rd_ok _ (contents y l) j d) by (rewrite (contents_length _ y l out) by auto; lia). cbn [bind].
  rewrite wr_ok by lia. rewrite (contents_nth _ x l out j d), (contents_nth _ y l out j d) by auto. auto.
Qed.

Lemma fill_ok : forall T (v : T) obj, fill v obj = Ok (repeat v (length obj)).
Proof.
  intros. unfold fill. rewrite linalg_unary_ok. f_equal. induction obj; simpl; congruence.
Qed.

Lemma copy_ok : forall A B (conv : A -> B) inp out, length inp <= length out ->
  copy conv inp out = Ok (map conv inp ++ skipn (length inp) out).
Proof.
  intros A B conv inp out H. unfold copy.
  destruct inp as [|d t]. { reflexivity. } set (inp := d :: t) in *.
  destruct (for_range_map B (conv d) 0 (length inp)
    (fun i out => v <- rd inp i ;; wr out i (conv v)) out (fun i => conv (nth i inp d))) as [y [E [L V]]]; auto.
  - intros j l Hj Hl Hn. rewrite (rd_ok _ inp j d) by lia. cbn [bind]. apply wr_ok. lia.
  - rewrite E. f_equal. apply (list_eq_nth _ (conv d)).
    + rewrite app_length, map_length, skipn_length. lia.
    + intros i Hi. rewrite V by lia. rewrite Nat.leb_refl || idtac.
      destruct (Nat.ltb_spec i (length inp)).
      * cbn [andb Nat.leb]. rewrite app_nth1 by (rewrite map_length; auto). rewrite map_nth. auto.
      * rewrite andb_false_r. rewrite app_nth2 by (rewrite map_length; auto). rewrite map_length, nth_skipn_add.
        f_equal. lia.
Qed.

Lemma copy_full : forall A B (conv : A -> B) inp out, length inp = length out -> copy conv inp out = Ok (map conv inp).
Proof.
  intros. rewrite copy_ok by lia. rewrite skipn_all2 by lia. rewrite app_nil_r. auto.
Qed.

Lemma copy_too_short : forall A B (conv : A -> B) inp out, length out < length inp -> copy conv inp out = UB.
Proof.
  intros A B conv inp out H. unfold copy. rewrite (for_range_split _ 0 (length out)) by lia.
  destruct inp as [|d t]. { simpl in H. lia. } set (inp := d :: t) in *.
  destruct (for_range_map B (conv d) 0 (length out)
    (fun i out => v <- rd inp i ;; wr out i (conv v)) out (fun i => conv (nth i inp d))) as [y [E [L V]]]; auto.
  - intros j l Hj Hl Hn. rewrite (rd_ok _ inp j d) by lia. cbn [bind]. apply wr_ok. lia.
  - rewrite E. cbn [bind]. rewrite for_range_S by lia. rewrite (rd_ok _ inp _ d) by lia. cbn [bind].
    rewrite wr_ub by lia. reflexivity.
Qed.

Lemma copy_to_split_ok : forall inp re im, length re = length inp -> length im = length inp ->
  copy_to_split inp (re, im) = Ok (map fst inp, map snd inp).
Proof.
  intros inp re im Hr Hi. unfold copy_to_split.
  destruct (for_range_inv _ (fun j (o : list R * list R) => length (fst o) = length inp /\ length (snd o) = length inp /\
     forall i, i < j -> nth i (fst o) 0%R = fst (nth i inp C0) /\ nth i (snd o) 0%R = snd (nth i inp C0))
     0 (length inp) (fun i out => v <- rd inp i ;; re <- wr (fst out) i (fst v) ;;
    im <- wr (snd out) i (snd v) ;; Ok (re, im)) (re, im)) as [[a b] [E [L1 [L2 V]]]].
  - lia.
  - simpl. repeat split; auto; lia.
  - intros j [a b] Hj [L1 [L2 V]]. simpl fst in *. simpl snd in *.
    rewrite (rd_ok _ inp j C0) by lia. cbn [bind]. rewrite !wr_ok by lia. cbn [bind].
    eexists. split; [reflexivity|]. simpl. rewrite !upd_length. repeat split; auto.
    + destruct (Nat.eq_dec i j). { subst. apply nth_upd_eq. lia. } rewrite nth_upd_neq by auto. apply V. lia.
    + destruct (Nat.eq_dec i j). { subst. apply nth_upd_eq. lia. } rewrite nth_upd_neq by auto. apply V. lia.
  - rewrite E. simpl in *. f_equal. f_equal.
    + apply (list_eq_nth _ 0%R). { rewrite map_length; auto. } intros i Hi'. rewrite (proj1 (V i ltac:(lia))).
      change 0%R with (fst C0). rewrite map_nth. auto.
    + apply (list_eq_nth _ 0%R). { rewrite map_length; auto. } intros i Hi'. rewrite (proj2 (V i ltac:(lia))).
      change 0%R with (snd C0). rewrite map_nth. auto.
Qed.

Lemma copy_from_split_ok : forall re im out, length re = length out -> length im = length out ->
  copy_from_split (re, im) out = Ok (combine re im).
Proof.
  intros re im out Hr Hi. unfold copy_from_split. simpl fst. simpl snd.
  rewrite (for_range_tab C C0 (length re) _ out (fun i => (nth i re 0%R, nth i im 0%R))); auto.
  - f_equal. symmetry. apply list_eq_tab with (d := C0).
    + etransitivity; [apply combine_length|]. lia.
    + intros i H. apply combine_nth. lia.
  - intros j l Hj Hl _. rewrite (rd_ok _ re j 0%R), (rd_ok _ im j 0%R) by lia. cbn [bind]. apply wr_ok. lia.
Qed.

Lemma multiply_add_c_ok : forall x y z out,
  length (contents x out) = length out -> length (contents y out) = length out -> length (contents z out) = length out ->
  multiply_add_c x y z out = Ok (tab (length out) (fun i =>
    nth i (contents x out) C0 * nth i (contents y out) C0 + nth i (contents z out) C0)%C).
Proof.
  intros x y z out Hx Hy Hz. unfold multiply_add_c. rewrite Hx.
  apply for_range_tab with (d := C0); auto. intros j l Hj Hl Hn.
  rewrite (rd_ok _ (contents x l) j C0) by (rewrite (contents_length _ x l out) by auto; lia).
  rewrite (rd_ok _ (contents y l) j C0) by (rewrite (contents_length _ y l out) by auto; lia).
  rewrite (rd_ok _ (contents z l) j C0) by (rewrite (contents_length _ z l out) by auto; lia). cbn [bind].
  rewrite wr_ok by lia.
  rewrite (contents_nth _ x l out j C0), (contents_nth _ y l out j C0), (contents_nth _ z l out j C0) by auto. auto.
Qed.

(** ** Views *)
Lemma loop_nat_ext : forall St n lo lo' step (b b' : nat -> St -> outcome St) s,
  (forall j s, j < n -> b (lo + j * step) s = b' (lo' + j * step) s) ->
  loop n lo step b s = loop n lo' step b' s.
Proof.
  intros St n. induction n; intros lo lo' step b b' s H; simpl; auto.
  pose proof (H 0 s ltac:(lia)) as H0. rewrite !Nat.add_0_r in H0. rewrite H0.
  destruct (b' lo' s); auto. apply IHn. intros j s' Hj.
  specialize (H (S j) s' ltac:(lia)). simpl in H. rewrite !Nat.add_assoc in H. auto.
Qed.

(** Two nested counting loops as one. *)
Lemma for_range_flatten : forall St M K (b : nat -> nat -> St -> outcome St) s,
  for_range 0 M (fun i s => for_range 0 K (fun j s => b i j s) s) s =
  for_range 0 (M * K) (fun k s => b (k / K) (k mod K) s) s.
Proof.
  intros St M K b s. destruct (Nat.eq_dec K 0) as [->|HK].
  - rewrite Nat.mul_0_r, (for_range_empty _ 0 0) by lia.
    induction M. { reflexivity. } rewrite for_range_last by lia. rewrite IHM. cbn [bind]. apply for_range_empty. lia.
  - revert s. induction M; intros s. { reflexivity. }
    rewrite for_range_last by lia. rewrite IHM.
    rewrite (for_range_split _ 0 (M * K) (S M * K)) by lia.
    destruct (for_range 0 (M * K) _ s); auto. cbn [bind]. unfold for_range.
    replace (S M * K - M * K) with (K - 0) by lia.
    apply loop_nat_ext. intros j s' Hj. rewrite !Nat.mul_1_r. simpl.
    rewrite Nat.div_add_l by lia. rewrite (Nat.div_small j) by lia.
    rewrite (Nat.add_comm (M * K)), Nat.mod_add by lia. rewrite Nat.mod_small by lia. rewrite Nat.add_0_r. auto.
Qed.

(** Writes to distinct addresses, values determined by the initial memory. *)
Lemma scatter : forall T (d : T) N (a : nat -> nat) (v : nat -> T) body mem,
  (forall k, k < N -> a k < length mem) ->
  (forall k k', k < N -> k' < N -> a k = a k' -> k = k') ->
  (forall k m, k < N -> length m = length mem ->
     (forall l, (forall k', k' < k -> l <> a k') -> nth l m d = nth l mem d) ->
     body k m = Ok (upd m (a k) (v k))) ->
  exists m, for_range 0 N body mem = Ok m /\ length m = length mem /\
    (forall k, k < N -> nth (a k) m d = v k) /\
    (forall l, (forall k, k < N -> l <> a k) -> nth l m d = nth l mem d).
Proof.
  intros T d N a v body mem Hr Hinj Hb.
  apply (for_range_inv _ (fun k m => length m = length mem /\ (forall k', k' < k -> nth (a k') m d = v k') /\
    (forall l, (forall k', k' < k -> l <> a k') -> nth l m d = nth l mem d))); try lia.
  - repeat split; auto. intros; lia.
  - intros k m Hk [L [V Fr]]. rewrite Hb by (auto; lia). eexists. split; [reflexivity|].
    rewrite upd_length. split; auto. split.
    + intros k' Hk'. destruct (Nat.eq_dec k' k). { subst. apply nth_upd_eq. rewrite L. apply Hr. lia. }
      rewrite nth_upd_neq. { apply V. lia. } intros E. apply n. apply Hinj; auto; lia.
    + intros l Hl. rewrite nth_upd_neq by (apply Hl; lia). apply Fr. intros. apply Hl. lia.
Qed.

Lemma scatter1 : forall T (d : T) n out (f : nat -> T) body mem,
  inside1 out n (length mem) -> safe1 out out n ->
  (forall k m, k < n -> length m = length mem ->
     (forall l, (forall k', k' < k -> l <> at1 out k') -> nth l m d = nth l mem d) ->
     body k m = Ok (upd m (at1 out k) (f k))) ->
  exists mem', for_range 0 n body mem = Ok mem' /\ written1 d out n f mem mem'.
Proof.
  intros T d n out f body mem Hi Hs Hb.
  destruct (scatter T d n (at1 out) f body mem) as [m [E [L [V Fr]]]]; auto.
  exists m. split; auto. repeat split; auto.
Qed.

Lemma scatter2 : forall T (d : T) r c out (f : nat -> nat -> T) (body : nat -> nat -> list T -> outcome (list T)) mem,
  inside2 out r c (length mem) -> safe2 out out r c ->
  (forall i j m, i < r -> j < c -> length m = length mem ->
     (forall l, (forall i' j', i' < r -> j' < c -> ~ (i' = i /\ j' = j) -> l <> at2 out i' j') -> nth l m d = nth l mem d) ->
     body i j m = Ok (upd m (at2 out i j) (f i j))) ->
  exists mem', for_range 0 r (fun i m => for_range 0 c (fun j m => body i j m) m) mem = Ok mem' /\
    written2 d out r c f mem mem'.
Proof.
  intros T d r c out f body mem Hi Hs Hb. rewrite for_range_flatten.
  destruct (Nat.eq_dec c 0) as [->|Hc].
  { rewrite Nat.mul_0_r. exists mem. split; [reflexivity|]. repeat split; auto; intros; lia. }
  assert (K : forall k, k < r * c -> k / c < r /\ k mod c < c).
  { intros k Hk. split. apply Nat.div_lt_upper_bound; lia. apply Nat.mod_upper_bound; auto. }
  assert (Q : forall i j, i < r -> j < c -> i * c + j < r * c).
  { intros i j H1 H2. assert ((i + 1) * c <= r * c) by (apply Nat.mul_le_mono_r; lia). lia. }
  assert (DM : forall i j, j < c -> (i * c + j) / c = i /\ (i * c + j) mod c = j).
  { intros i j Hj. split.
    - rewrite Nat.div_add_l by lia. rewrite Nat.div_small; lia.
    - rewrite Nat.add_comm, Nat.mod_add by lia. apply Nat.mod_small; auto. }
  destruct (scatter T d (r * c) (fun k => at2 out (k / c) (k mod c)) (fun k => f (k / c) (k mod c))
    (fun k m => body (k / c) (k mod c) m) mem) as [m [E [L [V Fr]]]].
  - intros k Hk. apply Hi; apply K; auto.
  - intros k k' Hk Hk' Heq. destruct (K k Hk), (K k' Hk').
    destruct (Hs _ _ _ _ H H0 H1 H2 Heq) as [E1 E2].
    rewrite (Nat.div_mod k c), (Nat.div_mod k' c) by auto. congruence.
  - intros k m Hk Hm Hf. apply Hb; auto; try apply K; auto.
    intros l Hl. apply Hf. intros k' Hk'. apply Hl; try apply K; try lia.
    intros [E1 E2]. assert (k' = k); [|lia].
    rewrite (Nat.div_mod k c), (Nat.div_mod k' c) by auto. congruence.
  - exists m. split; auto. split; [auto|]. split.
    + intros i j Hi' Hj. destruct (DM i j Hj) as [D1 D2]. rewrite <- D1 at 1. rewrite <- D2 at 2.
      rewrite (V _ (Q i j Hi' Hj)). rewrite D1, D2. auto.
    + intros l Hl. apply Fr. intros k Hk. apply Hl; apply K; auto.
Qed.

(** Reads through a safe view see the initial memory. *)
Lemma safe_read1 : forall T (d : T) x out n k (m mem : list T), k < n -> safe1 x out n ->
  (forall l, (forall k', k' < k -> l <> at1 out k') -> nth l m d = nth l mem d) ->
  nth (at1 x k) m d = nth (at1 x k) mem d.
Proof.
  intros T d x out n k m mem Hk Hs H. apply H. intros k' Hk' E. apply Hs in E; lia.
Qed.

Lemma safe_read2 : forall T (d : T) x out r c i j (m mem : list T), i < r -> j < c -> safe2 x out r c ->
  (forall l, (forall i' j', i' < r -> j' < c -> ~ (i' = i /\ j' = j) -> l <> at2 out i' j') -> nth l m d = nth l mem d) ->
  nth (at2 x i j) m d = nth (at2 x i j) mem d.
Proof.
  intros T d x out r c i j m mem Hi Hj Hs H. apply H. intros i' j' Hi' Hj' N E. apply Hs in E; auto. apply N. lia.
Qed.

Section Views.
Variable T : Type.
Variable d : T.

Lemma vec_binary_view : forall op x y out mem, u_size x = u_size out ->
  let n := u_size out in
  inside1 x n (length mem) -> inside1 y n (length mem) -> inside1 out n (length mem) ->
  safe1 out out n -> safe1 x out n -> safe1 y out n ->
  exists mem', vec_binary_op op x y out mem = Ok mem' /\
    written1 d out n (fun i => op (nth (at1 x i) mem d) (nth (at1 y i) mem d)) mem mem'.
Proof.
  intros op x y out mem Hs n Ix Iy Io So Sx Sy. unfold vec_binary_op. rewrite Hs. apply scatter1; auto.
  intros k m Hk Hm Hf. rewrite (rd_ok _ m (at1 x k) d) by (rewrite Hm; auto).
  rewrite (rd_ok _ m (at1 y k) d) by (rewrite Hm; auto). cbn [bind].
  rewrite (safe_read1 T d x out n k m mem), (safe_read1 T d y out n k m mem) by auto.
  apply wr_ok. rewrite Hm. auto.
Qed.

Lemma vec_unary_view : forall op obj mem,
  let n := u_size obj in inside1 obj n (length mem) -> safe1 obj obj n ->
  exists mem', vec_unary_op op obj mem = Ok mem' /\
    written1 d obj n (fun i => op (nth (at1 obj i) mem d)) mem mem'.
Proof.
  intros op obj mem n Ix So. unfold vec_unary_op. apply scatter1; auto.
  intros k m Hk Hm Hf. rewrite (rd_ok _ m (at1 obj k) d) by (rewrite Hm; auto). cbn [bind].
  rewrite (safe_read1 T d obj obj n k m mem) by auto. apply wr_ok. rewrite Hm. auto.
Qed.

Lemma vec_copy_view : forall x out mem, u_size x = u_size out ->
  let n := u_size out in
  inside1 x n (length mem) -> inside1 out n (length mem) -> safe1 out out n -> safe1 x out n ->
  exists mem', vec_copy x out mem = Ok mem' /\ written1 d out n (fun i => nth (at1 x i) mem d) mem mem'.
Proof.
  intros x out mem Hs n Ix Io So Sx. unfold vec_copy. rewrite Hs. apply scatter1; auto.
  intros k m Hk Hm Hf. rewrite (rd_ok _ m (at1 x k) d) by (rewrite Hm; auto). cbn [bind].
  rewrite (safe_read1 T d x out n k m mem) by auto. apply wr_ok. rewrite Hm. auto.
Qed.

Lemma vec_multiply_add_view : forall mul add x y z out mem, u_size x = u_size out ->
  let n := u_size out in
  inside1 x n (length mem) -> inside1 y n (length mem) -> inside1 z n (length mem) -> inside1 out n (length mem) ->
  safe1 out out n -> safe1 x out n -> safe1 y out n -> safe1 z out n ->
  exists mem', vec_multiply_add mul add x y z out mem = Ok mem' /\
    written1 d out n (fun i => add (mul (nth (at1 x i) mem d) (nth (at1 y i) mem d)) (nth (at1 z i) mem d)) mem mem'.
Proof.
  intros mul add x y z out mem Hs n Ix Iy Iz Io So Sx Sy Sz. unfold vec_multiply_add. rewrite Hs. apply scatter1; auto.
  intros k m Hk Hm Hf. rewrite (rd_ok _ m (at1 x k) d) by (rewrite Hm; auto).
  rewrite (rd_ok _ m (at1 y k) d) by (rewrite Hm; auto). rewrite (rd_ok _ m (at1 z k) d) by (rewrite Hm; auto). cbn [bind].
  rewrite (safe_read1 T d x out n k m mem), (safe_read1 T d y out n k m mem), (safe_read1 T d z out n k m mem) by auto.
  apply wr_ok. rewrite Hm. auto.
Qed.

Lemma mat_binary_view : forall op x y out mem, v_rows x = v_rows out -> v_cols x = v_cols out ->
  let r := v_rows out in let c := v_cols out in
  inside2 x r c (length mem) -> inside2 y r c (length mem) -> inside2 out r c (length mem) ->
  safe2 out out r c -> safe2 x out r c -> safe2 y out r c ->
  exists mem', mat_binary_op op x y out mem = Ok mem' /\
    written2 d out r c (fun i j => op (nth (at2 x i j) mem d) (nth (at2 y i j) mem d)) mem mem'.
Proof.
  intros op x y out mem H1 H2 r c Ix Iy Io So Sx Sy. unfold mat_binary_op. rewrite H1, H2. apply scatter2; auto.
  intros i j m Hi Hj Hm Hf. rewrite (rd_ok _ m (at2 x i j) d) by (rewrite Hm; auto).
  rewrite (rd_ok _ m (at2 y i j) d) by (rewrite Hm; auto). cbn [bind].
  rewrite (safe_read2 T d x out r c i j m mem), (safe_read2 T d y out r c i j m mem) by auto.
  apply wr_ok. rewrite Hm. auto.
Qed.

Lemma mat_copy_view : forall x out mem, v_rows x = v_rows out -> v_cols x = v_cols out ->
  let r := v_rows out in let c := v_cols out in
  inside2 x r c (length mem) -> inside2 out r c (length mem) -> safe2 out out r c -> safe2 x out r c ->
  exists mem', mat_copy x out mem = Ok mem' /\ written2 d out r c (fun i j => nth (at2 x i j) mem d) mem mem'.
Proof.
  intros x out mem H1 H2 r c Ix Io So Sx. unfold mat_copy. rewrite H1, H2. apply scatter2; auto.
  intros i j m Hi Hj Hm Hf. rewrite (rd_ok _ m (at2 x i j) d) by (rewrite Hm; auto). cbn [bind].
  rewrite (safe_read2 T d x out r c i j m mem) by auto. apply wr_ok. rewrite Hm. auto.
Qed.

Definition transpose2 (v : view2) : view2 := View2 (v_off v) (v_cols v) (v_rows v) (v_s1 v) (v_s0 v).
Lemma at2_transpose : forall v i j, at2 (transpose2 v) i j = at2 v j i.
Proof. intros. unfold at2. simpl. lia. Qed.

Lemma mat_unary_view : forall left op obj mem,
  let r := v_rows obj in let c := v_cols obj in
  inside2 obj r c (length mem) -> safe2 obj obj r c ->
  exists mem', mat_unary_op left op obj mem = Ok mem' /\
    written2 d obj r c (fun i j => op (nth (at2 obj i j) mem d)) mem mem'.
Proof.
  intros left op obj mem r c Ix So. unfold mat_unary_op. destruct left.
  - destruct (scatter2 T d c r (transpose2 obj) (fun j i => op (nth (at2 obj i j) mem d))
      (fun col row m => v <- rd m (at2 obj row col) ;; wr m (at2 obj row col) (op v)) mem) as [m [E [L [V Fr]]]].
    + intros i j Hi Hj. rewrite at2_transpose. auto.
    + intros i j i' j' Hi Hj Hi' Hj' E. rewrite !at2_transpose in E. apply So in E; auto. lia.
    + intros i j m Hi Hj Hm Hf. rewrite at2_transpose.
      rewrite (rd_ok _ m (at2 obj j i) d) by (rewrite Hm; auto). cbn [bind].
      rewrite <- (safe_read2 T d obj obj r c j i m mem); auto.
      * apply wr_ok. rewrite Hm. auto.
      * intros l Hl. apply Hf. intros i' j' Hi' Hj' N. rewrite at2_transpose. apply Hl; auto. lia.
    + exists m. split; auto. split; auto. split.
      * intros i j Hi Hj. rewrite <- (V j i Hj Hi). rewrite at2_transpose. auto.
      * intros l Hl. apply Fr. intros i j Hi Hj. rewrite at2_transpose. auto.
  - apply scatter2; auto. intros i j m Hi Hj Hm Hf.
    rewrite (rd_ok _ m (at2 obj i j) d) by (rewrite Hm; auto). cbn [bind].
    rewrite (safe_read2 T d obj obj r c i j m mem) by auto. apply wr_ok. rewrite Hm. auto.
Qed.
End Views.

(** The usual layouts and the usual aliasings satisfy the conditions. *)
Lemma row_major_unique : forall off r c, safe2 (View2 off r c c 1) (View2 off r c c 1) r c.
Proof.
  intros off r c i j i' j' Hi Hj Hi' Hj' E. unfold at2 in E. simpl in E.
  rewrite !Nat.mul_1_r in E. assert (G : j + c * i = j' + c * i') by lia.
  assert (i = i').
  { apply (Nat.div_unique (j + c * i) c i j) in Hj; [|lia]. rewrite Hj, G. symmetry.
    apply (Nat.div_unique (j' + c * i') c i' j'); auto; lia. }
  subst. lia.
Qed.

Lemma col_major_unique : forall off r c, safe2 (View2 off r c 1 r) (View2 off r c 1 r) r c.
Proof.
  intros off r c i j i' j' Hi Hj Hi' Hj' E.
  destruct (row_major_unique off c r j i j' i'); auto. unfold at2 in *. simpl in *. lia.
Qed.

Lemma disjoint_safe : forall x out r c,
  (forall i j i' j', i < r -> j < c -> i' < r -> j' < c -> at2 x i j <> at2 out i' j') -> safe2 x out r c.
Proof. intros x out r c H i j i' j' Hi Hj Hi' Hj' E. exfalso. apply (H i j i' j' Hi Hj Hi' Hj' E). Qed.

(** ** Split-complex multiply-add *)
Section SplitFma.
Variables (xre xim yre yim zre zim ore oim n : nat) (mem : list R).
Hypothesis (Bxre : xre + n <= length mem) (Bxim : xim + n <= length mem) (Byre : yre + n <= length mem)
  (Byim : yim + n <= length mem) (Bzre : zre + n <= length mem) (Bzim : zim + n <= length mem)
  (Bore : ore + n <= length mem) (Boim : oim + n <= length mem).
Hypothesis Hout : apart n ore oim.
Hypothesis (A1 : aligned n xre ore) (A2 : aligned n xre oim) (A3 : aligned n xim ore) (A4 : aligned n xim oim)
  (A5 : aligned n yre ore) (A6 : aligned n yre oim) (A7 : aligned n yim ore) (A8 : aligned n yim oim)
  (A9 : aligned n zre ore) (A10 : aligned n zre oim) (A11 : apart n zim ore) (A12 : aligned n zim oim).

Let m0 (p i : nat) : R := nth (p + i) mem 0%R.
Definition fma_re i : R := (m0 xre i * m0 yre i - m0 xim i * m0 yim i + m0 zre i)%R.
Definition fma_im i : R := (m0 xre i * m0 yim i + m0 xim i * m0 yre i + m0 zim i)%R.

(** Memory after indices [0, k) have been processed. *)
Definition fma_upto (k : nat) (m : list R) : Prop :=
  length m = length mem /\
  (forall i, i < k -> nth (ore + i) m 0%R = fma_re i /\ nth (oim + i) m 0%R = fma_im i) /\
  (forall l, (forall i, i < k -> l <> ore + i /\ l <> oim + i) -> nth l m 0%R = nth l mem 0%R).

Lemma fma_read : forall k m p i, fma_upto k m -> k <= i < n -> aligned n p ore -> aligned n p oim ->
  nth (p + i) m 0%R = m0 p i.
Proof.
  intros k m p i [L [V Fr]] Hi P1 P2. apply Fr. intros i' Hi'. split; intros E.
  - destruct P1 as [->|P1]. lia. apply (P1 i i'); lia.
  - destruct P2 as [->|P2]. lia. apply (P2 i i'); lia.
Qed.

Lemma fma_scalar_step : forall k m, k < n -> fma_upto k m ->
  exists m', split_fma_scalar xre xim yre yim zre zim ore oim k m = Ok m' /\ fma_upto (S k) m'.
Proof.
  intros k m Hk H. assert (HH := H). destruct H as [L [V Fr]]. unfold split_fma_scalar.
  rewrite (rd_ok _ m (xre + k) 0%R), (rd_ok _ m (xim + k) 0%R), (rd_ok _ m (yre + k) 0%R), (rd_ok _ m (yim + k) 0%R),
    (rd_ok _ m (zre + k) 0%R) by lia. cbn [bind].
  rewrite wr_ok by lia. cbn [bind].
  assert (Z : aligned n zim ore) by (right; auto).
  rewrite (rd_ok _ _ (zim + k) 0%R) by (rewrite upd_length; lia).
  rewrite nth_upd_neq by (apply A11; auto). cbn [bind].
  rewrite wr_ok by (rewrite upd_length; lia).
  rewrite !(fma_read k m) by (auto; lia).
  eexists. split; [reflexivity|]. split. { rewrite !upd_length. auto. }
  split.
  - intros i Hi. destruct (Nat.eq_dec i k) as [->|Hne].
    + split.
      * rewrite nth_upd_neq by (apply Hout; auto). rewrite nth_upd_eq by lia. auto.
      * rewrite nth_upd_eq by (rewrite upd_length; lia). auto.
    + destruct (V i ltac:(lia)) as [V1 V2]. split.
      * rewrite nth_upd_neq by (apply Hout; lia). rewrite nth_upd_neq by lia. auto.
      * rewrite nth_upd_neq by lia. rewrite nth_upd_neq. auto. intros E. apply (Hout k i); lia.
  - intros l Hl. destruct (Hl k ltac:(lia)). rewrite !nth_upd_neq by auto. apply Fr. intros. apply Hl. lia.
Qed.

Lemma fma_scalar_loop : forall lo m, lo <= n -> fma_upto lo m ->
  exists m', for_range lo n (split_fma_scalar xre xim yre yim zre zim ore oim) m = Ok m' /\ fma_upto n m'.
Proof.
  intros lo m Hlo H. apply (for_range_inv _ fma_upto); auto.
  intros j s Hj Hs. apply fma_scalar_step; auto. lia.
Qed.

Lemma fma_upto_0 : fma_upto 0 mem.
Proof. split; auto. split; auto. intros; lia. Qed.

Lemma split_multiply_add_ok : exists m', split_multiply_add xre xim yre yim zre zim ore oim n mem = Ok m' /\ fma_upto n m'.
Proof. apply fma_scalar_loop. lia. apply fma_upto_0. Qed.

Lemma fma_vector_step : forall inc k m, k + inc <= n -> fma_upto k m ->
  exists m', (a <- slice m (xre + k) (xre + k + inc) ;; b <- slice m (xim + k) (xim + k + inc) ;;
    c <- slice m (yre + k) (yre + k + inc) ;; d <- slice m (yim + k) (yim + k + inc) ;;
    e <- slice m (zre + k) (zre + k + inc) ;; f <- slice m (zim + k) (zim + k + inc) ;;
    let out_re := reg_op Rplus (reg_op Rminus (reg_op Rmult a c) (reg_op Rmult b d)) e in
    let out_im := reg_op Rplus (reg_op Rplus (reg_op Rmult a d) (reg_op Rmult b c)) f in
    mem <- splice m (ore + k) out_re ;;
    splice mem (oim + k) out_im) = Ok m' /\ fma_upto (k + inc) m'.
Proof.
  intros inc k m Hk H. assert (HH := H). destruct H as [L [V Fr]].
  rewrite !(slice_spec _ 0%R) by lia. cbn [bind].
  rewrite !Nat.add_comm with (m := inc), !Nat.add_sub.
  set (re := reg_op Rplus (reg_op Rminus _ _) _). set (im := reg_op Rplus (reg_op Rplus _ _) _). cbv zeta.
  assert (Z : aligned n zim ore) by (right; auto).
  assert (Lre : length re = inc). { unfold re, reg_op. rewrite !zip_with_length, !tab_length. lia. }
  assert (Lim : length im = inc). { unfold im, reg_op. rewrite !zip_with_length, !tab_length. lia. }
  assert (Vre : forall i, i < inc -> nth i re 0%R = fma_re (k + i)).
  { intros i Hi. unfold re, reg_op.
    rewrite !(nth_zip_with _ _ _ _ _ _ _ 0%R 0%R) by (rewrite ?zip_with_length, ?tab_length; lia).
    rewrite !nth_tab by auto. rewrite <- !Nat.add_assoc, !(fma_read k m) by (auto; lia). auto. }
  assert (Vim : forall i, i < inc -> nth i im 0%R = fma_im (k + i)).
  { intros i Hi. unfold im, reg_op.
    rewrite !(nth_zip_with _ _ _ _ _ _ _ 0%R 0%R) by (rewrite ?zip_with_length, ?tab_length; lia).
    rewrite !nth_tab by auto. rewrite <- !Nat.add_assoc, !(fma_read k m) by (auto; lia). auto. }
  destruct (splice_spec _ 0%R m re (ore + k)) as [m1 [E1 [L1 V1]]]. { lia. }
  rewrite E1. cbn [bind].
  destruct (splice_spec _ 0%R m1 im (oim + k)) as [m2 [E2 [L2 V2]]]. { lia. }
  exists m2. split; auto. split; [lia|]. split.
  - intros i Hi. split.
    + rewrite V2, Lim.
      assert (NB : (oim + k <=? ore + i) && (ore + i <? oim + k + inc) = false).
      { apply andb_false_iff. rewrite Nat.leb_gt, Nat.ltb_ge.
        destruct (Nat.lt_ge_cases (ore + i) (oim + k)); auto. destruct (Nat.le_gt_cases (oim + k + inc) (ore + i)); auto.
        exfalso. apply (Hout i (ore + i - oim)); lia. }
      rewrite NB, V1, Lre.
      destruct (Nat.leb_spec (ore + k) (ore + i)); cbn [andb].
      * destruct (Nat.ltb_spec (ore + i) (ore + k + inc)); [|lia].
        rewrite Vre by lia. f_equal. lia.
      * apply V. lia.
    + rewrite V2, Lim. destruct (Nat.leb_spec (oim + k) (oim + i)); cbn [andb].
      * destruct (Nat.ltb_spec (oim + i) (oim + k + inc)); [|lia]. rewrite Vim by lia. f_equal. lia.
      * rewrite V1, Lre.
        assert (NB : (ore + k <=? oim + i) && (oim + i <? ore + k + inc) = false).
        { apply andb_false_iff. rewrite Nat.leb_gt, Nat.ltb_ge.
          destruct (Nat.lt_ge_cases (oim + i) (ore + k)); auto. destruct (Nat.le_gt_cases (ore + k + inc) (oim + i)); auto.
          exfalso. apply (Hout (oim + i - ore) i); lia. }
        rewrite NB. apply V. lia.
  - intros l Hl. rewrite V2, Lim.
    assert (N1 : (oim + k <=? l) && (l <? oim + k + inc) = false).
    { apply andb_false_iff. rewrite Nat.leb_gt, Nat.ltb_ge.
      destruct (Nat.lt_ge_cases l (oim + k)); auto. destruct (Nat.le_gt_cases (oim + k + inc) l); auto.
      exfalso. destruct (Hl (l - oim) ltac:(lia)). lia. }
    rewrite N1, V1, Lre.
    assert (N2 : (ore + k <=? l) && (l <? ore + k + inc) = false).
    { apply andb_false_iff. rewrite Nat.leb_gt, Nat.ltb_ge.
      destruct (Nat.lt_ge_cases l (ore + k)); auto. destruct (Nat.le_gt_cases (ore + k + inc) l); auto.
      exfalso. destruct (Hl (l - ore) ltac:(lia)). lia. }
    rewrite N2. apply Fr. intros. apply Hl. lia.
Qed.

Lemma simd_multiply_add_ok : forall inc, 0 < inc ->
  exists m', simd_multiply_add inc xre xim yre yim zre zim ore oim n mem = Ok m' /\ fma_upto n m'.
Proof.
  intros inc Hinc. unfold simd_multiply_add.
  assert (D := Nat.div_mod n inc ltac:(lia)).
  assert (EV : n - n mod inc = 0 + n / inc * inc) by lia.
  destruct (for_step_inv _ (fun j m => fma_upto (j * inc) m) (n / inc) 0 (n - n mod inc) inc
    (fun i mem =>
    a <- slice mem (xre + i) (xre + i + inc) ;; b <- slice mem (xim + i) (xim + i + inc) ;;
    c <- slice mem (yre + i) (yre + i + inc) ;; d <- slice mem (yim + i) (yim + i + inc) ;;
    e <- slice mem (zre + i) (zre + i + inc) ;; f <- slice mem (zim + i) (zim + i + inc) ;;
    let out_re := reg_op Rplus (reg_op Rminus (reg_op Rmult a c) (reg_op Rmult b d)) e in
    let out_im := reg_op Rplus (reg_op Rplus (reg_op Rmult a d) (reg_op Rmult b c)) f in
    mem <- splice mem (ore + i) out_re ;;
    splice mem (oim + i) out_im) mem) as [m [E H]]; auto.
  - apply fma_upto_0.
  - intros j s Hj Hs. simpl plus. replace (S j * inc) with (j * inc + inc) by lia. apply fma_vector_step; auto.
    assert (S j * inc <= n / inc * inc) by (apply Nat.mul_le_mono_r; lia). lia.
  - cbv zeta. cbv zeta in E. rewrite E. cbn [bind]. apply fma_scalar_loop. lia. rewrite EV. auto.
Qed.

Lemma fma_upto_fma : forall m, fma_upto n m -> fma_done xre xim yre yim zre zim ore oim n mem m.
Proof.
  intros m [L [V Fr]]. split; auto. split; auto. intros i Hi. destruct (V i Hi) as [V1 V2].
  unfold at_split. rewrite V1, V2. unfold fma_re, fma_im, m0, Cadd, Cmul. simpl. reflexivity.
Qed.
End SplitFma.

