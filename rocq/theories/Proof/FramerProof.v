(** Proofs about extra/plugin/src/dsp/ConstantOverlapAdd.hpp. *)
From Coq Require Import Reals List Arith Bool ZArith Lia Lra.
From Verif Require Import Base.Outcome Base.OutcomeFacts Base.Cplx Spec.Stft Spec.Framer Model.ConstantOverlapAdd.
Import ListNotations.
Open Scope nat_scope.
Open Scope outcome_scope.
Local Arguments Nat.div : simpl never.
Local Arguments Nat.modulo : simpl never.
Local Arguments Nat.pow : simpl never.
Local Arguments Nat.mul : simpl never.

Lemma index_ok : forall n, index (Z.of_nat n) = Ok n.
Proof. intros n. unfold index. replace (0 <=? Z.of_nat n)%Z with true by (symmetry; apply Z.leb_le; lia). cbn. rewrite Nat2Z.id. reflexivity. Qed.
Lemma index_eq : forall z n, z = Z.of_nat n -> index z = Ok n.
Proof. intros z n ->. apply index_ok. Qed.

(** One pass writing doff, doff+1, ...: [F j] may read the old value at doff + j. *)
Lemma pass : forall num doff (dest : list R) body (F : nat -> R), doff + num <= length dest ->
  (forall j l, j < num -> length l = length dest -> nth (doff + j) l 0%R = nth (doff + j) dest 0%R ->
     body j l = Ok (upd l (doff + j) (F j))) ->
  exists l', for_range 0 num body dest = Ok l' /\ length l' = length dest /\
    forall i, nth i l' 0%R = if (doff <=? i) && (i <? doff + num) then F (i - doff) else nth i dest 0%R.
Proof.
  intros num doff dest body F Hn Hb.
  destruct (for_range_inv _ (fun j l => length l = length dest /\
     forall i, nth i l 0%R = if (doff <=? i) && (i <? doff + j) then F (i - doff) else nth i dest 0%R) 0 num body dest) as (l' & E & L & V).
  - lia.
  - split; auto. intros i. destruct (Nat.leb_spec doff i), (Nat.ltb_spec i (doff + 0)); cbn [andb]; auto; lia.
  - intros j l Hj (L & V). exists (upd l (doff + j) (F j)). split.
    + apply Hb; auto; try lia. rewrite V. destruct (Nat.leb_spec doff (doff + j)), (Nat.ltb_spec (doff + j) (doff + j)); cbn [andb]; auto; lia.
    + split; [rewrite upd_length; auto|]. intros i. rewrite nth_upd, V.
      destruct (Nat.eqb_spec i (doff + j)) as [->|N].
      * rewrite (proj2 (Nat.ltb_lt (doff + j) (length l))) by lia. cbn [andb].
        rewrite (proj2 (Nat.leb_le doff (doff + j))), (proj2 (Nat.ltb_lt (doff + j) (doff + S j))) by lia. cbn [andb]. f_equal. lia.
      * cbn [andb]. destruct (Nat.leb_spec doff i), (Nat.ltb_spec i (doff + j)), (Nat.ltb_spec i (doff + S j)); cbn [andb]; auto; lia.
  - eauto.
Qed.

Lemma fvo_multiply_spec : forall dest doff src soff w woff num, doff + num <= length dest -> soff + num <= length src -> woff + num <= length w ->
  exists l', fvo_multiply dest doff src soff w woff num = Ok l' /\ length l' = length dest /\
    forall i, nth i l' 0%R = if (doff <=? i) && (i <? doff + num) then (nth (soff + (i - doff)) src 0 * nth (woff + (i - doff)) w 0)%R else nth i dest 0%R.
Proof.
  intros. unfold fvo_multiply. apply (pass num doff dest _ (fun j => nth (soff + j) src 0 * nth (woff + j) w 0)%R); auto.
  intros j l Hj L _. rewrite (rd_ok _ _ _ 0%R) by lia. cbn [bind]. rewrite (rd_ok _ _ _ 0%R) by lia. cbn [bind]. apply wr_ok. lia.
Qed.

Lemma copy_n_spec : forall src soff num dest doff, doff + num <= length dest -> soff + num <= length src ->
  exists l', copy_n src soff num dest doff = Ok l' /\ length l' = length dest /\
    forall i, nth i l' 0%R = if (doff <=? i) && (i <? doff + num) then nth (soff + (i - doff)) src 0%R else nth i dest 0%R.
Proof.
  intros. unfold copy_n. apply (pass num doff dest _ (fun j => nth (soff + j) src 0%R)); auto.
  intros j l Hj L _. rewrite (rd_ok _ _ _ 0%R) by lia. cbn [bind]. apply wr_ok. lia.
Qed.

Lemma add_from_spec : forall dest doff src soff num, doff + num <= length dest -> soff + num <= length src ->
  exists l', add_from dest doff src soff num = Ok l' /\ length l' = length dest /\
    forall i, nth i l' 0%R = if (doff <=? i) && (i <? doff + num) then (nth i dest 0 + nth (soff + (i - doff)) src 0)%R else nth i dest 0%R.
Proof.
  intros. unfold add_from.
  destruct (pass num doff dest (fun i dest => a <- rd dest (doff + i) ;; b <- rd src (soff + i) ;; wr dest (doff + i) (a + b)%R)
     (fun j => nth (doff + j) dest 0 + nth (soff + j) src 0)%R) as (l' & E & L & V); auto.
  - intros j l Hj L E. rewrite (rd_ok _ _ _ 0%R) by lia. cbn [bind]. rewrite (rd_ok _ _ _ 0%R) by lia. cbn [bind]. rewrite E. apply wr_ok. lia.
  - exists l'. split; auto. split; auto. intros i. rewrite V.
    destruct (Nat.leb_spec doff i), (Nat.ltb_spec i (doff + num)); cbn [andb]; auto. repeat f_equal; lia.
Qed.

Lemma copy_within_spec : forall a soff num, soff + num <= length a ->
  exists l', copy_within a soff num 0 = Ok l' /\ length l' = length a /\
    forall i, nth i l' 0%R = if i <? num then nth (soff + i) a 0%R else nth i a 0%R.
Proof.
  intros a soff num H. unfold copy_within.
  destruct (for_range_inv _ (fun j l => length l = length a /\
     forall i, nth i l 0%R = if i <? j then nth (soff + i) a 0%R else nth i a 0%R) 0 num
     (fun i a => v <- rd a (soff + i) ;; wr a (0 + i) v) a) as (l' & E & L & V); eauto.
  - lia.
  - intros j l Hj (L & V). rewrite (rd_ok _ _ _ 0%R) by lia. cbn [bind]. rewrite wr_ok by lia. eexists. split; [reflexivity|].
    split; [rewrite upd_length; auto|]. intros i. rewrite nth_upd, L, !V.
    cbn [plus]. destruct (Nat.eqb_spec i j) as [->|N].
    + rewrite (proj2 (Nat.ltb_lt j (length a))), (proj2 (Nat.ltb_lt j (S j))) by lia. cbn [andb].
      destruct (Nat.ltb_spec (soff + j) j); auto. lia.
    + cbn [andb]. destruct (Nat.ltb_spec i j), (Nat.ltb_spec i (S j)); auto; lia.
Qed.

Lemma each_channel_spec : forall nch f buf (P : nat -> list R -> Prop), length buf = nch ->
  (forall ch, ch < nch -> exists row, f ch (nth ch buf []) = Ok row /\ P ch row) ->
  exists buf', each_channel nch f buf = Ok buf' /\ length buf' = nch /\ forall ch, ch < nch -> P ch (nth ch buf' []).
Proof.
  intros nch f buf P L Hf. unfold each_channel.
  destruct (for_range_inv _ (fun j b => length b = nch /\ (forall ch, ch < j -> P ch (nth ch b [])) /\ (forall ch, j <= ch -> nth ch b [] = nth ch buf []))
     0 nch (fun ch buf => row <- rd buf ch ;; row <- f ch row ;; wr buf ch row) buf) as (b & E & Lb & V & _).
  - lia.
  - split; auto. split; auto. intros ch Hch. lia.
  - intros j b Hj (Lb & V & W). rewrite (rd_ok _ _ _ []) by lia. cbn [bind]. rewrite W by lia.
    destruct (Hf j ltac:(lia)) as (row & -> & Hp). cbn [bind]. rewrite wr_ok by lia. eexists. split; [reflexivity|].
    split; [rewrite upd_length; auto|]. split.
    + intros ch Hch. rewrite nth_upd, Lb. destruct (Nat.eqb_spec ch j) as [->|N].
      * rewrite (proj2 (Nat.ltb_lt j nch)) by lia. auto.
      * cbn [andb]. apply V. lia.
    + intros ch Hch. rewrite nth_upd. destruct (Nat.eqb_spec ch j); [lia|]. cbn [andb]. apply W. lia.
  - eauto.
Qed.

Lemma matrix_row : forall r c (m : list (list R)) i, matrix_of r c m -> i < r -> length (nth i m []) = c.
Proof. intros r c m i [L W] Hi. apply W, nth_In. lia. Qed.
Lemma matrix_intro : forall r c (m : list (list R)), length m = r -> (forall i, i < r -> length (nth i m []) = c) -> matrix_of r c m.
Proof.
  intros r c m L W. split; auto. intros row H. destruct (In_nth _ _ [] H) as (i & Hi & <-). apply W. lia.
Qed.
Lemma matrix_ext : forall r c (m m' : list (list R)), matrix_of r c m -> matrix_of r c m' ->
  (forall i j, i < r -> j < c -> nth j (nth i m []) 0%R = nth j (nth i m' []) 0%R) -> m = m'.
Proof.
  intros r c m m' Hm Hm' E. destruct (Hm) as [L _]. destruct (Hm') as [L' _]. apply (list_eq_nth _ []); [lia|].
  intros i Hi. assert (i < r) by lia. apply (list_eq_nth _ 0%R); rewrite (matrix_row r c) by auto.
  - symmetry. apply (matrix_row r c); auto.
  - intros j Hj. auto.
Qed.

Section Run.
Variable St : Type.
Variable pf : St -> list (list R) -> outcome (St * list (list R)).
Variables nch F H N size : nat.
Variable g : R.
Hypothesis HH : 0 < H <= F.
Hypothesis Hn : 0 < nch.
Hypothesis HN : 0 < N.
Hypothesis Hsize : F + N - 1 <= size.
Variable clean : Prop.
Variable junk : nat -> nat -> R.       (* channel, position: what the output buffer holds before the first frame *)
Hypothesis Hjunk : clean -> (forall ch t, junk ch t = 0%R) \/ H = F.
Variable X : nat -> nat -> R.          (* channel, time *)
Variable JT : nat.
Variable sigma : nat -> St.
Variable Y : nat -> list (list R).
Definition fr (u : nat) : list (list R) := tab nch (fun ch => tab F (fun i => X ch (u * H + i) * g)%R).
Hypothesis Hrun : forall u, u < JT -> pf (sigma u) (fr u) = Ok (sigma (S u), Y u).
Hypothesis HY : forall u, u < JT -> matrix_of nch F (Y u).

Definition acc (J ch t : nat) : R :=
  Rsum J (fun u => if (F - 1 + u * H <=? t) && (t <? F - 1 + u * H + F) then nth (t - (F - 1 + u * H)) (nth ch (Y u) []) 0%R else 0%R).

(** What is left of it. *)
Definition res (ch t : nat) : R := if t <? F - 1 + F - H then junk ch t else 0%R.

(** The object during a call that started at time n, after J frames; without the input side. *)
Record inv (n J : nat) (c : cola St) : Prop := {
  i_F : _frameSize _ c = F;
  i_H : _hopSize _ c = H;
  i_w : _window _ c = repeat g F;
  i_fr : matrix_of nch F (_frame _ c);
  i_un : matrix_of nch (F - 1) (_unusedInput _ c);
  i_out : matrix_of nch size (_output _ c);
  i_off : _outputOffset _ c = (Z.of_nat (F - 1 + J * H) - Z.of_nat n)%Z;
  i_user : _user _ c = sigma J;
  i_val : clean -> forall ch p, ch < nch -> p < size -> (J = 0 /\ H <> F) \/ n + p < F - 1 + J * H + F - H ->
    nth p (nth ch (_output _ c) []) 0%R = (acc J ch (n + p) + res ch (n + p))%R;
}.

Lemma inv_ext : forall n J c c', inv n J c -> _frameSize _ c' = _frameSize _ c -> _hopSize _ c' = _hopSize _ c -> _window _ c' = _window _ c ->
  matrix_of nch F (_frame _ c') -> matrix_of nch (F - 1) (_unusedInput _ c') -> _output _ c' = _output _ c -> _outputOffset _ c' = _outputOffset _ c ->
  _user _ c' = _user _ c -> inv n J c'.
Proof. intros n J c c' [] E1 E2 E3 M1 M2 E4 E5 E6. constructor; try congruence; auto. rewrite E4. auto. Qed.

Lemma acc_S : forall J ch t, acc (S J) ch t = (acc J ch t +
  (if (F - 1 + J * H <=? t) && (t <? F - 1 + J * H + F) then nth (t - (F - 1 + J * H)) (nth ch (Y J) []) 0%R else 0%R))%R.
Proof. intros. unfold acc. apply Rsum_S. Qed.

Lemma acc_past : forall J ch t, F - 1 + J * H + F - H <= t -> acc J ch t = 0%R.
Proof.
  intros J ch t Ht. unfold acc. apply Rsum_0. intros u Hu.
  assert (u * H + H <= J * H) by (rewrite <- Nat.mul_succ_l; apply Nat.mul_le_mono_r; lia).
  destruct (Nat.ltb_spec t (F - 1 + u * H + F)); [lia|]. rewrite andb_false_r. reflexivity.
Qed.

(** Frames that start after t do not matter. *)
Lemma acc_more : forall J J' ch t, J <= J' -> t < F - 1 + J * H -> acc J' ch t = acc J ch t.
Proof.
  intros J J' ch t HJ Ht. unfold acc. apply Rsum_le_zero; auto. intros u Hu.
  assert (J * H <= u * H) by (apply Nat.mul_le_mono_r; lia).
  destruct (Nat.leb_spec (F - 1 + u * H) t); [lia|]. reflexivity.
Qed.

Lemma run_frame_ok : forall n J c l, inv n J c -> _frame _ c = fr J -> J < JT -> l <= N -> n <= F - 1 + J * H -> J * H + F <= n + l ->
  exists c', run_frame St pf c nch = Ok c' /\ inv n (S J) c' /\ _unusedInput _ c' = _unusedInput _ c /\ _unusedInputCount _ c' = _unusedInputCount _ c.
Proof.
  intros n J c l I Ef HJ Hl Ho He. destruct I as [iF iH iw ifr iun iout ioff iuser ival].
  unfold run_frame. rewrite Ef, iuser, (Hrun J HJ). cbn [bind]. unfold writeBackFrame.
  cbn [set_user set_frame set_offset set_output _frame _output _frameSize _hopSize _outputOffset _unusedInput _window _user _unusedInputCount].
  rewrite iF, iH, ioff. set (o := F - 1 + J * H - n).
  assert (Ho2 : (Z.of_nat (F - 1 + J * H) - Z.of_nat n)%Z = Z.of_nat o) by (unfold o; lia). rewrite Ho2.
  assert (HoF : o + F <= size) by (unfold o; lia).
  assert (SJ : S J * H = J * H + H) by apply Nat.mul_succ_l.
  destruct (each_channel_spec nch (fun ch row =>
      o <- index (Z.of_nat o) ;; frame <- rd (Y J) ch ;; row <- add_from row o frame 0 (F - H) ;; copy_n frame (F - H) H row (o + (F - H)))
     (_output _ c) (fun ch row => length row = size /\
        (clean -> forall p, p < size -> n + p < F - 1 + S J * H + F - H -> nth p row 0%R = (acc (S J) ch (n + p) + res ch (n + p))%R))) as (out' & E & L & V).
  - apply iout.
  - intros ch Hch. rewrite index_ok. cbn [bind]. rewrite (rd_ok _ _ _ []) by (destruct (HY J HJ); lia). cbn [bind].
    pose proof (matrix_row _ _ _ _ iout Hch) as Lo. pose proof (matrix_row _ _ _ _ (HY J HJ) Hch) as Ly.
    destruct (add_from_spec (nth ch (_output _ c) []) o (nth ch (Y J) []) 0 (F - H)) as (r1 & -> & L1 & V1); [lia|lia|]. cbn [bind].
    destruct (copy_n_spec (nth ch (Y J) []) (F - H) H r1 (o + (F - H))) as (r2 & -> & L2 & V2); [lia|lia|]. exists r2. split; auto. split; [lia|].
    intros Hc p Hp Hr. rewrite V2, V1, acc_S.
    assert (Hbase : p < o + F - H -> nth p (nth ch (_output _ c) []) 0%R = (acc J ch (n + p) + res ch (n + p))%R).
    { intros Hb. apply ival; auto. unfold o in *. lia. }
    destruct (Nat.leb_spec (o + (F - H)) p), (Nat.ltb_spec p (o + (F - H) + H)); cbn [andb]; try (unfold o in *; lia).
    + rewrite (acc_past J) by (unfold o in *; lia).
      rewrite (proj2 (Nat.leb_le (F - 1 + J * H) (n + p))), (proj2 (Nat.ltb_lt (n + p) (F - 1 + J * H + F))) by (unfold o in *; lia). cbn [andb].
      unfold res. rewrite (proj2 (Nat.ltb_ge (n + p) (F - 1 + F - H))) by (unfold o in *; lia).
      rewrite Rplus_0_l, Rplus_0_r. f_equal. unfold o in *. lia.
    + rewrite Hbase by lia. destruct (Nat.leb_spec o p), (Nat.ltb_spec p (o + (F - H))); cbn [andb]; try lia.
      * rewrite (proj2 (Nat.leb_le (F - 1 + J * H) (n + p))), (proj2 (Nat.ltb_lt (n + p) (F - 1 + J * H + F))) by (unfold o in *; lia). cbn [andb].
        replace (n + p - (F - 1 + J * H)) with (0 + (p - o)) by (unfold o in *; lia). ring.
      * destruct (Nat.leb_spec (F - 1 + J * H) (n + p)); [unfold o in *; lia|]. cbn [andb]. ring.
  - rewrite E. cbn [bind]. eexists. split; [reflexivity|].
    split; [|cbn; auto]. constructor; cbn [set_user set_frame set_offset set_output _frame _output _frameSize _hopSize _outputOffset _unusedInput _window _user _unusedInputCount]; auto.
    + apply matrix_intro; auto. intros i Hi. apply (V i Hi).
    + rewrite SJ. unfold o. lia.
    + intros Hc ch p Hch Hp Hr. destruct (V ch Hch) as [_ V']. apply V'; auto. destruct Hr as [[Hr _]|Hr]; [discriminate|exact Hr].
Qed.

(** *** One call: the block [b] of [l] samples arrives at time n *)
Section Call.
Variables (n l : nat) (b : list (list R)).
Hypothesis Hl : l <= N.
Hypothesis Hb : matrix_of nch l b.
Hypothesis Hbx : forall ch i, ch < nch -> i < l -> nth i (nth ch b []) 0%R = X ch (n + i).
Hypothesis HJT : forall J, J * H + F <= n + l -> J < JT.

(** The last frame is made of samples that have arrived before time m. *)
Definition lastok (m J : nat) : Prop := J = 0 \/ J * H + F <= m + H.

(** The left overs in [un]: samples [from] ... n - 1 of the streams, at offset [off]. *)
Definition holds (un : list (list R)) (off from count : nat) : Prop :=
  off + count <= F - 1 /\ forall ch i, ch < nch -> i < count -> nth (off + i) (nth ch un []) 0%R = X ch (from + i).

Lemma leftover_round_ok : forall J c off u, inv n J c -> _unusedInputCount _ c = Z.of_nat u -> u + J * H = n -> holds (_unusedInput _ c) off (J * H) u ->
  0 < u -> F <= u + l ->
  exists c', leftover_round St pf nch b (c, off) = Ok (c', off + H) /\ inv n (S J) c' /\ _unusedInput _ c' = _unusedInput _ c /\
    _unusedInputCount _ c' = (Z.of_nat u - Z.of_nat H)%Z.
Proof.
  intros J c off u I Eu Hu (Hoff & Hold) Hu0 Hul. pose proof I as I0. destruct I as [iF iH iw ifr iun iout ioff iuser ival].
  unfold leftover_round. rewrite Eu, iF, iw.
  destruct (each_channel_spec nch (fun ch row =>
      u <- index (Z.of_nat u) ;; unused <- rd (_unusedInput _ c) ch ;; row <- fvo_multiply row 0 unused off (repeat g F) 0 u ;;
      inp <- rd b ch ;; fvo_multiply row u inp 0 (repeat g F) u (F - u))
     (_frame _ c) (fun ch row => length row = F /\ forall i, i < F -> nth i row 0%R = (X ch (J * H + i) * g)%R)) as (f' & E & L & V).
  - apply ifr.
  - intros ch Hch. rewrite index_ok. cbn [bind]. rewrite (rd_ok _ _ _ []) by (destruct iun; lia). cbn [bind].
    pose proof (matrix_row _ _ _ _ ifr Hch) as Lf. pose proof (matrix_row _ _ _ _ iun Hch) as Lu. pose proof (matrix_row _ _ _ _ Hb Hch) as Lb.
    destruct (fvo_multiply_spec (nth ch (_frame _ c) []) 0 (nth ch (_unusedInput _ c) []) off (repeat g F) 0 u) as (r1 & -> & L1 & V1);
      rewrite ?repeat_length; try lia. cbn [bind].
    rewrite (rd_ok _ _ _ []) by (destruct Hb; lia). cbn [bind].
    destruct (fvo_multiply_spec r1 u (nth ch b []) 0 (repeat g F) u (F - u)) as (r2 & -> & L2 & V2); rewrite ?repeat_length; try lia.
    exists r2. split; auto. split; [lia|]. intros i Hi. rewrite V2, V1.
    rewrite !(nth_indep (repeat g F) 0%R g) by (rewrite repeat_length; lia). rewrite !nth_repeat.
    destruct (Nat.leb_spec u i), (Nat.ltb_spec i (u + (F - u))); cbn [andb]; try lia.
    + cbn [plus]. rewrite Hbx by lia. do 2 f_equal. lia.
    + rewrite (proj2 (Nat.leb_le 0 i)), (proj2 (Nat.ltb_lt i (0 + u))) by lia. cbn [andb]. rewrite Nat.sub_0_r. rewrite Hold by lia. reflexivity.
  - rewrite E. cbn [bind].
    assert (Mf : matrix_of nch F f') by (apply matrix_intro; auto; intros i Hi; apply (V i Hi)).
    assert (Efr : f' = fr J).
    { apply (matrix_ext nch F); auto.
      - unfold fr. apply matrix_intro; [apply tab_length|]. intros i Hi. rewrite nth_tab by auto. apply tab_length.
      - intros i j Hi Hj. unfold fr. rewrite !nth_tab by auto. apply (V i Hi); auto. }
    destruct (run_frame_ok n J (set_frame _ c f') l) as (c' & Er & I' & Eun & Ecnt); auto.
    + apply (inv_ext n J c); auto.
    + apply HJT. lia.
    + lia.
    + lia.
    + rewrite Er. cbn [bind]. eexists. split; [|split; [|split]].
      * rewrite (i_H _ _ _ I'), Ecnt. cbn. reflexivity.
      * apply (inv_ext n (S J) c'); auto; apply I'.
      * exact Eun.
      * cbn. rewrite Eu. reflexivity.
Qed.

Lemma leftovers_ok : forall J c u, inv n J c -> lastok n J -> _unusedInputCount _ c = Z.of_nat u -> u + J * H = n -> holds (_unusedInput _ c) 0 (J * H) u ->
  exists J' c' , leftovers St pf nch l b c = Ok (c', (J' - J) * H) /\ J <= J' /\ inv n J' c' /\
    _unusedInput _ c' = _unusedInput _ c /\ _unusedInputCount _ c' = (Z.of_nat n - Z.of_nat (J' * H))%Z /\
    (J' = J \/ J' * H + F <= n + l + H) /\ lastok (n + l) J' /\ (n <= J' * H \/ n - J' * H + l < F).
Proof.
  intros J c u I Hlo Eu Hu Hh. unfold leftovers. rewrite Eu, Nat2Z.id.
  set (cond := fun st : cola St * nat => let (c, _) := st in
     (0 <? _unusedInputCount _ c)%Z && (Z.of_nat (_frameSize _ c) <=? _unusedInputCount _ c + Z.of_nat l)%Z).
  assert (G : forall fuel J1 c1, J <= J1 -> inv n J1 c1 -> _unusedInput _ c1 = _unusedInput _ c -> _unusedInputCount _ c1 = (Z.of_nat n - Z.of_nat (J1 * H))%Z ->
     (J1 = J \/ J1 * H + F <= n + l + H) -> n - J1 * H < fuel ->
     exists J' c', while_fuel fuel cond (leftover_round St pf nch b) (c1, (J1 - J) * H) = Ok (c', (J' - J) * H) /\ J <= J' /\ inv n J' c' /\
       _unusedInput _ c' = _unusedInput _ c /\ _unusedInputCount _ c' = (Z.of_nat n - Z.of_nat (J' * H))%Z /\
       (J' = J \/ J' * H + F <= n + l + H) /\ lastok (n + l) J' /\ (n <= J' * H \/ n - J' * H + l < F)).
  { induction fuel as [|fuel IH]; intros J1 c1 HJ I1 E1 C1 Hlast Hf; [lia|].
    destruct (cond (c1, (J1 - J) * H)) eqn:Ec.
    - rewrite while_step by auto. unfold cond in Ec. rewrite C1, (i_F _ _ _ I1) in Ec. apply andb_prop in Ec. destruct Ec as [Ea Eb].
      apply Z.ltb_lt in Ea. apply Z.leb_le in Eb.
      assert (SJ : S J1 * H = J1 * H + H) by apply Nat.mul_succ_l.
      assert (Hk : J * H <= J1 * H) by (apply Nat.mul_le_mono_r; auto).
      destruct (leftover_round_ok J1 c1 ((J1 - J) * H) (n - J1 * H)) as (c2 & -> & I2 & E2 & C2); auto; try lia.
      + rewrite E1. destruct Hh as [Ho Hh]. rewrite Nat.mul_sub_distr_r. split; [lia|]. intros ch i Hch Hi.
        replace (J1 * H - J * H + i) with (0 + (J1 * H - J * H + i)) by lia. rewrite Hh by lia. f_equal. lia.
      + cbn [bind]. replace ((J1 - J) * H + H) with ((S J1 - J) * H) by (rewrite !Nat.mul_sub_distr_r; lia).
        apply IH; auto; try lia. congruence.
    - rewrite while_stop by auto. exists J1, c1. split; auto. split; auto. split; auto. split; auto. split; auto. split; [|split].
      { auto. }
      { unfold lastok in *. destruct Hlast as [->|Hlast]; lia. }
      unfold cond in Ec. rewrite C1, (i_F _ _ _ I1) in Ec. apply andb_false_iff in Ec. destruct Ec as [Ec|Ec].
      + apply Z.ltb_ge in Ec. lia.
      + apply Z.leb_gt in Ec. destruct (Nat.le_gt_cases n (J1 * H)); [left; auto|right; lia]. }
  specialize (G (S u) J c ltac:(lia) I eq_refl). replace ((J - J) * H) with 0 in G by (rewrite Nat.sub_diag; reflexivity).
  apply G; auto; lia.
Qed.

Lemma append_input_ok : forall J0 J c u0, inv n J c -> J0 <= J -> u0 + J0 * H = n -> holds (_unusedInput _ c) 0 (J0 * H) u0 ->
  _unusedInputCount _ c = (Z.of_nat n - Z.of_nat (J * H))%Z -> J * H < n -> n - J * H + l < F ->
  exists c', append_input St nch l b (Z.of_nat u0) c = Ok c' /\ inv n J c' /\
    _unusedInputCount _ c' = Z.of_nat (n + l - J * H) /\ holds (_unusedInput _ c') 0 (J * H) (n + l - J * H).
Proof.
  intros J0 J c u0 I HJ Hu (Ho & Hh) Ec Hlt Hlt2. pose proof I as I0. destruct I as [iF iH iw ifr iun iout ioff iuser ival].
  assert (Hk : J0 * H <= J * H) by (apply Nat.mul_le_mono_r; auto).
  unfold append_input. rewrite Ec.
  destruct (each_channel_spec nch (fun ch row =>
      from <- index (Z.of_nat u0 - (Z.of_nat n - Z.of_nat (J * H)))%Z ;; u <- index (Z.of_nat n - Z.of_nat (J * H))%Z ;;
      row <- copy_within row from u 0 ;; inp <- rd b ch ;; copy_n inp 0 l row u)
    (_unusedInput _ c) (fun ch row => length row = F - 1 /\ forall i, i < n + l - J * H -> nth i row 0%R = X ch (J * H + i))) as (un & E & L & V).
  - apply iun.
  - intros ch Hch. rewrite (index_eq _ (J * H - J0 * H)) by lia. cbn [bind]. rewrite (index_eq _ (n - J * H)) by lia. cbn [bind].
    pose proof (matrix_row _ _ _ _ iun Hch) as Lu. pose proof (matrix_row _ _ _ _ Hb Hch) as Lb.
    destruct (copy_within_spec (nth ch (_unusedInput _ c) []) (J * H - J0 * H) (n - J * H)) as (r1 & -> & L1 & V1); [lia|]. cbn [bind].
    rewrite (rd_ok _ _ _ []) by (destruct Hb; lia). cbn [bind].
    destruct (copy_n_spec (nth ch b []) 0 l r1 (n - J * H)) as (r2 & -> & L2 & V2); [lia|lia|]. exists r2. split; auto. split; [lia|].
    intros i Hi. rewrite V2, V1. destruct (Nat.leb_spec (n - J * H) i), (Nat.ltb_spec i (n - J * H + l)); cbn [andb]; try lia.
    + cbn [plus]. rewrite Hbx by lia. f_equal. lia.
    + rewrite (proj2 (Nat.ltb_lt i (n - J * H))) by lia. replace (J * H - J0 * H + i) with (0 + (J * H - J0 * H + i)) by lia. rewrite Hh by lia. f_equal. lia.
  - rewrite E. cbn [bind]. eexists. split; [reflexivity|]. split; [|split].
    + apply (inv_ext n J c); auto. cbn. apply matrix_intro; auto. intros i Hi. apply (V i Hi).
    + cbn. lia.
    + cbn. split; [lia|]. intros ch i Hch Hi. cbn [plus]. apply (V ch Hch). auto.
Qed.

Lemma use_input_ok : forall J c, inv n J c -> _unusedInputCount _ c = (Z.of_nat n - Z.of_nat (J * H))%Z -> n <= J * H -> J * H <= n + l ->
  lastok (n + l) J ->
  exists J' c', use_input St pf nch l b c = Ok c' /\ inv n J' c' /\ J <= J' /\ J' * H <= n + l /\ lastok (n + l) J' /\ n + l - J' * H < F /\
    _unusedInputCount _ c' = Z.of_nat (n + l - J' * H) /\ holds (_unusedInput _ c') 0 (J' * H) (n + l - J' * H).
Proof.
  intros J c I Ec Hge Hle Hlo. unfold use_input. rewrite Ec. replace (- (Z.of_nat n - Z.of_nat (J * H)))%Z with (Z.of_nat (J * H - n)) by lia.
  set (cond := fun st : cola St * Z => let (c, dataOffset) := st in (Z.of_nat (_frameSize _ c) <=? Z.of_nat l - dataOffset)%Z).
  assert (G : forall fuel J1 c1, J <= J1 -> inv n J1 c1 -> J1 * H <= n + l -> lastok (n + l) J1 -> n + l - J1 * H < fuel ->
     exists J' c', while_fuel fuel cond (direct_round St pf nch b) (c1, Z.of_nat (J1 * H - n)) = Ok (c', Z.of_nat (J' * H - n)) /\ J <= J' /\ inv n J' c' /\
       J' * H <= n + l /\ lastok (n + l) J' /\ n + l - J' * H < F).
  { induction fuel as [|fuel IH]; intros J1 c1 HJ I1 Hle1 Hlo1 Hf; [lia|].
    assert (Hk : J * H <= J1 * H) by (apply Nat.mul_le_mono_r; auto).
    destruct (cond (c1, Z.of_nat (J1 * H - n))) eqn:E1.
    - rewrite while_step by auto. unfold cond in E1. rewrite (i_F _ _ _ I1) in E1. apply Z.leb_le in E1.
      pose proof I1 as I0. destruct I1 as [iF iH iw ifr iun iout ioff iuser ival].
      assert (SJ : S J1 * H = J1 * H + H) by apply Nat.mul_succ_l.
      unfold direct_round at 1. rewrite iF, iw.
      destruct (each_channel_spec nch (fun ch row => inp <- rd b ch ;; d <- index (Z.of_nat (J1 * H - n)) ;; fvo_multiply row 0 inp d (repeat g F) 0 F)
        (_frame _ c1) (fun ch row => length row = F /\ forall i, i < F -> nth i row 0%R = (X ch (J1 * H + i) * g)%R)) as (f' & E & L & V).
      + apply ifr.
      + intros ch Hch. rewrite (rd_ok _ _ _ []) by (destruct Hb; lia). cbn [bind]. rewrite index_ok. cbn [bind].
        pose proof (matrix_row _ _ _ _ ifr Hch) as Lf. pose proof (matrix_row _ _ _ _ Hb Hch) as Lb.
        destruct (fvo_multiply_spec (nth ch (_frame _ c1) []) 0 (nth ch b []) (J1 * H - n) (repeat g F) 0 F) as (r1 & -> & L1 & V1);
          rewrite ?repeat_length; try lia.
        exists r1. split; auto. split; [lia|]. intros i Hi. rewrite V1.
        rewrite !(nth_indep (repeat g F) 0%R g) by (rewrite repeat_length; lia). rewrite !nth_repeat.
        rewrite (proj2 (Nat.leb_le 0 i)), (proj2 (Nat.ltb_lt i (0 + F))) by lia. cbn [andb]. rewrite Nat.sub_0_r. rewrite Hbx by lia. do 2 f_equal. lia.
      + rewrite E. cbn [bind].
        assert (Mf : matrix_of nch F f') by (apply matrix_intro; auto; intros i Hi; apply (V i Hi)).
        assert (Efr : f' = fr J1).
        { apply (matrix_ext nch F); auto.
          - unfold fr. apply matrix_intro; [apply tab_length|]. intros i Hi. rewrite nth_tab by auto. apply tab_length.
          - intros i j Hi Hj. unfold fr. rewrite !nth_tab by auto. apply (V i Hi); auto. }
        destruct (run_frame_ok n J1 (set_frame _ c1 f') l) as (c' & Er & I' & Eun & Ecnt); auto; try lia.
        * apply (inv_ext n J1 c1); auto.
        * apply HJT. lia.
        * rewrite Er. cbn [bind]. rewrite (i_H _ _ _ I').
          replace (Z.of_nat (J1 * H - n) + Z.of_nat H)%Z with (Z.of_nat (S J1 * H - n)) by lia. apply IH; auto; try lia. right. lia.
    - rewrite while_stop by auto. exists J1, c1. split; auto. split; auto. split; auto. split; auto. split; auto.
      unfold cond in E1. rewrite (i_F _ _ _ I1) in E1. apply Z.leb_gt in E1. lia. }
  destruct (G (S l) J c ltac:(lia) I Hle Hlo ltac:(lia)) as (J' & c' & E & HJ & I' & Hle' & Hlo' & Hlt'). fold cond. rewrite E. cbn [bind].
  assert (Hk : J * H <= J' * H) by (apply Nat.mul_le_mono_r; auto).
  assert (Erem : (Z.of_nat l - Z.of_nat (J' * H - n))%Z = Z.of_nat (n + l - J' * H)) by lia. rewrite Erem.
  destruct (Nat.eq_dec (n + l - J' * H) 0) as [Z0|Z0].
  - rewrite Z0. cbn [Z.of_nat Z.ltb Z.compare bind]. exists J'. eexists. split; [reflexivity|]. split; [|split; [auto|split; [auto|split; [auto|split; [auto|split]]]]].
    + apply (inv_ext n J' c'); auto; apply I'.
    + cbn. rewrite Z0. reflexivity.
    + split; [lia|]. intros; lia.
  - replace (0 <? Z.of_nat (n + l - J' * H))%Z with true by (symmetry; apply Z.ltb_lt; lia).
    destruct (each_channel_spec nch (fun ch row => inp <- rd b ch ;; d <- index (Z.of_nat (J' * H - n)) ;; k <- index (Z.of_nat (n + l - J' * H)) ;; copy_n inp d k row 0)
      (_unusedInput _ c') (fun ch row => length row = F - 1 /\ forall i, i < n + l - J' * H -> nth i row 0%R = X ch (J' * H + i))) as (un & E2 & L & V).
    + apply (i_un _ _ _ I').
    + intros ch Hch. rewrite (rd_ok _ _ _ []) by (destruct Hb; lia). cbn [bind]. rewrite index_ok. cbn [bind]. rewrite index_ok. cbn [bind].
      pose proof (matrix_row _ _ _ _ (i_un _ _ _ I') Hch) as Lu. pose proof (matrix_row _ _ _ _ Hb Hch) as Lb.
      destruct (copy_n_spec (nth ch b []) (J' * H - n) (n + l - J' * H) (nth ch (_unusedInput _ c') []) 0) as (r & -> & Lr & Vr); [lia|lia|].
      exists r. split; auto. split; [lia|]. intros i Hi. rewrite Vr.
      rewrite (proj2 (Nat.leb_le 0 i)), (proj2 (Nat.ltb_lt i (0 + (n + l - J' * H)))) by lia. cbn [andb]. rewrite Nat.sub_0_r, Hbx by lia. f_equal. lia.
    + rewrite E2. cbn [bind]. exists J'. eexists. split; [reflexivity|]. split; [|split; [auto|split; [auto|split; [auto|split; [auto|split]]]]].
      * apply (inv_ext n J' c'); auto; try apply I'. cbn. apply matrix_intro; auto. intros i Hi. apply (V i Hi).
      * cbn. reflexivity.
      * cbn. split; [lia|]. intros ch i Hch Hi. cbn [plus]. apply (V ch Hch); auto.
Qed.
Lemma emit_ok : forall J c, inv n J c -> J * H <= n + l -> n + l - J * H < F -> lastok (n + l) J ->
  exists c' out, emit St nch l size b c = Ok (c', out) /\ inv (n + l) J c' /\ matrix_of nch l out /\
    (clean -> forall ch i, ch < nch -> i < l -> nth i (nth ch out []) 0%R = (acc J ch (n + i) + res ch (n + i))%R) /\
    _unusedInput _ c' = _unusedInput _ c /\ _unusedInputCount _ c' = _unusedInputCount _ c /\
    forall ch i, ch < nch -> i < l -> nth i (nth ch out []) 0%R = nth i (nth ch (_output _ c) []) 0%R.
Proof.
  intros J c I Hle Hlt Hlo. pose proof I as I0. destruct I as [iF iH iw ifr iun iout ioff iuser ival].
  unfold emit. rewrite iF, iH, ioff. set (sL := F - 1 + J * H + F - H - n - l).
  replace (Z.of_nat (F - 1 + J * H) - Z.of_nat n + Z.of_nat F - Z.of_nat H - Z.of_nat l)%Z with (Z.of_nat sL) by (unfold sL; lia).
  set (sh := min sL (size - l)).
  assert (Esh : (if (0 <? Z.of_nat l + Z.of_nat sL - Z.of_nat size)%Z then (Z.of_nat sL - (Z.of_nat l + Z.of_nat sL - Z.of_nat size))%Z else Z.of_nat sL) = Z.of_nat sh).
  { unfold sh. destruct (Z.ltb_spec 0 (Z.of_nat l + Z.of_nat sL - Z.of_nat size)); lia. }
  rewrite Esh.
  set (body := fun ch (st : list (list R) * list (list R)) => let (output, outBlock) := st in
      row <- rd output ch ;; orow <- rd outBlock ch ;; orow <- copy_n row 0 l orow 0 ;; n <- index (Z.of_nat sh) ;;
      row <- copy_within row l n 0 ;; output <- wr output ch row ;; outBlock <- wr outBlock ch orow ;; Ok (output, outBlock)).
  destruct (for_range_inv _ (fun j (st : list (list R) * list (list R)) => let (o, ob) := st in
      length o = nch /\ length ob = nch /\
      (forall ch, ch < nch -> length (nth ch o []) = size /\ length (nth ch ob []) = l) /\
      (forall ch, j <= ch < nch -> nth ch o [] = nth ch (_output _ c) []) /\
      (forall ch i, ch < j -> i < l -> nth i (nth ch ob []) 0%R = nth i (nth ch (_output _ c) []) 0%R) /\
      (forall ch p, ch < j -> nth p (nth ch o []) 0%R = if p <? sh then nth (l + p) (nth ch (_output _ c) []) 0%R else nth p (nth ch (_output _ c) []) 0%R))
    0 nch body (_output _ c, b)) as ((o & ob) & E & Lo & Lob & Ls & _ & V & W).
  - lia.
  - split; [apply iout|]. split; [apply Hb|]. split.
    + intros ch Hch. split; eapply matrix_row; eauto.
    + split; auto. split; intros; lia.
  - intros j (o, ob) Hj (Lo & Lob & Ls & Eq & V & W). destruct (Ls j ltac:(lia)) as [Lsj Lbj].
    unfold body. rewrite (rd_ok _ _ _ []) by lia. cbn [bind]. rewrite (rd_ok _ _ _ []) by lia. cbn [bind].
    destruct (copy_n_spec (nth j o []) 0 l (nth j ob []) 0) as (r1 & -> & L1 & V1); [lia|lia|]. cbn [bind]. rewrite index_ok. cbn [bind].
    destruct (copy_within_spec (nth j o []) l sh) as (r2 & -> & L2 & V2); [unfold sh; lia|]. cbn [bind].
    rewrite wr_ok by lia. cbn [bind]. rewrite wr_ok by lia. cbn [bind]. eexists. split; [reflexivity|].
    cbv beta iota. rewrite !upd_length. split; auto. split; auto. assert (Eqj : nth j o [] = nth j (_output _ c) []) by (apply Eq; lia). rewrite Eqj in V1, V2. split; [|split; [|split]].
    + intros ch Hch. rewrite !nth_upd, Lo, Lob. destruct (Nat.eqb_spec ch j) as [->|]; cbn [andb]; auto.
      rewrite (proj2 (Nat.ltb_lt j nch)) by lia. split; lia.
    + intros ch Hch. rewrite nth_upd. destruct (Nat.eqb_spec ch j); [lia|]. cbn [andb]. apply Eq. lia.
    + intros ch i Hch Hi. rewrite nth_upd, Lob. destruct (Nat.eqb_spec ch j) as [->|].
      * rewrite (proj2 (Nat.ltb_lt j nch)) by lia. cbn [andb]. rewrite V1. rewrite (proj2 (Nat.leb_le 0 i)), (proj2 (Nat.ltb_lt i (0 + l))) by lia.
        cbn [andb]. rewrite Nat.sub_0_r. reflexivity.
      * cbn [andb]. apply V; lia.
    + intros ch p Hch. rewrite nth_upd, Lo. destruct (Nat.eqb_spec ch j) as [->|].
      * rewrite (proj2 (Nat.ltb_lt j nch)) by lia. cbn [andb]. apply V2.
      * cbn [andb]. apply W; lia.
  - fold body. rewrite E. cbn [bind]. eexists. exists ob. split; [reflexivity|]. split; [|split; [|split; [|split]]].
    + constructor; cbn [set_offset set_output _frame _output _frameSize _hopSize _outputOffset _unusedInput _window _user _unusedInputCount]; auto.
      * apply matrix_intro; auto. intros i Hi. apply (Ls i Hi).
      * lia.
      * intros Hc ch p Hch Hp Hr. rewrite W by auto. destruct (Nat.ltb_spec p sh).
        -- rewrite ival; auto; [f_equal; f_equal; lia|unfold sh in *; lia|lia].
        -- destruct (Nat.eq_dec J 0) as [->|NJ].
           ++ destruct (Nat.eq_dec H F) as [HF|HF]. { exfalso. destruct Hr as [[_ Hr]|Hr]; [lia|]. unfold sh, sL in *. lia. }
              destruct (Hjunk Hc) as [Z|Z]; [|lia]. rewrite ival; auto. unfold acc, res. rewrite !Z. unfold Rsum, Sums.bsum.
              destruct (_ <? _), (_ <? _); reflexivity.
           ++ exfalso. destruct Hr as [[Hr _]|Hr]; [lia|]. destruct Hlo as [Hlo|Hlo]; [lia|]. unfold sh, sL in *. lia.
    + apply matrix_intro; auto. intros i Hi. apply (Ls i Hi).
    + intros Hc ch i Hch Hi. rewrite V by auto. apply ival; auto; lia.
    + reflexivity.
    + split; [reflexivity|]. auto.
Qed.

(** Between two calls. *)
Definition ready (m J : nat) (c : cola St) : Prop :=
  inv m J c /\ J * H <= m /\ m - J * H < F /\ _unusedInputCount _ c = Z.of_nat (m - J * H) /\
  holds (_unusedInput _ c) 0 (J * H) (m - J * H) /\ lastok m J.

Lemma process_ok : forall J c, ready n J c ->
  exists J' c' out, process St pf nch l b b c = Ok (c', out) /\ ready (n + l) J' c' /\ matrix_of nch l out /\
    (clean -> forall ch i, ch < nch -> i < l -> nth i (nth ch out []) 0%R = (acc J' ch (n + i) + res ch (n + i))%R).
Proof.
  intros J c (I & Hle & Hlt & Ec & Hh & Hlo). unfold process.
  assert (Es : match _output _ c with [] => 0 | row :: _ => length row end = size).
  { pose proof (i_out _ _ _ I) as M. pose proof (matrix_row _ _ _ 0 M Hn). destruct M as [L _]. destruct (_output St c); [cbn in L; lia|auto]. }
  rewrite Es.
  destruct (leftovers_ok J c (n - J * H) I Hlo Ec ltac:(lia) Hh) as (J1 & c1 & -> & HJ & I1 & Eun & Ec1 & Hor & Hlo1 & Hex). cbn [bind]. rewrite Ec1.
  assert (Hk : J * H <= J1 * H) by (apply Nat.mul_le_mono_r; auto).
  destruct (Z.ltb_spec 0 (Z.of_nat n - Z.of_nat (J1 * H))) as [Hc|Hc].
  - rewrite Ec. destruct (append_input_ok J J1 c1 (n - J * H)) as (c2 & -> & I2 & Ec2 & Hh2); auto; try lia.
    { rewrite Eun. auto. }
    cbn [bind]. destruct (emit_ok J1 c2 I2) as (c3 & out & -> & I3 & Mo & Vo & Eu3 & Ec3 & _); auto; try lia.
    exists J1, c3, out. split; auto. split; [|split; auto]. split; auto. split; [lia|]. split; [lia|]. split; [rewrite Ec3; exact Ec2|].
    split; [rewrite Eu3; exact Hh2|auto].
  - destruct (use_input_ok J1 c1 I1 Ec1) as (J2 & c2 & -> & I2 & HJ2 & Hle2 & Hlo2 & Hlt2 & Ec2 & Hh2); auto; try lia.
    cbn [bind]. destruct (emit_ok J2 c2 I2) as (c3 & out & -> & I3 & Mo & Vo & Eu3 & Ec3 & _); auto; try lia.
    exists J2, c3, out. split; auto. split; [|split; auto]. split; auto. split; [lia|]. split; [lia|]. split; [rewrite Ec3; exact Ec2|].
    split; [rewrite Eu3; exact Hh2|auto].
Qed.
End Call.

Lemma stream_cons_nth : forall b rest ch i, nth i (channel_stream (b :: rest) ch) 0%R =
  if i <? length (nth ch b []) then nth i (nth ch b []) 0%R else nth (i - length (nth ch b [])) (channel_stream rest ch) 0%R.
Proof.
  intros. unfold channel_stream. cbn [map concat]. destruct (Nat.ltb_spec i (length (nth ch b []))).
  - apply app_nth1; auto.
  - apply app_nth2; auto.
Qed.

Lemma process_all_ok : forall blocks n J c, host_blocks nch N blocks ->
  (forall ch i, ch < nch -> i < stream_length blocks -> nth i (channel_stream blocks ch) 0%R = X ch (n + i)) ->
  (forall j, j * H + F <= n + stream_length blocks <-> j < JT) ->
  ready n J c ->
  exists c' outs, process_all St pf nch blocks c = Ok (c', outs) /\ ready (n + stream_length blocks) JT c' /\
    length outs = length blocks /\ (forall t, t < length blocks -> matrix_of nch (block_length (nth t blocks [])) (nth t outs [])) /\
    (clean -> forall ch, ch < nch -> channel_stream outs ch = tab (stream_length blocks) (fun i => acc JT ch (n + i) + res ch (n + i))%R).
Proof.
  induction blocks as [|b rest IH]; intros n J c Hb HX HJT Hr.
  - cbn [process_all]. exists c, []. split; auto. unfold stream_length; cbn [map list_sum fold_right]. rewrite Nat.add_0_r. split.
    + replace JT with J; auto. unfold stream_length in HJT. cbn [map list_sum fold_right] in HJT. destruct Hr as (_ & Hle & Hlt & _ & _ & Hlo).
      destruct (Nat.lt_trichotomy J JT) as [L|[E|G]]; auto.
      * apply HJT in L. lia.
      * assert (J - 1 < JT); [|lia]. apply HJT. destruct Hlo as [->|Hlo]; [lia|]. rewrite Nat.mul_sub_distr_r, Nat.mul_1_l.
        assert (1 * H <= J * H) by (apply Nat.mul_le_mono_r; lia). lia.
    + split; auto. split; [intros t Ht; cbn in Ht; lia|]. intros _ ch Hch. reflexivity.
  - destruct (Hb b (or_introl eq_refl)) as [Mb Lb]. set (l := block_length b) in *.
    assert (Esl : stream_length (b :: rest) = l + stream_length rest) by reflexivity.
    cbn [process_all]. change (match b with [] => 0 | row :: _ => length row end) with (block_length b). fold l.
    destruct (process_ok n l b) with (J := J) (c := c) as (J1 & c1 & out & -> & Hr1 & Mo & Vo); auto.
    + intros ch i Hch Hi. rewrite <- HX by (auto; lia). rewrite stream_cons_nth, (matrix_row _ _ _ _ Mb Hch).
      rewrite (proj2 (Nat.ltb_lt i l)) by auto. reflexivity.
    + intros j Hj. apply HJT. lia.
    + cbn [bind]. destruct (IH (n + l) J1 c1) as (c2 & outs & -> & Hr2 & Lo & Ms & Vs); auto.
      * intros b' Hb'. apply Hb. right; auto.
      * intros ch i Hch Hi. specialize (HX ch (l + i) Hch ltac:(lia)). rewrite stream_cons_nth, (matrix_row _ _ _ _ Mb Hch) in HX.
        rewrite (proj2 (Nat.ltb_ge (l + i) l)) in HX by lia. replace (l + i - l) with i in HX by lia. rewrite HX. f_equal. lia.
      * intros j. rewrite <- HJT. lia.
      * cbn [bind]. exists c2, (out :: outs). split; auto. split; [rewrite Esl, Nat.add_assoc; auto|]. split; [cbn; auto|]. split.
        { intros [|t] Ht; cbn [nth]; auto. apply Ms. cbn in Ht. lia. }
        intros Hc ch Hch. unfold channel_stream. cbn [map concat]. fold (channel_stream outs ch). rewrite (Vs Hc ch Hch).
        apply (list_eq_nth _ 0%R).
        { rewrite app_length, !tab_length, (matrix_row _ _ _ _ Mo Hch). lia. }
        intros i Hi. rewrite app_length, tab_length, (matrix_row _ _ _ _ Mo Hch) in Hi. rewrite (nth_tab _ (stream_length (b :: rest))) by lia.
        destruct (Nat.lt_ge_cases i l) as [Hl|Hl].
        { rewrite app_nth1 by (rewrite (matrix_row _ _ _ _ Mo Hch); auto). rewrite Vo by auto. f_equal. symmetry. apply acc_more.
          - destruct Hr1 as (_ & _ & _ & _ & _ & [->|Hlo]); [lia|].
            destruct (Nat.eq_dec J1 0) as [->|NJ]; [lia|].
            assert ((J1 - 1) < JT); [|lia]. apply HJT. rewrite Nat.mul_sub_distr_r, Nat.mul_1_l.
            assert (1 * H <= J1 * H) by (apply Nat.mul_le_mono_r; lia). lia.
          - destruct Hr1 as (_ & H1 & H2 & _). lia. }
        { rewrite app_nth2 by (rewrite (matrix_row _ _ _ _ Mo Hch); lia). rewrite (matrix_row _ _ _ _ Mo Hch), nth_tab by lia. f_equal; f_equal; lia. }
Qed.
End Run.

Lemma frame_count_spec : forall F H n j, 0 < H -> j * H + F <= n <-> j < frame_count F H n.
Proof.
  intros F H n j HH. unfold frame_count. destruct (Nat.ltb_spec n F); [split; intros; lia|]. split; intros Hj.
  - assert (j <= (n - F) / H); [|lia]. apply Nat.div_le_lower_bound; lia.
  - assert (j <= (n - F) / H) as Hq by lia. pose proof (Nat.mul_div_le (n - F) H ltac:(lia)).
    assert (j * H <= (n - F) / H * H) by (apply Nat.mul_le_mono_r; auto). lia.
Qed.

Lemma run_frames_steps : forall St Fr (f : St -> Fr -> outcome (St * Fr)) (d : Fr) frames s s' ys, run_frames f s frames = Ok (s', ys) ->
  length ys = length frames /\ exists sigma, sigma 0 = s /\ sigma (length frames) = s' /\
    forall u, u < length frames -> f (sigma u) (nth u frames d) = Ok (sigma (S u), nth u ys d).
Proof.
  induction frames as [|x rest IH]; intros s s' ys E; cbn [run_frames] in E.
  - injection E as <- <-. split; auto. exists (fun _ => s). split; auto. split; auto. intros u Hu. cbn in Hu. lia.
  - apply bind_ok in E. destruct E as ((s1, y) & E1 & E). apply bind_ok in E. destruct E as ((s2, ys') & E2 & E). injection E as <- <-.
    destruct (IH _ _ _ E2) as (L & sg & S0 & Sl & Hs). split; [cbn; lia|].
    exists (fun u => match u with 0 => s | S v => sg v end). split; auto. split; [cbn; auto|].
    intros [|u] Hu; cbn [nth].
    + rewrite S0. exact E1.
    + apply Hs. cbn in Hu. lia.
Qed.

Lemma window_gain : forall F H, 0 < H -> 0 < F -> createWindow F H = repeat (2 * INR H / INR F)%R F.
Proof.
  intros F H HH HF. unfold createWindow. assert (0 < INR F)%R by (apply lt_0_INR; lia). assert (0 < INR H)%R by (apply lt_0_INR; lia).
  assert (E : (1 * (1 / (INR F / INR H / 2)))%R = (2 * INR H / INR F)%R) by (field; lra). rewrite <- E.
  generalize (1 / (INR F / INR H / 2))%R. intros r. induction F as [|F IH]; [lia|]. clear. induction (S F) as [|n IH]; cbn; auto. rewrite IH. reflexivity.
Qed.

(** An object with buffers of the sizes prepare() makes. *)
Definition shaped {St} (p d nch N : nat) (c : cola St) : Prop :=
  let F := 2 ^ p in let H := 2 ^ p / 2 ^ d in
  _frameSize _ c = F /\ _hopSize _ c = H /\ _window _ c = createWindow F H /\ matrix_of nch F (_frame _ c) /\
  matrix_of nch (F - 1) (_unusedInput _ c) /\ matrix_of nch (output_samples F H N) (_output _ c).

Section Final.
Variable St : Type.
Variable pf : St -> list (list R) -> outcome (St * list (list R)).
Variables p d nch N : nat.
Hypothesis Hd : d <= p.
Hypothesis Hn : 0 < nch.
Hypothesis HN : 0 < N.
Let F := 2 ^ p.
Let H := 2 ^ p / 2 ^ d.

Lemma hop_is : H = 2 ^ (p - d).
Proof using Hd Hn HN.
  unfold H. replace p with (d + (p - d)) at 1 by lia. rewrite Nat.pow_add_r, Nat.mul_comm, Nat.div_mul; auto. apply Nat.pow_nonzero. lia.
Qed.
Lemma frame_hops : F = 2 ^ d * H.
Proof using Hd Hn HN. rewrite hop_is. unfold F. rewrite <- Nat.pow_add_r. f_equal. lia. Qed.
Lemma hop_range : 0 < H <= F.
Proof using Hd Hn HN.
  pose proof frame_hops as E. assert (0 < 2 ^ d) by (apply Nat.neq_0_lt_0, Nat.pow_nonzero; lia).
  assert (0 < H) by (rewrite hop_is; apply Nat.neq_0_lt_0, Nat.pow_nonzero; lia). nia.
Qed.
Lemma output_size : F + N - 1 <= output_samples F H N.
Proof using Hd Hn HN. pose proof hop_range. unfold output_samples. nia. Qed.

Lemma framer_residue : forall (clean : Prop) (c : cola St) blocks s' ys, (forall y, In y ys -> matrix_of nch F y) -> shaped p d nch N c ->
  _outputOffset _ c = (Z.of_nat F - 1)%Z -> _unusedInputCount _ c = 0%Z ->
  (clean -> (forall ch q, ch < nch -> nth q (nth ch (_output _ c) []) 0%R = 0%R) \/ H = F) ->
  host_blocks nch N blocks ->
  run_frames pf (_user _ c) (frames_of nch F H (2 * INR H / INR F) (channel_stream blocks) (stream_length blocks)) = Ok (s', ys) ->
  exists c' outs, process_all St pf nch blocks c = Ok (c', outs) /\ _user _ c' = s' /\ shaped p d nch N c' /\
    length outs = length blocks /\ (forall t, t < length blocks -> matrix_of nch (block_length (nth t blocks [])) (nth t outs [])) /\
    (clean -> forall ch, ch < nch -> channel_stream outs ch = tab (stream_length blocks) (fun t =>
      overlap_added F H ys ch t + (if t <? F - 1 + F - H then nth t (nth ch (_output _ c) []) 0 else 0))%R).
Proof using All.
  intros clean c blocks s' ys Hys (EF & EH & Ew & Mf & Mu & Mo) Eo Ec Hz Hb Erun.
  set (junk := fun ch t => if ch <? nch then nth t (nth ch (_output _ c) []) 0%R else 0%R).
  assert (Hj : clean -> (forall ch t, junk ch t = 0%R) \/ H = F).
  { intros Hc. destruct (Hz Hc) as [Z|Z]; [left|right; exact Z]. intros ch t. unfold junk. destruct (Nat.ltb_spec ch nch); auto. }
  set (n := stream_length blocks) in *. set (X := fun ch t => nth t (channel_stream blocks ch) 0%R).
  set (g := (2 * INR H / INR F)%R) in *. pose proof hop_range as HH. fold H in EH, Ew, Mo. fold F in EF, Ew, Mf, Mu, Mo.
  destruct (run_frames_steps _ _ pf [] _ _ _ _ Erun) as (Ly & sg & S0 & Sl & Hs).
  assert (Lf : length (frames_of nch F H g (channel_stream blocks) n) = frame_count F H n) by apply tab_length. rewrite Lf in *.
  set (JT := frame_count F H n) in *. set (Y := fun u => nth u ys []).
  assert (Hs' : forall u, u < JT -> pf (sg u) (fr nch F H g X u) = Ok (sg (S u), Y u)).
  { intros u Hu. specialize (Hs u Hu). unfold frames_of in Hs. rewrite nth_tab in Hs by auto. exact Hs. }
  assert (HY : forall u, u < JT -> matrix_of nch F (Y u)).
  { intros u Hu. apply Hys. unfold Y. apply nth_In. lia. }
  destruct (process_all_ok St pf nch F H N (output_samples F H N) g HH Hn HN output_size clean junk Hj X JT sg Y Hs' HY blocks 0 0 c)
    as (c' & outs & E & Hr & Lo & Ms & Vs); auto.
  - intros j. cbn [plus]. apply frame_count_spec. lia.
  - split.
    + constructor; auto.
      * rewrite Ew. apply window_gain; lia.
      * rewrite Eo. rewrite Nat.mul_0_l. lia.
      * intros Hc ch q Hch Hq Hr. unfold acc, res, junk. cbn [plus]; unfold Rsum, Sums.bsum. rewrite (proj2 (Nat.ltb_lt ch nch)) by auto.
        destruct (Nat.ltb_spec q (F - 1 + F - H)); [ring|]. destruct Hr as [[_ Hr]|Hr]; [|lia].
        destruct (Hz Hc) as [Z|Z]; [|contradiction]. rewrite Z by auto. ring.
    + rewrite Nat.mul_0_l. split; [lia|]. split; [lia|]. split; [auto|]. split; [|left; auto]. split; [lia|]. intros; lia.
  - exists c', outs. split; auto. destruct Hr as (I & _). destruct I as [iF iH iw ifr iun iout ioff iuser ival].
    split; [congruence|]. split; [|split; auto; split; auto].
    + unfold shaped. fold H. fold F. split; auto. split; auto. split; auto. rewrite iw. symmetry. apply window_gain; lia.
    + intros Hc ch Hch. rewrite Vs by auto. apply tab_ext. intros i Hi. unfold acc, overlap_added, res, junk. rewrite Ly, (proj2 (Nat.ltb_lt ch nch)) by auto. reflexivity.
Qed.

Lemma framer_shaped : forall (clean : Prop) (c : cola St) blocks s' ys, (forall y, In y ys -> matrix_of nch F y) -> shaped p d nch N c ->
  _outputOffset _ c = (Z.of_nat F - 1)%Z -> _unusedInputCount _ c = 0%Z ->
  (clean -> forall ch q, ch < nch -> nth q (nth ch (_output _ c) []) 0%R = 0%R) ->
  host_blocks nch N blocks ->
  run_frames pf (_user _ c) (frames_of nch F H (2 * INR H / INR F) (channel_stream blocks) (stream_length blocks)) = Ok (s', ys) ->
  exists c' outs, process_all St pf nch blocks c = Ok (c', outs) /\ _user _ c' = s' /\ shaped p d nch N c' /\
    length outs = length blocks /\ (forall t, t < length blocks -> matrix_of nch (block_length (nth t blocks [])) (nth t outs [])) /\
    (clean -> forall ch, ch < nch -> channel_stream outs ch = tab (stream_length blocks) (overlap_added F H ys ch)).
Proof using All.
  intros clean c blocks s' ys Hys Hs Eo Ec Hz Hb Erun.
  destruct (framer_residue clean c blocks s' ys) as (c' & outs & E & Eu & Hs' & L & M & V); auto.
  exists c', outs. split; auto. split; auto. split; auto. split; auto. split; auto. intros Hc ch Hch. rewrite V by auto. apply tab_ext.
  intros t Ht. rewrite Hz by auto. destruct (_ <? _); ring.
Qed.

Lemma prepared_shaped : forall user frame unused output, matrix_of nch F frame -> matrix_of nch (F - 1) unused ->
  matrix_of nch (output_samples F H N) output -> shaped p d nch N (prepare St (cola_make St p d user) frame unused output).
Proof using. intros. unfold shaped. cbn. fold F H. repeat split; auto; try (apply H0 || apply H1 || apply H2). Qed.

Lemma clear_shape : forall r k (m : list (list R)), matrix_of r k m -> matrix_of r k (clear m).
Proof using.
  intros r k m [L W]. split; [unfold clear; rewrite map_length; auto|]. intros row Hr. unfold clear in Hr. apply in_map_iff in Hr.
  destruct Hr as (q & <- & Hq). rewrite repeat_length. auto.
Qed.

Lemma reset_shaped : forall rf c, shaped p d nch N c -> shaped p d nch N (reset St rf c).
Proof using. intros rf c (A & B & C & D & E & G). unfold shaped. cbn. split; auto. split; auto. split; auto. auto using clear_shape. Qed.

Lemma reset_zero : forall rf (c : cola St) ch q, nth q (nth ch (_output _ (reset St rf c)) []) 0%R = 0%R.
Proof using.
  intros rf c ch q. cbn. unfold clear. destruct (Nat.lt_ge_cases ch (length (_output _ c))) as [L|G].
  - rewrite (nth_indep _ [] (repeat 0%R (length ([] : list R)))) by (rewrite map_length; auto).
    rewrite (map_nth (fun row : list R => repeat 0%R (length row))). generalize (length (nth ch (_output _ c) [])). intros m. revert q.
    induction m as [|m IH]; intros [|q]; cbn; auto.
  - rewrite (nth_overflow (map _ _)) by (rewrite map_length; auto). destruct q; reflexivity.
Qed.

Lemma reset_session : forall rf c blocks s' ys, (forall y, In y ys -> matrix_of nch F y) -> shaped p d nch N c -> host_blocks nch N blocks ->
  run_frames pf (rf (_user _ c)) (frames_of nch F H (2 * INR H / INR F) (channel_stream blocks) (stream_length blocks)) = Ok (s', ys) ->
  exists c' outs, process_all St pf nch blocks (reset St rf c) = Ok (c', outs) /\ _user _ c' = s' /\ shaped p d nch N c' /\
    length outs = length blocks /\ (forall t, t < length blocks -> matrix_of nch (block_length (nth t blocks [])) (nth t outs [])) /\
    forall ch, ch < nch -> channel_stream outs ch = tab (stream_length blocks) (overlap_added F H ys ch).
Proof using All.
  intros rf c blocks s' ys Hys Hs Hb Er.
  destruct (framer_shaped True (reset St rf c) blocks s' ys) as (c' & outs & E & Eu & Hs' & L & M & V).
  - auto.
  - apply reset_shaped; auto.
  - cbn. destruct Hs as (-> & _). reflexivity.
  - reflexivity.
  - intros _ ch q _. apply reset_zero.
  - auto.
  - exact Er.
  - exists c', outs. auto 10.
Qed.
End Final.

(** A processor that keeps the shape of frames. *)
Lemma kept_shapes : forall St (pf : St -> list (list R) -> outcome (St * list (list R))) nch F, keeps_shape nch F pf ->
  forall frames s s' ys, (forall x, In x frames -> matrix_of nch F x) -> run_frames pf s frames = Ok (s', ys) -> forall y, In y ys -> matrix_of nch F y.
Proof.
  intros St pf nch F Hk frames. induction frames as [|x rest IH]; intros s s' ys Hx Er y Hy; cbn [run_frames] in Er.
  - inversion Er; subst. destruct Hy.
  - apply bind_ok in Er. destruct Er as ((s1, y1) & E1 & Er). apply bind_ok in Er. destruct Er as ((s2, ys2) & E2 & Er). inversion Er; subst.
    destruct Hy as [<-|Hy].
    + eapply Hk; [|exact E1]. apply Hx. left. reflexivity.
    + eapply IH; eauto. intros z Hz. apply Hx. right. auto.
Qed.

Lemma frames_of_shape : forall nch F H g stream n x, In x (frames_of nch F H g stream n) -> matrix_of nch F x.
Proof.
  intros nch F H g stream n x Hx. unfold frames_of, tab in Hx. apply in_map_iff in Hx. destruct Hx as (u & <- & _).
  apply matrix_intro; [apply tab_length|]. intros i Hi. unfold frame_at. rewrite nth_tab by auto. apply tab_length.
Qed.

Section Kept.
Variable St : Type.
Variable pf : St -> list (list R) -> outcome (St * list (list R)).
Variables p d nch N : nat.
Hypothesis Hd : d <= p.
Hypothesis Hn : 0 < nch.
Hypothesis HN : 0 < N.
Let F := 2 ^ p.
Let H := 2 ^ p / 2 ^ d.
Hypothesis Hkeep : keeps_shape nch F pf.

Lemma framer_ok : forall (clean : Prop) (c : cola St) blocks s' ys, shaped p d nch N c ->
  _outputOffset _ c = (Z.of_nat F - 1)%Z -> _unusedInputCount _ c = 0%Z ->
  (clean -> forall ch q, ch < nch -> nth q (nth ch (_output _ c) []) 0%R = 0%R) ->
  host_blocks nch N blocks ->
  run_frames pf (_user _ c) (frames_of nch F H (2 * INR H / INR F) (channel_stream blocks) (stream_length blocks)) = Ok (s', ys) ->
  exists c' outs, process_all St pf nch blocks c = Ok (c', outs) /\ _user _ c' = s' /\ shaped p d nch N c' /\
    length outs = length blocks /\ (forall t, t < length blocks -> matrix_of nch (block_length (nth t blocks [])) (nth t outs [])) /\
    (clean -> forall ch, ch < nch -> channel_stream outs ch = tab (stream_length blocks) (overlap_added F H ys ch)).
Proof using All.
  intros clean c blocks s' ys Hs Eo Ec Hz Hb Er. apply (framer_shaped St pf p d nch N Hd Hn HN); auto.
  eapply kept_shapes; [exact Hkeep| |exact Er]. intros x. apply frames_of_shape.
Qed.

Lemma reset_ok : forall rf c blocks s' ys, shaped p d nch N c -> host_blocks nch N blocks ->
  run_frames pf (rf (_user _ c)) (frames_of nch F H (2 * INR H / INR F) (channel_stream blocks) (stream_length blocks)) = Ok (s', ys) ->
  exists c' outs, process_all St pf nch blocks (reset St rf c) = Ok (c', outs) /\ _user _ c' = s' /\ shaped p d nch N c' /\
    length outs = length blocks /\ (forall t, t < length blocks -> matrix_of nch (block_length (nth t blocks [])) (nth t outs [])) /\
    forall ch, ch < nch -> channel_stream outs ch = tab (stream_length blocks) (overlap_added F H ys ch).
Proof using All.
  intros rf c blocks s' ys Hs Hb Er. apply (reset_session St pf p d nch N Hd Hn HN); auto.
  eapply kept_shapes; [exact Hkeep| |exact Er]. intros x. apply frames_of_shape.
Qed.
End Kept.

(** *** A short first block without reset() *)

Lemma emit_first : forall St (pf : St -> list (list R) -> outcome (St * list (list R))) p d nch N user frame unused output b,
  d <= p -> 0 < nch -> matrix_of nch (2 ^ p) frame -> matrix_of nch (2 ^ p - 1) unused ->
  matrix_of nch (output_samples (2 ^ p) (2 ^ p / 2 ^ d) N) output ->
  matrix_of nch (block_length b) b -> 0 < block_length b <= N -> block_length b < 2 ^ p ->
  exists c', process St pf nch (block_length b) b b (prepare St (cola_make St p d user) frame unused output) =
    Ok (c', map (fun row => firstn (block_length b) row) output).
Proof.
  intros St pf p d nch N user frame unused output b Hd Hn Mf Mu Mo Mb Hl HF. set (l := block_length b) in *.
  pose proof (hop_range p d nch N Hd Hn ltac:(lia)) as HH. pose proof (output_size p d nch N Hd Hn ltac:(lia)) as Hsz.
  set (F := 2 ^ p) in *. set (H := F / 2 ^ d) in *. set (size := output_samples F H N) in *.
  set (c0 := prepare St (cola_make St p d user) frame unused output).
  assert (E1 : _unusedInputCount _ c0 = 0%Z) by reflexivity. assert (E2 : _frameSize _ c0 = F) by reflexivity.
  assert (E3 : _unusedInput _ c0 = unused) by reflexivity. assert (E4 : _output _ c0 = output) by reflexivity.
  unfold process. rewrite E4.
  assert (Es : match output with [] => 0 | row :: _ => length row end = size).
  { pose proof (matrix_row _ _ _ 0 Mo Hn). destruct Mo as [L _]. destruct output; [cbn in L; lia|auto]. }
  rewrite Es. unfold leftovers. rewrite while_stop by (rewrite E1; reflexivity). cbn [bind]. rewrite E1.
  change (0 <? 0)%Z with false. cbn iota. unfold use_input at 1. rewrite E1. change (- 0)%Z with 0%Z.
  rewrite while_stop by (rewrite E2; apply Z.leb_gt; lia). cbn [bind]. rewrite Z.sub_0_r.
  replace (0 <? Z.of_nat l)%Z with true by (symmetry; apply Z.ltb_lt; lia). rewrite E3.
  destruct (each_channel_spec nch (fun ch row => inp <- rd b ch ;; d <- index 0%Z ;; n <- index (Z.of_nat l) ;; copy_n inp d n row 0)
     unused (fun ch row => length row = F - 1)) as (un & -> & Lu & Vu).
  - apply Mu.
  - intros ch Hch. rewrite (rd_ok _ _ _ []) by (destruct Mb; lia). cbn [bind]. rewrite (index_eq _ 0) by lia. cbn [bind]. rewrite index_ok. cbn [bind].
    pose proof (matrix_row _ _ _ _ Mb Hch) as Lb. pose proof (matrix_row _ _ _ _ Mu Hch) as L2.
    destruct (copy_n_spec (nth ch b []) 0 l (nth ch unused []) 0) as (r & -> & Lr & _); [lia|lia|]. exists r. split; auto. lia.
  - cbn [bind].
    match goal with |- context [emit St nch l size b ?c] => set (c2 := c) end.
    destruct (emit_ok St nch F H N size (2 * INR H / INR F)%R HH Hn ltac:(lia) Hsz False (fun _ _ => 0%R) (fun f : False => match f with end) (fun _ => user) (fun _ => []) 0 l b)
      with (J := 0) (c := c2) as (c' & out & E & _ & Mout & _ & _ & _ & V); auto; try lia.
    + constructor; unfold c2, c0, prepare, cola_make; cbn [set_count set_unused _frameSize _hopSize _window _frame _unusedInput _output _outputOffset _user]; auto.
      * apply window_gain; lia.
      * apply matrix_intro; auto.
      * fold F. lia.
      * intros [].
    + left. reflexivity.
    + exists c'. rewrite E. do 2 f_equal. apply (matrix_ext nch l); auto.
      * split; [rewrite map_length; apply Mo|]. intros row Hr. apply in_map_iff in Hr. destruct Hr as (q & <- & Hq).
        rewrite firstn_length. destruct Mo as [_ W]. rewrite (W q Hq). lia.
      * intros i j Hi Hj. rewrite V by auto. cbn [c2 c0 prepare cola_make set_count set_unused _output].
        rewrite (nth_indep (map _ _) [] (firstn l [])) by (rewrite map_length; destruct Mo; lia).
        rewrite (map_nth (fun row : list R => firstn l row)), nth_firstn_lt by auto. reflexivity.
Qed.

(** *** The identity as frame processor *)

Lemma Rsum_range : forall n lo hi a, lo <= hi <= n -> Rsum n (fun u => if (lo <=? u) && (u <? hi) then a else 0%R) = (INR (hi - lo) * a)%R.
Proof.
  induction n as [|n IH]; intros lo hi a Hr.
  - replace (hi - lo) with 0 by lia. cbn. ring.
  - rewrite Rsum_S. destruct (Nat.eq_dec hi (S n)) as [->|N].
    + destruct (Nat.eq_dec lo (S n)) as [->|N2].
      * rewrite Rsum_0. { destruct (Nat.leb_spec (S n) n); [lia|]. cbn [andb]. replace (S n - S n) with 0 by lia. cbn. ring. }
        intros i Hi. destruct (Nat.leb_spec (S n) i); [lia|]. reflexivity.
      * rewrite (proj2 (Nat.leb_le lo n)), (proj2 (Nat.ltb_lt n (S n))) by lia. cbn [andb].
        transitivity (Rsum n (fun u => if (lo <=? u) && (u <? n) then a else 0%R) + a)%R.
        { f_equal. apply Rsum_ext. intros i Hi. rewrite (proj2 (Nat.ltb_lt i n)), (proj2 (Nat.ltb_lt i (S n))) by lia. reflexivity. }
        rewrite IH by lia. replace (S n - lo) with (S (n - lo)) by lia. rewrite S_INR. ring.
    + rewrite IH by lia. destruct (Nat.ltb_spec n hi); [lia|]. rewrite andb_false_r. ring.
Qed.

Lemma identity_frames : forall St (s : St) frames, run_frames (fun s x => Ok (s, x)) s frames = Ok (s, frames : list (list (list R))).
Proof. intros St s frames. induction frames as [|x rest IH]; cbn; auto. rewrite IH. reflexivity. Qed.

Lemma identity_overlap : forall k F H nch g x n ch t, 0 < H -> 0 < k -> F = k * H -> ch < nch -> F - 1 <= t < n ->
  overlap_added F H (frames_of nch F H g x n) ch t = (nth (t - (F - 1)) (x ch) 0 * (g * INR (min ((t - (F - 1)) / H + 1) k)))%R.
Proof.
  intros k F H nch g x n ch t HH Hk EF Hch Ht. unfold overlap_added.
  assert (L : length (frames_of nch F H g x n) = frame_count F H n) by apply tab_length. rewrite L.
  set (t' := t - (F - 1)). set (q := t' / H). assert (0 < F) by (rewrite EF; nia).
  pose proof (Nat.div_mod t' H ltac:(lia)) as Dm. pose proof (Nat.mod_upper_bound t' H ltac:(lia)) as Mb. fold q in Dm.
  assert (Hq : q < frame_count F H n) by (apply frame_count_spec; auto; unfold t' in *; nia).
  transitivity (Rsum (frame_count F H n) (fun u => if (q + 1 - k <=? u) && (u <? q + 1) then nth t' (x ch) 0 * g else 0)%R).
  - apply Rsum_ext. intros u Hu.
    assert (C : (F - 1 + u * H <=? t) && (t <? F - 1 + u * H + F) = (q + 1 - k <=? u) && (u <? q + 1)).
    { apply Bool.eq_true_iff_eq. rewrite !andb_true_iff, !Nat.leb_le, !Nat.ltb_lt. split; intros [A B].
      - assert (u * H <= t') by (unfold t'; lia). assert (t' < (u + k) * H) by (rewrite Nat.mul_add_distr_r, <- EF; unfold t'; lia).
        assert (u <= q) by (apply Nat.div_le_lower_bound; lia). assert (q < u + k) by (apply Nat.div_lt_upper_bound; lia). lia.
      - assert (u * H <= q * H) by (apply Nat.mul_le_mono_r; lia). assert (S q * H <= (u + k) * H) by (apply Nat.mul_le_mono_r; lia).
        rewrite Nat.mul_add_distr_r, <- EF, Nat.mul_succ_l in *. unfold t' in *. lia. }
    rewrite C. destruct ((q + 1 - k <=? u) && (u <? q + 1)) eqn:E; auto.
    apply andb_prop in C. destruct C as [A B]. apply Nat.leb_le in A. apply Nat.ltb_lt in B.
    unfold frames_of. rewrite (nth_tab _ (frame_count F H n)) by auto. unfold frame_at. rewrite (nth_tab _ nch) by auto. rewrite nth_tab by lia. do 2 f_equal. unfold t'. lia.
  - rewrite Rsum_range by lia. replace (q + 1 - (q + 1 - k)) with (min (q + 1) k) by lia. ring.
Qed.

(** ** What no call changes *)
Section Keeps.
Variables (St : Type) (pf : St -> list (list R) -> outcome (St * list (list R))) (I : St -> Prop).
Hypothesis HI : forall s x s' y, I s -> pf s x = Ok (s', y) -> I s'.

Definition kept (c c' : cola St) : Prop := _frameSize _ c' = _frameSize _ c /\ _hopSize _ c' = _hopSize _ c /\ (I (_user _ c) -> I (_user _ c')).

Lemma kept_refl : forall c, kept c c.
Proof using. intros c. repeat split; auto. Qed.
Lemma kept_trans : forall a b c, kept a b -> kept b c -> kept a c.
Proof using. intros a b c (A1 & A2 & A3) (B1 & B2 & B3). repeat split; [congruence|congruence|auto]. Qed.

Lemma while_keeps : forall S (Q : S -> S -> Prop) cond body, (forall s, Q s s) -> (forall a b c, Q a b -> Q b c -> Q a c) ->
  (forall s s', body s = Ok s' -> Q s s') -> forall fuel (s s' : S), while_fuel fuel cond body s = Ok s' -> Q s s'.
Proof using.
  intros S Q cond body Hr Ht Hb. induction fuel as [|fuel IH]; intros s s' E; cbn in E; destruct (cond s); try discriminate; try (injection E as <-; auto).
  apply bind_ok in E. destruct E as (a & E1 & E2). eapply Ht; eauto.
Qed.

Lemma run_frame_keeps : forall n c c', run_frame St pf c n = Ok c' -> kept c c'.
Proof using All.
  intros n c c' E. unfold run_frame in E. apply bind_ok in E. destruct E as ((u & f) & E1 & E). unfold writeBackFrame in E.
  apply bind_ok in E. destruct E as (o & _ & E). injection E as <-. repeat split; cbn; auto. intros HU. eapply HI; eauto.
Qed.

Lemma process_keeps : forall n l b o c c' out, process St pf n l b o c = Ok (c', out) -> kept c c'.
Proof using HI.
  intros n l b o c c' out E. unfold process in E. apply bind_ok in E. destruct E as ((c1 & off) & E1 & E). apply bind_ok in E. destruct E as (c2 & E2 & E).
  assert (K1 : kept c c1).
  { unfold leftovers in E1. apply (while_keeps _ (fun a b => kept (fst a) (fst b))) in E1; auto; [intros; apply kept_refl|intros; eapply kept_trans; eauto|].
    intros (s & so) (s' & so') H. unfold leftover_round in H. apply bind_ok in H. destruct H as (f & _ & H). apply bind_ok in H. destruct H as (cx & H & H').
    injection H' as <- <-. apply run_frame_keeps in H. exact H. }
  assert (K2 : kept c1 c2).
  { destruct (0 <? _unusedInputCount St c1)%Z.
    - unfold append_input in E2. apply bind_ok in E2. destruct E2 as (u & _ & E2). injection E2 as <-. repeat split; auto.
    - unfold use_input in E2. apply bind_ok in E2. destruct E2 as ((cx & dx) & E2 & E3). apply bind_ok in E3. destruct E3 as (u & _ & E3). injection E3 as <-.
      apply (while_keeps _ (fun a b => kept (fst a) (fst b))) in E2; auto; [intros; apply kept_refl|intros; eapply kept_trans; eauto|].
      intros (s & so) (s' & so') H. unfold direct_round in H. apply bind_ok in H. destruct H as (f & _ & H). apply bind_ok in H. destruct H as (cy & H & H').
      injection H' as <- <-. apply run_frame_keeps in H. exact H. }
  unfold emit in E. apply bind_ok in E. destruct E as ((o1 & o2) & _ & E). injection E as <- <-. eapply kept_trans; [exact K1|]. eapply kept_trans; [exact K2|]. repeat split; auto.
Qed.

Lemma process_all_keeps : forall n blocks c c' outs, process_all St pf n blocks c = Ok (c', outs) -> kept c c'.
Proof using HI.
  intros n. induction blocks as [|b rest IH]; intros c c' outs E; cbn [process_all] in E.
  - injection E as <- <-. apply kept_refl.
  - apply bind_ok in E. destruct E as ((c1 & o1) & E1 & E). apply bind_ok in E. destruct E as ((c2 & o2) & E2 & E). injection E as <- <-.
    eapply kept_trans; [eapply process_keeps; eauto|eauto].
Qed.
End Keeps.
