(** The thread programs of Model/Concurrent.v run alone do what the models of Model/Fft2.v
    and Model/FftApps.v do, and access nothing else. *)
From Coq Require Import List Arith Lia Bool Reals FunctionalExtensionality.
From Verif Require Import Base.Outcome Base.OutcomeFacts Base.Sums Base.Cplx Spec.Dft Spec.Transforms Spec.Interleaving Spec.Jobs.
From Verif Require Import Model.Fft2 Model.Algorithm Model.FftApps Model.Concurrent.
From Verif Require Import Proof.DftTheory Proof.Fft2Proof Proof.AlgorithmProof Proof.FftCorollaries Proof.RfftProof Proof.InterleavingProof.
Import ListNotations.
Local Arguments Nat.div : simpl never.
Local Arguments Nat.pow : simpl never.

(** Memory [m] with the contents of object [o] replaced. *)
Definition with_obj {T} (inj : T -> value) (m : memory) (o : nat) (l : list T) : memory :=
  fun loc => if fst loc =? o then nth_error (map inj l) (snd loc) else m loc.

Lemma with_obj_holds : forall T (inj : T -> value) m o l, holds inj m o l -> with_obj inj m o l = m.
Proof.
  intros. apply functional_extensionality. intros [o' i]. unfold with_obj. simpl.
  destruct (Nat.eqb_spec o' o) as [->|]; auto.
Qed.

Lemma holds_with_obj : forall T (inj : T -> value) m o l, holds inj (with_obj inj m o l) o l.
Proof. intros T inj m o l i. unfold with_obj. simpl. rewrite Nat.eqb_refl. auto. Qed.

Lemma holds_with_other : forall T U (inj : T -> value) (inj' : U -> value) m o l o' l', o' <> o ->
  holds inj' m o' l' -> holds inj' (with_obj inj m o l) o' l'.
Proof.
  intros T U inj inj' m o l o' l' N H i. unfold with_obj. simpl.
  destruct (Nat.eqb_spec o' o); [congruence|auto].
Qed.

Lemma nth_error_map_upd : forall T (inj : T -> value) l i v j, i < length l ->
  nth_error (map inj (upd l i v)) j = if j =? i then Some (inj v) else nth_error (map inj l) j.
Proof.
  induction l; intros i v j H; simpl in *. lia.
  destruct i, j; simpl; auto. rewrite IHl by lia. auto.
Qed.

Lemma with_obj_store : forall T (inj : T -> value) m o l i v, i < length l ->
  store (with_obj inj m o l) (o, i) (inj v) = with_obj inj m o (upd l i v).
Proof.
  intros. apply functional_extensionality. intros [o' j]. unfold store, with_obj, loc_eqb. simpl.
  destruct (Nat.eqb_spec o' o) as [->|]; simpl; auto. rewrite nth_error_map_upd by auto. auto.
Qed.

Lemma rd_error : forall T (l : list T) i v, rd l i = Ok v -> nth_error l i = Some v /\ i < length l.
Proof.
  intros T l i v H. unfold rd in H. destruct (nth_error l i) eqn:E; inversion H; subst. split; auto.
  apply nth_error_Some. congruence.
Qed.

Lemma read_held : forall T (inj : T -> value) m o l i v, holds inj m o l -> nth_error l i = Some v ->
  m (o, i) = Some (inj v).
Proof. intros. rewrite H. rewrite nth_error_map, H0. auto. Qed.

Lemma run_get_c : forall m o l n i v, holds Cpx m o l -> length l = n -> rd l i = Ok v -> run (get_c o n i) m = Ok (v, m).
Proof.
  intros m o l n i v H L E. apply rd_error in E. destruct E as [E Hi]. unfold get_c.
  destruct (Nat.ltb_spec i n); [|lia]. simpl. rewrite (read_held _ Cpx m o l i v); auto.
Qed.

Lemma run_get_r : forall m o l n i v, holds Flt m o l -> length l = n -> rd l i = Ok v -> run (get_r o n i) m = Ok (v, m).
Proof.
  intros m o l n i v H L E. apply rd_error in E. destruct E as [E Hi]. unfold get_r.
  destruct (Nat.ltb_spec i n); [|lia]. simpl. rewrite (read_held _ Flt m o l i v); auto.
Qed.

Lemma run_get_i : forall m o l n i v, holds Index m o l -> length l = n -> rd l i = Ok v -> run (get_i o n i) m = Ok (v, m).
Proof.
  intros m o l n i v H L E. apply rd_error in E. destruct E as [E Hi]. unfold get_i.
  destruct (Nat.ltb_spec i n); [|lia]. simpl. rewrite (read_held _ Index m o l i v); auto.
Qed.

Lemma run_put : forall T (inj : T -> value) m o l n i v l', length l = n -> wr l i v = Ok l' ->
  run (put o n i (inj v)) (with_obj inj m o l) = Ok (tt, with_obj inj m o l') /\ length l' = n.
Proof.
  intros T inj m o l n i v l' L E. unfold wr in E. destruct (Nat.ltb_spec i (length l)) as [Hi|]; [|discriminate].
  inversion E; subst l'. rewrite upd_length. split; auto. unfold put.
  destruct (Nat.ltb_spec i n); [|lia]. cbn [run].
  rewrite (with_obj_store T inj m o l i v Hi).
  unfold with_obj at 1. cbn [fst snd]. rewrite Nat.eqb_refl.
  destruct (nth_error (map inj l) i) eqn:F; auto.
  apply nth_error_None in F. rewrite map_length in F. lia.
Qed.

(** Program [p], run with the list [l] in object [o], leaves [f l] there. *)
Definition corresponds {T} (inj : T -> value) (m : memory) (o N : nat) (p : prog unit) (f : list T -> outcome (list T)) : Prop :=
  forall l l', length l = N -> f l = Ok l' -> run p (with_obj inj m o l) = Ok (tt, with_obj inj m o l') /\ length l' = N.

Lemma bind_inv : forall A B (e : outcome A) (k : A -> outcome B) r, bind e k = Ok r -> exists a, e = Ok a /\ k a = Ok r.
Proof. intros A B [a| |] k r H; simpl in H; try discriminate. eauto. Qed.

Lemma corr_seq : forall T (inj : T -> value) m o N p q f g,
  corresponds inj m o N p f -> corresponds inj m o N q g ->
  corresponds inj m o N (pbind p (fun _ => q)) (fun l => bind (f l) g).
Proof.
  intros T inj m o N p q f g Hp Hq l l' L E. apply bind_inv in E. destruct E as [l1 [E1 E2]].
  destruct (Hp l l1 L E1) as [R1 L1]. destruct (Hq l1 l' L1 E2) as [R2 L2].
  split; auto. rewrite run_pbind, R1. simpl. auto.
Qed.

Lemma corr_done : forall T (inj : T -> value) m o N, corresponds inj m o N (Done tt) (fun l => Ok l).
Proof. intros T inj m o N l l' L E. inversion E; subst. simpl. auto. Qed.

Lemma corr_loop : forall T (inj : T -> value) m o N body f n lo st,
  (forall i, corresponds inj m o N (body i) (f i)) -> corresponds inj m o N (ploop n lo st body) (loop n lo st f).
Proof.
  intros T inj m o N body f n. induction n; intros lo st H; simpl.
  - apply corr_done.
  - apply (corr_seq T inj m o N (body lo) (ploop n (lo + st) st body) (f lo) (loop n (lo + st) st f)); auto.
Qed.

Lemma corr_for : forall T (inj : T -> value) m o N body f lo hi,
  (forall i, corresponds inj m o N (body i) (f i)) -> corresponds inj m o N (pfor lo hi body) (for_range lo hi f).
Proof. intros. apply corr_loop. auto. Qed.

Lemma corr_for_step : forall T (inj : T -> value) m o N body f lo hi st, 0 < st ->
  (forall i, corresponds inj m o N (body i) (f i)) -> corresponds inj m o N (pfor_step lo hi st body) (for_step lo hi st f).
Proof.
  intros. unfold pfor_step, for_step. destruct (Nat.eqb_spec st 0); [lia|]. apply corr_loop. auto.
Qed.

Lemma corr_ext : forall T (inj : T -> value) m o N p (f g : list T -> outcome (list T)),
  (forall l, length l = N -> f l = g l) -> corresponds inj m o N p f -> corresponds inj m o N p g.
Proof. intros T inj m o N p f g E H l l' L G. apply H; auto. rewrite E; auto. Qed.

(** Reading in the middle of a program. *)
Ltac split_binds E := repeat match type of E with
  | bind _ _ = Ok _ => let a := fresh "v" in let H := fresh "E" in apply bind_inv in E; destruct E as [a [H E]]
  end.
Ltac go_read H := rewrite run_pbind; rewrite H; cbn [bind fst snd].

Lemma corr_swap : forall m x N i j, corresponds Cpx m x N (swap_prog x N i j) (fun l => swap l i j).
Proof.
  intros m x N i j l l' L E. unfold swap in E. split_binds E. unfold swap_prog.
  pose proof (holds_with_obj _ Cpx m x l) as Hl.
  go_read (run_get_c _ _ _ _ _ _ Hl L E0). go_read (run_get_c _ _ _ _ _ _ Hl L E1).
  destruct (run_put _ Cpx m x l N i v0 v1 L E2) as [R1 L1]. go_read R1.
  apply (run_put _ Cpx m x v1 N j v l' L1 E).
Qed.

Lemma corr_bitrev : forall m table tl x N, table <> x -> holds Index m table tl -> length tl = N ->
  corresponds Cpx m x N (bitrev_prog table x N) (bitrev_apply tl).
Proof.
  intros m table tl x N Ne Ht Lt. unfold bitrev_prog, bitrev_apply. rewrite Lt. apply corr_for.
  intros i l l' L E. apply bind_inv in E. destruct E as [t [E1 E2]].
  assert (Hm : holds Index (with_obj Cpx m x l) table tl) by (apply holds_with_other; auto).
  go_read (run_get_i _ _ _ _ _ _ Hm Lt E1).
  destruct (i <? t).
  - go_read (run_get_i _ _ _ _ _ _ Hm Lt E1). apply (corr_swap m x N i t l l' L E2).
  - apply corr_done; auto.
Qed.

Lemma corr_stage0 : forall m x N, corresponds Cpx m x N (stage0_prog x N) dit2_stage0.
Proof.
  intros m x N. unfold stage0_prog.
  apply corr_ext with (f := for_step 0 N 2 (fun k x =>
    a <- rd x k ;; b <- rd x (k + 1) ;; a' <- rd x k ;; b' <- rd x (k + 1) ;;
    x <- wr x (k + 1) (a' - b')%C ;; wr x k (a + b)%C)).
  { intros l L. unfold dit2_stage0. rewrite L. reflexivity. }
  apply corr_for_step. lia. intros k l l' L E. split_binds E.
  pose proof (holds_with_obj _ Cpx m x l) as Hl.
  go_read (run_get_c _ _ _ _ _ _ Hl L E0). go_read (run_get_c _ _ _ _ _ _ Hl L E1).
  go_read (run_get_c _ _ _ _ _ _ Hl L E2). go_read (run_get_c _ _ _ _ _ _ Hl L E3).
  destruct (run_put _ Cpx m x l N (k + 1) _ _ L E4) as [R1 L1]. go_read R1.
  apply (run_put _ Cpx m x _ N k _ l' L1 E).
Qed.

Lemma corr_stage : forall m tw twl x N len stride ts, tw <> x -> holds Cpx m tw twl -> length twl = N / 2 -> 0 < stride ->
  corresponds Cpx m x N (stage_prog tw x N len stride ts) (dit2_stage twl len stride ts).
Proof.
  intros m tw twl x N len stride ts Ne Ht Lt Hs. unfold stage_prog.
  apply corr_ext with (f := for_step 0 N stride (fun k x =>
    for_range 0 len (fun pair x => tw <- rd twl (pair * ts) ;; dit2_butterfly tw (k + pair) (k + pair + len) x) x)).
  { intros l L. unfold dit2_stage. rewrite L. reflexivity. }
  apply corr_for_step; auto. intros k. apply corr_for. intros pair l l' L E.
  apply bind_inv in E. destruct E as [w [E1 E2]].
  assert (Hm : holds Cpx (with_obj Cpx m x l) tw twl) by (apply holds_with_other; auto).
  go_read (run_get_c _ _ _ _ _ _ Hm Lt E1).
  unfold dit2_butterfly in E2. cbv zeta in *. split_binds E2.
  pose proof (holds_with_obj _ Cpx m x l) as Hl.
  go_read (run_get_c _ _ _ _ _ _ Hl L E). go_read (run_get_c _ _ _ _ _ _ Hl L E0).
  go_read (run_get_c _ _ _ _ _ _ Hl L E3). go_read (run_get_c _ _ _ _ _ _ Hl L E4).
  destruct (run_put _ Cpx m x l N _ _ _ L E5) as [R1 L1]. go_read R1.
  apply (run_put _ Cpx m x _ N _ _ l' L1 E2).
Qed.

Lemma corr_kernel : forall m order tw twl x, tw <> x -> holds Cpx m tw twl -> length twl = 2 ^ order / 2 ->
  corresponds Cpx m x (2 ^ order) (kernel_prog order tw x) (fun l => c2c_dit2_v3 l twl).
Proof.
  intros m order tw twl x Ne Ht Lt. unfold kernel_prog. cbv zeta.
  apply corr_ext with (f := fun l => bind (dit2_stage0 l) (for_range 1 order (fun stage x =>
    dit2_stage twl (2 ^ stage) (2 ^ (stage + 1)) (2 ^ (order - stage - 1)) x))).
  { intros l L. unfold c2c_dit2_v3. rewrite L, bit_log2_pow. reflexivity. }
  apply corr_seq. apply corr_stage0.
  apply corr_for. intros stage.
  apply (corr_stage m tw twl x (2 ^ order)); auto.
  apply Nat.neq_0_lt_0. apply Nat.pow_nonzero. lia.
Qed.

Lemma pow_pos : forall p, 0 < 2 ^ p.
Proof. intros. apply Nat.neq_0_lt_0. apply Nat.pow_nonzero. lia. Qed.

Lemma order_le : forall p pl, make_dit2_plan p = Ok pl -> p <= max_order.
Proof.
  intros p pl E. unfold make_dit2_plan, check_order in E. destruct (Nat.ltb_spec max_order p); [discriminate|auto].
Qed.

Lemma plan_lengths : forall p pl, 0 < p -> make_dit2_plan p = Ok pl ->
  length (p_reorder pl) = 2 ^ p /\ length (p_wf pl) = 2 ^ p / 2 /\ length (p_wb pl) = 2 ^ p / 2.
Proof.
  intros p pl Hp Hpl. pose proof (order_le _ _ Hpl) as Hmax.
  rewrite (make_dit2_plan_ok p (conj Hp Hmax)) in Hpl. inversion Hpl; subst pl. cbn [p_reorder p_wf p_wb].
  unfold half_lut. rewrite !tab_length. destruct p as [|p]; [lia|].
  rewrite Nat.sub_succ, Nat.sub_0_r.
  assert (HD : 2 ^ S p / 2 = 2 ^ p) by (rewrite Nat.pow_succ_r', Nat.mul_comm; apply Nat.div_mul; lia).
  auto.
Qed.

Lemma run_fft : forall m p x d xs, 0 < pa_order p -> plan_in m p -> ~ In x (plan_objects p) ->
  holds Cpx m x xs -> length xs = 2 ^ pa_order p ->
  run (fft_prog p x d) m = Ok (tt, with_obj Cpx m x (DFT_list d xs)).
Proof.
  intros m [p ta wf wb] x d xs Hp (pl & Hpl & Ht & Hf & Hb) Nx Hx L. simpl in *.
  assert (E := fft_obj p pl d xs Hpl Hp L).
  destruct (plan_lengths p pl Hp Hpl) as [L1 [L2 L3]].
  assert (N1 : ta <> x) by tauto. assert (N2 : wf <> x) by tauto. assert (N3 : wb <> x) by tauto.
  assert (CB : corresponds Cpx m x (2 ^ p) (fft_prog {| pa_order := p; pa_table := ta; pa_wf := wf; pa_wb := wb |} x d)
    (fun l => run_dit2_plan c2c_dit2_v3 pl l d)).
  { unfold fft_prog, run_dit2_plan. cbn [pa_order pa_table pa_wf pa_wb].
    apply (corr_seq C Cpx m x (2 ^ p) _ _ (bitrev_apply (p_reorder pl))
      (fun l => match d with Forward => c2c_dit2_v3 l (p_wf pl) | Backward => c2c_dit2_v3 l (p_wb pl) end)).
    - apply corr_bitrev; auto.
    - destruct d; apply corr_kernel; auto. }
  rewrite <- (with_obj_holds _ Cpx m x xs Hx) at 1.
  destruct (CB xs (DFT_list d xs) L) as [R _]; auto.
Qed.

Lemma plan_in_with : forall T (inj : T -> value) m p o l, ~ In o (plan_objects p) -> plan_in m p -> plan_in (with_obj inj m o l) p.
Proof.
  intros T inj m p o l No (pl & A & B & C0' & D). exists pl. unfold plan_objects in No. simpl in No.
  repeat split; auto; apply holds_with_other; tauto.
Qed.

(** A loop storing converted elements of [xs] in object [dst]. *)
Lemma run_copy : forall A B (injB : B -> value) (get : nat -> prog A) (conv : A -> B) m xs dst ys n zs,
  holds injB m dst ys -> length ys = n ->
  (forall l i v, rd xs i = Ok v -> run (get i) (with_obj injB m dst l) = Ok (v, with_obj injB m dst l)) ->
  copy conv xs ys = Ok zs ->
  run (pfor 0 (length xs) (fun i => v <~ get i ;; put dst n i (injB (conv v)))) m = Ok (tt, with_obj injB m dst zs).
Proof.
  intros A B injB get conv m xs dst ys n zs Hy L G E.
  rewrite <- (with_obj_holds _ injB m dst ys Hy) at 1.
  unfold copy in E.
  assert (CC : corresponds injB m dst n (pfor 0 (length xs) (fun i => v <~ get i ;; put dst n i (injB (conv v))))
     (for_range 0 (length xs) (fun i out => v <- rd xs i ;; wr out i (conv v)))).
  { apply corr_for. intros i l l' Ll E'. apply bind_inv in E'. destruct E' as [v [E1 E2]].
    rewrite run_pbind, (G _ i v); auto.
    cbn [bind fst snd]. apply (run_put _ injB m dst l n i (conv v) l' Ll E2). }
  apply (CC ys zs L E).
Qed.

Lemma with_obj_twice : forall T U (i1 : T -> value) (i2 : U -> value) m o l l',
  with_obj i2 (with_obj i1 m o l) o l' = with_obj i2 m o l'.
Proof.
  intros. apply functional_extensionality. intros [o' i]. unfold with_obj. simpl.
  destruct (Nat.eqb o' o); auto.
Qed.

Lemma half_le : forall p, 0 < p -> 2 ^ p / 2 + 1 <= 2 ^ p.
Proof. intros p Hp. destruct (pow2_half p Hp) as [m [Hm [En _]]]. rewrite En, half_of_double. lia. Qed.

Lemma rd_firstn : forall T (l : list T) k i v, rd (firstn k l) i = Ok v -> rd l i = Ok v.
Proof.
  intros T l k i v E. unfold rd in *. destruct (nth_error (firstn k l) i) as [w|] eqn:F; [|discriminate].
  assert (nth_error l i = Some w); [|rewrite H; auto].
  revert l i F. induction k; intros [|a l] i F; simpl in F; try (destruct i; discriminate).
  destruct i; simpl in *; auto.
Qed.

(** The plan's buffer after copying and transforming. *)
Lemma run_rfft_transform : forall m p buf inp xs bs, 0 < pa_order p -> plan_in m p ->
  ~ In buf (plan_objects p) -> inp <> buf ->
  holds Flt m inp xs -> length xs = 2 ^ pa_order p -> holds Cpx m buf bs -> length bs = 2 ^ pa_order p ->
  run (rfft_transform_prog p buf inp) m = Ok (tt, with_obj Cpx m buf (DFT_list Forward (map RtoC xs))).
Proof.
  intros m p buf inp xs bs Hp Hpl Nb Ne Hx Lx Hb Lb. unfold rfft_transform_prog. cbv zeta.
  rewrite run_pbind. rewrite <- Lx at 1.
  rewrite (run_copy R C Cpx (get_r inp (2 ^ pa_order p)) RtoC m xs buf bs (2 ^ pa_order p) (map RtoC xs)); auto.
  - cbn [bind fst snd]. rewrite (run_fft _ p buf Forward (map RtoC xs)); auto.
    + rewrite with_obj_twice. auto.
    + apply plan_in_with; auto.
    + apply holds_with_obj.
    + rewrite map_length. auto.
  - intros l i v E. apply (run_get_r _ inp xs); auto. apply holds_with_other; auto.
  - apply AlgorithmProof.copy_full. lia.
Qed.

Lemma run_rfft_output : forall m p buf out ds os, 0 < pa_order p -> buf <> out ->
  holds Cpx m buf ds -> length ds = 2 ^ pa_order p -> holds Cpx m out os -> length os = 2 ^ pa_order p / 2 + 1 ->
  run (rfft_output_prog p buf out) m = Ok (tt, with_obj Cpx m out (firstn (2 ^ pa_order p / 2 + 1) ds)).
Proof.
  intros m p buf out ds os Hp Ne Hd Ld Ho Lo. unfold rfft_output_prog. cbv zeta.
  pose proof (half_le _ Hp) as Hh. set (c := 2 ^ pa_order p / 2 + 1) in *.
  assert (Lf : length (firstn c ds) = c) by (rewrite firstn_length; lia).
  rewrite <- Lf at 1.
  apply (run_copy C C Cpx (get_c buf (2 ^ pa_order p)) (fun v => v) m (firstn c ds) out os c); auto.
  - intros l i v E. apply rd_firstn in E. apply (run_get_c _ buf ds); auto. apply holds_with_other; auto.
  - rewrite AlgorithmProof.copy_full by lia. rewrite map_id. auto.
Qed.

Lemma firstn_DFT : forall (xs : list R) p, 0 < p -> length xs = 2 ^ p ->
  firstn (2 ^ p / 2 + 1) (DFT_list Forward (map RtoC xs)) = RDFT_list Forward xs.
Proof.
  intros xs p Hp L. destruct (pow2_half p Hp) as [m [Hm [En Em]]]. unfold RDFT_list. rewrite L, En, half_of_double.
  apply (list_eq_tab _ C0).
  - rewrite firstn_length, DFT_list_length, map_length. lia.
  - intros i Hi. rewrite nth_firstn_lt by lia. rewrite nth_DFT_list by (rewrite map_length; lia).
    rewrite map_length, L, En. apply DFT_ext. intros. apply nth_RtoC.
Qed.

Lemma run_rfft : forall m p buf inp out xs bs os, 0 < pa_order p -> plan_in m p ->
  ~ In buf (plan_objects p) -> inp <> buf -> out <> buf ->
  holds Flt m inp xs -> length xs = 2 ^ pa_order p -> holds Cpx m buf bs -> length bs = 2 ^ pa_order p ->
  holds Cpx m out os -> length os = 2 ^ pa_order p / 2 + 1 ->
  run (rfft_prog p buf inp out) m =
    Ok (tt, with_obj Cpx (with_obj Cpx m buf (DFT_list Forward (map RtoC xs))) out (RDFT_list Forward xs)).
Proof.
  intros m p buf inp out xs bs os Hp Hpl Nb Ne No Hx Lx Hb Lb Ho Lo. unfold rfft_prog. rewrite run_pbind.
  rewrite (run_rfft_transform m p buf inp xs bs); auto. cbn [bind fst snd].
  rewrite (run_rfft_output _ p buf out (DFT_list Forward (map RtoC xs)) os); auto.
  - rewrite firstn_DFT; auto.
  - apply holds_with_obj.
  - rewrite DFT_list_length, map_length. auto.
  - apply holds_with_other; auto.
Qed.

Lemma run_irfft : forall m p buf inp out X bs os, 0 < pa_order p -> plan_in m p ->
  ~ In buf (plan_objects p) -> inp <> buf -> out <> buf ->
  holds Cpx m inp X -> length X = 2 ^ pa_order p / 2 + 1 -> holds Cpx m buf bs -> length bs = 2 ^ pa_order p ->
  holds Flt m out os -> length os = 2 ^ pa_order p ->
  exists buf', run (irfft_prog p buf inp out) m = Ok (tt, with_obj Flt (with_obj Cpx m buf buf') out
    (tab (2 ^ pa_order p) (IRDFT (2 ^ (pa_order p - 1)) (fun k => nth k X C0)))).
Proof.
  intros m p buf inp out X bs os Hp Hpl Nb Ne No Hx Lx Hb Lb Ho Lo.
  pose proof Hpl as (pl & Epl & _).
  pose proof (half_le _ Hp) as Hh.
  destruct (rfft_backward_ok (pa_order p) (RfftPlan (pa_order p) pl bs) X os Hp) as [p' [E _]]; try lia.
  { unfold rf_inv. auto. }
  unfold rfft_backward in E. cbn [rf_order rf_buf rf_fft] in E. cbv zeta in E.
  set (n := 2 ^ pa_order p) in *. set (c := n / 2 + 1) in *.
  apply bind_inv in E. destruct E as [b1 [E1 E]]. apply bind_inv in E. destruct E as [b2 [E2 E]].
  apply bind_inv in E. destruct E as [b3 [E3 E]]. apply bind_inv in E. destruct E as [o1 [E4 E]].
  inversion E; subst p' o1. clear E.
  assert (L1 : length b1 = n) by (apply copy_length in E1; lia).
  exists b3. unfold irfft_prog. cbv zeta. fold n. fold c.
  rewrite run_pbind. rewrite <- Lx at 1.
  rewrite (run_copy C C Cpx (get_c inp c) (fun v => v) m X buf bs n b1); auto.
  2:{ intros l i v Ev. apply (run_get_c _ inp X); auto. apply holds_with_other; auto. }
  cbn [bind fst snd]. rewrite run_pbind.
  assert (CM : corresponds Cpx m buf n (pfor c n (fun i => v <~ get_c buf n (n - i) ;; put buf n i (Cpx (Cconj v))))
     (for_range c n (fun i buf => v <- rd buf (n - i) ;; wr buf i (Cconj v)))).
  { apply corr_for. intros i l l' Ll E'. apply bind_inv in E'. destruct E' as [v [F1 F2]].
    pose proof (holds_with_obj _ Cpx m buf l) as Hl.
    go_read (run_get_c _ _ _ _ _ _ Hl Ll F1). apply (run_put _ Cpx m buf l n i (Cconj v) l' Ll F2). }
  destruct (CM b1 b2 L1 E2) as [R2 L2]. rewrite R2. cbn [bind fst snd]. rewrite run_pbind.
  assert (E3' := fft_obj (pa_order p) pl Backward b2 Epl Hp L2). rewrite E3' in E3. inversion E3; subst b3.
  rewrite (run_fft _ p buf Backward b2); auto.
  2:{ apply plan_in_with; auto. } 2:{ apply holds_with_obj. }
  cbn [bind fst snd]. rewrite with_obj_twice.
  set (m3 := with_obj Cpx m buf (DFT_list Backward b2)).
  assert (L3 : length (DFT_list Backward b2) = n) by (rewrite DFT_list_length; auto).
  rewrite <- L3 at 1.
  apply (run_copy C R Flt (get_c buf n) fst m3 (DFT_list Backward b2) out os n).
  - apply holds_with_other; auto.
  - auto.
  - intros l i v Ev. apply (run_get_c _ buf (DFT_list Backward b2)); auto.
    apply holds_with_other; auto. apply holds_with_obj.
  - unfold copy. rewrite L3. exact E4.
Qed.

(** ** What the programs access *)
Definition in_objs (os : list nat) (l : location) : Prop := In (fst l) os.

Lemma conf_get_c : forall W R o n i, W (o, i) \/ R (o, i) -> confined W R (get_c o n i).
Proof. intros. unfold get_c. destruct (i <? n); simpl; auto. split; auto. destruct v; simpl; auto. Qed.
Lemma conf_get_r : forall W R o n i, W (o, i) \/ R (o, i) -> confined W R (get_r o n i).
Proof. intros. unfold get_r. destruct (i <? n); simpl; auto. split; auto. destruct v; simpl; auto. Qed.
Lemma conf_get_i : forall W R o n i, W (o, i) \/ R (o, i) -> confined W R (get_i o n i).
Proof. intros. unfold get_i. destruct (i <? n); simpl; auto. split; auto. destruct v; simpl; auto. Qed.
Lemma conf_put : forall (W R : location -> Prop) o n i v, W (o, i) -> confined W R (put o n i v).
Proof. intros. unfold put. destruct (i <? n); simpl; auto. Qed.
Lemma conf_loop : forall W R body n lo st, (forall i, confined W R (body i)) -> confined W R (ploop n lo st body).
Proof. intros W R body n. induction n; simpl; intros; auto. apply confined_pbind; auto. Qed.

Ltac conf := repeat first
  [ apply confined_pbind; [|intros ?]
  | apply conf_loop; intros ?
  | apply conf_get_c | apply conf_get_r | apply conf_get_i | apply conf_put
  | match goal with |- confined _ _ (if ?b then _ else _) => destruct b end
  | exact I ].

Lemma conf_fft : forall Wo Ro p x d, In x Wo -> incl (plan_objects p) Ro ->
  confined (in_objs Wo) (in_objs Ro) (fft_prog p x d).
Proof.
  intros Wo Ro p x d Hx Hp.
  assert (A : In (pa_table p) Ro) by (apply Hp; simpl; auto).
  assert (B : In (match d with Forward => pa_wf p | Backward => pa_wb p end) Ro) by (apply Hp; destruct d; simpl; auto).
  unfold fft_prog, bitrev_prog, kernel_prog, stage0_prog, stage_prog, swap_prog, pfor, pfor_step. cbv zeta.
  conf; unfold in_objs; simpl; auto.
Qed.

Lemma conf_rfft_transform : forall Wo Ro p buf inp, In buf Wo -> In inp Ro -> incl (plan_objects p) Ro ->
  confined (in_objs Wo) (in_objs Ro) (rfft_transform_prog p buf inp).
Proof.
  intros. unfold rfft_transform_prog, pfor. apply confined_pbind.
  - conf; unfold in_objs; simpl; auto.
  - intros _. apply conf_fft; auto.
Qed.

Lemma conf_rfft : forall Wo Ro p buf inp out, In buf Wo -> In out Wo -> In inp Ro -> incl (plan_objects p) Ro ->
  confined (in_objs Wo) (in_objs Ro) (rfft_prog p buf inp out).
Proof.
  intros. unfold rfft_prog. apply confined_pbind.
  - apply conf_rfft_transform; auto.
  - intros _. unfold rfft_output_prog, pfor. cbv zeta. conf; unfold in_objs; simpl; auto.
Qed.

Lemma conf_irfft : forall Wo Ro p buf inp out, In buf Wo -> In out Wo -> In inp Ro -> incl (plan_objects p) Ro ->
  confined (in_objs Wo) (in_objs Ro) (irfft_prog p buf inp out).
Proof.
  intros. unfold irfft_prog, pfor. cbv zeta.
  apply confined_pbind; [|intros _; apply confined_pbind; [|intros _; apply confined_pbind; [apply conf_fft; auto|intros _]]];
  conf; unfold in_objs; simpl; auto.
Qed.

(** ** Calls *)
Lemma holds_fun : forall T (inj : T -> value), (forall a b, inj a = inj b -> a = b) ->
  forall m o xs ys, holds inj m o xs -> holds inj m o ys -> xs = ys.
Proof.
  intros T inj Hi m o xs ys Hx Hy.
  assert (E : forall i, nth_error xs i = nth_error ys i).
  { intros i. pose proof (Hx i) as A. rewrite (Hy i) in A. rewrite !nth_error_map in A.
    destruct (nth_error xs i), (nth_error ys i); simpl in A; try congruence. inversion A. f_equal. auto. }
  clear Hx Hy. revert ys E. induction xs; intros [|y ys] E; auto.
  - specialize (E 0). discriminate.
  - specialize (E 0). discriminate.
  - pose proof (E 0) as E0. simpl in E0. inversion E0. f_equal. apply IHxs. intros i. apply (E (S i)).
Qed.

Lemma inj_Cpx : forall a b, Cpx a = Cpx b -> a = b. Proof. congruence. Qed.
Lemma inj_Flt : forall a b, Flt a = Flt b -> a = b. Proof. congruence. Qed.

Lemma holds_agree : forall T (inj : T -> value) m m' o l, (forall i, m' (o, i) = m (o, i)) -> holds inj m o l -> holds inj m' o l.
Proof. intros T inj m m' o l A H i. rewrite A. auto. Qed.

(** Alone, a proper call ends with its result, having changed only what it may write. *)
Lemma job_run : forall m j, ready m j -> exists m', run (job_prog j) m = Ok (tt, m') /\ result m m' j.
Proof.
  intros m [p x d|p buf inp out|p buf inp out] (Own & ND & Rd); cbn [job_prog result writes reads] in *.
  - destruct Rd as (Hp & Hpl & xs & Hx & L).
    eexists. split. { apply (run_fft m p x d xs); auto. apply Own. simpl. auto. }
    intros xs' Hx'. rewrite (holds_fun _ Cpx inj_Cpx m x xs' xs); auto. apply holds_with_obj.
  - destruct Rd as (Hp & Hpl & (bs & Hb & Lb) & (xs & Hx & Lx) & (os & Ho & Lo)).
    pose proof (Own buf (or_introl eq_refl)) as O1. simpl in O1.
    assert (N1 : out <> buf). { inversion ND as [|? ? A B]; subst. intros ->. apply A. simpl. auto. }
    eexists. split. { apply (run_rfft m p buf inp out xs bs os); auto. }
    intros xs' Hx'. rewrite (holds_fun _ Flt inj_Flt m inp xs' xs); auto. apply holds_with_obj.
  - destruct Rd as (Hp & Hpl & (bs & Hb & Lb) & (xs & Hx & Lx) & (os & Ho & Lo)).
    pose proof (Own buf (or_introl eq_refl)) as O1. simpl in O1.
    assert (N1 : out <> buf). { inversion ND as [|? ? A B]; subst. intros ->. apply A. simpl. auto. }
    destruct (run_irfft m p buf inp out xs bs os) as [b E]; auto.
    eexists. split. exact E.
    intros xs' Hx'. rewrite (holds_fun _ Cpx inj_Cpx m inp xs' xs); auto. apply holds_with_obj.
Qed.

Lemma job_confined : forall j, confined (in_objs (writes j)) (in_objs (reads j)) (job_prog j).
Proof.
  intros [p x d|p buf inp out|p buf inp out]; cbn [job_prog].
  - apply conf_fft; simpl; auto. apply incl_refl.
  - apply conf_rfft; simpl; auto. apply incl_tl, incl_refl.
  - apply conf_irfft; simpl; auto. apply incl_tl, incl_refl.
Qed.

Lemma result_local : forall m0 m m' j, (forall o i, In o (writes j) -> m' (o, i) = m (o, i)) ->
  result m0 m j -> result m0 m' j.
Proof.
  intros m0 m m' [p x d|p buf inp out|p buf inp out] A H; cbn [result writes] in *; intros xs Hx;
  (eapply holds_agree; [|apply H; exact Hx]); intros i; apply A; simpl; auto.
Qed.

Theorem schedules : forall m0 jobs,
  (forall j, In j jobs -> ready m0 j) ->
  (forall s t a b, s <> t -> nth_error jobs s = Some a -> nth_error jobs t = Some b -> separate a b) ->
  forall n c, steps n (map job_prog jobs, m0) c ->
    ~ racing c /\ ~ crashed c /\ n <= list_sum (map (fun j => cost (job_prog j) m0) jobs) /\ (finished c \/ exists c', step c c') /\
    (finished c -> n = list_sum (map (fun j => cost (job_prog j) m0) jobs) /\ (forall j, In j jobs -> result m0 (snd c) j) /\
       forall o i, (forall j, In j jobs -> ~ In o (writes j)) -> snd c (o, i) = m0 (o, i)).
Proof.
  intros m0 jobs Hr Hs.
  set (W := fun t l => match nth_error jobs t with Some j => in_objs (writes j) l | None => False end).
  set (R := fun t l => match nth_error jobs t with Some j => in_objs (reads j) l | None => False end).
  set (pr := fun t => match nth_error jobs t with Some j => job_prog j | None => Crash end).
  set (cost_of := fun t => cost (pr t) m0).
  set (final := fun t => match run (pr t) m0 with Ok (_, m) => m | _ => m0 end).
  assert (TS : total_steps (map job_prog jobs) cost_of = list_sum (map (fun j => cost (job_prog j) m0) jobs)).
  { unfold total_steps, cost_of, pr. rewrite map_length. clear. f_equal.
    assert (G : forall pre js, map (fun t => cost (match nth_error (pre ++ js) t with Some j => job_prog j | None => Crash end) m0)
      (seq (length pre) (length js)) = map (fun j => cost (job_prog j) m0) js); [|apply (G [] jobs)].
    intros pre js. revert pre. induction js as [|j js IH]; intros pre; simpl; auto. f_equal.
    - rewrite nth_error_app2, Nat.sub_diag by lia. reflexivity.
    - specialize (IH (pre ++ [j])). rewrite <- app_assoc in IH. simpl in IH. rewrite app_length, Nat.add_1_r in IH. exact IH. }
  rewrite <- TS. intros n c Hc.
  assert (J : forall t p, nth_error (map job_prog jobs) t = Some p -> exists j, nth_error jobs t = Some j /\ p = job_prog j).
  { intros t p H. rewrite nth_error_map in H. destruct (nth_error jobs t) as [j|]; inversion H. eauto. }
  assert (F : forall t j, nth_error jobs t = Some j -> run (job_prog j) m0 = Ok (tt, final t) /\ result m0 (final t) j).
  { intros t j H. destruct (job_run m0 j) as [m' [E Re]]. { apply Hr. eapply nth_error_In; eauto. }
    unfold final, pr. rewrite H, E. auto. }
  destruct (interleaved (map job_prog jobs) m0 W R cost_of final) with (n := n) (c := c) as (A & B & D & E & G); auto.
  - intros t p H. destruct (J t p H) as [j [Hj ->]]. unfold W, R. rewrite Hj. apply job_confined.
  - intros t p H. destruct (J t p H) as [j [Hj ->]]. destruct (F t j Hj) as [Ru _].
    unfold cost_of, pr. rewrite Hj. apply run_cost. auto.
  - intros t u l _ _ Ntu. unfold W, R. destruct (nth_error jobs t) as [a|] eqn:Ea; [|tauto].
    destruct (nth_error jobs u) as [b|] eqn:Eb; [|tauto]. intros Hl. apply (Hs t u a b Ntu Ea Eb). exact Hl.
  - split; [exact A|]. split; [exact B|]. split; [exact D|]. split; [exact E|]. intros Fin. destruct (G Fin) as [GN G']. clear G. rename G' into G.
    split; [exact GN|]. split.
    + intros j Hj. apply In_nth_error in Hj. destruct Hj as [t Ht]. destruct (F t j Ht) as [_ Re].
      apply (result_local m0 (final t)); auto. intros o i Ho. destruct (G (o, i)) as [G1 _]. apply G1.
      * rewrite map_length. apply nth_error_Some. congruence.
      * unfold W. rewrite Ht. exact Ho.
    + intros o i No. destruct (G (o, i)) as [_ G2]. apply G2. intros t _. unfold W.
      destruct (nth_error jobs t) as [j|] eqn:Ej; auto. apply No. eapply nth_error_In; eauto.
Qed.

Theorem any_schedule : forall m0 jobs,
  (forall j, In j jobs -> ready m0 j) ->
  (forall s t a b, s <> t -> nth_error jobs s = Some a -> nth_error jobs t = Some b -> separate a b) ->
  exists bound, forall n c, steps n (map job_prog jobs, m0) c ->
    ~ racing c /\ ~ crashed c /\ n <= bound /\ (finished c \/ exists c', step c c') /\
    (finished c -> (forall j, In j jobs -> result m0 (snd c) j) /\
       forall o i, (forall j, In j jobs -> ~ In o (writes j)) -> snd c (o, i) = m0 (o, i)).
Proof.
  intros m0 jobs Hr Hs. eexists. intros n c Hc. destruct (schedules m0 jobs Hr Hs n c Hc) as (A & B & D & E & F).
  split; [exact A|]. split; [exact B|]. split; [exact D|]. split; [exact E|]. intros Fin. apply (proj2 (F Fin)).
Qed.
