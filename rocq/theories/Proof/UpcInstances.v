(** The delay lines and filters of the library meet the requirements of [UpcProof]. *)
From Coq Require Import Reals List Arith Lia Lra Bool ZArith.
From Verif Require Import Base.Outcome Base.OutcomeFacts Base.Sums Base.Cplx Base.Alias Spec.Dft Spec.Transforms
  Spec.Convolution Spec.Sparse Spec.Views Model.Stft Spec.Stft Model.Fft2 Model.Integers Model.Algorithm Model.Csr Model.FftApps Model.Convolution
  Proof.DftTheory Proof.Fft2Proof Proof.IntegersProof Proof.AlgorithmProof Proof.AlgorithmCorollaries Proof.CsrProof Proof.RfftProof Proof.ConvTheory
  Proof.DirectConvProof Proof.FftConvProof Proof.OverlapProof Proof.StreamProof Proof.LtiProof Proof.UpcProof.
Import ListNotations.
Local Arguments Nat.div : simpl never.
Local Arguments Nat.modulo : simpl never.
Local Arguments Nat.pow : simpl never.

Lemma matrix_row : forall T rows cols (m : list (list T)) i, matrix_of rows cols m -> i < rows -> length (nth i m []) = cols.
Proof. intros T rows cols m i [L H] Hi. apply H. apply nth_In. lia. Qed.

Lemma nth_map_in : forall A B (f : A -> B) l i d d', i < length l -> nth i (map f l) d = f (nth i l d').
Proof. intros A B f l i d d' H. rewrite (nth_indep _ d (f d')) by (rewrite map_length; auto). apply map_nth. Qed.

Lemma upd_tab : forall T n i (f : nat -> T) v, i < n -> upd (tab n f) i v = tab n (fun j => if j =? i then v else f j).
Proof.
  intros T n i f v H. apply (list_eq_tab _ v). { rewrite upd_length. apply tab_length. }
  intros j Hj. rewrite nth_upd, tab_length. destruct (Nat.eqb_spec j i).
  - destruct (Nat.ltb_spec i n); [reflexivity|lia].
  - simpl. apply nth_tab. auto.
Qed.

Lemma repeat_tab : forall T n (v : T), repeat v n = tab n (fun _ => v).
Proof. intros. apply (list_eq_tab _ v). { apply repeat_length. } intros. apply nth_repeat. Qed.

(** ** Delay lines *)

Lemma dense_fdl_impl : forall P M, fdl_impl dense_fdl P M.
Proof.
  intros P M. refine (FdlImpl dense_fdl P M (fun f i => nth i f []) (fun f => matrix_of P M f) (fun r X => r = X) _ _ _).
  - cbn. split.
    + split; [apply repeat_length|]. intros r H. apply repeat_spec in H. subst. apply repeat_length.
    + intros i Hi. rewrite (nth_indep _ [] (repeat C0 M)) by (rewrite repeat_length; lia). apply nth_repeat.
  - intros f X i W HX Hi. cbn. unfold dense_fdl_insert. cbn in f. destruct W as [WL WR].
    rewrite (rd_ok _ f i []) by lia. cbn [bind].
    rewrite copy_full by (rewrite (matrix_row _ P M) by (try split; auto); auto). cbn [bind]. rewrite map_id.
    rewrite wr_ok by lia. eexists; split; [reflexivity|]. split.
    + split; [rewrite upd_length; auto|]. intros r Hr. destruct (In_nth _ _ [] Hr) as (j & Hj & <-).
      rewrite upd_length in Hj. rewrite nth_upd. destruct ((j =? i) && _); auto. apply WR. apply nth_In. auto.
    + intros j Hj. rewrite nth_upd. destruct (Nat.ltb_spec i (length f)); [|lia]. rewrite andb_true_r. reflexivity.
  - intros f i [WL WR] Hi. cbn in *. exists (nth i f []). split; [apply rd_ok; lia|reflexivity].
Defined.

Lemma combine_fst_snd : forall (X : list C), combine (map fst X) (map snd X) = X.
Proof. induction X as [|[a b] X IH]; simpl; [reflexivity|]. rewrite IH. reflexivity. Qed.

Lemma combine_repeat : forall n, combine (repeat 0%R n) (repeat 0%R n) = repeat C0 n.
Proof. induction n; simpl; [reflexivity|]. rewrite IHn. reflexivity. Qed.

Definition split_row (r : list R * list R) (X : list C) : Prop :=
  length (fst r) = length X /\ length (snd r) = length X /\ combine (fst r) (snd r) = X.

Lemma split_fdl_impl : forall P M, fdl_impl dense_split_fdl P M.
Proof.
  intros P M. refine (FdlImpl dense_split_fdl P M (fun f i => combine (nth i (fst f) []) (nth i (snd f) []))
    (fun f => matrix_of P M (fst f) /\ matrix_of P M (snd f)) split_row _ _ _).
  - cbn. assert (Z : matrix_of P M (repeat (repeat 0%R M) P)).
    { split; [apply repeat_length|]. intros r H. apply repeat_spec in H. subst. apply repeat_length. }
    split; [auto|]. intros i Hi. rewrite (nth_indep _ [] (repeat 0%R M)) by (rewrite repeat_length; lia).
    rewrite nth_repeat. apply combine_repeat.
  - intros [re im] X i [[L1 W1] [L2 W2]] HX Hi. cbn in *. unfold split_fdl_insert. cbn [fst snd].
    rewrite (rd_ok _ re i []), (rd_ok _ im i []) by lia. cbn [bind].
    assert (length (nth i re []) = M) by (apply (matrix_row _ P M); [split|]; auto).
    assert (length (nth i im []) = M) by (apply (matrix_row _ P M); [split|]; auto).
    rewrite copy_to_split_ok by lia. cbn [bind]. rewrite !wr_ok by lia. cbn [bind].
    eexists; split; [reflexivity|]. cbn [fst snd].
    assert (U : forall g (m : list (list R)) , length m = P -> (forall r, In r m -> length r = M) -> matrix_of P M (upd m i (map g X))).
    { intros g m L W. split; [rewrite upd_length; auto|]. intros r Hr. destruct (In_nth _ _ [] Hr) as (j & Hj & <-).
      rewrite upd_length in Hj. rewrite nth_upd. destruct ((j =? i) && _).
      - rewrite map_length. auto.
      - apply W. apply nth_In. auto. }
    split; [split; apply U; auto|].
    intros j Hj. rewrite !nth_upd, L1, L2. destruct (Nat.ltb_spec i P); [|lia]. rewrite !andb_true_r.
    destruct (j =? i); [apply combine_fst_snd|reflexivity].
  - intros [re im] i [[L1 W1] [L2 W2]] Hi. cbn in *. eexists. split.
    + rewrite (rd_ok _ re i []), (rd_ok _ im i []) by lia. reflexivity.
    + assert (length (nth i re []) = M) by (apply (matrix_row _ P M); [split|]; auto).
      assert (length (nth i im []) = M) by (apply (matrix_row _ P M); [split|]; auto).
      pose proof (combine_length (nth i re []) (nth i im [])) as CL. unfold split_row, C in *. cbn [fst snd].
      split; [lia|]. split; [lia|reflexivity].
Defined.

(** ** Filters *)

Definition cell (mat : list (list C)) (i j : nat) : C := nth j (nth i mat []) C0.

Lemma copy_rows_ok : forall A B (da : A) (db : B) (conv : A -> B) rows cols mat out,
  matrix_of rows cols mat -> matrix_of rows cols out ->
  copy_rows conv rows cols mat out = Ok (tab rows (fun i => tab cols (fun j => conv (nth j (nth i mat []) da)))).
Proof.
  intros A B da db conv rows cols mat out Hm Ho. unfold copy_rows.
  destruct Ho as [LO WO]. rewrite (for_range_tab _ [] rows _ out (fun i => tab cols (fun j => conv (nth j (nth i mat []) da)))); auto.
  intros i l Hi Hl El.
  assert (Hr : length (nth i l []) = cols) by (rewrite El; apply WO; apply nth_In; lia).
  match goal with |- for_range 0 cols ?body ?s0 = _ =>
    destruct (for_range_inv _ (fun j s => s = upd l i (tab cols (fun c => if c <? j then conv (nth c (nth i mat []) da) else nth c (nth i l []) db)))
      0 cols body s0) as (s & E & ->) end.
  - lia.
  - etransitivity; [symmetry; apply (upd_same _ [] l i)|]. f_equal. apply (list_eq_tab _ db); auto.
  - intros j s Hj ->. rewrite (rd_ok _ mat i []) by (destruct Hm; lia). cbn [bind].
    rewrite (rd_ok _ _ j da) by (rewrite (matrix_row _ rows cols); auto; lia). cbn [bind].
    rewrite (rd_ok _ _ i []) by (rewrite upd_length; lia). cbn [bind]. rewrite nth_upd_eq by lia.
    rewrite wr_ok by (rewrite tab_length; lia). cbn [bind]. rewrite wr_ok by (rewrite upd_length; lia).
    eexists; split; [reflexivity|]. rewrite upd_upd. f_equal. rewrite upd_tab by lia. apply tab_ext. intros c Hc.
    destruct (Nat.eqb_spec c j), (Nat.ltb_spec c (S j)), (Nat.ltb_spec c j); try lia; subst; auto.
  - rewrite E. f_equal. f_equal. apply tab_ext. intros c Hc. destruct (Nat.ltb_spec c cols); [reflexivity|lia].
Qed.

Lemma dense_filter_ok : forall rows cols mat f0, matrix_of rows cols mat ->
  flt_filter dense_filter f0 rows cols mat tt = Ok mat.
Proof.
  intros rows cols mat f0 Hm. cbn. unfold dense_filter_filter.
  rewrite (copy_rows_ok _ _ C0 C0); [| exact Hm | split; [apply repeat_length|intros r H; apply repeat_spec in H; subst; apply repeat_length]].
  f_equal. symmetry. apply (list_eq_tab _ []). { apply Hm. }
  intros i Hi. apply (list_eq_tab _ C0); auto. apply (matrix_row _ rows cols); auto.
Qed.

Lemma dense_filter_impl : forall P M mat, matrix_of P M mat ->
  flt_impl dense_filter (rv (dense_fdl_impl P M)) P M mat (cell mat).
Proof.
  intros P M mat Hm. refine (FltImpl _ dense_filter _ P M mat (cell mat) (fun a => a) (fun a => length a = M) _ _ _ _); cbn.
  - apply repeat_length.
  - intros a Ha. rewrite fill_ok, Ha. eexists; split; [reflexivity|]. split; [apply repeat_length|reflexivity].
  - intros a r X i Ha -> HX Hi. unfold dense_filter_mac. pose proof (matrix_row _ _ _ _ i Hm Hi) as Hr.
    rewrite (rd_ok _ _ _ []) by (destruct Hm; lia). cbn [bind].
    rewrite multiply_add_c_ok by (cbn [contents]; lia). cbn [contents]. rewrite Ha. eexists; split; [reflexivity|].
    split; [apply tab_length|reflexivity].
  - intros a out Ha Ho. split; auto. rewrite copy_full by lia. rewrite map_id. reflexivity.
Defined.

Definition masked (pred : nat -> nat -> C -> bool) (mat : list (list C)) (i j : nat) : C :=
  if pred i j (cell mat i j) then cell mat i j else C0.

Lemma sparse_filter_impl : forall P M mat pred f0, matrix_of P M mat ->
  exists f, flt_filter sparse_filter f0 P M mat pred = Ok f /\
    inhabited (flt_impl sparse_filter (rv (dense_fdl_impl P M)) P M f (masked pred mat)).
Proof.
  intros P M mat pred f0 [Lm Wm]. cbn. unfold sparse_filter_filter.
  destruct (csr_build_fma C C0 Cmul Cadd P M mat pred Lm Wm) as (f & E & HF). exists f. split; [exact E|]. constructor.
  refine (FltImpl _ sparse_filter _ P M f (masked pred mat) (fun a => a) (fun a => length a = M) _ _ _ _); cbn.
  - apply repeat_length.
  - intros a Ha. rewrite fill_ok, Ha. eexists; split; [reflexivity|]. split; [apply repeat_length|reflexivity].
  - intros a r X i Ha -> HX Hi. unfold sparse_filter_mac. rewrite HF by (cbn [contents]; auto).
    eexists; split; [reflexivity|]. split; [apply tab_length|]. apply tab_ext. intros c Hc.
    unfold masked, cell. cbn [contents]. change (elem C0 mat i c) with (nth c (nth i mat []) C0).
    destruct (pred i c _); [reflexivity|]. ring.
  - intros a out Ha Ho. split; auto. rewrite copy_full by lia. rewrite map_id. reflexivity.
Qed.

Lemma nth_combine : forall (a b : list R) i, length a = length b -> nth i (combine a b) C0 = (nth i a 0%R, nth i b 0%R).
Proof. intros. unfold C0. apply combine_nth. auto. Qed.

Lemma nth6 : forall n (x0 x1 x2 x3 x4 x5 : list R) i, length x0 = n -> length x1 = n -> length x2 = n -> length x3 = n ->
  length x4 = n -> length x5 = n -> i < n ->
  let mem := x0 ++ x1 ++ x2 ++ x3 ++ x4 ++ x5 in
  nth (0 + i) mem 0%R = nth i x0 0%R /\ nth (n + i) mem 0%R = nth i x1 0%R /\ nth (2 * n + i) mem 0%R = nth i x2 0%R /\
  nth (3 * n + i) mem 0%R = nth i x3 0%R /\ nth (4 * n + i) mem 0%R = nth i x4 0%R /\ nth (5 * n + i) mem 0%R = nth i x5 0%R.
Proof.
  intros n x0 x1 x2 x3 x4 x5 i H0 H1 H2 H3 H4 H5 Hi mem. unfold mem.
  repeat split; repeat first [rewrite app_nth1 by lia | rewrite app_nth2 by lia]; f_equal; lia.
Qed.

Lemma split_mac_ok : forall lanes n (x y z : list R * list R), (forall l, lanes = Some l -> 0 < l) ->
  length (fst x) = n -> length (snd x) = n -> length (fst y) = n -> length (snd y) = n -> length (fst z) = n -> length (snd z) = n ->
  exists re im, split_mac_rows lanes x y z = Ok (re, im) /\ length re = n /\ length im = n /\
    combine re im = tab n (fun k => nth k (combine (fst x) (snd x)) C0 * nth k (combine (fst y) (snd y)) C0 + nth k (combine (fst z) (snd z)) C0)%C.
Proof.
  intros lanes n [x0 x1] [y0 y1] [z0 z1] HL. cbn [fst snd]. intros A0 A1 B0 B1 D0 D1.
  unfold split_mac_rows. cbn [fst snd]. rewrite A0, A1, B0, B1, D0, D1, !Nat.eqb_refl. cbn [andb guard bind].
  set (mem := x0 ++ x1 ++ y0 ++ y1 ++ z0 ++ z1).
  assert (LM : length mem = 6 * n) by (unfold mem; rewrite !app_length; lia).
  assert (Lay : fma_layout 0 n (2 * n) (3 * n) (4 * n) (5 * n) (4 * n) (5 * n) n (length mem)).
  { rewrite LM. apply layout_in_place. }
  assert (EX : exists m', (match lanes with
         | None => split_multiply_add 0 n (2 * n) (3 * n) (4 * n) (5 * n) (4 * n) (5 * n) n mem
         | Some inc => simd_multiply_add inc 0 n (2 * n) (3 * n) (4 * n) (5 * n) (4 * n) (5 * n) n mem
         end) = Ok m' /\ fma_done 0 n (2 * n) (3 * n) (4 * n) (5 * n) (4 * n) (5 * n) n mem m').
  { destruct lanes as [inc|]; [apply simd_fma; auto | apply split_fma; auto]. }
  destruct EX as (m' & -> & LM' & Hv & _). cbn [bind].
  rewrite (slice_spec _ 0%R) by lia. cbn [bind]. rewrite (slice_spec _ 0%R) by lia. cbn [bind].
  replace (5 * n - 4 * n) with n by lia. replace (6 * n - 5 * n) with n by lia.
  do 2 eexists. split; [reflexivity|]. rewrite !tab_length. split; [reflexivity|]. split; [reflexivity|].
  apply (list_eq_tab _ C0).
  { pose proof (combine_length (tab n (fun i => nth (4 * n + i) m' 0%R)) (tab n (fun i => nth (5 * n + i) m' 0%R))) as CL.
    rewrite !tab_length in CL. unfold C in *. lia. }
  intros i Hi. rewrite !nth_combine by (rewrite ?tab_length; lia). rewrite !nth_tab by auto.
  specialize (Hv i Hi). unfold at_split in Hv. rewrite Hv.
  destruct (nth6 n x0 x1 y0 y1 z0 z1 i A0 A1 B0 B1 D0 D1 Hi) as (E0 & E1 & E2 & E3 & E4 & E5). fold mem in E0, E1, E2, E3, E4, E5.
  rewrite E0, E1, E2, E3, E4, E5. reflexivity.
Qed.

Lemma split_filter_ok : forall lanes rows cols mat f0, matrix_of rows cols mat ->
  flt_filter (dense_split_filter lanes) f0 rows cols mat tt =
  Ok (tab rows (fun i => tab cols (fun j => fst (cell mat i j))), tab rows (fun i => tab cols (fun j => snd (cell mat i j)))).
Proof.
  intros lanes rows cols mat f0 [Lm Wm]. cbn. unfold split_filter_filter.
  rewrite !repeat_tab.
  match goal with |- for_range 0 rows ?body ?s0 = _ =>
    destruct (for_range_inv _ (fun i s => s = (tab rows (fun r => tab cols (fun c => if r <? i then fst (cell mat r c) else 0%R)),
                                              tab rows (fun r => tab cols (fun c => if r <? i then snd (cell mat r c) else 0%R))))
      0 rows body s0) as (s & E & ->) end.
  - lia.
  - f_equal; apply tab_ext; intros; rewrite repeat_tab; reflexivity.
  - intros i s Hi ->.
    match goal with |- exists s', for_range 0 cols ?body ?s0 = _ /\ _ =>
    destruct (for_range_inv _ (fun j s => s =
       (tab rows (fun r => tab cols (fun c => if (r <? i) || ((r =? i) && (c <? j)) then fst (cell mat r c) else 0%R)),
        tab rows (fun r => tab cols (fun c => if (r <? i) || ((r =? i) && (c <? j)) then snd (cell mat r c) else 0%R))))
      0 cols body s0) as (s & E & ->) end.
    + lia.
    + f_equal; apply tab_ext; intros; apply tab_ext; intros; rewrite andb_false_r, orb_false_r; reflexivity.
    + intros j s Hj ->. rewrite (rd_ok _ mat i []) by lia. cbn [bind].
      rewrite (rd_ok _ _ j C0) by (rewrite (matrix_row _ rows cols); try lia; split; auto). cbn [bind fst snd].
      rewrite (rd_ok _ _ i []) by (rewrite tab_length; lia). cbn [bind]. rewrite nth_tab by lia.
      rewrite wr_ok by (rewrite tab_length; lia). cbn [bind]. rewrite wr_ok by (rewrite tab_length; lia). cbn [bind].
      rewrite (rd_ok _ _ i []) by (rewrite tab_length; lia). cbn [bind]. rewrite nth_tab by lia.
      rewrite wr_ok by (rewrite tab_length; lia). cbn [bind]. rewrite wr_ok by (rewrite tab_length; lia). cbn [bind].
      eexists; split; [reflexivity|].
      assert (G : forall g : C -> R,
        upd (tab rows (fun r => tab cols (fun c => if (r <? i) || ((r =? i) && (c <? j)) then g (cell mat r c) else 0%R))) i
          (upd (tab cols (fun c => if (i <? i) || ((i =? i) && (c <? j)) then g (cell mat i c) else 0%R)) j (g (nth j (nth i mat []) C0)))
        = tab rows (fun r => tab cols (fun c => if (r <? i) || ((r =? i) && (c <? S j)) then g (cell mat r c) else 0%R))).
      { intros g. rewrite !upd_tab by lia. apply tab_ext. intros r Hr. destruct (Nat.eqb_spec r i).
        - subst r. apply tab_ext. intros c Hc. rewrite Nat.ltb_irrefl, Nat.eqb_refl. cbn [orb andb].
          destruct (Nat.eqb_spec c j), (Nat.ltb_spec c (S j)), (Nat.ltb_spec c j); try lia; subst; reflexivity.
        - apply tab_ext. intros c Hc. destruct (Nat.ltb_spec r i); reflexivity. }
      f_equal; apply G.
    + rewrite E. eexists; split; [reflexivity|]. f_equal; apply tab_ext; intros r Hr; apply tab_ext; intros c Hc;
        destruct (Nat.ltb_spec r i), (Nat.eqb_spec r i), (Nat.ltb_spec c cols), (Nat.ltb_spec r (S i)); try lia; reflexivity.
  - rewrite E. f_equal. f_equal; apply tab_ext; intros r Hr; apply tab_ext; intros c Hc; destruct (Nat.ltb_spec r rows); try lia; reflexivity.
Qed.

Lemma split_filter_impl : forall lanes P M mat f0, matrix_of P M mat -> (forall l, lanes = Some l -> 0 < l) ->
  exists f, flt_filter (dense_split_filter lanes) f0 P M mat tt = Ok f /\
    inhabited (flt_impl (dense_split_filter lanes) (rv (split_fdl_impl P M)) P M f (cell mat)).
Proof.
  intros lanes P M mat f0 Hm HL. rewrite split_filter_ok by auto. eexists; split; [reflexivity|]. constructor.
  refine (FltImpl _ (dense_split_filter lanes) _ P M _ (cell mat) (fun a => combine (fst a) (snd a))
    (fun a => length (fst a) = M /\ length (snd a) = M) _ _ _ _); cbn.
  - rewrite !repeat_length. auto.
  - intros [a b] [Ha Hb]. cbn [fst snd] in *. rewrite !fill_ok, Ha, Hb. cbn [bind]. eexists; split; [reflexivity|].
    cbn [fst snd]. rewrite !repeat_length. split; auto. apply combine_repeat.
  - intros [a b] [re im] X i [Ha Hb] (R1 & R2 & R3) HX Hi. cbn [fst snd] in *. unfold split_filter_mac. cbn [fst snd].
    rewrite !(rd_ok _ _ i []) by (rewrite tab_length; auto). cbn [bind]. rewrite !nth_tab by auto.
    destruct (split_mac_ok lanes M (re, im) (tab M (fun j => fst (cell mat i j)), tab M (fun j => snd (cell mat i j))) (a, b))
      as (re' & im' & E & L1 & L2 & V); cbn [fst snd]; rewrite ?tab_length; try lia; auto.
    rewrite E. eexists; split; [reflexivity|]. cbn [fst snd] in *. split; auto. rewrite V. apply tab_ext. intros k Hk.
    rewrite R3. rewrite (nth_combine (tab _ _)) by (rewrite !tab_length; auto). rewrite !nth_tab by auto.
    rewrite <- surjective_pairing. reflexivity.
  - intros [a b] out [Ha Hb] Ho. cbn [fst snd] in *. unfold split_acc_copy. cbn [fst snd].
    pose proof (combine_length a b) as CL. split; [|unfold C in *; lia].
    rewrite (for_range_tab _ C0 (length out) _ out (fun i => (nth i a 0%R, nth i b 0%R))); auto.
    + f_equal. symmetry. apply (list_eq_tab _ C0). { unfold C in *; lia. } intros. apply nth_combine. lia.
    + intros j l Hj Hl _. rewrite (rd_ok _ a j 0%R), (rd_ok _ b j 0%R) by lia. cbn [bind]. rewrite wr_ok by (eapply Nat.lt_le_trans; [exact Hj|]; apply Nat.eq_le_incl; symmetry; exact Hl). reflexivity.
Qed.
