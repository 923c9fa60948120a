(** The split-complex convolver in rounded arithmetic computes the same bits as the interleaved one,
    with the scalar loop and with any number of SIMD lanes. *)
From Coq Require Import Reals List Arith Bool Lia Lra ZArith.
From Verif Require Import Base.Outcome Base.OutcomeFacts Base.Alias Base.Cplx Spec.Dft Spec.Views Spec.Convolution Spec.Convolvers Spec.Stft Spec.RoundedConvolvers
  Model.Fft2 Model.FftApps Model.Algorithm Model.Convolution Model.RoundedFft Model.Stft Model.RoundedConv
  Proof.AlgorithmProof Proof.AlgorithmCorollaries Proof.IntegersProof Proof.Fft2Proof Proof.RfftProof Proof.ConvTheory Proof.OverlapProof Proof.StreamProof Proof.UpcProof Proof.UpcInstances Proof.StftProof Proof.RoundedRfft Proof.RoundedFftConv Proof.RoundedUpols Proof.RoundedStft.
Import ListNotations.
Local Open Scope outcome_scope.
Local Arguments Nat.div : simpl never.
Local Arguments Nat.modulo : simpl never.
Local Arguments Nat.pow : simpl never.

(** out[i] = x[i] * y[i] + z[i] for i < n, each operation rounded as for interleaved numbers. *)
Definition rfma_done (rnd : R -> R) (xre xim yre yim zre zim ore oim n : nat) (mem mem' : list R) : Prop :=
  length mem' = length mem /\
  (forall i, i < n -> at_split mem' ore oim i = radd rnd (rmul rnd (at_split mem xre xim i) (at_split mem yre yim i)) (at_split mem zre zim i)).

Section SplitFma.
Variable rnd : R -> R.
Variables (xre xim yre yim zre zim ore oim n : nat) (mem : list R).
Hypothesis (Bxre : xre + n <= length mem) (Bxim : xim + n <= length mem) (Byre : yre + n <= length mem)
  (Byim : yim + n <= length mem) (Bzre : zre + n <= length mem) (Bzim : zim + n <= length mem)
  (Bore : ore + n <= length mem) (Boim : oim + n <= length mem).
Hypothesis Hout : apart n ore oim.
Hypothesis (A1 : aligned n xre ore) (A2 : aligned n xre oim) (A3 : aligned n xim ore) (A4 : aligned n xim oim)
  (A5 : aligned n yre ore) (A6 : aligned n yre oim) (A7 : aligned n yim ore) (A8 : aligned n yim oim)
  (A9 : aligned n zre ore) (A10 : aligned n zre oim) (A11 : apart n zim ore) (A12 : aligned n zim oim).

Let m0 (p i : nat) : R := nth (p + i) mem 0%R.
Definition rfma_re i : R := (rnd (rnd (rnd (m0 xre i * m0 yre i) - rnd (m0 xim i * m0 yim i)) + m0 zre i))%R.
Definition rfma_im i : R := (rnd (rnd (rnd (m0 xre i * m0 yim i) + rnd (m0 xim i * m0 yre i)) + m0 zim i))%R.

(** Memory after indices [0, k) have been processed. *)
Definition rfma_upto (k : nat) (m : list R) : Prop :=
  length m = length mem /\
  (forall i, i < k -> nth (ore + i) m 0%R = rfma_re i /\ nth (oim + i) m 0%R = rfma_im i) /\
  (forall l, (forall i, i < k -> l <> ore + i /\ l <> oim + i) -> nth l m 0%R = nth l mem 0%R).

Lemma rfma_read : forall k m p i, rfma_upto k m -> k <= i < n -> aligned n p ore -> aligned n p oim ->
  nth (p + i) m 0%R = m0 p i.
Proof.
  intros k m p i [L [V Fr]] Hi P1 P2. apply Fr. intros i' Hi'. split; intros E.
  - destruct P1 as [->|P1]. lia. apply (P1 i i'); lia.
  - destruct P2 as [->|P2]. lia. apply (P2 i i'); lia.
Qed.

Lemma rfma_scalar_step : forall k m, k < n -> rfma_upto k m ->
  exists m', rsplit_fma_scalar rnd xre xim yre yim zre zim ore oim k m = Ok m' /\ rfma_upto (S k) m'.
Proof.
  intros k m Hk H. assert (HH := H). destruct H as [L [V Fr]]. unfold rsplit_fma_scalar.
  rewrite (rd_ok _ m (xre + k) 0%R), (rd_ok _ m (xim + k) 0%R), (rd_ok _ m (yre + k) 0%R), (rd_ok _ m (yim + k) 0%R),
    (rd_ok _ m (zre + k) 0%R) by lia. cbn [bind].
  rewrite wr_ok by lia. cbn [bind].
  assert (Z : aligned n zim ore) by (right; auto).
  rewrite (rd_ok _ _ (zim + k) 0%R) by (rewrite upd_length; lia).
  rewrite nth_upd_neq by (apply A11; auto). cbn [bind].
  rewrite wr_ok by (rewrite upd_length; lia).
  rewrite !(rfma_read k m) by (auto; lia).
  eexists. split; [reflexivity|]. split. { rewrite !upd_length. auto. }
  split.
  - intros i Hi. destruct (Nat.eq_dec i k) as [->|Hne].
    + split.
      * rewrite nth_upd_neq by (apply Hout; auto). rewrite nth_upd_eq by lia. auto.
      * rewrite nth_upd_eq by (rewrite upd_length; lia). auto.
    + destruct (V i ltac:(lia)) as [V1 V2]. split.
      * rewrite nth_upd_neq by (apply Hout; lia). rewrite nth_upd_neq by lia. auto.
      * rewrite nth_upd_neq by lia. rewrite nth_upd_neq. auto. intros E. apply (Hout k i); lia.
  - intros l Hl. destruct (Hl k ltac:(lia)). rewrite !nth_upd_neq by auto. apply Fr. intros. apply Hl. lia.
Qed.

Lemma rfma_scalar_loop : forall lo m, lo <= n -> rfma_upto lo m ->
  exists m', for_range lo n (rsplit_fma_scalar rnd xre xim yre yim zre zim ore oim) m = Ok m' /\ rfma_upto n m'.
Proof.
  intros lo m Hlo H. apply (for_range_inv _ rfma_upto); auto.
  intros j s Hj Hs. apply rfma_scalar_step; auto. lia.
Qed.

Lemma rfma_upto_0 : rfma_upto 0 mem.
Proof. split; auto. split; auto. intros; lia. Qed.

Lemma rsplit_multiply_add_ok : exists m', rsplit_multiply_add rnd xre xim yre yim zre zim ore oim n mem = Ok m' /\ rfma_upto n m'.
Proof. apply rfma_scalar_loop. lia. apply rfma_upto_0. Qed.

Lemma rfma_vector_step : forall inc k m, k + inc <= n -> rfma_upto k m ->
  exists m', (a <- slice m (xre + k) (xre + k + inc) ;; b <- slice m (xim + k) (xim + k + inc) ;;
    c <- slice m (yre + k) (yre + k + inc) ;; d <- slice m (yim + k) (yim + k + inc) ;;
    e <- slice m (zre + k) (zre + k + inc) ;; f <- slice m (zim + k) (zim + k + inc) ;;
    let out_re := reg_op (rplus rnd) (reg_op (rminus rnd) (reg_op (rtimes rnd) a c) (reg_op (rtimes rnd) b d)) e in
    let out_im := reg_op (rplus rnd) (reg_op (rplus rnd) (reg_op (rtimes rnd) a d) (reg_op (rtimes rnd) b c)) f in
    mem <- splice m (ore + k) out_re ;;
    splice mem (oim + k) out_im) = Ok m' /\ rfma_upto (k + inc) m'.
Proof.
  intros inc k m Hk H. assert (HH := H). destruct H as [L [V Fr]].
  rewrite !(slice_spec _ 0%R) by lia. cbn [bind].
  rewrite !Nat.add_comm with (m := inc), !Nat.add_sub.
  set (re := reg_op (rplus rnd) (reg_op (rminus rnd) _ _) _). set (im := reg_op (rplus rnd) (reg_op (rplus rnd) _ _) _). cbv zeta.
  assert (Z : aligned n zim ore) by (right; auto).
  assert (Lre : length re = inc). { unfold re, reg_op. rewrite !zip_with_length, !tab_length. lia. }
  assert (Lim : length im = inc). { unfold im, reg_op. rewrite !zip_with_length, !tab_length. lia. }
  assert (Vre : forall i, i < inc -> nth i re 0%R = rfma_re (k + i)).
  { intros i Hi. unfold re, reg_op.
    rewrite !(nth_zip_with _ _ _ _ _ _ _ 0%R 0%R) by (rewrite ?zip_with_length, ?tab_length; lia).
    rewrite !nth_tab by auto. rewrite <- !Nat.add_assoc, !(rfma_read k m) by (auto; lia). auto. }
  assert (Vim : forall i, i < inc -> nth i im 0%R = rfma_im (k + i)).
  { intros i Hi. unfold im, reg_op.
    rewrite !(nth_zip_with _ _ _ _ _ _ _ 0%R 0%R) by (rewrite ?zip_with_length, ?tab_length; lia).
    rewrite !nth_tab by auto. rewrite <- !Nat.add_assoc, !(rfma_read k m) by (auto; lia). auto. }
  destruct (splice_spec _ 0%R m re (ore + k)) as [m1 [E1 [L1 V1]]]. { lia. }
  rewrite E1. cbn [bind].
  destruct (splice_spec _ 0%R m1 im (oim + k)) as [m2 [E2 [L2 V2]]]. { lia. }
  exists m2. split; auto. split; [lia|]. split.
  - intros i Hi. split.
    + rewrite V2, Lim.
      assert (NB : (oim + k <=? ore + i) && (ore + i <? oim + k + inc) = false).
      { apply andb_false_iff. rewrite Nat.leb_gt, Nat.ltb_ge.
        destruct (Nat.lt_ge_cases (ore + i) (oim + k)); auto. destruct (Nat.le_gt_cases (oim + k + inc) (ore + i)); auto.
        exfalso. apply (Hout i (ore + i - oim)); lia. }
      rewrite NB, V1, Lre.
      destruct (Nat.leb_spec (ore + k) (ore + i)); cbn [andb].
      * destruct (Nat.ltb_spec (ore + i) (ore + k + inc)); [|lia].
        rewrite Vre by lia. f_equal. lia.
      * apply V. lia.
    + rewrite V2, Lim. destruct (Nat.leb_spec (oim + k) (oim + i)); cbn [andb].
      * destruct (Nat.ltb_spec (oim + i) (oim + k + inc)); [|lia]. rewrite Vim by lia. f_equal. lia.
      * rewrite V1, Lre.
        assert (NB : (ore + k <=? oim + i) && (oim + i <? ore + k + inc) = false).
        { apply andb_false_iff. rewrite Nat.leb_gt, Nat.ltb_ge.
          destruct (Nat.lt_ge_cases (oim + i) (ore + k)); auto. destruct (Nat.le_gt_cases (ore + k + inc) (oim + i)); auto.
          exfalso. apply (Hout (oim + i - ore) i); lia. }
        rewrite NB. apply V. lia.
  - intros l Hl. rewrite V2, Lim.
    assert (N1 : (oim + k <=? l) && (l <? oim + k + inc) = false).
    { apply andb_false_iff. rewrite Nat.leb_gt, Nat.ltb_ge.
      destruct (Nat.lt_ge_cases l (oim + k)); auto. destruct (Nat.le_gt_cases (oim + k + inc) l); auto.
      exfalso. destruct (Hl (l - oim) ltac:(lia)). lia. }
    rewrite N1, V1, Lre.
    assert (N2 : (ore + k <=? l) && (l <? ore + k + inc) = false).
    { apply andb_false_iff. rewrite Nat.leb_gt, Nat.ltb_ge.
      destruct (Nat.lt_ge_cases l (ore + k)); auto. destruct (Nat.le_gt_cases (ore + k + inc) l); auto.
      exfalso. destruct (Hl (l - ore) ltac:(lia)). lia. }
    rewrite N2. apply Fr. intros. apply Hl. lia.
Qed.

Lemma rsimd_multiply_add_ok : forall inc, 0 < inc ->
  exists m', rsimd_multiply_add rnd inc xre xim yre yim zre zim ore oim n mem = Ok m' /\ rfma_upto n m'.
Proof.
  intros inc Hinc. unfold rsimd_multiply_add.
  assert (D := Nat.div_mod n inc ltac:(lia)).
  assert (EV : n - n mod inc = 0 + n / inc * inc) by lia.
  destruct (for_step_inv _ (fun j m => rfma_upto (j * inc) m) (n / inc) 0 (n - n mod inc) inc
    (fun i mem =>
    a <- slice mem (xre + i) (xre + i + inc) ;; b <- slice mem (xim + i) (xim + i + inc) ;;
    c <- slice mem (yre + i) (yre + i + inc) ;; d <- slice mem (yim + i) (yim + i + inc) ;;
    e <- slice mem (zre + i) (zre + i + inc) ;; f <- slice mem (zim + i) (zim + i + inc) ;;
    let out_re := reg_op (rplus rnd) (reg_op (rminus rnd) (reg_op (rtimes rnd) a c) (reg_op (rtimes rnd) b d)) e in
    let out_im := reg_op (rplus rnd) (reg_op (rplus rnd) (reg_op (rtimes rnd) a d) (reg_op (rtimes rnd) b c)) f in
    mem <- splice mem (ore + i) out_re ;;
    splice mem (oim + i) out_im) mem) as [m [E H]]; auto.
  - apply rfma_upto_0.
  - intros j s Hj Hs. simpl plus. replace (S j * inc) with (j * inc + inc) by lia. apply rfma_vector_step; auto.
    assert (S j * inc <= n / inc * inc) by (apply Nat.mul_le_mono_r; lia). lia.
  - cbv zeta. cbv zeta in E. rewrite E. cbn [bind]. apply rfma_scalar_loop. lia. rewrite EV. auto.
Qed.

Lemma rfma_upto_fma : forall m, rfma_upto n m -> rfma_done rnd xre xim yre yim zre zim ore oim n mem m.
Proof.
  intros m [L [V Fr]]. split; auto. intros i Hi. destruct (V i Hi) as [V1 V2].
  unfold at_split. rewrite V1, V2. reflexivity.
Qed.
End SplitFma.

Lemma rsplit_fma : forall rnd xre xim yre yim zre zim ore oim n mem,
  fma_layout xre xim yre yim zre zim ore oim n (length mem) ->
  exists mem', rsplit_multiply_add rnd xre xim yre yim zre zim ore oim n mem = Ok mem' /\
    rfma_done rnd xre xim yre yim zre zim ore oim n mem mem'.
Proof.
  intros rnd xre xim yre yim zre zim ore oim n mem [B [H1 [H2 [A B']]]].
  destruct (rsplit_multiply_add_ok rnd xre xim yre yim zre zim ore oim n mem) as [m [E F]];
    try (apply B; simpl; tauto); try (apply A; simpl; tauto); try (apply B'; simpl; tauto); auto.
  exists m. split; auto. apply rfma_upto_fma. auto.
Qed.

Lemma rsimd_fma : forall rnd inc xre xim yre yim zre zim ore oim n mem, 0 < inc ->
  fma_layout xre xim yre yim zre zim ore oim n (length mem) ->
  exists mem', rsimd_multiply_add rnd inc xre xim yre yim zre zim ore oim n mem = Ok mem' /\
    rfma_done rnd xre xim yre yim zre zim ore oim n mem mem'.
Proof.
  intros rnd inc xre xim yre yim zre zim ore oim n mem Hinc [B [H1 [H2 [A B']]]].
  destruct (rsimd_multiply_add_ok rnd xre xim yre yim zre zim ore oim n mem) with (inc := inc) as [m [E F]];
    try (apply B; simpl; tauto); try (apply A; simpl; tauto); try (apply B'; simpl; tauto); auto.
  exists m. split; auto. apply rfma_upto_fma. auto.
Qed.

Lemma rsplit_mac_ok : forall rnd lanes n (x y z : list R * list R), (forall l, lanes = Some l -> 0 < l) ->
  length (fst x) = n -> length (snd x) = n -> length (fst y) = n -> length (snd y) = n -> length (fst z) = n -> length (snd z) = n ->
  exists re im, rsplit_mac_rows rnd lanes x y z = Ok (re, im) /\ length re = n /\ length im = n /\
    combine re im = tab n (fun k => radd rnd (rmul rnd (nth k (combine (fst x) (snd x)) C0) (nth k (combine (fst y) (snd y)) C0)) (nth k (combine (fst z) (snd z)) C0)).
Proof.
  intros rnd lanes n [x0 x1] [y0 y1] [z0 z1] HL. cbn [fst snd]. intros A0 A1 B0 B1 D0 D1.
  unfold rsplit_mac_rows. cbn [fst snd]. rewrite A0, A1, B0, B1, D0, D1, !Nat.eqb_refl. cbn [andb guard bind].
  set (mem := x0 ++ x1 ++ y0 ++ y1 ++ z0 ++ z1).
  assert (LM : length mem = 6 * n) by (unfold mem; rewrite !app_length; lia).
  assert (Lay : fma_layout 0 n (2 * n) (3 * n) (4 * n) (5 * n) (4 * n) (5 * n) n (length mem)).
  { rewrite LM. apply layout_in_place. }
  assert (EX : exists m', (match lanes with
         | None => rsplit_multiply_add rnd 0 n (2 * n) (3 * n) (4 * n) (5 * n) (4 * n) (5 * n) n mem
         | Some inc => rsimd_multiply_add rnd inc 0 n (2 * n) (3 * n) (4 * n) (5 * n) (4 * n) (5 * n) n mem
         end) = Ok m' /\ rfma_done rnd 0 n (2 * n) (3 * n) (4 * n) (5 * n) (4 * n) (5 * n) n mem m').
  { destruct lanes as [inc|]; [apply rsimd_fma; auto | apply rsplit_fma; auto]. }
  destruct EX as (m' & -> & LM' & Hv). cbn [bind].
  rewrite (slice_spec _ 0%R) by lia. cbn [bind]. rewrite (slice_spec _ 0%R) by lia. cbn [bind].
  replace (5 * n - 4 * n) with n by lia. replace (6 * n - 5 * n) with n by lia.
  do 2 eexists. split; [reflexivity|]. rewrite !tab_length. split; [reflexivity|]. split; [reflexivity|].
  apply (list_eq_tab _ C0).
  { pose proof (combine_length (tab n (fun i => nth (4 * n + i) m' 0%R)) (tab n (fun i => nth (5 * n + i) m' 0%R))) as CL.
    rewrite !tab_length in CL. unfold C in *. lia. }
  intros i Hi. rewrite !nth_combine by (rewrite ?tab_length; lia). rewrite !nth_tab by auto.
  specialize (Hv i Hi). unfold at_split in Hv. rewrite Hv.
  destruct (nth6 n x0 x1 y0 y1 z0 z1 i A0 A1 B0 B1 D0 D1 Hi) as (E0 & E1 & E2 & E3 & E4 & E5). fold mem in E0, E1, E2, E3, E4, E5.
  rewrite E0, E1, E2, E3, E4, E5. reflexivity.
Qed.

Lemma rsplit_filter_impl : forall rnd lanes P M mat f0, matrix_of P M mat -> (forall l, lanes = Some l -> 0 < l) ->
  exists f, flt_filter (rdense_split_filter rnd lanes) f0 P M mat tt = Ok f /\
    inhabited (rflt_impl rnd (rdense_split_filter rnd lanes) (rv (split_fdl_impl P M)) P M f (cell mat)).
Proof.
  intros rnd lanes P M mat f0 Hm HL. change (flt_filter (rdense_split_filter rnd lanes) f0 P M mat tt) with (flt_filter (dense_split_filter lanes) f0 P M mat tt). rewrite split_filter_ok by auto. eexists; split; [reflexivity|]. constructor.
  refine (RFltImpl rnd _ (rdense_split_filter rnd lanes) _ P M _ (cell mat) (fun a => combine (fst a) (snd a))
    (fun a => length (fst a) = M /\ length (snd a) = M) _ _ _ _); cbn.
  - rewrite !repeat_length. auto.
  - intros [a b] [Ha Hb]. cbn [fst snd] in *. rewrite !fill_ok, Ha, Hb. cbn [bind]. eexists; split; [reflexivity|].
    cbn [fst snd]. rewrite !repeat_length. split; auto. apply combine_repeat.
  - intros [a b] [re im] X i [Ha Hb] (R1 & R2 & R3) HX Hi. cbn [fst snd] in *. unfold rsplit_filter_mac. cbn [fst snd].
    rewrite !(rd_ok _ _ i []) by (rewrite tab_length; auto). cbn [bind]. rewrite !nth_tab by auto.
    destruct (rsplit_mac_ok rnd lanes M (re, im) (tab M (fun j => fst (cell mat i j)), tab M (fun j => snd (cell mat i j))) (a, b))
      as (re' & im' & E & L1 & L2 & V); cbn [fst snd]; rewrite ?tab_length; try lia; auto.
    rewrite E. eexists; split; [reflexivity|]. cbn [fst snd] in *. split; auto. rewrite V. apply tab_ext. intros k Hk.
    rewrite R3. rewrite (nth_combine (tab _ _)) by (rewrite !tab_length; auto). rewrite !nth_tab by auto.
    rewrite <- surjective_pairing. reflexivity.
  - intros [a b] out [Ha Hb] Ho. cbn [fst snd] in *. unfold split_acc_copy. cbn [fst snd].
    pose proof (combine_length a b) as CL. split; [|unfold C in *; lia].
    rewrite (for_range_tab _ C0 (length out) _ out (fun i => (nth i a 0%R, nth i b 0%R))); auto.
    + f_equal. symmetry. apply (list_eq_tab _ C0). { unfold C in *; lia. } intros. apply nth_combine. lia.
    + intros j l Hj Hl _. rewrite (rd_ok _ a j 0%R), (rd_ok _ b j 0%R) by lia. cbn [bind]. rewrite wr_ok by (eapply Nat.lt_le_trans; [exact Hj|]; apply Nat.eq_le_incl; symmetry; exact Hl). reflexivity.
Qed.

Lemma rgeneric_filter_and_run : forall rnd fcos fsin fdl flt (c : upc (rols rnd fcos fsin) fdl flt) arg k P mat all (FI : fdl_impl fdl P (2 ^ k + 1)) f F
  (AI : rflt_impl rnd flt (rv FI) P (2 ^ k + 1) f F), 0 < k < max_order -> 0 < P -> blocks_of (2 ^ k) all ->
  flt_filter flt (u_filter c) P (2 ^ k + 1) mat arg = Ok f ->
  filter_and_run c P (2 ^ k + 1) mat arg all = Ok (tab (length all) (fun t => tab (2 ^ k) (rupols_out rnd fcos fsin k P F all t))).
Proof.
  intros rnd fcos fsin fdl flt c arg k P mat all FI f F AI Hk HP Hall Ef. unfold filter_and_run, upc_filter.
  destruct (Nat.ltb_spec 0 (2 ^ k + 1)); [|lia]. cbn [guard bind]. replace (2 ^ k + 1 - 1) with (2 ^ k) by lia.
  destruct (rupols_run rnd fcos fsin fdl flt k P Hk HP FI f F AI all Hall) as (o & Eo & c' & Ec).
  cbn [rols ov_make] in *. rewrite Eo. cbn [bind]. rewrite Ef. cbn [bind]. rewrite Ec. reflexivity.
Qed.

Lemma rsplit_filter_and_run : forall rnd fcos fsin lanes (c : rsplit_upols_convolver rnd fcos fsin lanes) k P mat all, (forall l, lanes = Some l -> 0 < l) ->
  0 < k < max_order -> 0 < P -> matrix_of P (2 ^ k + 1) mat -> blocks_of (2 ^ k) all ->
  filter_and_run c P (2 ^ k + 1) mat tt all = Ok (tab (length all) (fun t => tab (2 ^ k) (rupols_out rnd fcos fsin k P (cell mat) all t))).
Proof.
  intros rnd fcos fsin lanes c k P mat all HL Hk HP Hm Hall.
  destruct (rsplit_filter_impl rnd lanes P (2 ^ k + 1) mat (u_filter c) Hm HL) as (f & Ef & [AI]).
  apply (rgeneric_filter_and_run rnd fcos fsin dense_split_fdl (rdense_split_filter rnd lanes) c tt k P mat all (split_fdl_impl P _) f (cell mat) AI); auto.
Qed.

Lemma rsplit_identical : forall rnd fcos fsin lanes k h all, (forall l, lanes = Some l -> 0 < l) -> 0 < k < max_order -> 0 < length h ->
  (Z.of_nat (length h) < 2 ^ 64)%Z -> (Z.of_nat (ceil_div (length h) (2 ^ k)) * Z.of_nat (2 ^ k + 1) < max_elements)%Z -> blocks_of (2 ^ k) all ->
  (forall v, v = 0%R \/ In v h -> rnd v = v) ->
  exists ys, rpartitioned rnd fcos fsin (2 ^ k) h all = Ok ys /\ rpartitioned_split rnd fcos fsin lanes (2 ^ k) h all = Ok ys.
Proof.
  intros rnd fcos fsin lanes k h all HL Hk Hh H64 Hmax Hall HR. unfold rpartitioned, rpartitioned_split.
  assert (B0 : 0 < 2 ^ k) by (apply Nat.neq_0_lt_0, Nat.pow_nonzero; lia).
  set (P := ceil_div (length h) (2 ^ k)) in *. assert (HP : 0 < P) by (unfold P; rewrite ceil_div_pos by auto; lia).
  rewrite (runiform_partition_ok rnd fcos fsin (length h) h k) by auto. fold P.
  set (mat := tab P (fun f => RF rnd fcos fsin (S k) (pad (2 * 2 ^ k) (part (2 ^ k) h f)))).
  assert (EKK : 2 ^ S k = 2 * 2 ^ k) by apply Nat.pow_succ_r'.
  assert (Hmat : matrix_of P (2 ^ k + 1) mat).
  { split; [apply tab_length|]. intros r Hr. unfold mat, tab in Hr. apply in_map_iff in Hr. destruct Hr as (f & <- & _). rewrite RF_length, EKK, half_of_double. reflexivity. }
  cbn [bind rd nth_error]. rewrite (rd_ok _ mat 0 []) by (destruct Hmat as [-> _]; exact HP). cbn [bind].
  assert (M1 : exists c, make_upc (rols rnd fcos fsin) dense_fdl (rdense_filter rnd) = Ok c).
  { unfold make_upc. cbn [rols ov_make]. unfold rmake_overlap_save. cbn. eexists. reflexivity. }
  assert (M2 : exists c, make_upc (rols rnd fcos fsin) dense_split_fdl (rdense_split_filter rnd lanes) = Ok c).
  { unfold make_upc. cbn [rols ov_make]. unfold rmake_overlap_save. cbn. eexists. reflexivity. }
  destruct M1 as (c1 & E1), M2 as (c2 & E2). rewrite E1, E2. cbn [bind]. rewrite (matrix_row _ _ _ _ 0 Hmat HP). rewrite (proj1 Hmat).
  rewrite rupols_filter_and_run, rsplit_filter_and_run by auto. eauto.
Qed.
