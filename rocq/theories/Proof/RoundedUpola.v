(** Partitioned overlap-add convolver in rounded arithmetic: what the calls compute. *)
From Coq Require Import Reals List Arith Lia Lra Bool ZArith.
From Verif Require Import Base.Outcome Base.OutcomeFacts Base.Sums Base.Cplx Base.Alias Spec.Dft Spec.Transforms
  Spec.Convolution Spec.Convolvers Spec.Stft Spec.RoundedConvolvers Model.Fft2 Model.Integers Model.Algorithm Model.FftApps Model.Convolution Model.Stft Model.RoundedFft Model.RoundedConv
  Proof.DftTheory Proof.Fft2Proof Proof.IntegersProof Proof.AlgorithmProof Proof.RfftProof Proof.ConvTheory
  Proof.FftConvProof Proof.OverlapProof Proof.StreamProof Proof.LtiProof Proof.UpcProof Proof.UpcInstances Proof.StftProof
  Proof.RoundedRfft Proof.RoundedMac Proof.RoundedFftConv Proof.RoundedUpols Proof.RoundedStft Proof.RoundedSplit.
Import ListNotations.
Local Arguments Nat.div : simpl never.
Local Arguments Nat.modulo : simpl never.
Local Arguments Nat.pow : simpl never.

Section Structure.
Variables rnd fcos fsin : R -> R.
Notation RF := (RF rnd fcos fsin). Notation RB := (RB rnd fcos fsin). Notation rrf_inv := (rrf_inv rnd fcos fsin).
Notation rsynth := (rsynth rnd fcos fsin).

(** ** One call *)
Record roa_inv (B F : nat) (w ov : list R) (o : overlap_add) : Prop := ROaInv {
  roai_block : oa_block o = B;
  roai_filter : oa_filter o = F;
  roai_plan : rrf_inv (Nat.log2_up (B + F - 1)) (oa_plan o);
  roai_window : oa_window o = w;
  roai_wlen : length w = 2 ^ Nat.log2_up (B + F - 1);
  roai_spec : length (oa_spectrum o) = 2 ^ Nat.log2_up (B + F - 1) / 2 + 1;
  roai_overlap : oa_overlap o = ov;
  roai_olen : length ov = B }.

Lemma rmake_overlap_add_ok : forall B F, 2 <= B + F - 1 -> B + F - 1 <= 2 ^ max_order ->
  exists o, rmake_overlap_add rnd fcos fsin B F = Ok o /\ roa_inv B F (repeat 0%R (2 ^ Nat.log2_up (B + F - 1))) (repeat 0%R B) o.
Proof using.
  intros B F H1 H2. unfold rmake_overlap_add.
  replace (0 <? B + F) with true by (symmetry; apply Nat.ltb_lt; lia). cbn [guard bind].
  rewrite next_order_ok by (apply Z_fits; exact H2). cbn [bind].
  destruct (rmake_rfft_ok rnd fcos fsin (Nat.log2_up (B + F - 1))) as (pl & E & I).
  { split. apply log2_up_pos'; lia. apply log2_up_max. exact H2. }
  rewrite E. cbn [bind]. eexists; split; [reflexivity|]. constructor; cbn; rewrite ?repeat_length; auto.
Qed.

Lemma roverlap_add_run_ok : forall St B F w ov o block (cb : list C -> St -> outcome (list C * St)) st Y st',
  2 <= B + F - 1 -> B * 2 <= 2 ^ Nat.log2_up (B + F - 1) -> roa_inv B F w ov o -> length block = B ->
  cb (RF (Nat.log2_up (B + F - 1)) (oa_next B w block)) st = Ok (Y, st') ->
  length Y = 2 ^ Nat.log2_up (B + F - 1) / 2 + 1 ->
  exists o', roverlap_add_run rnd o block cb st =
     Ok (o', tab B (fun i => rnd (rsynth (Nat.log2_up (B + F - 1)) Y i + nth i ov 0))%R, st') /\
     roa_inv B F (tab (length w) (rsynth (Nat.log2_up (B + F - 1)) Y)) (tab B (fun i => rsynth (Nat.log2_up (B + F - 1)) Y (B + i))) o'.
Proof using.
  intros St B F w ov o block cb st Y st' H2 HBK [Ib Ifl Ip Iw Lw Is Io Lo] Hblk Hcb HY.
  set (order := Nat.log2_up (B + F - 1)) in *.
  assert (Hpos : 0 < order) by (apply log2_up_pos'; lia).
  unfold roverlap_add_run. pose proof Ip as (Ro & Rf & Rb).
  rewrite Ro, Ib, Iw. rewrite (copy_into_ok _ 0%R) by lia. cbn [bind].
  rewrite (fill_into_ok _ 0%R) by (rewrite ?tab_length; lia). cbn [bind]. rewrite tab_length.
  match goal with |- context [rrfft_forward _ _ ?t _] => replace t with (oa_next B w block) end.
  2:{ unfold oa_next. apply tab_ext. intros j Hj. rewrite nth_tab by lia. cbn [Nat.leb andb]. rewrite Nat.sub_0_r. cbn [Nat.add].
      rewrite Hblk. destruct (Nat.ltb_spec j B), (Nat.leb_spec B j), (Nat.ltb_spec j (B * 2)); cbn [andb]; try lia; reflexivity. }
  assert (Ln : length (oa_next B w block) = 2 ^ order) by (unfold oa_next; rewrite tab_length; exact Lw).
  destruct (pow2_half order Hpos) as (m & Hm & HKm & Em).
  destruct (rrfft_forward_ok rnd fcos fsin order (oa_plan o) (oa_next B w block) (oa_spectrum o) Hpos Ip Ln) as (p1 & E1 & I1). { lia. }
  rewrite skipn_all2 in E1 by lia. rewrite app_nil_r in E1. rewrite E1. cbn [bind].
  rewrite Hcb. cbn [bind].
  destruct (rrfft_backward_ok rnd fcos fsin order p1 Y (oa_next B w block) Hpos I1) as (p2 & E2 & I2).
  { rewrite HY. rewrite HKm, half_of_double. lia. } { exact Ln. }
  rewrite E2. cbn [bind]. rewrite rscale_map. cbn [bind].
  assert (ES : map (fun v => rnd (v * rinv_size rnd (2 ^ order)))%R (RB order Y) = tab (length w) (rsynth order Y)).
  { apply (list_eq_tab _ 0%R). { rewrite map_length, RB_length, Lw. reflexivity. }
    intros i Hi. unfold RoundedFftConv.rsynth.
    rewrite (nth_indep _ 0%R (rnd (0 * rinv_size rnd (2 ^ order))%R)) by (rewrite map_length, RB_length; lia).
    rewrite (map_nth (fun v => rnd (v * rinv_size rnd (2 ^ order))%R)). reflexivity. }
  rewrite ES.
  rewrite (slice_spec _ 0%R) by (rewrite ?tab_length; lia). cbn [bind]. rewrite Nat.sub_0_r.
  unfold radd_r. rewrite linalg_binary_ok by (cbn [contents]; rewrite ?tab_length, ?Io; lia). cbn [bind contents].
  rewrite (slice_spec _ 0%R) by (rewrite ?tab_length; lia). cbn [bind].
  replace (B * 2 - B) with B by lia.
  rewrite copy_full by (rewrite tab_length, Io; lia). cbn [bind]. rewrite map_id.
  eexists; split.
  - f_equal. f_equal. f_equal.
    rewrite (zip_with_tab _ _ _ _ _ _ 0%R 0%R) by (rewrite tab_length, Io; lia). rewrite tab_length, Io.
    apply tab_ext. intros i Hi. rewrite !nth_tab by lia. reflexivity.
  - constructor; cbn [oa_block oa_filter oa_plan oa_window oa_spectrum oa_overlap]; rewrite ?tab_length; auto.
    apply tab_ext. intros i Hi. rewrite nth_tab by lia. reflexivity.
Qed.

(** ** A stream of blocks, twice the block filling the transform *)
Section Add.
Variable St : Type.
Variables B F : nat.
Hypothesis H2 : 2 <= B + F - 1.
Let order := Nat.log2_up (B + F - 1).
Let K := 2 ^ order.
Hypothesis HK : B * 2 = K.
Variable all : list (list R).
Hypothesis Hall : blocks_of B all.

Definition roa_hist (t : nat) : list (list C) := tab t (fun u => RF order (oa_win B F all u)).

Variable cb : list C -> St -> outcome (list C * St).
Variable Inv : list (list C) -> St -> Prop.
Variable Y : list (list C) -> list C.
Hypothesis Hcb : cb_spec (K / 2 + 1) Inv Y cb.

Definition roa_carry (t : nat) : list R := tab B (fun i => if t =? 0 then 0%R else rsynth order (Y (roa_hist t)) (B + i)).

Lemma roa_stream_ok : forall rest t o st w, skipn t all = rest -> roa_inv B F w (roa_carry t) o -> Inv (roa_hist t) st ->
  exists o' st', ov_stream (rola rnd fcos fsin) cb o st rest =
    Ok (o', tab (length rest) (fun u => tab B (fun i =>
      rnd (rsynth order (Y (roa_hist (S (t + u)))) i + (if (t + u) =? 0 then 0 else rsynth order (Y (roa_hist (t + u))) (B + i)))%R)), st').
Proof using All.
  induction rest as [|b rest IH]; intros t o st w Hs Io Is.
  - exists o, st. reflexivity.
  - destruct (skipn_cons_nth _ [] _ _ _ _ Hs) as (Ht & Hn & Hs').
    assert (Lb : length b = B). { apply Hall. rewrite <- Hn. now apply nth_In. }
    assert (Lw : length w = K) by (destruct Io; auto).
    assert (EW : oa_next B w b = oa_win B F all t).
    { unfold oa_next, oa_win, oa_blk. rewrite Lw. apply tab_ext. intros j Hj. fold order in Hj. fold K in Hj. destruct (Nat.ltb_spec j B).
      - rewrite <- Hn. symmetry. apply nth_concat_blocks; auto.
      - destruct (Nat.ltb_spec j (B * 2)); [auto|lia]. }
    assert (LX : length (RF order (oa_win B F all t)) = K / 2 + 1) by apply RF_length.
    destruct (Hcb (roa_hist t) (RF order (oa_win B F all t)) st Is LX) as (st1 & E1 & LY & I1).
    assert (EH : roa_hist t ++ [RF order (oa_win B F all t)] = roa_hist (S t)).
    { unfold roa_hist. rewrite tab_snoc. reflexivity. }
    rewrite EH in *.
    destruct (roverlap_add_run_ok St B F w (roa_carry t) o b cb st (Y (roa_hist (S t))) st1) as (o1 & E2 & I2); auto.
    { fold order. fold K. lia. }
    { rewrite EW. exact E1. }
    simpl ov_stream. rewrite E2. cbn [bind].
    destruct (IH (S t) o1 st1 (tab (length w) (rsynth order (Y (roa_hist (S t))))) Hs') as (o' & st' & E3).
    { unfold roa_carry. cbn [Nat.eqb]. exact I2. }
    { exact I1. }
    cbn [rola ov_obj ov_run ov_make] in *. rewrite E3. cbn [bind]. exists o', st'.
    f_equal. f_equal. f_equal. simpl length. rewrite tab_cons. f_equal.
    + rewrite Nat.add_0_r. apply tab_ext. intros i Hi. unfold roa_carry. rewrite nth_tab by auto. reflexivity.
    + apply tab_ext. intros u Hu. replace (t + S u) with (S t + u) by lia. reflexivity.
Qed.

Lemma roa_stream_all : forall o st, roa_inv B F (repeat 0%R K) (repeat 0%R B) o -> Inv [] st ->
  exists o' st', ov_stream (rola rnd fcos fsin) cb o st all =
    Ok (o', tab (length all) (fun t => tab B (fun i =>
      rnd (rsynth order (Y (roa_hist (S t))) i + (if t =? 0 then 0 else rsynth order (Y (roa_hist t)) (B + i)))%R)), st').
Proof using All.
  intros o st Io Is.
  destruct (roa_stream_ok all 0 o st (repeat 0%R K) eq_refl) as (o' & st' & E); eauto.
  replace (roa_carry 0) with (repeat 0%R B); auto. unfold roa_carry. cbn [Nat.eqb].
  apply (list_eq_tab _ 0%R). { apply repeat_length. } intros i Hi. apply nth_repeat.
Qed.
End Add.
End Structure.

(** ** The convolver *)
Section Convolver.
Variables rnd fcos fsin : R -> R.
Variable fdl : fdl_type.
Variable flt : filter_type (fdl_row fdl).
Variables k P : nat.
Hypothesis Hk : 0 < k < max_order.
Let B := 2 ^ k.
Hypothesis HP : 0 < P.
Variable FI : fdl_impl fdl P (B + 1).
Variable f : flt_obj flt.
Variable F : nat -> nat -> C.
Variable AI : rflt_impl rnd flt (rv FI) P (B + 1) f F.
Variable all : list (list R).
Hypothesis Hall : blocks_of B all.

Definition rupola_out (t i : nat) : R :=
  rnd (rsynth rnd fcos fsin (S k) (rmac_hist rnd P (B + 1) F (roa_hist rnd fcos fsin B B all (S t))) i +
    (if t =? 0 then 0 else rsynth rnd fcos fsin (S k) (rmac_hist rnd P (B + 1) F (roa_hist rnd fcos fsin B B all t)) (B + i)))%R.

Lemma rupola_run : exists o, rmake_overlap_add rnd fcos fsin B B = Ok o /\
  exists c, upc_stream (Upc (ov := rola rnd fcos fsin) (flt := flt) o (fdl_make fdl P (B + 1)) (make_fdl_index P) f (acc_make flt (B + 1))) all
    = Ok (c, tab (length all) (fun t => tab B (rupola_out t))).
Proof using All.
  assert (HB2 : 2 <= B) by (apply (B_ge2 k P); auto). assert (HBm : B + B - 1 <= 2 ^ max_order) by (apply (B_fits k P); auto).
  destruct (rmake_overlap_add_ok rnd fcos fsin B B ltac:(lia) HBm) as (o & Eo & Io). exists o. split; [exact Eo|].
  pose proof (K_is_2B k ltac:(lia)) as EK. fold B in EK. pose proof (log2_up_2B k ltac:(lia)) as EL. fold B in EL.
  assert (EM : 2 ^ Nat.log2_up (B + B - 1) / 2 + 1 = B + 1) by (rewrite EK, half_of_double; reflexivity).
  assert (CS : cb_spec (2 ^ Nat.log2_up (B + B - 1) / 2 + 1) (rcinv rnd fdl flt P (B + 1) FI f F AI)
    (rmac_hist rnd P (B + 1) F) (upc_callback f)) by (rewrite EM; apply rcallback_spec; exact HP).
  destruct (roa_stream_all rnd fcos fsin _ B B ltac:(lia) ltac:(rewrite EK; lia) all Hall _ _ _ CS o
    (fdl_make fdl P (B + 1), make_fdl_index P, acc_make flt (B + 1)) Io) as (o' & [[l i] a] & E).
  { apply rcinv_init. exact HP. }
  rewrite upc_stream_ov. cbn [u_filter u_overlap u_fdl u_indexer u_acc]. cbn [rola ov_obj ov_run ov_make] in *. rewrite E. cbn [bind]. eexists. f_equal. f_equal.
  apply tab_ext. intros t Ht. apply tab_ext. intros j Hj. unfold rupola_out. rewrite EL. reflexivity.
Qed.
End Convolver.

Lemma rgeneric_add_and_run : forall rnd fcos fsin fdl flt (c : upc (rola rnd fcos fsin) fdl flt) arg k P mat all (FI : fdl_impl fdl P (2 ^ k + 1)) f F
  (AI : rflt_impl rnd flt (rv FI) P (2 ^ k + 1) f F), 0 < k < max_order -> 0 < P -> blocks_of (2 ^ k) all ->
  flt_filter flt (u_filter c) P (2 ^ k + 1) mat arg = Ok f ->
  filter_and_run c P (2 ^ k + 1) mat arg all = Ok (tab (length all) (fun t => tab (2 ^ k) (rupola_out rnd fcos fsin k P F all t))).
Proof.
  intros rnd fcos fsin fdl flt c arg k P mat all FI f F AI Hk HP Hall Ef. unfold filter_and_run, upc_filter.
  destruct (Nat.ltb_spec 0 (2 ^ k + 1)); [|lia]. cbn [guard bind]. replace (2 ^ k + 1 - 1) with (2 ^ k) by lia.
  destruct (rupola_run rnd fcos fsin fdl flt k P Hk HP FI f F AI all Hall) as (o & Eo & c' & Ec).
  cbn [rola ov_make] in *. rewrite Eo. cbn [bind]. rewrite Ef. cbn [bind]. rewrite Ec. reflexivity.
Qed.

Lemma rupola_filter_and_run : forall rnd fcos fsin (c : rupola_convolver rnd fcos fsin) k P mat all, 0 < k < max_order -> 0 < P -> matrix_of P (2 ^ k + 1) mat -> blocks_of (2 ^ k) all ->
  filter_and_run c P (2 ^ k + 1) mat tt all = Ok (tab (length all) (fun t => tab (2 ^ k) (rupola_out rnd fcos fsin k P (cell mat) all t))).
Proof.
  intros rnd fcos fsin c k P mat all Hk HP Hm Hall.
  apply (rgeneric_add_and_run rnd fcos fsin dense_fdl (rdense_filter rnd) c tt k P mat all (dense_fdl_impl P _) mat (cell mat) (rdense_filter_impl rnd P _ mat Hm)); auto.
  change (flt_filter (rdense_filter rnd) (u_filter c) P (2 ^ k + 1) mat tt) with (flt_filter dense_filter (u_filter c) P (2 ^ k + 1) mat tt).
  apply dense_filter_ok. exact Hm.
Qed.

Lemma rsplit_add_and_run : forall rnd fcos fsin lanes (c : rsplit_upola_convolver rnd fcos fsin lanes) k P mat all, (forall l, lanes = Some l -> 0 < l) ->
  0 < k < max_order -> 0 < P -> matrix_of P (2 ^ k + 1) mat -> blocks_of (2 ^ k) all ->
  filter_and_run c P (2 ^ k + 1) mat tt all = Ok (tab (length all) (fun t => tab (2 ^ k) (rupola_out rnd fcos fsin k P (cell mat) all t))).
Proof.
  intros rnd fcos fsin lanes c k P mat all HL Hk HP Hm Hall.
  destruct (rsplit_filter_impl rnd lanes P (2 ^ k + 1) mat (u_filter c) Hm HL) as (f & Ef & [AI]).
  apply (rgeneric_add_and_run rnd fcos fsin dense_split_fdl (rdense_split_filter rnd lanes) c tt k P mat all (split_fdl_impl P _) f (cell mat) AI); auto.
Qed.

Lemma rsplit_add_identical : forall rnd fcos fsin lanes k h all, (forall l, lanes = Some l -> 0 < l) -> 0 < k < max_order -> 0 < length h ->
  (Z.of_nat (length h) < 2 ^ 64)%Z -> (Z.of_nat (ceil_div (length h) (2 ^ k)) * Z.of_nat (2 ^ k + 1) < max_elements)%Z -> blocks_of (2 ^ k) all ->
  (forall v, v = 0%R \/ In v h -> rnd v = v) ->
  exists ys, rpartitioned_add rnd fcos fsin (2 ^ k) h all = Ok ys /\ rpartitioned_add_split rnd fcos fsin lanes (2 ^ k) h all = Ok ys.
Proof.
  intros rnd fcos fsin lanes k h all HL Hk Hh H64 Hmax Hall HR. unfold rpartitioned_add, rpartitioned_add_split.
  assert (B0 : 0 < 2 ^ k) by (apply Nat.neq_0_lt_0, Nat.pow_nonzero; lia).
  set (P := ceil_div (length h) (2 ^ k)) in *. assert (HP : 0 < P) by (unfold P; rewrite ceil_div_pos by auto; lia).
  rewrite (runiform_partition_ok rnd fcos fsin (length h) h k) by auto. fold P.
  set (mat := tab P (fun f => RF rnd fcos fsin (S k) (pad (2 * 2 ^ k) (part (2 ^ k) h f)))).
  assert (EKK : 2 ^ S k = 2 * 2 ^ k) by apply Nat.pow_succ_r'.
  assert (Hmat : matrix_of P (2 ^ k + 1) mat).
  { split; [apply tab_length|]. intros r Hr. unfold mat, tab in Hr. apply in_map_iff in Hr. destruct Hr as (f & <- & _). rewrite RF_length, EKK, half_of_double. reflexivity. }
  cbn [bind rd nth_error]. rewrite (rd_ok _ mat 0 []) by (destruct Hmat as [-> _]; exact HP). cbn [bind].
  assert (M1 : exists c, make_upc (rola rnd fcos fsin) dense_fdl (rdense_filter rnd) = Ok c).
  { unfold make_upc. cbn [rola ov_make]. unfold rmake_overlap_add. cbn. eexists. reflexivity. }
  assert (M2 : exists c, make_upc (rola rnd fcos fsin) dense_split_fdl (rdense_split_filter rnd lanes) = Ok c).
  { unfold make_upc. cbn [rola ov_make]. unfold rmake_overlap_add. cbn. eexists. reflexivity. }
  destruct M1 as (c1 & E1), M2 as (c2 & E2). rewrite E1, E2. cbn [bind]. rewrite (matrix_row _ _ _ _ 0 Hmat HP). rewrite (proj1 Hmat).
  rewrite rupola_filter_and_run, rsplit_add_and_run by auto. eauto.
Qed.
