(** Partitioned convolver in rounded arithmetic: what the calls compute. *)
From Coq Require Import Reals List Arith Lia Lra Bool ZArith.
From Verif Require Import Base.Outcome Base.OutcomeFacts Base.Sums Base.Cplx Base.Alias Spec.Dft Spec.Transforms
  Spec.Convolution Spec.Convolvers Spec.Stft Model.Fft2 Model.Integers Model.Algorithm Model.FftApps Model.Convolution Model.Stft Model.RoundedFft Model.RoundedConv
  Proof.DftTheory Proof.Fft2Proof Proof.IntegersProof Proof.AlgorithmProof Proof.RfftProof Proof.ConvTheory
  Proof.FftConvProof Proof.OverlapProof Proof.StreamProof Proof.LtiProof Proof.UpcProof Proof.UpcInstances Proof.StftProof
  Proof.RoundedRfft Proof.RoundedMac Proof.RoundedFftConv.
Import ListNotations.
Local Arguments Nat.div : simpl never.
Local Arguments Nat.modulo : simpl never.
Local Arguments Nat.pow : simpl never.

Section Structure.
Variables rnd fcos fsin : R -> R.
Notation RF := (RF rnd fcos fsin). Notation RB := (RB rnd fcos fsin). Notation rrf_inv := (rrf_inv rnd fcos fsin).
Notation rsynth := (rsynth rnd fcos fsin).

(** ** One call *)
Record ros_inv (B F : nat) (w : list R) (o : overlap_save) : Prop := ROsInv {
  rosi_block : os_block o = B;
  rosi_filter : os_filter o = F;
  rosi_plan : rrf_inv (Nat.log2_up (B + F - 1)) (os_plan o);
  rosi_window : os_window o = w;
  rosi_wlen : length w = 2 ^ Nat.log2_up (B + F - 1);
  rosi_real : length (os_real o) = 2 ^ Nat.log2_up (B + F - 1);
  rosi_cplx : length (os_cplx o) = 2 ^ Nat.log2_up (B + F - 1) }.

Lemma rmake_overlap_save_ok : forall B F, 2 <= B + F - 1 -> B + F - 1 <= 2 ^ max_order ->
  exists o, rmake_overlap_save rnd fcos fsin B F = Ok o /\ ros_inv B F (repeat 0%R (2 ^ Nat.log2_up (B + F - 1))) o.
Proof using.
  intros B F H1 H2. unfold rmake_overlap_save.
  replace (0 <? B + F) with true by (symmetry; apply Nat.ltb_lt; lia). cbn [guard bind].
  rewrite next_order_ok by (apply Z_fits; exact H2). cbn [bind].
  destruct (rmake_rfft_ok rnd fcos fsin (Nat.log2_up (B + F - 1))) as (pl & E & I).
  { split. apply log2_up_pos'; lia. apply log2_up_max. exact H2. }
  rewrite E. cbn [bind]. eexists; split; [reflexivity|]. constructor; cbn; rewrite ?repeat_length; auto.
Qed.

Lemma roverlap_save_run_ok : forall St B F w o block (cb : list C -> St -> outcome (list C * St)) st Y st',
  0 < B -> 2 <= B + F - 1 -> B <= 2 ^ Nat.log2_up (B + F - 1) -> ros_inv B F w o -> length block = B ->
  cb (RF (Nat.log2_up (B + F - 1)) (os_next B w block)) st = Ok (Y, st') ->
  length Y = 2 ^ Nat.log2_up (B + F - 1) / 2 + 1 ->
  exists o', roverlap_save_run rnd o block cb st =
     Ok (o', tab B (fun i => rsynth (Nat.log2_up (B + F - 1)) Y (length w - B + i)), st') /\ ros_inv B F (os_next B w block) o'.
Proof using.
  intros St B F w o block cb st Y st' HB H2 HBK [Ib Ifl Ip Iw Lw Ir Ic] Hblk Hcb HY.
  set (order := Nat.log2_up (B + F - 1)) in *.
  assert (Hpos : 0 < order) by (apply log2_up_pos'; lia).
  unfold roverlap_save_run. pose proof Ip as (Ro & Rf & Rb).
  rewrite Ro, Ib. replace (B <=? 2 ^ order) with true by (symmetry; apply Nat.leb_le; lia). cbn [guard bind].
  rewrite Iw, slide_ok by auto. cbn [bind].
  assert (Ls : length (slid B w) = length w) by apply tab_length.
  rewrite (copy_into_ok _ 0%R) by lia. cbn [bind].
  match goal with |- context [rrfft_forward _ _ ?t _] => replace t with (os_next B w block) end.
  2:{ unfold os_next. rewrite Ls. apply tab_ext. intros j Hj. rewrite <- Lw.
      destruct (Nat.leb_spec (length w - B) j); cbn [andb]; [|reflexivity].
      destruct (Nat.ltb_spec j (length w - B + length block)); [reflexivity|lia]. }
  assert (Ln : length (os_next B w block) = 2 ^ order) by (unfold os_next; rewrite tab_length; exact Lw).
  destruct (pow2_half order Hpos) as (m & Hm & HKm & Em).
  destruct (rrfft_forward_ok rnd fcos fsin order (os_plan o) (os_next B w block) (os_cplx o) Hpos Ip Ln) as (p1 & E1 & I1).
  { rewrite Ic, HKm, half_of_double. lia. }
  rewrite E1. cbn [bind].
  set (X := RF order (os_next B w block)) in *.
  assert (LX : length X = 2 ^ order / 2 + 1) by (unfold X; apply RF_length).
  assert (Lbuf : length (X ++ skipn (2 ^ order / 2 + 1) (os_cplx o)) = 2 ^ order).
  { rewrite app_length, LX, skipn_length, Ic. rewrite HKm, half_of_double. lia. }
  rewrite (slice_ok _ _ 0) by (unfold C in *; rewrite ?Lbuf, ?HKm, ?half_of_double; lia). cbn [bind].
  match goal with |- context [cb ?c st] => replace c with X end.
  2:{ rewrite Nat.sub_0_r. cbn [skipn]. rewrite firstn_app, LX, Nat.sub_diag. cbn [firstn]. rewrite app_nil_r.
      symmetry. apply firstn_all2. lia. }
  rewrite Hcb. cbn [bind].
  destruct (splice_spec _ C0 (X ++ skipn (2 ^ order / 2 + 1) (os_cplx o)) Y 0) as (buf & Eb & Lb & Nb).
  { rewrite HY. unfold C in *. rewrite Lbuf, HKm, half_of_double. lia. }
  unfold C in *. rewrite Eb. cbn [bind].
  destruct (rrfft_backward_ok rnd fcos fsin order p1 buf (os_real o) Hpos I1) as (p2 & E2 & I2).
  { unfold C in *. rewrite Lb, Lbuf. rewrite HKm, half_of_double. lia. } { exact Ir. }
  unfold C in *. rewrite E2. cbn [bind]. rewrite rscale_map. cbn [bind].
  rewrite (slice_spec _ 0%R) by (rewrite ?map_length, ?RB_length; lia). cbn [bind].
  replace (2 ^ order - (2 ^ order - B)) with B by lia.
  rewrite copy_full by (rewrite tab_length; auto). cbn [bind]. rewrite map_id.
  assert (EB : RB order buf = RB order Y).
  { apply RB_ext; auto. intros k Hk. rewrite <- Em in Hk. rewrite Nb. cbn [Nat.leb andb Nat.add].
    destruct (Nat.ltb_spec k (length Y)) as [A|A]; [rewrite Nat.sub_0_r; reflexivity|].
    exfalso. unfold C in *. rewrite HY, HKm, half_of_double in A. lia. }
  eexists; split.
  - f_equal. f_equal. f_equal. apply tab_ext. intros i Hi. rewrite Lw, EB. unfold RoundedFftConv.rsynth.
    rewrite (nth_indep _ 0%R (rnd (0 * rinv_size rnd (2 ^ order))%R)) by (rewrite map_length, RB_length; lia).
    rewrite (map_nth (fun v => rnd (v * rinv_size rnd (2 ^ order))%R)). reflexivity.
  - constructor; cbn [os_block os_filter os_plan os_window os_real os_cplx]; auto.
    + now rewrite map_length, RB_length.
    + unfold C in *. rewrite Lb. exact Lbuf.
Qed.

(** ** A stream of blocks *)
Section Save.
Variable St : Type.
Variables B F : nat.
Hypothesis HB : 0 < B.
Hypothesis H2 : 2 <= B + F - 1.
Let order := Nat.log2_up (B + F - 1).
Let K := 2 ^ order.
Variable q : nat.
Hypothesis HK : K = q * B.
Hypothesis Hq : 0 < q.
Variable all : list (list R).
Hypothesis Hall : blocks_of B all.

Definition ros_hist (t : nat) : list (list C) := tab t (fun u => RF order (os_win B F all (S u))).

Variable cb : list C -> St -> outcome (list C * St).
Variable Inv : list (list C) -> St -> Prop.
Variable Y : list (list C) -> list C.
Hypothesis Hcb : cb_spec (K / 2 + 1) Inv Y cb.

Lemma ros_stream_ok : forall rest t o st, skipn t all = rest -> ros_inv B F (os_win B F all t) o -> Inv (ros_hist t) st ->
  exists o' st', ov_stream (rols rnd fcos fsin) cb o st rest =
    Ok (o', tab (length rest) (fun u => tab B (fun i => rsynth order (Y (ros_hist (S (t + u)))) (K - B + i))), st') /\
    ros_inv B F (os_win B F all (t + length rest)) o' /\ Inv (ros_hist (t + length rest)) st'.
Proof using All.
  induction rest as [|b rest IH]; intros t o st Hs Io Is.
  - exists o, st. simpl. rewrite Nat.add_0_r. auto.
  - destruct (skipn_cons_nth _ [] _ _ _ _ Hs) as (Ht & Hn & Hs').
    assert (Lb : length b = B). { apply Hall. rewrite <- Hn. now apply nth_In. }
    assert (HBK : B <= K) by (rewrite HK; destruct q; simpl in *; lia).
    assert (LX : length (RF order (os_win B F all (S t))) = K / 2 + 1) by apply RF_length.
    destruct (Hcb (ros_hist t) (RF order (os_win B F all (S t))) st Is LX) as (st1 & E1 & LY & I1).
    assert (EH : ros_hist t ++ [RF order (os_win B F all (S t))] = ros_hist (S t)).
    { unfold ros_hist. rewrite tab_snoc. reflexivity. }
    rewrite EH in *.
    assert (NW : os_next B (os_win B F all t) (nth t all []) = os_win B F all (S t)) by (apply (os_next_win B F HB H2 q HK Hq all Hall); auto).
    destruct (roverlap_save_run_ok St B F (os_win B F all t) o b cb st (Y (ros_hist (S t))) st1) as (o1 & E2 & I2); auto.
    { rewrite <- Hn, NW. exact E1. }
    simpl ov_stream. rewrite E2. cbn [bind].
    destruct (IH (S t) o1 st1 Hs') as (o' & st' & E3 & I3 & J3); auto.
    { rewrite <- Hn, NW in I2. exact I2. }
    cbn [rols ov_obj ov_run ov_make] in *. rewrite E3. cbn [bind]. exists o', st'. split; [|split].
    + f_equal. f_equal. f_equal. simpl length. rewrite tab_cons. f_equal.
      * assert (L : length (os_win B F all t) = K) by apply tab_length. rewrite L, Nat.add_0_r. reflexivity.
      * apply tab_ext. intros u Hu. replace (t + S u) with (S t + u) by lia. reflexivity.
    + simpl length. replace (t + S (length rest)) with (S t + length rest) by lia. exact I3.
    + simpl length. replace (t + S (length rest)) with (S t + length rest) by lia. exact J3.
Qed.

Lemma ros_stream_all : forall o st, ros_inv B F (repeat 0%R K) o -> Inv [] st ->
  exists o' st', ov_stream (rols rnd fcos fsin) cb o st all =
    Ok (o', tab (length all) (fun t => tab B (fun i => rsynth order (Y (ros_hist (S t))) (K - B + i))), st').
Proof using All.
  intros o st Io Is. assert (W0 : os_win B F all 0 = repeat 0%R K) by (apply (os_win_0 B F HB H2 q HK Hq)). rewrite <- W0 in Io.
  destruct (ros_stream_ok all 0 o st eq_refl Io Is) as (o' & st' & E & _). eauto.
Qed.
End Save.
End Structure.

(** ** The callback: multiply-accumulate over the delay line, in the order of the rows. *)
Record rflt_impl (rnd : R -> R) {Row} (flt : filter_type Row) (rv : Row -> list C -> Prop) (P M : nat) (f : flt_obj flt) (F : nat -> nat -> C) := RFltImpl {
  rav : flt_acc flt -> list C;
  rawf : flt_acc flt -> Prop;
  raimp_make : rawf (acc_make flt M);
  raimp_fill : forall a, rawf a -> exists a', acc_fill flt a = Ok a' /\ rawf a' /\ rav a' = repeat C0 M;
  raimp_mac : forall a r X i, rawf a -> rv r X -> length X = M -> i < P ->
    exists a', flt_mac flt f r i a = Ok a' /\ rawf a' /\ rav a' = tab M (fun k => radd rnd (rmul rnd (nth k X C0) (F i k)) (nth k (rav a) C0));
  raimp_copy : forall a out, rawf a -> length out = M -> acc_copy flt a out = Ok (rav a) /\ length (rav a) = M }.
Arguments rav {rnd Row flt rv P M f F}. Arguments rawf {rnd Row flt rv P M f F}.

Section Callback.
Variable rnd : R -> R.
Variable fdl : fdl_type.
Variable flt : filter_type (fdl_row fdl).
Variables P M : nat.
Hypothesis HP : 0 < P.
Variable FI : fdl_impl fdl P M.
Variable f : flt_obj flt.
Variable F : nat -> nat -> C.
Variable AI : rflt_impl rnd flt (rv FI) P M f F.

(** Row r of the delay line meets the partition of its age. *)
Definition rmac_hist (hist : list (list C)) : list C :=
  tab M (fun k => macc rnd P (fun r => nth k (aged M hist (age_of P (length hist - 1) r)) C0) (fun r => F (age_of P (length hist - 1) r) k)).

Definition rcinv (hist : list (list C)) (st : fdl_obj fdl * fdl_index * flt_acc flt) : Prop :=
  let '(line, idx, acc) := st in
  fwf FI line /\ idx = FdlIndex P (length hist mod P) /\ rawf AI acc /\
  (forall X, In X hist -> length X = M) /\
  (forall a, a < P -> fv FI line (row_of P (length hist) (S a)) = aged M hist a).

Lemma rcallback_spec : cb_spec M rcinv rmac_hist (upc_callback f).
Proof using All.
  intros hist X [[line idx] acc] (Wf & Ei & Wa & Hh & Hr) HX.
  set (t := length hist) in *.
  unfold upc_callback. destruct (raimp_fill _ _ _ _ _ _ _ AI acc Wa) as (acc0 & E0 & W0 & V0). rewrite E0. cbn [bind].
  subst idx. unfold fdl_index_run. cbn [fi_pos fi_num fst snd].
  pose proof (Nat.mod_upper_bound t P ltac:(lia)) as Hw.
  destruct (fimp_insert _ _ _ FI line X (t mod P) Wf HX Hw) as (line1 & E1 & W1 & V1). rewrite E1. cbn [bind].
  assert (Hh' : forall Z, In Z (hist ++ [X]) -> length Z = M).
  { intros Z HZ. apply in_app_or in HZ. destruct HZ as [HZ|[<-|[]]]; auto. }
  assert (Lh : length (hist ++ [X]) = S t) by (rewrite app_length; simpl; lia).
  assert (HV : forall a, a < P -> fv FI line1 (row_of P t a) = aged M (hist ++ [X]) a).
  { intros a Ha. rewrite V1 by (apply row_of_lt; lia). rewrite <- (row_of_0 P t) by lia.
    unfold aged. rewrite Lh. destruct (Nat.eqb_spec (row_of P t a) (row_of P t 0)) as [E|E].
    - apply row_of_inj in E; try lia. subst a. replace (S t - 1 - 0) with t by lia.
      destruct (Nat.ltb_spec 0 (S t)); [|lia]. rewrite app_nth2 by (unfold t; lia). unfold t. rewrite Nat.sub_diag. reflexivity.
    - assert (a <> 0) by (intros ->; auto). destruct a; [lia|]. rewrite Hr by lia. unfold aged. fold t.
      destruct (Nat.ltb_spec a t), (Nat.ltb_spec (S a) (S t)); try lia.
      + replace (S t - 1 - S a) with (t - 1 - a) by lia. rewrite app_nth1 by (fold t; lia). reflexivity.
      + reflexivity. }
  assert (HVr : forall r, r < P -> fv FI line1 r = aged M (hist ++ [X]) (age_of P t r)).
  { intros r Hr'. rewrite <- (row_of_age P t r) at 1 by lia. apply HV. apply age_of_lt. lia. }
  match goal with |- context [for_range 0 P ?body ?s0] =>
    destruct (for_range_inv _ (fun r (s : fdl_obj fdl * flt_acc flt) => fst s = line1 /\ rawf AI (snd s) /\
       rav AI (snd s) = tab M (fun k => macc rnd r (fun r => nth k (aged M (hist ++ [X]) (age_of P t r)) C0) (fun r => F (age_of P t r) k)))
       0 P body s0) as ([line2 acc2] & E2 & L2 & W2 & V2) end.
  - lia.
  - cbn [fst snd]. split; [reflexivity|]. split; [exact W0|]. rewrite V0. apply (list_eq_tab _ C0). { apply repeat_length. }
    intros k Hk. rewrite nth_repeat. reflexivity.
  - intros r [l a] Hr' (-> & Wl & Vl). cbn [fst snd] in *.
    destruct (fimp_at _ _ _ FI line1 r W1 ltac:(lia)) as (row & Er & Rr). rewrite Er. cbn [bind].
    fold (age_of P t r).
    destruct (raimp_mac _ _ _ _ _ _ _ AI a row (fv FI line1 r) (age_of P t r) Wl Rr) as (a' & Ea & Wa' & Va').
    { rewrite HVr by lia. apply (aged_length P); [exact HP|exact Hh']. } { apply age_of_lt. lia. }
    rewrite Ea. cbn [bind]. eexists; split; [reflexivity|]. cbn [fst snd]. split; [reflexivity|]. split; [exact Wa'|].
    rewrite Va'. apply tab_ext. intros k Hk. rewrite Vl, nth_tab by auto. rewrite HVr by lia. reflexivity.
  - rewrite E2. cbn [bind]. cbn [fst snd] in *. subst line2.
    destruct (raimp_copy _ _ _ _ _ _ _ AI acc2 X W2 HX) as (E3 & L3). rewrite E3. cbn [bind].
    eexists. split.
    + f_equal. f_equal. rewrite V2. unfold rmac_hist. rewrite Lh. replace (S t - 1) with t by lia. reflexivity.
    + split. { unfold rmac_hist. apply tab_length. }
      unfold rcinv. split; [exact W1|]. split.
      { rewrite Lh. rewrite next_pos by lia. reflexivity. }
      split; [exact W2|]. split; [exact Hh'|].
      intros a Ha. rewrite Lh, row_of_S by lia. apply HV. exact Ha.
Qed.

Lemma rcinv_init : rcinv [] (fdl_make fdl P M, make_fdl_index P, acc_make flt M).
Proof using All.
  unfold rcinv. destruct (fimp_make _ _ _ FI) as (W & V). split; [exact W|]. split.
  { unfold make_fdl_index. simpl. rewrite Nat.mod_small by lia. reflexivity. }
  split; [apply (raimp_make _ _ _ _ _ _ _ AI)|]. split; [intros X []|].
  intros a Ha. unfold aged. simpl. apply V. apply row_of_lt. lia.
Qed.
End Callback.

(** ** The convolver *)
Section Convolver.
Variables rnd fcos fsin : R -> R.
Variable fdl : fdl_type.
Variable flt : filter_type (fdl_row fdl).
Variables k P : nat.
Hypothesis Hk : 0 < k < max_order.
Let B := 2 ^ k.
Hypothesis HP : 0 < P.
Variable FI : fdl_impl fdl P (B + 1).
Variable f : flt_obj flt.
Variable F : nat -> nat -> C.
Variable AI : rflt_impl rnd flt (rv FI) P (B + 1) f F.
Variable all : list (list R).
Hypothesis Hall : blocks_of B all.

Definition rupols_out (t i : nat) : R :=
  rsynth rnd fcos fsin (S k) (rmac_hist rnd P (B + 1) F (ros_hist rnd fcos fsin B B all (S t))) (B + i).

Lemma rupols_run : exists o, rmake_overlap_save rnd fcos fsin B B = Ok o /\
  exists c, upc_stream (Upc (ov := rols rnd fcos fsin) (flt := flt) o (fdl_make fdl P (B + 1)) (make_fdl_index P) f (acc_make flt (B + 1))) all
    = Ok (c, tab (length all) (fun t => tab B (rupols_out t))).
Proof using All.
  assert (HB2 : 2 <= B) by (apply (B_ge2 k P); auto). assert (HBm : B + B - 1 <= 2 ^ max_order) by (apply (B_fits k P); auto).
  destruct (rmake_overlap_save_ok rnd fcos fsin B B ltac:(lia) HBm) as (o & Eo & Io). exists o. split; [exact Eo|].
  pose proof (K_is_2B k ltac:(lia)) as EK. fold B in EK. pose proof (log2_up_2B k ltac:(lia)) as EL. fold B in EL.
  assert (EM : 2 ^ Nat.log2_up (B + B - 1) / 2 + 1 = B + 1) by (rewrite EK, half_of_double; reflexivity).
  assert (CS : cb_spec (2 ^ Nat.log2_up (B + B - 1) / 2 + 1) (rcinv rnd fdl flt P (B + 1) FI f F AI)
    (rmac_hist rnd P (B + 1) F) (upc_callback f)) by (rewrite EM; apply rcallback_spec; exact HP).
  destruct (ros_stream_all rnd fcos fsin _ B B ltac:(lia) ltac:(lia) 2 EK ltac:(lia) all Hall _ _ _ CS o
    (fdl_make fdl P (B + 1), make_fdl_index P, acc_make flt (B + 1)) Io) as (o' & [[l i] a] & E).
  { apply rcinv_init. exact HP. }
  rewrite upc_stream_ov. cbn [u_filter u_overlap u_fdl u_indexer u_acc]. cbn [rols ov_obj ov_run ov_make] in *. rewrite E. cbn [bind]. eexists. f_equal. f_equal.
  apply tab_ext. intros t Ht. apply tab_ext. intros j Hj. unfold rupols_out. rewrite EK, EL. f_equal. lia.
Qed.
End Convolver.

(** ** Filters *)
Lemma rmultiply_add_c_ok : forall rnd x y z out,
  length (contents x out) = length out -> length (contents y out) = length out -> length (contents z out) = length out ->
  rmultiply_add_c rnd x y z out = Ok (tab (length out) (fun i =>
    radd rnd (rmul rnd (nth i (contents x out) C0) (nth i (contents y out) C0)) (nth i (contents z out) C0))).
Proof.
  intros rnd x y z out Hx Hy Hz. unfold rmultiply_add_c. rewrite Hx.
  apply for_range_tab with (d := C0); auto. intros j l Hj Hl Hn.
  rewrite (rd_ok _ (contents x l) j C0) by (rewrite (contents_length _ x l out) by auto; lia).
  rewrite (rd_ok _ (contents y l) j C0) by (rewrite (contents_length _ y l out) by auto; lia).
  rewrite (rd_ok _ (contents z l) j C0) by (rewrite (contents_length _ z l out) by auto; lia). cbn [bind].
  rewrite wr_ok by lia.
  rewrite (contents_nth _ x l out j C0), (contents_nth _ y l out j C0), (contents_nth _ z l out j C0) by auto. auto.
Qed.

Lemma rdense_filter_impl : forall rnd P M mat, matrix_of P M mat ->
  rflt_impl rnd (rdense_filter rnd) (rv (dense_fdl_impl P M)) P M mat (cell mat).
Proof.
  intros rnd P M mat Hm. refine (RFltImpl rnd _ (rdense_filter rnd) _ P M mat (cell mat) (fun a => a) (fun a => length a = M) _ _ _ _); cbn.
  - apply repeat_length.
  - intros a Ha. rewrite fill_ok, Ha. eexists; split; [reflexivity|]. split; [apply repeat_length|reflexivity].
  - intros a r X i Ha -> HX Hi. unfold rdense_filter_mac. pose proof (matrix_row _ _ _ _ i Hm Hi) as Hr.
    rewrite (rd_ok _ _ _ []) by (destruct Hm; lia). cbn [bind].
    rewrite rmultiply_add_c_ok by (cbn [contents]; lia). cbn [contents]. rewrite Ha. eexists; split; [reflexivity|].
    split; [apply tab_length|reflexivity].
  - intros a out Ha Ho. split; auto. rewrite copy_full by lia. rewrite map_id. reflexivity.
Defined.

Lemma rupols_filter_and_run : forall rnd fcos fsin (c : rupols_convolver rnd fcos fsin) k P mat all, 0 < k < max_order -> 0 < P -> matrix_of P (2 ^ k + 1) mat -> blocks_of (2 ^ k) all ->
  filter_and_run c P (2 ^ k + 1) mat tt all = Ok (tab (length all) (fun t => tab (2 ^ k) (rupols_out rnd fcos fsin k P (cell mat) all t))).
Proof.
  intros rnd fcos fsin c k P mat all Hk HP Hm Hall. unfold filter_and_run, upc_filter.
  destruct (Nat.ltb_spec 0 (2 ^ k + 1)); [|lia]. cbn [guard bind]. replace (2 ^ k + 1 - 1) with (2 ^ k) by lia.
  destruct (rupols_run rnd fcos fsin dense_fdl (rdense_filter rnd) k P Hk HP (dense_fdl_impl P (2 ^ k + 1)) mat (cell mat) (rdense_filter_impl rnd P _ mat Hm) all Hall) as (o & Eo & c' & Ec).
  cbn [rols ov_make] in *. rewrite Eo. cbn [bind].
  change (flt_filter (rdense_filter rnd) (u_filter c) P (2 ^ k + 1) mat tt) with (flt_filter dense_filter (u_filter c) P (2 ^ k + 1) mat tt).
  rewrite dense_filter_ok by auto. cbn [bind]. rewrite Ec. reflexivity.
Qed.
