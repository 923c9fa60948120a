(** One call of overlap_save and of overlap_add. *)
From Coq Require Import Reals List Arith Lia Lra Bool ZArith.
From Verif Require Import Base.Outcome Base.OutcomeFacts Base.Sums Base.Cplx Base.Alias Spec.Dft Spec.Transforms
  Spec.Convolution Model.Fft2 Model.Integers Model.Algorithm Model.FftApps Model.Convolution
  Proof.DftTheory Proof.Fft2Proof Proof.IntegersProof Proof.AlgorithmProof Proof.RfftProof Proof.ConvTheory
  Proof.FftConvProof.
Import ListNotations.
Local Arguments Nat.div : simpl never.
Local Arguments Nat.modulo : simpl never.
Local Arguments Nat.pow : simpl never.

(** Signal block of a spectrum: samples of the inverse transform divided by the size. *)
Definition synth (K : nat) (Y : list C) (j : nat) : R := (IRDFT (K / 2) (fun k => nth k Y C0) j / INR K)%R.

(** ** Overlap-save *)

(** Window contents after sliding left by B and storing the block at the end. *)
Definition slid (B : nat) (w : list R) : list R :=
  tab (length w) (fun j => if j <? (length w / B - 1) * B then nth (j + B) w 0%R else nth j w 0%R).
Definition os_next (B : nat) (w block : list R) : list R :=
  tab (length w) (fun j => if length w - B <=? j then nth (j - (length w - B)) block 0%R else nth j (slid B w) 0%R).

Lemma slide_ok : forall B w, 0 < B -> slide_window_left B w = Ok (slid B w).
Proof.
  intros B w HB. unfold slide_window_left. destruct (Nat.eqb_spec B 0); [lia|]. cbn [negb guard bind].
  set (q := length w / B). assert (Hq : q * B <= length w).
  { unfold q. rewrite Nat.mul_comm. apply Nat.mul_div_le. lia. }
  match goal with |- for_range 0 ?n ?body ?s = _ =>
    destruct (for_range_inv _ (fun i w' => w' = tab (length w) (fun j => if j <? i * B then nth (j + B) w 0%R else nth j w 0%R))
      0 n body s) as (s' & E & I) end.
  - lia.
  - apply (list_eq_tab _ 0%R); auto.
  - intros i s Hi ->.
    assert (Hr : (i + 2) * B <= q * B) by (apply Nat.mul_le_mono_r; lia).
    rewrite (slice_spec _ 0%R) by (rewrite ?tab_length; lia). cbn [bind].
    rewrite (copy_into_ok _ 0%R) by (rewrite ?tab_length; lia). rewrite !tab_length.
    eexists; split; [reflexivity|]. apply tab_ext. intros j Hj.
    replace (i * B + B + B - (i * B + B)) with B by lia.
    destruct (Nat.leb_spec (i * B) j) as [A|A]; cbn [andb].
    + destruct (Nat.ltb_spec j (i * B + B)) as [D|D].
      * rewrite !nth_tab by lia. destruct (Nat.ltb_spec (i * B + B + (j - i * B)) (i * B)); [lia|].
        destruct (Nat.ltb_spec j (S i * B)); [|lia]. f_equal. lia.
      * rewrite nth_tab by lia. destruct (Nat.ltb_spec j (i * B)); [lia|].
        destruct (Nat.ltb_spec j (S i * B)); [lia|]. reflexivity.
    + rewrite nth_tab by lia. destruct (Nat.ltb_spec j (i * B)); [|lia].
      destruct (Nat.ltb_spec j (S i * B)); [|lia]. reflexivity.
  - rewrite E, I. reflexivity.
Qed.

Record os_inv (B F : nat) (w : list R) (o : overlap_save) : Prop := OsInv {
  osi_block : os_block o = B;
  osi_filter : os_filter o = F;
  osi_plan : rf_inv (Nat.log2_up (B + F - 1)) (os_plan o);
  osi_window : os_window o = w;
  osi_wlen : length w = 2 ^ Nat.log2_up (B + F - 1);
  osi_real : length (os_real o) = 2 ^ Nat.log2_up (B + F - 1);
  osi_cplx : length (os_cplx o) = 2 ^ Nat.log2_up (B + F - 1) }.

Lemma make_overlap_save_ok : forall B F, 2 <= B + F - 1 -> B + F - 1 <= 2 ^ max_order ->
  exists o, make_overlap_save B F = Ok o /\ os_inv B F (repeat 0%R (2 ^ Nat.log2_up (B + F - 1))) o.
Proof.
  intros B F H1 H2. unfold make_overlap_save.
  replace (0 <? B + F) with true by (symmetry; apply Nat.ltb_lt; lia). cbn [guard bind].
  rewrite next_order_ok by (apply Z_fits; exact H2). cbn [bind].
  destruct (make_rfft_ok (Nat.log2_up (B + F - 1))) as (pl & E & I).
  { split. apply log2_up_pos'; lia. apply log2_up_max. exact H2. }
  rewrite E. cbn [bind]. eexists; split; [reflexivity|]. constructor; cbn; rewrite ?repeat_length; auto.
Qed.

Lemma overlap_save_run_ok : forall St B F w o block (cb : list C -> St -> outcome (list C * St)) st Y st',
  0 < B -> 2 <= B + F - 1 -> B <= 2 ^ Nat.log2_up (B + F - 1) -> os_inv B F w o -> length block = B ->
  cb (RDFT_list Forward (os_next B w block)) st = Ok (Y, st') ->
  length Y = 2 ^ Nat.log2_up (B + F - 1) / 2 + 1 ->
  exists o', overlap_save_run o block cb st =
     Ok (o', tab B (fun i => synth (length w) Y (length w - B + i)), st') /\ os_inv B F (os_next B w block) o'.
Proof.
  intros St B F w o block cb st Y st' HB H2 HBK [Ib Ifl Ip Iw Lw Ir Ic] Hblk Hcb HY.
  set (order := Nat.log2_up (B + F - 1)) in *.
  assert (Hpos : 0 < order) by (apply log2_up_pos'; lia).
  unfold overlap_save_run. destruct Ip as (Ro & Rf & Rb). pose proof (conj Ro (conj Rf Rb) : rf_inv order (os_plan o)) as Ip.
  rewrite Ro, Ib. replace (B <=? 2 ^ order) with true by (symmetry; apply Nat.leb_le; lia). cbn [guard bind].
  rewrite Iw, slide_ok by auto. cbn [bind].
  assert (Ls : length (slid B w) = length w) by apply tab_length.
  rewrite (copy_into_ok _ 0%R) by lia. cbn [bind].
  match goal with |- context [rfft_forward _ ?t _] => replace t with (os_next B w block) end.
  2:{ unfold os_next. rewrite Ls. apply tab_ext. intros j Hj. rewrite <- Lw.
      destruct (Nat.leb_spec (length w - B) j); cbn [andb]; [|reflexivity].
      destruct (Nat.ltb_spec j (length w - B + length block)); [reflexivity|lia]. }
  assert (Ln : length (os_next B w block) = 2 ^ order) by (unfold os_next; rewrite tab_length; exact Lw).
  destruct (pow2_half order Hpos) as (m & Hm & HKm & Em).
  destruct (rfft_forward_ok order (os_plan o) (os_next B w block) (os_cplx o) Hpos Ip Ln) as (p1 & E1 & I1).
  { rewrite Ic, HKm, half_of_double. lia. }
  rewrite E1. cbn [bind].
  set (X := RDFT_list Forward (os_next B w block)) in *.
  assert (LX : length X = 2 ^ order / 2 + 1) by (unfold X; rewrite RDFT_list_length, Ln; reflexivity).
  assert (Lbuf : length (X ++ skipn (2 ^ order / 2 + 1) (os_cplx o)) = 2 ^ order).
  { rewrite app_length, LX, skipn_length, Ic. rewrite HKm, half_of_double. lia. }
  rewrite (slice_ok _ _ 0) by (unfold C in *; rewrite ?Lbuf, ?HKm, ?half_of_double; lia). cbn [bind].
  match goal with |- context [cb ?c st] => replace c with X end.
  2:{ rewrite Nat.sub_0_r. cbn [skipn]. rewrite firstn_app, LX, Nat.sub_diag. cbn [firstn]. rewrite app_nil_r.
      symmetry. apply firstn_all2. lia. }
  rewrite Hcb. cbn [bind].
  destruct (splice_spec _ C0 (X ++ skipn (2 ^ order / 2 + 1) (os_cplx o)) Y 0) as (buf & Eb & Lb & Nb).
  { rewrite HY. unfold C in *. rewrite Lbuf, HKm, half_of_double. lia. }
  unfold C in *. rewrite Eb. cbn [bind].
  destruct (rfft_backward_ok order p1 buf (os_real o) Hpos I1) as (p2 & E2 & I2).
  { unfold C in *. rewrite Lb, Lbuf. rewrite HKm, half_of_double. lia. } { exact Ir. }
  unfold C in *. rewrite E2. cbn [bind]. rewrite scale_map. cbn [bind]. rewrite map_tab.
  rewrite (slice_spec _ 0%R) by (rewrite ?tab_length; lia). cbn [bind].
  replace (2 ^ order - (2 ^ order - B)) with B by lia.
  rewrite copy_full by (rewrite tab_length; auto). cbn [bind]. rewrite map_id.
  eexists; split.
  - f_equal. f_equal. f_equal. apply tab_ext. intros i Hi. rewrite nth_tab by lia. rewrite Lw.
    unfold synth. rewrite <- Em. replace (2 ^ order / 2) with m by (rewrite HKm, half_of_double; reflexivity).
    unfold Rdiv. rewrite Rmult_1_l. f_equal. apply IRDFT_ext; [lia|].
    intros k Hk. rewrite Nb. cbn [Nat.leb andb]. cbn [Nat.add].
    destruct (Nat.ltb_spec k (length Y)) as [A|A].
    + rewrite Nat.sub_0_r. reflexivity.
    + exfalso. unfold C in *. rewrite HY in A. rewrite HKm, half_of_double in A. lia.
  - constructor; cbn [os_block os_filter os_plan os_window os_real os_cplx]; auto.
    + now rewrite tab_length.
    + unfold C in *. rewrite Lb. exact Lbuf.
Qed.

(** ** Overlap-add *)

Record oa_inv (B F : nat) (w ov : list R) (o : overlap_add) : Prop := OaInv {
  oai_block : oa_block o = B;
  oai_filter : oa_filter o = F;
  oai_plan : rf_inv (Nat.log2_up (B + F - 1)) (oa_plan o);
  oai_window : oa_window o = w;
  oai_wlen : length w = 2 ^ Nat.log2_up (B + F - 1);
  oai_spec : length (oa_spectrum o) = 2 ^ Nat.log2_up (B + F - 1) / 2 + 1;
  oai_overlap : oa_overlap o = ov;
  oai_olen : length ov = B }.

(** The window handed to the transform: block, zeros up to 2B, stale samples after that. *)
Definition oa_next (B : nat) (w block : list R) : list R :=
  tab (length w) (fun j => if j <? B then nth j block 0%R else if j <? B * 2 then 0%R else nth j w 0%R).

Lemma make_overlap_add_ok : forall B F, 2 <= B + F - 1 -> B + F - 1 <= 2 ^ max_order ->
  exists o, make_overlap_add B F = Ok o /\ oa_inv B F (repeat 0%R (2 ^ Nat.log2_up (B + F - 1))) (repeat 0%R B) o.
Proof.
  intros B F H1 H2. unfold make_overlap_add.
  replace (0 <? B + F) with true by (symmetry; apply Nat.ltb_lt; lia). cbn [guard bind].
  rewrite next_order_ok by (apply Z_fits; exact H2). cbn [bind].
  destruct (make_rfft_ok (Nat.log2_up (B + F - 1))) as (pl & E & I).
  { split. apply log2_up_pos'; lia. apply log2_up_max. exact H2. }
  rewrite E. cbn [bind]. eexists; split; [reflexivity|]. constructor; cbn; rewrite ?repeat_length; auto.
Qed.

Lemma overlap_add_run_ok : forall St B F w ov o block (cb : list C -> St -> outcome (list C * St)) st Y st',
  2 <= B + F - 1 -> B * 2 <= 2 ^ Nat.log2_up (B + F - 1) -> oa_inv B F w ov o -> length block = B ->
  cb (RDFT_list Forward (oa_next B w block)) st = Ok (Y, st') ->
  length Y = 2 ^ Nat.log2_up (B + F - 1) / 2 + 1 ->
  exists o', overlap_add_run o block cb st =
     Ok (o', tab B (fun i => synth (length w) Y i + nth i ov 0)%R, st') /\
     oa_inv B F (tab (length w) (synth (length w) Y)) (tab B (fun i => synth (length w) Y (B + i))) o'.
Proof.
  intros St B F w ov o block cb st Y st' H2 HBK [Ib Ifl Ip Iw Lw Is Io Lo] Hblk Hcb HY.
  set (order := Nat.log2_up (B + F - 1)) in *.
  assert (Hpos : 0 < order) by (apply log2_up_pos'; lia).
  unfold overlap_add_run. destruct Ip as (Ro & Rf & Rb). pose proof (conj Ro (conj Rf Rb) : rf_inv order (oa_plan o)) as Ip.
  rewrite Ro, Ib, Iw. rewrite (copy_into_ok _ 0%R) by lia. cbn [bind].
  rewrite (fill_into_ok _ 0%R) by (rewrite ?tab_length; lia). cbn [bind]. rewrite tab_length.
  match goal with |- context [rfft_forward _ ?t _] => replace t with (oa_next B w block) end.
  2:{ unfold oa_next. apply tab_ext. intros j Hj. rewrite nth_tab by lia. cbn [Nat.leb andb]. rewrite Nat.sub_0_r. cbn [Nat.add].
      rewrite Hblk. destruct (Nat.ltb_spec j B), (Nat.leb_spec B j), (Nat.ltb_spec j (B * 2)); cbn [andb]; try lia; reflexivity. }
  assert (Ln : length (oa_next B w block) = 2 ^ order) by (unfold oa_next; rewrite tab_length; exact Lw).
  destruct (pow2_half order Hpos) as (m & Hm & HKm & Em).
  destruct (rfft_forward_ok order (oa_plan o) (oa_next B w block) (oa_spectrum o) Hpos Ip Ln) as (p1 & E1 & I1). { lia. }
  rewrite skipn_all2 in E1 by lia. rewrite app_nil_r in E1. rewrite E1. cbn [bind].
  rewrite Hcb. cbn [bind].
  destruct (rfft_backward_ok order p1 Y (oa_next B w block) Hpos I1) as (p2 & E2 & I2).
  { rewrite HY. rewrite HKm, half_of_double. lia. } { exact Ln. }
  rewrite E2. cbn [bind]. rewrite scale_map. cbn [bind]. rewrite map_tab.
  assert (HS : forall j, (IRDFT (2 ^ (order - 1)) (fun k => nth k Y C0) j * (1 / INR (2 ^ order)))%R = synth (length w) Y j).
  { intros j. unfold synth. rewrite Lw, <- Em. replace (2 ^ order / 2) with m by (rewrite HKm, half_of_double; reflexivity).
    field. apply INR_nz. lia. }
  rewrite (tab_ext _ _ _ (synth (length w) Y) (fun i _ => HS i)).
  rewrite (slice_spec _ 0%R) by (rewrite ?tab_length; lia). cbn [bind]. rewrite Nat.sub_0_r.
  unfold add_r. rewrite linalg_binary_ok by (cbn [contents]; rewrite ?tab_length, ?Io; lia). cbn [bind contents].
  rewrite (slice_spec _ 0%R) by (rewrite ?tab_length; lia). cbn [bind].
  replace (B * 2 - B) with B by lia.
  rewrite copy_full by (rewrite tab_length, Io; lia). cbn [bind]. rewrite map_id.
  eexists; split.
  - f_equal. f_equal. f_equal.
    rewrite (zip_with_tab _ _ _ _ _ _ 0%R 0%R) by (rewrite tab_length, Io; lia). rewrite tab_length, Io.
    apply tab_ext. intros i Hi. rewrite !nth_tab by lia. reflexivity.
  - constructor; cbn [oa_block oa_filter oa_plan oa_window oa_spectrum oa_overlap]; rewrite ?tab_length; auto.
    + now rewrite Lw.
    + apply tab_ext. intros i Hi. rewrite nth_tab by lia. reflexivity.
Qed.

Lemma overlap_add_run_oob : forall St B F w ov o block (cb : list C -> St -> outcome (list C * St)) st,
  2 ^ Nat.log2_up (B + F - 1) < B * 2 -> oa_inv B F w ov o -> overlap_add_run o block cb st = UB.
Proof.
  intros St B F w ov o block cb st HBK [Ib Ifl Ip Iw Lw Is Io Lo].
  unfold overlap_add_run. rewrite Ib, Iw.
  destruct (copy_into block w 0 B) eqn:E; [|reflexivity|].
  - cbn [bind]. rewrite fill_into_oob; auto.
    assert (length a = length w).
    { unfold copy_into in E. apply bind_ok in E. destruct E as (s1 & E1 & E). apply bind_ok in E. destruct E as (s2 & E2 & E).
      destruct (le_lt_dec (0 + length s2) (length w)) as [Q|Q].
      - destruct (splice_spec _ 0%R w s2 0 Q) as (l' & E' & L & _). congruence.
      - unfold splice in E. replace (0 + length s2 <=? length w) with false in E by (symmetry; apply Nat.leb_gt; lia). discriminate. }
    lia.
  - exfalso. revert E. unfold copy_into, slice. destruct ((0 <=? B) && (B <=? length w)); [|discriminate]. cbn [bind].
    unfold copy. destruct (le_lt_dec (length block) (length (firstn (B - 0) (skipn 0 w)))).
    + fold (copy (fun v : R => v) block (firstn (B - 0) (skipn 0 w))). rewrite copy_ok by auto. cbn [bind]. unfold splice.
      destruct (_ <=? _); discriminate.
    + fold (copy (fun v : R => v) block (firstn (B - 0) (skipn 0 w))). rewrite copy_too_short by auto. discriminate.
Qed.
