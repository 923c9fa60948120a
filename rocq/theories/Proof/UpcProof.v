(** Uniformly partitioned convolver: delay line bookkeeping and the convolution it computes. *)
From Coq Require Import Reals List Arith Lia Lra Bool ZArith.
From Verif Require Import Base.Outcome Base.OutcomeFacts Base.Sums Base.Cplx Base.Alias Spec.Dft Spec.Transforms
  Spec.Convolution Model.Fft2 Model.Integers Model.Algorithm Model.FftApps Model.Convolution
  Proof.DftTheory Proof.Fft2Proof Proof.IntegersProof Proof.AlgorithmProof Proof.RfftProof Proof.ConvTheory
  Proof.FftConvProof Proof.OverlapProof Proof.StreamProof Proof.LtiProof.
Import ListNotations.
Local Arguments Nat.div : simpl never.
Local Arguments Nat.modulo : simpl never.
Local Arguments Nat.pow : simpl never.

(** ** Ring arithmetic of the delay line *)

(** Row written [a] calls before call [t]. *)
Definition row_of (P t a : nat) : nat := (t + P - a) mod P.
(** Filter partition used with row [r] on call [t]. *)
Definition age_of (P t r : nat) : nat := (t mod P + P - r) mod P.

Lemma row_of_cases : forall P t a, 0 < P -> a < P ->
  row_of P t a = if a <=? t mod P then t mod P - a else t mod P + P - a.
Proof.
  intros P t a HP Ha. unfold row_of. pose proof (Nat.mod_upper_bound t P ltac:(lia)) as Hw.
  rewrite (Nat.div_mod t P) at 1 by lia. set (w := t mod P) in *. set (d := t / P).
  destruct (Nat.leb_spec a w).
  - replace (P * d + w + P - a) with (w - a + (d + 1) * P) by lia. rewrite Nat.mod_add, Nat.mod_small by lia. reflexivity.
  - replace (P * d + w + P - a) with (w + P - a + d * P) by lia. rewrite Nat.mod_add, Nat.mod_small by lia. reflexivity.
Qed.

Lemma age_of_cases : forall P t r, 0 < P -> r < P ->
  age_of P t r = if r <=? t mod P then t mod P - r else t mod P + P - r.
Proof.
  intros P t r HP Hr. unfold age_of. pose proof (Nat.mod_upper_bound t P ltac:(lia)) as Hw. set (w := t mod P) in *.
  destruct (Nat.leb_spec r w).
  - replace (w + P - r) with (w - r + 1 * P) by lia. rewrite Nat.mod_add, Nat.mod_small by lia. reflexivity.
  - rewrite Nat.mod_small by lia. reflexivity.
Qed.

Lemma row_of_lt : forall P t a, 0 < P -> row_of P t a < P.
Proof. intros. apply Nat.mod_upper_bound. lia. Qed.
Lemma age_of_lt : forall P t a, 0 < P -> age_of P t a < P.
Proof. intros. apply Nat.mod_upper_bound. lia. Qed.

Lemma age_of_row : forall P t a, 0 < P -> a < P -> age_of P t (row_of P t a) = a.
Proof.
  intros P t a HP Ha. rewrite age_of_cases by (auto using row_of_lt). rewrite row_of_cases by auto.
  pose proof (Nat.mod_upper_bound t P ltac:(lia)) as Hw.
  destruct (Nat.leb_spec a (t mod P)).
  - destruct (Nat.leb_spec (t mod P - a) (t mod P)); lia.
  - destruct (Nat.leb_spec (t mod P + P - a) (t mod P)); lia.
Qed.

Lemma row_of_age : forall P t r, 0 < P -> r < P -> row_of P t (age_of P t r) = r.
Proof.
  intros P t r HP Hr. rewrite row_of_cases by (auto using age_of_lt). rewrite age_of_cases by auto.
  pose proof (Nat.mod_upper_bound t P ltac:(lia)) as Hw.
  destruct (Nat.leb_spec r (t mod P)).
  - destruct (Nat.leb_spec (t mod P - r) (t mod P)); lia.
  - destruct (Nat.leb_spec (t mod P + P - r) (t mod P)); lia.
Qed.

Lemma row_of_0 : forall P t, 0 < P -> row_of P t 0 = t mod P.
Proof. intros. rewrite row_of_cases by auto. simpl. lia. Qed.

Lemma row_of_S : forall P t a, 0 < P -> a < P -> row_of P (S t) (S a) = row_of P t a.
Proof. intros. unfold row_of. f_equal. Qed.

Lemma row_of_inj : forall P t a b, 0 < P -> a < P -> b < P -> row_of P t a = row_of P t b -> a = b.
Proof. intros P t a b HP Ha Hb E. rewrite <- (age_of_row P t a), <- (age_of_row P t b), E by auto. reflexivity. Qed.

Lemma next_pos : forall P t, 0 < P -> (if P <=? t mod P + 1 then 0 else t mod P + 1) = S t mod P.
Proof.
  intros P t HP. pose proof (Nat.mod_upper_bound t P ltac:(lia)) as Hw.
  replace (S t) with (t + 1) by lia. rewrite <- (Nat.add_mod_idemp_l t 1 P) by lia.
  destruct (Nat.leb_spec P (t mod P + 1)).
  - replace (t mod P + 1) with P by lia. rewrite Nat.mod_same by lia. reflexivity.
  - rewrite (Nat.mod_small (t mod P + 1)) by lia. reflexivity.
Qed.

(** ** What a delay line and a filter have to do *)

Record fdl_impl (fdl : fdl_type) (P M : nat) := FdlImpl {
  fv : fdl_obj fdl -> nat -> list C;
  fwf : fdl_obj fdl -> Prop;
  rv : fdl_row fdl -> list C -> Prop;
  fimp_make : fwf (fdl_make fdl P M) /\ (forall i, i < P -> fv (fdl_make fdl P M) i = repeat C0 M);
  fimp_insert : forall f X i, fwf f -> length X = M -> i < P ->
    exists f', fdl_insert fdl f X i = Ok f' /\ fwf f' /\ (forall j, j < P -> fv f' j = if j =? i then X else fv f j);
  fimp_at : forall f i, fwf f -> i < P -> exists r, fdl_at fdl f i = Ok r /\ rv r (fv f i) }.
Arguments fv {fdl P M}. Arguments fwf {fdl P M}. Arguments rv {fdl P M}.

Record flt_impl {Row} (flt : filter_type Row) (rv : Row -> list C -> Prop) (P M : nat) (f : flt_obj flt) (F : nat -> nat -> C) := FltImpl {
  av : flt_acc flt -> list C;
  awf : flt_acc flt -> Prop;
  aimp_make : awf (acc_make flt M);
  aimp_fill : forall a, awf a -> exists a', acc_fill flt a = Ok a' /\ awf a' /\ av a' = repeat C0 M;
  aimp_mac : forall a r X i, awf a -> rv r X -> length X = M -> i < P ->
    exists a', flt_mac flt f r i a = Ok a' /\ awf a' /\ av a' = tab M (fun k => nth k X C0 * F i k + nth k (av a) C0)%C;
  aimp_copy : forall a out, awf a -> length out = M -> acc_copy flt a out = Ok (av a) /\ length (av a) = M }.
Arguments av {Row flt rv P M f F}. Arguments awf {Row flt rv P M f F}.

Section Callback.
Variable fdl : fdl_type.
Variable flt : filter_type (fdl_row fdl).
Variables P M : nat.
Hypothesis HP : 0 < P.
Variable FI : fdl_impl fdl P M.
Variable f : flt_obj flt.
Variable F : nat -> nat -> C.
Variable AI : flt_impl flt (rv FI) P M f F.

(** Sum over the partitions of partition a times the spectrum a calls ago. *)
Definition mac_hist (hist : list (list C)) : list C :=
  tab M (fun k => Csum P (fun a =>
    (if a <? length hist then nth k (nth (length hist - 1 - a) hist []) C0 * F a k else C0)%C)).

Definition aged (hist : list (list C)) (a : nat) : list C :=
  if a <? length hist then nth (length hist - 1 - a) hist [] else repeat C0 M.

Definition cinv (hist : list (list C)) (st : fdl_obj fdl * fdl_index * flt_acc flt) : Prop :=
  let '(line, idx, acc) := st in
  fwf FI line /\ idx = FdlIndex P (length hist mod P) /\ awf AI acc /\
  (forall X, In X hist -> length X = M) /\
  (forall a, a < P -> fv FI line (row_of P (length hist) (S a)) = aged hist a).

Lemma aged_length : forall hist a, (forall X, In X hist -> length X = M) -> length (aged hist a) = M.
Proof.
  intros hist a H. unfold aged. destruct (Nat.ltb_spec a (length hist)).
  - apply H. apply nth_In. lia.
  - apply repeat_length.
Qed.

Lemma callback_spec : cb_spec M cinv mac_hist (upc_callback f).
Proof.
  intros hist X [[line idx] acc] (Wf & Ei & Wa & Hh & Hr) HX.
  set (t := length hist) in *.
  unfold upc_callback. destruct (aimp_fill _ _ _ _ _ _ AI acc Wa) as (acc0 & E0 & W0 & V0). rewrite E0. cbn [bind].
  subst idx. unfold fdl_index_run. cbn [fi_pos fi_num fst snd].
  pose proof (Nat.mod_upper_bound t P ltac:(lia)) as Hw.
  destruct (fimp_insert _ _ _ FI line X (t mod P) Wf HX Hw) as (line1 & E1 & W1 & V1). rewrite E1. cbn [bind].
  assert (Hh' : forall Z, In Z (hist ++ [X]) -> length Z = M).
  { intros Z HZ. apply in_app_or in HZ. destruct HZ as [HZ|[<-|[]]]; auto. }
  assert (Lh : length (hist ++ [X]) = S t) by (rewrite app_length; simpl; lia).
  assert (HV : forall a, a < P -> fv FI line1 (row_of P t a) = aged (hist ++ [X]) a).
  { intros a Ha. rewrite V1 by (apply row_of_lt; lia). rewrite <- (row_of_0 P t) by lia.
    unfold aged. rewrite Lh. destruct (Nat.eqb_spec (row_of P t a) (row_of P t 0)) as [E|E].
    - apply row_of_inj in E; try lia. subst a. replace (S t - 1 - 0) with t by lia.
      destruct (Nat.ltb_spec 0 (S t)); [|lia]. rewrite app_nth2 by (unfold t; lia). unfold t. rewrite Nat.sub_diag. reflexivity.
    - assert (a <> 0) by (intros ->; auto). destruct a; [lia|]. rewrite Hr by lia. unfold aged. fold t.
      destruct (Nat.ltb_spec a t), (Nat.ltb_spec (S a) (S t)); try lia.
      + replace (S t - 1 - S a) with (t - 1 - a) by lia. rewrite app_nth1 by (fold t; lia). reflexivity.
      + reflexivity. }
  assert (HVr : forall r, r < P -> fv FI line1 r = aged (hist ++ [X]) (age_of P t r)).
  { intros r Hr'. rewrite <- (row_of_age P t r) at 1 by lia. apply HV. apply age_of_lt. lia. }
  match goal with |- context [for_range 0 P ?body ?s0] =>
    destruct (for_range_inv _ (fun r (s : fdl_obj fdl * flt_acc flt) => fst s = line1 /\ awf AI (snd s) /\
       av AI (snd s) = tab M (fun k => Csum r (fun r => nth k (aged (hist ++ [X]) (age_of P t r)) C0 * F (age_of P t r) k)%C))
       0 P body s0) as ([line2 acc2] & E2 & L2 & W2 & V2) end.
  - lia.
  - cbn [fst snd]. split; [reflexivity|]. split; [exact W0|]. rewrite V0. apply (list_eq_tab _ C0). { apply repeat_length. }
    intros k Hk. rewrite nth_repeat. reflexivity.
  - intros r [l a] Hr' (-> & Wl & Vl). cbn [fst snd] in *.
    destruct (fimp_at _ _ _ FI line1 r W1 ltac:(lia)) as (row & Er & Rr). rewrite Er. cbn [bind].
    fold (age_of P t r).
    destruct (aimp_mac _ _ _ _ _ _ AI a row (fv FI line1 r) (age_of P t r) Wl Rr) as (a' & Ea & Wa' & Va').
    { rewrite HVr by lia. apply aged_length. exact Hh'. } { apply age_of_lt. lia. }
    rewrite Ea. cbn [bind]. eexists; split; [reflexivity|]. cbn [fst snd]. split; [reflexivity|]. split; [exact Wa'|].
    rewrite Va'. apply tab_ext. intros k Hk. rewrite Csum_S, Vl, nth_tab by auto. rewrite HVr by lia. ring.
  - rewrite E2. cbn [bind]. cbn [fst snd] in *. subst line2.
    destruct (aimp_copy _ _ _ _ _ _ AI acc2 X W2 HX) as (E3 & L3). rewrite E3. cbn [bind].
    eexists. split.
    + f_equal. f_equal. rewrite V2. unfold mac_hist. apply tab_ext. intros k Hk.
      rewrite (Csum_reindex P (row_of P t)).
      * apply Csum_ext. intros a Ha. rewrite age_of_row by lia. unfold aged. rewrite Lh.
        destruct (Nat.ltb_spec a (S t)); [reflexivity|]. rewrite nth_repeat. ring.
      * intros. apply row_of_lt. lia.
      * intros i j Hi Hj. apply row_of_inj; lia.
    + split. { unfold mac_hist. apply tab_length. }
      unfold cinv. split; [exact W1|]. split.
      { rewrite Lh. rewrite next_pos by lia. reflexivity. }
      split; [exact W2|]. split; [exact Hh'|].
      intros a Ha. rewrite Lh, row_of_S by lia. apply HV. exact Ha.
Qed.

Lemma cinv_init : cinv [] (fdl_make fdl P M, make_fdl_index P, acc_make flt M).
Proof.
  unfold cinv. destruct (fimp_make _ _ _ FI) as (W & V). split; [exact W|]. split.
  { unfold make_fdl_index. simpl. rewrite Nat.mod_small by lia. reflexivity. }
  split; [apply (aimp_make _ _ _ _ _ _ AI)|]. split; [intros X []|].
  intros a Ha. unfold aged. simpl. apply V. apply row_of_lt. lia.
Qed.
End Callback.

(** The convolver's loop is the overlap object's loop with the callback. *)
Lemma upc_stream_ov : forall ov fdl flt (c : upc ov fdl flt) blocks,
  upc_stream c blocks =
  bind (ov_stream ov (upc_callback (u_filter c)) (u_overlap c) (u_fdl c, u_indexer c, u_acc c) blocks)
    (fun '(o, outs, (line, idx, acc)) => Ok (Upc o line idx (u_filter c) acc, outs)).
Proof.
  intros ov fdl flt c blocks. revert c. induction blocks as [|b t IH]; intros c.
  - destruct c. reflexivity.
  - simpl. unfold upc_run. destruct (ov_run ov _ (u_overlap c) b _ _) as [[[o y] [[line idx] acc]]| |]; simpl; auto.
    rewrite IH. cbn [u_filter u_overlap u_fdl u_indexer u_acc].
    destruct (ov_stream ov _ o _ t) as [[[o' ys] [[l' i'] a']]| |]; simpl; auto.
Qed.

(** ** Partitioned filters are linear convolution *)

(** Filter rows: spectra of the partitions, padded to twice the block size. *)
Definition part_spec (B : nat) (h : list R) (p k : nat) : C :=
  nth k (RDFT_list Forward (pad (2 * B) (part B h p))) C0.

Lemma synth_mac : forall B P h (W : nat -> list R) t j, 0 < B -> (forall u, length (W u) = 2 * B) -> j < 2 * B ->
  synth (2 * B) (mac_hist P (B + 1) (part_spec B h) (tab (S t) (fun u => RDFT_list Forward (W u)))) j =
  Rsum P (fun a => if a <=? t then
     rcconv (2 * B) (fun i => nth i (pad (2 * B) (part B h a)) 0%R) (fun i => nth i (W (t - a)) 0%R) j else 0%R).
Proof.
  intros B P h W t j HB HW Hj. unfold synth, mac_hist. rewrite half_of_double, tab_length.
  set (G := fun a k => (if a <? S t then nth k (RDFT_list Forward (pad (2 * B) (part B h a))) C0 * nth k (RDFT_list Forward (W (t - a)%nat)) C0 else C0)%C).
  rewrite (IRDFT_ext B _ (fun k => Csum P (fun a => G a k))).
  - rewrite IRDFT_sum. unfold Rdiv. rewrite <- Rsum_mul_r. apply Rsum_ext. intros a Ha. unfold G.
    destruct (Nat.ltb_spec a (S t)), (Nat.leb_spec a t); try lia.
    + rewrite irdft_rdft_mul by (auto; rewrite pad_length; reflexivity). field. apply INR_nz. lia.
    + rewrite IRDFT_0. ring.
  - lia.
  - intros k Hk. rewrite nth_tab by lia. apply Csum_ext. intros a Ha. unfold G.
    destruct (Nat.ltb_spec a (S t)); auto. rewrite nth_tab by lia. replace (S t - 1 - a) with (t - a) by lia.
    unfold part_spec. ring.
Qed.

Lemma nth_part : forall B h p j, j < B -> nth j (part B h p) 0%R = nth (p * B + j) h 0%R.
Proof. intros. unfold part. rewrite nth_tab; auto. Qed.
Lemma part_length : forall B h p, length (part B h p) = B.
Proof. intros. apply tab_length. Qed.

Lemma parts_sum : forall P B h x T, length h <= P * B ->
  Rsum P (fun a => Rsum B (fun j => nth j (part B h a) 0 * delayed x T (a * B + j)))%R = lconv x h T.
Proof.
  intros P B h x T H. rewrite (lconv_delayed x h T (P * B)) by auto. rewrite Rsum_block.
  apply Rsum_ext. intros a Ha. apply Rsum_ext. intros j Hj. rewrite nth_part by auto. reflexivity.
Qed.

Lemma log2_up_2B : forall k, 0 < k -> Nat.log2_up (2 ^ k + 2 ^ k - 1) = S k.
Proof.
  intros k Hk. pose proof (Nat.pow_le_mono_r 2 1 k ltac:(lia) Hk) as Hp. rewrite Nat.pow_1_r in Hp.
  apply Nat.log2_up_unique; [lia|]. rewrite Nat.pow_succ_r'. split; [|lia]. cbn [Nat.pred]. lia.
Qed.

Lemma K_is_2B : forall k, 0 < k -> 2 ^ Nat.log2_up (2 ^ k + 2 ^ k - 1) = 2 * 2 ^ k.
Proof. intros. rewrite log2_up_2B by auto. apply Nat.pow_succ_r'. Qed.

Section Convolver.
Variable fdl : fdl_type.
Variable flt : filter_type (fdl_row fdl).
Variables k P : nat.
Hypothesis Hk : 0 < k < max_order.
Let B := 2 ^ k.
Hypothesis HP : 0 < P.
Variable FI : fdl_impl fdl P (B + 1).
Variable f : flt_obj flt.
Variable F : nat -> nat -> C.
Variable AI : flt_impl flt (rv FI) P (B + 1) f F.
Variable all : list (list R).
Hypothesis Hall : blocks_of B all.

Lemma B_ge2 : 2 <= B.
Proof. unfold B. pose proof (Nat.pow_le_mono_r 2 1 k ltac:(lia) ltac:(lia)) as Hp. rewrite Nat.pow_1_r in Hp. exact Hp. Qed.

Lemma B_fits : B + B - 1 <= 2 ^ max_order.
Proof.
  assert (E : 2 ^ S k <= 2 ^ max_order) by (apply Nat.pow_le_mono_r; lia).
  rewrite Nat.pow_succ_r' in E. fold B in E. lia.
Qed.

(** Output of the convolver with filter rows [F], overlap-save. *)
Definition upols_out (t i : nat) : R :=
  synth (2 * B) (mac_hist P (B + 1) F (os_hist B B all (S t))) (2 * B - B + i).

Lemma upols_run : exists o, make_overlap_save B B = Ok o /\
  exists c, upc_stream (Upc (ov := ols) (flt := flt) o (fdl_make fdl P (B + 1)) (make_fdl_index P) f (acc_make flt (B + 1))) all
    = Ok (c, tab (length all) (fun t => tab B (upols_out t))).
Proof.
  pose proof B_ge2 as HB2. pose proof B_fits as HBm.
  destruct (make_overlap_save_ok B B ltac:(lia) HBm) as (o & Eo & Io). exists o. split; [exact Eo|].
  pose proof (K_is_2B k ltac:(lia)) as EK. fold B in EK.
  assert (EM : 2 ^ Nat.log2_up (B + B - 1) / 2 + 1 = B + 1) by (rewrite EK, half_of_double; reflexivity).
  assert (CS : cb_spec (2 ^ Nat.log2_up (B + B - 1) / 2 + 1) (cinv fdl flt P (B + 1) FI f F AI)
    (mac_hist P (B + 1) F) (upc_callback f)) by (rewrite EM; apply callback_spec; exact HP).
  destruct (os_stream_all _ B B ltac:(lia) ltac:(lia) 2 EK ltac:(lia) all Hall _ _ _ CS o
    (fdl_make fdl P (B + 1), make_fdl_index P, acc_make flt (B + 1)) Io) as (o' & [[l i] a] & E).
  { apply cinv_init. exact HP. }
  rewrite upc_stream_ov. cbn [u_filter u_overlap u_fdl u_indexer u_acc]. rewrite E. cbn [bind]. eexists. f_equal. f_equal.
  rewrite EK. reflexivity.
Qed.

(** The same for overlap-add. *)
Definition upola_out (t i : nat) : R :=
  (synth (2 * B) (mac_hist P (B + 1) F (oa_hist B B all (S t))) i +
   (if t =? 0 then 0 else synth (2 * B) (mac_hist P (B + 1) F (oa_hist B B all t)) (B + i)))%R.

Lemma upola_run : exists o, make_overlap_add B B = Ok o /\
  exists c, upc_stream (Upc (ov := ola) (flt := flt) o (fdl_make fdl P (B + 1)) (make_fdl_index P) f (acc_make flt (B + 1))) all
    = Ok (c, tab (length all) (fun t => tab B (upola_out t))).
Proof.
  pose proof B_ge2 as HB2. pose proof B_fits as HBm.
  destruct (make_overlap_add_ok B B ltac:(lia) HBm) as (o & Eo & Io). exists o. split; [exact Eo|].
  pose proof (K_is_2B k ltac:(lia)) as EK. fold B in EK.
  assert (EM : 2 ^ Nat.log2_up (B + B - 1) / 2 + 1 = B + 1) by (rewrite EK, half_of_double; reflexivity).
  assert (CS : cb_spec (2 ^ Nat.log2_up (B + B - 1) / 2 + 1) (cinv fdl flt P (B + 1) FI f F AI)
    (mac_hist P (B + 1) F) (upc_callback f)) by (rewrite EM; apply callback_spec; exact HP).
  destruct (oa_stream_all _ B B ltac:(lia) ltac:(lia) all Hall _ _ _ CS) with (o := o)
    (st := (fdl_make fdl P (B + 1), make_fdl_index P, acc_make flt (B + 1))) as (o' & [[l i] a] & E).
  { intros t j _ Hj. lia. } { exact Io. }
  { apply cinv_init. exact HP. }
  rewrite upc_stream_ov. cbn [u_filter u_overlap u_fdl u_indexer u_acc]. rewrite E. cbn [bind]. eexists. f_equal. f_equal.
  rewrite EK. reflexivity.
Qed.
End Convolver.

Lemma upols_out_lconv : forall k P h all t j, 0 < k -> length h <= P * 2 ^ k -> j < 2 ^ k ->
  upols_out k P (part_spec (2 ^ k) h) all t j = lconv (concat all) h (t * 2 ^ k + j).
Proof.
  intros k P h all t j Hk Hh Hj. unfold upols_out. pose proof (K_is_2B k Hk) as EK. set (B := 2 ^ k) in *.
  unfold os_hist.
  rewrite (synth_mac B P h (fun u => os_win B B all (S u))) by (try lia; intros u; unfold os_win; rewrite tab_length; exact EK).
  rewrite <- (parts_sum P B h) by exact Hh. apply Rsum_ext. intros s Hs.
  destruct (Nat.leb_spec s t) as [A|A].
  - unfold os_win. rewrite EK. rewrite save_sum by (rewrite ?part_length; lia). rewrite part_length.
    apply Rsum_ext. intros p Hp. f_equal. apply delayed_eq.
    rewrite Nat.mul_sub_distr_r. assert (s * B <= t * B) by (apply Nat.mul_le_mono_r; lia). lia.
  - symmetry. apply Rsum_0. intros p Hp. unfold delayed.
    assert (t * B + B <= s * B) by (replace (t * B + B) with (S t * B) by lia; apply Nat.mul_le_mono_r; lia).
    destruct (Nat.leb_spec (s * B + p) (t * B + j)); [lia|ring].
Qed.

Lemma upola_out_lconv : forall k P h all t j, 0 < k -> length h <= P * 2 ^ k -> j < 2 ^ k ->
  upola_out k P (part_spec (2 ^ k) h) all t j = lconv (concat all) h (t * 2 ^ k + j).
Proof.
  intros k P h all t j Hk Hh Hj. unfold upola_out. pose proof (K_is_2B k Hk) as EK.
  assert (HB2 : 2 <= 2 ^ k).
  { pose proof (Nat.pow_le_mono_r 2 1 k ltac:(lia) ltac:(lia)) as Hp. rewrite Nat.pow_1_r in Hp. exact Hp. }
  set (B := 2 ^ k) in *.
  assert (HS : forall t j, j < 2 * B -> synth (2 * B) (mac_hist P (B + 1) (part_spec B h) (oa_hist B B all (S t))) j =
    Rsum P (fun a => if a <=? t then Rsum (S j) (fun i => nth i (part B h a) 0 * oa_blk B all (t - a) (j - i)) else 0)%R).
  { clear t j Hj. intros t j Hj. unfold oa_hist.
    rewrite (synth_mac B P h (oa_win B B all)) by (try lia; intros u; unfold oa_win; rewrite tab_length; exact EK).
    apply Rsum_ext. intros s Hs. destruct (s <=? t); auto. rewrite <- EK. apply add_block_conv; rewrite ?part_length; lia. }
  rewrite HS by lia. rewrite <- (parts_sum P B h) by exact Hh.
  replace (if t =? 0 then 0%R else synth (2 * B) (mac_hist P (B + 1) (part_spec B h) (oa_hist B B all t)) (B + j))
    with (Rsum P (fun a => if a <? t then Rsum (S (B + j)) (fun i => nth i (part B h a) 0 * oa_blk B all (t - 1 - a) (B + j - i)) else 0)%R).
  2:{ destruct t. { apply Rsum_0. reflexivity. }
      cbn [Nat.eqb]. rewrite HS by lia. apply Rsum_ext. intros s Hs. replace (S t - 1 - s) with (t - s) by lia.
      destruct (Nat.ltb_spec s (S t)), (Nat.leb_spec s t); try lia; reflexivity. }
  rewrite <- Rsum_add. apply Rsum_ext. intros s Hs.
  destruct (Nat.leb_spec s t) as [A|A].
  - assert (s * B <= t * B) by (apply Nat.mul_le_mono_r; lia).
    transitivity (Rsum (B + 1) (fun p => nth p (part B h s) 0 * delayed (concat all) ((t - s) * B + j) p)%R).
    + rewrite <- add_sum by (try lia; intros; apply nth_overflow; rewrite part_length; lia).
      f_equal. destruct (Nat.ltb_spec s t), (Nat.eqb_spec (t - s) 0); try lia; auto.
      replace (t - 1 - s) with (t - s - 1) by lia. reflexivity.
    + rewrite (Rsum_le_zero B (B + 1)) by (try lia; intros p Hp; rewrite nth_overflow by (rewrite part_length; lia); ring).
      apply Rsum_ext. intros p Hp. f_equal. apply delayed_eq. rewrite Nat.mul_sub_distr_r. lia.
  - destruct (Nat.ltb_spec s t); [lia|]. rewrite Rplus_0_l. symmetry. apply Rsum_0. intros p Hp. unfold delayed.
    assert (t * B + B <= s * B) by (replace (t * B + B) with (S t * B) by lia; apply Nat.mul_le_mono_r; lia).
    destruct (Nat.leb_spec (s * B + p) (t * B + j)); [lia|ring].
Qed.
