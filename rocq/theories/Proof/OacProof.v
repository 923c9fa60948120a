(** overlap_add_convolver. *)
From Coq Require Import Reals List Arith Lia Lra Bool ZArith.
From Verif Require Import Base.Outcome Base.OutcomeFacts Base.Sums Base.Cplx Base.Alias Spec.Dft Spec.Transforms
  Spec.Convolution Spec.Stft Spec.Convolvers Spec.OverlapAddCalls Model.Fft2 Model.Integers Model.Algorithm Model.FftApps Model.Convolution Model.Stft
  Model.OverlapAddConvolver
  Proof.DftTheory Proof.Fft2Proof Proof.IntegersProof Proof.AlgorithmProof Proof.RfftProof Proof.ConvTheory
  Proof.FftConvProof Proof.DirectConvProof Proof.OverlapProof Proof.StreamProof Proof.LtiProof Proof.UpcProof Proof.UpcInstances
  Proof.StftProof Proof.UpcFinal Proof.ConvCorollaries.
Import ListNotations.
Local Arguments Nat.div : simpl never.
Local Arguments Nat.modulo : simpl never.
Local Arguments Nat.pow : simpl never.

Lemma tab_app : forall A a b (f : nat -> A), tab (a + b) f = tab a f ++ tab b (fun i => f (a + i)).
Proof.
  intros A a b f. induction b.
  - rewrite Nat.add_0_r. cbn. now rewrite app_nil_r.
  - rewrite Nat.add_succ_r, !tab_snoc, IHb, <- app_assoc. reflexivity.
Qed.

Section Step.
Variables (k P : nat) (mat : list (list C)).
Hypothesis Hk : 0 < k < max_order.
Hypothesis HP : 0 < P.
Let B := 2 ^ k.
Let M := B + 1.
Hypothesis Hm : matrix_of P M mat.

Definition wrap (i : nat) : nat := if P <=? i then i - P else i.

(** Product of the older spectra with the later partitions; [hist] ends with the block being
    filled, so its last spectrum does not take part. *)
Definition tail_sum (hist : list (list C)) : list C :=
  tab M (fun j => Csum (P - 1) (fun a => nth j (aged M hist a) C0 * cell mat (S a) j)%C).

(** [w] and [pos]: the window's content and how much of the block has arrived. *)
Record oac_inv (hist : list (list C)) (w : list R) (pos : nat) (carry : list R) (c : oac) : Prop := OacInv {
  oi_block : ac_block c = B; oi_seg : ac_segments c = P; oi_pos : ac_pos c = pos; oi_lt : pos < B; oi_cur : ac_current c < P;
  oi_plan : rf_inv (S k) (ac_plan c);
  oi_window : ac_window c = w; oi_wlen : length w = 2 * B;
  oi_olen : length (ac_overlap c) = 2 * B;
  oi_carry : length carry = B /\ forall i, i < B -> nth i (ac_overlap c) 0%R = nth i carry 0%R;
  oi_bins : length (ac_bins c) = M;
  oi_fdl : matrix_of P M (ac_fdl c);
  oi_filter : ac_filter c = mat;
  oi_acc : length (ac_acc c) = M; oi_tmp : length (ac_tmp c) = M; oi_tail : pos <> 0 -> ac_tmp c = tail_sum hist;
  oi_hist : forall X, In X hist -> length X = M;
  oi_rows : forall a, S a < P -> nth (wrap (ac_current c + S a)) (ac_fdl c) [] = aged M hist a }.

Lemma Bp : 0 < B. Proof. unfold B. apply Nat.neq_0_lt_0, Nat.pow_nonzero. lia. Qed.

Lemma mac_ok : forall row i acc, i < P -> length row = M -> length acc = M ->
  dense_filter_mac mat row i acc = Ok (tab M (fun j => nth j row C0 * cell mat i j + nth j acc C0)%C).
Proof.
  intros row i acc Hi Hr Ha. unfold dense_filter_mac. rewrite (rd_ok _ _ i []) by (destruct Hm as [-> _]; auto). cbn [bind].
  rewrite multiply_add_c_ok; cbn [contents]; auto; [|lia|rewrite (matrix_row _ P M _ i Hm Hi); auto]. rewrite Ha. reflexivity.
Qed.

Lemma tail_ok : forall cur line tmp hist, cur < P -> matrix_of P M line -> length tmp = M ->
  (forall X, In X hist -> length X = M) ->
  (forall a, a < P -> nth (wrap (cur + a)) line [] = aged M hist a) ->
  exists tmp', oac_tail P cur line mat tmp = Ok tmp' /\
    tmp' = tab M (fun j => Csum (P - 1) (fun a => nth j (aged M hist (S a)) C0 * cell mat (S a) j)%C).
Proof.
  intros cur line tmp hist Hc Hl Ht Hh Hr. unfold oac_tail. rewrite fill_ok. cbn [bind].
  match goal with |- context [for_range 1 P ?body ?s0] =>
    destruct (for_range_inv _ (fun r (s : nat * list C) => fst s = wrap (cur + (r - 1)) /\
       snd s = tab M (fun j => Csum (r - 1) (fun a => nth j (aged M hist (S a)) C0 * cell mat (S a) j)%C))
       1 P body s0) as ([i2 t2] & E2 & L2 & V2) end.
  - lia.
  - cbn [fst snd]. split.
    + rewrite Nat.sub_diag, Nat.add_0_r. unfold wrap. destruct (Nat.leb_spec P cur); lia.
    + rewrite Ht. apply repeat_tab.
  - intros r [i t] Hr' (Ei & Et). cbn [fst snd] in *. subst i t.
    set (nx := if P <=? wrap (cur + (r - 1)) + 1 then wrap (cur + (r - 1)) + 1 - P else wrap (cur + (r - 1)) + 1).
    assert (En : nx = wrap (cur + r)).
    { unfold nx, wrap. destruct (Nat.leb_spec P (cur + (r - 1))), (Nat.leb_spec P (cur + r));
      repeat match goal with |- context [?a <=? ?b] => destruct (Nat.leb_spec a b) end; lia. }
    rewrite En. assert (Hw : wrap (cur + r) < P) by (unfold wrap; destruct (Nat.leb_spec P (cur + r)); lia).
    rewrite (rd_ok _ _ _ []) by (destruct Hl as [-> _]; exact Hw). cbn [bind].
    rewrite mac_ok; [| lia | apply (matrix_row _ P M _ _ Hl Hw) | apply tab_length]. cbn [bind].
    eexists. split; [reflexivity|]. cbn [fst snd]. replace (S r - 1) with r by lia. split; [reflexivity|].
    apply tab_ext. intros j Hj. rewrite nth_tab by auto. rewrite Hr by lia.
    destruct r; [lia|]. replace (S r - 1) with r by lia. rewrite Csum_S. ring.
  - rewrite E2. cbn [bind]. cbn [snd] in V2. eauto.
Qed.

Lemma oac_step_ok : forall hist w pos carry c inout done b, oac_inv hist w pos carry c -> 0 < length b ->
  length b = Nat.min (length inout - done) (B - pos) -> slice inout done (done + length b) = Ok b ->
  let n := length b in
  let X := RDFT_list Forward (tab (2 * B) (fun j => if (pos <=? j) && (j <? pos + n) then nth (j - pos) b 0%R else nth j w 0%R)) in
  let Y := mac_hist P M (cell mat) (hist ++ [X]) in
  exists c', (exists inout', splice inout done (tab n (fun i => synth (2 * B) Y (pos + i) + nth (pos + i) carry 0)%R) = Ok inout' /\
    oac_step (c, inout, done) = Ok (c', inout', done + n)) /\
    if pos + n =? B then oac_inv (hist ++ [X]) (repeat 0%R (2 * B)) 0 (tab B (fun i => synth (2 * B) Y (B + i))) c'
    else oac_inv hist (tab (2 * B) (synth (2 * B) Y)) (pos + n) carry c'.
Proof.
  intros hist w0 pos carry c inout done b [] Hn Hb Hs n X Y. pose proof Bp as HB. unfold oac_step. fold n in Hn, Hb, Hs.
  rewrite oi_block0, oi_pos0.
  assert (Hlen : done + n <= length inout) by lia.
  assert (En : (if B <? pos then length inout - done else Nat.min (length inout - done) (B - pos)) = n).
  { destruct (Nat.ltb_spec B pos); lia. }
  rewrite En, Hs. cbn [bind].
  rewrite oi_window0. rewrite (copy_into_ok _ 0%R) by (fold n; lia). cbn [bind]. rewrite oi_wlen0.
  destruct oi_plan0 as (RO & RM & RB). assert (RI : rf_inv (S k) (ac_plan c)) by (split; auto).
  assert (E2B : 2 ^ S k = 2 * B) by (apply Nat.pow_succ_r').
  fold n. match goal with |- context [rfft_forward _ ?v _] => set (w := v) in * end.
  assert (Lw : length w = 2 * B) by apply tab_length.
  destruct (rfft_forward_ok (S k) (ac_plan c) w (ac_bins c)) as (p1 & E1 & I1); [lia | exact RI | congruence | |].
  { rewrite E2B, half_of_double, oi_bins0. unfold M. lia. }
  rewrite E1. cbn [bind]. clear E1. rewrite E2B, half_of_double, skipn_all2, app_nil_r by (rewrite oi_bins0; unfold M; lia).
  fold X. assert (LX : length X = M) by (unfold X; rewrite RDFT_list_length, Lw, half_of_double; reflexivity).
  unfold dense_fdl_insert. rewrite (rd_ok _ _ (ac_current c) []) by (destruct oi_fdl0 as [-> _]; auto). cbn [bind].
  rewrite copy_full by (rewrite LX; symmetry; apply (matrix_row _ P M _ _ oi_fdl0); auto). cbn [bind]. rewrite map_id.
  rewrite wr_ok by (destruct oi_fdl0 as [-> _]; auto). cbn [bind]. set (line := upd (ac_fdl c) (ac_current c) X).
  assert (Ll : matrix_of P M line).
  { split. { unfold line. rewrite upd_length. apply oi_fdl0. } intros r Hr. destruct (In_nth _ _ [] Hr) as (j & Hj & <-).
    unfold line in *. rewrite upd_length in Hj. rewrite nth_upd. destruct oi_fdl0 as [L W].
    destruct (_ && _); auto. apply W. apply nth_In. auto. }
  assert (Hh' : forall Z, In Z (hist ++ [X]) -> length Z = M).
  { intros Z HZ. apply in_app_or in HZ. destruct HZ as [HZ|[<-|[]]]; auto. }
  assert (A0 : aged M (hist ++ [X]) 0 = X).
  { unfold aged. rewrite app_length. cbn [length]. destruct (Nat.ltb_spec 0 (length hist + 1)); [|lia].
    replace (length hist + 1 - 1 - 0) with (length hist) by lia. rewrite app_nth2, Nat.sub_diag by lia. reflexivity. }
  assert (AS : forall a, aged M (hist ++ [X]) (S a) = aged M hist a).
  { intros a. unfold aged. rewrite app_length. cbn [length].
    destruct (Nat.ltb_spec (S a) (length hist + 1)), (Nat.ltb_spec a (length hist)); try lia; auto.
    rewrite app_nth1 by lia. f_equal. lia. }
  assert (HV : forall a, a < P -> nth (wrap (ac_current c + a)) line [] = aged M (hist ++ [X]) a).
  { intros a Ha. unfold line. rewrite nth_upd. destruct a.
    - rewrite A0. assert (W : wrap (ac_current c + 0) = ac_current c) by (unfold wrap; rewrite Nat.add_0_r; destruct (Nat.leb_spec P (ac_current c)); lia).
      rewrite W, Nat.eqb_refl. destruct (Nat.ltb_spec (ac_current c) (length (ac_fdl c))); auto. destruct oi_fdl0 as [L _]. lia.
    - rewrite AS. rewrite <- oi_rows0 by lia. assert (W : wrap (ac_current c + S a) <> ac_current c) by (unfold wrap; destruct (Nat.leb_spec P (ac_current c + S a)); lia).
      apply Nat.eqb_neq in W. rewrite W. reflexivity. }
  rewrite oi_seg0, oi_filter0.
  assert (ET : (if pos =? 0 then oac_tail P (ac_current c) line mat (ac_tmp c) else Ok (ac_tmp c)) = Ok (tail_sum hist)).
  { destruct (Nat.eqb_spec pos 0) as [E0|E0]; [|now rewrite oi_tail0].
    destruct (tail_ok (ac_current c) line (ac_tmp c) (hist ++ [X]) oi_cur0 Ll oi_tmp0 Hh' HV) as (tmp & -> & ->). f_equal.
    apply tab_ext. intros j Hj. apply Csum_ext. intros a Ha. now rewrite AS. }
  rewrite ET. cbn [bind]. clear ET. assert (Vt : tail_sum hist = tail_sum hist) by reflexivity. set (tmp := tail_sum hist) in Vt at 1 |- *.
  assert (Ltmp : length tmp = M) by (rewrite Vt; apply tab_length).
  rewrite copy_full by congruence. cbn [bind]. rewrite map_id.
  rewrite (rd_ok _ _ (ac_current c) []) by (destruct Ll as [-> _]; auto). cbn [bind].
  rewrite mac_ok; [| lia | apply (matrix_row _ P M _ _ Ll); auto | exact Ltmp]. cbn [bind].
  rewrite copy_full by (rewrite tab_length; auto). cbn [bind]. rewrite map_id.
  match goal with |- context [rfft_backward p1 ?y _] => assert (EY : y = Y) end.
  { unfold Y, mac_hist. apply tab_ext. intros j Hj. rewrite Vt; unfold tail_sum; rewrite nth_tab by auto.
    pose proof (HV 0 HP) as H0. rewrite Nat.add_0_r in H0. unfold wrap in H0. destruct (Nat.leb_spec P (ac_current c)); [lia|]. rewrite H0.
    assert (G : forall a, (if a <? length (hist ++ [X]) then nth j (nth (length (hist ++ [X]) - 1 - a) (hist ++ [X]) []) C0 * cell mat a j else C0)%C =
      (nth j (aged M (hist ++ [X]) a) C0 * cell mat a j)%C).
    { intros a. unfold aged. destruct (a <? length (hist ++ [X])); [reflexivity|]. rewrite nth_repeat. ring. }
    rewrite (Csum_ext P _ (fun a => nth j (aged M (hist ++ [X]) a) C0 * cell mat a j)%C) by (intros; apply G).
    replace P with (S (P - 1)) at 2 by lia. rewrite Csum_first.
    rewrite (Csum_ext (P - 1) (fun a => nth j (aged M (hist ++ [X]) (S a)) C0 * cell mat (S a) j)%C (fun a => nth j (aged M hist a) C0 * cell mat (S a) j)%C) by (intros; rewrite AS; reflexivity). ring. }
  rewrite EY. clear EY. assert (LY : length Y = M) by (unfold Y, mac_hist; apply tab_length).
  destruct (rfft_backward_ok (S k) p1 Y w) as (p2 & E2 & I2); [lia | exact I1 | | congruence |].
  { rewrite E2B, half_of_double, LY. unfold M. lia. }
  rewrite E2. cbn [bind]. rewrite scale_map. cbn [bind]. replace (S k - 1) with k by lia. fold B. rewrite map_tab, E2B, RO, E2B.
  assert (ES : tab (2 * B) (fun i => IRDFT B (fun j => nth j Y C0) i * (1 / INR (2 * B)))%R = tab (2 * B) (synth (2 * B) Y)).
  { apply tab_ext. intros i Hi. unfold synth. rewrite half_of_double. field. apply INR_nz. lia. }
  rewrite ES. clear ES.
  set (y := synth (2 * B) Y).
  rewrite (slice_spec _ 0%R _ pos (pos + n)) by (rewrite ?tab_length; lia). cbn [bind].
  rewrite (slice_spec _ 0%R (ac_overlap c) pos (pos + n)) by lia. cbn [bind].
  replace (pos + n - pos) with n by lia.
  unfold add_r. rewrite linalg_binary_ok by (cbn [contents]; rewrite ?tab_length; reflexivity). cbn [bind contents].
  rewrite (zip_with_tab _ _ _ _ _ _ 0%R 0%R) by (rewrite !tab_length; auto). rewrite tab_length.
  match goal with |- context [bind (splice inout done ?l) _] => assert (EO : l = tab n (fun i => y (pos + i)%nat + nth (pos + i) carry 0)%R) end.
  { apply tab_ext. intros i Hi. rewrite !nth_tab by lia. destruct oi_carry0 as [_ ->]; auto. lia. }
  rewrite EO. clear EO.
  destruct (splice_spec _ 0%R inout (tab n (fun i => y (pos + i)%nat + nth (pos + i) carry 0)%R) done) as (io & Eio & _). { rewrite tab_length. lia. }
  rewrite Eio. cbn [bind]. destruct (Nat.eqb_spec (pos + n) B) as [Efull|Efull].
  2:{ eexists. split. { exists io. split; reflexivity. }
    constructor; cbn [ac_block ac_segments ac_pos ac_current ac_plan ac_window ac_overlap ac_bins ac_fdl ac_filter ac_acc ac_tmp]; auto; try apply tab_length.
    - lia.
    - intros a Ha. rewrite <- AS. apply HV. auto. }
  rewrite (slice_spec _ 0%R _ B (B * 2)) by (rewrite ?tab_length; lia). cbn [bind].
  rewrite (copy_into_ok _ 0%R) by (rewrite ?tab_length; lia). cbn [bind].
  rewrite fill_ok, tab_length. cbn [bind].
  eexists. split. { exists io. split; reflexivity. }
  assert (HC : (if 0 <? ac_current c then ac_current c - 1 else P - 1) < P) by (destruct (Nat.ltb_spec 0 (ac_current c)); lia).
  constructor; cbn [ac_block ac_segments ac_pos ac_current ac_plan ac_window ac_overlap ac_bins ac_fdl ac_filter ac_acc ac_tmp]; auto; try apply tab_length.
  - apply repeat_length.
  - rewrite tab_length. auto.
  - split; [apply tab_length|]. intros i Hi. rewrite !nth_tab by lia. rewrite tab_length.
    replace (B * 2 - B) with B by lia.
    destruct (Nat.leb_spec 0 i), (Nat.ltb_spec i (0 + B)); cbn [andb]; try lia.
    rewrite Nat.sub_0_r. reflexivity.
  - congruence.
  - intros a Ha. assert (W : wrap ((if 0 <? ac_current c then ac_current c - 1 else P - 1) + S a) = wrap (ac_current c + a)).
    { unfold wrap. destruct (Nat.ltb_spec 0 (ac_current c));
      repeat match goal with |- context [?a <=? ?b] => destruct (Nat.leb_spec a b) end; lia. }
    rewrite W. apply HV. lia.
Qed.

Lemma oac_filter_ok : forall c, ac_pos c = 0 -> ac_current c < P ->
  exists c', oac_filter c P M mat = Ok c' /\ oac_inv [] (repeat 0%R (2 * B)) 0 (repeat 0%R B) c'.
Proof.
  intros c Hp Hc. pose proof Bp as HB. unfold oac_filter. replace (0 <? M) with true by (symmetry; apply Nat.ltb_lt; unfold M; lia).
  cbn [guard bind]. replace (M - 1) with B by (unfold M; lia). replace (B * 2) with (2 ^ S k) by (rewrite Nat.pow_succ_r'; unfold B; lia).
  assert (Hmax : 2 ^ S k <= 2 ^ max_order) by (apply Nat.pow_le_mono_r; lia).
  rewrite next_order_ok; [|rewrite pow2_Z; change (2 ^ 63)%Z with (2 ^ Z.of_nat 63)%Z; apply Z.pow_le_mono_r; unfold max_order in *; lia].
  cbn [bind]. rewrite Nat.log2_up_pow2 by lia.
  destruct (make_rfft_ok (S k)) as (pl & E & I); [lia|]. rewrite E. cbn [bind].
  pose proof (dense_filter_ok P M mat (ac_filter c) Hm) as Ef. cbn in Ef. rewrite Ef. cbn [bind].
  assert (E2B : 2 ^ S k = 2 * B) by (apply Nat.pow_succ_r'). rewrite E2B, half_of_double. fold M.
  eexists. split; [reflexivity|].
  constructor; cbn [ac_block ac_segments ac_pos ac_current ac_plan ac_window ac_overlap ac_bins ac_fdl ac_filter ac_acc ac_tmp]; auto; try apply repeat_length.
  - split; [apply repeat_length|]. intros i Hi. rewrite !nth_repeat. reflexivity.
  - split; [apply repeat_length|]. intros r Hr. apply repeat_spec in Hr. subst r. apply repeat_length.
  - congruence.
  - intros X [].
  - intros a Ha. unfold aged. cbn [length Nat.ltb Nat.leb]. destruct (a <? 0) eqn:E0; [apply Nat.ltb_lt in E0; lia|].
    rewrite (nth_indep _ [] (repeat C0 M)). { apply nth_repeat. } rewrite repeat_length. unfold wrap. destruct (Nat.leb_spec P (ac_current c + S a)); lia.
Qed.
End Step.

Section Stream.
Variables (k P : nat) (mat : list (list C)).
Hypothesis Hk : 0 < k < max_order.
Hypothesis HP : 0 < P.
Hypothesis Hm : matrix_of P (2 ^ k + 1) mat.
Variable all : list (list R).
Hypothesis Hall : blocks_of (2 ^ k) all.
Let B := 2 ^ k.
Let F := cell mat.

Definition oac_carry (t : nat) : list R :=
  tab B (fun i => if t =? 0 then 0%R else synth (2 * B) (mac_hist P (B + 1) F (oa_hist B B all t)) (B + i)).
Definition oac_at (t : nat) (c : oac) : Prop := oac_inv k P mat (oa_hist B B all t) (repeat 0%R (2 * B)) 0 (oac_carry t) c.
Definition oac_outs (t n : nat) : list (list R) := tab n (fun u => tab B (upola_out k P F all (t + u))).

Lemma oac_blocks : forall bs past rest c pre fuel N, all = past ++ bs ++ rest -> oac_at (length past) c ->
  length bs <= fuel -> N = length pre + length (concat bs) ->
  exists c', while_fuel fuel (fun s => snd s <? N) oac_step (c, pre ++ concat bs, length pre) =
    Ok (c', pre ++ concat (oac_outs (length past) (length bs)), N) /\ oac_at (length past + length bs) c'.
Proof.
  pose proof (Bp k P Hk HP) as HB. fold B in HB.
  induction bs as [|b bs]; intros past rest c pre fuel N Ea Ic Hf HN.
  - cbn [concat length] in *. rewrite Nat.add_0_r in *. subst N. rewrite while_stop by (cbn [snd]; apply Nat.ltb_irrefl).
    exists c. split; auto.
  - destruct fuel; [cbn [length] in Hf; lia|].
    assert (Lb : length b = B) by (apply Hall; rewrite Ea; apply in_or_app; right; left; reflexivity).
    cbn [concat] in *. rewrite app_length in HN.
    rewrite while_step by (cbn [snd]; apply Nat.ltb_lt; lia).
    destruct (oac_step_ok k P mat Hk HP Hm _ _ _ _ _ (pre ++ b ++ concat bs) (length pre) b Ic) as (c1 & (io & Eio & E1) & I1).
    { lia. } { rewrite !app_length, Lb, Nat.sub_0_r. fold B. lia. }
    { rewrite slice_ok by (rewrite ?app_length; lia). rewrite skipn_app, skipn_all2, Nat.sub_diag by lia.
      cbn [app skipn]. rewrite Nat.add_comm, Nat.add_sub, firstn_app, firstn_all, Nat.sub_diag. cbn [firstn]. now rewrite app_nil_r. }
    rewrite E1. cbn [bind]. clear E1. fold B in Eio, I1 |- *. rewrite Lb in *. cbn [Nat.add] in I1. rewrite Nat.eqb_refl in I1.
    assert (EW : tab (2 * B) (fun j => if (0 <=? j) && (j <? B) then nth (j - 0) b 0%R else nth j (repeat 0%R (2 * B)) 0%R) = oa_win B B all (length past)).
    { unfold oa_win, oa_blk. pose proof (K_is_2B k (proj1 Hk)) as EK. fold B in EK. rewrite EK. apply tab_ext. intros j Hj.
      rewrite nth_repeat, Nat.sub_0_r. destruct (Nat.leb_spec 0 j); [|lia]. cbn [andb].
      destruct (Nat.ltb_spec j B) as [Hj'|Hj']; auto. unfold B at 1. rewrite nth_concat_blocks; [| exact Hall | rewrite Ea, app_length; cbn [length app]; lia | exact Hj'].
      rewrite Ea, app_nth2, Nat.sub_diag by lia. reflexivity. }
    cbn [Nat.add] in Eio.
    rewrite EW in Eio, I1.
    assert (EH : oa_hist B B all (length past) ++ [RDFT_list Forward (oa_win B B all (length past))] = oa_hist B B all (S (length past))).
    { unfold oa_hist. rewrite tab_snoc. reflexivity. }
    rewrite EH in Eio, I1.
    assert (EO : tab B (fun i => synth (2 * B) (mac_hist P (B + 1) (cell mat) (oa_hist B B all (S (length past)))) i + nth i (oac_carry (length past)) 0)%R
      = tab B (upola_out k P F all (length past))).
    { apply tab_ext. intros i Hi. unfold oac_carry. rewrite nth_tab by auto. reflexivity. }
    rewrite EO in Eio. clear EO.
    set (o := tab B (upola_out k P F all (length past))) in *. assert (Lo : length o = B) by apply tab_length.
    assert (Ex : io = (pre ++ o) ++ concat bs).
    { unfold splice in Eio. rewrite Lo in Eio. destruct (_ <=? _) in Eio; [|discriminate]. inversion Eio. subst io.
      rewrite <- app_assoc. rewrite firstn_app, firstn_all, Nat.sub_diag. cbn [firstn]. rewrite app_nil_r. f_equal. f_equal.
      rewrite skipn_app. rewrite (skipn_all2 pre) by lia. cbn [app]. rewrite skipn_app. rewrite (skipn_all2 b) by lia. cbn [app].
      rewrite Lb. replace (length pre + B - length pre - B) with 0 by lia. reflexivity. }
    rewrite Ex. replace (length pre + B) with (length (pre ++ o)) by (rewrite app_length; lia).
    destruct (IHbs (past ++ [b]) rest c1 (pre ++ o) fuel N) as (c2 & E2 & I2).
    + rewrite Ea, <- app_assoc. reflexivity.
    + rewrite app_length. cbn [length]. rewrite Nat.add_1_r. exact I1.
    + cbn [length] in Hf. lia.
    + rewrite app_length. lia.
    + rewrite E2. exists c2. rewrite app_length in *. cbn [length] in *. rewrite Nat.add_1_r in *. split.
      * f_equal. f_equal. f_equal. rewrite <- app_assoc. f_equal. unfold oac_outs. rewrite tab_cons. cbn [concat].
        rewrite Nat.add_0_r. fold o. f_equal. f_equal. apply tab_ext. intros u Hu. f_equal. f_equal. lia.
      * rewrite Nat.add_succ_r. exact I2.
Qed.

Lemma oac_run_ok : forall bs past rest c, all = past ++ bs ++ rest -> oac_at (length past) c ->
  exists c', oac_run c (concat bs) = Ok (c', concat (oac_outs (length past) (length bs))) /\ oac_at (length past + length bs) c'.
Proof.
  intros bs past rest c Ea Ic. pose proof (Bp k P Hk HP) as HB.
  destruct (oac_blocks bs past rest c [] (length (concat bs)) (length (concat bs))) as (c' & E & I); auto.
  { clear Ic. assert (Hb : blocks_of (2 ^ k) bs) by (intros x Hx; apply Hall; rewrite Ea; apply in_or_app; right; apply in_or_app; auto).
    rewrite (concat_blocks_length _ _ Hb). nia. }
  unfold oac_run. cbn [app length] in E. rewrite E. cbn [bind]. eauto.
Qed.

Lemma oac_stream_ok : forall calls past c, all = past ++ concat calls -> oac_at (length past) c ->
  exists c' ys, oac_stream c (map (@concat R) calls) = Ok (c', ys) /\ map (@length R) ys = map (@length R) (map (@concat R) calls) /\
    concat ys = concat (oac_outs (length past) (length (concat calls))) /\ oac_at (length all) c'.
Proof.
  induction calls as [|bs calls]; intros past c Ea Ic; cbn [map oac_stream concat length].
  - exists c, []. split; [reflexivity|split; [reflexivity|split; [reflexivity|]]].
    replace (length all) with (length past); [exact Ic|]. rewrite Ea. cbn [concat]. now rewrite app_nil_r.
  - destruct (oac_run_ok bs past (concat calls) c Ea Ic) as (c1 & E1 & I1). rewrite E1. cbn [bind].
    destruct (IHcalls (past ++ bs) c1) as (c2 & ys & E2 & L2 & V2 & I2).
    { rewrite <- app_assoc. exact Ea. }
    { rewrite app_length. exact I1. }
    assert (Hbs : blocks_of (2 ^ k) bs).
    { intros x Hx; apply Hall; rewrite Ea; cbn [concat]; apply in_or_app; right; apply in_or_app; auto. }
    rewrite E2. cbn [bind]. eexists _, _. split; [reflexivity|]. split; [|split; [|exact I2]].
    + cbn [map]. f_equal; auto. rewrite (concat_blocks_length (2 ^ k) bs Hbs), (concat_blocks_length (2 ^ k)).
      { unfold oac_outs. now rewrite tab_length. }
      intros x Hx. unfold oac_outs, tab in Hx. apply in_map_iff in Hx. destruct Hx as (u & <- & _). apply tab_length.
    + cbn [concat]. rewrite V2. rewrite <- concat_app. f_equal. unfold oac_outs. rewrite !app_length, tab_app. f_equal.
      apply tab_ext. intros u Hu. f_equal. f_equal. lia.
Qed.
End Stream.

Lemma chop_blocks : forall b x, blocks_of b (chop b x).
Proof. intros b x y Hy. unfold chop, tab in Hy. apply in_map_iff in Hy. destruct Hy as (t & <- & _). apply tab_length. Qed.

Lemma chop_concat : forall b x q, 0 < b -> length x = q * b -> concat (chop b x) = x /\ length (chop b x) = q.
Proof.
  intros b x q Hb Hx. assert (Hq : length x / b = q) by (rewrite Hx; apply Nat.div_mul; lia).
  split; [|unfold chop; now rewrite tab_length]. unfold chop. rewrite Hq. rewrite (concat_tab_blocks b q (fun t i => nth (t * b + i) x 0%R)).
  rewrite <- Hx. symmetry. rewrite (tab_nth _ 0%R x) at 1. apply tab_ext. intros i Hi. f_equal.
  rewrite (Nat.div_mod_eq i b) at 1. lia.
Qed.

Lemma whole_chop : forall b calls, 0 < b -> whole_blocks b calls ->
  map (@concat R) (map (chop b) calls) = calls /\ concat (map (chop b) calls) = chop b (concat calls) /\
  exists q, length (concat calls) = q * b.
Proof.
  intros b calls Hb. induction calls as [|x calls IH]; intros Hw.
  - cbn. split; auto. split; [|exists 0; auto]. unfold chop. cbn [length]. rewrite Nat.div_0_l by lia. reflexivity.
  - destruct (IH ltac:(intros y Hy; apply Hw; right; auto)) as (E1 & E2 & (q & E3)).
    destruct (Hw x ltac:(left; auto)) as (r & Er). destruct (chop_concat b x r Hb Er) as [C1 C2].
    cbn [map concat]. rewrite C1, E1, E2. split; auto. rewrite app_length, Er, E3. split; [|exists (r + q); lia].
    unfold chop. rewrite app_length, Er, E3. rewrite <- Nat.mul_add_distr_r, !Nat.div_mul by lia. rewrite tab_app. f_equal.
    + apply tab_ext. intros t Ht. apply tab_ext. intros i Hi. rewrite app_nth1; auto. nia.
    + apply tab_ext. intros t Ht. apply tab_ext. intros i Hi. rewrite app_nth2 by nia. f_equal. nia.
Qed.

(** filter(), then calls made of whole blocks. *)
Lemma v2_use_ok : forall k P mat c calls, 0 < k < max_order -> 0 < P -> matrix_of P (2 ^ k + 1) mat ->
  ac_pos c = 0 -> ac_current c < P -> whole_blocks (2 ^ k) calls ->
  exists c' ys, v2_use c P (2 ^ k + 1) mat calls = Ok (c', ys) /\ map (@length R) ys = map (@length R) calls /\
    concat ys = concat (kind_outs Upola k P (cell mat) (chop (2 ^ k) (concat calls))) /\
    ac_pos c' = 0 /\ ac_current c' < P.
Proof.
  intros k P mat c calls Hk HP Hm Hp Hc Hw. pose proof (Bp k P Hk HP) as HB.
  destruct (whole_chop _ _ HB Hw) as (E1 & E2 & E3).
  destruct (oac_filter_ok k P mat Hk HP Hm c Hp Hc) as (c0 & Ec & Ic).
  unfold v2_use. rewrite Ec. cbn [bind].
  destruct (oac_stream_ok k P mat Hk HP Hm (chop (2 ^ k) (concat calls)) (chop_blocks _ _) (map (chop (2 ^ k)) calls) [] c0) as (c1 & ys & Es & Ls & Vs & Is).
  { rewrite E2. reflexivity. }
  { cbn [length]. unfold oac_at, oac_carry, oa_hist. cbn [Nat.eqb tab seq map]. 
    replace (tab (2 ^ k) (fun _ => 0%R)) with (repeat 0%R (2 ^ k)). { exact Ic. }
    apply (list_eq_tab _ 0%R). { apply repeat_length. } intros i Hi. apply nth_repeat. }
  rewrite E1 in Es, Ls. rewrite Es. exists c1, ys. split; [reflexivity|]. split; [exact Ls|]. split.
  - rewrite Vs. unfold oac_outs, kind_outs. rewrite E2. reflexivity.
  - split; [apply Is|apply Is].
Qed.

Lemma make_oac_ok : exists c, make_oac = Ok c /\ ac_pos c = 0 /\ ac_current c = 0.
Proof.
  unfold make_oac. rewrite next_order_ok by (vm_compute; discriminate). cbn [bind].
  destruct (make_rfft_ok (Nat.log2_up 4)) as (p & E & _). { vm_compute. lia. }
  rewrite E. cbn [bind]. eexists. split; [reflexivity|]. split; reflexivity.
Qed.

Lemma v2_matrix_ok : forall k P mat calls, 0 < k < max_order -> 0 < P -> matrix_of P (2 ^ k + 1) mat ->
  whole_blocks (2 ^ k) calls ->
  exists ys outs, v2_matrix P (2 ^ k + 1) mat calls = Ok ys /\
    convolver Upola P (2 ^ k + 1) mat (chop (2 ^ k) (concat calls)) = Ok outs /\
    concat ys = concat outs /\ map (@length R) ys = map (@length R) calls.
Proof.
  intros k P mat calls Hk HP Hm Hw. destruct make_oac_ok as (c & E & Ep & Ec).
  destruct (v2_use_ok k P mat c calls Hk HP Hm Ep ltac:(lia) Hw) as (c1 & ys & E1 & L1 & V1 & _).
  exists ys, (kind_outs Upola k P (cell mat) (chop (2 ^ k) (concat calls))). unfold v2_matrix. rewrite E. cbn [bind]. rewrite E1. cbn [bind].
  split; [reflexivity|]. split; [|split; auto].
  apply (convolver_ok Upola k P mat); auto. cbn. auto. apply chop_blocks.
Qed.

Lemma v2_response_ok : forall k h c calls, 0 < k < max_order -> 0 < length h ->
  (Z.of_nat (length h) < 2 ^ 64)%Z -> (Z.of_nat (ceil_div (length h) (2 ^ k)) * Z.of_nat (2 ^ k + 1) < max_elements)%Z ->
  ac_pos c = 0 -> ac_current c < ceil_div (length h) (2 ^ k) -> whole_blocks (2 ^ k) calls ->
  exists c' ys, v2_response c (2 ^ k) h calls = Ok (c', ys) /\ map (@length R) ys = map (@length R) calls /\
    concat ys = tab (length (concat calls)) (lconv (concat calls) h) /\
    ac_pos c' = 0 /\ ac_current c' < ceil_div (length h) (2 ^ k).
Proof.
  intros k h c calls Hk Hh H64 Hmax Hp Hc Hw.
  assert (El : Nat.log2_up (2 ^ k) = k) by (apply Nat.log2_up_pow2; lia).
  assert (HB : 2 <= 2 ^ k) by (change 2 with (2 ^ 1) at 1; apply Nat.pow_le_mono_r; lia).
  assert (HM : 2 * 2 ^ k <= 2 ^ max_order) by (rewrite <- Nat.pow_succ_r'; apply Nat.pow_le_mono_r; lia).
  unfold v2_response. rewrite partition_one by (rewrite ?El; auto; lia). cbn [bind rd nth_error].
  pose proof (partition_matrix (2 ^ k) h ltac:(lia)) as Hm.
  pose proof (P_pos (2 ^ k) h HB Hh ltac:(rewrite El; exact HM)) as HP.
  rewrite (rd_ok _ _ 0 []) by (destruct Hm as [-> _]; exact HP). cbn [bind].
  rewrite (matrix_row _ _ _ _ 0 Hm HP). destruct Hm as [Lm Wm]. rewrite Lm.
  assert (Hm : matrix_of (ceil_div (length h) (2 ^ k)) (2 ^ k + 1) (partition_spectra (2 ^ k) h)).
  { split; auto. intros r Hr. rewrite (Wm r Hr), El. reflexivity. }
  rewrite El.
  destruct (v2_use_ok k _ _ c calls Hk HP Hm Hp Hc Hw) as (c' & ys & E & L & V & R1 & R2).
  exists c', ys. split; [exact E|]. split; [exact L|]. split; [|split; auto].
  destruct (whole_chop (2 ^ k) _ ltac:(lia) Hw) as (_ & _ & (q & Eq)).
  destruct (chop_concat (2 ^ k) (concat calls) q ltac:(lia) Eq) as [Cc _].
  destruct (partitioned_pow2 Upola k h (chop (2 ^ k) (concat calls)) I Hk Hh H64 Hmax I (chop_blocks _ _)) as (outs & Eo & Vo & _).
  rewrite Cc in Vo. rewrite <- Vo, V. f_equal.
  unfold partitioned in Eo. rewrite partition_one in Eo by (rewrite ?El; auto; lia). cbn [bind rd nth_error] in Eo.
  rewrite (rd_ok _ _ 0 []) in Eo by (destruct Hm as [-> _]; exact HP). cbn [bind] in Eo.
  rewrite (matrix_row _ _ _ _ 0 Hm HP), Lm in Eo.
  rewrite (convolver_ok Upola k) in Eo; auto; [|cbn; auto|apply chop_blocks]. now inversion Eo.
Qed.

(** One partition with the response 0, 1 and blocks of two samples: every transform of the
    window comes back one sample later. *)
Lemma delay_synth : forall hist w j, length w = 4 -> j < 4 ->
  synth 4 (mac_hist 1 3 (cell (partition_spectra 2 [0; 1]%R)) (hist ++ [RDFT_list Forward w])) j = nth ((j + 3) mod 4) w 0%R.
Proof.
  intros hist w j Hw Hj.
  assert (E1 : mac_hist 1 3 (cell (partition_spectra 2 [0; 1]%R)) (hist ++ [RDFT_list Forward w]) =
    mac_hist 1 (2 + 1) (part_spec 2 [0; 1]%R) (tab 1 (fun u => RDFT_list Forward w))).
  { unfold mac_hist. apply tab_ext. intros i Hi. rewrite !Csum_S. cbn [Csum]. rewrite !app_length, tab_length. cbn [length].
    destruct (Nat.ltb_spec 0 (length hist + 1)); [|lia]. replace (length hist + 1 - 1 - 0) with (length hist) by lia.
    rewrite app_nth2, Nat.sub_diag by lia. cbn [nth Nat.ltb Nat.leb Nat.sub]. rewrite nth_tab by lia. f_equal. }
  rewrite E1. change 4 with (2 * 2) at 1. rewrite (synth_mac 2 1 [0; 1]%R (fun _ => w) 0 j) by (auto; lia).
  unfold Rsum. cbn [bsum Nat.leb]. change (2 * 2) with 4. rewrite rcconv4.
  assert (E2 : forall i, i < 4 -> nth i (pad 4 (part 2 [0; 1]%R 0)) 0%R = nth i [0; 1; 0; 0]%R 0%R).
  { intros i Hi. destruct i as [|[|[|[|]]]]; try lia; reflexivity. }
  rewrite (E2 0), (E2 1), (E2 2), (E2 3) by lia. cbn [nth]. ring.
Qed.

Definition part_block_calls : list (list R) := [[0; 0; 1]; [0; 0; 0]]%R.

Lemma while_more : forall St f (c : St -> bool) b s s', c s = true -> b s = Ok s' -> while_fuel (S f) c b s = while_fuel f c b s'.
Proof. intros. rewrite while_step by auto. rewrite H0. reflexivity. Qed.

Lemma part_block_wrong : exists ys, partitioned_v2 2 [0; 1]%R part_block_calls = Ok ys /\
  nth 3 (concat ys) 0%R = 0%R /\ lconv (concat part_block_calls) [0; 1]%R 3 = 1%R.
Proof.
  unfold partitioned_v2. destruct make_oac_ok as (c & E & Ep & Ec). rewrite E. cbn [bind]. clear E.
  unfold v2_response. rewrite partition_one; [| lia | change (2 * 2) with (2 ^ 2); apply Nat.pow_le_mono_r; unfold max_order; lia | cbn; lia | reflexivity | reflexivity]. cbn [bind rd nth_error].
  pose proof (partition_matrix 2 [0; 1]%R ltac:(lia)) as Hm. change (ceil_div (length [0; 1]%R) 2) with 1 in Hm. change (2 ^ Nat.log2_up 2 + 1) with 3 in Hm.
  set (mat := partition_spectra 2 [0; 1]%R) in *.
  rewrite (rd_ok _ _ 0 []) by (destruct Hm as [-> _]; lia). cbn [bind].
  rewrite (matrix_row _ _ _ _ 0 Hm ltac:(lia)). rewrite (proj1 Hm). unfold v2_use.
  assert (Hk : 0 < 1 < max_order) by (unfold max_order; lia).
  destruct (oac_filter_ok 1 1 mat Hk ltac:(lia) Hm c Ep ltac:(lia)) as (c0 & E0 & I0). change (2 ^ 1 + 1) with 3 in E0. rewrite E0. cbn [bind].
  change (2 ^ 1) with 2 in I0. change (2 * 2) with 4 in I0.
  pose proof (oac_step_ok 1 1 mat Hk ltac:(lia) Hm) as ST. cbv zeta in ST. change (2 ^ 1) with 2 in ST. change (2 * 2) with 4 in ST. change (2 + 1) with 3 in ST.
  unfold part_block_calls, oac_stream, oac_run. cbn [length].
  (* the first block *)
  destruct (ST _ _ _ _ _ [0; 0; 1]%R 0 [0; 0]%R I0) as (c1 & (io1 & Eio1 & E1) & I1); [cbn; lia | reflexivity | reflexivity|].
  cbn [length] in Eio1, I1, E1. change (0 + 2) with 2 in *. cbn [Nat.eqb] in I1. rewrite (while_more _ 2 _ _ _ _ eq_refl E1).
  assert (Z0 : forall j, j < 4 -> nth j (tab 4 (fun j => if (0 <=? j) && (j <? 2) then nth (j - 0) [0; 0]%R 0%R else nth j (repeat 0%R 4) 0%R)) 0%R = 0%R).
  { intros j Hj. destruct j as [|[|[|[|]]]]; try lia; reflexivity. }
  set (w1 := tab 4 _) in *. assert (L1 : length w1 = 4) by reflexivity.
  assert (V1 : forall j, j < 4 -> synth 4 (mac_hist 1 3 (cell mat) ([] ++ [RDFT_list Forward w1])) j = 0%R).
  { intros j Hj. unfold mat. rewrite delay_synth by auto. apply Z0. apply Nat.mod_upper_bound. lia. }
  cbn [tab seq map] in Eio1. rewrite !V1 in Eio1 by lia. cbn in Eio1. rewrite Rplus_0_l in Eio1. inversion Eio1. subst io1. clear Eio1.
  (* one sample *)
  destruct (ST _ _ _ _ _ [0; 0; 1]%R 2 [1]%R I1) as (c2 & (io2 & Eio2 & E2) & I2); [cbn; lia | reflexivity | reflexivity|].
  cbn [length] in Eio2, I2, E2. change (0 + 1) with 1 in *. change (2 + 1) with 3 in *. cbn [Nat.eqb] in I2. rewrite (while_more _ 1 _ _ _ _ eq_refl E2).
  set (w2 := tab 4 (fun j => if (0 <=? j) && (j <? 1) then _ else _)) in *. assert (L2 : length w2 = 4) by reflexivity.
  assert (Z2 : forall j, j < 4 -> nth j w2 0%R = nth j [1; 0; 0; 0]%R 0%R).
  { intros j Hj. destruct j as [|[|[|[|]]]]; try lia; reflexivity. }
  set (h1 := [] ++ [RDFT_list Forward w1]) in *.
  assert (V2 : forall j, j < 4 -> synth 4 (mac_hist 1 3 (cell mat) (h1 ++ [RDFT_list Forward w2])) j = nth j [0; 1; 0; 0]%R 0%R).
  { intros j Hj. unfold mat. rewrite delay_synth by auto. rewrite Z2 by (apply Nat.mod_upper_bound; lia).
    destruct j as [|[|[|[|]]]]; try lia; reflexivity. }
  assert (W2 : tab 4 (synth 4 (mac_hist 1 3 (cell mat) (h1 ++ [RDFT_list Forward w2]))) = [0; 1; 0; 0]%R).
  { cbn [tab seq map]. rewrite !V2 by lia. reflexivity. }
  rewrite W2 in I2. 
  assert (O1 : tab 2 (fun i => synth 4 (mac_hist 1 3 (cell mat) h1) (2 + i)) = [0; 0]%R).
  { cbn [tab seq map]. rewrite !V1 by lia. reflexivity. }
  rewrite O1 in I2, Eio2. rewrite tab_1 in Eio2. cbn [Nat.add] in Eio2. rewrite V2 in Eio2 by lia. cbn in Eio2. inversion Eio2. subst io2. clear Eio2.
  rewrite while_stop by reflexivity. cbn [bind].
  (* the second call: the rest of the block *)
  destruct (ST _ _ _ _ _ [0; 0; 0]%R 0 [0]%R I2) as (c3 & (io3 & Eio3 & E3) & I3); [cbn; lia | reflexivity | reflexivity|].
  cbn [length] in Eio3, I3, E3. change (1 + 1) with 2 in *. change (0 + 1) with 1 in *. cbn [Nat.eqb] in I3. rewrite (while_more _ 2 _ _ _ _ eq_refl E3).
  set (w3 := tab 4 (fun j => if (1 <=? j) && (j <? 2) then _ else _)) in *. assert (L3 : length w3 = 4) by reflexivity.
  assert (Z3 : forall j, j < 4 -> nth j w3 0%R = 0%R).
  { intros j Hj. destruct j as [|[|[|[|]]]]; try lia; reflexivity. }
  assert (V3 : forall j, j < 4 -> synth 4 (mac_hist 1 3 (cell mat) (h1 ++ [RDFT_list Forward w3])) j = 0%R).
  { intros j Hj. unfold mat. rewrite delay_synth by auto. apply Z3. apply Nat.mod_upper_bound; lia. }
  rewrite tab_1 in Eio3. cbn [Nat.add] in Eio3. rewrite V3 in Eio3 by lia. cbn in Eio3. inversion Eio3. subst io3. clear Eio3.
  (* its last two samples *)
  match type of I3 with oac_inv _ _ _ ?hh ?ww ?pp ?cc ?c' => 
    destruct (ST hh ww pp cc c' [0 + 0; 0; 0]%R 1 [0; 0]%R I3) as (c4 & (io4 & Eio4 & E4) & I4); [cbn; lia | reflexivity | reflexivity|] end.
  cbn [length] in Eio4, E4. change (1 + 2) with 3 in *. rewrite (while_more _ 1 _ _ _ _ eq_refl E4). 
  rewrite while_stop by reflexivity. cbn [bind]. eexists. split; [reflexivity|].
  cbn [tab seq map] in Eio4. cbn in Eio4. inversion Eio4. subst io4. split.
  - cbn. ring.
  - unfold lconv, Rsum. cbn. ring.
Qed.

(** A delay line with fewer rows than the current segment. *)
Lemma v2_use_short : forall k P mat c x calls, 0 < k < max_order -> 0 < P -> matrix_of P (2 ^ k + 1) mat ->
  ac_pos c = 0 -> P <= ac_current c -> 0 < length x -> v2_use c P (2 ^ k + 1) mat (x :: calls) = UB.
Proof.
  intros k P mat c x calls Hk HP Hm Hp Hc Hx. pose proof (Bp k P Hk HP) as HB.
  unfold v2_use, oac_filter. replace (0 <? 2 ^ k + 1) with true by (symmetry; apply Nat.ltb_lt; lia). cbn [guard bind].
  replace (2 ^ k + 1 - 1) with (2 ^ k) by lia. replace (2 ^ k * 2) with (2 ^ S k) by (rewrite Nat.pow_succ_r'; lia).
  rewrite next_order_ok; [|rewrite pow2_Z; change (2 ^ 63)%Z with (2 ^ Z.of_nat 63)%Z; apply Z.pow_le_mono_r; unfold max_order in *; lia].
  cbn [bind]. rewrite Nat.log2_up_pow2 by lia.
  destruct (make_rfft_ok (S k)) as (pl & E & I); [lia|]. rewrite E. cbn [bind].
  pose proof (dense_filter_ok P (2 ^ k + 1) mat (ac_filter c) Hm) as Ef. cbn in Ef. rewrite Ef. cbn [bind].
  assert (E2B : 2 ^ S k = 2 * 2 ^ k) by (apply Nat.pow_succ_r'). set (B := 2 ^ k) in *. rewrite E2B, half_of_double.
  cbn [oac_stream]. unfold oac_run. destruct (length x) as [|f] eqn:Lx; [lia|].
  rewrite while_step by (cbn [snd]; apply Nat.ltb_lt; lia).
  unfold oac_step. cbn [ac_block ac_segments ac_pos ac_current ac_plan ac_window ac_overlap ac_bins ac_fdl ac_filter ac_acc ac_tmp].
  rewrite Hp, Lx. set (n := if B <? 0 then _ else _). assert (Hn : n <= S f /\ n <= B) by (unfold n; destruct (Nat.ltb_spec B 0); lia).
  rewrite slice_ok by lia. cbn [bind].
  rewrite (copy_into_ok _ 0%R) by (rewrite ?firstn_length, ?skipn_length, ?repeat_length, ?Lx; lia). cbn [bind].
  match goal with |- context [rfft_forward _ ?v _] => set (w := v) in * end.
  assert (Lw : length w = 2 ^ S k) by (unfold w; rewrite tab_length, repeat_length; auto).
  destruct (rfft_forward_ok (S k) pl w (repeat C0 (B + 1))) as (p1 & E1 & I1); auto. { lia. } { rewrite E2B, half_of_double, repeat_length. lia. }
  rewrite E1. cbn [bind]. unfold dense_fdl_insert.
  rewrite rd_ub by (rewrite repeat_length; lia). reflexivity.
Qed.

Lemma step_current : forall c inout done c' inout' done', oac_step (c, inout, done) = Ok (c', inout', done') ->
  done < done' -> ac_pos c' = 0 -> ac_current c' = if 0 <? ac_current c then ac_current c - 1 else ac_segments c - 1.
Proof.
  intros c inout done c' inout' done' H Hd Hp. unfold oac_step in H.
  set (n := if ac_block c <? ac_pos c then length inout - done else Nat.min (length inout - done) (ac_block c - ac_pos c)) in H.
  repeat (apply bind_ok in H; destruct H as (? & _ & H); repeat match goal with v : _ * _ |- _ => destruct v end).
  destruct (ac_pos c + n =? ac_block c).
  - repeat (apply bind_ok in H; destruct H as (? & _ & H)). inversion H. reflexivity.
  - inversion H; subst. cbn in Hp. lia.
Qed.

(** One block, then a response with fewer partitions. *)
Lemma v2_use_block : forall k P mat c x, 0 < k < max_order -> 0 < P -> matrix_of P (2 ^ k + 1) mat ->
  ac_pos c = 0 -> ac_current c < P -> length x = 2 ^ k ->
  exists c' ys, v2_use c P (2 ^ k + 1) mat [x] = Ok (c', ys) /\ ac_pos c' = 0 /\
    ac_current c' = if 0 <? ac_current c then ac_current c - 1 else P - 1.
Proof.
  intros k P mat c x Hk HP Hm Hp Hc Hx. pose proof (Bp k P Hk HP) as HB.
  destruct (oac_filter_ok k P mat Hk HP Hm c Hp Hc) as (c0 & Ec & Ic). unfold v2_use. rewrite Ec. cbn [bind oac_stream].
  assert (E0 : ac_current c0 = ac_current c).
  { unfold oac_filter in Ec. repeat (apply bind_ok in Ec; destruct Ec as (? & _ & Ec)). inversion Ec. reflexivity. }
  destruct (oac_step_ok k P mat Hk HP Hm _ _ _ _ c0 x 0 x Ic) as (c1 & (io & _ & E1) & I1); [lia | lia | |].
  { rewrite slice_ok by lia. cbn [Nat.add skipn]. now rewrite Nat.sub_0_r, firstn_all. }
  cbn [Nat.add] in *. rewrite <- Hx, Nat.eqb_refl in I1.
  unfold oac_run. rewrite Hx in *. destruct (2 ^ k) as [|f] eqn:EB; [lia|].
  rewrite (while_more _ f _ _ _ _ eq_refl E1), while_stop by (cbn [snd]; apply Nat.ltb_irrefl). cbn [bind].
  eexists _, _. split; [reflexivity|]. assert (P1 : ac_pos c1 = 0) by apply I1. split; [exact P1|].
  rewrite (step_current _ _ _ _ _ _ E1) by (auto; lia). rewrite E0. destruct Ic. rewrite oi_seg0. reflexivity.
Qed.

Lemma response_matrix : forall k h, 0 < k < max_order -> 0 < length h ->
  (Z.of_nat (length h) < 2 ^ 64)%Z -> (Z.of_nat (ceil_div (length h) (2 ^ k)) * Z.of_nat (2 ^ k + 1) < max_elements)%Z ->
  exists mat, 0 < ceil_div (length h) (2 ^ k) /\ matrix_of (ceil_div (length h) (2 ^ k)) (2 ^ k + 1) mat /\
    forall c calls, v2_response c (2 ^ k) h calls = v2_use c (ceil_div (length h) (2 ^ k)) (2 ^ k + 1) mat calls.
Proof.
  intros k h Hk Hh H64 Hmax.
  assert (El : Nat.log2_up (2 ^ k) = k) by (apply Nat.log2_up_pow2; lia).
  assert (HB : 2 <= 2 ^ k) by (change 2 with (2 ^ 1) at 1; apply Nat.pow_le_mono_r; lia).
  assert (HM : 2 * 2 ^ k <= 2 ^ max_order) by (rewrite <- Nat.pow_succ_r'; apply Nat.pow_le_mono_r; lia).
  pose proof (partition_matrix (2 ^ k) h ltac:(lia)) as Hm. rewrite El in Hm.
  pose proof (P_pos (2 ^ k) h HB Hh ltac:(rewrite El; exact HM)) as HP.
  exists (partition_spectra (2 ^ k) h). split; [exact HP|]. split; [exact Hm|]. intros c calls.
  unfold v2_response. rewrite partition_one by (rewrite ?El; auto; lia). cbn [bind rd nth_error].
  rewrite (rd_ok _ _ 0 []) by (destruct Hm as [-> _]; exact HP). cbn [bind].
  rewrite (matrix_row _ _ _ _ 0 Hm HP). rewrite (proj1 Hm). reflexivity.
Qed.

Lemma fewer_partitions_ub : forall k1 h1 x1 k2 h2 x2 calls2,
  0 < k1 < max_order -> 0 < length h1 -> (Z.of_nat (length h1) < 2 ^ 64)%Z ->
  (Z.of_nat (ceil_div (length h1) (2 ^ k1)) * Z.of_nat (2 ^ k1 + 1) < max_elements)%Z ->
  0 < k2 < max_order -> 0 < length h2 -> (Z.of_nat (length h2) < 2 ^ 64)%Z ->
  (Z.of_nat (ceil_div (length h2) (2 ^ k2)) * Z.of_nat (2 ^ k2 + 1) < max_elements)%Z ->
  ceil_div (length h2) (2 ^ k2) < ceil_div (length h1) (2 ^ k1) -> length x1 = 2 ^ k1 -> 0 < length x2 ->
  partitioned_v2_twice (2 ^ k1) h1 [x1] (2 ^ k2) h2 (x2 :: calls2) = UB.
Proof.
  intros k1 h1 x1 k2 h2 x2 calls2 Hk1 Hh1 H641 Hm1 Hk2 Hh2 H642 Hm2 Hlt Hx1 Hx2.
  destruct (response_matrix k1 h1 Hk1 Hh1 H641 Hm1) as (m1 & P1 & M1 & E1).
  destruct (response_matrix k2 h2 Hk2 Hh2 H642 Hm2) as (m2 & P2 & M2 & E2).
  unfold partitioned_v2_twice. destruct make_oac_ok as (c & E & Ep & Ec). rewrite E. cbn [bind].
  rewrite E1. destruct (v2_use_block k1 _ m1 c x1 Hk1 P1 M1 Ep ltac:(lia) Hx1) as (c1 & ys & Eu & Pp & Cc).
  rewrite Eu. cbn [bind]. rewrite E2. rewrite Ec in Cc. cbn [Nat.ltb Nat.leb] in Cc.
  rewrite (v2_use_short k2 _ m2 c1 x2 calls2 Hk2 P2 M2 Pp); auto. lia.
Qed.

Lemma twice_ok : forall k1 h1 calls1 k2 h2 calls2,
  0 < k1 < max_order -> 0 < length h1 -> (Z.of_nat (length h1) < 2 ^ 64)%Z ->
  (Z.of_nat (ceil_div (length h1) (2 ^ k1)) * Z.of_nat (2 ^ k1 + 1) < max_elements)%Z ->
  0 < k2 < max_order -> 0 < length h2 -> (Z.of_nat (length h2) < 2 ^ 64)%Z ->
  (Z.of_nat (ceil_div (length h2) (2 ^ k2)) * Z.of_nat (2 ^ k2 + 1) < max_elements)%Z ->
  ceil_div (length h1) (2 ^ k1) <= ceil_div (length h2) (2 ^ k2) ->
  whole_blocks (2 ^ k1) calls1 -> whole_blocks (2 ^ k2) calls2 ->
  exists ys, partitioned_v2_twice (2 ^ k1) h1 calls1 (2 ^ k2) h2 calls2 = Ok ys /\
    map (@length R) ys = map (@length R) calls2 /\
    concat ys = tab (length (concat calls2)) (lconv (concat calls2) h2).
Proof.
  intros k1 h1 calls1 k2 h2 calls2 Hk1 Hh1 H641 Hm1 Hk2 Hh2 H642 Hm2 Hle W1 W2.
  unfold partitioned_v2_twice. destruct make_oac_ok as (c & E & Ep & Ec). rewrite E. cbn [bind].
  destruct (response_matrix k1 h1 Hk1 Hh1 H641 Hm1) as (_ & P1 & _).
  destruct (v2_response_ok k1 h1 c calls1 Hk1 Hh1 H641 Hm1 Ep ltac:(lia) W1) as (c1 & ys1 & E1 & _ & _ & Pp & Cc).
  rewrite E1. cbn [bind].
  destruct (v2_response_ok k2 h2 c1 calls2 Hk2 Hh2 H642 Hm2 Pp ltac:(lia) W2) as (c2 & ys2 & E2 & L2 & V2 & _).
  rewrite E2. cbn [bind]. eauto.
Qed.
