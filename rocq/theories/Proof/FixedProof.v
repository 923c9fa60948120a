(** Proofs about fixed-point numbers and the SIMD array kernels. *)
From Coq Require Import ZArith List Bool Lia Arith.
From Verif Require Import Base.Outcome Base.OutcomeFacts Base.Alias.
From Verif Require Import Model.Integers Model.FixedPoint Model.Simd Proof.IntegersProof.
Import ListNotations.
Local Open Scope Z_scope.

(** 8- or 16-bit signed storage. *)
Definition narrow (t : ity) : Prop := t = int8 \/ t = int16.

Definition sat (t : ity) (v : Z) : Z := Z.max (imin t) (Z.min (imax t) v).

Lemma narrow_valid : forall t, narrow t -> valid_ity t.
Proof. intros t [->| ->]; unfold valid_ity, std_width; simpl; auto. Qed.

Lemma sat_fits : forall t v, narrow t -> fits t (sat t v).
Proof. intros t v [->| ->]; unfold sat, fits, imin, imax; simpl; lia. Qed.

Lemma saturate_ok : forall t v, narrow t -> fits int32 v -> saturate t v = Ok (sat t v).
Proof.
  intros t v Hn Hv. unfold saturate.
  assert (V32 : valid_ity int32) by (unfold valid_ity, std_width; simpl; auto).
  rewrite (iconv_fits int32 v) by auto.
  assert (F := sat_fits t v Hn).
  destruct Hn as [->| ->].
  - rewrite (iconv_fits int32 (imin int8)), (iconv_fits int32 (imax int8)) by (auto; unfold fits, imin, imax; simpl; lia).
    unfold clamp. change (imax int8 <? imin int8) with false. cbv iota. cbn [bind].
    replace (if v <? imin int8 then imin int8 else if imax int8 <? v then imax int8 else v) with (sat int8 v).
    + rewrite iconv_fits; auto. unfold valid_ity, std_width; simpl; auto.
    + unfold sat. destruct (Z.ltb_spec v (imin int8)); [|destruct (Z.ltb_spec (imax int8) v)]; unfold imin, imax in *; simpl in *; lia.
  - rewrite (iconv_fits int32 (imin int16)), (iconv_fits int32 (imax int16)) by (auto; unfold fits, imin, imax; simpl; lia).
    unfold clamp. change (imax int16 <? imin int16) with false. cbv iota. cbn [bind].
    replace (if v <? imin int16 then imin int16 else if imax int16 <? v then imax int16 else v) with (sat int16 v).
    + rewrite iconv_fits; auto. unfold valid_ity, std_width; simpl; auto.
    + unfold sat. destruct (Z.ltb_spec v (imin int16)); [|destruct (Z.ltb_spec (imax int16) v)]; unfold imin, imax in *; simpl in *; lia.
Qed.

Lemma narrow_bounds : forall t a, narrow t -> fits t a -> -32768 <= a <= 32767.
Proof. intros t a [->| ->]; unfold fits, imin, imax; simpl; lia. Qed.

Lemma narrow_promote : forall t, narrow t -> promote t = int32.
Proof. intros t [->| ->]; reflexivity. Qed.

Lemma fits32 : forall v, -2147483648 <= v <= 2147483647 -> fits int32 v.
Proof. intros. unfold fits, imin, imax. simpl. lia. Qed.

Lemma narrow_arith : forall t v, narrow t -> -2147483648 <= v <= 2147483647 -> iarith t v = Ok v.
Proof.
  intros. apply iarith_fits. { apply narrow_valid; auto. } rewrite narrow_promote by auto. apply fits32; auto.
Qed.

Lemma fp_add_ok : forall t a b, narrow t -> fits t a -> fits t b -> fp_add t a b = Ok (sat t (a + b)).
Proof.
  intros t a b Hn Ha Hb. apply narrow_bounds in Ha, Hb; auto. unfold fp_add.
  rewrite narrow_arith by (auto; lia). cbn [bind]. apply saturate_ok; auto. apply fits32. lia.
Qed.

Lemma fp_sub_ok : forall t a b, narrow t -> fits t a -> fits t b -> fp_sub t a b = Ok (sat t (a - b)).
Proof.
  intros t a b Hn Ha Hb. apply narrow_bounds in Ha, Hb; auto. unfold fp_sub.
  rewrite narrow_arith by (auto; lia). cbn [bind]. apply saturate_ok; auto. apply fits32. lia.
Qed.

Lemma fp_neg_ok : forall t a, narrow t -> fits t a -> fp_neg t a = Ok (sat t (- a)).
Proof.
  intros t a Hn Ha. unfold fp_neg. destruct (Z.eqb_spec a (imin t)).
  - subst. f_equal. destruct Hn as [->| ->]; reflexivity.
  - rewrite narrow_arith; auto. 2:{ apply narrow_bounds in Ha; auto. lia. } cbn [bind].
    rewrite iconv_fits.
    + f_equal. unfold sat, fits in *. destruct Hn as [->| ->]; unfold imin, imax in *; simpl in *; lia.
    + apply narrow_valid; auto.
    + unfold fits in *. destruct Hn as [->| ->]; unfold imin, imax in *; simpl in *; lia.
Qed.

Lemma mul_bounds : forall a b, -32768 <= a <= 32767 -> -32768 <= b <= 32767 -> -1073741824 <= a * b <= 1073741824.
Proof. intros. nia. Qed.

Lemma div_pow_bounds : forall v F M, 0 <= F -> 0 < M -> - M <= v <= M -> - M <= v / 2 ^ F <= M.
Proof.
  intros v F M HF HM H. assert (0 < 2 ^ F) by (apply Z.pow_pos_nonneg; lia).
  split.
  - apply Z.div_le_lower_bound; nia.
  - apply Z.div_le_upper_bound; nia.
Qed.

Lemma fp_mul_ok : forall t F a b, narrow t -> 0 <= F -> fits t a -> fits t b ->
  fp_mul t F a b = Ok (sat t ((a * b) / 2 ^ F)).
Proof.
  intros t F a b Hn HF Ha Hb. apply narrow_bounds in Ha, Hb; auto. unfold fp_mul.
  pose proof (mul_bounds a b Ha Hb).
  rewrite narrow_arith by (auto; lia). cbn [bind]. rewrite Z.shiftr_div_pow2 by auto.
  apply saturate_ok; auto. apply fits32.
  pose proof (div_pow_bounds (a * b) F 1073741824 HF). lia.
Qed.

(** For q7 and q15 only min * min needs clamping. *)
Lemma fp_mul_clamps : forall t a b, narrow t -> fits t a -> fits t b ->
  (a * b) / 2 ^ (iwidth t - 1) <= imax t \/ (a = imin t /\ b = imin t).
Proof.
  intros t a b Hn Ha Hb. destruct Hn as [->| ->].
  - change (2 ^ (iwidth int8 - 1)) with 128. change (imax int8) with 127 in *. change (imin int8) with (-128) in *.
    unfold fits in *. change (imax int8) with 127 in *. change (imin int8) with (-128) in *.
    destruct (Z.eq_dec a (-128)), (Z.eq_dec b (-128)); auto; left;
      (assert (a * b / 128 < 128); [apply Z.div_lt_upper_bound; nia|lia]).
  - change (2 ^ (iwidth int16 - 1)) with 32768. change (imax int16) with 32767 in *. change (imin int16) with (-32768) in *.
    unfold fits in *. change (imax int16) with 32767 in *. change (imin int16) with (-32768) in *.
    destruct (Z.eq_dec a (-32768)), (Z.eq_dec b (-32768)); auto; left;
      (assert (a * b / 32768 < 32768); [apply Z.div_lt_upper_bound; nia|lia]).
Qed.

Lemma fp_mul_low : forall t a b, narrow t -> fits t a -> fits t b ->
  imin t <= (a * b) / 2 ^ (iwidth t - 1).
Proof.
  intros t a b Hn Ha Hb. destruct Hn as [->| ->]; unfold fits, imin, imax in *; simpl in *;
    apply Z.div_le_lower_bound; nia.
Qed.

(** Component-wise complex sum and difference. *)
Lemma fpc_add_ok : forall t l r, narrow t -> fits t (fst l) -> fits t (snd l) -> fits t (fst r) -> fits t (snd r) ->
  fpc_add t l r = Ok (sat t (fst l + fst r), sat t (snd l + snd r)).
Proof. intros. unfold fpc_add. rewrite !fp_add_ok by auto. reflexivity. Qed.

Lemma fpc_sub_ok : forall t l r, narrow t -> fits t (fst l) -> fits t (snd l) -> fits t (fst r) -> fits t (snd r) ->
  fpc_sub t l r = Ok (sat t (fst l - fst r), sat t (snd l - snd r)).
Proof. intros. unfold fpc_sub. rewrite !fp_sub_ok by auto. reflexivity. Qed.

(** What the complex product really computes for q15. *)
Lemma fpc_mul_actual : forall l r, fits int16 (fst l) -> fits int16 (snd l) -> fits int16 (fst r) ->
  fpc_mul int16 l r =
  Ok ((fst l * fst r) / 2 ^ 17 - (snd l * snd l) / 2 ^ 17, (fst l * snd l) / 2 ^ 17 + (snd l * fst r) / 2 ^ 17).
Proof.
  intros [a b] [c d] Ha Hb Hc. simpl fst in *. simpl snd in *.
  assert (N : narrow int16) by (right; auto).
  apply narrow_bounds in Ha, Hb, Hc; auto. unfold fpc_mul. cbn [fst snd iwidth int16].
  change ((iwidth int16 =? 8) || (iwidth (promote int16) <=? (if iwidth int16 =? 16 then 17 else 33))) with false.
  change (if 16 =? 16 then 17 else 33) with 17. cbv iota.
  pose proof (mul_bounds a c Ha Hc). pose proof (mul_bounds b b Hb Hb).
  pose proof (mul_bounds a b Ha Hb). pose proof (mul_bounds b c Hb Hc).
  change (16 =? 8) with false. cbn [orb].
  rewrite !narrow_arith by (auto; lia). cbn [bind].
  change (iwidth (promote int16) <=? (if iwidth int16 =? 16 then 17 else 33)) with false. cbv iota.
  rewrite !Z.shiftr_div_pow2 by lia.
  assert (G : forall v, -1073741824 <= v <= 1073741824 -> -8192 <= v / 2 ^ 17 <= 8192).
  { intros v Hv. change (2 ^ 17) with 131072. split. apply Z.div_le_lower_bound; lia. apply Z.div_le_upper_bound; lia. }
  pose proof (G (a * c) ltac:(lia)). pose proof (G (b * b) ltac:(lia)).
  pose proof (G (a * b) ltac:(lia)). pose proof (G (b * c) ltac:(lia)).
  assert (V16 : valid_ity int16) by (apply narrow_valid; auto).
  rewrite !iarith_fits.
  - cbn [bind]. rewrite !iconv_fits by (auto; unfold fits, imin, imax; simpl; lia). reflexivity.
  - unfold valid_ity, std_width; simpl; auto.
  - change (promote (promote int16)) with int32. apply fits32. lia.
  - unfold valid_ity, std_width; simpl; auto.
  - change (promote (promote int16)) with int32. apply fits32. lia.
Qed.

(** ** SIMD loop *)
Definition lanewise (f : Z -> Z -> Z) (vs : nat) (k : list Z -> list Z -> list Z) : Prop :=
  forall l r, length l = vs -> length r = vs -> k l r = zip_with f l r.

Lemma apply_kernel_ok : forall vs scalar sf vector f lhs rhs out n,
  (0 < vs)%nat -> length out = n ->
  length (contents lhs out) = n -> length (contents rhs out) = n ->
  (forall a b, In a (contents lhs out) -> In b (contents rhs out) -> scalar a b = Ok (sf a b)) ->
  lanewise f vs vector ->
  apply_kernel vs scalar vector lhs rhs out =
  Ok (tab n (fun i => (if (i <? n mod vs)%nat then sf else f)
    (nth i (contents lhs out) 0) (nth i (contents rhs out) 0))).
Proof.
  intros vs scalar sf vector f lhs rhs out n Hvs Ho Hl Hr Hs Hv.
  unfold apply_kernel. rewrite Hl. cbv zeta.
  assert (Hrem : (n mod vs < vs)%nat) by (apply Nat.mod_upper_bound; lia).
  assert (Hle : (n mod vs <= n)%nat) by (apply Nat.mod_le; lia).
  set (rem := (n mod vs)%nat) in *.
  set (L := contents lhs out). set (R := contents rhs out).
  assert (GL : forall y, length y = n -> length (contents lhs y) = n)
    by (intros; rewrite <- Hl; apply contents_length; lia).
  assert (GR : forall y, length y = n -> length (contents rhs y) = n)
    by (intros; rewrite <- Hr; apply contents_length; lia).
  destruct (for_range_map Z 0 0%nat rem (fun i out =>
      a <- rd (contents lhs out) i ;; b <- rd (contents rhs out) i ;; v <- scalar a b ;; wr out i v)
      out (fun i => sf (nth i L 0) (nth i R 0))) as [o1 [E1 [L1 V1]]].
  - lia.
  - intros j y Hj Hy Hn.
    rewrite (rd_ok _ (contents lhs y) j 0) by (rewrite GL; lia).
    rewrite (rd_ok _ (contents rhs y) j 0) by (rewrite GR; lia). cbn [bind].
    rewrite (contents_nth _ lhs y out j 0), (contents_nth _ rhs y out j 0) by auto.
    rewrite Hs by (apply nth_In; lia). cbn [bind]. apply wr_ok. lia.
  - rewrite E1. cbn [bind].
    assert (Hc : n = (rem + (n / vs) * vs)%nat).
    { unfold rem. rewrite (Nat.div_mod n vs) at 1 by lia. lia. }
    rewrite (for_step_loop _ (n / vs) rem n vs) by (auto; lia).
    destruct (loop_touch Z 0 (n / vs) rem vs (fun i out =>
        left <- slice (contents lhs out) i (i + vs) ;;
        right <- slice (contents rhs out) i (i + vs) ;;
        splice out i (vector left right)) o1
      (fun j l => rem + j * vs <= l < rem + j * vs + vs)%nat
      (fun _ i => f (nth i L 0) (nth i R 0))) as [o2 [E2 [L2 [V2 F2]]]].
    + intros j j' l Hj Hj' Hne Hp Hp'. destruct (Nat.lt_ge_cases j j').
      * assert ((j + 1) * vs <= j' * vs)%nat by (apply Nat.mul_le_mono_r; lia). lia.
      * assert ((j' + 1) * vs <= j * vs)%nat by (apply Nat.mul_le_mono_r; lia). lia.
    + intros j y Hj Hy Hn.
      assert (B : (rem + j * vs + vs <= n)%nat).
      { assert ((j + 1) * vs <= n / vs * vs)%nat by (apply Nat.mul_le_mono_r; lia). lia. }
      assert (Ly : length y = n) by lia.
      rewrite (slice_spec _ 0 (contents lhs y)) by (rewrite ?GL; lia).
      rewrite (slice_spec _ 0 (contents rhs y)) by (rewrite ?GR; lia). cbn [bind].
      replace (rem + j * vs + vs - (rem + j * vs))%nat with vs by lia.
      rewrite Hv by apply tab_length.
      set (s := zip_with f _ _).
      assert (Ls : length s = vs). { unfold s. rewrite zip_with_length, !tab_length. lia. }
      destruct (splice_spec _ 0 y s (rem + j * vs)) as [y' [E [Ly' V]]]. { lia. }
      exists y'. split; [exact E|]. split; [lia|]. split.
      * intros l Hp. rewrite V, Ls.
        destruct (Nat.leb_spec (rem + j * vs) l); [|lia]. destruct (Nat.ltb_spec l (rem + j * vs + vs)); [|lia].
        cbn [andb]. unfold s. rewrite (nth_zip_with _ _ _ f _ _ _ 0 0) by (rewrite tab_length; lia).
        rewrite !nth_tab by lia. replace (rem + j * vs + (l - (rem + j * vs)))%nat with l by lia.
        assert (EN : nth l y 0 = nth l out 0).
        { rewrite Hn by auto. rewrite V1 by lia. destruct (Nat.ltb_spec l rem); [lia|]. rewrite andb_false_r. auto. }
        rewrite (contents_nth _ lhs y out l 0), (contents_nth _ rhs y out l 0) by auto. auto.
      * intros l Hp. rewrite V, Ls.
        destruct (Nat.leb_spec (rem + j * vs) l); auto. destruct (Nat.ltb_spec l (rem + j * vs + vs)); auto.
        exfalso. apply Hp. lia.
    + rewrite E2. f_equal. apply list_eq_tab with (d := 0). { lia. }
      intros i Hi. destruct (Nat.ltb_spec i rem).
      * rewrite F2. 2:{ intros j Hj Hp. lia. }
        rewrite V1 by lia. destruct (Nat.ltb_spec i rem); [|lia]. auto.
      * assert (Hd : ((i - rem) / vs < n / vs)%nat).
        { apply Nat.div_lt_upper_bound; lia. }
        assert (D := Nat.div_mod (i - rem) vs ltac:(lia)).
        assert (M := Nat.mod_upper_bound (i - rem) vs ltac:(lia)).
        apply (V2 ((i - rem) / vs)%nat); auto. lia.
Qed.

Lemma scalar_loop_ok : forall scalar sf lhs rhs out n, length out = n ->
  length (contents lhs out) = n -> length (contents rhs out) = n ->
  (forall a b, In a (contents lhs out) -> In b (contents rhs out) -> scalar a b = Ok (sf a b)) ->
  scalar_loop scalar lhs rhs out =
  Ok (tab n (fun i => sf (nth i (contents lhs out) 0) (nth i (contents rhs out) 0))).
Proof.
  intros scalar sf lhs rhs out n Ho Hl Hr Hs. unfold scalar_loop. rewrite Hl.
  apply for_range_tab with (d := 0); auto.
  intros j y Hj Hy Hn.
  rewrite (rd_ok _ (contents lhs y) j 0) by (rewrite (contents_length _ lhs y out); lia).
  rewrite (rd_ok _ (contents rhs y) j 0) by (rewrite (contents_length _ rhs y out); lia). cbn [bind].
  rewrite (contents_nth _ lhs y out j 0), (contents_nth _ rhs y out j 0) by auto.
  rewrite Hs by (apply nth_In; lia). cbn [bind]. apply wr_ok. lia.
Qed.

Lemma sat_lane_sat : forall t v, narrow t -> sat_lane (iwidth t) v = sat t v.
Proof. intros t v [->| ->]; reflexivity. Qed.

Lemma lanewise_lanes : forall f vs, lanewise f vs (lanes f).
Proof. intros f vs l r _ _. reflexivity. Qed.

Lemma zip_with_app : forall A B D (f : A -> B -> D) a b c d, length a = length c ->
  zip_with f (a ++ b) (c ++ d) = zip_with f a c ++ zip_with f b d.
Proof.
  intros A B D f a. induction a; intros b c d H; destruct c; simpl in *; try discriminate; auto.
  unfold zip_with in *. simpl. f_equal. apply IHa. lia.
Qed.

Lemma lanewise_halves : forall f h vs, (h <= vs)%nat ->
  lanewise f vs (fun l r => lanes f (firstn h l) (firstn h r) ++ lanes f (skipn h l) (skipn h r)).
Proof.
  intros f h vs Hh l r Hl Hr. unfold lanes. rewrite <- zip_with_app.
  - rewrite !firstn_skipn. auto.
  - rewrite !firstn_length. lia.
Qed.

Lemma tab_if_same : forall T n (c : nat -> bool) (f : nat -> T),
  tab n (fun i => if c i then f i else f i) = tab n f.
Proof. intros. apply tab_ext. intros. destruct (c i); auto. Qed.

Definition all_fit (t : ity) (l : list Z) : Prop := forall a, In a l -> fits t a.

Section ArrayOps.
Variable i : isa.
Variable t : ity.
Variable lhs rhs : operand Z.
Variable out : list Z.
Variable n : nat.
Hypothesis Hn : narrow t.
Hypothesis Ho : length out = n.
Hypothesis Hl : length (contents lhs out) = n.
Hypothesis Hr : length (contents rhs out) = n.
Hypothesis Fl : all_fit t (contents lhs out).
Hypothesis Fr : all_fit t (contents rhs out).

Lemma fixed_kernel_ok : forall scalar f vector,
  (forall a b, fits t a -> fits t b -> scalar a b = Ok (f a b)) ->
  (forall vs, lanewise f vs (vector (iwidth t))) ->
  apply_fixed_point_kernel i t scalar vector lhs rhs out =
  Ok (tab n (fun k => f (nth k (contents lhs out) 0) (nth k (contents rhs out) 0))).
Proof.
  intros scalar f vector Hs Hv. unfold apply_fixed_point_kernel.
  assert (S : scalar_loop scalar lhs rhs out =
    Ok (tab n (fun k => f (nth k (contents lhs out) 0) (nth k (contents rhs out) 0)))).
  { apply scalar_loop_ok; auto. }
  assert (K : forall vs, (0 < vs)%nat -> apply_kernel vs scalar (vector (iwidth t)) lhs rhs out =
    Ok (tab n (fun k => f (nth k (contents lhs out) 0) (nth k (contents rhs out) 0)))).
  { intros vs Hvs. rewrite (apply_kernel_ok vs scalar f (vector (iwidth t)) f lhs rhs out n); auto.
    f_equal. apply tab_ext. intros k Hk. destruct (k <? n mod vs)%nat; auto. }
  destruct Hn as [->| ->]; simpl iwidth in *.
  - destruct (has_simd i); simpl; auto. apply K. lia.
  - destruct (has_simd i); simpl; auto. apply K. lia.
Qed.

Lemma array_add_ok : array_add i t lhs rhs out =
  Ok (tab n (fun k => sat t (nth k (contents lhs out) 0 + nth k (contents rhs out) 0))).
Proof.
  unfold array_add. apply (fixed_kernel_ok (fp_add t) (fun a b => sat t (a + b))).
  - intros. apply fp_add_ok; auto.
  - intros vs l r Hl' Hr'. unfold add_kernel, lanes. unfold zip_with. apply map_ext. intros. apply sat_lane_sat; auto.
Qed.

Lemma array_sub_ok : array_subtract i t lhs rhs out =
  Ok (tab n (fun k => sat t (nth k (contents lhs out) 0 - nth k (contents rhs out) 0))).
Proof.
  unfold array_subtract. apply (fixed_kernel_ok (fp_sub t) (fun a b => sat t (a - b))).
  - intros. apply fp_sub_ok; auto.
  - intros vs l r Hl' Hr'. unfold sub_kernel, lanes. unfold zip_with. apply map_ext. intros. apply sat_lane_sat; auto.
Qed.

(** multiply without SSE4.1. *)
Lemma array_mul_ok : forall F, 0 <= F -> i <> Sse41 ->
  array_multiply i t F lhs rhs out =
  Ok (tab n (fun k => sat t ((nth k (contents lhs out) 0 * nth k (contents rhs out) 0) / 2 ^ F))).
Proof.
  intros F HF Hi.
  assert (S : scalar_loop (fp_mul t F) lhs rhs out =
    Ok (tab n (fun k => sat t ((nth k (contents lhs out) 0 * nth k (contents rhs out) 0) / 2 ^ F)))).
  { apply (scalar_loop_ok (fp_mul t F) (fun a b => sat t (a * b / 2 ^ F))); auto. intros. apply fp_mul_ok; auto. }
  unfold array_multiply. destruct i; auto; try congruence.
  destruct (Z.eqb_spec (iwidth t) 16); auto. destruct (Z.eqb_spec F 15); auto. cbn [andb]. subst F.
  assert (t = int16). { destruct Hn as [->| ->]; auto. discriminate. } subst t.
  rewrite (apply_kernel_ok 8 (fp_mul int16 15) (fun a b => sat int16 (a * b / 2 ^ 15)) neon_mul_kernel_s16
    (fun a b => sat int16 (a * b / 2 ^ 15)) lhs rhs out n); auto; try lia.
  - f_equal. apply tab_ext. intros k Hk. destruct (k <? n mod 8)%nat; auto.
  - intros. apply fp_mul_ok; auto.
  - intros l r _ _. unfold neon_mul_kernel_s16, lanes, zip_with. apply map_ext. intros [a b]. simpl fst. simpl snd.
    rewrite (sat_lane_sat int16) by auto. f_equal. rewrite Z.shiftr_div_pow2 by lia.
    change (2 ^ 16) with (2 * 2 ^ 15). replace (2 * a * b) with (2 * (a * b)) by ring.
    apply Z.div_mul_cancel_l; lia.
Qed.
End ArrayOps.

(** ** SSE4.1 products, lane by lane *)
Lemma sse8_lane : forall F a b, 1 <= F <= 7 -> fits int8 a -> fits int8 b ->
  sat_lane 8 (as_signed 16 (srli F (mullo 16 a b))) =
  if a * b <? 0 then 127 else sat int8 ((a * b) / 2 ^ F).
Proof.
  intros F a b HF Ha Hb. unfold fits, imin, imax in *. simpl in *.
  assert (P : -16256 <= a * b <= 16384) by nia.
  unfold srli, mullo, as_signed, iconv. cbn [isigned iwidth].
  change (16 - 1) with 15. change (2 ^ 15) with 32768. change (2 ^ 16) with 65536.
  rewrite Z.shiftr_div_pow2 by lia.
  assert (E2 : 2 <= 2 ^ F <= 128).
  { split. { change 2 with (2 ^ 1) at 1. apply Z.pow_le_mono_r; lia. }
    change 128 with (2 ^ 7). apply Z.pow_le_mono_r; lia. }
  destruct (Z.ltb_spec (a * b) 0).
  - replace ((a * b) mod 65536) with (a * b + 65536) by (apply Z.mod_unique_pos with (-1); lia).
    assert (384 <= (a * b + 65536) / 2 ^ F < 32768).
    { split. apply Z.div_le_lower_bound; nia. apply Z.div_lt_upper_bound; nia. }
    rewrite Z.mod_small by lia. unfold sat_lane. change (2 ^ (8 - 1)) with 128. lia.
  - rewrite (Z.mod_small (a * b)) by lia.
    assert (0 <= (a * b) / 2 ^ F <= 16384).
    { split. apply Z.div_pos; lia. apply Z.div_le_upper_bound; nia. }
    rewrite Z.mod_small by lia. rewrite (sat_lane_sat int8) by (left; auto).
    f_equal. lia.
Qed.

Lemma sse16_lane : forall F a b, 1 <= F <= 14 -> fits int16 a -> fits int16 b ->
  sat_lane 16 (as_signed 32 (srli F (mullo 32 a b))) =
  if a * b <? 0 then 32767 else sat int16 ((a * b) / 2 ^ F).
Proof.
  intros F a b HF Ha Hb. unfold fits, imin, imax in *. simpl in *.
  assert (P : -1073741824 <= a * b <= 1073741824) by nia.
  unfold srli, mullo, as_signed, iconv. cbn [isigned iwidth].
  change (32 - 1) with 31. change (2 ^ 31) with 2147483648. change (2 ^ 32) with 4294967296.
  rewrite Z.shiftr_div_pow2 by lia.
  assert (E2 : 2 <= 2 ^ F <= 16384).
  { split. { change 2 with (2 ^ 1) at 1. apply Z.pow_le_mono_r; lia. }
    change 16384 with (2 ^ 14). apply Z.pow_le_mono_r; lia. }
  destruct (Z.ltb_spec (a * b) 0).
  - replace ((a * b) mod 4294967296) with (a * b + 4294967296) by (apply Z.mod_unique_pos with (-1); lia).
    assert (32767 <= (a * b + 4294967296) / 2 ^ F < 2147483648).
    { split. apply Z.div_le_lower_bound; nia. apply Z.div_lt_upper_bound; nia. }
    rewrite Z.mod_small by lia. unfold sat_lane. change (2 ^ (16 - 1)) with 32768. lia.
  - rewrite (Z.mod_small (a * b)) by lia.
    assert (0 <= (a * b) / 2 ^ F <= 1073741824).
    { split. apply Z.div_pos; lia. apply Z.div_le_upper_bound; nia. }
    rewrite Z.mod_small by lia. rewrite (sat_lane_sat int16) by (right; auto).
    f_equal. lia.
Qed.

(** _mm_mulhrs_epi16 rounds to nearest instead of truncating; min * min wraps. *)
Lemma mulhrs_lane : forall a b, fits int16 a -> fits int16 b ->
  mulhrs a b = if (a =? -32768) && (b =? -32768) then -32768 else (a * b + 16384) / 32768.
Proof.
  intros a b Ha Hb. unfold fits, imin, imax in *. simpl in *.
  assert (P : -1073741824 <= a * b <= 1073741824) by nia.
  unfold mulhrs. rewrite !Z.shiftr_div_pow2 by lia. change (2 ^ 14) with 16384. change (2 ^ 1) with 2.
  replace (a * b / 16384 + 1) with ((a * b + 1 * 16384) / 16384) by (rewrite Z.div_add by lia; auto).
  rewrite Z.div_div by lia. change (16384 * 2) with 32768. rewrite Z.mul_1_l.
  unfold as_signed, iconv. cbn [isigned iwidth]. change (2 ^ (16 - 1)) with 32768. change (2 ^ 16) with 65536.
  destruct (Z.eqb_spec a (-32768)); [destruct (Z.eqb_spec b (-32768))|]; cbn [andb].
  - subst. reflexivity.
  - assert (-32768 <= (a * b + 16384) / 32768 < 32768).
    { split. apply Z.div_le_lower_bound; nia. apply Z.div_lt_upper_bound; nia. }
    rewrite Z.mod_small by lia. lia.
  - assert (-32768 <= (a * b + 16384) / 32768 < 32768).
    { split. apply Z.div_le_lower_bound; nia. apply Z.div_lt_upper_bound; nia. }
    rewrite Z.mod_small by lia. lia.
Qed.

(** On SSE4.1 the array product is scalar in the remainder and lane-wise beyond. *)
Lemma sse41_mul_s8 : forall F lhs rhs out n, 1 <= F <= 7 -> length out = n ->
  length (contents lhs out) = n -> length (contents rhs out) = n ->
  all_fit int8 (contents lhs out) -> all_fit int8 (contents rhs out) ->
  array_multiply Sse41 int8 F lhs rhs out =
  Ok (tab n (fun k => let p := nth k (contents lhs out) 0 * nth k (contents rhs out) 0 in
     if (k <? n mod 16)%nat then sat int8 (p / 2 ^ F)
     else if p <? 0 then 127 else sat int8 (p / 2 ^ F))).
Proof.
  intros F lhs rhs out n HF Ho Hl Hr Fl Fr. unfold array_multiply. change (iwidth int8 =? 8) with true. cbv iota.
  set (lane := fun a b => sat_lane 8 (as_signed 16 (srli F (mullo 16 a b)))).
  rewrite (apply_kernel_ok 16 (fp_mul int8 F) (fun a b => sat int8 (a * b / 2 ^ F)) (sse_mul_kernel_s8 F)
    lane lhs rhs out n); auto; try lia.
  - f_equal. apply tab_ext. intros k Hk. cbv zeta.
    destruct (k <? n mod 16)%nat; auto. unfold lane. apply sse8_lane; auto.
    + apply Fl. apply nth_In. lia.
    + apply Fr. apply nth_In. lia.
  - intros. apply fp_mul_ok; auto; try lia. left; auto.
  - intros l r H1 H2. unfold sse_mul_kernel_s8. apply (lanewise_halves lane 8 16); auto. lia.
Qed.

Lemma sse41_mul_s16 : forall F lhs rhs out n, 1 <= F <= 15 -> length out = n ->
  length (contents lhs out) = n -> length (contents rhs out) = n ->
  all_fit int16 (contents lhs out) -> all_fit int16 (contents rhs out) ->
  array_multiply Sse41 int16 F lhs rhs out =
  Ok (tab n (fun k => let a := nth k (contents lhs out) 0 in let b := nth k (contents rhs out) 0 in
     if (k <? n mod 8)%nat then sat int16 (a * b / 2 ^ F)
     else if F =? 15 then (if (a =? -32768) && (b =? -32768) then -32768 else (a * b + 16384) / 32768)
     else if a * b <? 0 then 32767 else sat int16 (a * b / 2 ^ F))).
Proof.
  intros F lhs rhs out n HF Ho Hl Hr Fl Fr. unfold array_multiply.
  change (iwidth int16 =? 8) with false. change (iwidth int16 =? 16) with true. cbv iota.
  set (lane := fun a b => if F =? 15 then mulhrs a b else sat_lane 16 (as_signed 32 (srli F (mullo 32 a b)))).
  rewrite (apply_kernel_ok 8 (fp_mul int16 F) (fun a b => sat int16 (a * b / 2 ^ F)) (sse_mul_kernel_s16 F)
    lane lhs rhs out n); auto; try lia.
  - f_equal. apply tab_ext. intros k Hk. cbv zeta.
    assert (fits int16 (nth k (contents lhs out) 0)) by (apply Fl; apply nth_In; lia).
    assert (fits int16 (nth k (contents rhs out) 0)) by (apply Fr; apply nth_In; lia).
    destruct (k <? n mod 8)%nat; auto. unfold lane. destruct (Z.eqb_spec F 15).
    + apply mulhrs_lane; auto.
    + apply sse16_lane; auto. lia.
  - intros. apply fp_mul_ok; auto; try lia. right; auto.
  - intros l r H1 H2. unfold sse_mul_kernel_s16, lane. destruct (F =? 15).
    + reflexivity.
    + apply (lanewise_halves (fun a b => sat_lane 16 (as_signed 32 (srli F (mullo 32 a b)))) 4 8); auto; lia.
Qed.
