(** Correctness of the radix-2 FFT model. *)
From Coq Require Import List Arith Bool Reals Lra Lia.
From Verif Require Import Base.Outcome Base.OutcomeFacts Base.Sums Base.Cplx.
From Verif Require Import Spec.Dft Spec.DigitRev Proof.DftTheory Proof.DigitRevTheory Model.Fft2.
Import ListNotations.
Open Scope outcome_scope.
Local Arguments Nat.div : simpl never.
Local Arguments Nat.modulo : simpl never.

(** * bit_log2 *)

Lemma bit_log2_loop : forall k fuel r, k <= fuel ->
  while_fuel fuel (fun s : nat * nat => 1 <? snd s)
    (fun s => Ok (fst s + 1, snd s / 2)) (r, 2 ^ k) = Ok (r + k, 1).
Proof.
  induction k; intros fuel r Hf.
  - destruct fuel; simpl; rewrite Nat.add_0_r; auto.
  - destruct fuel; [lia|].
    assert (Hp : 0 < 2 ^ k) by (apply pow_pos; lia).
    assert (E : while_fuel (S fuel) (fun s : nat * nat => 1 <? snd s)
      (fun s => Ok (fst s + 1, snd s / 2)) (r, 2 ^ S k) =
      while_fuel fuel (fun s : nat * nat => 1 <? snd s)
        (fun s => Ok (fst s + 1, snd s / 2)) (r + 1, 2 ^ S k / 2)).
    { unfold while_fuel at 1. unfold snd at 1.
      destruct (Nat.ltb_spec 1 (2 ^ S k)); [reflexivity|simpl in *; lia]. }
    rewrite E. rewrite Nat.pow_succ_r', Nat.mul_comm, Nat.div_mul by lia.
    rewrite IHk by lia. f_equal. f_equal. lia.
Qed.

Lemma le_pow2 : forall k, k <= 2 ^ k.
Proof.
  induction k; simpl; [lia|]. assert (0 < 2 ^ k) by (apply pow_pos; lia). lia.
Qed.

Lemma bit_log2_pow : forall k, bit_log2 (2 ^ k) = Ok k.
Proof.
  intros. unfold bit_log2. rewrite bit_log2_loop by apply le_pow2. simpl. auto.
Qed.

(** * Bit-reversal tables *)

Lemma land_1_mod : forall a, Nat.land a 1 = a mod 2.
Proof. intros. exact (Nat.land_ones a 1). Qed.

Lemma lor_disjoint : forall a b m, b < 2 ->
  Nat.lor (a * 2 ^ S m) (b * 2 ^ m) = a * 2 ^ S m + b * 2 ^ m.
Proof.
  intros a b m Hb.
  assert (L : Nat.land (a * 2 ^ S m) (b * 2 ^ m) = 0).
  { replace (a * 2 ^ S m) with ((2 * a) * 2 ^ m) by (simpl; lia).
    rewrite <- !Nat.shiftl_mul_pow2, <- Nat.shiftl_land.
    replace (Nat.land (2 * a) b) with 0; [apply Nat.shiftl_0_l|].
    destruct b as [|[|b]]; [symmetry; apply Nat.land_0_r| |lia].
    rewrite land_1_mod. rewrite Nat.mul_comm, Nat.mod_mul; lia. }
  rewrite Nat.add_nocarry_lxor by auto. rewrite Nat.lxor_lor by auto. auto.
Qed.

(** Partial reversal: the [j] lowest bits of [i], reversed into the top [j] of [k] bits. *)
Lemma digit_rev_partial : forall k j i, j <= k ->
  exists q, digit_rev 2 j i * 2 ^ (k - j) = q * 2 ^ (k - j).
Proof. intros. eexists. reflexivity. Qed.

Lemma digit_rev_step : forall j i,
  digit_rev 2 (S j) i = digit_rev 2 j i * 2 + (i / 2 ^ j) mod 2.
Proof.
  induction j; intros.
  - simpl. rewrite Nat.div_1_r. lia.
  - change (digit_rev 2 (S (S j)) i) with ((i mod 2) * 2 ^ S j + digit_rev 2 (S j) (i / 2)).
    rewrite IHj. change (digit_rev 2 (S j) i) with ((i mod 2) * 2 ^ j + digit_rev 2 j (i / 2)).
    rewrite Nat.div_div by (try apply Nat.pow_nonzero; lia).
    change (2 * 2 ^ j) with (2 ^ S j). simpl (2 ^ S j). lia.
Qed.

Lemma bitrev_inner : forall order i (table : list nat), i < length table -> nth i table 0 = 0 ->
  for_range 0 order (fun j table =>
      v <- rd table i ;;
      wr table i (Nat.lor v (Nat.shiftl (Nat.land (Nat.shiftr i j) 1) (order - 1 - j)))) table
  = Ok (upd table i (digit_rev 2 order i)).
Proof.
  intros order i table Hi H0.
  destruct (for_range_inv (list nat)
    (fun j t => t = upd table i (digit_rev 2 j i * 2 ^ (order - j))) 0 order
    (fun j table =>
      v <- rd table i ;;
      wr table i (Nat.lor v (Nat.shiftl (Nat.land (Nat.shiftr i j) 1) (order - 1 - j)))) table)
    as [t [E I]]; try lia.
  - simpl. apply list_eq_nth with (d := 0). rewrite upd_length; auto.
    intros n Hn. rewrite nth_upd. destruct (Nat.eqb_spec n i); simpl; auto.
    destruct (Nat.ltb_spec i (length table)); subst; auto.
  - intros j t Hj It. subst t.
    rewrite rd_ok with (d := 0) by (rewrite upd_length; auto). simpl bind.
    rewrite nth_upd_eq by auto.
    rewrite wr_ok by (rewrite upd_length; auto).
    eexists. split; [reflexivity|].
    assert (E : Nat.lor (digit_rev 2 j i * 2 ^ (order - j))
       (Nat.shiftl (Nat.land (Nat.shiftr i j) 1) (order - 1 - j)) = digit_rev 2 (S j) i * 2 ^ (order - S j)).
    { rewrite Nat.shiftl_mul_pow2, Nat.shiftr_div_pow2.
      rewrite land_1_mod.
      replace (order - j) with (S (order - S j)) by lia.
      replace (order - 1 - j) with (order - S j) by lia.
      rewrite lor_disjoint by (apply Nat.mod_upper_bound; lia).
      rewrite digit_rev_step. rewrite Nat.pow_succ_r'. nia. }
    rewrite E. apply list_eq_nth with (d := 0). rewrite !upd_length; auto.
    intros n Hn. rewrite !nth_upd, !upd_length.
    destruct (Nat.eqb_spec n i); simpl; auto.
    destruct (Nat.ltb_spec i (length table)); auto.
  - rewrite E, I. rewrite Nat.sub_diag. simpl. rewrite Nat.mul_1_r. auto.
Qed.

Lemma bitrev_make_ok : forall k, bitrev_make (2 ^ k) = Ok (tab (2 ^ k) (digit_rev 2 k)).
Proof.
  intros. unfold bitrev_make. rewrite bit_log2_pow. simpl bind.
  apply for_range_tab with (d := 0).
  - rewrite repeat_length. auto.
  - intros j l Hj HL HN. rewrite repeat_length in HL.
    apply bitrev_inner; try lia. rewrite HN. apply nth_repeat.
Qed.

Lemma bitrevorder_plan_ok : forall k, bitrevorder_plan k = Ok (tab (2 ^ k) (digit_rev 2 k)).
Proof. intros. unfold bitrevorder_plan. rewrite Nat.shiftl_1_l. apply bitrev_make_ok. Qed.

(** * Swap loops along an involution *)

Lemma swap_ok : forall T (x : list T) i j, i < length x -> j < length x ->
  exists x', swap x i j = Ok x' /\ length x' = length x /\
    forall d n, nth n x' d = if n =? j then nth i x d else if n =? i then nth j x d else nth n x d.
Proof.
  intros. unfold swap.
  destruct x as [|x0 xs] eqn:Ex; [simpl in *; lia|]. rewrite <- Ex in *.
  rewrite (rd_ok _ x i x0), (rd_ok _ x j x0) by auto. simpl bind.
  rewrite wr_ok by auto. simpl bind. rewrite wr_ok by (rewrite upd_length; auto).
  eexists. split; [reflexivity|]. split; [rewrite !upd_length; auto|].
  intros d n. rewrite !nth_upd, !upd_length.
  rewrite (nth_indep x x0 d) by auto. rewrite (nth_indep x x0 d H0) by auto.
  destruct (Nat.eqb_spec n j); simpl; auto.
  - destruct (Nat.ltb_spec j (length x)); auto; lia.
  - destruct (Nat.eqb_spec n i); simpl; auto.
    destruct (Nat.ltb_spec i (length x)); auto; lia.
Qed.

Lemma bitrev_apply_ok : forall T (d : T) n (s : nat -> nat) x,
  length x = n ->
  (forall i, i < n -> s i < n) -> (forall i, i < n -> s (s i) = i) ->
  bitrev_apply (tab n s) x = Ok (tab n (fun i => nth (s i) x d)).
Proof.
  intros T d n s x HL Hr Hi. unfold bitrev_apply. rewrite tab_length.
  destruct (for_range_who T d 0 n
    (fun i x => t <- rd (tab n s) i ;; if i <? t then swap x i t else Ok x)
    x (fun i => Nat.min i (s i)) (fun i => nth (s i) x d)) as [l' [E [L N]]].
  - intros j l Hj HLl HN.
    rewrite rd_ok with (d := 0) by (rewrite tab_length; lia). simpl bind.
    rewrite nth_tab by lia.
    assert (Hsj := Hr j (proj2 Hj)). assert (Hssj := Hi j (proj2 Hj)).
    destruct (Nat.ltb_spec j (s j)).
    + destruct (swap_ok T l j (s j)) as [l' [E [L N]]]; try lia.
      exists l'. split; auto. split; [lia|].
      intros i Hil. rewrite N.
      assert (Hsi := Hr i ltac:(lia)). assert (Hssi := Hi i ltac:(lia)).
      destruct (Nat.eqb_spec i (s j)).
      * subst i. rewrite Hssj. destruct (Nat.eqb_spec (Nat.min (s j) j) j); try lia.
        apply HN; lia.
      * destruct (Nat.eqb_spec i j).
        -- subst i. destruct (Nat.eqb_spec (Nat.min j (s j)) j); try lia.
           apply HN; try lia.
        -- destruct (Nat.eqb_spec (Nat.min i (s i)) j); auto.
           exfalso. assert (s i = j) by lia. apply n0. congruence.
    + exists l. split; auto. split; auto.
      intros i Hil.
      assert (Hsi := Hr i ltac:(lia)). assert (Hssi := Hi i ltac:(lia)).
      destruct (Nat.eqb_spec (Nat.min i (s i)) j); auto.
      assert (s i = i).
      { destruct (Nat.eq_dec i j); [subst i; lia|]. assert (s i = j) by lia.
        assert (i = s j) by congruence. lia. }
      rewrite H0. apply HN; auto.
  - rewrite E. f_equal. apply list_eq_tab with (d := d); try lia.
    intros i Hil. rewrite N by lia. simpl.
    destruct (Nat.ltb_spec (Nat.min i (s i)) n); auto; lia.
Qed.

Lemma bitrev_apply_rev : forall T (d : T) k x, length x = 2 ^ k ->
  bitrev_apply (tab (2 ^ k) (digit_rev 2 k)) x
  = Ok (tab (2 ^ k) (fun i => nth (digit_rev 2 k i) x d)).
Proof.
  intros. apply bitrev_apply_ok; auto.
  - intros. apply digit_rev_lt. lia.
  - intros. apply digit_rev_invol; auto.
Qed.

(** * Twiddle tables *)

Lemma twiddle_W : forall n k d, twiddle n k d = W d n k.
Proof. intros. unfold twiddle, W, Cexp, dsign. destruct d; auto. Qed.

Lemma make_twiddle_ok : forall n d,
  make_twiddle_lut_radix2 n d = Ok (tab (n / 2) (W d (n / 2 * 2))).
Proof.
  intros. unfold make_twiddle_lut_radix2.
  apply for_range_tab with (d := C0).
  - rewrite repeat_length. auto.
  - intros j l Hj HL _. rewrite repeat_length in HL. rewrite twiddle_W. apply wr_ok. lia.
Qed.

Lemma make_twiddle_pow : forall k d,
  make_twiddle_lut_radix2 (2 ^ S k) d = Ok (tab (2 ^ k) (W d (2 ^ S k))).
Proof.
  intros. rewrite make_twiddle_ok.
  rewrite Nat.pow_succ_r', (Nat.mul_comm 2), Nat.div_mul by lia. auto.
Qed.

(** * Block invariant of decimation in time, any radix *)

(** After [s] stages on the digit-reversed input, block [b] of size r^s holds the
    DFT of the subsequence of [x] with offset rev(b) and stride r^(p-s). *)
Definition dit_inv (d : direction) (r p s : nat) (x a : nat -> C) : Prop :=
  forall b k, b < r ^ (p - s) -> k < r ^ s ->
    a (b * r ^ s + k) =
    DFT d (r ^ s) (fun j => x (digit_rev r (p - s) b + j * r ^ (p - s))) k.

Lemma dit_inv_0 : forall d r p x a, 0 < r ->
  (forall i, i < r ^ p -> a i = x (digit_rev r p i)) -> dit_inv d r p 0 x a.
Proof.
  intros d r p x a Hr H b k Hb Hk. rewrite Nat.sub_0_r in *. simpl in Hk.
  assert (k = 0) by lia. subst k. simpl. rewrite Nat.mul_1_r, Nat.add_0_r.
  rewrite H by auto. unfold DFT, Csum. simpl.
  rewrite Nat.add_0_r. rewrite W_0. ring.
Qed.

Lemma dit_inv_step : forall d r p s x a a', 0 < r -> s < p ->
  dit_inv d r p s x a ->
  (forall b k q, b < r ^ (p - S s) -> k < r ^ s -> q < r ->
     a' (b * r ^ S s + (q * r ^ s + k)) =
     Csum r (fun t => W d (r ^ S s) (t * (q * r ^ s + k)) * a ((b * r + t) * r ^ s + k)%nat)%C) ->
  dit_inv d r p (S s) x a'.
Proof.
  intros d r p s x a a' Hr Hs HI HA b K Hb HK.
  assert (Hm := pow_pos r s Hr).
  rewrite (Nat.div_mod K (r ^ s)) by lia.
  set (q := K / r ^ s). set (k := K mod r ^ s).
  assert (Hq : q < r). { apply Nat.div_lt_upper_bound; try lia. simpl in HK. lia. }
  assert (Hk : k < r ^ s) by (apply Nat.mod_upper_bound; lia).
  rewrite (Nat.mul_comm (r ^ s) q).
  rewrite HA by auto.
  change (r ^ S s) with (r * r ^ s) at 2.
  rewrite DFT_dit by auto.
  apply Csum_ext. intros t Ht.
  change (r ^ S s) with (r * r ^ s). f_equal.
  replace (p - s) with (S (p - S s)) in HI by lia.
  unfold dit_inv in HI.
  replace (p - s) with (S (p - S s)) in HI by lia.
  rewrite HI; auto.
  2:{ simpl. nia. }
  rewrite (Nat.add_comm (q * r ^ s) k), (Nat.mul_comm q), DFT_periodic by auto.
  apply DFT_ext. intros j Hj. f_equal.
  rewrite digit_rev_snoc by auto. simpl. lia.
Qed.

Lemma dit_inv_end : forall d r p x a, dit_inv d r p p x a ->
  forall k, k < r ^ p -> a k = DFT d (r ^ p) x k.
Proof.
  intros d r p x a H k Hk. specialize (H 0 k). rewrite Nat.sub_diag in H. simpl in H.
  rewrite H; auto.
  apply DFT_ext. intros. f_equal. lia.
Qed.

(** * Radix-2 stages *)

Lemma dit2_butterfly_ok : forall tw i1 i2 (x : list C), i1 < length x -> i2 < length x -> i1 <> i2 ->
  exists x', dit2_butterfly tw i1 i2 x = Ok x' /\ length x' = length x /\
   forall i, nth i x' C0 =
     if i =? i1 then (nth i1 x C0 + tw * nth i2 x C0)%C
     else if i =? i2 then (nth i1 x C0 - tw * nth i2 x C0)%C else nth i x C0.
Proof.
  intros. unfold dit2_butterfly.
  rewrite (rd_ok _ x i1 C0), (rd_ok _ x i2 C0) by auto. simpl bind.
  rewrite wr_ok by auto. simpl bind. rewrite wr_ok by (rewrite upd_length; auto).
  eexists. split; [reflexivity|]. split; [rewrite !upd_length; auto|].
  intros. rewrite !nth_upd, !upd_length.
  destruct (Nat.eqb_spec i i1); destruct (Nat.eqb_spec i i2); simpl; auto; try lia.
  - destruct (Nat.ltb_spec i1 (length x)); auto; lia.
  - destruct (Nat.ltb_spec i2 (length x)); auto; lia.
Qed.

(** One block [k, k+2L) with L pairs. *)
Lemma dit2_block_ok : forall L (tw : nat -> C) twl k (x : list C) (idx : nat -> nat),
  0 < L -> k + 2 * L <= length x ->
  (forall p, p < L -> rd twl (idx p) = Ok (tw p)) ->
  exists x', for_range 0 L (fun pair x =>
      t <- rd twl (idx pair) ;;
      dit2_butterfly t (k + pair) (k + pair + L) x) x = Ok x' /\ length x' = length x /\
   forall i, i < length x -> nth i x' C0 =
     if (k <=? i) && (i <? k + L) then (nth i x C0 + tw (i - k)%nat * nth (i + L) x C0)%C
     else if (k + L <=? i) && (i <? k + 2 * L) then (nth (i - L) x C0 - tw (i - L - k)%nat * nth i x C0)%C
     else nth i x C0.
Proof.
  intros L tw twl k x idx HL0 Hk Htw.
  destruct (for_range_who C C0 0 L (fun pair x =>
      t <- rd twl (idx pair) ;;
      dit2_butterfly t (k + pair) (k + pair + L) x) x
    (fun i => if (k <=? i) && (i <? k + L) then i - k
              else if (k + L <=? i) && (i <? k + 2 * L) then i - L - k else L)
    (fun i => if (k <=? i) && (i <? k + L) then (nth i x C0 + tw (i - k)%nat * nth (i + L) x C0)%C
              else (nth (i - L) x C0 - tw (i - L - k)%nat * nth i x C0)%C)) as [x' [E [HL HN]]].
  - intros j l Hj HLl HI. rewrite Htw by lia. simpl bind.
    destruct (dit2_butterfly_ok (tw j) (k + j) (k + j + L) l) as [l' [E [L' N]]]; try lia.
    exists l'. split; auto. split; [lia|].
    intros i Hi. rewrite N.
    assert (E1 : nth (k + j) l C0 = nth (k + j) x C0).
    { apply HI; try lia.
      destruct (Nat.leb_spec k (k + j)); destruct (Nat.ltb_spec (k + j) (k + L)); simpl; lia. }
    assert (E2 : nth (k + j + L) l C0 = nth (k + j + L) x C0).
    { apply HI; try lia.
      destruct (Nat.leb_spec k (k + j + L)); destruct (Nat.ltb_spec (k + j + L) (k + L));
      destruct (Nat.leb_spec (k + L) (k + j + L)); destruct (Nat.ltb_spec (k + j + L) (k + 2 * L)); simpl; lia. }
    destruct (Nat.eqb_spec i (k + j)).
    + subst i. rewrite E1, E2.
      destruct (Nat.leb_spec k (k + j)); destruct (Nat.ltb_spec (k + j) (k + L)); simpl; try lia.
      replace (k + j - k) with j by lia. rewrite Nat.eqb_refl. auto.
    + destruct (Nat.eqb_spec i (k + j + L)).
      * subst i. rewrite E1, E2.
        destruct (Nat.leb_spec k (k + j + L)); destruct (Nat.ltb_spec (k + j + L) (k + L));
        destruct (Nat.leb_spec (k + L) (k + j + L)); destruct (Nat.ltb_spec (k + j + L) (k + 2 * L)); simpl; try lia.
        replace (k + j + L - L - k) with j by lia. rewrite Nat.eqb_refl.
        replace (k + j + L - L) with (k + j) by lia. auto.
      * destruct (Nat.leb_spec k i); destruct (Nat.ltb_spec i (k + L));
        destruct (Nat.leb_spec (k + L) i); destruct (Nat.ltb_spec i (k + 2 * L)); simpl; try lia;
        try (destruct (Nat.eqb_spec (i - k) j); auto; lia);
        try (destruct (Nat.eqb_spec (i - L - k) j); auto; lia);
        destruct (Nat.eqb_spec L j); auto; lia.
  - exists x'. split; auto. split; auto. intros i Hi. rewrite HN by auto.
    destruct (Nat.leb_spec k i); destruct (Nat.ltb_spec i (k + L));
    destruct (Nat.leb_spec (k + L) i); destruct (Nat.ltb_spec i (k + 2 * L)); simpl; try lia;
    try (destruct (Nat.ltb_spec (i - k) L); auto; lia);
    try (destruct (Nat.ltb_spec (i - L - k) L); auto; lia);
    destruct (Nat.ltb_spec L L); auto; lia.
Qed.

(** The pointwise effect of a radix-2 stage with butterflies at distance [L]. *)
Definition stage2 (L : nat) (tw : nat -> C) (x x' : list C) : Prop :=
  length x' = length x /\
  forall b k, b * (2 * L) + 2 * L <= length x -> k < L ->
    nth (b * (2 * L) + k) x' C0 =
      (nth (b * (2 * L) + k) x C0 + tw k * nth (b * (2 * L) + k + L) x C0)%C /\
    nth (b * (2 * L) + k + L) x' C0 =
      (nth (b * (2 * L) + k) x C0 - tw k * nth (b * (2 * L) + k + L) x C0)%C.

Lemma stage2_loop : forall L (tw : nat -> C) body n (x : list C), 0 < L -> length x = n * (2 * L) ->
  (forall k (y : list C), k + 2 * L <= length y -> length y = length x ->
     exists y', body k y = Ok y' /\ length y' = length y /\
     forall i, i < length y -> nth i y' C0 =
     if (k <=? i) && (i <? k + L) then (nth i y C0 + tw (i - k)%nat * nth (i + L) y C0)%C
     else if (k + L <=? i) && (i <? k + 2 * L) then (nth (i - L) y C0 - tw (i - L - k)%nat * nth i y C0)%C
     else nth i y C0) ->
  exists x', for_step 0 (length x) (2 * L) body x = Ok x' /\ stage2 L tw x x'.
Proof.
  intros L tw body n x HL0 Hlen Hb.
  rewrite for_step_loop with (cnt := n) by lia.
  destruct (loop_who C C0 n 0 (2 * L) body x (fun i => i / (2 * L))
    (fun i => let k := i / (2 * L) * (2 * L) in
       if i <? k + L then (nth i x C0 + tw (i - k)%nat * nth (i + L) x C0)%C
       else (nth (i - L) x C0 - tw (i - L - k)%nat * nth i x C0)%C)) as [x' [E [HL HN]]].
  - intros j l Hj HLl HI.
    destruct (Hb (0 + j * (2 * L)) l) as [l' [E [L' N]]]; try nia; auto.
    exists l'. split; auto. split; [lia|].
    intros i Hi. rewrite N by lia. rewrite Nat.add_0_l.
    pose proof (Nat.div_mod i (2 * L)) as DM. pose proof (Nat.mod_upper_bound i (2 * L)) as MB.
    assert (Hin : forall i', j * (2 * L) <= i' < j * (2 * L) + 2 * L -> nth i' l C0 = nth i' x C0).
    { intros i' Hi'. apply HI; [nia|]. symmetry. apply Nat.div_unique with (i' - j * (2 * L)); lia. }
    destruct (Nat.eqb_spec (i / (2 * L)) j) as [Ej|Ej].
    + rewrite Ej. rewrite Ej in DM. cbv zeta.
      destruct (Nat.leb_spec (j * (2 * L)) i); [|lia].
      destruct (Nat.ltb_spec i (j * (2 * L) + L)); cbn [andb].
      * rewrite !Hin by lia. auto.
      * destruct (Nat.leb_spec (j * (2 * L) + L) i); [|lia].
        destruct (Nat.ltb_spec i (j * (2 * L) + 2 * L)); [|lia]. cbn [andb].
        rewrite !Hin by lia. auto.
    + assert (i < j * (2 * L) \/ j * (2 * L) + 2 * L <= i) by nia.
      destruct (Nat.leb_spec (j * (2 * L)) i); destruct (Nat.ltb_spec i (j * (2 * L) + L));
      destruct (Nat.leb_spec (j * (2 * L) + L) i); destruct (Nat.ltb_spec i (j * (2 * L) + 2 * L));
      cbn [andb]; auto; lia.
  - exists x'. split; auto. split; auto.
    intros b k Hbk Hk.
    assert (Hb' : b < n) by nia.
    assert (D1 : (b * (2 * L) + k) / (2 * L) = b) by (symmetry; apply Nat.div_unique with k; lia).
    assert (D2 : (b * (2 * L) + k + L) / (2 * L) = b) by (symmetry; apply Nat.div_unique with (k + L); lia).
    rewrite !HN by lia. rewrite D1, D2. cbv zeta.
    destruct (Nat.ltb_spec b n); [|lia].
    destruct (Nat.ltb_spec (b * (2 * L) + k) (b * (2 * L) + L)); [|lia].
    destruct (Nat.ltb_spec (b * (2 * L) + k + L) (b * (2 * L) + L)); [lia|].
    replace (b * (2 * L) + k - b * (2 * L)) with k by lia.
    replace (b * (2 * L) + k + L - L) with (b * (2 * L) + k) by lia.
    replace (b * (2 * L) + k - b * (2 * L)) with k by lia.
    auto.
Qed.

Lemma dit2_stage0_ok : forall n (x : list C), length x = n * 2 ->
  exists x', dit2_stage0 x = Ok x' /\ stage2 1 (fun _ => C1) x x'.
Proof.
  intros n x Hx. unfold dit2_stage0. change 2 with (2 * 1) at 1.
  apply stage2_loop with (n := n); try lia.
  intros k y Hk Hy.
  rewrite (rd_ok _ y k C0), (rd_ok _ y (k + 1) C0) by lia. simpl bind.
  rewrite wr_ok by lia. simpl bind. rewrite wr_ok by (rewrite upd_length; lia).
  eexists. split; [reflexivity|]. split; [rewrite !upd_length; auto|].
  intros i Hi. rewrite !nth_upd, !upd_length.
  destruct (Nat.ltb_spec k (length y)); [|lia].
  destruct (Nat.ltb_spec (k + 1) (length y)); [|lia].
  destruct (Nat.eqb_spec i k); destruct (Nat.eqb_spec i (k + 1)); simpl; try lia.
  - subst i. destruct (Nat.leb_spec k k); destruct (Nat.ltb_spec k (k + 1)); simpl; try lia. ring.
  - subst i. destruct (Nat.leb_spec k (k + 1)); destruct (Nat.ltb_spec (k + 1) (k + 1));
    destruct (Nat.leb_spec (k + 1) (k + 1)); destruct (Nat.ltb_spec (k + 1) (k + 2)); simpl; try lia.
    replace (k + 1 - 1) with k by lia. ring.
  - destruct (Nat.leb_spec k i); destruct (Nat.ltb_spec i (k + 1));
    destruct (Nat.leb_spec (k + 1) i); destruct (Nat.ltb_spec i (k + 2)); simpl; auto; lia.
Qed.

Lemma dit2_stage_ok : forall twl L n ts (tw : nat -> C) (x : list C), 0 < L -> length x = n * (2 * L) ->
  (forall p, p < L -> rd twl (p * ts) = Ok (tw p)) ->
  exists x', dit2_stage twl L (2 * L) ts x = Ok x' /\ stage2 L tw x x'.
Proof.
  intros. unfold dit2_stage. apply stage2_loop with (n := n); auto.
  intros k y Hk Hy.
  apply (dit2_block_ok L tw twl k y (fun p => p * ts)); auto.
Qed.

Lemma dit2_v2_stage_ok : forall twl L n (tw : nat -> C) (x : list C), 0 < L -> 0 < n -> length x = n * (2 * L) ->
  (forall p, p < L -> rd twl (p * n) = Ok (tw p)) ->
  exists x', dit2_v2_stage twl (2 * L) x = Ok x' /\ stage2 L tw x x'.
Proof.
  intros twl L n tw x HL Hn Hx Htw. unfold dit2_v2_stage.
  assert (E1 : 2 * L / 2 = L). { rewrite Nat.mul_comm, Nat.div_mul; lia. }
  assert (E2 : length x / (2 * L) = n). { rewrite Hx, Nat.div_mul; lia. }
  rewrite E1, E2.
  apply stage2_loop with (n := n); auto.
  intros k y Hk Hy.
  destruct (dit2_block_ok L tw twl k y (fun p => p * n)) as [y' [E [HL' N]]]; auto; try lia.
  exists y'. split; auto. rewrite <- E.
  unfold for_range. rewrite Nat.sub_0_r. replace (k + L - k) with L by lia.
  assert (G : forall m lo s, lo + m <= L -> length s = length y ->
     loop m (k + lo) 1 (fun (k0 : nat) (x0 : list C) =>
       tw0 <- rd twl ((k0 - k) * n);;
       even <- rd x0 k0;;
       odd <- rd x0 (k0 + L);;
       x1 <- wr x0 k0 (even + odd * tw0)%C;; wr x1 (k0 + L) (even - odd * tw0)%C) s =
     loop m lo 1 (fun (pair : nat) (x0 : list C) =>
       t <- rd twl (pair * n);; dit2_butterfly t (k + pair) (k + pair + L) x0) s).
  { induction m; intros lo s Hm Hs; simpl; auto.
    replace (k + lo - k) with lo by lia.
    rewrite Htw by lia. simpl bind.
    rewrite (rd_ok _ s (k + lo) C0), (rd_ok _ s (k + lo + L) C0) by lia. simpl bind.
    rewrite wr_ok by lia. simpl bind. rewrite wr_ok by (rewrite upd_length; lia). simpl bind.
    destruct (dit2_butterfly_ok (tw lo) (k + lo) (k + lo + L) s) as [s' [Es [Ls Ns]]]; try lia.
    rewrite Es. simpl bind.
    assert (EQ : upd (upd s (k + lo) (nth (k + lo) s C0 + nth (k + lo + L) s C0 * tw lo)%C) (k + lo + L)
       (nth (k + lo) s C0 - nth (k + lo + L) s C0 * tw lo)%C = s').
    { apply list_eq_nth with (d := C0). rewrite !upd_length. auto.
      intros i Hi. rewrite Ns. rewrite !nth_upd, !upd_length.
      destruct (Nat.ltb_spec (k + lo) (length s)); [|lia].
      destruct (Nat.ltb_spec (k + lo + L) (length s)); [|lia].
      destruct (Nat.eqb_spec i (k + lo)); destruct (Nat.eqb_spec i (k + lo + L)); simpl; try lia; auto; ring. }
    rewrite EQ. rewrite <- Nat.add_assoc. apply IHm; lia. }
  specialize (G L 0 y). rewrite Nat.add_0_r in G. apply G; auto.
Qed.

(** A radix-2 stage advances the block invariant. *)
Lemma stage2_dit : forall d p s xs (x x' : list C), s < p -> length x = 2 ^ p ->
  stage2 (2 ^ s) (W d (2 ^ S s)) x x' ->
  dit_inv d 2 p s xs (fun i => nth i x C0) ->
  dit_inv d 2 p (S s) xs (fun i => nth i x' C0).
Proof.
  intros d p s xs x x' Hs Hlen [HL HS] HI.
  apply dit_inv_step with (a := fun i => nth i x C0); auto; try lia.
  intros b k q Hb Hk Hq.
  assert (Hin : b * (2 * 2 ^ s) + 2 * 2 ^ s <= length x).
  { rewrite Hlen. replace p with (p - S s + S s) by lia. rewrite Nat.pow_add_r. simpl (2 ^ S s). nia. }
  destruct (HS b k Hin Hk) as [H1 H2].
  assert (Hm : 0 < 2 ^ s) by (apply pow_pos; lia).
  unfold Csum. cbn [bsum].
  replace ((b * 2 + 0) * 2 ^ s + k) with (b * (2 * 2 ^ s) + k) by lia.
  replace ((b * 2 + 1) * 2 ^ s + k) with (b * (2 * 2 ^ s) + k + 2 ^ s) by lia.
  destruct q as [|[|q]]; [| |lia].
  - replace (b * 2 ^ S s + (0 * 2 ^ s + k)) with (b * (2 * 2 ^ s) + k) by (simpl; lia).
    rewrite H1. rewrite !Nat.mul_0_l, !Nat.add_0_l, W_0, Nat.mul_1_l. ring.
  - replace (b * 2 ^ S s + (1 * 2 ^ s + k)) with (b * (2 * 2 ^ s) + k + 2 ^ s) by (simpl; lia).
    rewrite H2. rewrite !Nat.mul_0_l, W_0.
    rewrite !Nat.mul_1_l.
    rewrite W_add. change (2 ^ S s) with (2 * 2 ^ s). rewrite W_half by auto. ring.
Qed.

Lemma stage2_len : forall L tw x x', stage2 L tw x x' -> length x' = length x.
Proof. intros L tw x x' [H _]. auto. Qed.

Lemma stage2_ext : forall L tw tw' x x', (forall k, k < L -> tw k = tw' k) ->
  stage2 L tw x x' -> stage2 L tw' x x'.
Proof.
  intros L tw tw' x x' H [HL HS]. split; auto. intros. rewrite <- H by auto. auto.
Qed.

Lemma W_stage : forall d p s k, s < p -> W d (2 ^ p) (k * 2 ^ (p - s - 1)) = W d (2 ^ S s) k.
Proof.
  intros. replace p with (S s + (p - s - 1)) at 1 by lia. rewrite Nat.pow_add_r.
  apply W_scale_r. apply pow_pos. lia.
Qed.

(** Twiddle reads of stage [s] of a size-2^p transform. *)
Lemma tw_read : forall d p s q, s < p -> q < 2 ^ s ->
  rd (tab (2 ^ (p - 1)) (W d (2 ^ p))) (q * 2 ^ (p - s - 1)) = Ok (W d (2 ^ S s) q).
Proof.
  intros d p s q Hs Hq.
  assert (B : q * 2 ^ (p - s - 1) < 2 ^ (p - 1)).
  { replace (p - 1) with (s + (p - s - 1)) by lia. rewrite Nat.pow_add_r.
    assert (0 < 2 ^ (p - s - 1)) by (apply pow_pos; lia). nia. }
  rewrite rd_ok with (d := C0) by (rewrite tab_length; auto).
  rewrite nth_tab by auto. rewrite W_stage; auto.
Qed.

Definition half_lut (d : direction) (p : nat) : list C := tab (2 ^ (p - 1)) (W d (2 ^ p)).

(** What a correct radix-2 kernel does on a bit-reversed vector. *)
Definition kernel_ok (kernel : list C -> list C -> outcome (list C)) (p : nat) : Prop :=
  forall d (xs : nat -> C) (x : list C), length x = 2 ^ p ->
    (forall i, i < 2 ^ p -> nth i x C0 = xs (digit_rev 2 p i)) ->
    kernel x (half_lut d p) = Ok (tab (2 ^ p) (DFT d (2 ^ p) xs)).

Lemma stage0_dit : forall d p xs (x : list C), 0 < p -> length x = 2 ^ p ->
  (forall i, i < 2 ^ p -> nth i x C0 = xs (digit_rev 2 p i)) ->
  exists x', dit2_stage0 x = Ok x' /\ length x' = 2 ^ p /\
    dit_inv d 2 p 1 xs (fun i => nth i x' C0).
Proof.
  intros d p xs x Hp Hx HX.
  destruct (dit2_stage0_ok (2 ^ (p - 1)) x) as [x' [E HS]].
  { rewrite Hx. replace p with (S (p - 1)) at 1 by lia. simpl. lia. }
  exists x'. split; auto. split. { apply stage2_len in HS. lia. }
  apply stage2_dit with (x := x); auto.
  - apply stage2_ext with (tw := fun _ => C1); auto. intros k Hk. simpl in Hk.
    assert (k = 0) by lia. subst k. rewrite W_0. auto.
  - apply dit_inv_0; auto.
Qed.

Lemma dit_inv_tab : forall d p xs (x : list C), length x = 2 ^ p ->
  dit_inv d 2 p p xs (fun i => nth i x C0) -> x = tab (2 ^ p) (DFT d (2 ^ p) xs).
Proof.
  intros. apply list_eq_tab with (d := C0); auto.
  intros. apply (dit_inv_end d 2 p xs (fun i => nth i x C0)); auto.
Qed.

Lemma stage_run : forall d p s xs (x : list C), s < p -> length x = 2 ^ p ->
  dit_inv d 2 p s xs (fun i => nth i x C0) ->
  exists x', dit2_stage (half_lut d p) (2 ^ s) (2 * 2 ^ s) (2 ^ (p - s - 1)) x = Ok x' /\
    length x' = 2 ^ p /\ dit_inv d 2 p (S s) xs (fun i => nth i x' C0).
Proof.
  intros d p s xs x Hs Hx HI.
  destruct (dit2_stage_ok (half_lut d p) (2 ^ s) (2 ^ (p - s - 1)) (2 ^ (p - s - 1)) (W d (2 ^ S s)) x)
    as [x' [E HS]].
  - apply pow_pos; lia.
  - rewrite Hx. change (2 * 2 ^ s) with (2 ^ S s). rewrite <- Nat.pow_add_r. f_equal. lia.
  - intros. apply tw_read; auto.
  - exists x'. split; auto. split. { apply stage2_len in HS; lia. }
    apply stage2_dit with (x := x); auto.
Qed.

Lemma v3_ok : forall p, 0 < p -> kernel_ok c2c_dit2_v3 p.
Proof.
  intros p Hp d xs x Hx HX. unfold c2c_dit2_v3. rewrite Hx, bit_log2_pow. simpl bind.
  destruct (stage0_dit d p xs x Hp Hx HX) as [x1 [E1 [L1 I1]]]. rewrite E1. simpl bind.
  destruct (for_range_inv (list C)
    (fun s y => length y = 2 ^ p /\ dit_inv d 2 p s xs (fun i => nth i y C0)) 1 p
    (fun (stage : nat) (x0 : list C) =>
      dit2_stage (half_lut d p) (2 ^ stage) (2 ^ (stage + 1)) (2 ^ (p - stage - 1)) x0) x1)
    as [y [E [L I]]]; auto.
  - intros s y Hs [Ly Iy]. rewrite Nat.add_1_r. apply stage_run; auto; lia.
  - rewrite E. f_equal. apply dit_inv_tab; auto.
Qed.

Lemma v1_ok : forall p, 0 < p -> kernel_ok c2c_dit2_v1 p.
Proof.
  intros p Hp d xs x Hx HX. unfold c2c_dit2_v1. rewrite Hx, bit_log2_pow. simpl bind.
  destruct (stage0_dit d p xs x Hp Hx HX) as [x1 [E1 [L1 I1]]]. rewrite E1. simpl bind.
  destruct (for_range_inv (nat * nat * list C)
    (fun s st => let '(sl, sd, y) := st in sl = 2 ^ s /\ sd = 2 * 2 ^ s /\
       length y = 2 ^ p /\ dit_inv d 2 p s xs (fun i => nth i y C0)) 1 p
    (fun (stage : nat) (s : nat * nat * list C) =>
      let '(stage_length, stride, x0) := s in
      x2 <- dit2_stage (half_lut d p) stage_length stride (2 ^ (p - stage - 1)) x0;;
      Ok (stage_length * 2, stride * 2, x2)) (2, 4, x1))
    as [[[sl sd] y] [E [_ [_ [L I]]]]]; auto.
  - intros s [[sl sd] y] Hs [Hsl [Hsd [Ly Iy]]]. subst sl sd.
    destruct (stage_run d p s xs y) as [y' [E' [L' I']]]; auto; try lia.
    cbv zeta. rewrite E'. simpl bind. eexists. split; [reflexivity|].
    simpl (2 ^ S s). repeat split; auto; lia.
  - rewrite E. simpl bind. f_equal. apply dit_inv_tab; auto.
Qed.

Lemma v2_loop : forall d p xs m s fuel (x : list C), s + m = p -> 0 < s -> m < fuel -> length x = 2 ^ p ->
  dit_inv d 2 p s xs (fun i => nth i x C0) ->
  exists q, while_fuel fuel (fun s : nat * list C => fst s <=? length (snd s))
      (fun s => x <- dit2_v2_stage (half_lut d p) (fst s) (snd s) ;; Ok (fst s * 2, x))
      (2 ^ S s, x) = Ok (q, tab (2 ^ p) (DFT d (2 ^ p) xs)).
Proof.
  induction m; intros s fuel x Hsm Hs0 Hf Hx HI.
  - assert (s = p) by lia. subst s.
    assert (E : (2 ^ S p <=? length x) = false).
    { apply Nat.leb_gt. rewrite Hx. apply Nat.pow_lt_mono_r; lia. }
    exists (2 ^ S p). rewrite while_stop by exact E. do 2 f_equal. apply dit_inv_tab; auto.
  - destruct fuel; [lia|].
    assert (E : (2 ^ S s <=? length x) = true).
    { apply Nat.leb_le. rewrite Hx. apply Nat.pow_le_mono_r; lia. }
    destruct (dit2_v2_stage_ok (half_lut d p) (2 ^ s) (2 ^ (p - s - 1)) (W d (2 ^ S s)) x) as [x' [E' HS]].
    + apply pow_pos; lia.
    + apply pow_pos; lia.
    + rewrite Hx. change (2 * 2 ^ s) with (2 ^ S s). rewrite <- Nat.pow_add_r. f_equal. lia.
    + intros. apply tw_read; auto; lia.
    + change (2 * 2 ^ s) with (2 ^ S s) in E'.
      destruct (IHm (S s) fuel x') as [q Hq]; try lia.
      * apply stage2_len in HS. lia.
      * apply stage2_dit with (x := x); auto. lia.
      * exists q. rewrite <- Hq.
        rewrite while_step by exact E. unfold fst at 1, snd at 1. rewrite E'. cbn [bind fst].
        rewrite (Nat.mul_comm (2 ^ S s) 2). reflexivity.
Qed.

Lemma v2_ok : forall p, 0 < p -> kernel_ok c2c_dit2_v2 p.
Proof.
  intros p Hp d xs x Hx HX. unfold c2c_dit2_v2.
  destruct (stage0_dit d p xs x Hp Hx HX) as [x1 [E1 [L1 I1]]]. rewrite E1. simpl bind.
  destruct (v2_loop d p xs (p - 1) 1 (length x1) x1) as [q Hq]; auto; try lia.
  - rewrite L1. pose proof (le_pow2 p). lia.
  - change 4 with (2 ^ 2). rewrite Hq. auto.
Qed.

Lemma v4_ok : forall p, 1 < p -> kernel_ok c2c_dit2_v4 p.
Proof.
  intros p Hp d xs x Hx HX. unfold c2c_dit2_v4. rewrite Hx, bit_log2_pow. simpl bind.
  destruct (stage0_dit d p xs x) as [x1 [E1 [L1 I1]]]; auto; try lia. rewrite E1. simpl bind.
  destruct (Nat.eqb_spec p 0); [lia|].
  destruct (for_range_inv (list C)
    (fun s y => length y = 2 ^ p /\ dit_inv d 2 p s xs (fun i => nth i y C0)) 1 (p - 1)
    (fun (stage : nat) (x0 : list C) =>
      dit2_stage (half_lut d p) (2 ^ stage) (2 ^ (stage + 1)) (2 ^ (p - stage - 1)) x0) x1)
    as [y [E [L I]]]; auto; try lia.
  - intros s y Hs [Ly Iy]. rewrite Nat.add_1_r. apply stage_run; auto; lia.
  - rewrite E. simpl bind.
    assert (H2 : length y / 2 = 2 ^ (p - 1)).
    { rewrite L. replace p with (S (p - 1)) at 1 by lia.
      rewrite Nat.pow_succ_r', Nat.mul_comm, Nat.div_mul; lia. }
    rewrite H2.
    assert (HP : 2 ^ p = 2 * 2 ^ (p - 1)).
    { replace p with (S (p - 1)) at 1 by lia. apply Nat.pow_succ_r'. }
    destruct (dit2_block_ok (2 ^ (p - 1)) (W d (2 ^ p)) (half_lut d p) 0 y (fun q => q)) as [y' [E' [L' N]]].
    + apply pow_pos; lia.
    + lia.
    + intros. unfold half_lut. rewrite rd_ok with (d := C0) by (rewrite tab_length; auto).
      rewrite nth_tab; auto.
    + simpl in E'. rewrite E'. f_equal.
      apply dit_inv_tab; [lia|].
      replace p with (S (p - 1)) at 2 by lia.
      apply stage2_dit with (x := y); auto; try lia.
      replace (S (p - 1)) with p by lia.
      split; [lia|]. intros b k Hb Hk.
      assert (b = 0) by nia. subst b.
      rewrite !N by nia. simpl Nat.mul. rewrite !Nat.add_0_l.
      destruct (Nat.leb_spec 0 k); destruct (Nat.ltb_spec k (2 ^ (p - 1))); simpl; try lia.
      destruct (Nat.ltb_spec (k + 2 ^ (p - 1)) (2 ^ (p - 1))); simpl; try lia.
      destruct (Nat.leb_spec (2 ^ (p - 1)) (k + 2 ^ (p - 1))); simpl; try lia.
      destruct (Nat.ltb_spec (k + 2 ^ (p - 1)) (2 ^ (p - 1) + (2 ^ (p - 1) + 0))); simpl; try lia.
      replace (k + 2 ^ (p - 1) - 2 ^ (p - 1)) with k by lia. rewrite !Nat.sub_0_r. auto.
Qed.

(** * The plan *)

Lemma make_twiddle_half : forall p d, 0 < p ->
  make_twiddle_lut_radix2 (2 ^ p) d = Ok (half_lut d p).
Proof.
  intros. destruct p; [lia|]. rewrite make_twiddle_pow. unfold half_lut.
  rewrite Nat.sub_succ, Nat.sub_0_r. auto.
Qed.

Lemma make_dit2_plan_ok : forall p, 0 < p <= max_order ->
  make_dit2_plan p = Ok {| p_order := p; p_size := 2 ^ p;
    p_reorder := tab (2 ^ p) (digit_rev 2 p);
    p_wf := half_lut Forward p; p_wb := half_lut Backward p |}.
Proof.
  intros p Hp. unfold make_dit2_plan, check_order.
  destruct (Nat.ltb_spec max_order p); [lia|]. simpl bind.
  rewrite bitrevorder_plan_ok. simpl bind.
  rewrite !make_twiddle_half by lia. auto.
Qed.

Lemma run_dit2_ok : forall kernel p d (x : list C), 0 < p <= max_order -> length x = 2 ^ p ->
  kernel_ok kernel p ->
  (pl <- make_dit2_plan p ;; run_dit2_plan kernel pl x d) = Ok (DFT_list d x).
Proof.
  intros kernel p d x Hp Hx Hk. rewrite make_dit2_plan_ok by auto. simpl bind.
  unfold run_dit2_plan. simpl p_reorder.
  rewrite (bitrev_apply_rev C C0 p x Hx). simpl bind.
  unfold DFT_list. rewrite Hx.
  assert (K : forall d', kernel (tab (2 ^ p) (fun i => nth (digit_rev 2 p i) x C0)) (half_lut d' p) =
     Ok (tab (2 ^ p) (DFT d' (2 ^ p) (fun j => nth j x C0)))).
  { intros. apply Hk. apply tab_length. intros i Hi. rewrite nth_tab; auto. }
  destruct d; simpl; apply K.
Qed.

Lemma fft_plan_run_ok : forall p d (x : list C), 0 < p <= max_order -> length x = 2 ^ p ->
  fft_plan_run p x d = Ok (DFT_list d x).
Proof. intros. apply run_dit2_ok; auto. apply v3_ok. lia. Qed.
