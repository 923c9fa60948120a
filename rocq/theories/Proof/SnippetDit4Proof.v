(** radix4.cpp: what the two overloads of c2c_dit4 compute. *)
From Coq Require Import List Arith Bool Reals Lra Lia.
From Verif Require Import Base.Outcome Base.OutcomeFacts Base.Sums Base.Cplx Spec.Dft Spec.DigitRev Spec.Twisted.
From Verif Require Import Proof.DftTheory Proof.DigitRevTheory Proof.TwistedTheory Model.Snippets.
From Verif Require Import Model.Fft2 Model.FftRadix Model.Stockham Proof.Fft2Proof Proof.BitrevProof Proof.RadixProof Proof.StockhamProof.
From Verif Require Import Proof.Radix4Proof Proof.FftCorollaries.
Import ListNotations.
Open Scope outcome_scope.
Local Arguments Nat.div : simpl never.
Local Arguments Nat.modulo : simpl never.
Local Arguments Nat.pow : simpl never.

Lemma sn_digitrevorder4_ok : forall p (x : list C), length x = 4 ^ p ->
  sn_digitrevorder4 x = Ok (tab (4 ^ p) (fun i => nth (digit_rev 4 p i) x C0)).
Proof.
  intros p x Hx. unfold sn_digitrevorder4.
  assert (Hp : 0 < 4 ^ p) by (apply pow_pos; lia).
  destruct (Nat.eqb_spec (length x) 0); [lia|].
  match goal with |- (bind (for_range 0 ?N ?B ?Z0) _) = _ =>
    destruct (for_range_inv (nat * list C)
      (fun i s => fst s = digit_rev 4 p i /\ perm_upto C0 (4 ^ p) (digit_rev 4 p) x i (snd s)) 0 N B Z0)
      as [[j y] [E [Ej Py]]] end; try lia.
  - simpl. rewrite digit_rev_0 by lia. split; auto. apply perm_upto_0; auto.
  - intros i [j y] Hi [Ej Py]. cbn [fst snd] in *. subst j.
    destruct (swap_step C C0 (4 ^ p) (digit_rev 4 p) x i y) as [y' [E' P']]; auto; try lia.
    { intros. apply digit_rev_lt. lia. }
    { intros. apply digit_rev_invol; auto; lia. }
    cbv zeta. rewrite E'. cbn [bind].
    destruct (carry_loop 4 p i (digit_rev 4 p i + 1)) as [k [j [Ek Ejk]]]; try lia.
    assert (Ep : 0 < p). { destruct p; [change (4 ^ 0) with 1 in *; lia|lia]. }
    unfold sn_digit_carry. rewrite Hx.
    replace (3 * 4 ^ p / 4) with ((4 - 1) * 4 ^ (p - 1)).
    2:{ replace p with (S (p - 1)) at 2 by lia. rewrite Nat.pow_succ_r'. apply Nat.div_unique with 0; lia. }
    rewrite Ek. cbn [bind]. eexists. split; [reflexivity|]. cbn [fst snd].
    split; auto. rewrite Nat.add_1_r in Ejk. rewrite <- Ejk. auto.
  - rewrite E. cbn [bind]. f_equal. cbn [snd] in Py.
    apply perm_upto_end with (s := digit_rev 4 p).
    destruct Py as [L N]. split; auto.
    intros l Hl. rewrite N by auto. rewrite Hx.
    destruct (Nat.ltb_spec (Nat.min l (digit_rev 4 p l)) (4 ^ p));
      destruct (Nat.ltb_spec (Nat.min l (digit_rev 4 p l)) (4 ^ p - 1)); auto; try lia.
    assert (l = 4 ^ p - 1) by lia. subst l. rewrite rev_max; auto; lia.
Qed.

(** The value a stage stores, for any factors wf t k of the legs. *)
Definition gdit (d : direction) (wf : nat -> nat -> C) (kr : nat) (y : nat -> C) (a : nat) : C :=
  let k := a mod kr in let q := (a / kr) mod 4 in let h := a / (4 * kr) in
  Csum 4 (fun t => (W (flip d) 4 (q * t) * (y (k + h * (4 * kr) + t * kr)%nat * wf t k))%C).

Lemma sn_butterfly_ok : forall d wf kr k h (u : list C) (y : nat -> C),
  0 < kr -> k < kr -> k + h * (4 * kr) + 3 * kr < length u -> wf 0 k = C1 ->
  (forall t, t < 4 -> nth (k + h * (4 * kr) + t * kr) u C0 = y (k + h * (4 * kr) + t * kr)) ->
  exists u', sn_dit4_butterfly (0%R, dsign d) (wf 1 k) (wf 2 k) (wf 3 k) (h * (4 * kr) + k) kr u = Ok u' /\
    length u' = length u /\
    (forall t, t < 4 -> nth (k + h * (4 * kr) + t * kr) u' C0 = gdit d wf kr y (k + h * (4 * kr) + t * kr)) /\
    (forall a, (forall t, t < 4 -> a <> k + h * (4 * kr) + t * kr) -> nth a u' C0 = nth a u C0).
Proof.
  intros d wf kr k h u y Hkr Hk Hlt W0 Hy. unfold sn_dit4_butterfly.
  change (0%R, dsign d) with (sign_i d).
  set (A := h * (4 * kr) + k).
  replace (A + kr * 0) with A by lia. replace (A + kr * 1) with (A + kr) by lia.
  replace (A + kr * 2) with (A + 2 * kr) by lia. replace (A + kr * 3) with (A + 3 * kr) by lia.
  rewrite (rd_ok _ u A C0), (rd_ok _ u (A + kr) C0), (rd_ok _ u (A + 2 * kr) C0), (rd_ok _ u (A + 3 * kr) C0)
    by (unfold A; lia).
  cbn [bind].
  edestruct (four_writes u A (A + kr) (A + 2 * kr) (A + 3 * kr)) as [u' [E [L [V0 [V1 [V2 [V3 Fr]]]]]]]; try (unfold A; lia).
  exists u'. split; [exact E|]. split; [lia|]. split.
  - intros t Ht. unfold gdit. destruct (idx_split 4 kr k h t) as [A1 [A2 A3]]; auto. rewrite A1, A2, A3.
    rewrite (kern4 d t (fun t => (y (k + h * (4 * kr) + t * kr)%nat * wf t k)%C)) by auto.
    rewrite <- !Hy by lia. rewrite W0.
    replace (k + h * (4 * kr) + 0 * kr) with A by (unfold A; lia).
    replace (k + h * (4 * kr) + 1 * kr) with (A + kr) by (unfold A; lia).
    replace (k + h * (4 * kr) + 2 * kr) with (A + 2 * kr) by (unfold A; lia).
    replace (k + h * (4 * kr) + 3 * kr) with (A + 3 * kr) by (unfold A; lia).
    destruct t as [|[|[|[|t]]]]; [| | | |lia].
    + replace (k + h * (4 * kr) + 0 * kr) with A by (unfold A; lia). rewrite V0. ring.
    + replace (k + h * (4 * kr) + 1 * kr) with (A + kr) by (unfold A; lia). rewrite V1. ring.
    + replace (k + h * (4 * kr) + 2 * kr) with (A + 2 * kr) by (unfold A; lia). rewrite V2. ring.
    + replace (k + h * (4 * kr) + 3 * kr) with (A + 3 * kr) by (unfold A; lia). rewrite V3. ring.
  - intros a Ha.
    pose proof (Ha 0 ltac:(lia)). pose proof (Ha 1 ltac:(lia)).
    pose proof (Ha 2 ltac:(lia)). pose proof (Ha 3 ltac:(lia)). apply Fr; unfold A; lia.
Qed.

Lemma sn_stage_ok : forall d wf kr cnt (x : list C), 0 < kr -> length x = cnt * (4 * kr) ->
  (forall k, k < kr -> wf 0 k = C1) ->
  exists x', for_range 0 kr (fun j x => for_range 0 cnt (fun k x =>
      sn_dit4_butterfly (0%R, dsign d) (wf 1 j) (wf 2 j) (wf 3 j) (k * (4 * kr) + j) kr x) x) x = Ok x' /\
    length x' = length x /\ forall a, a < length x -> nth a x' C0 = gdit d wf kr (fun i => nth i x C0) a.
Proof.
  intros d wf kr cnt x Hkr Lx W0.
  apply nested_touch with (r := 4) (ix := fun k h t => k + h * (4 * kr) + t * kr); auto.
  - intros k h t k' h' t' H1 H2 H3 H4 H5 H6 E. apply ix4_inj in E; auto. tauto.
  - intros a Ha. destruct (ix4_surj kr cnt a) as [h [k [t [H1 [H2 [H3 H4]]]]]]; auto; [lia|]. exists k, h, t. auto.
  - intros k h u Hk Hh Lu Hu.
    destruct (sn_butterfly_ok d wf kr k h u (fun i => nth i x C0)) as [u' [E [L [V Fr]]]]; auto.
    { rewrite Lu, Lx. apply ix4_lt; auto. }
    exists u'. split; auto. split; [congruence|]. auto.
Qed.

(** ** The first overload *)
Lemma polar_W : forall d L j t, let angle := (dsign d * (PI * 2) * INR j / INR L)%R in
  (cos (angle * INR t), sin (angle * INR t)) = W d L (t * j).
Proof.
  intros d L j t angle. unfold W, Cexp.
  replace (dsign d * (2 * PI) * INR (t * j) / INR L)%R with (angle * INR t)%R; auto.
  unfold angle. rewrite mult_INR. unfold Rdiv. ring.
Qed.

Theorem sn_dit4_TDFT : forall d p (x : list C), length x = 4 ^ p ->
  sn_c2c_dit4 x p (dsign d) = Ok (tab (4 ^ p) (TDFT d p (fun i => nth i x C0))).
Proof.
  intros d p x Lx. set (xs := fun i => nth i x C0).
  unfold sn_c2c_dit4. rewrite (sn_digitrevorder4_ok p) by auto. cbn [bind]. rewrite Lx. cbv zeta.
  match goal with |- for_range 1 (p + 1) ?B ?Z0 = _ =>
    destruct (for_range_inv (list C)
      (fun q y => length y = 4 ^ p /\ tdit_inv d p (q - 1) xs (fun i => nth i y C0)) 1 (p + 1) B Z0)
      as [y [E [L I]]] end; try lia.
  - split. { apply tab_length. }
    intros b k Hb Hk. change (1 - 1) with 0 in *. change (4 ^ 0) with 1 in *. assert (k = 0) by lia. subst k.
    rewrite Nat.sub_0_r in *. rewrite TDFT_0, Nat.mul_1_r, Nat.mul_0_l, !Nat.add_0_r. rewrite nth_tab by auto. auto.
  - intros q y Hq [L I]. set (s := q - 1) in *. assert (Eq : q = S s) by (unfold s; lia). rewrite Eq.
    assert (EP : 4 ^ p = 4 ^ (p - S s) * (4 * 4 ^ s)).
    { rewrite <- Nat.pow_succ_r', <- Nat.pow_add_r. f_equal. lia. }
    assert (Hkr : 0 < 4 ^ s) by (apply pow_pos; lia).
    rewrite Nat.pow_succ_r'.
    replace (4 * 4 ^ s / 4) with (4 ^ s) by (rewrite Nat.mul_comm, Nat.div_mul; lia).
    replace (4 ^ p / (4 * 4 ^ s)) with (4 ^ (p - S s)) by (rewrite EP, Nat.div_mul; lia).
    destruct (sn_stage_ok d (fun t k => W d (4 * 4 ^ s) (t * k)) (4 ^ s) (4 ^ (p - S s)) y) as [y' [E [L' V]]]; auto.
    { lia. } { intros. apply W_0. }
    exists y'. split.
    + rewrite <- E. apply for_range_ext_in. intros j u Hj. apply for_range_ext_in. intros k v Hk.
      f_equal; [rewrite <- (polar_W d (4 * 4 ^ s) j 1) | rewrite <- (polar_W d (4 * 4 ^ s) j 2) | rewrite <- (polar_W d (4 * 4 ^ s) j 3)];
        cbv zeta; cbn [INR]; replace (1 + 1)%R with 2%R by ring; replace (2 + 1)%R with 3%R by ring; reflexivity.
    + split; [congruence|]. replace (S (S s) - 1) with (S s) by lia.
      apply tdit_inv_step with (X := fun i => nth i y C0); auto; try lia.
      intros a Ha. rewrite V by lia. reflexivity.
  - rewrite E. f_equal. apply list_eq_tab with (d := C0); auto. intros i Hi.
    replace (p + 1 - 1) with p in I by lia.
    specialize (I 0 i). rewrite Nat.sub_diag in I. change (4 ^ 0) with 1 in I.
    rewrite Nat.mul_0_l, Nat.add_0_l in I. rewrite I by (auto; lia). apply TDFT_ext. intros j Hj. f_equal. simpl. lia.
Qed.

(** ** The overload with a table, on the impulse at position 1 *)
Definition impulse1 (n : nat) : list C := tab n (fun i => if i =? 1 then C1 else C0).

Lemma sn_dit4_lut_impulse : forall d p (w : list C), 0 < p -> 4 ^ (p - 1) <= length w ->
  sn_c2c_dit4_lut (impulse1 (4 ^ p)) w p (dsign d) =
  Ok (tab (4 ^ p) (fun i => (W (flip d) 4 (i / 4 ^ (p - 1)) * nth (i mod 4 ^ (p - 1)) w C0)%C)).
Proof.
  intros d p w Hp Lw.
  assert (Lx : length (impulse1 (4 ^ p)) = 4 ^ p) by apply tab_length.
  set (K := 4 ^ (p - 1)) in *. assert (HK : 0 < K) by (apply pow_pos; lia).
  assert (E4 : 4 ^ p = 4 * K). { unfold K. rewrite <- Nat.pow_succ_r'. f_equal. lia. }
  set (G := fun s i => if s =? p then (W (flip d) 4 (i / K) * nth (i mod K) w C0)%C
                       else if i / 4 ^ s =? 4 ^ (p - 1 - s) then C1 else C0).
  unfold sn_c2c_dit4_lut. rewrite (sn_digitrevorder4_ok p) by auto. cbn [bind]. rewrite Lx. cbv zeta.
  match goal with |- for_range 1 (p + 1) ?B ?Z0 = _ =>
    destruct (for_range_inv (list C)
      (fun q y => length y = 4 ^ p /\ forall i, i < 4 ^ p -> nth i y C0 = G (q - 1) i) 1 (p + 1) B Z0)
      as [y [E [L I]]] end; try lia.
  - split. { apply tab_length. }
    intros i Hi. rewrite nth_tab by auto. change (1 - 1) with 0. unfold G.
    destruct (Nat.eqb_spec 0 p); [lia|]. change (4 ^ 0) with 1. rewrite Nat.div_1_r, Nat.sub_0_r.
    assert (Hr : digit_rev 4 p i < 4 ^ p) by (apply digit_rev_lt; lia).
    unfold impulse1. rewrite nth_tab by auto. fold K.
    assert (R1 : digit_rev 4 p 1 = K).
    { unfold K. replace p with (S (p - 1)) at 1 by lia. cbn [digit_rev].
      change (1 mod 4) with 1. change (1 / 4) with 0. rewrite digit_rev_0 by lia. lia. }
    assert (Inv : digit_rev 4 p (digit_rev 4 p i) = i) by (apply digit_rev_invol; auto; lia).
    destruct (Nat.eqb_spec (digit_rev 4 p i) 1) as [Ei|Ei]; destruct (Nat.eqb_spec i K) as [Ej|Ej]; auto.
    + exfalso. apply Ej. rewrite <- Inv, Ei. auto.
    + exfalso. apply Ei. rewrite Ej, <- R1. apply digit_rev_invol; lia.
  - intros q y Hq [L I]. set (s := q - 1) in *. assert (Eq : q = S s) by (unfold s; lia). rewrite Eq.
    assert (EP : 4 ^ p = 4 ^ (p - S s) * (4 * 4 ^ s)).
    { rewrite <- Nat.pow_succ_r', <- Nat.pow_add_r. f_equal. lia. }
    assert (Hkr : 0 < 4 ^ s) by (apply pow_pos; lia).
    assert (HsK : 4 ^ s <= K) by (apply Nat.pow_le_mono_r; lia).
    rewrite Nat.pow_succ_r'.
    replace (4 * 4 ^ s / 4) with (4 ^ s) by (rewrite Nat.mul_comm, Nat.div_mul; lia).
    replace (4 ^ p / (4 * 4 ^ s)) with (4 ^ (p - S s)) by (rewrite EP, Nat.div_mul; lia).
    set (wf := fun t k => let w1 := nth k w C0 in match t with 0 => C1 | 1 => w1 | 2 => (w1 * w1)%C | _ => (w1 * w1 * w1)%C end).
    destruct (sn_stage_ok d wf (4 ^ s) (4 ^ (p - S s)) y) as [y' [E [L' V]]]; auto.
    { lia. }
    exists y'. split.
    + rewrite <- E. apply for_range_ext_in. intros j u Hj.
      rewrite (rd_ok _ w j C0) by lia. cbn [bind]. reflexivity.
    + split; [congruence|]. replace (S (S s) - 1) with (S s) by lia.
      intros a Ha. rewrite V by lia. unfold gdit.
      destruct (ix4_surj (4 ^ s) (4 ^ (p - S s)) a) as [h [k [c [Hh [Hk [Hc Ea]]]]]]; auto; [lia|].
      destruct (idx_split 4 (4 ^ s) k h c) as [A1 [A2 A3]]; auto. rewrite <- Ea in A1, A2, A3. rewrite A1, A2, A3.
      assert (Y : forall t, t < 4 -> nth (k + h * (4 * 4 ^ s) + t * 4 ^ s) y C0 =
        if 4 * h + t =? 4 ^ (p - 1 - s) then C1 else C0).
      { intros t Ht. rewrite I by (rewrite EP; apply ix4_lt; auto).
        unfold G. destruct (Nat.eqb_spec s p); [lia|].
        replace ((k + h * (4 * 4 ^ s) + t * 4 ^ s) / 4 ^ s) with (4 * h + t); auto.
        apply Nat.div_unique with k; lia. }
      unfold G. destruct (Nat.eqb_spec (S s) p) as [Es|Es].
      * (* last stage: h = 0, only leg 1 carries the impulse *)
        assert (h = 0). { replace (p - S s) with 0 in Hh by lia. change (4 ^ 0) with 1 in Hh. lia. }
        replace (p - 1 - s) with 0 in Y by lia. change (4 ^ 0) with 1 in Y.
        assert (ES : K = 4 ^ s) by (unfold K; f_equal; lia).
        rewrite (Csum_single 4 1); [|lia|].
        -- rewrite Y by lia. destruct (Nat.eqb_spec (4 * h + 1) 1); [|lia]. rewrite Nat.mul_1_r. unfold wf.
           rewrite ES, A1. replace (a / 4 ^ s) with c.
           { ring. } { apply Nat.div_unique with k; nia. }
        -- intros t Ht Hne. rewrite Y by auto. destruct (Nat.eqb_spec (4 * h + t) 1); [lia|]. ring.
      * assert (EQ : 4 ^ (p - 1 - s) = 4 * 4 ^ (p - 1 - S s)).
        { rewrite <- Nat.pow_succ_r'. f_equal. lia. }
        rewrite EQ in Y. rewrite Nat.pow_succ_r', A3.
        rewrite (Csum_single 4 0); [|lia|].
        -- rewrite Y by lia. rewrite Nat.mul_0_r, W_0, Nat.add_0_r. unfold wf.
           destruct (Nat.eqb_spec (4 * h) (4 * 4 ^ (p - 1 - S s))); destruct (Nat.eqb_spec h (4 ^ (p - 1 - S s))); try lia; ring.
        -- intros t Ht Hne. rewrite Y by auto. destruct (Nat.eqb_spec (4 * h + t) (4 * 4 ^ (p - 1 - S s))); [lia|]. ring.
  - rewrite E. f_equal. apply list_eq_tab with (d := C0); auto. intros i Hi.
    rewrite I by auto. replace (p + 1 - 1) with p by lia. unfold G. rewrite Nat.eqb_refl. auto.
Qed.

Lemma DFT_impulse1 : forall d n k, 1 < n -> k < n -> nth k (DFT_list d (impulse1 n)) C0 = W d n k.
Proof.
  intros d n k Hn Hk. unfold DFT_list. replace (length (impulse1 n)) with n by (symmetry; apply tab_length).
  rewrite nth_tab by auto. unfold DFT. rewrite (Csum_single _ 1); auto.
  - unfold impulse1. rewrite nth_tab by auto. cbn [Nat.eqb]. rewrite Nat.mul_1_l. ring.
  - intros i Hi Hne. unfold impulse1. rewrite nth_tab by auto. destruct (Nat.eqb_spec i 1); [lia|]. ring.
Qed.

(** Whatever the table holds, the impulse at position 1 is transformed wrongly. *)
Lemma sn_dit4_lut_wrong : forall d p (w : list C), 0 < p -> 4 ^ (p - 1) <= length w ->
  sn_c2c_dit4_lut (impulse1 (4 ^ p)) w p (dsign d) <> Ok (DFT_list d (impulse1 (4 ^ p))).
Proof.
  intros d p w Hp Lw. rewrite sn_dit4_lut_impulse by auto. intros E.
  set (K := 4 ^ (p - 1)) in *. assert (HK : 0 < K) by (apply pow_pos; lia).
  assert (E4 : 4 ^ p = 4 * K). { unfold K. rewrite <- Nat.pow_succ_r'. f_equal. lia. }
  injection E as E.
  assert (V0 := f_equal (fun l => nth 0 l C0) E). assert (V1 := f_equal (fun l => nth K l C0) E). cbn beta in V0, V1.
  rewrite DFT_impulse1 in V0, V1 by lia. rewrite nth_tab in V0, V1 by lia.
  rewrite Nat.div_0_l, Nat.mod_0_l, !W_0 in V0 by lia.
  rewrite Nat.div_same, Nat.mod_same in V1 by lia.
  replace (W d (4 ^ p) K) with (Cid d) in V1.
  2:{ rewrite E4. replace K with (1 * K) at 2 by lia. rewrite W_scale_r, W_4_1 by auto. auto. }
  rewrite W_4_1 in V1.
  assert (N0 : nth 0 w C0 = C1). { etransitivity; [|exact V0]. ring. }
  rewrite N0 in V1. assert (V2 : Cid (flip d) = Cid d). { etransitivity; [|exact V1]. ring. }
  unfold Cid in V2. injection V2. destruct d; cbn; intros; lra.
Qed.
