(** The in-place radix-3 and radix-5 plans compute the DFT. *)
From Coq Require Import List Arith ZArith Bool Reals Lia.
From Verif Require Import Base.Outcome Base.OutcomeFacts Base.Sums Base.Cplx Spec.Dft Spec.DigitRev.
From Verif Require Import Proof.DftTheory Proof.DigitRevTheory Model.Fft2 Model.FftRadix.
From Verif Require Import Proof.Fft2Proof Proof.BitrevProof.
Import ListNotations.
Open Scope outcome_scope.
Local Arguments Nat.div : simpl never.
Local Arguments Nat.modulo : simpl never.

Definition bf_ok (r : nat)
  (bf : direction -> C -> nat -> nat -> nat -> list C -> outcome (list C)) : Prop :=
  forall d wi i j mr (x : list C), 0 < mr -> i + j + (r - 1) * mr < length x ->
  exists x', bf d wi i j mr x = Ok x' /\ length x' = length x /\
    (forall q, q < r -> nth (i + j + q * mr) x' C0 =
       Csum r (fun t => (W d r (q * t) * Cpow wi t * nth (i + j + t * mr) x C0)%C)) /\
    (forall l, (forall q, q < r -> l <> i + j + q * mr) -> nth l x' C0 = nth l x C0).

Ltac upd_len := rewrite ?upd_length.

Lemma W_red : forall d n a b, 0 < n -> a mod n = b -> W d n a = W d n b.
Proof. intros. subst b. symmetry. apply W_mod. auto. Qed.

Lemma W_back : forall n k, 0 < n -> k <= n -> W Backward n k = W Forward n (n - k).
Proof.
  intros n k Hn Hk. pose proof (W_neg Forward n 1 k Hk Hn). rewrite !Nat.mul_1_l in H. auto.
Qed.

Ltac eqb_cases :=
  repeat match goal with
  | |- context [?a =? ?b] => destruct (Nat.eqb_spec a b); [try lia | try lia]
  | |- context [?a <? ?b] => destruct (Nat.ltb_spec a b); [try lia | try lia]
  end; cbn [andb].

Lemma dif3_bf_ok : bf_ok 3 dif3_butterfly.
Proof.
  intros d wi i j mr x Hm Hl. simpl (3 - 1) in Hl.
  unfold dif3_butterfly. rewrite !twiddle_W by lia.
  rewrite (rd_ok _ x (i + j) C0), (rd_ok _ x (i + j + mr) C0), (rd_ok _ x (i + j + 2 * mr) C0) by lia.
  cbn [bind].
  assert (E : exists y1 y2 : C,
    (match d with
     | Forward => True
     | Backward => True end) /\
    y1 = Csum 3 (fun t => (W d 3 (1 * t) * Cpow wi t * nth (i + j + t * mr) x C0)%C) /\
    y2 = Csum 3 (fun t => (W d 3 (2 * t) * Cpow wi t * nth (i + j + t * mr) x C0)%C)).
  { eexists. eexists. split. destruct d; exact I. split; reflexivity. }
  destruct E as [y1 [y2 [_ [E1 E2]]]].
  set (y0 := Csum 3 (fun t => (W d 3 (0 * t) * Cpow wi t * nth (i + j + t * mr) x C0)%C)).
  exists (upd (upd (upd x (i + j) y0) (i + j + mr) y1) (i + j + 2 * mr) y2).
  split; [|split; [|split]].
  - rewrite wr_ok by lia. cbn [bind].
    destruct d; rewrite wr_ok by (upd_len; lia); cbn [bind]; rewrite wr_ok by (upd_len; lia).
    + rewrite E1, E2. unfold y0, Csum. cbn [bsum].
      rewrite (W_red Forward 3 (2 * 2) 1) by (auto; lia).
      simpl (0 * _). simpl (1 * _). simpl (2 * 0). simpl (2 * 1). rewrite !W_0. unfold Cpow, rpow. rewrite !Nat.add_0_r.
      f_equal. f_equal; [f_equal; [f_equal|] |]; ring.
    + rewrite E1, E2. unfold y0, Csum. cbn [bsum].
      rewrite (W_red Backward 3 (2 * 2) 1) by (auto; lia).
      simpl (0 * _). simpl (1 * _). simpl (2 * 0). simpl (2 * 1). rewrite !W_0. unfold Cpow, rpow. rewrite !Nat.add_0_r.
      rewrite !W_back by lia. simpl (3 - 1). simpl (3 - 2).
      f_equal. f_equal; [f_equal; [f_equal|] |]; ring.
  - upd_len. auto.
  - intros q Hq. rewrite !nth_upd. upd_len.
    destruct q as [|[|[|q]]]; [| | |lia]; simpl (_ * mr); eqb_cases; auto.
  - intros l Hlq. rewrite !nth_upd. upd_len.
    pose proof (Hlq 0 ltac:(lia)). pose proof (Hlq 1 ltac:(lia)). pose proof (Hlq 2 ltac:(lia)).
    eqb_cases; auto.
Qed.

Lemma dif5_bf_ok : bf_ok 5 dif5_butterfly.
Proof.
  intros d wi i j mr x Hm Hl. simpl (5 - 1) in Hl.
  unfold dif5_butterfly. rewrite !twiddle_W by lia.
  rewrite (rd_ok _ x (i + j) C0), (rd_ok _ x (i + j + mr) C0), (rd_ok _ x (i + j + 2 * mr) C0),
    (rd_ok _ x (i + j + 3 * mr) C0), (rd_ok _ x (i + j + 4 * mr) C0) by lia.
  cbn [bind].
  assert (E : forall q, exists y, y = Csum 5 (fun t => (W d 5 (q * t) * Cpow wi t * nth (i + j + t * mr) x C0)%C))
    by (intros; eexists; reflexivity).
  destruct (E 0) as [y0 E0]. destruct (E 1) as [y1 E1]. destruct (E 2) as [y2 E2].
  destruct (E 3) as [y3 E3]. destruct (E 4) as [y4 E4].
  exists (upd (upd (upd (upd (upd x (i + j) y0) (i + j + mr) y1) (i + j + 2 * mr) y2)
      (i + j + 3 * mr) y3) (i + j + 4 * mr) y4).
  split; [|split; [|split]].
  - rewrite wr_ok by lia. cbn [bind].
    destruct d; do 4 (rewrite wr_ok by (upd_len; lia); cbn [bind]).
    + rewrite E0, E1, E2, E3, E4. unfold Csum. cbn [bsum].
      rewrite (W_red Forward 5 (2 * 3) 1), (W_red Forward 5 (2 * 4) 3), (W_red Forward 5 (3 * 2) 1),
        (W_red Forward 5 (3 * 3) 4), (W_red Forward 5 (3 * 4) 2), (W_red Forward 5 (4 * 2) 3),
        (W_red Forward 5 (4 * 3) 2), (W_red Forward 5 (4 * 4) 1) by (auto; lia).
      simpl (0 * _). simpl (1 * _). simpl (_ * 0). simpl (_ * 1). simpl (2 * 2).
      rewrite !W_0. unfold Cpow, rpow. rewrite !Nat.add_0_r.
      f_equal. f_equal; [f_equal; [f_equal; [f_equal; [f_equal|]|]|] |]; ring.
    + rewrite E0, E1, E2, E3, E4. unfold Csum. cbn [bsum].
      rewrite (W_red Backward 5 (2 * 3) 1), (W_red Backward 5 (2 * 4) 3), (W_red Backward 5 (3 * 2) 1),
        (W_red Backward 5 (3 * 3) 4), (W_red Backward 5 (3 * 4) 2), (W_red Backward 5 (4 * 2) 3),
        (W_red Backward 5 (4 * 3) 2), (W_red Backward 5 (4 * 4) 1) by (auto; lia).
      simpl (0 * _). simpl (1 * _). simpl (_ * 0). simpl (_ * 1). simpl (2 * 2).
      rewrite !W_0. unfold Cpow, rpow. rewrite !Nat.add_0_r.
      rewrite !W_back by lia. simpl (5 - _).
      f_equal. f_equal; [f_equal; [f_equal; [f_equal; [f_equal|]|]|] |]; ring.
  - upd_len. auto.
  - intros q Hq. rewrite !nth_upd. upd_len.
    destruct q as [|[|[|[|[|q]]]]]; [| | | | |lia]; simpl (_ * mr); eqb_cases; auto.
  - intros l Hlq. rewrite !nth_upd. upd_len.
    pose proof (Hlq 0 ltac:(lia)). pose proof (Hlq 1 ltac:(lia)). pose proof (Hlq 2 ltac:(lia)).
    pose proof (Hlq 3 ltac:(lia)). pose proof (Hlq 4 ltac:(lia)).
    eqb_cases; auto.
Qed.

(** * Stages *)

Lemma idx_split : forall r mr i b q, i < mr -> q < r ->
  let l := i + b * (r * mr) + q * mr in
  l mod mr = i /\ (l / mr) mod r = q /\ l / (r * mr) = b.
Proof.
  intros r mr i b q Hi Hq l.
  assert (E : l / mr = b * r + q).
  { symmetry. apply Nat.div_unique with i; auto. unfold l. lia. }
  split; [|split].
  - symmetry. apply Nat.mod_unique with (b * r + q); auto. unfold l. lia.
  - rewrite E. symmetry. apply Nat.mod_unique with b; auto. lia.
  - symmetry. apply Nat.div_unique with (i + q * mr). nia. unfold l. lia.
Qed.

Definition stage_val d r mr (x : list C) (l : nat) : C :=
  let i := l mod mr in let q := (l / mr) mod r in let b := l / (r * mr) in
  Csum r (fun t => (W d r (q * t) * Cpow (W d (r * mr) i) t * nth (i + b * (r * mr) + t * mr) x C0)%C).

Lemma difR_stage_ok : forall r bf d mr cnt (x : list C),
  bf_ok r bf -> 0 < r -> 0 < mr -> length x = cnt * (r * mr) ->
  exists x', difR_stage bf r d (r * mr) x = Ok x' /\ length x' = length x /\
   forall i b q, i < mr -> b < cnt -> q < r ->
     nth (i + b * (r * mr) + q * mr) x' C0 = stage_val d r mr x (i + b * (r * mr) + q * mr).
Proof.
  intros r bf d mr cnt x Hbf Hr Hm Hx. unfold difR_stage.
  rewrite twiddle_W by nia.
  replace (r * mr / r) with mr by (rewrite Nat.mul_comm, Nat.div_mul; lia).
  unfold for_range. rewrite Nat.sub_0_r.
  destruct (loop_touch_acc C C0 C mr 0 1
    (fun (i : nat) (s : C * list C) =>
        x0 <- for_step 0 (length x) (r * mr) (fun (j : nat) (x0 : list C) => bf d (fst s) i j mr x0) (snd s);;
        Ok ((fst s * W d (r * mr) 1)%C, x0)) x
    (fun i => W d (r * mr) i)
    (fun i l => exists b q, b < cnt /\ q < r /\ l = i + b * (r * mr) + q * mr)
    (fun i l => stage_val d r mr x l)) as [x' [E [L [V _]]]].
  - intros j j' l Hj Hj' Hne [b [q [Hb [Hq E]]]] [b' [q' [Hb' [Hq' E']]]].
    apply Hne. destruct (idx_split r mr j b q) as [H1 _]; auto.
    destruct (idx_split r mr j' b' q') as [H2 _]; auto. congruence.
  - intros i y Hi Ly HP. cbn [fst snd].
    replace (0 + i * 1) with i by lia.
    unfold for_step. destruct (Nat.eqb_spec (r * mr) 0); [nia|].
    replace ((length x - 0 + (r * mr - 1)) / (r * mr)) with cnt.
    2:{ rewrite Hx. apply Nat.div_unique with (r * mr - 1); nia. }
    destruct (loop_touch C C0 cnt 0 (r * mr)
      (fun (j : nat) (x0 : list C) => bf d (W d (r * mr) i) i j mr x0) y
      (fun b l => exists q, q < r /\ l = i + b * (r * mr) + q * mr)
      (fun b l => stage_val d r mr x l)) as [y' [E [L' [V F]]]].
    + intros j j' l Hj Hj' Hne [q [Hq E]] [q' [Hq' E']]. apply Hne.
      destruct (idx_split r mr i j q) as [_ [_ H1]]; auto.
      destruct (idx_split r mr i j' q') as [_ [_ H2]]; auto. congruence.
    + intros b z Hb Lz HPz. rewrite Nat.add_0_l.
      destruct (Hbf d (W d (r * mr) i) i (b * (r * mr)) mr z) as [z' [E [L' [V F]]]]; auto.
      { rewrite Lz, Ly, Hx. nia. }
      exists z'. split; auto. split; [lia|]. split.
      * intros l [q [Hq El]]. subst l. rewrite V by auto.
        unfold stage_val. destruct (idx_split r mr i b q) as [H1 [H2 H3]]; auto.
        rewrite H1, H2, H3. apply Csum_ext. intros t Ht. f_equal.
        rewrite HPz by (exists t; auto). apply HP. exists b, t. auto.
      * intros l Hl. apply F. intros q Hq El. apply Hl. exists q. auto.
    + rewrite E. cbn [bind]. exists y'. split; [|split; [lia|split]].
      * f_equal. f_equal. rewrite <- W_add. f_equal. lia.
      * intros l [b [q [Hb [Hq El]]]]. apply (V b); auto. exists q. auto.
      * intros l Hl. apply F. intros b Hb [q [Hq El]]. apply Hl. exists b, q. auto.
  - rewrite W_0 in E. rewrite E. cbn [bind]. exists x'. split; auto. split; auto.
    intros i b q Hi Hb Hq. apply (V i); auto. exists b, q. auto.
Qed.

Lemma difR_stage_dit : forall r bf d p s xs (x : list C),
  bf_ok r bf -> 0 < r -> s < p -> length x = r ^ p ->
  dit_inv d r p s xs (fun i => nth i x C0) ->
  exists x', difR_stage bf r d (r ^ S s) x = Ok x' /\ length x' = r ^ p /\
    dit_inv d r p (S s) xs (fun i => nth i x' C0).
Proof.
  intros r bf d p s xs x Hbf Hr Hs Hx HI.
  assert (Hm := pow_pos r s Hr).
  destruct (difR_stage_ok r bf d (r ^ s) (r ^ (p - S s)) x) as [x' [E [L V]]]; auto.
  { rewrite Hx. change (r * r ^ s) with (r ^ S s). rewrite <- Nat.pow_add_r. f_equal. lia. }
  exists x'. split; auto. split; [lia|].
  apply dit_inv_step with (a := fun i => nth i x C0); auto.
  intros b k q Hb Hk Hq.
  replace (b * r ^ S s + (q * r ^ s + k)) with (k + b * (r * r ^ s) + q * r ^ s) by (simpl; lia).
  rewrite V by auto. unfold stage_val.
  destruct (idx_split r (r ^ s) k b q) as [H1 [H2 H3]]; auto. rewrite H1, H2, H3.
  apply Csum_ext. intros t Ht. change (r * r ^ s) with (r ^ S s).
  f_equal.
  - rewrite Nat.mul_add_distr_l, W_add. f_equal.
    + replace (t * (q * r ^ s)) with (q * t * r ^ s) by lia. simpl (r ^ S s).
      rewrite W_scale_r; auto.
    + rewrite W_pow. auto.
  - f_equal. simpl. lia.
Qed.

Lemma difR_run_ok : forall r bf d p (x : list C),
  bf_ok r bf -> 1 < r -> (Z.of_nat r ^ (Z.of_nat p + 1) < 2 ^ 31)%Z -> length x = r ^ p ->
  (lut <- digitrev_make r (r ^ p) ;; difR_run bf r lut x d) = Ok (DFT_list d x).
Proof.
  intros r bf d p x Hbf Hr HZ Hx.
  destruct (digitrev_make_ok r p Hr) as [lut [El _]]. rewrite El. cbn [bind].
  unfold difR_run. rewrite (digitrev_apply_ok C C0 r p lut x) by auto. cbn [bind].
  set (x1 := tab (r ^ p) (fun i => nth (digit_rev r p i) x C0)).
  set (xs := fun i => nth i x C0).
  assert (L1 : length x1 = r ^ p) by apply tab_length.
  assert (I1 : dit_inv d r p 0 xs (fun i => nth i x1 C0)).
  { apply dit_inv_0; [lia|]. intros i Hi. unfold x1. rewrite nth_tab by auto. reflexivity. }
  assert (G : forall k s fuel (y : list C), p - s = k -> s <= p -> k <= fuel -> length y = r ^ p ->
    dit_inv d r p s xs (fun i => nth i y C0) ->
    exists m y', while_fuel fuel (fun s : nat * list C => fst s <=? length (snd s))
      (fun s => x <- difR_stage bf r d (fst s) (snd s) ;; m <- int_mul (fst s) r ;; Ok (m, x))
      (r ^ S s, y) = Ok (m, y') /\ length y' = r ^ p /\ dit_inv d r p p xs (fun i => nth i y' C0)).
  { induction k; intros s fuel y Hk Hs Hf Ly Iy.
    - assert (s = p) by lia. subst s. exists (r ^ S p), y. split; auto.
      apply while_stop. cbn [fst snd]. apply Nat.leb_gt. rewrite Ly. simpl.
      assert (0 < r ^ p) by (apply pow_pos; lia). nia.
    - destruct fuel; [lia|].
      destruct (difR_stage_dit r bf d p s xs y) as [y' [Ey [Ly' Iy']]]; auto; try lia.
      rewrite while_step. 2:{ cbn [fst snd]. apply Nat.leb_le. rewrite Ly. apply Nat.pow_le_mono_r; lia. }
      cbn [fst snd]. rewrite Ey. cbn [bind]. unfold int_mul.
      assert (HM : (Z.of_nat (r ^ S s) * Z.of_nat r < 2 ^ 31)%Z).
      { eapply Z.le_lt_trans; [|exact HZ]. rewrite <- Nat2Z.inj_mul.
        replace (r ^ S s * r) with (r ^ S (S s)) by (simpl; lia).
        rewrite Nat2Z.inj_pow. apply Z.pow_le_mono_r; lia. }
      destruct (Z.ltb_spec (Z.of_nat (r ^ S s) * Z.of_nat r) (2 ^ 31)); [|lia].
      cbn [bind]. replace (r ^ S s * r) with (r ^ S (S s)) by (simpl; lia).
      apply IHk; auto; lia. }
  destruct (G p 0 (length x1) x1) as [m [y [Ey [Ly Iy]]]]; auto; try lia.
  { rewrite L1. apply Nat.lt_le_incl. apply Nat.pow_gt_lin_r. auto. }
  simpl (r ^ 1) in Ey. rewrite Nat.mul_1_r in Ey. rewrite Ey. cbn [bind]. f_equal.
  unfold DFT_list. rewrite Hx. apply list_eq_tab with (d := C0); auto.
  intros i Hi. apply (dit_inv_end d r p xs (fun i => nth i y C0)); auto.
Qed.

Lemma dif3_plan_ok : forall d p (x : list C), p <= 18 -> length x = 3 ^ p ->
  c2c_dif3_plan p x d = Ok (DFT_list d x).
Proof.
  intros. unfold c2c_dif3_plan. apply difR_run_ok; auto using dif3_bf_ok.
  eapply Z.le_lt_trans with (3 ^ 19)%Z; [apply Z.pow_le_mono_r; lia|reflexivity].
Qed.

Lemma dif5_plan_ok : forall d p (x : list C), p <= 12 -> length x = 5 ^ p ->
  c2c_dif5_plan p x d = Ok (DFT_list d x).
Proof.
  intros. unfold c2c_dif5_plan. apply difR_run_ok; auto using dif5_bf_ok; try lia.
  eapply Z.le_lt_trans with (5 ^ 13)%Z; [apply Z.pow_le_mono_r; lia|reflexivity].
Qed.
