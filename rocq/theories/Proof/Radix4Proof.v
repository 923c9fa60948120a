(** Radix-2 Stockham plans and radix-4 plans: what they compute. *)
From Coq Require Import List Arith Bool Reals Lra Lia.
From Verif Require Import Base.Outcome Base.OutcomeFacts Base.Sums Base.Cplx Spec.Dft Spec.DigitRev Spec.Twisted.
From Verif Require Import Proof.DftTheory Proof.DigitRevTheory Proof.TwistedTheory Model.Fft2 Model.FftRadix Model.Stockham.
From Verif Require Import Proof.Fft2Proof Proof.BitrevProof Proof.RadixProof Proof.StockhamProof.
Import ListNotations.
Open Scope outcome_scope.
Local Arguments Nat.div : simpl never.
Local Arguments Nat.modulo : simpl never.
Local Arguments Nat.pow : simpl never.

(** * Doubly nested loops whose bodies own disjoint cells *)
Lemma nested_touch : forall T (d : T) r l m N (x0 : list T) (ix : nat -> nat -> nat -> nat)
    (body : nat -> nat -> list T -> outcome (list T)) (F : nat -> T),
  length x0 = N ->
  (forall j k t j' k' t', j < l -> k < m -> t < r -> j' < l -> k' < m -> t' < r ->
     ix j k t = ix j' k' t' -> j = j' /\ k = k') ->
  (forall a, a < N -> exists j k t, j < l /\ k < m /\ t < r /\ a = ix j k t) ->
  (forall j k u, j < l -> k < m -> length u = N ->
     (forall t, t < r -> nth (ix j k t) u d = nth (ix j k t) x0 d) ->
     exists u', body j k u = Ok u' /\ length u' = N /\
       (forall t, t < r -> nth (ix j k t) u' d = F (ix j k t)) /\
       (forall a, (forall t, t < r -> a <> ix j k t) -> nth a u' d = nth a u d)) ->
  exists x', for_range 0 l (fun j x => for_range 0 m (fun k x => body j k x) x) x0 = Ok x' /\
    length x' = N /\ forall a, a < N -> nth a x' d = F a.
Proof.
  intros T d r l m N x0 ix body F HL Hinj Hsur Hb.
  unfold for_range at 1. rewrite Nat.sub_0_r.
  destruct (loop_touch T d l 0 1 (fun j x => for_range 0 m (fun k x => body j k x) x) x0
    (fun j a => exists k t, k < m /\ t < r /\ a = ix j k t) (fun _ a => F a)) as [x' [E [L [V _]]]].
  - intros j j' a Hj Hj' Hne [k [t [Hk [Ht Ea]]]] [k' [t' [Hk' [Ht' Ea']]]]. apply Hne.
    destruct (Hinj j k t j' k' t'); auto. congruence.
  - intros j z Hj Lz HPz. simpl. rewrite Nat.mul_1_r. unfold for_range. rewrite Nat.sub_0_r.
    destruct (loop_touch T d m 0 1 (fun k x => body j k x) z
      (fun k a => exists t, t < r /\ a = ix j k t) (fun _ a => F a)) as [z' [E [L [V Fr]]]].
    + intros k k' a Hk Hk' Hne [t [Ht Ea]] [t' [Ht' Ea']]. apply Hne.
      destruct (Hinj j k t j k' t'); auto. congruence.
    + intros k u Hk Lu HPu. simpl. rewrite Nat.mul_1_r.
      destruct (Hb j k u) as [u' [E [L [V Fr]]]]; auto; try lia.
      { intros t Ht. rewrite HPu by (exists t; auto). apply HPz. exists k, t. auto. }
      exists u'. split; [exact E|]. split; [lia|]. split.
      * intros a [t [Ht ->]]. auto.
      * intros a Ha. apply Fr. intros t Ht Ea. apply Ha. exists t. auto.
    + exists z'. split; [exact E|]. split; [lia|]. split.
      * intros a [k [t [Hk [Ht Ea]]]]. apply (V k); auto. exists t. auto.
      * intros a Ha. apply Fr. intros k Hk [t [Ht Ea]]. apply Ha. exists k, t. auto.
  - exists x'. split; [exact E|]. split; [lia|].
    intros a Ha. destruct (Hsur a Ha) as [j [k [t [Hj [Hk [Ht Ea]]]]]].
    apply (V j); auto. exists k, t. auto.
Qed.

(** Loop with an accumulator that grows by a constant. *)
Lemma acc_loop : forall T n c (f : nat -> T -> outcome T) b0 x,
  for_range 0 n (fun _ (s : nat * T) => x <- f (fst s) (snd s) ;; Ok (fst s + c, x)) (b0, x)
  = (x <- for_range 0 n (fun h x => f (b0 + h * c) x) x ;; Ok (b0 + n * c, x)).
Proof.
  intros T n c f b0 x. unfold for_range. rewrite Nat.sub_0_r.
  assert (G : forall n lo b x, b = b0 + lo * c ->
     loop n lo 1 (fun _ (s : nat * T) => x <- f (fst s) (snd s) ;; Ok (fst s + c, x)) (b, x)
     = (x <- loop n lo 1 (fun h x => f (b0 + h * c) x) x ;; Ok (b + n * c, x))).
  { clear. induction n; intros lo b x Eb; simpl.
    - rewrite Nat.add_0_r. auto.
    - rewrite <- Eb. destruct (f b x); simpl; auto.
      rewrite IHn by lia. destruct (loop n (lo + 1) 1 _ a); simpl; auto. do 2 f_equal. lia. }
  rewrite G by lia. auto.
Qed.

Lemma read_tab_W : forall d n (w : list C) i, w = tab (n / 2) (fun i => W d n i) -> i < n / 2 ->
  rd w i = Ok (W d n i).
Proof.
  intros. subst w. rewrite (rd_ok _ _ i C0) by (rewrite tab_length; auto). rewrite nth_tab; auto.
Qed.

(** * Radix-2 Stockham *)
Lemma dif_ix_inj : forall r m k t j k' t' j', k < m -> t < r -> k' < m -> t' < r ->
  k + r * j * m + t * m = k' + r * j' * m + t' * m -> j = j' /\ k = k'.
Proof.
  intros. destruct (idx_dif r m k j t) as [H4 [H5 H6]]; auto.
  destruct (idx_dif r m k' j' t') as [H7 [H8 H9]]; auto. split; congruence.
Qed.

Lemma dif_ix_surj : forall r l m a, 0 < r -> 0 < m -> a < r * l * m ->
  exists j k t, j < l /\ k < m /\ t < r /\ a = k + r * j * m + t * m.
Proof.
  intros r l m a Hr Hm Ha. exists (a / (r * m)), (a mod m), ((a / m) mod r).
  split; [apply Nat.div_lt_upper_bound; nia|].
  split; [apply Nat.mod_upper_bound; lia|].
  split; [apply Nat.mod_upper_bound; lia|].
  assert (a = m * (a / m) + a mod m) by (apply Nat.div_mod; lia).
  assert (a / m = r * (a / m / r) + (a / m) mod r) by (apply Nat.div_mod; lia).
  rewrite (Nat.mul_comm r m), <- Nat.div_div by lia. nia.
Qed.

Lemma dif_val2 : forall d l m (y : nat -> C) k j, k < m ->
  dif_val d 2 l m y (k + 2 * j * m + 0 * m) = (y (k + m * j)%nat + y (k + m * (j + l))%nat)%C /\
  dif_val d 2 l m y (k + 2 * j * m + 1 * m) =
    ((y (k + m * j)%nat - y (k + m * (j + l))%nat) * W d (2 * l) j)%C.
Proof.
  intros d l m y k j Hk. split; unfold dif_val.
  - destruct (idx_dif 2 m k j 0) as [H1 [H2 H3]]; auto; rewrite H1, H2, H3.
    unfold Csum. cbn [bsum]. rewrite !Nat.mul_0_l, !Nat.mul_0_r, !W_0, !Nat.add_0_r, Nat.mul_1_l. ring.
  - destruct (idx_dif 2 m k j 1) as [H1 [H2 H3]]; auto; rewrite H1, H2, H3.
    unfold Csum. cbn [bsum]. rewrite !Nat.mul_0_l, !Nat.mul_1_l, W_0, W_2_1, !Nat.add_0_r. ring.
Qed.

Lemma two_writes : forall (u : list C) a b va vb, a < length u -> b < length u -> a <> b ->
  exists u', (y <- wr u a va ;; wr y b vb) = Ok u' /\ length u' = length u /\
    nth a u' C0 = va /\ nth b u' C0 = vb /\ (forall c, c <> a -> c <> b -> nth c u' C0 = nth c u C0).
Proof.
  intros u a b va vb Ha Hb Hab. rewrite wr_ok by auto. cbn [bind]. rewrite wr_ok by (upd_len; auto).
  eexists. split; [reflexivity|]. upd_len. split; auto. rewrite !nth_upd. upd_len.
  split; [eqb_cases; auto|]. split; [eqb_cases; auto|].
  intros c H1 H2. rewrite !nth_upd. upd_len. eqb_cases; auto.
Qed.

Lemma dif2i_stage_ok : forall d n l m (x y w : list C), 0 < m -> 0 < l ->
  n = 2 * l * m -> length x = n -> length y = n -> w = tab (n / 2) (fun i => W d n i) ->
  exists y', dif2i_butterfly x y w l m (l * m) = Ok y' /\ length y' = n /\
    forall a, a < n -> nth a y' C0 = dif_val d 2 l m (fun i => nth i x C0) a.
Proof.
  intros d n l m x y w Hm Hl Hn Lx Ly Hw. unfold dif2i_butterfly.
  assert (Hh : n / 2 = l * m). { subst n. symmetry. apply Nat.div_unique with 0; lia. }
  rewrite for_range_ext_in with (b' := fun j y => for_range 0 m (fun k y =>
      c0 <- rd x (k + j * m) ;;
      c1 <- rd x (k + j * m + l * m) ;;
      y <- wr y (k + j * m * 2) (c0 + c1)%C ;;
      wr y (k + j * m * 2 + m) ((c0 - c1) * W d (2 * l) j)%C) y).
  2:{ intros j s Hj. rewrite (read_tab_W d n w) by (auto; nia). cbn [bind].
      replace (W d n (j * m)) with (W d (2 * l) j); auto. subst n. rewrite W_scale_r; auto. }
  apply nested_touch with (r := 2) (ix := fun j k t => k + 2 * j * m + t * m); auto.
  - intros. eapply dif_ix_inj; [| | | | eauto]; auto.
  - intros a Ha. apply dif_ix_surj; lia.
  - intros j k u Hj Hk Lu _.
    assert (k + j * m + l * m < n).
    { subst n. pose proof (idx_lt1 2 l m k j 1 Hk Hj ltac:(lia)). lia. }
    assert (k + j * m * 2 + m < n).
    { subst n. pose proof (idx_lt2 2 l m k j 1 Hk Hj ltac:(lia)). lia. }
    rewrite (rd_ok _ x (k + j * m) C0) by lia. cbn [bind].
    rewrite (rd_ok _ x (k + j * m + l * m) C0) by lia. cbn [bind].
    edestruct (two_writes u (k + j * m * 2) (k + j * m * 2 + m)) as [u' [E [L [V0 [V1 Fr]]]]]; try lia.
    exists u'. split; [exact E|]. split; [lia|].
    destruct (dif_val2 d l m (fun i => nth i x C0) k j Hk) as [D0 D1].
    split.
    + intros t Ht. destruct t as [|[|t]]; [| |lia].
      * rewrite D0. replace (k + 2 * j * m + 0 * m) with (k + j * m * 2) by lia. rewrite V0.
        f_equal; f_equal; lia.
      * rewrite D1. replace (k + 2 * j * m + 1 * m) with (k + j * m * 2 + m) by lia. rewrite V1.
        do 3 f_equal; lia.
    + intros a Ha. apply Fr.
      * specialize (Ha 0 ltac:(lia)). lia.
      * specialize (Ha 1 ltac:(lia)). lia.
Qed.

Lemma fill_W : forall d n h, 0 < n ->
  for_range 0 h (fun i w => wr w i (twiddle n i d)) (repeat C0 h) = Ok (tab h (fun i => W d n i)).
Proof.
  intros d n h Hn.
  rewrite for_range_ext_in with (b' := fun i w => wr w i (W d n i)).
  2:{ intros. rewrite twiddle_W by auto. auto. }
  destruct (scatter_ok C C0 h (fun i => i) (W d n) (repeat C0 h)) as [x' [E [L [V _]]]].
  - intros. rewrite repeat_length. auto.
  - auto.
  - rewrite E. f_equal. rewrite repeat_length in L. apply list_eq_tab with (d := C0); auto.
Qed.

Lemma dif2i_plan_ok : forall d p (work x : list C), length x = 2 ^ p -> length work = 2 ^ p ->
  c2c_stockham_dif2i_plan p work x d = Ok (DFT_list (flip d) x).
Proof.
  intros d p work x Hx Hwk. unfold c2c_stockham_dif2i_plan, dif2i_lut.
  assert (Hp : 0 < 2 ^ p) by (apply pow_pos; lia).
  rewrite fill_W by auto. cbn [bind].
  set (w := tab (2 ^ p / 2) (fun i => W (flip d) (2 ^ p) i)).
  set (xs := fun i => nth i x C0).
  destruct (for_range_inv (list C * list C)
    (fun t s => length (fst s) = 2 ^ p /\ length (snd s) = 2 ^ p /\
      dif_inv (flip d) (2 ^ p) (2 ^ t) (2 ^ (p - t)) xs
        (fun i => nth i (if Nat.even t then fst s else snd s) C0)) 0 p
    (fun stage s =>
      if Nat.even stage then
        y <- dif2i_butterfly (fst s) (snd s) w (2 ^ p / (2 ^ stage * 2)) (2 ^ stage)
               (2 ^ p / (2 ^ stage * 2) * 2 ^ stage) ;; Ok (fst s, y)
      else
        x <- dif2i_butterfly (snd s) (fst s) w (2 ^ p / (2 ^ stage * 2)) (2 ^ stage)
               (2 ^ p / (2 ^ stage * 2) * 2 ^ stage) ;; Ok (x, snd s)) (x, work))
    as [[x' y'] [E [L1 [L2 I]]]]; try lia.
  - cbn [fst snd]. split; auto. split; auto. rewrite Nat.sub_0_r. change (2 ^ 0) with 1. apply dif_inv_0. auto.
  - intros t [a b] Ht [L1 [L2 I]]. cbn [fst snd] in *.
    assert (Hm : 0 < 2 ^ t) by (apply pow_pos; lia).
    assert (Hl : 0 < 2 ^ (p - S t)) by (apply pow_pos; lia).
    assert (EP : 2 ^ p = 2 * 2 ^ (p - S t) * 2 ^ t).
    { rewrite <- Nat.pow_succ_r', <- Nat.pow_add_r. f_equal. lia. }
    replace (2 ^ p / (2 ^ t * 2)) with (2 ^ (p - S t)).
    2:{ rewrite EP. apply Nat.div_unique with 0; lia. }
    assert (G : forall u v : list C, length u = 2 ^ p -> length v = 2 ^ p ->
      dif_inv (flip d) (2 ^ p) (2 ^ t) (2 ^ (p - t)) xs (fun i => nth i u C0) ->
      exists v', dif2i_butterfly u v w (2 ^ (p - S t)) (2 ^ t) (2 ^ (p - S t) * 2 ^ t) = Ok v' /\
        length v' = 2 ^ p /\ dif_inv (flip d) (2 ^ p) (2 ^ S t) (2 ^ (p - S t)) xs (fun i => nth i v' C0)).
    { intros u v Lu Lv Iu.
      destruct (dif2i_stage_ok (flip d) (2 ^ p) (2 ^ (p - S t)) (2 ^ t) u v w) as [v' [E [L V]]]; auto.
      exists v'. split; auto. split; auto.
      replace (2 ^ S t) with (2 ^ t * 2) by (rewrite Nat.pow_succ_r'; lia).
      apply (dif_inv_step (flip d) (2 ^ p) 2 (2 ^ (p - S t)) (2 ^ t) xs (fun i => nth i u C0)); auto; try lia.
      - rewrite <- Nat.pow_succ_r'. replace (S (p - S t)) with (p - t) by lia. auto.
      - rewrite <- EP. auto. }
    rewrite Nat.even_succ, <- Nat.negb_even.
    destruct (Nat.even t).
    + destruct (G a b) as [v' [E [L V]]]; auto. rewrite E. cbn [bind].
      eexists. split; [reflexivity|]. cbn [fst snd negb]. auto.
    + destruct (G b a) as [v' [E [L V]]]; auto. rewrite E. cbn [bind].
      eexists. split; [reflexivity|]. cbn [fst snd negb]. auto.
  - rewrite E. cbn [bind]. cbn [fst snd] in *. rewrite Nat.sub_diag in I. change (2 ^ 0) with 1 in I.
    assert (F : (if Nat.even p then x' else y') = DFT_list (flip d) x).
    { unfold DFT_list. rewrite Hx. apply list_eq_tab with (d := C0).
      - destruct (Nat.even p); auto.
      - intros i Hi. apply (dif_inv_end (flip d) (2 ^ p) xs (fun i => nth i (if Nat.even p then x' else y') C0)); auto. }
    rewrite <- Nat.negb_even. destruct (Nat.even p); cbn [negb].
    + congruence.
    + rewrite L1, L2, Nat.eqb_refl. congruence.
Qed.

Lemma dif2r_stage_ok : forall d n l m (x y w : list C), 0 < m -> 0 < l ->
  n = 2 * l * m -> length x = n -> length y = n -> w = tab (n / 2) (fun i => W d n i) ->
  exists y', dif2r_stage (2 * l) m x y w = Ok y' /\ length y' = n /\
    forall a, a < n -> nth a y' C0 = dif_val d 2 l m (fun i => nth i x C0) a.
Proof.
  intros d n l m x y w Hm Hl Hn Lx Ly Hw.
  destruct (dif2i_stage_ok d n l m x y w) as [y' [E [L V]]]; auto.
  exists y'. split; auto. rewrite <- E. unfold dif2r_stage, dif2i_butterfly.
  replace (2 * l / 2) with l by (apply Nat.div_unique with 0; lia).
  apply for_range_ext. intros j s _. destruct (rd w (j * m)); cbn [bind]; auto.
  apply for_range_ext. intros k u _.
  replace (k + m * (j + 0)) with (k + j * m) by lia.
  replace (k + m * (j + l)) with (k + j * m + l * m) by lia.
  replace (k + m * (2 * j + 0)) with (k + j * m * 2) by lia.
  replace (k + m * (2 * j + 1)) with (k + j * m * 2 + m) by lia. auto.
Qed.

Lemma dif2r_fft0_ok : forall d p (w : list C) xs s x work t flag,
  w = tab (2 ^ p / 2) (fun i => W d (2 ^ p) i) ->
  t + s = p -> length x = 2 ^ p -> length work = 2 ^ p ->
  dif_inv d (2 ^ p) (2 ^ t) (2 ^ s) xs (fun i => nth i x C0) ->
  exists x' work', dif2r_fft0 s (2 ^ s) (2 ^ t) flag x work w = Ok (x', work') /\
    length x' = 2 ^ p /\ length work' = 2 ^ p /\
    (if flag then work' else x') = tab (2 ^ p) (DFT d (2 ^ p) xs).
Proof.
  induction s; intros x work t flag Hw Hts Lx Lw I.
  - rewrite Nat.add_0_r in Hts. subst t. change (2 ^ 0) with 1 in *.
    assert (Fx : x = tab (2 ^ p) (DFT d (2 ^ p) xs)).
    { apply list_eq_tab with (d := C0); auto. intros i Hi.
      apply (dif_inv_end d (2 ^ p) xs (fun i => nth i x C0)); auto. }
    cbn [dif2r_fft0]. cbn [Nat.eqb]. destruct flag.
    + rewrite for_range_ext_in with (b' := fun k work => wr work k (nth k x C0)).
      2:{ intros k u Hk. rewrite (rd_ok _ x k C0) by lia. auto. }
      destruct (scatter_ok C C0 (2 ^ p) (fun i => i) (fun i => nth i x C0) work) as [w' [E [L [V _]]]]; auto.
      { intros. lia. }
      rewrite E. cbn [bind]. exists x, w'. split; [reflexivity|]. split; auto. split; [lia|].
      rewrite <- Fx. apply list_eq_nth with (d := C0); try lia. intros i Hi. apply V. lia.
    + exists x, work. auto.
  - assert (Hm : 0 < 2 ^ t) by (apply pow_pos; lia).
    assert (Hl : 0 < 2 ^ s) by (apply pow_pos; lia).
    assert (EP : 2 ^ p = 2 * 2 ^ s * 2 ^ t).
    { rewrite <- Nat.pow_succ_r', <- Nat.pow_add_r. f_equal. lia. }
    cbn [dif2r_fft0].
    destruct (Nat.eqb_spec (2 ^ S s) 1). { rewrite Nat.pow_succ_r' in *. lia. }
    destruct (dif2r_stage_ok d (2 ^ p) (2 ^ s) (2 ^ t) x work w) as [y [E [L V]]]; auto.
    rewrite Nat.pow_succ_r'. rewrite E. cbn [bind].
    replace (2 * 2 ^ s / 2) with (2 ^ s) by (apply Nat.div_unique with 0; lia).
    replace (2 ^ t * 2) with (2 ^ S t) by (rewrite Nat.pow_succ_r'; lia).
    destruct (IHs y x (S t) (negb flag)) as [y' [x' [E' [L1 [L2 F]]]]]; auto; try lia.
    { replace (2 ^ S t) with (2 ^ t * 2) by (rewrite Nat.pow_succ_r'; lia).
      apply (dif_inv_step d (2 ^ p) 2 (2 ^ s) (2 ^ t) xs (fun i => nth i x C0)); auto; try lia.
      rewrite <- EP. auto. }
    rewrite E'. cbn [bind]. exists x', y'. split; auto. split; auto. split; auto.
    destruct flag; auto.
Qed.

Lemma nth_map_conj : forall (x : list C) i, nth i (map Cconj x) C0 = Cconj (nth i x C0).
Proof. intros. rewrite <- (map_nth Cconj). rewrite Cconj_0. auto. Qed.

Lemma conjugate_ok : forall n (x : list C), length x = n -> conjugate n x = Ok (map Cconj x).
Proof.
  intros n x Hx. unfold conjugate.
  destruct (for_range_inv (list C) (fun i y => length y = n /\
     forall l, l < n -> nth l y C0 = if l <? i then Cconj (nth l x C0) else nth l x C0) 0 n
     (fun i x => v <- rd x i ;; wr x i (Cconj v)) x) as [y [E [L V]]]; try lia.
  - split; auto.
  - intros i y Hi [L V]. rewrite (rd_ok _ y i C0) by lia. cbn [bind]. rewrite wr_ok by lia.
    eexists. split; [reflexivity|]. upd_len. split; auto. intros l Hl. rewrite nth_upd.
    rewrite !V by lia. eqb_cases; auto. subst; auto.
  - rewrite E. f_equal. apply list_eq_nth with (d := C0). { rewrite map_length. lia. }
    intros i Hi. rewrite V by lia. rewrite nth_map_conj.
    destruct (Nat.ltb_spec i n); auto. lia.
Qed.

Lemma dif2r_plan_ok : forall d p (work x : list C), length x = 2 ^ p -> length work = 2 ^ p ->
  c2c_stockham_dif2r_plan p work x d = Ok (DFT_list (flip d) x).
Proof.
  intros d p work x Hx Hwk. unfold c2c_stockham_dif2r_plan, dif2r_lut.
  assert (Hp : 0 < 2 ^ p) by (apply pow_pos; lia).
  rewrite fill_W by auto. cbn [bind].
  assert (G : forall x : list C, length x = 2 ^ p ->
     exists work', dif2r_fft0 p (2 ^ p) 1 false x work (tab (2 ^ p / 2) (fun i => W Backward (2 ^ p) i))
      = Ok (DFT_list Backward x, work')).
  { clear x Hx. intros x Hx.
    destruct (dif2r_fft0_ok Backward p _ (fun i => nth i x C0) p x work 0 false eq_refl)
      as [x' [work' [E [L1 [L2 F]]]]]; auto.
    - change (2 ^ 0) with 1. apply dif_inv_0. auto.
    - change (2 ^ 0) with 1 in E. exists work'. rewrite E. rewrite F. unfold DFT_list. rewrite Hx. auto. }
  destruct d; cbn [flip].
  - destruct (G x Hx) as [work' E]. rewrite E. auto.
  - rewrite conjugate_ok by auto. cbn [bind].
    destruct (G (map Cconj x)) as [work' E]. { rewrite map_length. auto. }
    rewrite E. cbn [bind]. rewrite conjugate_ok.
    2:{ unfold DFT_list. rewrite tab_length, map_length. auto. }
    f_equal. unfold DFT_list. rewrite map_length. unfold tab. rewrite map_map.
    apply map_ext. intros k. rewrite DFT_conj. cbn [flip]. apply DFT_ext. intros j Hj.
    rewrite nth_map_conj. apply Cconj_conj.
Qed.

(** * Radix 4 *)
Lemma kern4 : forall d q (c : nat -> C), q < 4 ->
  Csum 4 (fun t => (W (flip d) 4 (q * t) * c t)%C) =
  match q with
  | 0 => ((c 0 + c 2) + (c 1 + c 3))%C
  | 1 => ((c 0 - c 2) - (c 1 - c 3) * sign_i d)%C
  | 2 => ((c 0 + c 2) - (c 1 + c 3))%C
  | _ => ((c 0 - c 2) + (c 1 - c 3) * sign_i d)%C
  end.
Proof.
  intros d q c Hq. unfold Csum. cbn [bsum].
  destruct q as [|[|[|[|q]]]]; [| | | |lia];
    red_W; rewrite ?W_0, ?W_4_1, ?W4_2, ?W4_3; unfold Cid, sign_i;
    open_c c; apply C_eq; destruct d; simpl; ring.
Qed.

Lemma four_writes : forall (u : list C) a0 a1 a2 a3 v0 v1 v2 v3,
  a0 < a1 -> a1 < a2 -> a2 < a3 -> a3 < length u ->
  exists u', (x <- wr u a0 v0 ;; x <- wr x a1 v1 ;; x <- wr x a2 v2 ;; wr x a3 v3) = Ok u' /\
    length u' = length u /\
    nth a0 u' C0 = v0 /\ nth a1 u' C0 = v1 /\ nth a2 u' C0 = v2 /\ nth a3 u' C0 = v3 /\
    (forall c, c <> a0 -> c <> a1 -> c <> a2 -> c <> a3 -> nth c u' C0 = nth c u C0).
Proof.
  intros. rewrite wr_ok by lia. cbn [bind]. do 3 (rewrite wr_ok by (upd_len; lia); cbn [bind]).
  eexists. split; [reflexivity|]. upd_len. split; auto. rewrite !nth_upd. upd_len.
  split; [eqb_cases; auto|]. split; [eqb_cases; auto|]. split; [eqb_cases; auto|]. split; [eqb_cases; auto|].
  intros c H3 H4 H5 H6. rewrite !nth_upd. upd_len. eqb_cases; auto.
Qed.

(** ** Stockham DIT *)
Definition sdit_inv (d : direction) (p q : nat) (x X : nat -> C) : Prop :=
  forall j k, j < 4 ^ q -> k < 4 ^ (p - q) ->
    X (j * 4 ^ (p - q) + k) = TDFT d q (fun i => x (k + 4 ^ (p - q) * i)%nat) j.

(** Value stored by a Stockham DIT stage: output cell (q, j, k). *)
Definition sdit_val d ls r (y : nat -> C) (a : nat) : C :=
  let k := a mod r in let j := (a / r) mod ls in let q := a / (ls * r) in
  Csum 4 (fun t => (W (flip d) 4 (q * t) * (y (j * (4 * r) + r * t + k)%nat * W d (4 * ls) (t * j)))%C).

Lemma sdit_stage_ok : forall d p q (y x : list C), q < p -> length y = 4 ^ p -> length x = 4 ^ p ->
  exists x', stockham_dit4_stage d (4 ^ p) (S q) y x = Ok x' /\ length x' = 4 ^ p /\
    forall a, a < 4 ^ p ->
      nth a x' C0 = sdit_val d (4 ^ q) (4 ^ (p - S q)) (fun i => nth i y C0) a.
Proof.
  intros d p q y x Hq Ly Lx. unfold stockham_dit4_stage.
  assert (Hls : 0 < 4 ^ q) by (apply pow_pos; lia).
  assert (Hr : 0 < 4 ^ (p - S q)) by (apply pow_pos; lia).
  assert (EP : 4 ^ p = 4 * (4 ^ q * 4 ^ (p - S q))).
  { rewrite <- Nat.pow_add_r, <- Nat.pow_succ_r'. f_equal. lia. }
  replace (4 ^ p / 4 ^ S q) with (4 ^ (p - S q)).
  2:{ rewrite EP, Nat.pow_succ_r'. apply Nat.div_unique with 0; nia. }
  rewrite Nat.pow_succ_r'.
  replace (4 * 4 ^ q / 4) with (4 ^ q) by (apply Nat.div_unique with 0; lia).
  set (ls := 4 ^ q) in *. set (r := 4 ^ (p - S q)) in *.
  assert (IXd : forall j k t, j < ls -> k < r -> let a := (j + ls * t) * r + k in
     a mod r = k /\ (a / r) mod ls = j /\ a / (ls * r) = t).
  { intros j k t Hj Hk a.
    assert (E : a / r = t * ls + j).
    { symmetry. apply Nat.div_unique with k; auto. unfold a. nia. }
    split; [|split].
    - symmetry. apply Nat.mod_unique with (t * ls + j); auto. unfold a. nia.
    - rewrite E. symmetry. apply Nat.mod_unique with t; auto. lia.
    - symmetry. apply Nat.div_unique with (j * r + k). nia. unfold a. nia. }
  apply nested_touch with (r := 4) (ix := fun j k t => (j + ls * t) * r + k); auto.
  - intros j k t j' k' t' Hj Hk Ht Hj' Hk' Ht' E.
    destruct (IXd j k t) as [H1 [H2 _]]; auto. destruct (IXd j' k' t') as [H3 [H4 _]]; auto.
    split; congruence.
  - intros a Ha. exists ((a / r) mod ls), (a mod r), (a / r / ls).
    split; [apply Nat.mod_upper_bound; lia|]. split; [apply Nat.mod_upper_bound; lia|]. split.
    + rewrite Nat.div_div by lia. apply Nat.div_lt_upper_bound; nia.
    + assert (a = r * (a / r) + a mod r) by (apply Nat.div_mod; lia).
      assert (a / r = ls * (a / r / ls) + (a / r) mod ls) by (apply Nat.div_mod; lia). nia.
  - intros j k u Hj Hk Lu _.
    assert (BR : forall t, t < 4 -> j * (4 * r) + r * t + k < 4 ^ p).
    { intros. rewrite EP. assert (j * 4 + t + 1 <= 4 * ls) by nia.
      assert ((j * 4 + t + 1) * r <= 4 * ls * r) by (apply Nat.mul_le_mono_r; auto). lia. }
    assert (BW : forall t, t < 4 -> (j + ls * t) * r + k < 4 ^ p).
    { intros. rewrite EP. assert (j + ls * t + 1 <= 4 * ls) by nia.
      assert ((j + ls * t + 1) * r <= 4 * ls * r) by (apply Nat.mul_le_mono_r; auto). lia. }
    pose proof (BR 0 ltac:(lia)). pose proof (BR 1 ltac:(lia)).
    pose proof (BR 2 ltac:(lia)). pose proof (BR 3 ltac:(lia)).
    rewrite (rd_ok _ y (j * (4 * r) + r * 0 + k) C0) by lia.
    rewrite (rd_ok _ y (j * (4 * r) + r * 1 + k) C0) by lia.
    rewrite (rd_ok _ y (j * (4 * r) + r * 2 + k) C0) by lia.
    rewrite (rd_ok _ y (j * (4 * r) + r * 3 + k) C0) by lia.
    cbn [bind]. rewrite !twiddle_W by lia.
    edestruct (four_writes u ((j + ls * 0) * r + k) ((j + ls * 1) * r + k) ((j + ls * 2) * r + k)
      ((j + ls * 3) * r + k)) as [u' [E [L [V0 [V1 [V2 [V3 Fr]]]]]]];
      [nia|nia|nia|rewrite Lu; apply BW; lia|].
    exists u'. split; [exact E|]. split; [lia|].
    split.
    + intros t Ht. unfold sdit_val. destruct (IXd j k t) as [H3 [H4 H5]]; auto.
      rewrite H3, H4, H5. rewrite (kern4 d t (fun t => (nth (j * (4 * r) + r * t + k) y C0 * W d (4 * ls) (t * j))%C)) by auto.
      rewrite Nat.mul_0_l, W_0.
      destruct t as [|[|[|[|t]]]]; [| | | |lia]; [rewrite V0|rewrite V1|rewrite V2|rewrite V3];
        rewrite ?Nat.mul_1_l; ring.
    + intros a Ha. apply Fr; [apply (Ha 0)|apply (Ha 1)|apply (Ha 2)|apply (Ha 3)]; lia.
Qed.

Lemma sdit_inv_step : forall d p q x X X', q < p ->
  sdit_inv d p q x X ->
  (forall a, a < 4 ^ p -> X' a = sdit_val d (4 ^ q) (4 ^ (p - S q)) X a) ->
  sdit_inv d p (S q) x X'.
Proof.
  intros d p q x X X' Hq HI HX J k HJ Hk.
  assert (Hls : 0 < 4 ^ q) by (apply pow_pos; lia).
  assert (Hr : 0 < 4 ^ (p - S q)) by (apply pow_pos; lia).
  assert (EP : 4 ^ p = 4 * (4 ^ q * 4 ^ (p - S q))).
  { rewrite <- Nat.pow_add_r, <- Nat.pow_succ_r'. f_equal. lia. }
  assert (ER : 4 ^ (p - q) = 4 * 4 ^ (p - S q)).
  { rewrite <- Nat.pow_succ_r'. f_equal. lia. }
  rewrite Nat.pow_succ_r' in HJ.
  unfold sdit_inv in HI. rewrite ER in HI. clear ER.
  set (r := 4 ^ (p - S q)) in *.
  rewrite HX.
  2:{ rewrite EP. assert ((J + 1) * r <= 4 * 4 ^ q * r) by (apply Nat.mul_le_mono_r; lia). lia. }
  assert (EJ : J = 4 ^ q * (J / 4 ^ q) + J mod 4 ^ q) by (apply Nat.div_mod; lia).
  set (c := J / 4 ^ q) in *. set (j := J mod 4 ^ q) in *.
  assert (Hj : j < 4 ^ q) by (apply Nat.mod_upper_bound; lia).
  assert (Hc : c < 4). { apply Nat.div_lt_upper_bound; lia. }
  unfold sdit_val.
  assert (E1 : (J * r + k) mod r = k). { symmetry. apply Nat.mod_unique with J; auto. lia. }
  assert (E2 : (J * r + k) / r = J). { symmetry. apply Nat.div_unique with k; auto. lia. }
  assert (E3 : (J * r + k) / (4 ^ q * r) = c). { rewrite (Nat.mul_comm (4 ^ q) r), <- Nat.div_div by lia. rewrite E2. auto. }
  rewrite E1, E2, E3. fold j.
  rewrite EJ. rewrite (Nat.mul_comm (4 ^ q) c). rewrite TDFT_dit by auto.
  apply Csum_ext. intros t Ht.
  replace (j * (4 * r) + r * t + k) with (j * (4 * r) + (r * t + k)) by lia.
  rewrite HI; auto. 2:{ nia. }
  rewrite Nat.pow_succ_r'.
  rewrite (TDFT_ext d q (fun i => x (r * t + k + 4 * r * i)%nat) (fun j0 => x (k + r * (4 * j0 + t))%nat)).
  - ring.
  - intros. f_equal. lia.
Qed.

Lemma stockham_dit4_ok : forall d p (x : list C), length x = 4 ^ p ->
  c2c_stockham_dit4_plan p x d = Ok (tab (4 ^ p) (TDFT d p (fun i => nth i x C0))).
Proof.
  intros d p x Hx. unfold c2c_stockham_dit4_plan.
  set (xs := fun i => nth i x C0).
  destruct (for_range_inv (list C)
    (fun q y => length y = 4 ^ p /\ sdit_inv d p (q - 1) xs (fun i => nth i y C0)) 1 (p + 1)
    (fun q x => if length x =? 4 ^ p then stockham_dit4_stage d (4 ^ p) q x x else UB) x)
    as [y [E [L I]]]; try lia.
  - split; auto. intros j k Hj Hk. change (4 ^ (1 - 1)) with 1 in *. change (1 - 1) with 0 in *.
    rewrite Nat.sub_0_r in *. assert (j = 0) by lia. subst j.
    unfold TDFT. change (4 ^ 0) with 1. unfold Csum. cbn [bsum]. rewrite !Nat.mul_0_l, W_0.
    unfold dot4, sgn. simpl. rewrite Nat.mul_0_r, Nat.add_0_r. fold xs. unfold xs. ring.
  - intros q y Hq [L I]. rewrite L, Nat.eqb_refl.
    destruct (sdit_stage_ok d p (q - 1) y y) as [y' [E [L' V]]]; auto; try lia.
    replace (S (q - 1)) with q in * by lia.
    exists y'. split; auto. split; auto. replace (S q - 1) with (S (q - 1)) by lia.
    apply sdit_inv_step with (X := fun i => nth i y C0); auto; try lia.
    intros a Ha. rewrite V by auto. f_equal; f_equal; lia.
  - rewrite E. f_equal. apply list_eq_tab with (d := C0); auto. intros i Hi.
    rewrite Nat.add_sub in I. specialize (I i 0 Hi). rewrite Nat.sub_diag in I.
    change (4 ^ 0) with 1 in I. specialize (I ltac:(lia)).
    rewrite Nat.mul_1_r, Nat.add_0_r in I. rewrite I. apply TDFT_ext.
    intros. unfold xs. f_equal. lia.
Qed.

(** ** In-place DIT *)
Lemma ix4_inj : forall kr k h t k' h' t', k < kr -> t < 4 -> k' < kr -> t' < 4 ->
  k + h * (4 * kr) + t * kr = k' + h' * (4 * kr) + t' * kr -> h = h' /\ k = k'.
Proof.
  intros. destruct (idx_split 4 kr k h t) as [A1 [A2 A3]]; auto.
  destruct (idx_split 4 kr k' h' t') as [B1 [B2 B3]]; auto. split; congruence.
Qed.

Lemma ix4_surj : forall kr cnt a, 0 < kr -> a < cnt * (4 * kr) ->
  exists h k t, h < cnt /\ k < kr /\ t < 4 /\ a = k + h * (4 * kr) + t * kr.
Proof.
  intros kr cnt a Hk Ha. destruct (dif_ix_surj 4 cnt kr a) as [j [k [t [H1 [H2 [H3 H4]]]]]]; try lia.
  exists j, k, t. repeat split; auto. lia.
Qed.

Lemma ix4_lt : forall kr cnt k h t, k < kr -> h < cnt -> t < 4 -> k + h * (4 * kr) + t * kr < cnt * (4 * kr).
Proof. intros. pose proof (idx_lt2 4 cnt kr k h t H H0 H1). lia. Qed.

Definition dit4_val d kr (y : nat -> C) (a : nat) : C :=
  let k := a mod kr in let q := (a / kr) mod 4 in let h := a / (4 * kr) in
  Csum 4 (fun t => (W (flip d) 4 (q * t) * (y (k + h * (4 * kr) + t * kr)%nat * W d (4 * kr) (t * k)))%C).

Lemma dit4_butterfly_ok : forall d kr k h (u : list C) (y : nat -> C),
  0 < kr -> k < kr -> k + h * (4 * kr) + 3 * kr < length u ->
  (forall t, t < 4 -> nth (k + h * (4 * kr) + t * kr) u C0 = y (k + h * (4 * kr) + t * kr)) ->
  exists u', dit4_butterfly (sign_i d) (W d (4 * kr) k) (W d (4 * kr) (2 * k)) (W d (4 * kr) (3 * k))
     (h * (4 * kr) + k) kr u = Ok u' /\ length u' = length u /\
    (forall t, t < 4 -> nth (k + h * (4 * kr) + t * kr) u' C0 = dit4_val d kr y (k + h * (4 * kr) + t * kr)) /\
    (forall a, (forall t, t < 4 -> a <> k + h * (4 * kr) + t * kr) -> nth a u' C0 = nth a u C0).
Proof.
  intros d kr k h u y Hkr Hk Hlt Hy. unfold dit4_butterfly.
  rewrite (rd_ok _ u (h * (4 * kr) + k) C0), (rd_ok _ u (h * (4 * kr) + k + 1 * kr) C0),
    (rd_ok _ u (h * (4 * kr) + k + 2 * kr) C0), (rd_ok _ u (h * (4 * kr) + k + 3 * kr) C0) by lia.
  cbn [bind].
  edestruct (four_writes u (h * (4 * kr) + k) (h * (4 * kr) + k + 1 * kr) (h * (4 * kr) + k + 2 * kr)
    (h * (4 * kr) + k + 3 * kr)) as [u' [E [L [V0 [V1 [V2 [V3 Fr]]]]]]]; try lia.
  exists u'. split; [exact E|]. split; [lia|]. split.
  - intros t Ht. unfold dit4_val. destruct (idx_split 4 kr k h t) as [A1 [A2 A3]]; auto. rewrite A1, A2, A3.
    rewrite (kern4 d t (fun t => (y (k + h * (4 * kr) + t * kr)%nat * W d (4 * kr) (t * k))%C)) by auto.
    rewrite <- !Hy by lia. rewrite (Nat.mul_0_l k), W_0.
    replace (k + h * (4 * kr) + 0 * kr) with (h * (4 * kr) + k) by lia.
    replace (k + h * (4 * kr) + 1 * kr) with (h * (4 * kr) + k + 1 * kr) by lia.
    replace (k + h * (4 * kr) + 2 * kr) with (h * (4 * kr) + k + 2 * kr) by lia.
    replace (k + h * (4 * kr) + 3 * kr) with (h * (4 * kr) + k + 3 * kr) by lia.
    rewrite (Nat.mul_1_l k).
    destruct t as [|[|[|[|t]]]]; [| | | |lia].
    + replace (k + h * (4 * kr) + 0 * kr) with (h * (4 * kr) + k) by lia. rewrite V0. ring.
    + replace (k + h * (4 * kr) + 1 * kr) with (h * (4 * kr) + k + 1 * kr) by lia. rewrite V1. ring.
    + replace (k + h * (4 * kr) + 2 * kr) with (h * (4 * kr) + k + 2 * kr) by lia. rewrite V2. ring.
    + replace (k + h * (4 * kr) + 3 * kr) with (h * (4 * kr) + k + 3 * kr) by lia. rewrite V3. ring.
  - intros a Ha.
    pose proof (Ha 0 ltac:(lia)). pose proof (Ha 1 ltac:(lia)).
    pose proof (Ha 2 ltac:(lia)). pose proof (Ha 3 ltac:(lia)). apply Fr; lia.
Qed.

Definition r4_lut (d : direction) (n : nat) (w : list C) : Prop :=
  length w = n /\ forall i, i <= 3 * (n / 4 - 1) -> nth i w C0 = W d n i.

Lemma radix4_lut_ok : forall d n, 4 <= n -> exists w, radix4_lut n d = Ok w /\ r4_lut d n w.
Proof.
  intros d n Hn. unfold radix4_lut. destruct (Nat.ltb_spec n 4); [lia|].
  rewrite for_range_ext_in with (b' := fun i w => wr w i (W d n i)).
  2:{ intros. rewrite twiddle_W by lia. auto. }
  assert (4 * (n / 4) <= n) by (apply Nat.mul_div_le; lia).
  assert (0 < n / 4) by (apply Nat.div_str_pos; lia).
  destruct (scatter_ok C C0 (3 * (n / 4 - 1) + 1) (fun i => i) (W d n) (repeat C0 n)) as [w [E [L [V _]]]].
  - intros. rewrite repeat_length. lia.
  - auto.
  - exists w. split; auto. rewrite repeat_length in L. split; auto. intros. apply V. lia.
Qed.

Lemma r4_read : forall d p s (w : list C) c k, s < p -> r4_lut d (4 ^ p) w -> k < 4 ^ s -> c < 4 ->
  rd w (c * k * 4 ^ (p - 1 - s)) = Ok (W d (4 * 4 ^ s) (c * k)).
Proof.
  intros d p s w c k Hs [L V] Hk Hc.
  assert (Hws : 0 < 4 ^ (p - 1 - s)) by (apply pow_pos; lia).
  assert (EP : 4 ^ p = 4 * (4 ^ s * 4 ^ (p - 1 - s))).
  { rewrite <- Nat.pow_add_r, <- Nat.pow_succ_r'. f_equal. lia. }
  assert (EQ : 4 ^ p / 4 = 4 ^ s * 4 ^ (p - 1 - s)).
  { rewrite EP. symmetry. apply Nat.div_unique with 0; lia. }
  assert (B : c * k * 4 ^ (p - 1 - s) <= 3 * (4 ^ p / 4 - 1)).
  { rewrite EQ. assert ((k + 1) * 4 ^ (p - 1 - s) <= 4 ^ s * 4 ^ (p - 1 - s)) by (apply Nat.mul_le_mono_r; lia). nia. }
  rewrite (rd_ok _ w _ C0) by nia. f_equal. rewrite V by auto.
  rewrite EP, Nat.mul_assoc, W_scale_r by auto. auto.
Qed.

Lemma dit4_stage_ok : forall d p s (w x : list C), s < p -> length x = 4 ^ p -> r4_lut d (4 ^ p) w ->
  exists x', for_range 0 (4 ^ (p - S s)) (fun _ (st : nat * list C) =>
          x <- dit4_butterfly (sign_i d) C1 C1 C1 (fst st) (4 ^ s) (snd st) ;;
          x <- for_range 1 (4 ^ s) (fun k x =>
              w1 <- rd w (1 * k * 4 ^ (p - 1 - s)) ;;
              w2 <- rd w (2 * k * 4 ^ (p - 1 - s)) ;;
              w3 <- rd w (3 * k * 4 ^ (p - 1 - s)) ;;
              dit4_butterfly (sign_i d) w1 w2 w3 (fst st + k) (4 ^ s) x) x ;;
          Ok (fst st + 4 * 4 ^ s, x)) (0, x) = Ok (4 ^ p, x') /\ length x' = 4 ^ p /\
    forall a, a < 4 ^ p -> nth a x' C0 = dit4_val d (4 ^ s) (fun i => nth i x C0) a.
Proof.
  intros d p s w x Hs Lx Hw.
  assert (Hkr : 0 < 4 ^ s) by (apply pow_pos; lia).
  assert (EP : 4 ^ p = 4 ^ (p - S s) * (4 * 4 ^ s)).
  { rewrite <- Nat.pow_succ_r', <- Nat.pow_add_r. f_equal. lia. }
  set (f := fun base (x : list C) => for_range 0 (4 ^ s) (fun k x =>
     dit4_butterfly (sign_i d) (W d (4 * 4 ^ s) k) (W d (4 * 4 ^ s) (2 * k)) (W d (4 * 4 ^ s) (3 * k)) (base + k) (4 ^ s) x) x).
  rewrite for_range_ext with (b2 := fun _ (st : nat * list C) =>
     x <- f (fst st) (snd st) ;; Ok (fst st + 4 * 4 ^ s, x)).
  2:{ intros h st _. unfold f. rewrite (for_range_S _ 0 (4 ^ s)) by auto.
      rewrite !Nat.mul_0_r, W_0, Nat.add_0_r.
      destruct (dit4_butterfly (sign_i d) C1 C1 C1 (fst st) (4 ^ s) (snd st)); cbn [bind]; auto.
      rewrite for_range_ext_in with (b' := fun k x =>
        dit4_butterfly (sign_i d) (W d (4 * 4 ^ s) k) (W d (4 * 4 ^ s) (2 * k)) (W d (4 * 4 ^ s) (3 * k)) (fst st + k) (4 ^ s) x); auto.
      intros k u Hk. rewrite !(r4_read d p s w) by (auto; lia). cbn [bind]. rewrite Nat.mul_1_l. auto. }
  rewrite acc_loop.
  destruct (nested_touch C C0 4 (4 ^ (p - S s)) (4 ^ s) (4 ^ p) x
    (fun h k t => k + h * (4 * 4 ^ s) + t * 4 ^ s)
    (fun h k x => dit4_butterfly (sign_i d) (W d (4 * 4 ^ s) k) (W d (4 * 4 ^ s) (2 * k)) (W d (4 * 4 ^ s) (3 * k))
        (0 + h * (4 * 4 ^ s) + k) (4 ^ s) x)
    (dit4_val d (4 ^ s) (fun i => nth i x C0))) as [x' [E [L V]]]; auto.
  - intros. eapply ix4_inj; [| | | | eauto]; auto.
  - intros a Ha. apply ix4_surj; auto. lia.
  - intros h k u Hh Hk Lu Hu. rewrite Nat.add_0_l.
    destruct (dit4_butterfly_ok d (4 ^ s) k h u (fun i => nth i x C0)) as [u' [E [L [V Fr]]]]; auto.
    { rewrite Lu, EP. apply ix4_lt; auto. }
    exists u'. split; auto. split; [lia|]. split; auto.
  - exists x'. split; auto. unfold f. rewrite E. cbn [bind]. do 2 f_equal. lia.
Qed.

Definition tdit_inv (d : direction) (p s : nat) (x a : nat -> C) : Prop :=
  forall b k, b < 4 ^ (p - s) -> k < 4 ^ s ->
    a (b * 4 ^ s + k) = TDFT d s (fun j => x (digit_rev 4 (p - s) b + j * 4 ^ (p - s))%nat) k.

Lemma TDFT_0 : forall d x, TDFT d 0 x 0 = x 0.
Proof.
  intros. unfold TDFT. change (4 ^ 0) with 1. unfold Csum. cbn [bsum]. rewrite Nat.mul_0_l, W_0.
  unfold dot4, sgn. simpl. ring.
Qed.

Lemma tdit_inv_step : forall d p s x X X', s < p ->
  tdit_inv d p s x X ->
  (forall a, a < 4 ^ p -> X' a = dit4_val d (4 ^ s) X a) ->
  tdit_inv d p (S s) x X'.
Proof.
  intros d p s x X X' Hs HI HX b K Hb HK.
  assert (Hm : 0 < 4 ^ s) by (apply pow_pos; lia).
  assert (EP : 4 ^ p = 4 ^ (p - S s) * (4 * 4 ^ s)).
  { rewrite <- Nat.pow_succ_r', <- Nat.pow_add_r. f_equal. lia. }
  rewrite Nat.pow_succ_r' in *.
  rewrite (Nat.div_mod K (4 ^ s)) by lia.
  set (q := K / 4 ^ s). set (k := K mod 4 ^ s).
  assert (Hq : q < 4) by (apply Nat.div_lt_upper_bound; lia).
  assert (Hk : k < 4 ^ s) by (apply Nat.mod_upper_bound; lia).
  rewrite (Nat.mul_comm (4 ^ s) q).
  rewrite TDFT_dit by auto.
  replace (b * (4 * 4 ^ s) + (q * 4 ^ s + k)) with (k + b * (4 * 4 ^ s) + q * 4 ^ s) by lia.
  rewrite HX by (rewrite EP; apply ix4_lt; auto).
  unfold dit4_val. destruct (idx_split 4 (4 ^ s) k b q) as [A1 [A2 A3]]; auto. rewrite A1, A2, A3.
  apply Csum_ext. intros t Ht. rewrite Nat.pow_succ_r'.
  replace (k + b * (4 * 4 ^ s) + t * 4 ^ s) with ((b * 4 + t) * 4 ^ s + k) by lia.
  unfold tdit_inv in HI. replace (p - s) with (S (p - S s)) in HI by lia.
  rewrite HI; auto. 2:{ rewrite Nat.pow_succ_r'. lia. }
  rewrite (TDFT_ext d s _ (fun j => x (digit_rev 4 (p - S s) b + (4 * j + t) * 4 ^ (p - S s))%nat)).
  - ring.
  - intros j Hj. f_equal. rewrite digit_rev_snoc by lia. rewrite Nat.pow_succ_r'. lia.
Qed.

Lemma dit4_plan_ok : forall d p (x : list C), 0 < p -> length x = 4 ^ p ->
  c2c_dit4_plan p x d = Ok (tab (4 ^ p) (TDFT d p (fun i => nth i x C0))).
Proof.
  intros d p x Hp Hx. unfold c2c_dit4_plan.
  assert (H4 : 4 <= 4 ^ p). { replace p with (S (p - 1)) by lia. rewrite Nat.pow_succ_r'.
    assert (0 < 4 ^ (p - 1)) by (apply pow_pos; lia). lia. }
  destruct (digitrev_make_ok 4 p ltac:(lia)) as [lut [El _]]. rewrite El. cbn [bind].
  destruct (radix4_lut_ok d (4 ^ p) H4) as [w [Ew Hw]]. rewrite Ew. cbn [bind].
  rewrite (digitrev_apply_ok C C0 4 p lut x) by (auto; lia). cbn [bind].
  set (x1 := tab (4 ^ p) (fun i => nth (digit_rev 4 p i) x C0)).
  set (xs := fun i => nth i x C0).
  assert (L1 : length x1 = 4 ^ p) by apply tab_length.
  unfold c2c_dit4. destruct (Nat.eqb_spec p 0); [lia|].
  destruct (for_range_inv (nat * nat * nat * nat * list C)
    (fun s st => let '(len, w_stride, krange, block, y) := st in
       len = 4 ^ S s /\ (s < p -> w_stride = 4 ^ (p - 1 - s)) /\ krange = 4 ^ s /\
       (s < p -> block = 4 ^ (p - S s)) /\ length y = 4 ^ p /\ tdit_inv d p s xs (fun i => nth i y C0)) 0 p
    (fun _ s =>
      let '(len, w_stride, krange, block, x) := s in
      '(_, x) <- for_range 0 block (fun _ s =>
          x <- dit4_butterfly (sign_i d) C1 C1 C1 (fst s) (len / 4) (snd s) ;;
          x <- for_range 1 krange (fun k x =>
              w1 <- rd w (1 * k * w_stride) ;;
              w2 <- rd w (2 * k * w_stride) ;;
              w3 <- rd w (3 * k * w_stride) ;;
              dit4_butterfly (sign_i d) w1 w2 w3 (fst s + k) (len / 4) x) x ;;
          Ok (fst s + 4 * krange, x))
        (0, x) ;;
      Ok (4 * len, w_stride / 4, 4 * krange, block / 4, x))
    (4, 4 ^ (p - 1), 1, length x1 / 4, x1)) as [[[[[len ws] kr] bl] y] [E [E1 [E2 [E3 [E4 [L I]]]]]]]; try lia.
  - split; auto. split. { intros. f_equal. lia. } split; auto. split.
    { intros. rewrite L1, pow_div by lia. f_equal. }
    split; auto. intros b k Hb Hk. change (4 ^ 0) with 1 in *. rewrite Nat.sub_0_r in *.
    assert (k = 0) by lia. subst k. rewrite TDFT_0. rewrite Nat.mul_1_r, Nat.mul_0_l, !Nat.add_0_r.
    unfold x1. rewrite nth_tab by auto. auto.
  - intros s [[[[len ws] kr] bl] y] Hs [E1 [E2 [E3 [E4 [L I]]]]].
    specialize (E2 ltac:(lia)). specialize (E4 ltac:(lia)). subst len ws kr bl.
    rewrite (pow_div 4 (S s)) by lia. replace (S s - 1) with s by lia.
    destruct (dit4_stage_ok d p s w y) as [y' [E [L' V]]]; auto; try lia.
    rewrite E. cbn [bind]. eexists. split; [reflexivity|]. cbn beta iota.
    split. { rewrite <- Nat.pow_succ_r'. auto. }
    split. { intros. rewrite pow_div by lia. f_equal. lia. }
    split. { rewrite <- Nat.pow_succ_r'. auto. }
    split. { intros. rewrite pow_div by lia. f_equal. lia. }
    split; auto. apply tdit_inv_step with (X := fun i => nth i y C0); auto. lia.
  - rewrite E. cbn [bind]. f_equal. apply list_eq_tab with (d := C0); auto. intros i Hi.
    specialize (I 0 i). rewrite Nat.sub_diag in I. change (4 ^ 0) with 1 in I.
    rewrite Nat.mul_0_l, Nat.add_0_l in I. rewrite I by (auto; lia). apply TDFT_ext. intros j Hj. f_equal. simpl. lia.
Qed.

(** ** In-place DIF *)
Definition dif4_val d kr (y : nat -> C) (a : nat) : C :=
  let k := a mod kr in let q := (a / kr) mod 4 in let h := a / (4 * kr) in
  (W d (4 * kr) (q * k) * Csum 4 (fun c => W (flip d) 4 (q * c) * y (k + h * (4 * kr) + c * kr)%nat))%C.

Lemma dif4_butterfly_ok : forall d kr k h (u : list C) (y : nat -> C) ws,
  0 < kr -> k < kr -> k + h * (4 * kr) + 3 * kr < length u ->
  (forall t, t < 4 -> nth (k + h * (4 * kr) + t * kr) u C0 = y (k + h * (4 * kr) + t * kr)) ->
  ws = (if k =? 0 then None else Some (W d (4 * kr) k, W d (4 * kr) (2 * k), W d (4 * kr) (3 * k))) ->
  exists u', dif4_butterfly (sign_i d) ws (h * (4 * kr) + k) kr u = Ok u' /\ length u' = length u /\
    (forall t, t < 4 -> nth (k + h * (4 * kr) + t * kr) u' C0 = dif4_val d kr y (k + h * (4 * kr) + t * kr)) /\
    (forall a, (forall t, t < 4 -> a <> k + h * (4 * kr) + t * kr) -> nth a u' C0 = nth a u C0).
Proof.
  intros d kr k h u y ws Hkr Hk Hlt Hy Hws.
  assert (EB : dif4_butterfly (sign_i d) ws (h * (4 * kr) + k) kr u =
    dif4_butterfly (sign_i d) (Some (W d (4 * kr) k, W d (4 * kr) (2 * k), W d (4 * kr) (3 * k)))
      (h * (4 * kr) + k) kr u).
  { subst ws. destruct (Nat.eqb_spec k 0); auto. subst k. unfold dif4_butterfly.
    rewrite !Nat.mul_0_r, W_0.
    assert (M1 : forall c : C, (c * C1)%C = c) by (intros; ring).
    cbn zeta. 
    do 4 (match goal with |- context [rd ?a ?b] => destruct (rd a b); cbn [bind]; auto end).
    rewrite !M1. reflexivity. }
  rewrite EB. clear EB Hws. unfold dif4_butterfly.
  rewrite (rd_ok _ u (h * (4 * kr) + k) C0), (rd_ok _ u (h * (4 * kr) + k + kr) C0),
    (rd_ok _ u (h * (4 * kr) + k + 2 * kr) C0), (rd_ok _ u (h * (4 * kr) + k + 3 * kr) C0) by lia.
  cbn [bind].
  edestruct (four_writes u (h * (4 * kr) + k) (h * (4 * kr) + k + kr) (h * (4 * kr) + k + 2 * kr)
    (h * (4 * kr) + k + 3 * kr)) as [u' [E [L [V0 [V1 [V2 [V3 Fr]]]]]]]; try lia.
  exists u'. split; [exact E|]. split; [lia|]. split.
  - intros t Ht. unfold dif4_val. destruct (idx_split 4 kr k h t) as [A1 [A2 A3]]; auto. rewrite A1, A2, A3.
    rewrite (kern4 d t (fun t => y (k + h * (4 * kr) + t * kr)%nat)) by auto.
    rewrite <- !Hy by lia.
    replace (k + h * (4 * kr) + 0 * kr) with (h * (4 * kr) + k) by lia.
    replace (k + h * (4 * kr) + 1 * kr) with (h * (4 * kr) + k + kr) by lia.
    replace (k + h * (4 * kr) + 2 * kr) with (h * (4 * kr) + k + 2 * kr) by lia.
    replace (k + h * (4 * kr) + 3 * kr) with (h * (4 * kr) + k + 3 * kr) by lia.
    destruct t as [|[|[|[|t]]]]; [| | | |lia].
    + replace (k + h * (4 * kr) + 0 * kr) with (h * (4 * kr) + k) by lia. rewrite V0, Nat.mul_0_l, W_0. ring.
    + replace (k + h * (4 * kr) + 1 * kr) with (h * (4 * kr) + k + kr) by lia. rewrite V1, Nat.mul_1_l. ring.
    + replace (k + h * (4 * kr) + 2 * kr) with (h * (4 * kr) + k + 2 * kr) by lia. rewrite V2. ring.
    + replace (k + h * (4 * kr) + 3 * kr) with (h * (4 * kr) + k + 3 * kr) by lia. rewrite V3. ring.
  - intros a Ha.
    pose proof (Ha 0 ltac:(lia)). pose proof (Ha 1 ltac:(lia)).
    pose proof (Ha 2 ltac:(lia)). pose proof (Ha 3 ltac:(lia)). apply Fr; lia.
Qed.

Lemma dif4_stage_ok : forall d p s (w x : list C), s < p -> length x = 4 ^ p -> r4_lut d (4 ^ p) w ->
  exists x', for_range 0 (4 ^ (p - S s)) (fun _ (st : nat * list C) =>
          x <- for_range 0 (4 ^ s) (fun k x =>
              ws <- (if k =? 0 then Ok None else
                       w1 <- rd w (1 * k * 4 ^ (p - 1 - s)) ;;
                       w2 <- rd w (2 * k * 4 ^ (p - 1 - s)) ;;
                       w3 <- rd w (3 * k * 4 ^ (p - 1 - s)) ;;
                       Ok (Some (w1, w2, w3))) ;;
              dif4_butterfly (sign_i d) ws (fst st + k) (4 ^ s) x) (snd st) ;;
          Ok (fst st + 4 * 4 ^ s, x)) (0, x) = Ok (4 ^ p, x') /\ length x' = 4 ^ p /\
    forall a, a < 4 ^ p -> nth a x' C0 = dif4_val d (4 ^ s) (fun i => nth i x C0) a.
Proof.
  intros d p s w x Hs Lx Hw.
  assert (Hkr : 0 < 4 ^ s) by (apply pow_pos; lia).
  assert (EP : 4 ^ p = 4 ^ (p - S s) * (4 * 4 ^ s)).
  { rewrite <- Nat.pow_succ_r', <- Nat.pow_add_r. f_equal. lia. }
  set (WS := fun k => if k =? 0 then None else Some (W d (4 * 4 ^ s) k, W d (4 * 4 ^ s) (2 * k), W d (4 * 4 ^ s) (3 * k))).
  set (f := fun base (x : list C) => for_range 0 (4 ^ s) (fun k x => dif4_butterfly (sign_i d) (WS k) (base + k) (4 ^ s) x) x).
  rewrite for_range_ext with (b2 := fun _ (st : nat * list C) =>
     x <- f (fst st) (snd st) ;; Ok (fst st + 4 * 4 ^ s, x)).
  2:{ intros h st _. unfold f.
      rewrite for_range_ext_in with (b' := fun k x => dif4_butterfly (sign_i d) (WS k) (fst st + k) (4 ^ s) x); auto.
      intros k u Hk. unfold WS. destruct (k =? 0); auto.
      rewrite !(r4_read d p s w) by (auto; lia). cbn [bind]. rewrite Nat.mul_1_l. auto. }
  rewrite acc_loop.
  destruct (nested_touch C C0 4 (4 ^ (p - S s)) (4 ^ s) (4 ^ p) x
    (fun h k t => k + h * (4 * 4 ^ s) + t * 4 ^ s)
    (fun h k x => dif4_butterfly (sign_i d) (WS k) (0 + h * (4 * 4 ^ s) + k) (4 ^ s) x)
    (dif4_val d (4 ^ s) (fun i => nth i x C0))) as [x' [E [L V]]]; auto.
  - intros. eapply ix4_inj; [| | | | eauto]; auto.
  - intros a Ha. apply ix4_surj; auto. lia.
  - intros h k u Hh Hk Lu Hu. rewrite Nat.add_0_l.
    destruct (dif4_butterfly_ok d (4 ^ s) k h u (fun i => nth i x C0) (WS k)) as [u' [E [L [V Fr]]]]; auto.
    { rewrite Lu, EP. apply ix4_lt; auto. }
    exists u'. split; auto. split; [lia|]. split; auto.
  - exists x'. split; auto. unfold f. rewrite E. cbn [bind]. do 2 f_equal. lia.
Qed.

Definition tdif_inv (d : direction) (p o : nat) (x a : nat -> C) : Prop :=
  forall h q, h < 4 ^ o -> q < 4 ^ (p - o) ->
    TDFT d p x (digit_rev 4 o h + 4 ^ o * q) = TDFT d (p - o) (fun k => a (h * 4 ^ (p - o) + k)%nat) q.

Lemma tdif_inv_step : forall d p o x X X', o < p ->
  tdif_inv d p o x X ->
  (forall a, a < 4 ^ p -> X' a = dif4_val d (4 ^ (p - S o)) X a) ->
  tdif_inv d p (S o) x X'.
Proof.
  intros d p o x X X' Ho HI HX H' q HH Hq.
  assert (Hkr : 0 < 4 ^ (p - S o)) by (apply pow_pos; lia).
  assert (EP : 4 ^ p = 4 ^ o * (4 * 4 ^ (p - S o))).
  { rewrite <- Nat.pow_succ_r', <- Nat.pow_add_r. f_equal. lia. }
  rewrite Nat.pow_succ_r' in HH.
  cbn [digit_rev]. rewrite Nat.pow_succ_r'.
  assert (EH : H' = 4 * (H' / 4) + H' mod 4) by (apply Nat.div_mod; lia).
  set (h := H' / 4) in *. set (t := H' mod 4) in *.
  assert (Ht : t < 4) by (apply Nat.mod_upper_bound; lia).
  assert (Hh : h < 4 ^ o) by (apply Nat.div_lt_upper_bound; lia).
  replace (t * 4 ^ o + digit_rev 4 o h + 4 * 4 ^ o * q) with (digit_rev 4 o h + 4 ^ o * (4 * q + t)) by lia.
  rewrite HI; auto.
  2:{ replace (p - o) with (S (p - S o)) by lia. rewrite Nat.pow_succ_r'. lia. }
  replace (p - o) with (S (p - S o)) by lia.
  rewrite TDFT_dif by auto. rewrite Nat.pow_succ_r'.
  apply TDFT_ext. intros j Hj.
  replace (H' * 4 ^ (p - S o) + j) with (j + h * (4 * 4 ^ (p - S o)) + t * 4 ^ (p - S o)) by lia.
  rewrite HX by (rewrite EP; apply ix4_lt; auto).
  unfold dif4_val. destruct (idx_split 4 (4 ^ (p - S o)) j h t) as [A1 [A2 A3]]; auto. rewrite A1, A2, A3.
  f_equal. apply Csum_ext. intros c Hc. rewrite (Nat.mul_comm t c).
  replace (h * (4 * 4 ^ (p - S o)) + (c * 4 ^ (p - S o) + j)) with (j + h * (4 * 4 ^ (p - S o)) + c * 4 ^ (p - S o)) by lia.
  ring.
Qed.

Lemma dif4_plan_ok : forall d p (x : list C), 0 < p -> length x = 4 ^ p ->
  c2c_dif4_plan p x d = Ok (tab (4 ^ p) (TDFT d p (fun i => nth i x C0))).
Proof.
  intros d p x Hp Hx. unfold c2c_dif4_plan.
  assert (H4 : 4 <= 4 ^ p). { replace p with (S (p - 1)) by lia. rewrite Nat.pow_succ_r'.
    assert (0 < 4 ^ (p - 1)) by (apply pow_pos; lia). lia. }
  destruct (digitrev_make_ok 4 p ltac:(lia)) as [lut [El _]]. rewrite El. cbn [bind].
  destruct (radix4_lut_ok d (4 ^ p) H4) as [w [Ew Hw]]. rewrite Ew. cbn [bind].
  set (xs := fun i => nth i x C0).
  unfold c2c_dif4.
  destruct (for_range_inv (nat * nat * nat * nat * list C)
    (fun o st => let '(len, w_stride, krange, block, y) := st in
       len = 4 ^ (p - o) /\ w_stride = 4 ^ o /\ (o < p -> krange = 4 ^ (p - S o)) /\
       block = 4 ^ o /\ length y = 4 ^ p /\ tdif_inv d p o xs (fun i => nth i y C0)) 0 p
    (fun _ s =>
      let '(len, w_stride, krange, block, x) := s in
      '(_, x) <- for_range 0 block (fun _ s =>
          x <- for_range 0 krange (fun k x =>
              ws <- (if k =? 0 then Ok None else
                       w1 <- rd w (1 * k * w_stride) ;;
                       w2 <- rd w (2 * k * w_stride) ;;
                       w3 <- rd w (3 * k * w_stride) ;;
                       Ok (Some (w1, w2, w3))) ;;
              dif4_butterfly (sign_i d) ws (fst s + k) (len / 4) x) (snd s) ;;
          Ok (fst s + 4 * krange, x))
        (0, x) ;;
      Ok (len / 4, w_stride * 4, krange / 4, block * 4, x))
    (4 ^ p, 1, 4 ^ p / 4, 1, x)) as [[[[[len ws] kr] bl] y] [E [E1 [E2 [E3 [E4 [L I]]]]]]]; try lia.
  - split. { f_equal. lia. } split; auto. split. { intros. apply pow_div; lia. } split; auto. split; auto.
    intros h q Hh Hq. change (4 ^ 0) with 1 in *. assert (h = 0) by lia. subst h.
    rewrite Nat.sub_0_r in *. simpl (digit_rev 4 0 0). rewrite Nat.add_0_l, Nat.mul_1_l. apply TDFT_ext. intros. reflexivity.
  - intros o [[[[len ws] kr] bl] y] Ho [E1 [E2 [E3 [E4 [L I]]]]].
    specialize (E3 ltac:(lia)). subst len ws kr bl.
    rewrite (pow_div 4 (p - o)) by lia. replace (p - o - 1) with (p - S o) by lia.
    destruct (dif4_stage_ok d p (p - S o) w y) as [y' [E [L' V]]]; auto; try lia.
    replace (p - S (p - S o)) with o in E by lia. replace (p - 1 - (p - S o)) with o in E by lia.
    rewrite E. cbn [bind]. eexists. split; [reflexivity|]. cbn beta iota.
    split; [reflexivity|].
    split. { rewrite Nat.pow_succ_r'. lia. }
    split. { intros. rewrite pow_div by lia. f_equal. lia. }
    split. { rewrite Nat.pow_succ_r'. lia. }
    split; auto. apply tdif_inv_step with (X := fun i => nth i y C0); auto. lia.
  - rewrite E. cbn [bind]. rewrite (digitrev_apply_ok C C0 4 p lut y) by (auto; lia).
    f_equal. apply list_eq_tab with (d := C0). { apply tab_length. }
    intros i Hi. rewrite nth_tab by auto.
    assert (Hr : digit_rev 4 p i < 4 ^ p) by (apply digit_rev_lt; lia).
    specialize (I (digit_rev 4 p i) 0 Hr). rewrite Nat.sub_diag in I. change (4 ^ 0) with 1 in I.
    specialize (I ltac:(lia)). rewrite TDFT_0 in I. rewrite digit_rev_invol in I by (auto; lia).
    rewrite Nat.mul_0_r, Nat.mul_1_r, !Nat.add_0_r in I. symmetry. exact I.
Qed.

(** The twisted transform is not the DFT (any order >= 1, either direction). *)
Lemma TDFT_not_DFT : forall d p, 0 < p ->
  exists x, length x = 4 ^ p /\ tab (4 ^ p) (TDFT d p (fun i => nth i x C0)) <> DFT_list d x.
Proof.
  intros d p Hp. set (K := 4 ^ (p - 1)).
  assert (H4 : 4 ^ p = 4 * K). { unfold K. rewrite <- Nat.pow_succ_r'. f_equal. lia. }
  assert (HK : 0 < K) by (apply pow_pos; lia).
  set (x := tab (4 ^ p) (fun i => if i =? 1 then C1 else C0)).
  exists x. split. { apply tab_length. }
  intro H. apply (f_equal (fun l => nth K l C0)) in H.
  unfold DFT_list in H.
  replace (length x) with (4 ^ p) in H by (symmetry; apply tab_length).
  rewrite !nth_tab in H by lia.
  unfold TDFT, DFT in H.
  rewrite (Csum_single (4 ^ p) 1) in H; [|lia|].
  2:{ intros i Hi Hne. unfold x. rewrite nth_tab by auto. destruct (Nat.eqb_spec i 1); [lia|]. ring. }
  rewrite (Csum_single (4 ^ p) 1) in H; [|lia|].
  2:{ intros i Hi Hne. unfold x. rewrite nth_tab by auto. destruct (Nat.eqb_spec i 1); [lia|]. ring. }
  unfold x in H. rewrite nth_tab in H by lia. cbn [Nat.eqb] in H. rewrite Nat.mul_1_l in H.
  assert (ED : dot4 p K 1 = 1).
  { assert (G := dot4_dit (p - 1) 1 0 0 1).
    replace (S (p - 1)) with p in G by lia. replace (1 * 4 ^ (p - 1) + 0) with K in G by (unfold K; lia).
    change (4 * 0 + 1) with 1 in G. rewrite G by (try lia; apply pow_pos; lia).
    assert (Z : dot4 (p - 1) 0 0 = 0).
    { unfold dot4. assert (G0 : forall n g, (forall i, g i = 0) -> nsum n g = 0).
      { induction n; intros g Hg; cbn [nsum]; auto. rewrite IHn, Hg by auto. auto. }
      apply G0. intros i. unfold digit4. rewrite Nat.div_0_l; auto. apply Nat.pow_nonzero. lia. }
    rewrite Z. auto. }
  rewrite ED in H. change (sgn 1) with (- C1)%C in H.
  assert (HW : W d (4 ^ p) K = C0).
  { apply C_eq.
    - apply (f_equal fst) in H. simpl in H. simpl. lra.
    - apply (f_equal snd) in H. simpl in H. simpl. lra. }
  apply (W_nz d (4 ^ p) K). auto.
Qed.
