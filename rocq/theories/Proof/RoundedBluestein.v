(** Bluestein's algorithm in rounded arithmetic: what the computed plan makes of a vector. *)
From Coq Require Import Reals List Arith Lia Lra Psatz Bool ZArith.
From Verif Require Import Base.Outcome Base.OutcomeFacts Base.Sums Base.Alias Base.Cplx Base.VecNorm Spec.Dft Spec.Transforms Spec.Rounding Spec.RoundedBluestein
  Model.Fft2 Model.Integers Model.Algorithm Model.FftApps Model.RoundedFft Model.RoundedConv Model.RoundedReal Model.RoundedBluestein
  Proof.DftTheory Proof.Fft2Proof Proof.AlgorithmProof Proof.RfftProof Proof.IntegersProof Proof.BluesteinProof
  Proof.RoundedError Proof.RoundedPlan Proof.RoundedRfft.
Import ListNotations.
Local Open Scope nat_scope.
Local Open Scope outcome_scope.
Local Arguments Nat.div : simpl never.
Local Arguments Nat.modulo : simpl never.
Local Arguments Nat.pow : simpl never.

Section Structure.
Variables rnd fcos fsin : R -> R.
Notation rc := (rchirp rnd fcos fsin).

Definition border (n : nat) : nat := Nat.log2_up (n * 2 + 1).
Definition ra (d : direction) (n m : nat) (x : nat -> C) (i : nat) : C := if i <? n then rmul rnd (x i) (rc d n i) else C0.
Definition rb (d : direction) (n m i : nat) : C :=
  if i =? 0 then rc d n 0 else if i <? n then Cconj (rc d n i) else if m - n <? i then Cconj (rc d n (m - i)) else C0.
Definition RP (d : direction) (x : list C) : list C :=
  let n := length x in let p := border n in
  let A := FR rnd fcos fsin p Forward (tab (2 ^ p) (ra d n (2 ^ p) (fun i => nth i x C0))) in
  let B := FR rnd fcos fsin p Forward (tab (2 ^ p) (rb d n (2 ^ p))) in
  FR rnd fcos fsin p Backward (tab (2 ^ p) (fun k => rmul rnd (nth k A C0) (nth k B C0))).
Definition RBL (d : direction) (x : list C) : list C :=
  let n := length x in let p := border n in let s := rinv_size rnd (2 ^ p) in
  tab n (fun i => let v := nth i (RP d x) C0 in rmul rnd (rnd (fst v * s), rnd (snd v * s))%R (rc d n i)).

Record rb_inv (n : nat) (p : dft_plan) : Prop := RBInv {
  bi_size : d_size p = n;
  bi_order : d_order p = border n;
  bi_plan : rmake_dit2_plan rnd fcos fsin (d_order p) = Ok (d_plan p);
  bi_wf : d_wf p = tab n (rc Forward n);
  bi_wb : d_wb p = tab n (rc Backward n);
  bi_a : length (d_a p) = 2 ^ d_order p;
  bi_b : length (d_b p) = 2 ^ d_order p }.

Lemma rchirp_loop : forall n,
  for_range 0 n (fun i s =>
    let '(wf, wb) := s in
    wf <- wr wf i (rc Forward n i) ;;
    wb <- wr wb i (rc Backward n i) ;;
    Ok (wf, wb)) (repeat C0 n, repeat C0 n) = Ok (tab n (rc Forward n), tab n (rc Backward n)).
Proof using.
  intros n.
  destruct (for_range_inv _ (fun j (s : list C * list C) => length (fst s) = n /\ length (snd s) = n /\
      (forall i, i < j -> nth i (fst s) C0 = rc Forward n i) /\ (forall i, i < j -> nth i (snd s) C0 = rc Backward n i)) 0 n
    (fun i s =>
    let '(wf, wb) := s in
    wf <- wr wf i (rc Forward n i) ;;
    wb <- wr wb i (rc Backward n i) ;;
    Ok (wf, wb)) (repeat C0 n, repeat C0 n)) as [[u v] [E [L1 [L2 [V1 V2]]]]].
  - lia.
  - cbn [fst snd]. rewrite !repeat_length. repeat split; auto; intros; lia.
  - intros i [u v] Hi [L1 [L2 [V1 V2]]]. cbn [fst snd] in *. rewrite !wr_ok by lia. cbn [bind].
    eexists. split; [reflexivity|]. cbn [fst snd]. rewrite !upd_length. repeat split; auto; intros j Hj; destruct (Nat.eq_dec j i).
    + subst j. rewrite nth_upd_eq by lia. reflexivity.
    + rewrite nth_upd_neq by auto. apply V1. lia.
    + subst j. rewrite nth_upd_eq by lia. reflexivity.
    + rewrite nth_upd_neq by auto. apply V2. lia.
  - etransitivity; [exact E|]. cbn [fst snd] in *. do 2 f_equal; apply (list_eq_tab _ C0); auto.
Qed.

Lemma rmake_dit2_ok : forall order, 0 < order <= 27 -> exists pl, rmake_dit2_plan rnd fcos fsin order = Ok pl.
Proof using. intros order Ho. destruct (rmake_rfft_ok rnd fcos fsin order Ho) as (q & E & I). destruct I as (_ & I & _). eauto. Qed.

Lemma border_pos : forall n, 0 < n -> 2 <= border n.
Proof using.
  intros n Hn. unfold border. pose proof (log2_up_odd_pow n). destruct (Nat.log2_up (n * 2 + 1)) as [|[|k]]; [change (2 ^ 0) with 1 in *; lia|change (2 ^ 1) with 2 in *; lia|lia].
Qed.
Lemma border_max : forall n, n * 2 + 1 <= 2 ^ 27 -> border n <= 27.
Proof using. intros n Hn. unfold border. rewrite <- (Nat.log2_up_pow2 27) by lia. apply Nat.log2_up_le_mono. auto. Qed.
Lemma small63 : forall n, n * 2 + 1 <= 2 ^ 27 -> (Z.of_nat (n * 2 + 1) <= 2 ^ 63)%Z.
Proof using. intros n Hn. transitivity (Z.of_nat (2 ^ 27)). { apply inj_le. auto. } rewrite Nat2Z.inj_pow. apply Z.pow_le_mono_r; lia. Qed.

Lemma rmake_dft_inv : forall n p, n * 2 + 1 <= 2 ^ 27 -> rmake_dft_plan rnd fcos fsin n = Ok p -> rb_inv n p.
Proof using.
  intros n p Hn H. unfold rmake_dft_plan in H. rewrite next_order_ok in H by (apply small63; auto). cbn [bind] in H.
  apply bind_ok in H. destruct H as [pl [E H]].
  rewrite rchirp_loop in H. cbn [bind] in H. inversion H. subst p.
  constructor; cbn [d_size d_order d_plan d_wf d_wb d_a d_b]; auto; apply repeat_length.
Qed.

Lemma rmake_dft_ok : forall n, 0 < n -> n * 2 + 1 <= 2 ^ 27 -> exists p, rmake_dft_plan rnd fcos fsin n = Ok p.
Proof using.
  intros n H0 Hn. unfold rmake_dft_plan. rewrite next_order_ok by (apply small63; auto). cbn [bind].
  destruct (rmake_dit2_ok (border n)) as [pl E]. { split; [pose proof (border_pos n H0); lia|apply border_max; auto]. }
  unfold border in E. rewrite E. cbn [bind]. rewrite rchirp_loop. cbn [bind]. eexists. reflexivity.
Qed.

Lemma rmultiply_into : forall x w out, length x <= length w -> length x <= length out ->
  exists a, rmultiply_c rnd (Other x) (Other w) out = Ok a /\ length a = length out /\
   forall i, i < length out -> nth i a C0 = if i <? length x then rmul rnd (nth i x C0) (nth i w C0) else nth i out C0.
Proof using.
  intros x w out H1 H2. unfold rmultiply_c, linalg_binary_op. cbn [contents].
  destruct (for_range_map _ C0 0 (length x) (fun i out => a <- rd x i ;; b <- rd w i ;; wr out i (rmul rnd a b)) out
    (fun i => rmul rnd (nth i x C0) (nth i w C0))) as [a [E [L V]]]; auto.
  - intros j l Hj Hl _. rewrite (rd_ok _ x j C0), (rd_ok _ w j C0) by lia. cbn [bind]. rewrite wr_ok by lia. auto.
  - exists a. split; [exact E|]. split; auto.
Qed.

Lemma rb_loop : forall d n m, 0 < n -> 2 * n + 1 <= m ->
  for_range 1 n (fun i b =>
    let m := length b in
    v <- rd (tab n (rc d n)) i ;;
    let c := Cconj v in
    b <- wr b i c ;;
    wr b (m - i) c) (upd (repeat C0 m) 0 (rc d n 0)) = Ok (tab m (rb d n m)).
Proof using.
  intros d n m Hn Hm.
  destruct (for_range_inv _ (fun j l => length l = m /\ forall i, i < m ->
      nth i l C0 = if i =? 0 then rc d n 0 else if i <? j then Cconj (rc d n i) else if m - j <? i then Cconj (rc d n (m - i)) else C0) 1 n
    (fun i b =>
    let m := length b in
    v <- rd (tab n (rc d n)) i ;;
    let c := Cconj v in
    b <- wr b i c ;;
    wr b (m - i) c) (upd (repeat C0 m) 0 (rc d n 0))) as [l [E [L V]]].
  - lia.
  - rewrite upd_length, repeat_length. split; auto. intros i Hi. destruct (Nat.eqb_spec i 0).
    + subst i. rewrite nth_upd_eq by (rewrite repeat_length; lia). auto.
    + rewrite nth_upd_neq by auto. rewrite nth_repeat. rewrite (proj2 (Nat.ltb_ge i 1)), (proj2 (Nat.ltb_ge (m - 1) i)) by lia. auto.
  - intros j l Hj [L V]. rewrite (rd_ok _ _ j C0) by (rewrite tab_length; lia). cbn [bind]. rewrite wr_ok by lia. cbn [bind].
    rewrite wr_ok by (rewrite upd_length; lia). eexists. split; [reflexivity|]. rewrite !upd_length. split; auto.
    intros i Hi. rewrite nth_tab by lia. rewrite L. destruct (Nat.eq_dec i (m - j)).
    + subst i. rewrite nth_upd_eq by (rewrite upd_length; lia). rewrite (proj2 (Nat.eqb_neq (m - j) 0)) by lia.
      rewrite (proj2 (Nat.ltb_ge (m - j) (S j))), (proj2 (Nat.ltb_lt (m - S j) (m - j))) by lia.
      do 2 f_equal. lia.
    + rewrite nth_upd_neq by auto. destruct (Nat.eq_dec i j).
      * subst i. rewrite nth_upd_eq by lia. rewrite (proj2 (Nat.eqb_neq j 0)), (proj2 (Nat.ltb_lt j (S j))) by lia. auto.
      * rewrite nth_upd_neq by auto. rewrite V by auto. destruct (Nat.eqb_spec i 0); auto.
        destruct (Nat.ltb_spec i j); destruct (Nat.ltb_spec i (S j)); auto; try lia.
        destruct (Nat.ltb_spec (m - j) i); destruct (Nat.ltb_spec (m - S j) i); auto; lia.
  - etransitivity; [exact E|]. f_equal. apply (list_eq_tab _ C0); auto.
Qed.

Lemma rb_loop' : forall d n m, 0 < n -> 2 * n + 1 <= m ->
  for_range 1 n (fun i b => v <- rd (tab n (rc d n)) i ;; b0 <- wr b i (Cconj v) ;; wr b0 (length b - i) (Cconj v)) (upd (repeat C0 m) 0 (rc d n 0)) = Ok (tab m (rb d n m)).
Proof using. exact rb_loop. Qed.

(** Everything before the last product; the plan's own buffers at that point. *)
Lemma rdft_run_ok : forall n p x d, 0 < n -> rb_inv n p -> length x = n ->
  exists p', rdft_plan_run rnd p x d = Ok (p', RBL d x) /\ rb_inv n p'.
Proof using.
  intros n p x d Hn [I1 I2 I3 I4 I5 I6 I7] Hx. unfold rdft_plan_run.
  assert (Hm : 2 * n + 1 <= 2 ^ border n) by apply log2_up_odd_pow.
  assert (Ho : 0 < border n) by (pose proof (border_pos n Hn); lia).
  set (w := match d with Forward => d_wf p | Backward => d_wb p end).
  assert (Ew : w = tab n (rc d n)). { unfold w. destruct d; auto. }
  clearbody w. subst w. rewrite !fill_ok. cbn [bind]. rewrite I6, I7, I1. rewrite I2 in *. set (m := 2 ^ border n) in *.
  destruct (rmultiply_into x (tab n (rc d n)) (repeat C0 m)) as [a [Ea [La Va]]].
  { rewrite tab_length. lia. } { rewrite repeat_length. lia. }
  rewrite repeat_length in La, Va. rewrite Ea. cbn [bind].
  assert (Ta : a = tab m (ra d n m (fun i => nth i x C0))).
  { apply (list_eq_tab _ C0); auto. intros i Hi. rewrite Va by auto. unfold ra. rewrite Hx. destruct (Nat.ltb_spec i n); [rewrite nth_tab by auto; auto|apply nth_repeat]. }
  rewrite (rd_ok _ _ 0 C0) by (rewrite tab_length; lia). cbn [bind]. rewrite wr_ok by (rewrite repeat_length; lia). cbn [bind].
  rewrite nth_tab by lia. rewrite (rb_loop' d n m) by auto. cbn [bind].
  rewrite (rfft_obj rnd fcos fsin (border n)) by auto. cbn [bind].
  rewrite (rfft_obj rnd fcos fsin (border n)) by (auto; apply tab_length). cbn [bind].
  unfold rmultiply_c at 1. rewrite linalg_binary_ok by (cbn [contents]; rewrite !FR_length; lia).
  cbn [contents bind].
  rewrite (zip_with_tab _ _ _ _ _ _ C0 C0) by (rewrite !FR_length; lia). rewrite FR_length.
  rewrite (rfft_obj rnd fcos fsin (border n)) by (auto; apply tab_length). cbn [bind].
  unfold rscale_c. rewrite linalg_unary_ok. cbn [bind].
  match goal with |- context [map ?f ?l] => set (z := @map C C f l); change (map f l) with z end.
  assert (Lz : length z = m). { unfold z. rewrite map_length, FR_length. auto. }
  rewrite slice_ok by lia. cbn [bind].
  destruct (rmultiply_into (firstn (n - 0) (skipn 0 z)) (tab n (rc d n)) x) as [y [Ey [Ly Vy]]].
  { rewrite firstn_length, skipn_length, tab_length. lia. } { rewrite firstn_length, skipn_length. lia. }
  rewrite Ey. cbn [bind]. eexists. split.
  - f_equal. f_equal. unfold RBL. rewrite Hx. apply (list_eq_tab _ C0); [lia|]. intros i Hi.
    rewrite Vy by lia. rewrite firstn_length, skipn_length. rewrite (proj2 (Nat.ltb_lt i _)) by lia.
    rewrite nth_firstn_lt by lia. rewrite nth_skipn_add. cbn [Nat.add]. rewrite nth_tab by auto. f_equal.
    unfold z. rewrite (nth_indep _ _ (let v := C0 in (rnd (fst v * rinv_size rnd m), rnd (snd v * rinv_size rnd m))%R)) by (rewrite map_length, FR_length; fold m; lia).
    cbv zeta. rewrite (map_nth (fun v : C => (rnd (fst v * rinv_size rnd m), rnd (snd v * rinv_size rnd m))%R)). unfold RP. rewrite Hx, Ta. fold m. reflexivity.
  - constructor; cbn [d_size d_order d_plan d_wf d_wb d_a d_b]; auto; rewrite FR_length; auto.
Qed.

(** A call that returned leaves the plan sound, whatever the vector's length. *)
Lemma rmultiply_length : forall x w out a, rmultiply_c rnd (Other x) (Other w) out = Ok a -> length a = length out.
Proof using.
  intros x w out a H. unfold rmultiply_c, linalg_binary_op in H. cbn [contents] in H.
  refine (for_range_keeps _ (fun b : list C => length b = length out) _ _ _ _ _ _ eq_refl H).
  intros j t t' Ht Hb. apply bind_ok in Hb. destruct Hb as [v [_ Hb]]. apply bind_ok in Hb. destruct Hb as [v' [_ Hb]]. apply wr_inv in Hb. destruct Hb as [_ Hb]. subst. rewrite upd_length. auto.
Qed.

Lemma rdft_run_inv : forall n p x d p' x', 0 < n -> rb_inv n p -> rdft_plan_run rnd p x d = Ok (p', x') -> rb_inv n p'.
Proof using.
  intros n p x d p' x' Hn [I1 I2 I3 I4 I5 I6 I7] H. unfold rdft_plan_run in H.
  assert (Hm : 2 * n + 1 <= 2 ^ border n) by apply log2_up_odd_pow.
  assert (Ho : 0 < border n) by (pose proof (border_pos n Hn); lia).
  set (w := match d with Forward => d_wf p | Backward => d_wb p end) in H.
  assert (Ew : w = tab n (rc d n)). { unfold w. destruct d; auto. }
  clearbody w. subst w. rewrite !fill_ok in H. cbn [bind] in H. rewrite I6, I7, I1 in H. rewrite I2 in *. set (m := 2 ^ border n) in *.
  apply bind_ok in H. destruct H as [a [Ea H]]. apply rmultiply_length in Ea. rewrite repeat_length in Ea.
  rewrite (rd_ok _ _ 0 C0) in H by (rewrite tab_length; lia). cbn [bind] in H. rewrite wr_ok in H by (rewrite repeat_length; lia). cbn [bind] in H.
  rewrite nth_tab in H by lia. rewrite (rb_loop' d n m) in H by auto. cbn [bind] in H.
  rewrite (rfft_obj rnd fcos fsin (border n)) in H by auto. cbn [bind] in H.
  rewrite (rfft_obj rnd fcos fsin (border n)) in H by (auto; apply tab_length). cbn [bind] in H.
  unfold rmultiply_c at 1 in H. rewrite linalg_binary_ok in H by (cbn [contents]; rewrite !FR_length; lia).
  cbn [contents bind] in H.
  rewrite (zip_with_tab _ _ _ _ _ _ C0 C0) in H by (rewrite !FR_length; lia). rewrite FR_length in H.
  rewrite (rfft_obj rnd fcos fsin (border n)) in H by (auto; apply tab_length). cbn [bind] in H.
  unfold rscale_c in H. rewrite linalg_unary_ok in H. cbn [bind] in H.
  apply bind_ok in H. destruct H as [s [_ H]]. apply bind_ok in H. destruct H as [y [_ H]]. inversion H. subst p'.
  constructor; cbn [d_size d_order d_plan d_wf d_wb d_a d_b]; auto; rewrite ?map_length, FR_length; auto.
Qed.

Lemma rdft_reach_inv : forall n p, 0 < n -> n * 2 + 1 <= 2 ^ 27 -> rdft_reach rnd fcos fsin n p -> rb_inv n p.
Proof using.
  intros n p H0 Hn H. induction H; [apply rmake_dft_inv; auto|eapply rdft_run_inv; eauto].
Qed.
End Structure.
