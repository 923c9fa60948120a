(** The real FFT of the snippets computes a packed DFT; its inverse scales by n/2. *)
From Coq Require Import List Arith ZArith Bool Lia Reals Lra.
From Verif Require Import Base.Outcome Base.OutcomeFacts Base.Sums Base.Alias Base.Cplx Spec.Dft Spec.DigitRev Spec.Transforms.
From Verif Require Import Model.Fft2 Model.Algorithm Model.SnippetRfft.
From Verif Require Import Proof.DftTheory Proof.DigitRevTheory Proof.Fft2Proof Proof.BitrevProof Proof.FftCorollaries Proof.RfftProof Proof.SplitFftProof Proof.DctProof Proof.ExpRfftProof.
Import ListNotations.
Open Scope outcome_scope.
Local Arguments Nat.div : simpl never.
Local Arguments Nat.modulo : simpl never.
Local Arguments Nat.pow : simpl never.
Local Open Scope nat_scope.

Lemma loop_hom_in : forall S1 S2 (f : S1 -> S2) n lo step b1 b2 s,
  (forall j s, j < n -> b2 (lo + j * step) (f s) = omap f (b1 (lo + j * step) s)) ->
  loop n lo step b2 (f s) = omap f (loop n lo step b1 s).
Proof.
  induction n; simpl; intros; auto.
  pose proof (H 0 s ltac:(lia)) as H0. simpl in H0. rewrite Nat.add_0_r in H0. rewrite H0.
  unfold omap at 1. destruct (b1 lo s); simpl; auto.
  apply IHn. intros j t Hj. pose proof (H (S j) t ltac:(lia)) as H1. simpl in H1.
  rewrite Nat.add_assoc in H1. exact H1.
Qed.

Lemma nr_reorder_ok : forall p (z : list C), length z = 2 ^ p ->
  nr_reorder (2 ^ p) (interleave z) = Ok (interleave (tab (2 ^ p) (fun i => nth (digit_rev 2 p i) z C0))).
Proof.
  intros p z Hz. etransitivity; [|apply (bitrevorder_interleaved_ok R C0 p z Hz)].
  unfold nr_reorder, bitrevorder_interleaved. rewrite interleave_length. cbv zeta. unfold C in *. rewrite Hz.
  rewrite half_of_double. rewrite (Nat.mul_comm 2). f_equal.
  unfold for_step. destruct (2 =? 0); [reflexivity|]. apply loop_ext. intros i [j x] _. reflexivity.
Qed.

(** The body of the innermost loop. *)
Definition nr_body (mmax : nat) (w : C) (i : nat) (x : list R) : outcome (list R) :=
      let j := i + mmax in
      let jn1 := j - 1 in
      let in1 := i - 1 in
      xjn1 <- rd x jn1 ;; xj <- rd x j ;;
      let tempr := (fst w * xjn1 - snd w * xj)%R in
      let tempi := (fst w * xj + snd w * xjn1)%R in
      xin1 <- rd x in1 ;;
      x <- wr x jn1 (xin1 - tempr)%R ;;
      xi <- rd x i ;;
      x <- wr x j (xi - tempi)%R ;;
      xin1 <- rd x in1 ;;
      x <- wr x in1 (xin1 + tempr)%R ;;
      xi <- rd x i ;;
      wr x i (xi + tempi)%R.

Lemma nr_body_hom : forall L w a (z : list C), 0 < L ->
  nr_body (L * 2) w (a * 2 + 1) (interleave z) = omap interleave (dit2_butterfly w a (a + L) z).
Proof.
  intros L w a z HL. unfold nr_body, dit2_butterfly. cbv zeta.
  replace (a * 2 + 1 + L * 2) with ((a + L) * 2 + 1) by lia.
  replace ((a + L) * 2 + 1 - 1) with ((a + L) * 2) by lia. replace (a * 2 + 1 - 1) with (a * 2) by lia.
  destruct (lt_dec (a + L) (length z)) as [H|H].
  2:{ rewrite rd_interleave_ub by lia. cbn [bind]. destruct (rd z a) eqn:E; cbn [bind]; [|reflexivity|].
      - rewrite rd_ub by lia. reflexivity.
      - unfold rd in E. destruct (nth_error z a); discriminate. }
  set (y := interleave z). assert (Ly : length y = 2 * length z) by apply interleave_length.
  destruct (rd_interleave z (a + L) H) as [A B]. destruct (rd_interleave z a ltac:(lia)) as [A' B'].
  fold y in A, B, A', B'. rewrite A, B, A'. cbn [bind].
  rewrite (wr_ok _ y) by lia. cbn [bind].
  rewrite (rd_ok _ (upd y _ _) (a * 2 + 1) 0%R) by (rewrite upd_length; lia).
  rewrite nth_upd_neq by lia.
  assert (N1 : nth (a * 2 + 1) y 0%R = snd (nth a z C0)). { rewrite (rd_ok _ y (a * 2 + 1) 0%R) in B' by lia. congruence. }
  assert (N0 : nth (a * 2) y 0%R = fst (nth a z C0)). { rewrite (rd_ok _ y (a * 2) 0%R) in A' by lia. congruence. }
  rewrite N1. cbn [bind]. rewrite wr_ok by (rewrite upd_length; lia). cbn [bind].
  rewrite (rd_ok _ _ (a * 2) 0%R) by (rewrite !upd_length; lia). rewrite !nth_upd_neq by lia. rewrite N0. cbn [bind].
  rewrite wr_ok by (rewrite !upd_length; lia). cbn [bind].
  rewrite (rd_ok _ _ (a * 2 + 1) 0%R) by (rewrite !upd_length; lia). rewrite !nth_upd_neq by lia. rewrite N1. cbn [bind].
  rewrite wr_ok by (rewrite !upd_length; lia).
  rewrite (rd_ok _ z a C0) by lia. cbn [bind]. rewrite (rd_ok _ z (a + L) C0) by lia. cbn [bind].
  rewrite wr_ok by lia. cbn [bind]. rewrite wr_ok by (rewrite upd_length; lia). unfold omap. cbn [bind]. f_equal.
  pose proof (upd_interleave R) as UI. unfold y, C in *.
  rewrite UI. rewrite UI. f_equal.
Qed.

(** All blocks, one twiddle. *)
Lemma nr_blocks : forall L w nb k (z : list C), k < L -> length z = nb * (2 * L) ->
  exists z', for_step (1 + k * 2) (nb * (2 * L) * 2 + 1) (L * 2 * 2) (nr_body (L * 2) w) (interleave z) = Ok (interleave z') /\
    length z' = length z /\
    (forall b, b < nb ->
      nth (b * (2 * L) + k) z' C0 = (nth (b * (2 * L) + k) z C0 + w * nth (b * (2 * L) + k + L) z C0)%C /\
      nth (b * (2 * L) + k + L) z' C0 = (nth (b * (2 * L) + k) z C0 - w * nth (b * (2 * L) + k + L) z C0)%C) /\
    (forall l, (forall b, b < nb -> l <> b * (2 * L) + k /\ l <> b * (2 * L) + k + L) -> nth l z' C0 = nth l z C0).
Proof.
  intros L w nb k z Hk Hz.
  unfold for_step. destruct (Nat.eqb_spec (L * 2 * 2) 0) as [|_]; [lia|].
  replace ((nb * (2 * L) * 2 + 1 - (1 + k * 2) + (L * 2 * 2 - 1)) / (L * 2 * 2)) with nb.
  2:{ destruct nb as [|nb]. { rewrite Nat.div_small; lia. }
      apply (Nat.div_unique _ _ _ (L * 2 * 2 - 1 - k * 2)); nia. }
  rewrite (loop_hom_in _ _ interleave nb (1 + k * 2) (L * 2 * 2) (fun i y => dit2_butterfly w ((i - 1) / 2) ((i - 1) / 2 + L) y)).
  2:{ intros j s Hj. replace (1 + k * 2 + j * (L * 2 * 2)) with ((j * (2 * L) + k) * 2 + 1) by lia.
      rewrite nr_body_hom by lia. rewrite Nat.add_sub. rewrite Nat.div_mul by lia. reflexivity. }
  destruct (loop_touch C C0 nb (1 + k * 2) (L * 2 * 2) (fun i y => dit2_butterfly w ((i - 1) / 2) ((i - 1) / 2 + L) y) z
    (fun b l => l = b * (2 * L) + k \/ l = b * (2 * L) + k + L)
    (fun b l => if l =? b * (2 * L) + k then (nth (b * (2 * L) + k) z C0 + w * nth (b * (2 * L) + k + L) z C0)%C
       else (nth (b * (2 * L) + k) z C0 - w * nth (b * (2 * L) + k + L) z C0)%C)) as [y [E [Ly [V U]]]].
  - intros j j' l Hj Hj' Hne [->| ->] [F|F]; nia.
  - intros j y Hj Ly Hy. replace (1 + k * 2 + j * (L * 2 * 2) - 1) with ((j * (2 * L) + k) * 2) by lia. rewrite Nat.div_mul by lia.
    destruct (dit2_butterfly_ok w (j * (2 * L) + k) (j * (2 * L) + k + L) y) as [y' [Ey [Ly' Vy]]]; try nia.
    exists y'. split; auto. split; [lia|]. split.
    + intros l Hl. rewrite Vy. rewrite (Hy (j * (2 * L) + k)) by auto. rewrite (Hy (j * (2 * L) + k + L)) by auto.
      destruct (Nat.eqb_spec l (j * (2 * L) + k)); auto. destruct (Nat.eqb_spec l (j * (2 * L) + k + L)); auto. lia.
    + intros l Hl. rewrite Vy. destruct (Nat.eqb_spec l (j * (2 * L) + k)); [exfalso; auto|].
      destruct (Nat.eqb_spec l (j * (2 * L) + k + L)); [exfalso; auto|]. auto.
  - exists y. unfold C in *. rewrite E. split; [reflexivity|]. split; auto. split.
    + intros b Hb. split; rewrite (V b) by auto.
      * rewrite Nat.eqb_refl. auto.
      * destruct (Nat.eqb_spec (b * (2 * L) + k + L) (b * (2 * L) + k)); [lia|]. auto.
    + intros l Hl. apply U. intros b Hb [F|F]; specialize (Hl b Hb); lia.
Qed.

Lemma slot_inj : forall L a a' k k', k < L -> k' < L -> a * L + k = a' * L + k' -> k = k'.
Proof.
  intros L a a' k k' Hk Hk' E. rewrite <- (Nat.mod_small k L Hk), <- (Nat.mod_small k' L Hk').
  rewrite <- (Nat.mod_add k a L) by lia. rewrite <- (Nat.mod_add k' a' L) by lia. f_equal. lia.
Qed.

Definition nr_theta (isign : Z) (mmax : nat) : R := (IZR isign * (2 * PI / INR mmax))%R.

Lemma nr_stage_ok : forall L nb isign (z : list C), 0 < L -> length z = nb * (2 * L) ->
  exists z', nr_stage (nb * (2 * L) * 2) (L * 2) isign (interleave z) = Ok (interleave z') /\
    stage2 L (fun k => Cexp (INR k * nr_theta isign (L * 2))) z z'.
Proof.
  intros L nb isign z HL Hz. unfold nr_stage. cbv zeta. fold (nr_theta isign (L * 2)). set (t := nr_theta isign (L * 2)).
  unfold for_step at 1. destruct (Nat.eqb_spec 2 0) as [|_]; [lia|].
  replace ((L * 2 - 1 + (2 - 1)) / 2) with L by (apply (Nat.div_unique _ 2 L 0); lia).
  set (body := fun (m : nat) (s : (R * R) * list R) => let '((wr_, wi_), x) := s in
    x <- for_step m (nb * (2 * L) * 2 + 1) (L * 2 * 2) (nr_body (L * 2) (wr_, wi_)) x ;;
    Ok (((wr_ * (-2 * sin (1 / 2 * t) * sin (1 / 2 * t)) - wi_ * sin t + wr_)%R,
         (wi_ * (-2 * sin (1 / 2 * t) * sin (1 / 2 * t)) + wr_ * sin t + wi_)%R), x)).
  assert (Hinv : exists s', loop L 1 2 body ((1%R, 0%R), interleave z) = Ok s' /\
    (exists y : list C, s' = (Cexp (INR L * t), interleave y) /\ length y = length z /\
      (forall k b, k < L -> b < nb ->
         nth (b * (2 * L) + k) y C0 = (nth (b * (2 * L) + k) z C0 + Cexp (INR k * t) * nth (b * (2 * L) + k + L) z C0)%C /\
         nth (b * (2 * L) + k + L) y C0 = (nth (b * (2 * L) + k) z C0 - Cexp (INR k * t) * nth (b * (2 * L) + k + L) z C0)%C))).
  { destruct (loop_inv _ (fun K (s : (R * R) * list R) => exists y : list C, s = (Cexp (INR K * t), interleave y) /\ length y = length z /\
      (forall k b, k < L -> b < nb ->
         nth (b * (2 * L) + k) y C0 = (if k <? K then nth (b * (2 * L) + k) z C0 + Cexp (INR k * t) * nth (b * (2 * L) + k + L) z C0
            else nth (b * (2 * L) + k) z C0)%C /\
         nth (b * (2 * L) + k + L) y C0 = (if k <? K then nth (b * (2 * L) + k) z C0 - Cexp (INR k * t) * nth (b * (2 * L) + k + L) z C0
            else nth (b * (2 * L) + k + L) z C0)%C)) L 1 2 body ((1%R, 0%R), interleave z)) as [s' [E [y [Es [Ly V]]]]].
    - exists z. split; [|split]; auto.
      + change (INR 0) with 0%R. rewrite Rmult_0_l. unfold Cexp. rewrite cos_0, sin_0. reflexivity.
    - intros K s HK [y [-> [Ly V]]].
      destruct (nr_blocks L (Cexp (INR K * t)) nb K y HK ltac:(unfold C in *; lia)) as [y' [Ey [Ly' [Vb Vo]]]].
      exists (Cexp (INR (S K) * t), interleave y'). split.
      + unfold body. destruct (Cexp (INR K * t)) as [c s] eqn:EC. rewrite Ey. cbn [bind].
        assert (EC' : Cexp (INR (S K) * t) = ((c, s) * Cexp t)%C).
        { rewrite <- EC, <- Cexp_add. f_equal. rewrite S_INR. ring. }
        rewrite EC'. unfold Cmul, Cexp. cbn [fst snd]. rewrite <- (cos_half t).
        apply (f_equal Ok), injective_projections; cbn [fst snd]; [apply injective_projections; cbn [fst snd]; ring|reflexivity].
      + exists y'. split; [reflexivity|]. split; [unfold C in *; lia|]. intros k b Hk Hb. specialize (V k b Hk Hb) as [V1 V2].
        unfold C in *.
        destruct (Nat.eq_dec k K) as [->|Hne].
        * destruct (Vb b Hb) as [W1 W2]. rewrite W1, W2. destruct (Nat.ltb_spec K K); [lia|]. destruct (Nat.ltb_spec K (S K)); [|lia].
          rewrite V1, V2. auto.
        * rewrite !Vo. { rewrite V1, V2. destruct (Nat.ltb_spec k K), (Nat.ltb_spec k (S K)); try lia; auto. }
          { intros b' Hb'. split; intros F; apply Hne.
            - apply (slot_inj L (2 * b + 1) (2 * b')); lia.
            - apply (slot_inj L (2 * b + 1) (2 * b' + 1)); lia. }
          { intros b' Hb'. split; intros F; apply Hne.
            - apply (slot_inj L (2 * b) (2 * b')); lia.
            - apply (slot_inj L (2 * b) (2 * b' + 1)); lia. }
    - exists s'. split; auto. exists y. split; auto. split; auto. intros k b Hk Hb. specialize (V k b Hk Hb).
      destruct (Nat.ltb_spec k L); [|lia]. auto. }
  destruct Hinv as [s' [E [y [-> [Ly V]]]]].
  exists y. split.
  - match goal with |- bind (loop L 1 2 ?B _) _ = _ => assert (EB : loop L 1 2 B (1%R, 0%R, interleave z) = Ok (Cexp (INR L * t), interleave y)) end.
    { etransitivity; [|exact E]. apply loop_ext. intros j [[a b] x] _. reflexivity. }
    unfold C in *. rewrite EB. reflexivity.
  - split; auto. intros b k Hb Hk. apply V; auto. nia.
Qed.

Lemma nr_W : forall isign d s k, (isign = 1%Z /\ d = Backward) \/ (isign = (-1)%Z /\ d = Forward) ->
  Cexp (INR k * nr_theta isign (2 ^ s * 2)) = W d (2 ^ S s) k.
Proof.
  intros isign d s k H. unfold W, nr_theta. f_equal. replace (2 ^ S s) with (2 ^ s * 2) by (simpl; unfold Nat.pow; fold Nat.pow; lia).
  assert (INR (2 ^ s * 2) <> 0%R). { apply not_0_INR. pose proof (pow_pos 2 s ltac:(lia)). lia. }
  destruct H as [[-> ->]|[-> ->]]; unfold dsign; field; auto.
Qed.

Lemma nr_fft_ok : forall p (z : list C) isign d, length z = 2 ^ p ->
  (isign = 1%Z /\ d = Backward) \/ (isign = (-1)%Z /\ d = Forward) ->
  nr_fft (interleave z) isign = Ok (interleave (DFT_list d z)).
Proof.
  intros p z isign d Hz Hd. unfold nr_fft. rewrite interleave_length. unfold C in *. rewrite Hz.
  assert (Hp : 0 < 2 ^ p) by (apply pow_pos; lia).
  replace (1 <=? 2 * 2 ^ p) with true by (symmetry; apply Nat.leb_le; lia). cbn [guard bind].
  rewrite half_of_double. unfold nr_fft_ptr. cbv zeta. change (list (R * R)) with (list C) in z.
  rewrite (nr_reorder_ok p z Hz). cbn [bind].
  set (y := tab (2 ^ p) (fun i => nth (digit_rev 2 p i) z C0)).
  assert (Ly : length y = 2 ^ p) by apply tab_length.
  assert (G : forall r s (y : list C) f, s + r = p -> length y = 2 ^ p ->
     dit_inv d 2 p s (fun i => nth i z C0) (fun i => nth i y C0) -> r <= f ->
     exists m, while_fuel f (fun s : nat * list R => fst s <? 2 ^ p * 2)
      (fun s => let '(mmax, x) := s in x <- nr_stage (2 ^ p * 2) mmax isign x ;; Ok (mmax * 2, x)) (2 ^ s * 2, interleave y)
     = Ok (m, interleave (DFT_list d z))).
  { induction r as [|r IH]; intros s y0 f Hs L0 I Hf.
    - rewrite Nat.add_0_r in Hs. subst s. rewrite while_stop.
      2:{ cbn [fst]. apply Nat.ltb_ge. lia. }
      eexists. do 3 f_equal. rewrite (dit_inv_tab d p _ y0 L0 I). unfold DFT_list. unfold C in *. rewrite Hz. reflexivity.
    - destruct f as [|f]; [lia|]. cbn [while_fuel fst].
      assert (Hlt : 2 ^ s < 2 ^ p) by (apply Nat.pow_lt_mono_r; lia).
      replace (2 ^ s * 2 <? 2 ^ p * 2) with true by (symmetry; apply Nat.ltb_lt; lia).
      assert (E2 : 2 ^ p = 2 ^ r * (2 * 2 ^ s)). { replace p with (r + S s) by lia. rewrite Nat.pow_add_r, Nat.pow_succ_r'. lia. }
      destruct (nr_stage_ok (2 ^ s) (2 ^ r) isign y0) as [y1 [E1 S1]]; [apply pow_pos; lia|lia|].
      rewrite <- E2 in E1. cbv iota beta. unfold C in *. rewrite E1. cbn [bind].
      replace (2 ^ s * 2 * 2) with (2 ^ S s * 2) by (rewrite Nat.pow_succ_r'; lia).
      apply (IH (S s) y1); [lia| |  |lia].
      + destruct S1 as [LL _]. unfold C in *. lia.
      + apply stage2_dit with (x := y0); auto; [lia|].
        apply stage2_ext with (tw := fun k => Cexp (INR k * nr_theta isign (2 ^ s * 2))); auto.
        intros k Hk. apply nr_W; auto. }
  destruct (G p 0 y (2 ^ p * 2)) as [m E]; auto.
  - apply dit_inv_0; [lia|]. intros i Hi. unfold y. rewrite nth_tab by auto. reflexivity.
  - pose proof (Nat.pow_gt_lin_r 2 p). lia.
  - change (2 ^ 0 * 2) with 2 in E. unfold C in *. rewrite E. reflexivity.
Qed.

(** * The real transform *)

Lemma nr_rloop : forall d p (z : list C), length z = 2 ^ p ->
  exists u v, for_range 1 (2 * 2 ^ p / 4) (rloop_body d (2 * 2 ^ p))
    (interleave z, (1 + -2 * sin (1 / 2 * rtheta d (2 ^ p)) * sin (1 / 2 * rtheta d (2 ^ p)))%R, sin (rtheta d (2 ^ p))) =
  Ok (interleave (tab (2 ^ p) (fun k => if k =? 0 then nth 0 z C0 else recomb d (2 ^ p) (fun k => nth k z C0) k)), u, v).
Proof.
  intros d p z Hz. destruct p as [|p].
  - change (2 ^ 0) with 1 in *. change (2 * 1 / 4) with 0. unfold for_range. cbn [loop Nat.sub]. eexists. eexists.
    destruct z as [|c [|? ?]]; simpl in Hz; try lia. reflexivity.
  - rewrite Nat.pow_succ_r' in *. set (q := 2 ^ p) in *. assert (Hq : 0 < q) by (apply pow_pos; lia).
    replace (2 * (2 * q) / 4) with q by (apply (Nat.div_unique _ 4 q 0); lia).
    destruct (rloop_ok d q z Hq Hz) as [u [v E]]. exists u, v. rewrite E. do 4 f_equal.
    apply tab_ext. intros k Hk. apply recombined_all; auto.
Qed.

Definition nr_rc (isign : Z) : direction := if Z.eqb isign 1 then Forward else Backward.

Lemma nr_rfft_unfold : forall p (z : list C) isign, length z = 2 ^ p ->
  nr_rfft (interleave z) isign =
  if Z.eqb isign 1 then
    Ok (interleave (tab (2 ^ p) (fun k => if k =? 0 then
     (fst (DFT Backward (2 ^ p) (fun j => nth j z C0) 0) + snd (DFT Backward (2 ^ p) (fun j => nth j z C0) 0),
      fst (DFT Backward (2 ^ p) (fun j => nth j z C0) 0) - snd (DFT Backward (2 ^ p) (fun j => nth j z C0) 0))%R
     else recomb Forward (2 ^ p) (DFT Backward (2 ^ p) (fun j => nth j z C0)) k)))
  else
    Ok (interleave (DFT_list Forward (tab (2 ^ p) (fun k => if k =? 0 then
     (1 / 2 * (fst (nth 0 z C0) + snd (nth 0 z C0)), 1 / 2 * (fst (nth 0 z C0) - snd (nth 0 z C0)))%R
     else recomb Backward (2 ^ p) (fun k => nth k z C0) k)))).
Proof.
  intros p z isign Hz. unfold nr_rfft. cbv zeta. rewrite interleave_length. unfold C in *. rewrite Hz. rewrite half_of_double.
  assert (HN : 0 < 2 ^ p) by (apply pow_pos; lia). change (list (R * R)) with (list C) in z.
  set (y := if Z.eqb isign 1 then DFT_list Backward z else z).
  assert (Ly : length y = 2 ^ p). { unfold y. destruct (Z.eqb isign 1); [rewrite DFT_list_length|]; exact Hz. }
  assert (E0 : (if (isign =? 1)%Z then nr_fft (interleave z) 1 else Ok (interleave z)) = Ok (interleave y)).
  { unfold y. destruct (Z.eqb isign 1); [|reflexivity]. apply (nr_fft_ok p); auto. }
  unfold C in *. rewrite E0. cbn [bind].
  destruct (nr_rloop (nr_rc isign) p y Ly) as [u [v EL]].
  match goal with |- context [for_range 1 (2 * 2 ^ p / 4) ?B (interleave y, ?a, ?b)] =>
    assert (EL' : for_range 1 (2 * 2 ^ p / 4) B (interleave y, a, b) =
      Ok (interleave (tab (2 ^ p) (fun k => if k =? 0 then nth 0 y C0 else recomb (nr_rc isign) (2 ^ p) (fun k => nth k y C0) k)), u, v)) end.
  { etransitivity; [|exact EL]. unfold nr_rc. destruct (Z.eqb isign 1);
    (apply for_range_ext; intros i [[y' a] b] Hi; unfold rloop_body; rewrite half_of_double; cbv zeta;
     rewrite (Nat.add_comm 1 (i + i)), (Nat.add_comm 1 (2 * 2 ^ p - (i + i))); reflexivity). }
  unfold C in *. rewrite EL'. cbn [bind]. clear EL EL'.
  set (t := tab (2 ^ p) (fun k => if k =? 0 then nth 0 y C0 else recomb (nr_rc isign) (2 ^ p) (fun k => nth k y C0) k)).
  assert (Lt : @length C t = 2 ^ p) by apply tab_length.
  destruct (rd_interleave t 0 ltac:(lia)) as [A B]. change (0 * 2) with 0 in *. change (0 + 1) with 1 in B.
  repeat match goal with |- context [rd ?l 0] => progress change l with (interleave t) end.
  unfold C in *. rewrite A, B. cbn [bind].
  assert (T0 : nth 0 t C0 = nth 0 y C0). { unfold t. rewrite nth_tab by lia. reflexivity. }
  assert (Tk : forall k, 0 < k < 2 ^ p -> nth k t C0 = recomb (nr_rc isign) (2 ^ p) (fun k => nth k y C0) k).
  { intros k Hk. unfold t. rewrite nth_tab by lia. destruct (Nat.eqb_spec k 0); [lia|]. reflexivity. }
  clearbody t. unfold y, nr_rc in *. clear y E0. destruct (Z.eqb isign 1).
  - pose proof (wr_interleave t 0) as WI. change (0 * 2) with 0 in WI. change (0 + 1) with 1 in WI. unfold C in *. rewrite WI by lia.
    f_equal. f_equal. apply (list_eq_tab _ C0). { rewrite upd_length. auto. }
    assert (D : forall j, j < 2 ^ p -> nth j (DFT_list Backward z) C0 = DFT Backward (2 ^ p) (fun j => nth j z C0) j).
    { intros j Hj. rewrite nth_DFT_list by (unfold C in *; lia). unfold C in *. rewrite Hz. auto. }
    intros k Hk. destruct (Nat.eqb_spec k 0).
    + subst k. rewrite nth_upd_eq by lia. rewrite T0, D by lia. reflexivity.
    + rewrite nth_upd_neq by auto. rewrite Tk by lia. unfold recomb, rh1, rh2. rewrite !D by lia. auto.
  - pose proof (wr2_interleave (list R) t 0) as WI. change (0 * 2) with 0 in WI. change (0 + 1) with 1 in WI. unfold C in *. rewrite WI by lia.
    rewrite (nr_fft_ok p _ (-1) Forward) by (auto; rewrite upd_length; auto). do 3 f_equal.
    apply (list_eq_tab _ C0). { rewrite upd_length. auto. }
    intros k Hk. unfold C in *. destruct (Nat.eqb_spec k 0).
    + subst k. rewrite nth_upd_eq by lia. rewrite T0. reflexivity.
    + rewrite nth_upd_neq by auto. apply Tk. lia.
Qed.

Lemma pairs_dft_b : forall N (x : list R) k, 0 < N -> k <= N ->
  let Z := DFT Backward N (fun j => nth j (pairs N x) C0) in
  rh1 N Z k = DFT Backward N (fun j => RtoC (nth (2 * j) x 0%R)) k /\
  rh2 Forward N Z k = DFT Backward N (fun j => RtoC (nth (2 * j + 1) x 0%R)) k.
Proof.
  intros N x k HN Hk Z.
  set (A := fun j => RtoC (nth (2 * j) x 0%R)). set (B := fun j => RtoC (nth (2 * j + 1) x 0%R)).
  assert (EZ : forall k, Z k = (DFT Backward N A k + Ci * DFT Backward N B k)%C).
  { intros k'. unfold Z. rewrite <- DFT_scale, <- DFT_add. apply DFT_ext. intros j Hj. unfold pairs. rewrite nth_tab by auto.
    unfold A, B. apply C_eq; unfold Cadd, Cmul, Ci, RtoC; cbn [fst snd]; ring. }
  assert (SA : DFT Backward N A (N - k) = Cconj (DFT Backward N A k)) by (apply DFT_real_sym; lia).
  assert (SB : DFT Backward N B (N - k) = Cconj (DFT Backward N B k)) by (apply DFT_real_sym; lia).
  unfold rh1, rh2. rewrite !EZ, SA, SB. destruct (DFT Backward N A k) as [a b], (DFT Backward N B k) as [a' b'].
  split; apply C_eq; unfold rc2, Cconj, Cadd, Csub, Cmul, Copp, Ci, RtoC; cbn [fst snd]; field.
Qed.

Lemma even_odd_dft : forall d N (x : nat -> C) k, 0 < N ->
  DFT d (2 * N) x k = (DFT d N (fun j => x (2 * j)%nat) k + W d (2 * N) k * DFT d N (fun j => x (2 * j + 1)%nat) k)%C.
Proof.
  intros d N x k HN. unfold DFT. rewrite Csum_even_odd. f_equal.
  - apply Csum_ext. intros j Hj. replace (2 * j * k) with (2 * (j * k)) by lia. rewrite W_scale by lia. auto.
  - rewrite <- Csum_mul_l. apply Csum_ext. intros j Hj. replace ((2 * j + 1) * k) with (2 * (j * k) + k) by lia.
    rewrite W_add, W_scale by lia. ring.
Qed.

Lemma nr_rfft_forward_ok : forall p x, 0 < p -> length x = 2 ^ p ->
  let n := 2 ^ p in
  let Y := DFT Backward n (fun j => RtoC (nth j x 0%R)) in
  exists out, nr_rfft x 1 = Ok out /\ length out = n /\
    nth 0 out 0%R = fst (Y 0) /\ nth 1 out 0%R = fst (Y (n / 2)) /\
    forall k, 0 < k < n / 2 -> nth (2 * k) out 0%R = fst (Y k) /\ nth (2 * k + 1) out 0%R = snd (Y k).
Proof.
  intros p x Hp Hx n Y. set (N := 2 ^ (p - 1)).
  assert (En : n = 2 * N). { unfold n, N. rewrite <- Nat.pow_succ_r'. f_equal. lia. }
  assert (HN : 0 < N) by (apply pow_pos; lia).
  fold n in Hx. rewrite En in Hx.
  eexists. split. { rewrite (interleave_pairs N x Hx) at 1. apply (nr_rfft_unfold (p - 1) _ 1). apply tab_length. }
  fold N. set (Z := DFT Backward N (fun j => nth j (pairs N x) C0)).
  set (L := tab N (fun k => if k =? 0 then (fst (Z 0%nat) + snd (Z 0%nat), fst (Z 0%nat) - snd (Z 0%nat))%R else recomb Forward N Z k)).
  assert (LL : length L = N) by apply tab_length.
  assert (R0 : forall k, k <= N -> (rh1 N Z k + W Backward (2 * N) k * rh2 Forward N Z k)%C = Y k).
  { intros k Hk. unfold Y. rewrite En. rewrite even_odd_dft by auto. destruct (pairs_dft_b N x k HN Hk) as [A B].
    fold Z in A, B. cbv zeta in A, B. fold Z in A, B. rewrite A, B. reflexivity. }
  assert (Z0 : Y 0 = RtoC (fst (Z 0%nat) + snd (Z 0%nat)) /\ Y N = RtoC (fst (Z 0%nat) - snd (Z 0%nat))).
  { pose proof (R0 0 ltac:(lia)) as Y0. pose proof (R0 N ltac:(lia)) as YN.
    unfold rh1, rh2 in Y0, YN. rewrite W_0 in Y0. rewrite W_half in YN by auto.
    rewrite Nat.sub_diag in YN. rewrite Nat.sub_0_r in Y0.
    assert (ZN : Z N = Z 0). { unfold Z. rewrite <- (DFT_mod Backward N _ N) by auto. rewrite Nat.mod_same by lia. auto. }
    rewrite ZN in *. rewrite <- Y0, <- YN. destruct (Z 0) as [a b].
    split; apply C_eq; unfold rc2, Cconj, Cadd, Csub, Cmul, Copp, Ci, RtoC, C1; cbn [fst snd]; field. }
  split. { etransitivity; [apply interleave_length|]. unfold C in *. lia. }
  destruct Z0 as [Z0 ZN].
  assert (NI : forall k, k < N -> nth (k * 2) (interleave L) 0%R = fst (nth k L C0) /\ nth (k * 2 + 1) (interleave L) 0%R = snd (nth k L C0)).
  { intros k _. apply (nth_interleave R L k 0%R). }
  split; [|split].
  - destruct (NI 0 HN) as [A _]. change (0 * 2) with 0 in A. etransitivity; [exact A|]. unfold L. rewrite nth_tab by auto. rewrite Z0. reflexivity.
  - destruct (NI 0 HN) as [_ A]. change (0 * 2 + 1) with 1 in A. etransitivity; [exact A|]. unfold L. rewrite nth_tab by auto.
    rewrite En, half_of_double, ZN. reflexivity.
  - intros k Hk. rewrite En, half_of_double in Hk. destruct (NI k ltac:(lia)) as [A B].
    rewrite (Nat.mul_comm 2 k). assert (EL : nth k L C0 = Y k).
    { unfold L. rewrite nth_tab by lia. destruct (Nat.eqb_spec k 0); [lia|]. unfold recomb. rewrite exp_twiddle by auto. apply R0. lia. }
    split. { etransitivity; [exact A|]. rewrite EL. auto. } etransitivity; [exact B|]. rewrite EL. auto.
Qed.

Lemma nr_rfft_roundtrip : forall p x isign, 0 < p -> length x = 2 ^ p -> isign <> 1%Z ->
  exists y, nr_rfft x 1 = Ok y /\ length y = 2 ^ p /\ nr_rfft y isign = Ok (map (fun v => (INR (2 ^ p / 2) * v)%R) x).
Proof.
  intros p x isign Hp Hx Hs. set (N := 2 ^ (p - 1)).
  assert (En : 2 ^ p = 2 * N). { unfold N. rewrite <- Nat.pow_succ_r'. f_equal. lia. }
  assert (HN : 0 < N) by (apply pow_pos; lia).
  rewrite En in *. rewrite half_of_double.
  assert (Lp : length (pairs N x) = N) by apply tab_length.
  eexists. split. { rewrite (interleave_pairs N x Hx) at 1. apply (nr_rfft_unfold (p - 1) _ 1). auto. }
  fold N. set (Z := DFT Backward N (fun j => nth j (pairs N x) C0)).
  set (L := tab N (fun k => if k =? 0 then (fst (Z 0%nat) + snd (Z 0%nat), fst (Z 0%nat) - snd (Z 0%nat))%R else recomb Forward N Z k)).
  assert (LL : length L = N) by apply tab_length.
  split. { etransitivity; [apply interleave_length|]. unfold C in *. lia. }
  etransitivity. { apply (nr_rfft_unfold (p - 1)); auto. }
  destruct (Z.eqb_spec isign 1); [lia|].
  fold N. f_equal.
  transitivity (interleave (map (fun c => (RtoC (INR N) * c)%C) (pairs N x))).
  - apply (f_equal interleave). transitivity (DFT_list Forward (DFT_list Backward (pairs N x))).
    2:{ change Forward with (flip Backward). rewrite DFT_list_inv, Lp. reflexivity. } f_equal.
    symmetry. apply (list_eq_tab _ C0). { rewrite DFT_list_length. auto. }
    intros k Hk. rewrite nth_DFT_list by lia. rewrite Lp. fold Z.
    destruct (Nat.eqb_spec k 0).
    + subst k. unfold L. rewrite nth_tab by auto. cbn [Nat.eqb fst snd]. destruct (Z 0). cbn [fst snd]. f_equal; field.
    + symmetry. etransitivity; [|apply (recomb_inverse N Z k); lia]. unfold recomb at 1 2, rh1 at 1 2, rh2 at 1 2.
      unfold L. rewrite !nth_tab by lia. destruct (Nat.eqb_spec k 0); [lia|]. destruct (Nat.eqb_spec (N - k) 0); [lia|]. reflexivity.
  - rewrite (interleave_pairs N x Hx) at 2. generalize (pairs N x). intros l. clear.
    induction l as [|[a b] l IH]; [reflexivity|]. simpl. f_equal; [unfold Cmul, RtoC; cbn [fst snd]; ring|].
    f_equal; [unfold Cmul, RtoC; cbn [fst snd]; ring|]. exact IH.
Qed.
