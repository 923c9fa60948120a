(** Every lane of a transform on registers is the scalar transform of that lane. *)
From Coq Require Import List Arith Lia Bool Reals.
From Verif Require Import Base.Outcome Base.OutcomeFacts Base.Alias Base.Cplx Spec.Dft Spec.Lanes Spec.DigitRev Model.Fft2 Model.Algorithm
  Model.FftApps Model.SimdFft Proof.DigitRevTheory Proof.DftTheory Proof.Fft2Proof Proof.AlgorithmProof Proof.FftCorollaries Proof.SplitFftProof.
Import ListNotations.
Open Scope outcome_scope.
Local Arguments Nat.div : simpl never.
Local Arguments Nat.modulo : simpl never.
Local Arguments Nat.pow : simpl never.

(** * Relations on outcomes *)

Definition orel {A B} (R : A -> B -> Prop) (X : outcome A) (Y : outcome B) : Prop :=
  match X, Y with
  | Ok a, Ok b => R a b
  | UB, UB => True
  | Throw, Throw => True
  | _, _ => False
  end.

Lemma orel_bind : forall A B A' B' (R : A -> B -> Prop) (S : A' -> B' -> Prop) X Y k l,
  orel R X Y -> (forall a b, R a b -> orel S (k a) (l b)) -> orel S (bind X k) (bind Y l).
Proof. intros A B A' B' R S X Y k l H HK. destruct X, Y; simpl in *; auto; contradiction. Qed.

Lemma orel_bind_eq : forall A A' B' (S : A' -> B' -> Prop) (X : outcome A) k l,
  (forall a, orel S (k a) (l a)) -> orel S (bind X k) (bind X l).
Proof. intros. destruct X; simpl; auto. Qed.

Lemma orel_loop : forall A B (R : A -> B -> Prop) n lo step f g a b,
  (forall i a b, R a b -> orel R (f i a) (g i b)) -> R a b ->
  orel R (loop n lo step f a) (loop n lo step g b).
Proof.
  induction n; intros; simpl; auto. eapply orel_bind. apply H; auto. intros. apply IHn; auto.
Qed.

Lemma orel_range : forall A B (R : A -> B -> Prop) lo hi f g a b,
  (forall i a b, R a b -> orel R (f i a) (g i b)) -> R a b ->
  orel R (for_range lo hi f a) (for_range lo hi g b).
Proof. intros. apply orel_loop; auto. Qed.

Lemma orel_step : forall A B (R : A -> B -> Prop) lo hi st f g a b,
  (forall i a b, R a b -> orel R (f i a) (g i b)) -> R a b ->
  orel R (for_step lo hi st f a) (for_step lo hi st g b).
Proof.
  intros. unfold for_step. destruct (st =? 0). { destruct (lo <? hi); simpl; auto. } apply orel_loop; auto.
Qed.

Lemma orel_while : forall A B (R : A -> B -> Prop) fuel c d f g a b,
  (forall a b, R a b -> c a = d b) -> (forall a b, R a b -> orel R (f a) (g b)) -> R a b ->
  orel R (while_fuel fuel c f a) (while_fuel fuel d g b).
Proof.
  induction fuel; intros; simpl; rewrite (H a b) by auto; destruct (d b); simpl; auto.
  eapply orel_bind. apply H0; auto. intros. apply IHfuel; auto.
Qed.

(** * Arrays of related elements *)

Lemma Forall2_len : forall A B (E : A -> B -> Prop) x y, Forall2 E x y -> length x = length y.
Proof. intros A B E x y H. induction H; simpl; auto. Qed.

Lemma orel_rd : forall A B (E : A -> B -> Prop) x y i, Forall2 E x y -> orel E (rd x i) (rd y i).
Proof.
  intros A B E x y i H. revert i. induction H; intros i; destruct i; unfold rd; simpl; auto.
  apply (IHForall2 i).
Qed.

Lemma Forall2_upd : forall A B (E : A -> B -> Prop) x y i v w, Forall2 E x y -> E v w -> Forall2 E (upd x i v) (upd y i w).
Proof. intros A B E x y i v w H. revert i. induction H; intros i HE; destruct i; simpl; auto. Qed.

Lemma orel_wr : forall A B (E : A -> B -> Prop) x y i v w, Forall2 E x y -> E v w ->
  orel (Forall2 E) (wr x i v) (wr y i w).
Proof.
  intros. unfold wr. rewrite (Forall2_len _ _ _ _ _ H). destruct (i <? length y); simpl; auto. apply Forall2_upd; auto.
Qed.

Ltac ob := eapply orel_bind; [ first [ eapply orel_rd | eapply orel_wr ]; eauto | intros; cbn beta ].

Lemma orel_swap : forall A B (E : A -> B -> Prop) x y i j, Forall2 E x y ->
  orel (Forall2 E) (swap x i j) (swap y i j).
Proof. intros. unfold swap. ob. ob. ob. eapply orel_wr; eauto. Qed.

Lemma orel_bitrev : forall A B (E : A -> B -> Prop) t x y, Forall2 E x y ->
  orel (Forall2 E) (bitrev_apply t x) (bitrev_apply t y).
Proof.
  intros. unfold bitrev_apply. apply orel_range; auto. intros. apply orel_bind_eq. intros.
  destruct (i <? a0); simpl; auto. apply orel_swap; auto.
Qed.

Definition Epair {A B} (E : A -> B -> Prop) (x : list A * list A) (y : list B * list B) : Prop :=
  Forall2 E (fst x) (fst y) /\ Forall2 E (snd x) (snd y).

Lemma orel_bitrev_split : forall A B (E : A -> B -> Prop) t x y, Epair E x y ->
  orel (Epair E) (bitrev_apply_split t x) (bitrev_apply_split t y).
Proof.
  intros. unfold bitrev_apply_split. apply orel_range; auto. intros i a b [Ha Hb]. apply orel_bind_eq. intros.
  destruct (i <? a0); simpl; [|split; auto].
  eapply orel_bind. { apply orel_swap; eauto. } intros.
  eapply orel_bind. { apply orel_swap; eauto. } intros. simpl. split; auto.
Qed.

Lemma orel_copy : forall A B (E : A -> B -> Prop) x y x' y', Forall2 E x y -> Forall2 E x' y' ->
  orel (Forall2 E) (copy (fun v => v) x x') (copy (fun v => v) y y').
Proof.
  intros. unfold copy. rewrite (Forall2_len _ _ _ _ _ H). apply orel_range; auto. intros. ob. eapply orel_wr; eauto.
Qed.

(** * The kernels preserve any relation their operators preserve *)

Section Kernels.
Context {T : Type} (o : elem_ops T) (E : T -> C -> Prop).
Hypothesis E_add : forall a b c d, E a c -> E b d -> E (e_add o a b) (c + d)%C.
Hypothesis E_sub : forall a b c d, E a c -> E b d -> E (e_sub o a b) (c - d)%C.
Hypothesis E_mul : forall a b c d, E a c -> E b d -> E (e_mul o a b) (c * d)%C.
Notation EL := (Forall2 E).

Lemma stage0_rel : forall x y, EL x y -> orel EL (bdit2_stage0 o x) (dit2_stage0 y).
Proof using All.
  intros. unfold bdit2_stage0, dit2_stage0. rewrite (Forall2_len _ _ _ _ _ H). apply orel_step; auto.
  intros. ob. ob. cbv zeta. ob. ob. ob. eapply orel_wr; eauto.
Qed.

Lemma butterfly_rel : forall t s i j x y, EL x y -> E t s ->
  orel EL (bdit2_butterfly o t i j x) (dit2_butterfly s i j y).
Proof using All.
  intros. unfold bdit2_butterfly, dit2_butterfly. ob. ob. cbv zeta. ob. ob. ob. eapply orel_wr; eauto.
Qed.

Lemma stage_rel : forall t s a b c x y, EL x y -> EL t s ->
  orel EL (bdit2_stage o t a b c x) (dit2_stage s a b c y).
Proof using All.
  intros. unfold bdit2_stage, dit2_stage. rewrite (Forall2_len _ _ _ _ _ H). apply orel_step; auto.
  intros. apply orel_range; auto. intros. ob. apply butterfly_rel; auto.
Qed.

Lemma v1_rel : forall x y t s, EL x y -> EL t s -> orel EL (bdit2_v1 o x t) (c2c_dit2_v1 y s).
Proof using All.
  intros x y t s H HT. unfold bdit2_v1, c2c_dit2_v1. rewrite (Forall2_len _ _ _ _ _ H). apply orel_bind_eq. intros n.
  eapply orel_bind. { apply stage0_rel; eauto. } intros a b Hab.
  eapply orel_bind.
  { apply orel_range with (R := fun u v : nat * nat * list _ => fst u = fst v /\ EL (snd u) (snd v)).
    - intros i [[u1 u2] u] [[v1 v2] v] [E1 E2]. cbn [fst snd] in *. inversion E1; subst. cbv zeta.
      eapply orel_bind. { apply stage_rel; eauto. } intros. simpl. auto.
    - simpl. auto. }
  intros [[u1 u2] u] [[v1 v2] v] [E1 E2]. simpl in *. auto.
Qed.

Lemma v2_stage_rel : forall t s n x y, EL x y -> EL t s ->
  orel EL (bdit2_v2_stage o t n x) (dit2_v2_stage s n y).
Proof using All.
  intros. unfold bdit2_v2_stage, dit2_v2_stage. cbv zeta. rewrite (Forall2_len _ _ _ _ _ H). apply orel_step; auto.
  intros. apply orel_range; auto. intros. ob. ob. ob. ob. eapply orel_wr; eauto.
Qed.

Lemma v2_rel : forall x y t s, EL x y -> EL t s -> orel EL (bdit2_v2 o x t) (c2c_dit2_v2 y s).
Proof using All.
  intros x y t s H HT. unfold bdit2_v2, c2c_dit2_v2.
  eapply orel_bind. { apply stage0_rel; eauto. } intros a b Hab. rewrite (Forall2_len _ _ _ _ _ Hab).
  eapply orel_bind.
  { apply orel_while with (R := fun u v : nat * list _ => fst u = fst v /\ EL (snd u) (snd v)).
    - intros [u1 u] [v1 v] [E1 E2]. simpl in *. subst. rewrite (Forall2_len _ _ _ _ _ E2). auto.
    - intros [u1 u] [v1 v] [E1 E2]. simpl in *. subst. eapply orel_bind. { apply v2_stage_rel; eauto. } intros. simpl. auto.
    - simpl. auto. }
  intros [u1 u] [v1 v] [E1 E2]. simpl in *. auto.
Qed.

Lemma v3_rel : forall x y t s, EL x y -> EL t s -> orel EL (bdit2_v3 o x t) (c2c_dit2_v3 y s).
Proof using All.
  intros x y t s H HT. unfold bdit2_v3, c2c_dit2_v3. rewrite (Forall2_len _ _ _ _ _ H). apply orel_bind_eq. intros n.
  eapply orel_bind. { apply stage0_rel; eauto. } intros a b Hab.
  apply orel_range; auto. intros. cbv zeta. apply stage_rel; auto.
Qed.

Lemma v4_rel : forall x y t s, EL x y -> EL t s -> orel EL (bdit2_v4 o x t) (c2c_dit2_v4 y s).
Proof using All.
  intros x y t s H HT. unfold bdit2_v4, c2c_dit2_v4. rewrite (Forall2_len _ _ _ _ _ H). apply orel_bind_eq. intros n.
  eapply orel_bind. { apply stage0_rel; eauto. } intros a b Hab. destruct (n =? 0); simpl; auto.
  eapply orel_bind. { apply orel_range with (R := EL); eauto. intros. cbv zeta. apply stage_rel; auto. }
  intros u v Huv. cbv zeta. rewrite (Forall2_len _ _ _ _ _ Huv). apply orel_range; auto.
  intros. ob. apply butterfly_rel; auto.
Qed.
End Kernels.

(** * Lanes *)

Definition LE {T} (d : T) (L j : nat) (a : list T) (b : T) : Prop := length a = L /\ nth j a d = b.

Lemma LE_zip : forall T (d : T) (f : T -> T -> T) L j a b u v, j < L -> LE d L j a u -> LE d L j b v ->
  LE d L j (zip_with f a b) (f u v).
Proof.
  intros T d f L j a b u v Hj [La Na] [Lb Nb]. split.
  - rewrite zip_with_length. lia.
  - rewrite (nth_zip_with _ _ _ f a b j d d d) by lia. congruence.
Qed.

Lemma LE_broadcast : forall T (d : T) L j v, j < L -> LE d L j (broadcast L v) v.
Proof.
  intros. unfold broadcast. split. apply repeat_length.
  assert (G : forall n i, i < n -> nth i (repeat v n) d = v).
  { induction n; intros i Hi; [lia|]. destruct i; simpl; auto. apply IHn. lia. }
  apply G; auto.
Qed.

Lemma LE_lane : forall T (d : T) L j X, registers L X -> Forall2 (LE d L j) X (lane d j X).
Proof. intros T d L j X H. unfold lane. induction H; simpl; constructor; auto. split; auto. Qed.

Lemma LE_inv : forall T (d : T) L j X x, Forall2 (LE d L j) X x -> registers L X /\ x = lane d j X.
Proof.
  intros T d L j X x H. induction H. { split; auto. constructor. } destruct H, IHForall2. split.
  - constructor; auto.
  - unfold lane in *. simpl. congruence.
Qed.

Lemma lane_length : forall T (d : T) j X, length (lane d j X) = length X.
Proof. intros. apply map_length. Qed.

(** A run on registers that every lane follows. *)
Lemma lanes_run : forall T (d : T) L (X : outcome (list (list T))) (x : nat -> list T), 0 < L ->
  (forall j, j < L -> orel (Forall2 (LE d L j)) X (Ok (x j))) ->
  exists Y, X = Ok Y /\ registers L Y /\ forall j, j < L -> lane d j Y = x j.
Proof.
  intros T d L X x HL H. pose proof (H 0 HL) as H0. destruct X as [Y| |]; simpl in *; try contradiction.
  exists Y. split; auto. split. { apply LE_inv in H0. tauto. }
  intros j Hj. apply (H j) in Hj. apply LE_inv in Hj. symmetry. tauto.
Qed.

Section Plans.
Variable L : nat.
Hypothesis HL : 0 < L.
Notation EC j := (LE C0 L j).
Notation ER j := (LE 0%R L j).

Lemma simd_twiddle_rel : forall n j, j < L ->
  orel (Forall2 (EC j)) (simd_twiddle L n) (make_twiddle_lut_radix2 n Forward).
Proof using All.
  intros n j Hj. unfold simd_twiddle. rewrite make_twiddle_ok. cbn [bind].
  set (s := tab (n / 2) (W Forward (n / 2 * 2))).
  assert (G : for_range 0 (length s) (fun i vec => w <- rd s i ;; wr vec i (broadcast L w))
    (repeat (broadcast L C0) (length s)) = Ok (map (broadcast L) s)).
  { change (copy (broadcast L) s (repeat (broadcast L C0) (length s)) = Ok (map (broadcast L) s)).
    apply copy_full. symmetry. apply repeat_length. }
  rewrite G. simpl. clear G. induction s; simpl; constructor; auto. apply LE_broadcast; auto.
Qed.

Lemma make_simd_plan_ok : forall p, 0 < p <= 27 -> exists pl spl, make_simd_plan L p = Ok pl /\ make_dit2_plan p = Ok spl /\
  si_table pl = p_reorder spl /\ forall j, j < L -> Forall2 (EC j) (si_tw pl) (p_wf spl).
Proof using All.
  intros p Hp. destruct (fft_plan_object p Hp) as [spl [E _]]. pose proof E as E'.
  unfold make_dit2_plan in E'.
  assert (B : check_order p = Ok p). { unfold check_order. replace (max_order <? p) with false; auto. symmetry. apply Nat.ltb_ge. unfold max_order. lia. }
  rewrite B in E'. cbn [bind] in E'. rewrite bitrevorder_plan_ok in E'. cbn [bind] in E'. rewrite !make_twiddle_ok in E'. cbn [bind] in E'.
  assert (A : (p <=? 30) = true) by (apply Nat.leb_le; lia).
  pose proof (simd_twiddle_rel (2 ^ p) 0 HL) as R0. pose proof (simd_twiddle_rel (2 ^ p)) as R. rewrite make_twiddle_ok in R0.
  destruct (simd_twiddle L (2 ^ p)) as [tw| |] eqn:ET; simpl in R0; try contradiction.
  exists (SimdPlan p (tab (2 ^ p) (digit_rev 2 p)) tw), spl. split.
  { unfold make_simd_plan. rewrite A. cbn [guard bind]. rewrite bitrevorder_plan_ok. cbn [bind]. rewrite ET. reflexivity. }
  split; auto. inversion E'. subst spl. simpl. split; auto.
  intros j Hj. specialize (R j Hj). rewrite make_twiddle_ok in R. simpl in R. exact R.
Qed.

Definition kernel_rel (bk : list (list C) -> list (list C) -> outcome (list (list C)))
  (k : list C -> list C -> outcome (list C)) : Prop :=
  forall j x y t s, j < L -> Forall2 (EC j) x y -> Forall2 (EC j) t s -> orel (Forall2 (EC j)) (bk x t) (k y s).

Lemma kernels_rel : kernel_rel (bdit2_v1 cbatch_ops) c2c_dit2_v1 /\ kernel_rel (bdit2_v2 cbatch_ops) c2c_dit2_v2 /\
  kernel_rel (bdit2_v3 cbatch_ops) c2c_dit2_v3 /\ kernel_rel (bdit2_v4 cbatch_ops) c2c_dit2_v4.
Proof using All.
  repeat split; intros j x y t s Hj Hx Ht;
  [apply v1_rel|apply v2_rel|apply v3_rel|apply v4_rel]; auto;
  intros; unfold cbatch_ops; simpl; apply LE_zip; auto.
Qed.

Lemma simd_forward : forall p pl bk k X, 0 < p <= 27 -> kernel_rel bk k ->
  (forall spl x, make_dit2_plan p = Ok spl -> length x = 2 ^ p -> run_dit2_plan k spl x Forward = Ok (DFT_list Forward x)) ->
  make_simd_plan L p = Ok pl -> length X = 2 ^ p -> registers L X ->
  exists Y, simd_run bk pl X Forward = Ok Y /\ registers L Y /\
    forall j, j < L -> lane C0 j Y = DFT_list Forward (lane C0 j X).
Proof using All.
  intros p pl bk k X Hp HK HS EP HX HR.
  destruct (make_simd_plan_ok p Hp) as [pl' [spl [E1 [E2 [ET EW]]]]]. rewrite EP in E1. inversion E1; subst pl'. clear E1.
  apply lanes_run; auto. intros j Hj.
  rewrite <- (HS spl (lane C0 j X)) by (auto; rewrite lane_length; auto).
  unfold simd_run, run_dit2_plan. rewrite ET.
  eapply orel_bind. { apply orel_bitrev with (E := EC j). apply LE_lane; auto. } intros. apply HK; auto.
Qed.

Lemma simd_backward : forall p pl bk X, 0 < p <= 27 ->
  make_simd_plan L p = Ok pl -> length X = 2 ^ p ->
  simd_run bk pl X Backward = Ok (tab (2 ^ p) (fun i => nth (digit_rev 2 p i) X [])).
Proof using All.
  intros p pl bk X Hp EP HX. unfold make_simd_plan in EP.
  assert (A : (p <=? 30) = true) by (apply Nat.leb_le; lia). rewrite A in EP. cbn [guard bind] in EP.
  rewrite bitrevorder_plan_ok in EP. cbn [bind] in EP. destruct (simd_twiddle L (2 ^ p)); cbn [bind] in EP; inversion EP; subst.
  unfold simd_run. cbn [si_table]. rewrite (bitrev_apply_rev _ []) by auto. reflexivity.
Qed.

(** ** Split plan *)

Lemma simd_split_twiddle_ok : forall n, simd_split_twiddle L n =
  (tw <- make_twiddle_lut_radix2 n Forward ;;
   Ok (map (broadcast L) (map fst tw), map (broadcast L) (map snd tw))).
Proof using All.
  intros n. unfold simd_split_twiddle. rewrite make_twiddle_ok. cbn [bind].
  set (s := tab (n / 2) (W Forward (n / 2 * 2))). cbv zeta.
  destruct (for_range_inv _ (fun k st => length (fst st) = length s /\ length (snd st) = length s /\
     forall i, i < k -> nth i (fst st) [] = broadcast L (fst (nth i s C0)) /\ nth i (snd st) [] = broadcast L (snd (nth i s C0)))
     0 (length s) (fun i st =>
    w <- rd s i ;;
    re <- wr (fst st) i (broadcast L (fst w)) ;;
    im <- wr (snd st) i (broadcast L (snd w)) ;;
    Ok (re, im)) (repeat (broadcast L 0%R) (length s), repeat (broadcast L 0%R) (length s))) as [[re im] [E [L1 [L2 N]]]].
  - lia.
  - simpl. rewrite repeat_length. repeat split; auto; lia.
  - intros k [re im] Hk [L1 [L2 N]]. cbn [fst snd] in *. rewrite (rd_ok _ s k C0) by lia. cbn [bind].
    rewrite !wr_ok by lia. cbn [bind]. eexists. split; [reflexivity|]. cbn [fst snd]. rewrite !upd_length.
    split; auto. split; auto. intros i Hi. destruct (Nat.eq_dec i k) as [->|Ne].
    + rewrite !nth_upd_eq by lia. auto.
    + rewrite !nth_upd_neq by auto. apply N. lia.
  - rewrite E. f_equal. cbn [fst snd] in *. f_equal.
    + apply (list_eq_nth _ []). { rewrite !map_length. auto. } intros i Hi. rewrite (proj1 (N i ltac:(lia))).
      rewrite map_map. rewrite (nth_indep _ [] (broadcast L (fst C0))) by (rewrite map_length; rewrite L1 in Hi; exact Hi).
      rewrite (map_nth (fun c => broadcast L (fst c))). auto.
    + apply (list_eq_nth _ []). { rewrite !map_length. auto. } intros i Hi. rewrite (proj2 (N i ltac:(lia))).
      rewrite map_map. rewrite (nth_indep _ [] (broadcast L (snd C0))) by (rewrite map_length; rewrite L2 in Hi; exact Hi).
      rewrite (map_nth (fun c => broadcast L (snd c))). auto.
Qed.

Lemma LE_broadcast_map : forall j (s : list R), j < L -> Forall2 (ER j) (map (broadcast L) s) s.
Proof using All. intros j s Hj. induction s; simpl; constructor; auto. apply LE_broadcast; auto. Qed.

Lemma make_simd_split_ok : forall p, 0 < p <= 30 -> exists pl spl,
  make_simd_split_plan L p = Ok pl /\ make_split_plan p = Ok spl /\
  ss_table pl = sp_table spl /\ ss_order pl = sp_order spl /\
  forall j, j < L -> Forall2 (ER j) (ss_re pl) (sp_re spl) /\ Forall2 (ER j) (ss_im pl) (sp_im spl).
Proof using All.
  intros p Hp. eexists. eexists. split; [|split]. 2: apply make_split_plan_ok; auto.
  - unfold make_simd_split_plan. assert (A : (p <=? 30) = true) by (apply Nat.leb_le; lia). rewrite A. cbn [guard bind].
    rewrite bitrevorder_plan_ok. cbn [bind]. rewrite simd_split_twiddle_ok, make_twiddle_half by lia. cbn [bind]. reflexivity.
  - cbn [ss_table ss_order ss_re ss_im sp_table sp_order sp_re sp_im]. split; auto. split; auto.
    intros j Hj. split; apply LE_broadcast_map; auto.
Qed.

Lemma ER_add : forall j a b u v, j < L -> ER j a u -> ER j b v -> ER j (e_add rbatch_ops a b) (u + v)%R.
Proof using All. intros. simpl. apply LE_zip; auto. Qed.
Lemma ER_sub : forall j a b u v, j < L -> ER j a u -> ER j b v -> ER j (e_sub rbatch_ops a b) (u - v)%R.
Proof using All. intros. simpl. apply LE_zip; auto. Qed.
Lemma ER_mul : forall j a b u v, j < L -> ER j a u -> ER j b v -> ER j (e_mul rbatch_ops a b) (u * v)%R.
Proof using All. intros. simpl. apply LE_zip; auto. Qed.
Lemma ER_fms : forall j a b c u v w, j < L -> ER j a u -> ER j b v -> ER j c w -> ER j (rbatch_fms a b c) (u * v - w)%R.
Proof using All. intros. unfold rbatch_fms. repeat apply LE_zip; auto. Qed.
Lemma ER_fma : forall j a b c u v w, j < L -> ER j a u -> ER j b v -> ER j c w -> ER j (rbatch_fma a b c) (u * v + w)%R.
Proof using All. intros. unfold rbatch_fma. repeat apply LE_zip; auto. Qed.

Hint Resolve ER_add ER_sub ER_mul ER_fms ER_fma : lanes.

Ltac obl := eapply orel_bind; [ first [ eapply orel_rd | eapply orel_wr ]; eauto with lanes | intros; cbn beta ].

Lemma split_stage_0_rel : forall n j x y, j < L -> Epair (ER j) x y ->
  orel (Epair (ER j)) (simd_split_stage_0 n x) (split_stage_0 n y).
Proof using All.
  intros n j x y Hj H. unfold simd_split_stage_0, split_stage_0. apply orel_step; auto.
  intros i [are aim] [bre bim] [H1 H2]. cbn [fst snd] in *. cbv zeta.
  obl. obl. obl. obl. obl. obl. obl. obl. simpl. split; auto.
Qed.

Lemma split_stage_n_rel : forall p t1 t2 s1 s2 j x y, j < L -> Forall2 (ER j) t1 s1 -> Forall2 (ER j) t2 s2 -> Epair (ER j) x y ->
  orel (Epair (ER j)) (simd_split_stage_n p t1 t2 x) (split_stage_n p s1 s2 y).
Proof using All.
  intros p t1 t2 s1 s2 j x y Hj Ht1 Ht2 H. unfold simd_split_stage_n, split_stage_n. cbv zeta. apply orel_range; auto.
  intros st a b Hab. apply orel_step; auto. intros k a' b' Hab'. apply orel_range; auto.
  intros i [are aim] [bre bim] [H1 H2]. cbn [fst snd] in *.
  obl. obl. obl. obl. obl. obl. obl. obl. obl. obl. simpl. split; auto.
Qed.

Lemma simd_split_rel : forall p pl spl d j x y, 0 < p <= 30 -> j < L ->
  make_simd_split_plan L p = Ok pl -> make_split_plan p = Ok spl -> Epair (ER j) x y ->
  orel (Epair (ER j)) (simd_split_run pl x d) (split_run spl y d).
Proof using All.
  intros p pl spl d j x y Hp Hj E1 E2 H.
  destruct (make_simd_split_ok p Hp) as [pl' [spl' [F1 [F2 [T [O R]]]]]].
  rewrite E1 in F1. rewrite E2 in F2. inversion F1. inversion F2. subst pl' spl'. clear F1 F2.
  destruct (R j Hj) as [R1 R2]. unfold simd_split_run, split_run. rewrite T, O.
  eapply orel_bind. { apply orel_bitrev_split; eauto. } intros a b Hab. destruct d.
  - eapply orel_bind. { apply split_stage_0_rel; eauto. } intros. apply split_stage_n_rel; auto.
  - destruct Hab. eapply orel_bind. { apply split_stage_0_rel with (j := j); auto. split; cbn [fst snd]; auto. }
    intros. eapply orel_bind. { apply split_stage_n_rel with (j := j); eauto. } intros u v [Hu Hv]. simpl. split; auto.
Qed.

Lemma simd_split_ok : forall p d Xre Xim, 0 < p <= 30 ->
  length Xre = 2 ^ p -> length Xim = 2 ^ p -> registers L Xre -> registers L Xim ->
  exists pl Yre Yim, make_simd_split_plan L p = Ok pl /\
    simd_split_run pl (Xre, Xim) d = Ok (Yre, Yim) /\ registers L Yre /\ registers L Yim /\
    (forall j, j < L -> let X := DFT_list d (combine (lane 0%R j Xre) (lane 0%R j Xim)) in
       lane 0%R j Yre = map fst X /\ lane 0%R j Yim = map snd X) /\
    forall Ore Oim, length Ore = 2 ^ p -> length Oim = 2 ^ p ->
      simd_split_run_out pl (Xre, Xim) (Ore, Oim) d = Ok (Yre, Yim).
Proof using All.
  intros p d Xre Xim Hp H1 H2 R1 R2.
  destruct (make_simd_split_ok p Hp) as [pl [spl [E1 [E2 _]]]].
  destruct (split_fft_ok p Hp) as [spl' [E3 HS]]. rewrite E2 in E3. inversion E3; subst spl'. clear E3.
  assert (G : forall j, j < L -> exists Yre Yim, simd_split_run pl (Xre, Xim) d = Ok (Yre, Yim) /\
    registers L Yre /\ registers L Yim /\
    let X := DFT_list d (combine (lane 0%R j Xre) (lane 0%R j Xim)) in
       lane 0%R j Yre = map fst X /\ lane 0%R j Yim = map snd X).
  { intros j Hj. pose proof (simd_split_rel p pl spl d j (Xre, Xim) (lane 0%R j Xre, lane 0%R j Xim) Hp Hj E1 E2) as Q.
    destruct (HS d (lane 0%R j Xre) (lane 0%R j Xim)) as [HS1 _]; try (rewrite lane_length; auto).
    rewrite HS1 in Q. specialize (Q ltac:(split; apply LE_lane; auto)).
    destruct (simd_split_run pl (Xre, Xim) d) as [[Yre Yim]| |]; simpl in Q; try contradiction.
    destruct Q as [Q1 Q2]. cbn [fst snd] in *. apply LE_inv in Q1. apply LE_inv in Q2.
    exists Yre, Yim. split; auto. split; [tauto|]. split; [tauto|]. cbv zeta. split; symmetry; tauto. }
  destruct (G 0 HL) as [Yre [Yim [E [S1 [S2 _]]]]]. exists pl, Yre, Yim. split; auto. split; auto. split; auto. split; auto. split.
  - intros j Hj. destruct (G j Hj) as [Y1 [Y2 [E' [_ [_ F]]]]]. rewrite E in E'. inversion E'. subst. exact F.
  - intros Ore Oim O1 O2. unfold simd_split_run_out. cbn [fst snd]. rewrite !copy_full by lia. cbn [bind]. rewrite !map_id. auto.
Qed.
End Plans.

(** * Statements for the property file *)

Lemma registers_ext : forall T (d : T) L X Y, 0 < L -> registers L X -> registers L Y ->
  (forall j, j < L -> lane d j X = lane d j Y) -> X = Y.
Proof.
  intros T d L X Y HL HX. revert Y. induction HX as [|x X Hx HX IH]; intros Y HY H.
  - specialize (H 0 HL). destruct Y; auto; discriminate.
  - destruct HY as [|y Y Hy HY]. { specialize (H 0 HL). discriminate. }
    f_equal.
    + apply (list_eq_nth _ d). { congruence. } intros i Hi. specialize (H i ltac:(lia)). unfold lane in H. simpl in H. congruence.
    + apply IH; auto. intros j Hj. specialize (H j Hj). unfold lane in *. simpl in H. congruence.
Qed.

Lemma simd_all_kernels : forall L p X, 0 < L -> 0 < p <= 27 -> length X = 2 ^ p -> registers L X ->
  exists pl Y, make_simd_plan L p = Ok pl /\
    simd_run (bdit2_v1 cbatch_ops) pl X Forward = Ok Y /\ simd_run (bdit2_v2 cbatch_ops) pl X Forward = Ok Y /\
    simd_run (bdit2_v3 cbatch_ops) pl X Forward = Ok Y /\
    (1 < p -> simd_run (bdit2_v4 cbatch_ops) pl X Forward = Ok Y) /\
    registers L Y /\ forall j, j < L -> lane C0 j Y = DFT_list Forward (lane C0 j X).
Proof.
  intros L p X HL Hp HX HR. destruct (make_simd_plan_ok L HL p Hp) as [pl [spl [E1 [E2 _]]]].
  destruct (kernels_rel L HL) as [K1 [K2 [K3 K4]]].
  assert (S : forall spl' x, make_dit2_plan p = Ok spl' -> length x = 2 ^ p ->
    run_dit2_plan c2c_dit2_v1 spl' x Forward = Ok (DFT_list Forward x) /\
    run_dit2_plan c2c_dit2_v2 spl' x Forward = Ok (DFT_list Forward x) /\
    run_dit2_plan c2c_dit2_v3 spl' x Forward = Ok (DFT_list Forward x) /\
    (1 < p -> run_dit2_plan c2c_dit2_v4 spl' x Forward = Ok (DFT_list Forward x))).
  { intros spl' x F Hx. destruct (kernels_agree p Forward x Hp Hx) as [q [y [G1 [-> G2]]]]. rewrite F in G1. inversion G1. subst q. exact G2. }
  destruct (simd_forward L HL p pl _ _ X Hp K1 (fun s x a b => proj1 (S s x a b)) E1 HX HR) as [Y1 [R1 [T1 N1]]].
  destruct (simd_forward L HL p pl _ _ X Hp K2 (fun s x a b => proj1 (proj2 (S s x a b))) E1 HX HR) as [Y2 [R2 [T2 N2]]].
  destruct (simd_forward L HL p pl _ _ X Hp K3 (fun s x a b => proj1 (proj2 (proj2 (S s x a b)))) E1 HX HR) as [Y3 [R3 [T3 N3]]].
  assert (Q : forall Y, registers L Y -> (forall j, j < L -> lane C0 j Y = DFT_list Forward (lane C0 j X)) -> Y = Y1).
  { intros Y A B. apply (registers_ext _ C0 L); auto. intros j Hj. rewrite B, N1; auto. }
  exists pl, Y1. split; auto. split; auto. rewrite (Q Y2 T2 N2) in R2. rewrite (Q Y3 T3 N3) in R3.
  split; auto. split; auto. split; [|split; auto]. intros Hp1.
  destruct (simd_forward L HL p pl _ _ X Hp K4 (fun s x a b => proj2 (proj2 (proj2 (S s x a b))) Hp1) E1 HX HR) as [Y4 [R4 [T4 N4]]].
  rewrite (Q Y4 T4 N4) in R4. auto.
Qed.

(** An impulse in every lane. *)
Definition impulse (L n : nat) : list (list C) := repeat (RtoC 1) L :: repeat (repeat C0 L) (n - 1).

Lemma simd_backward_wrong : forall L p bk, 0 < L -> 0 < p <= 27 ->
  exists pl X Y, make_simd_plan L p = Ok pl /\ length X = 2 ^ p /\ registers L X /\
    simd_run bk pl X Backward = Ok Y /\ forall j, j < L -> lane C0 j Y <> DFT_list Backward (lane C0 j X).
Proof.
  intros L p bk HL Hp. destruct (make_simd_plan_ok L HL p Hp) as [pl [spl [E1 _]]].
  assert (P : 2 <= 2 ^ p). { change 2 with (2 ^ 1) at 1. apply Nat.pow_le_mono_r; lia. }
  assert (HX : length (impulse L (2 ^ p)) = 2 ^ p). { unfold impulse. simpl. rewrite repeat_length. lia. }
  exists pl, (impulse L (2 ^ p)). eexists. split; auto. split; auto. split.
  { unfold impulse. constructor. apply repeat_length. apply Forall_forall. intros r Hr. apply repeat_spec in Hr. subst. apply repeat_length. }
  split. { apply (simd_backward L HL p); auto. }
  intros j Hj A. set (k := digit_rev 2 p 1). 
  assert (N0 : forall i, i < 2 ^ p -> nth i (lane C0 j (impulse L (2 ^ p))) C0 = if i =? 0 then RtoC 1 else C0).
  { intros i Hi. unfold impulse, lane. destruct i; cbn [map nth Nat.eqb].
    - assert (G := LE_broadcast C C0 L j (RtoC 1) Hj). apply G.
    - assert (G := LE_broadcast C C0 L j C0 Hj). destruct G as [_ G]. unfold broadcast in G. 
      assert (M : forall n, map (fun r => nth j r C0) (repeat (repeat C0 L) n) = repeat C0 n).
      { induction n; cbn [repeat map]; auto. rewrite G, IHn. auto. }
      rewrite M. apply nth_repeat. }
  assert (B : nth 1 (lane C0 j (tab (2 ^ p) (fun i => nth (digit_rev 2 p i) (impulse L (2 ^ p)) []))) C0 = C0).
  { unfold lane. rewrite (nth_indep _ C0 (nth j [] C0)) by (rewrite map_length, tab_length; lia).
    rewrite (map_nth (fun r => nth j r C0)). rewrite nth_tab by lia.
    fold k. assert (Hk : k < 2 ^ p) by (apply digit_rev_lt; lia).
    assert (Kz : k <> 0). { intros Z. assert (I := digit_rev_invol 2 p 1 ltac:(lia) ltac:(lia)). fold k in I. rewrite Z in I.
      assert (J := digit_rev_invol 2 p 0 ltac:(lia) ltac:(lia)).
      assert (D0 : digit_rev 2 p 0 = 0).
      { clear. induction p; auto. }
      lia. }
    specialize (N0 k Hk). destruct (Nat.eqb_spec k 0); [contradiction|].
    unfold lane in N0. rewrite (nth_indep _ C0 (nth j [] C0)) in N0 by (rewrite map_length; lia).
    rewrite (map_nth (fun r => nth j r C0)) in N0. exact N0. }
  rewrite A in B. unfold DFT_list in B. rewrite lane_length, HX in B. rewrite nth_tab in B by lia.
  unfold DFT in B.
  assert (Z : Csum (2 ^ p) (fun i => (nth i (lane C0 j (impulse L (2 ^ p))) C0 * W Backward (2 ^ p) (i * 1))%C) = RtoC 1).
  { replace (2 ^ p) with (S (2 ^ p - 1)) at 1 by lia.
    assert (G : forall n, n < 2 ^ p -> Csum (S n) (fun i => (nth i (lane C0 j (impulse L (2 ^ p))) C0 * W Backward (2 ^ p) (i * 1))%C) = RtoC 1).
    { induction n; intros Hn.
      - rewrite Csum_S. rewrite (N0 0) by lia. cbn [Nat.eqb]. cbn [Nat.mul]. rewrite W_0. unfold Csum. simpl. apply C_eq; simpl; ring.
      - rewrite Csum_S, IHn by lia. rewrite (N0 (S n)) by lia. cbn [Nat.eqb]. apply C_eq; simpl; ring. }
    apply G. lia. }
  rewrite Z in B. inversion B. apply R1_neq_R0. auto.
Qed.

Lemma simd_split_roundtrip : forall L p d Xre Xim, 0 < L -> 0 < p <= 30 ->
  length Xre = 2 ^ p -> length Xim = 2 ^ p -> registers L Xre -> registers L Xim ->
  exists pl Y, make_simd_split_plan L p = Ok pl /\ simd_split_run pl (Xre, Xim) d = Ok Y /\
    simd_split_run pl Y (flip d) = Ok (map (map (fun v => (INR (2 ^ p) * v)%R)) Xre, map (map (fun v => (INR (2 ^ p) * v)%R)) Xim).
Proof.
  intros L p d Xre Xim HL Hp H1 H2 R1 R2.
  destruct (make_simd_split_ok L HL p Hp) as [pl [spl [E1 [E2 _]]]].
  assert (G : forall j, j < L -> exists Y Zre Zim, simd_split_run pl (Xre, Xim) d = Ok Y /\ simd_split_run pl Y (flip d) = Ok (Zre, Zim) /\
    registers L Zre /\ registers L Zim /\
    lane 0%R j Zre = map (fun v => (INR (2 ^ p) * v)%R) (lane 0%R j Xre) /\
    lane 0%R j Zim = map (fun v => (INR (2 ^ p) * v)%R) (lane 0%R j Xim)).
  { intros j Hj. destruct (split_fft_roundtrip p d (lane 0%R j Xre) (lane 0%R j Xim) Hp) as [s [y [F1 [F2 F3]]]]; try (rewrite lane_length; auto).
    rewrite E2 in F1. inversion F1. subst s. clear F1.
    pose proof (simd_split_rel L HL p pl spl d j (Xre, Xim) (lane 0%R j Xre, lane 0%R j Xim) Hp Hj E1 E2 ltac:(split; apply LE_lane; auto)) as Q.
    rewrite F2 in Q. destruct (simd_split_run pl (Xre, Xim) d) as [Y| |]; simpl in Q; try contradiction.
    pose proof (simd_split_rel L HL p pl spl (flip d) j Y y Hp Hj E1 E2 Q) as Q2. rewrite F3 in Q2.
    destruct (simd_split_run pl Y (flip d)) as [[Zre Zim]| |] eqn:EZ; simpl in Q2; try contradiction.
    destruct Q2 as [A B]. cbn [fst snd] in *. apply LE_inv in A. apply LE_inv in B. exists Y, Zre, Zim. rewrite EZ.
    split; auto. split; auto. split; [tauto|]. split; [tauto|]. split; symmetry; tauto. }
  destruct (G 0 HL) as [Y [Zre [Zim [A1 [A2 [A3 [A4 _]]]]]]]. exists pl, Y. split; auto. split; auto. rewrite A2. f_equal.
  assert (M : forall Z X, registers L Z -> registers L X ->
    (forall j, j < L -> lane 0%R j Z = map (fun v => (INR (2 ^ p) * v)%R) (lane 0%R j X)) -> Z = map (map (fun v => (INR (2 ^ p) * v)%R)) X).
  { intros Z X HZ HX H. apply (registers_ext _ 0%R L); auto.
    - unfold registers in *. rewrite Forall_map. eapply Forall_impl; [|exact HX]. intros r Hr. cbn beta. rewrite map_length. auto.
    - intros j Hj. rewrite H by auto. unfold lane. rewrite !map_map. apply map_ext_in. intros r Hr.
      unfold registers in HX. rewrite Forall_forall in HX. specialize (HX r Hr).
      rewrite (nth_indep (map (fun v => (INR (2 ^ p) * v)%R) r) 0%R (INR (2 ^ p) * 0)%R) by (rewrite map_length; lia). symmetry. apply (map_nth (fun v => (INR (2 ^ p) * v)%R)). }
  f_equal; apply M; auto; intros j Hj; destruct (G j Hj) as [Y' [Zre' [Zim' [B1 [B2 [_ [_ [B5 B6]]]]]]]];
    rewrite A1 in B1; inversion B1; subst Y'; rewrite A2 in B2; inversion B2; subst Zre' Zim'; auto.
Qed.

Lemma split_functions : forall p re im ore oim, 0 < p <= 30 ->
  length re = 2 ^ p -> length im = 2 ^ p -> length ore = 2 ^ p -> length oim = 2 ^ p ->
  exists pl, make_split_plan p = Ok pl /\
  let F := DFT_list Forward (combine re im) in
  let B := DFT_list Backward (combine re im) in
  split_fft_inout pl (re, im) = Ok (map fst F, map snd F) /\
  split_fft_out pl (re, im) (ore, oim) = Ok (map fst F, map snd F) /\
  split_ifft_inout pl (re, im) = Ok (map fst B, map snd B) /\
  split_ifft_out pl (re, im) (ore, oim) = Ok (map fst B, map snd B) /\
  split_ifft_inout pl (map fst F, map snd F) =
    Ok (map (fun v => (INR (2 ^ p) * v)%R) re, map (fun v => (INR (2 ^ p) * v)%R) im).
Proof.
  intros p re im ore oim Hp H1 H2 H3 H4. destruct (split_fft_ok p Hp) as [pl [E H]]. exists pl. split; auto. cbv zeta.
  destruct (H Forward re im H1 H2) as [F1 F2]. destruct (H Backward re im H1 H2) as [B1 B2].
  split; [exact F1|]. split; [exact (F2 _ _ H3 H4)|]. split; [exact B1|]. split; [exact (B2 _ _ H3 H4)|].
  destruct (split_fft_roundtrip p Forward re im Hp H1 H2) as [q [y [E' [Y1 Y2]]]]. rewrite E in E'. inversion E'. subst q.
  rewrite F1 in Y1. inversion Y1. subst y. exact Y2.
Qed.
