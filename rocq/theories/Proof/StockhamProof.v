(** The Stockham plans of radix 3, 4, 5 and 8 compute the DFT. *)
From Coq Require Import List Arith Bool Reals Lra Lia.
From Verif Require Import Base.Outcome Base.OutcomeFacts Base.Sums Base.Cplx Spec.Dft.
From Verif Require Import Proof.DftTheory Proof.DigitRevTheory Model.Fft2 Model.FftRadix Model.Stockham.
From Verif Require Import Proof.Fft2Proof Proof.BitrevProof Proof.RadixProof.
Import ListNotations.
Open Scope outcome_scope.
Local Arguments Nat.div : simpl never.
Local Arguments Nat.modulo : simpl never.

(** * Roots of unity of small order *)
Lemma W_trig : forall d n k, W d n k =
  (cos (2 * PI * INR k / INR n), (dsign d * sin (2 * PI * INR k / INR n))%R).
Proof.
  intros. unfold W, Cexp. destruct d; cbn [dsign].
  - replace (-1 * (2 * PI) * INR k / INR n)%R with (- (2 * PI * INR k / INR n))%R by (unfold Rdiv; ring).
    rewrite cos_neg, sin_neg. f_equal. ring.
  - replace (1 * (2 * PI) * INR k / INR n)%R with (2 * PI * INR k / INR n)%R by (unfold Rdiv; ring).
    f_equal. ring.
Qed.

Lemma W3_1 : forall d, W d 3 1 = ((-1/2)%R, (dsign d * sin (PI / 3))%R).
Proof.
  intros. rewrite W_trig. simpl (INR _).
  replace (2 * PI * 1 / (1 + 1 + 1))%R with (2 * (PI / 3))%R by field.
  rewrite cos_2PI3, sin_2PI3, sin_PI3. auto.
Qed.

Lemma W_cj : forall d n k, 0 < n -> k <= n -> W d n (n - k) = Cconj (W d n k).
Proof.
  intros. rewrite W_conj. pose proof (W_neg d n 1 k H0 H). rewrite !Nat.mul_1_l in H1. auto.
Qed.

Lemma W3_2 : forall d, W d 3 2 = ((-1/2)%R, (- (dsign d * sin (PI / 3)))%R).
Proof. intros. change 2 with (3 - 1). rewrite W_cj, W3_1 by lia. auto. Qed.

Lemma W5_3 : forall d, W d 5 3 = Cconj (W d 5 2).
Proof. intros. apply (W_cj d 5 2); lia. Qed.
Lemma W5_4 : forall d, W d 5 4 = Cconj (W d 5 1).
Proof. intros. apply (W_cj d 5 1); lia. Qed.

Lemma cos_2PI5 : cos (2 * PI / 5) = (sqrt 5 / 4 - 1 / 4)%R /\ cos (4 * PI / 5) = (- (sqrt 5 / 4) - 1 / 4)%R.
Proof.
  assert (HS : Csum 5 (fun j => W Backward 5 (j * 1)) = C0).
  { rewrite W_orth by lia. reflexivity. }
  apply (f_equal fst) in HS. unfold Csum in HS. cbn [bsum Nat.mul Nat.add] in HS.
  rewrite W5_3, W5_4 in HS.
  rewrite W_0 in HS. rewrite !W_trig in HS. simpl in HS.
  replace (2 * PI * 1 / (1 + 1 + 1 + 1 + 1))%R with (2 * PI / 5)%R in HS by field.
  replace (2 * PI * (1 + 1) / (1 + 1 + 1 + 1 + 1))%R with (2 * (2 * PI / 5))%R in HS by field.
  assert (E2 : cos (2 * (2 * PI / 5)) = (2 * cos (2 * PI / 5) * cos (2 * PI / 5) - 1)%R) by (apply cos_2a_cos).
  assert (HP : (0 < cos (2 * PI / 5))%R).
  { apply cos_gt_0; pose proof PI_RGT_0; lra. }
  set (c := cos (2 * PI / 5)) in *.
  assert (Q : (4 * c * c + 2 * c - 1 = 0)%R) by lra.
  assert (S5 : (sqrt 5 * sqrt 5 = 5)%R) by (apply sqrt_def; lra).
  assert (SP : (0 < sqrt 5)%R) by (apply sqrt_lt_R0; lra).
  assert (C : c = (sqrt 5 / 4 - 1 / 4)%R).
  { assert ((4 * c + 1 - sqrt 5) * (4 * c + 1 + sqrt 5) = 0)%R by nra.
    apply Rmult_integral in H. destruct H; lra. }
  split; auto.
  replace (4 * PI / 5)%R with (2 * (2 * PI / 5))%R by field.
  rewrite E2. lra.
Qed.

Lemma sin_4PI5 : sin (4 * PI / 5) = sin (PI / 5).
Proof. replace (4 * PI / 5)%R with (PI - PI / 5)%R by field. apply sin_PI_x. Qed.

Lemma W5_1 : forall d, W d 5 1 = ((sqrt 5 / 4 - 1 / 4)%R, (dsign d * sin (2 * PI / 5))%R).
Proof.
  intros. rewrite W_trig. simpl (INR _).
  replace (2 * PI * 1 / (1 + 1 + 1 + 1 + 1))%R with (2 * PI / 5)%R by field.
  rewrite (proj1 cos_2PI5). auto.
Qed.
Lemma W5_2 : forall d, W d 5 2 = ((- (sqrt 5 / 4) - 1 / 4)%R, (dsign d * sin (PI / 5))%R).
Proof.
  intros. rewrite W_trig. simpl (INR _).
  replace (2 * PI * (1 + 1) / (1 + 1 + 1 + 1 + 1))%R with (4 * PI / 5)%R by field.
  rewrite (proj2 cos_2PI5), sin_4PI5. auto.
Qed.

Lemma W4_2 : forall d, W d 4 2 = ((-1)%R, 0%R).
Proof. intros. change 4 with (2 * 2). rewrite (W_half d 2) by lia. apply C_eq; simpl; ring. Qed.
Lemma W4_3 : forall d, W d 4 3 = (0%R, (- dsign d)%R).
Proof. intros. change 3 with (4 - 1). rewrite W_cj, W_4_1 by lia. reflexivity. Qed.

Lemma W8_1 : forall d, W d 8 1 = ((sqrt 2 / 2)%R, (dsign d * (sqrt 2 / 2))%R).
Proof.
  intros. rewrite W_trig.
  replace (2 * PI * INR 1 / INR 8)%R with (PI / 4)%R by (simpl; field).
  rewrite cos_PI4, sin_PI4.
  assert (S : (1 / sqrt 2 = sqrt 2 / 2)%R).
  { assert (0 < sqrt 2)%R by (apply sqrt_lt_R0; lra).
    assert (sqrt 2 * sqrt 2 = 2)%R by (apply sqrt_def; lra).
    apply Rmult_eq_reg_r with (sqrt 2); [|lra]. field_simplify; lra. }
  rewrite S. auto.
Qed.
Lemma W8_2 : forall d, W d 8 2 = (0%R, dsign d).
Proof. intros. change 8 with (4 * 2). rewrite (W_quarter d 2) by lia. auto. Qed.
Lemma W8_3 : forall d, W d 8 3 = ((- (sqrt 2 / 2))%R, (dsign d * (sqrt 2 / 2))%R).
Proof.
  intros. change 3 with (1 + 2). rewrite W_add, W8_1, W8_2.
  apply C_eq; simpl; destruct d; simpl; ring.
Qed.
Lemma W8_4 : forall d, W d 8 4 = ((-1)%R, 0%R).
Proof. intros. change 8 with (2 * 4). rewrite (W_half d 4) by lia. apply C_eq; simpl; ring. Qed.
Lemma W8_5 : forall d, W d 8 5 = Cconj (W d 8 3).
Proof. intros. apply (W_cj d 8 3); lia. Qed.
Lemma W8_6 : forall d, W d 8 6 = Cconj (W d 8 2).
Proof. intros. apply (W_cj d 8 2); lia. Qed.
Lemma W8_7 : forall d, W d 8 7 = Cconj (W d 8 1).
Proof. intros. apply (W_cj d 8 1); lia. Qed.

(** * Butterflies *)
Definition sbf_ok (r : nat) (bf : direction -> list C -> outcome (list C)) : Prop :=
  forall d (c : nat -> C),
    bf d (tab r c) = Ok (tab r (fun q => Csum r (fun t => (c t * W d r (t * q))%C))).

Lemma cons_eq : forall A (a b : A) l l', a = b -> l = l' -> a :: l = b :: l'.
Proof. intros; subst; auto. Qed.

Ltac red_W :=
  repeat match goal with
  | |- context [W ?d ?n (?a * ?b)] =>
    let v := eval compute in ((a * b) mod n) in
    rewrite (W_red d n (a * b) v) by (try lia; reflexivity)
  end.

Ltac open_c c :=
  repeat match goal with
  | |- context [c ?k] => let p := fresh "u" in let a := fresh "a" in let b := fresh "b" in
      set (p := c k); destruct p as [a b]
  end.

Lemma bf3_ok : sbf_ok 3 stockham_bf3.
Proof.
  intros d c. unfold tab. cbn [seq map]. unfold stockham_bf3, sign_i. f_equal.
  unfold Csum. cbn [bsum]. red_W. rewrite !W_0, !W3_1, !W3_2.
  open_c c.
  repeat apply cons_eq; auto; apply C_eq; simpl; field.
Qed.

Lemma bf4_ok : sbf_ok 4 stockham_bf4.
Proof.
  intros d c. unfold tab. cbn [seq map]. unfold stockham_bf4, sign_i. f_equal.
  unfold Csum. cbn [bsum]. red_W. rewrite !W_0, !W_4_1, !W4_2, !W4_3. unfold Cid.
  open_c c.
  repeat apply cons_eq; auto; apply C_eq; simpl; ring.
Qed.

Lemma bf5_ok : sbf_ok 5 stockham_bf5.
Proof.
  intros d c. unfold tab. cbn [seq map]. unfold stockham_bf5, sign_i. f_equal.
  unfold Csum. cbn [bsum]. red_W. rewrite !W_0, !W5_3, !W5_4, !W5_1, !W5_2. unfold Cconj. cbn [fst snd].
  assert (HS : (0 < sin (2 * PI / 5))%R).
  { apply sin_gt_0; pose proof PI_RGT_0; lra. }
  set (s2 := sin (2 * PI / 5)) in *. set (s1 := sin (PI / 5)). set (q := sqrt 5).
  open_c c.
  repeat apply cons_eq; auto; apply C_eq; simpl; field; lra.
Qed.

Lemma bf8_ok : sbf_ok 8 stockham_bf8.
Proof.
  intros d c. unfold tab. cbn [seq map]. unfold stockham_bf8, sign_i. f_equal.
  unfold Csum. cbn [bsum]. red_W.
  rewrite !W_0, !W8_5, !W8_6, !W8_7, !W8_1, !W8_2, !W8_3, !W8_4. unfold Cconj. cbn [fst snd].
  set (s := (sqrt 2 / 2)%R).
  open_c c.
  repeat apply cons_eq; auto; apply C_eq; simpl; ring.
Qed.

(** * Scatter loops *)
Lemma scatter_ok : forall T (d : T) n (a : nat -> nat) (g : nat -> T) (x : list T),
  (forall c, c < n -> a c < length x) ->
  (forall c c', c < n -> c' < n -> a c = a c' -> c = c') ->
  exists x', for_range 0 n (fun c x => wr x (a c) (g c)) x = Ok x' /\ length x' = length x /\
    (forall c, c < n -> nth (a c) x' d = g c) /\
    (forall l, (forall c, c < n -> l <> a c) -> nth l x' d = nth l x d).
Proof.
  intros T d n a g x Ha Hi. unfold for_range. rewrite Nat.sub_0_r.
  destruct (loop_touch T d n 0 1 (fun c x => wr x (a c) (g c)) x (fun c l => l = a c) (fun c l => g c))
    as [x' [E [L [V F]]]].
  - intros j j' l Hj Hj' Hne E E'. apply Hne. apply Hi; auto. congruence.
  - intros j y Hj Ly _. simpl. rewrite Nat.mul_1_r. rewrite wr_ok by (rewrite Ly; auto).
    eexists. split; [reflexivity|]. rewrite upd_length. split; auto. split.
    + intros l ->. rewrite nth_upd, Nat.eqb_refl. destruct (Nat.ltb_spec (a j) (length y)); auto.
      specialize (Ha j Hj). lia.
    + intros l Hl. rewrite nth_upd. destruct (Nat.eqb_spec l (a j)); [contradiction|]. auto.
  - exists x'. split; [exact E|]. split; [exact L|]. split.
    + intros c Hc. apply (V c); auto.
    + intros l Hl. apply F. intros. apply Hl. auto.
Qed.

Lemma for_range_ext_in : forall St lo hi (b b' : nat -> St -> outcome St) s,
  (forall i s, lo <= i < hi -> b i s = b' i s) -> for_range lo hi b s = for_range lo hi b' s.
Proof.
  intros St lo hi b b' s H. unfold for_range.
  assert (G : forall n k s, lo <= k -> k + n <= Nat.max lo hi -> loop n k 1 b s = loop n k 1 b' s).
  { induction n; simpl; intros; auto. rewrite H by lia. destruct (b' k s0); simpl; auto. apply IHn; lia. }
  apply G; lia.
Qed.

Lemma idx_dif : forall r m k j t, k < m -> t < r ->
  let a := k + r * j * m + t * m in a mod m = k /\ (a / m) mod r = t /\ a / (r * m) = j.
Proof.
  intros r m k j t Hk Ht a. unfold a. replace (k + r * j * m + t * m) with (k + j * (r * m) + t * m) by lia.
  apply idx_split; auto.
Qed.

Lemma idx_lt1 : forall r l m k j t, k < m -> j < l -> t < r -> k + j * m + t * l * m < r * l * m.
Proof.
  intros. assert (j + t * l + 1 <= r * l) by nia.
  assert ((j + t * l + 1) * m <= r * l * m) by (apply Nat.mul_le_mono_r; auto). lia.
Qed.

Lemma idx_lt2 : forall r l m k j t, k < m -> j < l -> t < r -> k + r * j * m + t * m < r * l * m.
Proof.
  intros. assert (r * j + t + 1 <= r * l) by nia.
  assert ((r * j + t + 1) * m <= r * l * m) by (apply Nat.mul_le_mono_r; auto). lia.
Qed.

(** Value stored by a stage at index a. *)
Definition dif_val (d : direction) r l m (y : nat -> C) (a : nat) : C :=
  let k := a mod m in let t := (a / m) mod r in let j := a / (r * m) in
  (W d (r * l) (t * j) * Csum r (fun c => y (k + m * (j + c * l))%nat * W d r (c * t)))%C.

Lemma mapM_tab : forall A B (f : A -> outcome B) (l : list A) (g : A -> B),
  (forall a, In a l -> f a = Ok (g a)) -> mapM f l = Ok (map g l).
Proof.
  induction l; simpl; intros; auto. rewrite (H a) by auto. simpl. rewrite (IHl g) by auto. auto.
Qed.

Lemma stockham_stage_ok : forall r bf d l m (y x : list C),
  sbf_ok r bf -> 0 < r -> 0 < m -> 0 < l -> length y = r * l * m -> length x = r * l * m ->
  exists x', stockham_stage bf r d l m y x = Ok x' /\ length x' = length x /\
    forall a, a < r * l * m -> nth a x' C0 = dif_val d r l m (fun i => nth i y C0) a.
Proof.
  intros r bf d l m y x Hbf Hr Hm Hl Ly Lx.
  unfold stockham_stage.
  set (Y := fun i => nth i y C0).
  assert (G : exists x', for_range 0 l (fun j x =>
    for_range 0 m (fun k x =>
      c <- mapM (fun t => rd y (k + j * m + t * l * m)) (seq 0 r) ;;
      o <- bf d c ;;
      for_range 0 r (fun t x =>
        v <- rd o t ;;
        wr x (k + r * j * m + t * m)
          (if t =? 0 then v else (v * twiddle (r * l) (t * j) d)%C)) x) x) x = Ok x' /\ length x' = length x /\
    (forall j a, j < l -> (exists k t, k < m /\ t < r /\ a = k + r * j * m + t * m) ->
       nth a x' C0 = dif_val d r l m Y a) /\
    (forall a, (forall j, j < l -> ~ exists k t, k < m /\ t < r /\ a = k + r * j * m + t * m) ->
       nth a x' C0 = nth a x C0)).
  { unfold for_range at 1. rewrite Nat.sub_0_r. apply loop_touch.
    - intros j j' a Hj Hj' Hne [k [t [Hk [Ht E]]]] [k' [t' [Hk' [Ht' E']]]]. apply Hne.
      destruct (idx_dif r m k j t) as [_ [_ H1]]; auto.
      destruct (idx_dif r m k' j' t') as [_ [_ H2]]; auto. congruence.
    - intros j z Hj Lz _. simpl. rewrite Nat.mul_1_r.
      unfold for_range at 1. rewrite Nat.sub_0_r.
      destruct (loop_touch C C0 m 0 1 (fun k x0 =>
         c <- mapM (fun t => rd y (k + j * m + t * l * m)) (seq 0 r);;
         o <- bf d c;;
         for_range 0 r (fun t x1 =>
            v <- rd o t;;
            wr x1 (k + r * j * m + t * m) (if t =? 0 then v else (v * twiddle (r * l) (t * j) d)%C)) x0) z
         (fun k a => exists t, t < r /\ a = k + r * j * m + t * m)
         (fun _ a => dif_val d r l m Y a)) as [z' [E [L [V F]]]].
      + intros k k' a Hk Hk' Hne [t [Ht E]] [t' [Ht' E']]. apply Hne.
        destruct (idx_dif r m k j t) as [H1 _]; auto.
        destruct (idx_dif r m k' j t') as [H2 _]; auto. congruence.
      + intros k u Hk Lu _. cbn [Nat.add]. rewrite Nat.mul_1_r.
        rewrite (mapM_tab _ _ _ (seq 0 r) (fun t => Y (k + j * m + t * l * m))).
        2:{ intros t Ht. apply in_seq in Ht. apply rd_ok. rewrite Ly. apply idx_lt1; auto; lia. }
        cbn [bind]. change (map (fun t => Y (k + j * m + t * l * m)) (seq 0 r))
          with (tab r (fun t => Y (k + j * m + t * l * m))).
        rewrite Hbf. cbn [bind].
        rewrite for_range_ext_in with (b' := fun t x1 =>
           wr x1 (k + r * j * m + t * m) (dif_val d r l m Y (k + r * j * m + t * m))).
        2:{ intros t s Ht. rewrite (rd_ok _ _ t C0) by (rewrite tab_length; lia).
            rewrite nth_tab by lia. cbn [bind]. f_equal.
            unfold dif_val. destruct (idx_dif r m k j t) as [H1 [H2 H3]]; auto; try lia.
            rewrite H1, H2, H3.
            assert (EC : Csum r (fun t0 => (Y (k + j * m + t0 * l * m)%nat * W d r (t0 * t))%C)
               = Csum r (fun c => (Y (k + m * (j + c * l))%nat * W d r (c * t))%C)).
            { apply Csum_ext. intros c Hc. do 2 f_equal. lia. }
            rewrite EC. destruct (Nat.eqb_spec t 0).
            - subst t. rewrite Nat.mul_0_l, W_0. ring.
            - rewrite twiddle_W by nia. ring. }
        destruct (scatter_ok C C0 r (fun t => k + r * j * m + t * m)
          (fun t => dif_val d r l m Y (k + r * j * m + t * m)) u) as [u' [E [L [V F]]]].
        * intros c Hc. rewrite Lu, Lz, Lx. apply idx_lt2; auto.
        * intros c c' Hc Hc' E. nia.
        * exists u'. split; auto. split; [lia|]. split.
          -- intros a [t [Ht ->]]. apply V. auto.
          -- intros a Ha. apply F. intros t Ht E'. apply Ha. exists t. auto.
      + exists z'. split; auto. split; [lia|]. split.
        * intros a [k [t [Hk [Ht Ea]]]]. apply (V k); auto. exists t. auto.
        * intros a Ha. apply F. intros k Hk [t [Ht Ea]]. apply Ha. exists k, t. auto. }
  destruct G as [x' [E [L [V _]]]]. exists x'. split; auto. split; auto.
  intros a Ha. apply (V (a / (r * m))).
  - apply Nat.div_lt_upper_bound; nia.
  - exists (a mod m), ((a / m) mod r). split; [apply Nat.mod_upper_bound; lia|].
    split; [apply Nat.mod_upper_bound; lia|].
    assert (a = m * (a / m) + a mod m) by (apply Nat.div_mod; lia).
    assert (a / m = r * (a / m / r) + (a / m) mod r) by (apply Nat.div_mod; lia).
    rewrite (Nat.mul_comm r m), <- Nat.div_div by lia. nia.
Qed.

(** * DIF invariant *)
Definition dif_inv (d : direction) (n m L : nat) (x X : nat -> C) : Prop :=
  forall k q, k < m -> q < L -> DFT d n x (k + m * q) = DFT d L (fun j => X (k + m * j)%nat) q.

Lemma dif_inv_0 : forall d n x X, (forall i, i < n -> X i = x i) -> dif_inv d n 1 n x X.
Proof.
  intros d n x X H k q Hk Hq. assert (k = 0) by lia. subst k.
  replace (0 + 1 * q) with q by lia. apply DFT_ext. intros j Hj. simpl. rewrite Nat.add_0_r. symmetry. auto.
Qed.

Lemma dif_inv_step : forall d n r l m x X X', 0 < r -> 0 < m -> 0 < l ->
  dif_inv d n m (r * l) x X ->
  (forall a, a < r * l * m -> X' a = dif_val d r l m X a) ->
  dif_inv d n (m * r) l x X'.
Proof.
  intros d n r l m x X X' Hr Hm Hl HI HX kt q Hkt Hq.
  assert (E : kt = m * (kt / m) + kt mod m) by (apply Nat.div_mod; lia).
  set (t := kt / m) in *. set (k := kt mod m) in *.
  assert (Hk : k < m) by (apply Nat.mod_upper_bound; lia).
  assert (Ht : t < r) by nia.
  replace (kt + m * r * q) with (k + m * (t + r * q)) by nia.
  rewrite HI by nia. rewrite DFT_dif by auto.
  apply DFT_ext. intros j Hj.
  rewrite HX by nia. unfold dif_val.
  replace (kt + m * r * j) with (k + r * j * m + t * m) by nia.
  destruct (idx_dif r m k j t) as [H1 [H2 H3]]; auto. rewrite H1, H2, H3. reflexivity.
Qed.

Lemma dif_inv_end : forall d n x X, dif_inv d n n 1 x X -> forall k, k < n -> X k = DFT d n x k.
Proof.
  intros d n x X H k Hk. specialize (H k 0 Hk ltac:(lia)).
  replace (k + n * 0) with k in H by lia. rewrite H. unfold DFT, Csum. cbn [bsum].
  replace (k + n * 0) with k by lia. rewrite Nat.mul_0_l, W_0. ring.
Qed.

Lemma pow_div : forall r p, 0 < r -> 0 < p -> r ^ p / r = r ^ (p - 1).
Proof.
  intros. replace p with (S (p - 1)) at 1 by lia. rewrite Nat.pow_succ_r', Nat.mul_comm, Nat.div_mul; lia.
Qed.

Lemma stockham_run_ok : forall r bf d p (x : list C), sbf_ok r bf -> 1 < r -> length x = r ^ p ->
  stockham_run bf r p x d = Ok (DFT_list d x).
Proof.
  intros r bf d p x Hbf Hr Hx. unfold stockham_run.
  set (xs := fun i => nth i x C0).
  destruct (for_range_inv (nat * nat * list C)
    (fun t s => let '(l, m, y) := s in
      m = r ^ (t - 1) /\ (t <= p -> l = r ^ (p - t)) /\ length y = r ^ p /\
      dif_inv d (r ^ p) m (r ^ (p - (t - 1))) xs (fun i => nth i y C0)) 1 (p + 1)
    (fun _ s =>
      let '(l, m, x) := s in
      if length x =? r ^ p then
        x <- stockham_stage bf r d l m x x ;;
        Ok (l / r, m * r, x)
      else UB)
    (r ^ p / r, 1, x)) as [[[l m] y] [E [Em [El [Ly Iy]]]]]; try lia.
  - split; auto. split. { intros. apply pow_div; lia. } split; auto.
    rewrite Nat.sub_0_r. apply dif_inv_0. auto.
  - intros t [[l m] y] Ht [Em [El [Ly Iy]]]. rewrite Ly, Nat.eqb_refl.
    assert (El' := El ltac:(lia)). clear El.
    assert (EN : r ^ p = r * l * m).
    { subst. replace p with (S (p - t) + (t - 1)) at 1 by lia. rewrite Nat.pow_add_r. simpl. lia. }
    assert (0 < m) by (subst; apply pow_pos; lia).
    assert (0 < l) by (subst; apply pow_pos; lia).
    destruct (stockham_stage_ok r bf d l m y y) as [y' [E' [L' V']]]; auto; try lia.
    rewrite E'. cbn [bind]. eexists. split; [reflexivity|]. cbn beta iota.
    replace (S t - 1) with t by lia.
    split. { rewrite Em. replace t with (S (t - 1)) at 2 by lia. simpl. lia. }
    split. { intros. rewrite El', pow_div by lia. f_equal. lia. }
    split; [lia|].
    rewrite <- El'. apply (dif_inv_step d (r ^ p) r l m xs (fun i => nth i y C0)); auto; try lia.
    replace (r * l) with (r ^ (p - (t - 1))); auto.
    rewrite El'. replace (p - (t - 1)) with (S (p - t)) by lia. auto.
  - rewrite E. cbn [bind]. f_equal. unfold DFT_list. rewrite Hx.
    apply list_eq_tab with (d := C0); auto. intros i Hi.
    rewrite Nat.add_sub in Em, Iy. rewrite Nat.sub_diag in Iy. subst m. simpl (r ^ 0) in Iy.
    apply (dif_inv_end d (r ^ p) xs (fun i => nth i y C0)); auto.
Qed.

Lemma stockham_dif3_ok : forall d p (x : list C), length x = 3 ^ p ->
  c2c_stockham_dif3_plan p x d = Ok (DFT_list d x).
Proof. intros. apply stockham_run_ok; auto using bf3_ok. Qed.
Lemma stockham_dif4_ok : forall d p (x : list C), length x = 4 ^ p ->
  c2c_stockham_dif4_plan p x d = Ok (DFT_list d x).
Proof. intros. apply stockham_run_ok; auto using bf4_ok; lia. Qed.
Lemma stockham_dif5_ok : forall d p (x : list C), length x = 5 ^ p ->
  c2c_stockham_dif5_plan p x d = Ok (DFT_list d x).
Proof. intros. apply stockham_run_ok; auto using bf5_ok; lia. Qed.
Lemma stockham_dif8_ok : forall d p (x : list C), length x = 8 ^ p ->
  c2c_stockham_dif8_plan p x d = Ok (DFT_list d x).
Proof. intros. apply stockham_run_ok; auto using bf8_ok; lia. Qed.
