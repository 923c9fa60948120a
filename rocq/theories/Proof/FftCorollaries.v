(** Consequences of "plan = DFT" stated for whole vectors. *)
From Coq Require Import Reals List Lia Lra Arith.
From Verif Require Import Base.Outcome Base.OutcomeFacts Base.Sums Base.Cplx.
From Verif Require Import Spec.Dft Spec.DigitRev Spec.Twisted.
From Verif Require Import Model.Fft2 Model.FftRadix Model.Stockham.
From Verif Require Import Proof.DftTheory Proof.DigitRevTheory Proof.Fft2Proof Proof.BitrevProof.
From Verif Require Import Proof.TwistedTheory Proof.StockhamProof Proof.Radix4Proof Proof.RadixProof.
Import ListNotations.
Local Open Scope nat_scope.

Lemma DFT_list_length : forall d x, length (DFT_list d x) = length x.
Proof. intros. apply tab_length. Qed.

Lemma nth_DFT_list : forall d x k, k < length x ->
  nth k (DFT_list d x) C0 = DFT d (length x) (fun j => nth j x C0) k.
Proof. intros. unfold DFT_list. rewrite nth_tab by auto. auto. Qed.

Lemma DFT_list_inv : forall d x,
  DFT_list (flip d) (DFT_list d x) = map (fun c => (RtoC (INR (length x)) * c)%C) x.
Proof.
  intros d x. unfold DFT_list at 1. rewrite DFT_list_length.
  symmetry. apply list_eq_tab with (d := C0).
  - rewrite map_length. auto.
  - intros i Hi. rewrite (DFT_ext _ _ _ (DFT d (length x) (fun j => nth j x C0))).
    2:{ intros. apply nth_DFT_list. auto. }
    rewrite DFT_inv by auto.
    rewrite <- (map_nth (fun c => (RtoC (INR (length x)) * c)%C)).
    apply nth_indep. rewrite map_length. auto.
Qed.

Lemma DFT_list_linear : forall d a b x y, length x = length y ->
  DFT_list d (tab (length x) (fun i => (a * nth i x C0 + b * nth i y C0)%C)) =
  tab (length x) (fun k => (a * nth k (DFT_list d x) C0 + b * nth k (DFT_list d y) C0)%C).
Proof.
  intros d a b x y H. unfold DFT_list at 1. rewrite tab_length. apply tab_ext. intros k Hk.
  rewrite !nth_DFT_list by lia. rewrite <- H.
  rewrite (DFT_ext _ _ _ (fun i => (a * nth i x C0 + b * nth i y C0)%C)).
  2:{ intros. rewrite nth_tab by auto. auto. }
  rewrite DFT_add, !DFT_scale. auto.
Qed.

Lemma DFT_list_parseval : forall d x,
  Rsum (length x) (fun k => Cnorm2 (nth k (DFT_list d x) C0)) =
  (INR (length x) * Rsum (length x) (fun i => Cnorm2 (nth i x C0)))%R.
Proof.
  intros. rewrite <- (DFT_parseval d). apply Rsum_ext. intros. rewrite nth_DFT_list by auto. auto.
Qed.

Lemma DFT_list_conv : forall d x y, length x = length y -> 0 < length x ->
  DFT_list d (tab (length x) (cconv (length x) (fun i => nth i x C0) (fun i => nth i y C0))) =
  tab (length x) (fun k => (nth k (DFT_list d x) C0 * nth k (DFT_list d y) C0)%C).
Proof.
  intros d x y H Hn. unfold DFT_list at 1. rewrite tab_length. apply tab_ext. intros k Hk.
  rewrite !nth_DFT_list by lia. rewrite <- H. rewrite <- DFT_cconv by auto.
  apply DFT_ext. intros. rewrite nth_tab by auto. auto.
Qed.

Lemma TDFT_list_inv : forall d p x, length x = 4 ^ p ->
  tab (4 ^ p) (TDFT (flip d) p (fun i => nth i (tab (4 ^ p) (TDFT d p (fun i => nth i x C0))) C0)) =
  map (fun c => (RtoC (INR (4 ^ p)) * c)%C) x.
Proof.
  intros d p x H. symmetry. apply list_eq_tab with (d := C0).
  - rewrite map_length. auto.
  - intros i Hi. rewrite (TDFT_ext _ _ _ (TDFT d p (fun j => nth j x C0))).
    2:{ intros. apply nth_tab. auto. }
    rewrite TDFT_inv by auto.
    rewrite <- (map_nth (fun c => (RtoC (INR (4 ^ p)) * c)%C)).
    apply nth_indep. rewrite map_length. lia.
Qed.

Lemma flip_not_DFT : forall d n, 2 < n -> exists x, length x = n /\ DFT_list (flip d) x <> DFT_list d x.
Proof.
  intros d n Hn. exists (tab n (fun i => if i =? 1 then C1 else C0)).
  split. { apply tab_length. }
  intro H. apply (f_equal (fun l => nth 1 l C0)) in H.
  rewrite !nth_DFT_list in H by (rewrite tab_length; lia).
  rewrite tab_length in H. unfold DFT in H.
  rewrite !(Csum_single n 1) in H; try lia.
  2,3: intros i Hi Hne; rewrite nth_tab by auto; destruct (Nat.eqb_spec i 1); [lia|ring].
  rewrite nth_tab in H by lia. cbn [Nat.eqb] in H. rewrite Nat.mul_1_l in H.
  assert (E : W d n 2 = C1).
  { change 2 with (1 + 1). rewrite W_add.
    assert (E : W d n 1 = W (flip d) n 1).
    { transitivity (C1 * W d n 1)%C; [ring|]. rewrite <- H. ring. }
    rewrite E at 2. apply W_flip_mul. }
  revert E. apply W_neq_1. lia.
Qed.

Lemma fft_order0_UB : forall c d, fft_plan_run 0 [c] d = UB.
Proof. intros. destruct d; reflexivity. Qed.

Lemma fft_plan_throws : forall p x d, 27 < p -> fft_plan_run p x d = Throw.
Proof.
  intros p x d H. unfold fft_plan_run, make_dit2_plan, check_order, max_order.
  destruct (Nat.ltb_spec 27 p); [reflexivity|lia].
Qed.

Lemma fft_plan_object : forall p, 0 < p <= 27 ->
  exists pl, make_dit2_plan p = Ok pl /\
    forall d x, length x = 2 ^ p -> run_dit2_plan c2c_dit2_v3 pl x d = Ok (DFT_list d x).
Proof.
  intros p Hp. eexists. split. { apply make_dit2_plan_ok. exact Hp. }
  intros d x Hx. pose proof (fft_plan_run_ok p d x Hp Hx) as H. unfold fft_plan_run in H.
  rewrite make_dit2_plan_ok in H by exact Hp. exact H.
Qed.

Lemma fft_roundtrip : forall p d x, 0 < p <= 27 -> length x = 2 ^ p ->
  exists y, fft_plan_run p x d = Ok y /\
    fft_plan_run p y (flip d) = Ok (map (fun c => (RtoC (INR (2 ^ p)) * c)%C) x).
Proof.
  intros p d x Hp Hx. exists (DFT_list d x). split. { apply fft_plan_run_ok; auto. }
  rewrite fft_plan_run_ok; auto. 2:{ rewrite DFT_list_length. auto. }
  rewrite DFT_list_inv, Hx. auto.
Qed.

Lemma fft_linear : forall p d a b x y, 0 < p <= 27 -> length x = 2 ^ p -> length y = 2 ^ p ->
  exists X Y, fft_plan_run p x d = Ok X /\ fft_plan_run p y d = Ok Y /\
    fft_plan_run p (tab (2 ^ p) (fun i => (a * nth i x C0 + b * nth i y C0)%C)) d =
    Ok (tab (2 ^ p) (fun k => (a * nth k X C0 + b * nth k Y C0)%C)).
Proof.
  intros p d a b x y Hp Hx Hy. exists (DFT_list d x), (DFT_list d y).
  split. { apply fft_plan_run_ok; auto. } split. { apply fft_plan_run_ok; auto. }
  rewrite fft_plan_run_ok; auto. 2:{ apply tab_length. }
  rewrite <- Hx, DFT_list_linear by lia. auto.
Qed.

Lemma fft_parseval : forall p d x, 0 < p <= 27 -> length x = 2 ^ p ->
  exists X, fft_plan_run p x d = Ok X /\
    Rsum (2 ^ p) (fun k => Cnorm2 (nth k X C0)) = (INR (2 ^ p) * Rsum (2 ^ p) (fun i => Cnorm2 (nth i x C0)))%R.
Proof.
  intros p d x Hp Hx. exists (DFT_list d x).
  split. { apply fft_plan_run_ok; auto. } rewrite <- Hx. apply DFT_list_parseval.
Qed.

Lemma fft_convolution : forall p d x y, 0 < p <= 27 -> length x = 2 ^ p -> length y = 2 ^ p ->
  exists X Y, fft_plan_run p x d = Ok X /\ fft_plan_run p y d = Ok Y /\
    fft_plan_run p (tab (2 ^ p) (cconv (2 ^ p) (fun i => nth i x C0) (fun i => nth i y C0))) d =
    Ok (tab (2 ^ p) (fun k => (nth k X C0 * nth k Y C0)%C)).
Proof.
  intros p d x y Hp Hx Hy. exists (DFT_list d x), (DFT_list d y).
  split. { apply fft_plan_run_ok; auto. } split. { apply fft_plan_run_ok; auto. }
  rewrite fft_plan_run_ok; auto. 2:{ apply tab_length. }
  rewrite <- Hx, DFT_list_conv; auto; try lia. rewrite Hx. apply pow_pos. lia.
Qed.

(** Kernels. *)
Lemma kernels_agree : forall p d x, 0 < p <= 27 -> length x = 2 ^ p ->
  exists pl y, make_dit2_plan p = Ok pl /\ y = DFT_list d x /\
    run_dit2_plan c2c_dit2_v1 pl x d = Ok y /\ run_dit2_plan c2c_dit2_v2 pl x d = Ok y /\
    run_dit2_plan c2c_dit2_v3 pl x d = Ok y /\ (1 < p -> run_dit2_plan c2c_dit2_v4 pl x d = Ok y).
Proof.
  intros p d x Hp Hx. eexists. exists (DFT_list d x).
  split. { apply make_dit2_plan_ok. exact Hp. } split; auto.
  assert (G : forall k, kernel_ok k p -> (pl <- make_dit2_plan p ;; run_dit2_plan k pl x d) = Ok (DFT_list d x))
    by (intros; apply run_dit2_ok; auto).
  rewrite make_dit2_plan_ok in G by exact Hp. cbn [bind] in G.
  split. { apply G, v1_ok. lia. } split. { apply G, v2_ok. lia. } split. { apply G, v3_ok. lia. }
  intros. apply G, v4_ok. auto.
Qed.

(** A raw kernel run on any vector of 2^p elements and the plan's table:
    the four kernels are the same function. *)
Lemma kernels_raw : forall p d (x : list C), 0 < p -> length x = 2 ^ p ->
  exists w y, make_twiddle_lut_radix2 (2 ^ p) d = Ok w /\
    c2c_dit2_v1 x w = Ok y /\ c2c_dit2_v2 x w = Ok y /\ c2c_dit2_v3 x w = Ok y /\
    (1 < p -> c2c_dit2_v4 x w = Ok y).
Proof.
  intros p d x Hp Hx. exists (half_lut d p).
  set (xs := fun i => nth (digit_rev 2 p i) x C0).
  exists (tab (2 ^ p) (DFT d (2 ^ p) xs)).
  assert (HX : forall i, i < 2 ^ p -> nth i x C0 = xs (digit_rev 2 p i)).
  { intros i Hi. unfold xs. rewrite digit_rev_invol by (auto; lia). auto. }
  split. { apply make_twiddle_half. auto. }
  split. { apply v1_ok; auto. } split. { apply v2_ok; auto. } split. { apply v3_ok; auto. }
  intros. apply v4_ok; auto.
Qed.

Lemma v4_order1 : forall d (a b : C), exists w,
  make_twiddle_lut_radix2 2 d = Ok w /\
  c2c_dit2_v3 [a; b] w = Ok [(a + b)%C; (a - b)%C] /\
  c2c_dit2_v4 [a; b] w = Ok [((a + b) + (a - b))%C; ((a + b) - (a - b))%C].
Proof.
  intros. exists [C1]. split.
  - assert (M := make_twiddle_half 1 d ltac:(lia)). change (2 ^ 1) with 2 in M. rewrite M.
    unfold half_lut. change (tab (2 ^ (1 - 1)) (W d (2 ^ 1))) with [W d 2 0]. rewrite W_0. auto.
  - split.
    + assert (E : forall l, c2c_dit2_v3 [a; b] l = Ok [(a + b)%C; (a - b)%C]) by (intros; reflexivity). apply E.
    + assert (E : c2c_dit2_v4 [a; b] [C1] = Ok [((a + b) + C1 * (a - b))%C; ((a + b) - C1 * (a - b))%C]) by reflexivity.
      rewrite E. f_equal. f_equal; [ring|f_equal; ring].
Qed.

(** Bit reversal. *)
Lemma bitrev_plan_ok : forall T (d : T) p (x : list T), length x = 2 ^ p ->
  exists table, bitrevorder_plan p = Ok table /\
    bitrev_apply table x = Ok (tab (2 ^ p) (fun i => nth (digit_rev 2 p i) x d)).
Proof.
  intros. eexists. split. { apply bitrevorder_plan_ok. } apply bitrev_apply_rev; auto.
Qed.

Lemma rev_twice : forall T (d : T) r p (x : list T), 0 < r -> length x = r ^ p ->
  tab (r ^ p) (fun i => nth (digit_rev r p i) (tab (r ^ p) (fun i => nth (digit_rev r p i) x d)) d) = x.
Proof.
  intros T d r p x Hr H. symmetry. apply list_eq_tab with (d := d); auto.
  intros i Hi. rewrite nth_tab by (apply digit_rev_lt; auto). rewrite digit_rev_invol; auto.
Qed.

Lemma bitrev_all_versions : forall T (d : T * T) p (x : list (T * T)), length x = 2 ^ p ->
  exists table, bitrevorder_plan p = Ok table /\
  let y := tab (2 ^ p) (fun i => nth (digit_rev 2 p i) x d) in
    bitrev_apply table x = Ok y /\ bitrev_apply table y = Ok x /\
    bitrevorder x = Ok y /\
    bitrev_apply_interleaved table (interleave x) = Ok (interleave y) /\
    bitrevorder_interleaved (interleave x) = Ok (interleave y) /\
    bitrev_apply_split table (map fst x, map snd x) = Ok (map fst y, map snd y).
Proof.
  intros T d p x H. exists (tab (2 ^ p) (digit_rev 2 p)). split. { apply bitrevorder_plan_ok. }
  intros y.
  assert (E : bitrev_apply (tab (2 ^ p) (digit_rev 2 p)) x = Ok y) by (apply bitrev_apply_rev; auto).
  split; [exact E|]. split.
  { rewrite (bitrev_apply_rev _ d). 2:{ apply tab_length. } unfold y. rewrite rev_twice; auto. }
  split. { apply bitrevorder_ok; auto. }
  split. { rewrite bitrev_apply_interleaved_hom, E. reflexivity. }
  split. { apply bitrevorder_interleaved_ok. auto. }
  change (map fst x, map snd x) with (unzip x). rewrite bitrev_apply_split_hom, E. reflexivity.
Qed.

Lemma digitrev_involution : forall T (d : T) r p (x : list T), 1 < r -> length x = r ^ p ->
  exists lut, digitrev_make r (r ^ p) = Ok lut /\
  let y := tab (r ^ p) (fun i => nth (digit_rev r p i) x d) in
    digitrev_apply lut x = Ok y /\ digitrev_apply lut y = Ok x.
Proof.
  intros T d r p x Hr H. destruct (digitrev_make_ok r p Hr) as [lut [E _]]. exists lut.
  split; auto. intros y. split. { apply digitrev_apply_ok; auto. }
  rewrite (digitrev_apply_ok _ d r p); auto. 2:{ apply tab_length. }
  unfold y. rewrite rev_twice; auto. lia.
Qed.

Lemma radix4_plans : forall d p x, 0 < p -> length x = 4 ^ p ->
  let y := tab (4 ^ p) (TDFT d p (fun i => nth i x C0)) in
  c2c_dit4_plan p x d = Ok y /\ c2c_dif4_plan p x d = Ok y /\ c2c_stockham_dit4_plan p x d = Ok y.
Proof.
  intros d p x Hp H y. split. { apply dit4_plan_ok; auto. } split. { apply dif4_plan_ok; auto. }
  apply stockham_dit4_ok; auto.
Qed.

Lemma radix4_roundtrip : forall d p x, 0 < p -> length x = 4 ^ p ->
  exists y, c2c_dit4_plan p x d = Ok y /\ c2c_dif4_plan p x d = Ok y /\ c2c_stockham_dit4_plan p x d = Ok y /\
  let z := map (fun c => (RtoC (INR (4 ^ p)) * c)%C) x in
  c2c_dit4_plan p y (flip d) = Ok z /\ c2c_dif4_plan p y (flip d) = Ok z /\
  c2c_stockham_dit4_plan p y (flip d) = Ok z.
Proof.
  intros d p x Hp H. destruct (radix4_plans d p x Hp H) as [A [B D]].
  exists (tab (4 ^ p) (TDFT d p (fun i => nth i x C0))).
  split; [exact A|]. split; [exact B|]. split; [exact D|]. intros z.
  assert (Hz := TDFT_list_inv d p x H).
  destruct (radix4_plans (flip d) p (tab (4 ^ p) (TDFT d p (fun i => nth i x C0)))) as [A' [B' D']]; auto.
  { apply tab_length. }
  rewrite Hz in A', B', D'. auto.
Qed.

Lemma radix4_not_dft : forall d p, 0 < p -> exists x y, length x = 4 ^ p /\
  c2c_dit4_plan p x d = Ok y /\ c2c_dif4_plan p x d = Ok y /\ c2c_stockham_dit4_plan p x d = Ok y /\
  y <> DFT_list d x.
Proof.
  intros d p Hp. destruct (TDFT_not_DFT d p Hp) as [x [L N]].
  exists x, (tab (4 ^ p) (TDFT d p (fun i => nth i x C0))).
  destruct (radix4_plans d p x Hp L) as [A [B D]]. auto.
Qed.

Lemma stockham2_dir : forall d p work x, length x = 2 ^ p -> length work = 2 ^ p ->
  c2c_stockham_dif2r_plan p work x d = Ok (DFT_list (flip d) x) /\
  c2c_stockham_dif2i_plan p work x d = Ok (DFT_list (flip d) x).
Proof. intros. split. apply dif2r_plan_ok; auto. apply dif2i_plan_ok; auto. Qed.

Lemma stockham2_wrong : forall d p, 1 < p -> exists x, length x = 2 ^ p /\ forall work, length work = 2 ^ p ->
  (forall y, c2c_stockham_dif2r_plan p work x d = Ok y -> y <> DFT_list d x) /\
  (forall y, c2c_stockham_dif2i_plan p work x d = Ok y -> y <> DFT_list d x).
Proof.
  intros d p Hp. destruct (flip_not_DFT d (2 ^ p)) as [x [L N]].
  { assert (2 ^ 2 <= 2 ^ p) by (apply Nat.pow_le_mono_r; lia). simpl in *. lia. }
  exists x. split; auto. intros work Hw. destruct (stockham2_dir d p work x L Hw) as [A B].
  rewrite A, B. split; intros y E; inversion E; subst; auto.
Qed.

Lemma stockham2_roundtrip : forall d p w1 w2 x, length x = 2 ^ p -> length w1 = 2 ^ p -> length w2 = 2 ^ p ->
  exists y, c2c_stockham_dif2r_plan p w1 x d = Ok y /\ c2c_stockham_dif2i_plan p w1 x d = Ok y /\
  let z := map (fun c => (RtoC (INR (2 ^ p)) * c)%C) x in
  c2c_stockham_dif2r_plan p w2 y (flip d) = Ok z /\ c2c_stockham_dif2i_plan p w2 y (flip d) = Ok z.
Proof.
  intros d p w1 w2 x H H1 H2. exists (DFT_list (flip d) x).
  destruct (stockham2_dir d p w1 x H H1) as [A B]. split; [exact A|]. split; [exact B|]. intros z.
  destruct (stockham2_dir (flip d) p w2 (DFT_list (flip d) x)) as [A' B']; auto.
  { rewrite DFT_list_length. auto. }
  rewrite DFT_list_inv in A', B'. rewrite H in A', B'. auto.
Qed.
