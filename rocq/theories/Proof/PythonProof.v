(** The Python bindings: views, transforms, convolution. *)
From Coq Require Import Reals ZArith List Arith Bool String Lia Lra.
From Verif Require Import Base.Outcome Base.OutcomeFacts Base.Sums Base.Cplx Spec.Dft Spec.Convolution Spec.Numpy.
From Verif Require Import Model.Integers Model.Fft2 Model.Algorithm Model.Convolution Model.Units Model.FixedPoint Model.PythonBindings.
From Verif Require Import Proof.DftTheory Proof.IntegersProof Proof.AlgorithmProof Proof.Fft2Proof Proof.FftCorollaries.
From Verif Require Import Proof.DirectConvProof Proof.ConvTheory Proof.ConvCorollaries Proof.FftConvProof.
Import ListNotations.
Local Open Scope nat_scope.
Local Arguments Nat.div : simpl never.
Local Arguments Nat.modulo : simpl never.
Local Arguments Nat.pow : simpl never.
Local Arguments Z.pow : simpl never.
Local Arguments Z.quot : simpl never.
Local Arguments Z.modulo : simpl never.

(** ** Views *)

Lemma address : forall base size s q i, (s = q * size)%Z -> (0 < size)%Z -> (0 <= base + i * s < word)%Z ->
  ((base + size * ((i * ((s ÷ size) mod word)) mod word)) mod word)%Z = (base + i * s)%Z.
Proof.
  intros base size s q i Es Hs H. rewrite Es at 1. rewrite Z.quot_mul by lia.
  rewrite Z.mul_mod_idemp_r by (unfold word; lia). rewrite Z.add_mod, Z.mul_mod by (unfold word; lia).
  rewrite Z.mod_mod by (unfold word; lia). rewrite <- Z.mul_mod, <- Z.add_mod by (unfold word; lia).
  replace (base + size * (i * q))%Z with (base + i * s)%Z by (subst s; ring). apply Z.mod_small. exact H.
Qed.

Lemma stride_view : forall T (a : ndarray T) n s, vector a n s -> whole_stride a s -> nd_writeable a = true ->
  exists v, to_mdspan_layout_stride a = Ok v /\ v_extent v = n /\ view_list v = np_values a n s.
Proof.
  intros T a n s (Sh & St & Hi & Hb) [q Eq] W. unfold to_mdspan_layout_stride, has_axis0, nd_ndim, mutable_data.
  rewrite W, Sh. cbn [List.length Nat.eqb bind]. eexists. split; [reflexivity|]. split; [reflexivity|].
  unfold view_list, np_values. cbn [v_extent nth]. apply tab_ext. intros i Hn. unfold view_get. cbn [v_mem v_ptr v_itemsize v_stride].
  f_equal. unfold stride_of. rewrite St. cbn [nth]. apply (address _ _ _ q); auto; apply Hb; auto.
Qed.

Lemma as_view : forall T (a : ndarray T) n s, vector a n s -> whole_stride a s -> nd_writeable a = true ->
  exists v, as_mdspan a = Ok v /\ v_extent v = n /\ view_list v = np_values a n s.
Proof.
  intros T a n s V Ws W. destruct (stride_view T a n s V Ws W) as (v & E & En & El).
  unfold as_mdspan, nd_ndim. destruct V as (Sh & St & Hi & Hb). rewrite Sh. cbn [List.length Nat.eqb].
  assert (D : stride_of a = 1%Z -> exists v', (p <- mutable_data a ;; Ok (View (nd_mem a) p (nd_itemsize a) (nth 0 (nd_shape a) 0) 1)) = Ok v' /\
    v_extent v' = n /\ view_list v' = np_values a n s).
  { intros D. unfold mutable_data. rewrite W. cbn [bind]. eexists. split; [reflexivity|]. rewrite Sh. split; [reflexivity|].
    rewrite <- El. unfold view_list. cbn [v_extent nth]. rewrite En. apply tab_ext. intros i Hn.
    unfold to_mdspan_layout_stride, mutable_data in E. unfold has_axis0, nd_ndim in E. rewrite Sh, W in E. cbn in E. injection E as <-.
    unfold view_get. cbn [v_mem v_ptr v_itemsize v_stride]. rewrite D. reflexivity. }
  unfold as_mdspan_impl. destruct (stride_of a =? 1)%Z eqn:S1.
  - apply Z.eqb_eq in S1. rewrite !andb_true_r. destruct (nd_c_style a). { apply D; auto. } destruct (nd_f_style a). { apply D; auto. } eauto.
  - rewrite !andb_false_r. eauto.
Qed.

Lemma np_values_length : forall T (a : ndarray T) n s, List.length (np_values a n s) = n.
Proof. intros. apply tab_length. Qed.

(** An array of another element type is converted into a fresh one. *)
Lemma ensure_same : forall T cast d size (a : ndarray T) dflt, nd_dtype a = d -> ensure cast d size a dflt = a.
Proof. intros. unfold ensure. subst. destruct (nd_dtype a); reflexivity. Qed.

Lemma dtype_eqb_neq : forall a b, a <> b -> dtype_eqb a b = false.
Proof. intros [] [] H; try reflexivity; elim H; reflexivity. Qed.

Lemma ensure_other : forall T cast d size (a : ndarray T) dflt n s, nd_dtype a <> d -> vector a n s -> (0 < size)%Z -> (Z.of_nat n * size < word)%Z ->
  let b := ensure cast d size a dflt in
  vector b n size /\ whole_stride b size /\ nd_writeable b = true /\ np_values b n size = map (cast d) (np_values a n s).
Proof.
  intros T cast d size a dflt n s Hd (Sh & St & Hi & Hb) Hs Hw b. unfold b, ensure, nd_ndim. rewrite dtype_eqb_neq, Sh by auto. cbn [List.length Nat.eqb].
  assert (E : nd_elements a = np_values a n s). { unfold nd_elements, np_values. rewrite Sh, St. reflexivity. }
  rewrite E. split; [|split; [|split]].
  - repeat split; cbn [nd_shape nd_strides nd_itemsize nd_data]; auto; try (unfold word in *; nia).
  - cbn. apply Z.divide_refl.
  - reflexivity.
  - unfold np_values at 1. cbn [nd_mem nd_data]. transitivity (tab n (fun i => nth i (map (cast d) (np_values a n s)) dflt)).
    2:{ symmetry. etransitivity; [apply (tab_nth _ dflt)|]. rewrite map_length, np_values_length. reflexivity. }
    apply tab_ext. intros i Hn. rewrite Z.add_0_l, Z.div_mul, Nat2Z.id by lia. reflexivity.
Qed.

(** ** Transforms *)

Lemma single_bit_pow : forall p, has_single_bit (2 ^ p) = true.
Proof.
  intros. unfold has_single_bit. rewrite Nat.log2_pow2 by lia. rewrite Nat.eqb_refl, andb_true_r. apply Nat.ltb_lt.
  pose proof (Nat.pow_nonzero 2 p). lia.
Qed.

Lemma single_bit_inv : forall n, has_single_bit n = true -> exists p, n = 2 ^ p.
Proof. intros n H. apply andb_prop in H. destruct H as [_ H]. apply Nat.eqb_eq in H. eauto. Qed.

Lemma pow_Z : forall p k, p <= k -> (Z.of_nat (2 ^ p) <= 2 ^ Z.of_nat k)%Z.
Proof. intros. rewrite Nat2Z.inj_pow. apply Z.pow_le_mono_r; lia. Qed.

Lemma next_order_pow : forall p, p <= 62 -> next_order (2 ^ p) = Ok p.
Proof. intros p H. rewrite next_order_ok. { rewrite Nat.log2_up_pow2 by lia. reflexivity. } pose proof (pow_Z p 62 H). lia. Qed.

(** The norm factor applied by the binding. *)
Definition factor (dir : direction) (nm : norm) (size : nat) : R :=
  match dir, nm with
  | Forward, NormForward | Backward, NormBackward => 1 / INR size
  | _, NormOrtho => 1 / sqrt (INR size)
  | _, _ => 1
  end%R.

Lemma Cscale_1 : forall l, map (Cscale 1) l = l.
Proof. intros. rewrite <- (map_id l) at 2. apply map_ext. intros [a b]. unfold Cscale. cbn. f_equal; ring. Qed.

Lemma binding_fft_ok : forall raw dir (a : ndarray C) v xs n nm p, as_mdspan a = Ok v -> view_list v = xs ->
  match n with Some s => s | None => v_extent v end = 2 ^ p -> 0 < p <= 27 -> List.length xs <= 2 ^ p ->
  binding_fft raw dir a n nm = Ok (map (Cscale (factor dir nm (2 ^ p))) (DFT_list dir (xs ++ skipn (List.length xs) (tab (2 ^ p) raw)))).
Proof.
  intros raw dir a v xs n nm p Ev El Es Hp Hl. unfold binding_fft. rewrite Ev. cbn [bind]. cbv zeta. rewrite Es.
  rewrite next_order_pow by lia. cbn [bind]. rewrite single_bit_pow. cbn [negb].
  replace (2 ^ 63 <=? Z.of_nat (2 ^ p))%Z with false by (symmetry; apply Z.leb_gt; pose proof (pow_Z p 27 ltac:(lia)); lia).
  rewrite El. unfold fft_out_of_place. destruct (fft_plan_object p Hp) as (pl & Epl & Run). rewrite Epl. cbn [bind].
  rewrite copy_ok by (rewrite tab_length; lia). rewrite map_id. cbn [bind].
  rewrite Run by (rewrite app_length, skipn_length, tab_length; lia). cbn [bind].
  set (Y := DFT_list _ _). unfold factor, scale_c. destruct dir, nm; cbn [bind]; rewrite ?linalg_unary_ok; cbn [bind]; rewrite ?Cscale_1; reflexivity.
Qed.

Lemma binding_fft_UB : forall raw dir (a : ndarray C) v n nm p, as_mdspan a = Ok v ->
  match n with Some s => s | None => v_extent v end = 2 ^ p -> 0 < p <= 27 -> 2 ^ p < v_extent v ->
  binding_fft raw dir a n nm = UB.
Proof.
  intros raw dir a v n nm p Ev Es Hp Hl. unfold binding_fft. rewrite Ev. cbn [bind]. cbv zeta. rewrite Es.
  rewrite next_order_pow by lia. cbn [bind]. rewrite single_bit_pow. cbn [negb].
  replace (2 ^ 63 <=? Z.of_nat (2 ^ p))%Z with false by (symmetry; apply Z.leb_gt; pose proof (pow_Z p 27 ltac:(lia)); lia).
  unfold fft_out_of_place. destruct (fft_plan_object p Hp) as (pl & Epl & Run). rewrite Epl. cbn [bind].
  rewrite copy_too_short; [reflexivity|]. unfold view_list. rewrite !tab_length. lia.
Qed.

Lemma binding_fft_throws : forall raw dir (a : ndarray C) v n nm size, as_mdspan a = Ok v ->
  match n with Some s => s | None => v_extent v end = size -> (Z.of_nat size <= 2 ^ 63)%Z ->
  (forall p, p <= 27 -> size <> 2 ^ p) ->
  binding_fft raw dir a n nm = Throw.
Proof.
  intros raw dir a v n nm size Ev Es Hz Hs. unfold binding_fft. rewrite Ev. cbn [bind]. cbv zeta. rewrite Es.
  rewrite next_order_ok by auto. cbn [bind]. destruct (has_single_bit size) eqn:B; [|reflexivity]. cbn [negb].
  destruct (2 ^ 63 <=? Z.of_nat size)%Z; [reflexivity|]. apply single_bit_inv in B. destruct B as [p Ep].
  assert (27 < p). { destruct (le_gt_dec p 27); auto. elim (Hs p); auto. }
  unfold fft_out_of_place, make_dit2_plan, check_order, max_order. rewrite Ep, Nat.log2_up_pow2 by lia.
  destruct (Nat.ltb_spec 27 p); [reflexivity|lia].
Qed.

Lemma view_extent_length : forall T (v : view T), List.length (view_list v) = v_extent v.
Proof. intros. apply tab_length. Qed.

(** Spec factor and model factor. *)
Lemma norm_factor : forall dir nm n f, 0 < n -> np_factor dir nm n = Some f ->
  exists m, norm_mode nm = Ok m /\ factor dir m n = f.
Proof.
  intros dir nm n f Hn H. unfold np_factor in H. unfold norm_mode. assert (P : (0 < INR n)%R) by (apply lt_0_INR; auto).
  assert (Q : (sqrt (INR n) <> 0)%R) by (apply Rgt_not_eq, sqrt_lt_R0; auto).
  destruct (String.eqb nm "ortho") eqn:E1; [|destruct (String.eqb nm "backward") eqn:E2; [|destruct (String.eqb nm "forward") eqn:E3; [|discriminate]]].
  - apply String.eqb_eq in E1. subst nm. injection H as <-. exists NormOrtho. split; [reflexivity|]. destruct dir; cbn; unfold Rdiv; ring.
  - injection H as <-. exists NormBackward. split; [reflexivity|]. destruct dir; cbn; unfold Rdiv; ring.
  - injection H as <-. exists NormForward. split; [reflexivity|]. destruct dir; cbn; unfold Rdiv; ring.
Qed.

Lemma norm_throws : forall dir nm n, np_factor dir nm n = None -> norm_mode nm = Throw.
Proof.
  intros dir nm n H. unfold np_factor in H. unfold norm_mode.
  destruct (String.eqb nm "ortho"); [discriminate|]. destruct (String.eqb nm "backward"); [discriminate|].
  destruct (String.eqb nm "forward"); [discriminate|]. reflexivity.
Qed.

Lemma resolve_fft_exact : forall d, d = Complex64 \/ d = Complex128 -> resolve fft_overloads [d] = Ok d.
Proof. intros d [-> | ->]; reflexivity. Qed.

Lemma resolve_fft_other : forall d, d <> Complex64 -> d <> Complex128 -> resolve fft_overloads [d] = Ok Complex64.
Proof. intros [] A B; try reflexivity; congruence. Qed.

Lemma DFT_list_scale : forall d c x, DFT_list d (map (Cscale c) x) = map (Cscale c) (DFT_list d x).
Proof.
  intros d c x. unfold DFT_list. rewrite map_length, map_tab. apply tab_ext. intros k Hk.
  transitivity (DFT d (List.length x) (fun j => (RtoC c * nth j x C0)%C) k).
  - apply DFT_ext. intros j Hj. rewrite (nth_indep _ _ (Cscale c C0)), map_nth by (rewrite map_length; auto). apply C_eq; cbn; ring.
  - rewrite DFT_scale. apply C_eq; cbn; ring.
Qed.

Lemma factor_inverse : forall dir nm n f g, 0 < n -> np_factor dir nm n = Some f -> np_factor (flip dir) nm n = Some g -> (f * g * INR n = 1)%R.
Proof.
  intros dir nm n f g Hn F G. unfold np_factor in *. assert (P : (0 < INR n)%R) by (apply lt_0_INR; auto).
  destruct (String.eqb nm "ortho"); [|destruct (String.eqb nm "backward"); [|destruct (String.eqb nm "forward"); [|discriminate]]].
  - injection F as <-. injection G as <-. rewrite <- (sqrt_sqrt (INR n)) at 3 by lra. field. apply Rgt_not_eq, sqrt_lt_R0; auto.
  - injection F as <-. injection G as <-. destruct dir; cbn [flip]; field; lra.
  - injection F as <-. injection G as <-. destruct dir; cbn [flip]; field; lra.
Qed.

Lemma DFT_head_sum : forall d (x : list C), 0 < List.length x -> nth 0 (DFT_list d x) C0 = Csum (List.length x) (fun j => nth j x C0).
Proof.
  intros d x H. unfold DFT_list. rewrite nth_tab by auto. unfold DFT. apply Csum_ext. intros j Hj. rewrite Nat.mul_0_r, W_0. ring.
Qed.
