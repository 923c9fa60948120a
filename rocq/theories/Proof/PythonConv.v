(** The Python bindings: convolution, precision, rfftfreq. *)
From Coq Require Import Reals ZArith List Arith Bool String Lia Lra.
From Flocq Require Import Core.
From Verif Require Import Base.Outcome Base.OutcomeFacts Base.Sums Base.Cplx Spec.Dft Spec.Convolution Spec.Numpy.
From Verif Require Import Model.Integers Model.Fft2 Model.Algorithm Model.Convolution Model.Units Model.FixedPoint Model.PythonBindings.
From Verif Require Import Proof.DftTheory Proof.AlgorithmProof Proof.DirectConvProof Proof.ConvTheory Proof.ConvCorollaries Proof.FftConvProof Proof.PythonProof.
Import ListNotations.
Local Open Scope nat_scope.
Local Arguments Nat.pow : simpl never.

(** A view of the first axis of an array of any rank. *)
Lemma axis_view : forall T (a : ndarray T) n s, nth 0 (nd_shape a) 0 = n -> nth 0 (nd_strides a) 0%Z = s -> nd_ndim a <> 0 -> (0 < nd_itemsize a)%Z ->
  (forall i, i < n -> (0 <= nd_data a + Z.of_nat i * s < 2 ^ 64)%Z) -> whole_stride a s -> nd_writeable a = true ->
  exists v, to_mdspan_layout_stride a = Ok v /\ v_extent v = n /\ view_list v = np_values a n s.
Proof.
  intros T a n s Sh St Nd Hi Hb [q Eq] W. unfold to_mdspan_layout_stride, has_axis0, mutable_data. rewrite W, Sh.
  apply Nat.eqb_neq in Nd. rewrite Nd. cbn [bind]. eexists. split; [reflexivity|]. split; [reflexivity|].
  unfold view_list, np_values. cbn [v_extent]. apply tab_ext. intros i Hn. unfold view_get. cbn [v_mem v_ptr v_itemsize v_stride].
  f_equal. unfold stride_of. rewrite St. apply (address _ _ _ q); auto; apply Hb; auto.
Qed.

Definition method_of (method : string) : conv_method := if String.eqb method "fft" then MethodFft else MethodDirect.

Lemma core : forall raw x h v w xs hs method, nd_ndim x = 1 -> to_mdspan_layout_stride x = Ok v -> to_mdspan_layout_stride h = Ok w ->
  view_list v = xs -> view_list w = hs -> 0 < List.length xs + List.length hs ->
  (method = MethodFft -> 0 < List.length xs /\ 0 < List.length hs /\ 2 <= List.length xs + List.length hs - 1 <= 2 ^ max_order) ->
  binding_convolve raw method x h ModeFull = Ok (tab (List.length xs + List.length hs - 1) (lconv xs hs)).
Proof.
  intros raw x h v w xs hs method Nd Ev Ew Lx Lh Hn Hf. unfold binding_convolve. rewrite Nd, Nat.eqb_refl, Ev, Ew. cbn [negb orb bind].
  assert (Ex : v_extent v = List.length xs) by (rewrite <- Lx; symmetry; apply view_extent_length).
  assert (Eh : v_extent w = List.length hs) by (rewrite <- Lh; symmetry; apply view_extent_length).
  rewrite Ex, Eh, Lx, Lh. replace (List.length xs + List.length hs =? 0) with false by (symmetry; apply Nat.eqb_neq; lia).
  destruct method.
  - rewrite (direct_convolve_into_ok R 0%R 1%R Rplus Rmult Rminus Ropp RTheory) by (auto; apply tab_length). reflexivity.
  - destruct Hf as (H1 & H2 & H3 & H4); auto. rewrite fft_convolve_ok by auto. cbn [bind]. rewrite copy_full, map_id by (rewrite !tab_length; auto). reflexivity.
Qed.

Lemma vector_ndim : forall T (a : ndarray T) n s, vector a n s -> nd_ndim a = 1.
Proof. intros T a n s (Sh & _). unfold nd_ndim. rewrite Sh. reflexivity. Qed.

Lemma py_unfold : forall raw x h method d, resolve convolve_overloads [nd_dtype x; nd_dtype h] = Ok d ->
  py_convolve raw x h "full" method = binding_convolve raw (method_of method) (ensure cast_real d (size_of d) x 0%R) (ensure cast_real d (size_of d) h 0%R) ModeFull.
Proof.
  intros raw x h method d E. unfold py_convolve, method_of. change (convolution_mode "full") with (Ok ModeFull). cbn [bind]. rewrite E. cbn [bind]. cbv zeta.
  destruct (String.eqb method "fft"); reflexivity.
Qed.

Lemma method_fft : forall method, method_of method = MethodFft -> method = "fft"%string.
Proof. intros method H. unfold method_of in H. destruct (String.eqb method "fft") eqn:E; [apply String.eqb_eq; auto|discriminate]. Qed.

Lemma resolve_same : forall d, d = Float32 \/ d = Float64 -> resolve convolve_overloads [d; d] = Ok d.
Proof. intros d [-> | ->]; reflexivity. Qed.

Lemma convolve_same : forall raw x h n m s t method, vector x n s -> vector h m t -> whole_stride x s -> whole_stride h t ->
  nd_writeable x = true -> nd_writeable h = true -> nd_dtype x = Float32 \/ nd_dtype x = Float64 -> nd_dtype h = nd_dtype x -> 0 < n + m ->
  (method = "fft"%string -> 0 < n /\ 0 < m /\ 2 <= n + m - 1 <= 2 ^ max_order) ->
  py_convolve raw x h "full" method = Ok (tab (n + m - 1) (lconv (np_values x n s) (np_values h m t))).
Proof.
  intros raw x h n m s t method Vx Vh Sx Sh Wx Wh D Eh Hn Hf. rewrite (py_unfold raw x h method (nd_dtype x)) by (rewrite Eh; apply resolve_same; auto).
  rewrite !ensure_same by auto. destruct (stride_view R x n s Vx Sx Wx) as (v & Ev & _ & Lv). destruct (stride_view R h m t Vh Sh Wh) as (w & Ew & _ & Lw).
  rewrite (core raw x h v w _ _ _ (vector_ndim _ _ _ _ Vx) Ev Ew Lv Lw); rewrite !np_values_length; auto. intros E. apply Hf. apply method_fft. auto.
Qed.

(** An operand of any type seen as float32. *)
Lemma single_view : forall (x : ndarray R) n s, vector x n s -> whole_stride x s -> nd_writeable x = true -> (Z.of_nat n < 2 ^ 60)%Z ->
  let y := ensure cast_real Float32 (size_of Float32) x 0%R in
  nd_ndim y = 1 /\ exists v, to_mdspan_layout_stride y = Ok v /\
    view_list v = if dtype_eqb (nd_dtype x) Float32 then np_values x n s else map rnd32 (np_values x n s).
Proof.
  intros x n s V Ws W Hz y. destruct (dtype_eqb (nd_dtype x) Float32) eqn:E.
  - assert (D : nd_dtype x = Float32) by (destruct (nd_dtype x); auto; discriminate). unfold y. rewrite ensure_same by auto.
    split; [apply (vector_ndim _ _ _ _ V)|]. destruct (stride_view R x n s V Ws W) as (v & Ev & _ & Lv). eauto.
  - assert (D : nd_dtype x <> Float32) by (intros D; rewrite D in E; discriminate).
    destruct (ensure_other R cast_real Float32 (size_of Float32) x 0%R n s D V ltac:(cbn; lia) ltac:(cbn [size_of]; unfold word; lia)) as (V' & Ws' & W' & Ex). fold y in V', Ws', W', Ex.
    split; [apply (vector_ndim _ _ _ _ V')|]. destruct (stride_view R y n _ V' Ws' W') as (v & Ev & _ & Lv). exists v. split; auto. rewrite Lv, Ex. reflexivity.
Qed.

Lemma resolve_single : forall a b, ~ (a = Float64 /\ b = Float64) -> resolve convolve_overloads [a; b] = Ok Float32.
Proof. intros [] [] H; try reflexivity. elim H. auto. Qed.

Lemma convolve_single : forall raw x h n m s t method, vector x n s -> vector h m t -> whole_stride x s -> whole_stride h t ->
  nd_writeable x = true -> nd_writeable h = true -> ~ (nd_dtype x = Float64 /\ nd_dtype h = Float64) -> 0 < n + m ->
  (Z.of_nat (n + m) < 2 ^ 60)%Z ->
  (method = "fft"%string -> 0 < n /\ 0 < m /\ 2 <= n + m - 1 <= 2 ^ max_order) ->
  py_convolve raw x h "full" method =
    Ok (tab (n + m - 1) (lconv (if dtype_eqb (nd_dtype x) Float32 then np_values x n s else map rnd32 (np_values x n s))
                               (if dtype_eqb (nd_dtype h) Float32 then np_values h m t else map rnd32 (np_values h m t)))).
Proof.
  intros raw x h n m s t method Vx Vh Sx Sh Wx Wh D Hn Hz Hf. rewrite (py_unfold raw x h method Float32) by (apply resolve_single; auto).
  destruct (single_view x n s Vx Sx Wx ltac:(lia)) as (Nd & v & Ev & Lv). destruct (single_view h m t Vh Sh Wh ltac:(lia)) as (_ & w & Ew & Lw).
  set (xs := if dtype_eqb (nd_dtype x) Float32 then _ else _) in *. set (hs := if dtype_eqb (nd_dtype h) Float32 then _ else _) in *.
  assert (Ex : List.length xs = n). { unfold xs. destruct (dtype_eqb (nd_dtype x) Float32); rewrite ?map_length; apply np_values_length. }
  assert (Eh : List.length hs = m). { unfold hs. destruct (dtype_eqb (nd_dtype h) Float32); rewrite ?map_length; apply np_values_length. }
  rewrite (core raw _ _ v w xs hs _ Nd Ev Ew Lv Lw); rewrite ?Ex, ?Eh; auto. intros E. apply Hf. apply method_fft. auto.
Qed.

Lemma convolve_rejected : forall raw x h mode method, mode <> "full"%string \/ nd_ndim x <> 1 \/
  (nd_dtype x = nd_dtype h /\ (nd_dtype x = Float32 \/ nd_dtype x = Float64) /\ (nd_writeable x = false \/ nd_writeable h = false)) \/
  (exists s t, vector x 0 s /\ vector h 0 t /\ nd_dtype x = nd_dtype h /\ (nd_dtype x = Float32 \/ nd_dtype x = Float64)) ->
  py_convolve raw x h mode method = Throw.
Proof.
  intros raw x h mode method H. unfold py_convolve. destruct (convolution_mode mode) as [md| |] eqn:Em; cbn [bind]; auto.
  2:{ unfold convolution_mode in Em. repeat destruct (String.eqb _ _); discriminate. }
  assert (R : exists d, resolve convolve_overloads [nd_dtype x; nd_dtype h] = Ok d).
  { destruct (nd_dtype x), (nd_dtype h); cbn; eauto. }
  destruct R as [d Ed]. rewrite Ed. cbn [bind]. cbv zeta.
  assert (A : forall m, binding_convolve raw m (ensure cast_real d (size_of d) x 0%R) (ensure cast_real d (size_of d) h 0%R) md = Throw).
  2:{ destruct (String.eqb method "fft"); apply A. }
  intros m. assert (V : forall T (a : ndarray T), (exists v, to_mdspan_layout_stride a = Ok v) \/ to_mdspan_layout_stride a = Throw).
  { intros T a. unfold to_mdspan_layout_stride, has_axis0, mutable_data. destruct (nd_ndim a =? 0); cbn; auto. destruct (nd_writeable a); cbn; eauto. }
  unfold binding_convolve. destruct (negb (nd_ndim (ensure cast_real d (size_of d) x 0%R) =? 1) || negb (nd_ndim (ensure cast_real d (size_of d) x 0%R) =? 1)) eqn:Q; auto.
  destruct (V R (ensure cast_real d (size_of d) x 0%R)) as [[v Ev]|Ev]; rewrite Ev; cbn [bind]; auto.
  destruct (V R (ensure cast_real d (size_of d) h 0%R)) as [[w Ew]|Ew]; rewrite Ew; cbn [bind]; auto.
  destruct H as [H|[H|[(D & Rd & H)|(s & t & Vx & Vh & D & Rd)]]].
  - destruct md; auto. unfold convolution_mode in Em. destruct (String.eqb mode "full") eqn:F; [apply String.eqb_eq in F; congruence|].
    destruct (String.eqb mode "valid"); [discriminate|]. destruct (String.eqb mode "same"); discriminate.
  - exfalso. assert (E : nd_ndim (ensure cast_real d (size_of d) x 0%R) = nd_ndim x).
    { unfold ensure. destruct (dtype_eqb _ _); auto. destruct (nd_ndim x =? 1); auto. }
    rewrite E in Q. apply Nat.eqb_neq in H. rewrite H in Q. discriminate.
  - exfalso. rewrite <- D in Ed. rewrite resolve_same in Ed by auto. injection Ed as <-. rewrite !ensure_same in Ev, Ew by auto.
    unfold to_mdspan_layout_stride, has_axis0, mutable_data in Ev, Ew. destruct (nd_ndim x =? 0); [discriminate|]. destruct (nd_ndim h =? 0); [discriminate|].
    destruct H as [H|H]; rewrite H in *; discriminate.
  - destruct md; auto. rewrite <- D in Ed. rewrite resolve_same in Ed by auto. injection Ed as <-. rewrite !ensure_same in Ev, Ew by auto.
    destruct Vx as (Sx & _). destruct Vh as (Sh & _). unfold to_mdspan_layout_stride, has_axis0, mutable_data in Ev, Ew.
    rewrite Sx in Ev. rewrite Sh in Ew. destruct (nd_ndim x =? 0); [discriminate|]. destruct (nd_ndim h =? 0); [discriminate|].
    destruct (nd_writeable x); [|discriminate]. destruct (nd_writeable h); [|discriminate]. cbn in Ev, Ew. injection Ev as <-. injection Ew as <-. reflexivity.
Qed.

Lemma convolve_matrix : forall raw x h n s rows cols t u, vector x n s -> whole_stride x s -> nd_writeable x = true ->
  nd_shape h = [rows; cols] -> nd_strides h = [t; u] -> (0 < nd_itemsize h)%Z -> whole_stride h t -> nd_writeable h = true ->
  (forall i, i < rows -> (0 <= nd_data h + Z.of_nat i * t < 2 ^ 64)%Z) ->
  nd_dtype x = Float32 \/ nd_dtype x = Float64 -> nd_dtype h = nd_dtype x -> 0 < n + rows ->
  py_convolve raw x h "full" "auto" = Ok (tab (n + rows - 1) (lconv (np_values x n s) (np_values h rows t))).
Proof.
  intros raw x h n s rows cols t u Vx Sx Wx Sh St Hi Hw Wh Hb D Eh Hn. rewrite (py_unfold raw x h "auto" (nd_dtype x)) by (rewrite Eh; apply resolve_same; auto).
  rewrite !ensure_same by auto. destruct (stride_view R x n s Vx Sx Wx) as (v & Ev & _ & Lv).
  destruct (axis_view R h rows t) as (w & Ew & _ & Lw); auto; try (rewrite ?Sh, ?St; reflexivity). { unfold nd_ndim. rewrite Sh. cbn. lia. }
  rewrite (core raw x h v w _ _ _ (vector_ndim _ _ _ _ Vx) Ev Ew Lv Lw); rewrite !np_values_length; auto. intros E. discriminate.
Qed.

Lemma convolve_empty : forall raw x h n m s t, vector x n s -> vector h m t -> whole_stride x s -> whole_stride h t ->
  nd_writeable x = true -> nd_writeable h = true -> nd_dtype x = Float32 \/ nd_dtype x = Float64 -> nd_dtype h = nd_dtype x -> 0 < n + m -> n = 0 \/ m = 0 ->
  py_convolve raw x h "full" "direct" = Ok (tab (n + m - 1) (fun _ => 0%R)) /\
  py_convolve raw x h "full" "fft" = Ok (tab (n + m - 1) raw).
Proof.
  intros raw x h n m s t Vx Vh Sx Sh Wx Wh D Eh Hn H0. split.
  - rewrite (convolve_same raw x h n m s t) by (auto; discriminate). f_equal. apply tab_ext. intros k Hk. unfold lconv. apply Rsum_0. intros i Hi.
    destruct H0 as [-> | ->].
    + rewrite (nth_overflow (np_values x 0 s)) by (rewrite np_values_length; lia). ring.
    + rewrite (nth_overflow (np_values h 0 t)) by (rewrite np_values_length; lia). ring.
  - rewrite (py_unfold raw x h "fft" (nd_dtype x)) by (rewrite Eh; apply resolve_same; auto). rewrite !ensure_same by auto.
    destruct (stride_view R x n s Vx Sx Wx) as (v & Ev & En & Lv). destruct (stride_view R h m t Vh Sh Wh) as (w & Ew & Em & Lw).
    unfold binding_convolve. rewrite (vector_ndim _ _ _ _ Vx), Nat.eqb_refl, Ev, Ew. cbn [negb orb bind]. rewrite En, Em, Lv, Lw.
    replace (n + m =? 0) with false by (symmetry; apply Nat.eqb_neq; lia). change (method_of "fft") with MethodFft. cbv iota.
    rewrite fft_convolve_empty by (rewrite !np_values_length; auto). reflexivity.
Qed.

Lemma convolve_1x1 : forall raw x h s t, vector x 1 s -> vector h 1 t -> whole_stride x s -> whole_stride h t ->
  nd_writeable x = true -> nd_writeable h = true -> nd_dtype x = Float32 \/ nd_dtype x = Float64 -> nd_dtype h = nd_dtype x ->
  py_convolve raw x h "full" "fft" = UB.
Proof.
  intros raw x h s t Vx Vh Sx Sh Wx Wh D Eh. rewrite (py_unfold raw x h "fft" (nd_dtype x)) by (rewrite Eh; apply resolve_same; auto). rewrite !ensure_same by auto.
  destruct (stride_view R x 1 s Vx Sx Wx) as (v & Ev & En & Lv). destruct (stride_view R h 1 t Vh Sh Wh) as (w & Ew & Em & Lw).
  unfold binding_convolve. rewrite (vector_ndim _ _ _ _ Vx), Nat.eqb_refl, Ev, Ew. cbn [negb orb bind]. rewrite En, Em, Lv, Lw.
  change (method_of "fft") with MethodFft. cbn [Nat.add Nat.eqb]. unfold np_values. rewrite !tab_1, fft_convolve_1x1. reflexivity.
Qed.

(** ** Precision *)

Lemma rnd32_1_eps : rnd32 (1 + / 2 ^ 30) = 1%R.
Proof.
  unfold rnd32, round, F2R. cbn [Fnum Fexp].
  assert (E : cexp radix2 (FLT_exp (-149) 24) (1 + / 2 ^ 30) = (-23)%Z).
  { unfold cexp. rewrite (mag_unique_pos radix2 _ 1). { reflexivity. } cbn. lra. }
  rewrite E. replace (scaled_mantissa radix2 (FLT_exp (-149) 24) (1 + / 2 ^ 30)) with ((1 + / 2 ^ 30) * 2 ^ 23)%R.
  2:{ unfold scaled_mantissa. rewrite E. cbn. lra. }
  rewrite (Znearest_imp _ _ 8388608). { cbn. lra. } rewrite Rabs_pos_eq by lra. lra.
Qed.

Lemma rnd32_0 : rnd32 0 = 0%R.
Proof. unfold rnd32. apply round_0. apply valid_rnd_N. Qed.

Lemma rnd32_1 : rnd32 1 = 1%R.
Proof.
  unfold rnd32. apply round_generic; [apply valid_rnd_N|]. change 1%R with (bpow radix2 0). apply generic_format_bpow. cbn. lia.
Qed.
