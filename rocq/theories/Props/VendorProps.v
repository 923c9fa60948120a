(** Property theorems C66: the FFT plans built on a vendor library, given what the library's
    documentation promises (first section of Model/VendorFft.v).
    Specification in Spec/Dft.v, Spec/Transforms.v, Spec/Views.v and Spec/Vendor.v. *)
From Coq Require Import Reals ZArith List Arith Bool Lia Lra.
From Verif Require Import Base.Outcome Base.OutcomeFacts Base.Sums Base.Cplx Spec.Dft Spec.Transforms Spec.Views Spec.Vendor.
From Verif Require Import Model.Algorithm Model.Fft2 Model.FftApps Model.VendorFft.
From Verif Require Import Proof.FftCorollaries Proof.VendorProof Proof.VendorReal Proof.RfftProof Proof.DenseConvolutionProof Props.TransformProps.
Import ListNotations.
Local Arguments Nat.pow : simpl never.
Local Arguments Nat.div : simpl never.

(** ** Complex transforms, in place: every plan state, every layout *)
Theorem C66_vdsp : forall order p x d mem, vdsp_reach order p -> vector_ok (2 ^ order) x (length mem) ->
  exists p' mem', vdsp_run p x d mem = Ok (p', mem') /\ vdsp_reach order p' /\ holds_dft d (2 ^ order) x x mem mem'.
Proof.
  intros order p x d mem H V. destruct (vdsp_run_ok order p x d mem (vdsp_reach_inv order p H) V) as [p' [m [E [_ W]]]].
  exists p', m. split; [exact E|]. split; [eapply vdsp_ran; eauto|exact W].
Qed.

Theorem C66_mkl : forall order p x d mem, mkl_reach order p -> vector_ok (2 ^ order) x (length mem) ->
  exists p' mem', mkl_run p x d mem = Ok (p', mem') /\ mkl_reach order p' /\ holds_dft d (2 ^ order) x x mem mem'.
Proof.
  intros order p x d mem H V. destruct (mkl_run_ok order p x d mem (mkl_reach_inv order p H) V) as [p' [m [E [_ W]]]].
  exists p', m. split; [exact E|]. split; [eapply mkl_ran; eauto|exact W].
Qed.

Theorem C66_ipp : forall pr order p x d mem, ipp_reach pr order p -> vector_ok (2 ^ order) x (length mem) ->
  exists p' mem', ipp_run p x d mem = Ok (p', mem') /\ ipp_reach pr order p' /\ holds_dft d (2 ^ order) x x mem mem'.
Proof.
  intros pr order p x d mem H V. destruct (ipp_run_ok order p x d mem (ipp_reach_inv pr order p H) V) as [p' [m [E [_ W]]]].
  exists p', m. split; [exact E|]. split; [eapply ipp_ran; eauto|exact W].
Qed.

(** Out of place; the operands may overlap in any way unless both are plain contiguous vectors of the same layout. *)
Theorem C66_ipp_copy : forall pr order p x y d mem, ipp_reach pr order p ->
  vector_ok (2 ^ order) x (length mem) -> vector_ok (2 ^ order) y (length mem) ->
  (vec_layout x = vec_layout y -> vec_layout x <> LayoutStride -> disjoint (2 ^ order) x y) ->
  exists p' mem', ipp_run_copy p x y d mem = Ok (p', mem') /\ ipp_reach pr order p' /\ holds_dft d (2 ^ order) x y mem mem'.
Proof.
  intros pr order p x y d mem H Vx Vy D.
  destruct (ipp_run_copy_ok order p x y d mem (ipp_reach_inv pr order p H) Vx Vy) as [p' [m [E [_ W]]]].
  { intros A. destruct (not_vectorizable2 x y A) as [Lx Ly]. apply D; auto. destruct x as [vx []], y as [vy []]; simpl in *;
      try reflexivity; try congruence; discriminate A. }
  exists p', m. split; [exact E|]. split; [eapply ipp_ran_copy; eauto|exact W].
Qed.

(** Any length from 1, in place and out of place. *)
Theorem C66_ipp_dft : forall n p x d mem, ipp_dft_reach n p -> vector_ok n x (length mem) ->
  exists p' mem', ipp_dft_run p x d mem = Ok (p', mem') /\ ipp_dft_reach n p' /\ holds_dft d n x x mem mem'.
Proof.
  intros n p x d mem H V. destruct (ipp_dft_run_ok n p x d mem (ipp_dft_reach_inv n p H) V) as [p' [m [E [_ W]]]].
  exists p', m. split; [exact E|]. split; [eapply ipp_dft_ran; eauto|exact W].
Qed.

Theorem C66_ipp_dft_copy : forall n p x y d mem, ipp_dft_reach n p -> vector_ok n x (length mem) -> vector_ok n y (length mem) ->
  (vec_layout x = vec_layout y -> vec_layout x <> LayoutStride -> disjoint n x y) ->
  exists p' mem', ipp_dft_run_copy p x y d mem = Ok (p', mem') /\ ipp_dft_reach n p' /\ holds_dft d n x y mem mem'.
Proof.
  intros n p x y d mem H Vx Vy D.
  destruct (ipp_dft_run_copy_ok n p x y d mem (ipp_dft_reach_inv n p H) Vx Vy) as [p' [m [E [_ W]]]].
  { intros A. destruct (not_vectorizable2 x y A) as [Lx Ly]. apply D; auto. destruct x as [vx []], y as [vy []]; simpl in *;
      try reflexivity; try congruence; discriminate A. }
  exists p', m. split; [exact E|]. split; [eapply ipp_dft_ran_copy; eauto|exact W].
Qed.

(** Split-complex vectors, Accelerate and IPP, in place and out of place. *)
Theorem C66_split : forall order d re im ore oim, length re = 2 ^ order -> length im = 2 ^ order ->
  length ore = 2 ^ order -> length oim = 2 ^ order ->
  let X := DFT_list d (combine re im) in
  vdsp_split_inplace order (re, im) d = Ok (map fst X, map snd X) /\
  ipp_split_inplace order (re, im) d = Ok (map fst X, map snd X) /\
  vdsp_split_copy order (re, im) (ore, oim) d = Ok (map fst X, map snd X) /\
  ipp_split_copy order (re, im) (ore, oim) d = Ok (map fst X, map snd X).
Proof.
  intros order d re im ore oim H1 H2 H3 H4 X.
  unfold vdsp_split_inplace, ipp_split_inplace, vdsp_split_copy, ipp_split_copy, lib_split_inplace.
  repeat split; apply lib_split_ok; assumption.
Qed.

(** ** The same results as the portable plan *)
Lemma whole_ok : forall n l, vector_ok n (whole n l) n.
Proof.
  intros n l. unfold vector_ok, whole, inside1, safe1, at1. cbn. repeat split; intros; lia.
Qed.

Lemma whole_written : forall T (d : T) n l f (mem mem' : list T), length mem = n -> written1 d (vec_view (whole n l)) n f mem mem' ->
  mem' = tab n f.
Proof.
  intros T d n l f mem mem' L [A [B _]]. apply list_eq_tab with (d := d); [lia|]. intros i Hi. rewrite <- (B i Hi).
  unfold whole, at1. cbn. f_equal. lia.
Qed.

Lemma whole_dft : forall n l d x mem', length x = n -> holds_dft d n (whole n l) (whole n l) x mem' -> mem' = DFT_list d x.
Proof.
  intros n l d x mem' L W. apply (whole_written _ _ _ _ _ _ _ L) in W. subst mem'. unfold DFT_list. rewrite L. apply tab_ext.
  intros k Hk. apply dft_ext. intros j Hj. unfold elem, whole, at1. cbn. f_equal. lia.
Qed.

Theorem C66_interchangeable : forall order l d x vp mp pr ip, 0 < order <= 27 -> length x = 2 ^ order ->
  vdsp_reach order vp -> mkl_reach order mp -> ipp_reach pr order ip ->
  exists y vp' mp' ip', fft_plan_run order x d = Ok y /\
    vdsp_run vp (whole (2 ^ order) l) d x = Ok (vp', y) /\
    mkl_run mp (whole (2 ^ order) l) d x = Ok (mp', y) /\
    ipp_run ip (whole (2 ^ order) l) d x = Ok (ip', y).
Proof.
  intros order l d x vp mp pr ip Ho L Hv Hm Hi.
  assert (V : vector_ok (2 ^ order) (whole (2 ^ order) l) (length x)). { rewrite L. apply whole_ok. }
  destruct (C66_vdsp order vp _ d x Hv V) as [vp' [m1 [E1 [_ W1]]]]. apply (whole_dft _ _ _ _ _ L) in W1.
  destruct (C66_mkl order mp _ d x Hm V) as [mp' [m2 [E2 [_ W2]]]]. apply (whole_dft _ _ _ _ _ L) in W2.
  destruct (C66_ipp pr order ip _ d x Hi V) as [ip' [m3 [E3 [_ W3]]]]. apply (whole_dft _ _ _ _ _ L) in W3.
  exists (DFT_list d x), vp', mp', ip'. split; [|subst; auto]. apply Fft2Proof.fft_plan_run_ok; auto.
Qed.

(** Any length: the same result as the portable arbitrary-length plan, in place and out of place. *)
Theorem C66_interchangeable_dft : forall n l d x out ip fp, 0 < n -> n * 2 + 1 <= 2 ^ 27 -> length x = n -> length out = n ->
  ipp_dft_reach n ip -> dft_reach n fp ->
  exists y ip' ip'' fp', dft_plan_run fp x d = Ok (fp', y) /\ ipp_dft_run ip (whole n l) d x = Ok (ip', y) /\
    ipp_dft_run_copy ip (Vec (View1 0 n 1) l) (Vec (View1 n n 1) l) d (x ++ out) = Ok (ip'', x ++ y).
Proof.
  intros n l d x out ip fp Hn Hm L Lo Hi Hf. destruct (C27_dft_plan n fp x d Hn Hm Hf L) as [fp' [E1 _]].
  destruct (C66_ipp_dft n ip (whole n l) d x Hi) as [ip' [m [E2 [_ W]]]]. { rewrite L. apply whole_ok. }
  apply (whole_dft _ _ _ _ _ L) in W.
  destruct (C66_ipp_dft_copy n ip (Vec (View1 0 n 1) l) (Vec (View1 n n 1) l) d (x ++ out) Hi) as [ip'' [m' [E3 [_ W']]]].
  { unfold vector_ok, inside1, safe1, at1. rewrite app_length. cbn. repeat split; intros; lia. }
  { unfold vector_ok, inside1, safe1, at1. rewrite app_length. cbn. repeat split; intros; lia. }
  { intros _ _ i j. unfold at1. cbn. lia. }
  exists (DFT_list d x), ip', ip'', fp'. split; [exact E1|]. split; [subst m; exact E2|]. rewrite E3. do 2 f_equal.
  destruct W' as [A [B Cc]]. rewrite app_length in A. assert (LD : length (DFT_list d x) = n).
  { unfold DFT_list. rewrite tab_length. exact L. }
  apply list_eq_nth with (d := C0). { rewrite app_length. lia. }
  intros i Hi'. destruct (Nat.lt_ge_cases i n) as [H|H].
  - rewrite Cc by (unfold at1; cbn; intros; lia). rewrite !app_nth1 by lia. reflexivity.
  - specialize (B (i - n)). unfold at1 in B. cbn [vec_view u_off u_s] in B. replace (n + (i - n) * 1) with i in B by lia.
    rewrite B by lia. rewrite app_nth2 by lia. rewrite L. unfold DFT_list. rewrite L, nth_tab by lia. apply dft_ext. intros j Hj.
    unfold elem, at1. cbn. rewrite app_nth1 by lia. f_equal. lia.
Qed.

(** Split-complex plans: the same result as the portable one. *)
Theorem C66_interchangeable_split : forall order d re im, 0 < order <= 30 -> length re = 2 ^ order -> length im = 2 ^ order ->
  exists pl y, make_split_plan order = Ok pl /\ split_run pl (re, im) d = Ok y /\
    vdsp_split_inplace order (re, im) d = Ok y /\ ipp_split_inplace order (re, im) d = Ok y.
Proof.
  intros order d re im Ho L1 L2. destruct (C23_split_fft order Ho) as [pl [E H]].
  destruct (H d re im L1 L2) as [E1 _]. destruct (C66_split order d re im re im L1 L2 L1 L2) as [E2 [E3 _]].
  exists pl. eexists. split; [exact E|]. split; [exact E1|]. split; [exact E2|exact E3].
Qed.

(** Which orders the constructors accept.  The float IPP plan takes one more than the others; the
    split-complex Accelerate plan has no limit of its own. *)
Theorem C66_orders : forall order, order < 64 ->
  (order <= 27 -> exists p, make_vdsp order = Ok p) /\ (27 < order -> make_vdsp order = Throw) /\
  (order <= 27 -> exists p, make_mkl order = Ok p) /\ (27 < order -> make_mkl order = Throw) /\
  (order <= 28 -> exists p, make_ipp Single order = Ok p) /\ (28 < order -> make_ipp Single order = Throw) /\
  (order <= 27 -> exists p, make_ipp Double order = Ok p) /\ (27 < order -> make_ipp Double order = Throw) /\
  (order <= 28 -> exists p, make_ipp_rfft Single order = Ok p) /\ (28 < order -> make_ipp_rfft Single order = Throw) /\
  (order <= 28 -> exists p, make_ipp_split Single order = Ok p) /\ (28 < order -> make_ipp_split Single order = Throw) /\
  (exists p, make_vdsp_split order = Ok p).
Proof.
  intros order H. unfold make_vdsp, make_mkl, make_ipp, make_ipp_rfft, make_ipp_split, make_vdsp_split, order_size, guard, ipp_max_order.
  replace (order <? 64) with true by (symmetry; apply Nat.ltb_lt; exact H). cbn [bind].
  destruct (Nat.ltb_spec 27 order), (Nat.ltb_spec 28 order); repeat split; intros; try lia; try reflexivity; eexists; reflexivity.
Qed.

(** Order 0 is a one-point transform for the vendor plans; the portable plan reads out of range. *)
Theorem C66_order_zero : forall vp mp pr ip c d, vdsp_reach 0 vp -> mkl_reach 0 mp -> ipp_reach pr 0 ip ->
  exists vp' mp' ip', vdsp_run vp (whole 1 LayoutRight) d [c] = Ok (vp', [c]) /\ mkl_run mp (whole 1 LayoutRight) d [c] = Ok (mp', [c]) /\
    ipp_run ip (whole 1 LayoutRight) d [c] = Ok (ip', [c]) /\ fft_plan_run 0 [c] d = UB.
Proof.
  intros vp mp pr ip c d Hv Hm Hi.
  assert (V : vector_ok (2 ^ 0) (whole 1 LayoutRight) (length [c])) by apply (whole_ok 1).
  assert (One : DFT_list d [c] = [c]).
  { unfold DFT_list. cbn. f_equal. unfold DFT, Csum. cbn [bsum Nat.mul length]. rewrite DftTheory.W_0. apply C_eq; simpl; ring. }
  destruct (C66_vdsp 0 vp _ d [c] Hv V) as [vp' [m1 [E1 [_ W1]]]]. apply (whole_dft 1 LayoutRight d [c]) in W1; [|reflexivity].
  destruct (C66_mkl 0 mp _ d [c] Hm V) as [mp' [m2 [E2 [_ W2]]]]. apply (whole_dft 1 LayoutRight d [c]) in W2; [|reflexivity].
  destruct (C66_ipp pr 0 ip _ d [c] Hi V) as [ip' [m3 [E3 [_ W3]]]]. apply (whole_dft 1 LayoutRight d [c]) in W3; [|reflexivity].
  exists vp', mp', ip'. rewrite One in *. subst. split; [exact E1|]. split; [exact E2|]. split; [exact E3|]. apply fft_order0_UB.
Qed.

(** ** Real transforms (IPP) *)
Theorem C66_ipp_rfft : forall pr order p x mem y omem, ipp_rfft_reach pr order p ->
  vector_ok (2 ^ order) x (length mem) -> vector_ok (2 ^ order / 2 + 1) y (length omem) ->
  exists p' omem', ipp_rfft_forward p x mem y omem = Ok (p', omem') /\ ipp_rfft_reach pr order p' /\
    written1 C0 (vec_view y) (2 ^ order / 2 + 1) (DFT Forward (2 ^ order) (fun j => RtoC (elem 0%R x mem j))) omem omem'.
Proof.
  intros pr order p x mem y omem H Vx Vy.
  destruct (ipp_rfft_forward_ok order p x mem y omem (ipp_rfft_reach_inv pr order p H) Vx Vy) as [p' [o [E [_ W]]]].
  exists p', o. split; [exact E|]. split; [eapply ipp_rfft_fwd; eauto|exact W].
Qed.

Theorem C66_ipp_irfft : forall pr order p c x mem y omem, 0 < order -> ipp_rfft_reach pr order p ->
  2 ^ order / 2 + 1 <= c <= 2 ^ order -> vector_ok c x (length mem) -> vector_ok (2 ^ order) y (length omem) ->
  exists p' omem', ipp_rfft_backward p x mem y omem = Ok (p', omem') /\ ipp_rfft_reach pr order p' /\
    written1 0%R (vec_view y) (2 ^ order) (IRDFT (2 ^ (order - 1)) (elem C0 x mem)) omem omem'.
Proof.
  intros pr order p c x mem y omem Ho H Hc Vx Vy.
  destruct (ipp_rfft_backward_ok order p c x mem y omem Ho (ipp_rfft_reach_inv pr order p H) Hc Vx Vy) as [p' [o [E [_ W]]]].
  exists p', o. split; [exact E|]. split; [eapply ipp_rfft_bwd; eauto|exact W].
Qed.

(** The same results as the portable real plan, in both directions. *)
Theorem C66_interchangeable_real : forall pr order ip fp l l' (x : list R) (X : list C) out out2,
  0 < order -> ipp_rfft_reach pr order ip -> rfft_reach order fp ->
  length x = 2 ^ order -> length out = 2 ^ order / 2 + 1 -> length X = 2 ^ order / 2 + 1 -> length out2 = 2 ^ order ->
  (exists y ip' fp', rfft_forward fp x out = Ok (fp', y) /\
     ipp_rfft_forward ip (whole (2 ^ order) l) x (whole (2 ^ order / 2 + 1) l') out = Ok (ip', y)) /\
  (exists y ip' fp', rfft_backward fp X out2 = Ok (fp', y) /\
     ipp_rfft_backward ip (whole (2 ^ order / 2 + 1) l') X (whole (2 ^ order) l) out2 = Ok (ip', y)).
Proof.
  intros pr order ip fp l l' x X out out2 Ho Hi Hf Lx Lo LX Lo2.
  destruct (half_le order Ho) as [Hh _]. split.
  - destruct (C24_rfft_forward order fp x out Ho Hf Lx Lo) as [fp' E1].
    destruct (C66_ipp_rfft pr order ip (whole (2 ^ order) l) x (whole (2 ^ order / 2 + 1) l') out Hi) as [ip' [o [E2 [_ W]]]].
    { rewrite Lx. apply whole_ok. } { rewrite Lo. apply whole_ok. }
    apply (whole_written _ _ _ _ _ _ _ Lo) in W. exists (RDFT_list Forward x), ip', fp'. split; [exact E1|]. rewrite E2, W.
    unfold RDFT_list. rewrite Lx. do 2 f_equal. apply tab_ext. intros k Hk. apply dft_ext. intros j Hj.
    unfold elem, whole, at1. cbn. do 2 f_equal. lia.
  - destruct (C25_irfft order fp X out2 Ho Hf) as [fp' E1]; [lia|exact Lo2|].
    destruct (C66_ipp_irfft pr order ip (2 ^ order / 2 + 1) (whole (2 ^ order / 2 + 1) l') X (whole (2 ^ order) l) out2 Ho Hi) as [ip' [o [E2 [_ W]]]].
    { lia. } { rewrite LX. apply whole_ok. } { rewrite Lo2. apply whole_ok. }
    apply (whole_written _ _ _ _ _ _ _ Lo2) in W. eexists. exists ip', fp'. split; [exact E1|]. rewrite E2, W.
    do 2 f_equal. apply tab_ext. intros k Hk. apply irdft_ext. intros j Hj. unfold elem, whole, at1. cbn. f_equal. lia.
Qed.

(** ** The IPP cosine transform *)
Theorem C66_ipp_dct : forall order p x mem, ipp_dct_reach order p -> vector_ok (2 ^ order) x (length mem) ->
  exists p' mem', ipp_dct_run Forward p x mem = Ok (p', mem') /\ ipp_dct_reach order p' /\
    written1 0%R (vec_view x) (2 ^ order) (DCT2_ortho (2 ^ order) (elem 0%R x mem)) mem mem'.
Proof.
  intros order p x mem H V. destruct (ipp_dct_run_ok Forward order p x mem (ipp_dct_reach_inv order p H) V) as [p' [m [E [_ W]]]].
  exists p', m. split; [exact E|]. split; [eapply ipp_dct_ran; eauto|]. eapply written1_ext; [|exact W].
  intros i Hi. apply dct2_ortho. apply pow2_pos.
Qed.

(** DCT-III after DCT-II restores the vector. *)
Theorem C66_ipp_dct_round_trip : forall order p2 p3 x mem, ipp_dct_reach order p2 -> ipp_dct_reach order p3 ->
  vector_ok (2 ^ order) x (length mem) ->
  exists p2' p3' m, ipp_dct_run Forward p2 x mem = Ok (p2', m) /\ ipp_dct_run Backward p3 x m = Ok (p3', mem).
Proof.
  intros order p2 p3 x mem H2 H3 V.
  destruct (ipp_dct_run_ok Forward order p2 x mem (ipp_dct_reach_inv order p2 H2) V) as [p2' [m [E2 [_ W2]]]].
  assert (Lm : length m = length mem) by apply W2.
  destruct (ipp_dct_run_ok Backward order p3 x m (ipp_dct_reach_inv order p3 H3)) as [p3' [m' [E3 [_ W3]]]]. { rewrite Lm. exact V. }
  exists p2', p3', m. split; [exact E2|]. rewrite E3. do 2 f_equal.
  destruct W2 as [_ [B2 C2]]. destruct W3 as [A3 [B3 C3]]. apply list_eq_nth with (d := 0%R); [lia|]. intros i Hi.
  destruct (existsb (fun k => Nat.eqb i (at1 (vec_view x) k)) (seq 0 (2 ^ order))) eqn:Ex.
  - apply existsb_exists in Ex. destruct Ex as [k [Hk Ek]]. apply in_seq in Hk. apply Nat.eqb_eq in Ek. subst i.
    rewrite B3 by lia. change (nth (at1 (vec_view x) k) mem 0%R) with (elem 0%R x mem k).
    etransitivity; [|apply (dct3_dct2 (2 ^ order) (elem 0%R x mem) k); lia]. apply Rsum_ext.
    intros j Hj. do 2 f_equal. unfold elem at 1. rewrite B2 by exact Hj. reflexivity.
  - assert (N : forall k, k < 2 ^ order -> i <> at1 (vec_view x) k).
    { intros k Hk Ek. assert (existsb (fun k => Nat.eqb i (at1 (vec_view x) k)) (seq 0 (2 ^ order)) = true); [|congruence].
      apply existsb_exists. exists k. split; [apply in_seq; lia|apply Nat.eqb_eq; exact Ek]. }
    rewrite C3, C2 by exact N. reflexivity.
Qed.

(** The portable cosine transform is scaled differently: it is never the same function. *)
Theorem C66_dct_interchangeable_refuted : forall order ip fp, 0 < order -> ipp_dct_reach order ip -> dct_reach order fp ->
  exists x y z ip' fp', length x = 2 ^ order /\
    ipp_dct_run Forward ip (whole (2 ^ order) LayoutRight) x = Ok (ip', y) /\ dct_run fp x = Ok (fp', z) /\ y <> z /\
    forall k, k < 2 ^ order -> nth k z 0%R = (nth k y 0 * (2 / sqrt ((if Nat.eqb k 0 then 1 else 2) / INR (2 ^ order))))%R.
Proof.
  intros order ip fp Ho Hi Hf. set (n := 2 ^ order). assert (Hn : 0 < n) by apply pow2_pos.
  assert (Hn' : (0 < INR n)%R) by (apply lt_0_INR; exact Hn).
  set (x := repeat 1%R n).
  assert (Lx : length x = n) by apply repeat_length.
  destruct (C66_ipp_dct order ip (whole n LayoutRight) x Hi) as [ip' [y [E1 [_ W]]]]. { rewrite Lx. apply whole_ok. }
  apply (whole_written _ _ _ _ _ _ _ Lx) in W.
  destruct (C33_dct order fp x Ho Hf Lx) as [fp' E2].
  exists x, y. eexists. exists ip', fp'. split; [exact Lx|]. split; [exact E1|]. split; [exact E2|]. fold n.
  assert (Rel : forall k, k < n -> nth k (tab n (DCT2 n (fun i => nth i x 0%R))) 0%R =
    (nth k y 0 * (2 / sqrt ((if Nat.eqb k 0 then 1 else 2) / INR n)))%R).
  { intros k Hk. rewrite W. fold n. rewrite !nth_tab by exact Hk. unfold DCT2, DCT2_ortho.
    assert (S : (0 < sqrt ((if Nat.eqb k 0 then 1 else 2) / INR n))%R).
    { apply sqrt_lt_R0. destruct (Nat.eqb k 0); apply Rdiv_lt_0_compat; lra. }
    set (s := sqrt _) in *.
    rewrite (Rsum_ext n (fun i => elem 0%R (whole n LayoutRight) x i * cos (PI * INR k * INR (2 * i + 1) / INR (2 * n)))%R
      (fun i => nth i x 0 * cos (PI * INR k * INR (2 * i + 1) / INR (2 * n)))%R).
    2:{ intros i Hii. f_equal. unfold elem, whole, at1. cbn. f_equal. lia. }
    field. lra. }
  split; [|exact Rel]. intros Eq.
  assert (Y0 : nth 0 y 0%R = (sqrt (1 / INR n) * INR n)%R).
  { rewrite W. fold n. rewrite nth_tab by exact Hn. unfold DCT2_ortho. cbn [Nat.eqb]. f_equal.
    rewrite (Rsum_ext n _ (fun _ => 1%R)); [rewrite Rsum_const; lra|]. intros i Hi'. unfold elem, whole, at1. cbn [vec_view u_off u_s].
    unfold x. rewrite Proof.DenseConvolutionProof.nth_repeat_lt by lia. cbn [INR]. unfold Rdiv. rewrite Rmult_0_r, !Rmult_0_l, cos_0. lra. }
  pose proof (Rel 0 Hn) as R0. rewrite <- Eq, Y0 in R0. cbn [Nat.eqb] in R0.
  assert (S : (0 < sqrt (1 / INR n))%R). { apply sqrt_lt_R0. apply Rdiv_lt_0_compat; lra. }
  assert (S1 : (sqrt (1 / INR n) <= 1)%R).
  { replace 1%R with (sqrt 1) at 2 by apply sqrt_1. apply sqrt_le_1_alt. apply (Rmult_le_reg_r (INR n)); [exact Hn'|].
    replace (1 / INR n * INR n)%R with 1%R by (field; lra). rewrite Rmult_1_l. apply (le_INR 1). lia. }
  set (s := sqrt (1 / INR n)) in *. assert (2 / s = 1)%R.
  { apply (Rmult_eq_reg_l (s * INR n)). 2:{ apply Rmult_integral_contrapositive. split; lra. } rewrite Rmult_1_r. symmetry. exact R0. }
  assert (2 = s)%R. { replace 2%R with (2 / s * s)%R by (field; lra). rewrite H. lra. } lra.
Qed.

(** ** scale through BLAS *)
Theorem C66_scale : forall T (d : T) bits op x mem, (2 <= bits)%Z -> vector_ok (u_size (vec_view x)) x (length mem) ->
  (Z.of_nat (u_size (vec_view x)) < 2 ^ (bits - 1))%Z ->
  exists mem', scale_blas bits op x mem = Ok mem' /\
    written1 d (vec_view x) (u_size (vec_view x)) (fun i => op (elem d x mem i)) mem mem'.
Proof. exact scale_blas_ok. Qed.

(** With 32-bit BLAS integers a contiguous vector of 2^31 to 2^32 - 1 elements is left as it is. *)
Theorem C66_scale_long_refuted : forall T (op : T -> T) x mem, vec_layout x <> LayoutStride ->
  (2 ^ 31 <= Z.of_nat (u_size (vec_view x)) < 2 ^ 32)%Z -> scale_blas 32 op x mem = Ok mem.
Proof.
  intros T op x mem L H. apply scale_blas_wraps; [lia| |exact H]. destruct x as [v []]; simpl in *; try reflexivity. congruence.
Qed.

(** ** The hypotheses are met *)
Example C66_hypotheses : exists vp mp ip dp rp cp,
  vdsp_reach 2 vp /\ mkl_reach 2 mp /\ ipp_reach Single 2 ip /\ ipp_dft_reach 3 dp /\ ipp_rfft_reach Double 2 rp /\ ipp_dct_reach 2 cp /\
  vector_ok 4 (Vec (View1 1 4 2) LayoutStride) 8 /\ vector_ok 4 (Vec (View1 3 4 1) LayoutLeft) 7 /\
  disjoint 4 (Vec (View1 0 4 1) LayoutRight) (Vec (View1 4 4 1) LayoutRight) /\
  exists p' mem', mkl_run mp (Vec (View1 1 4 2) LayoutStride) Backward (map RtoC [0; 1; 2; 3; 4; 5; 6; 7]%R) = Ok (p', mem') /\
    nth 1 mem' C0 = RtoC 16 /\ nth 2 mem' C0 = RtoC 2.
Proof.
  do 6 eexists. split; [apply vdsp_made; reflexivity|]. split; [apply mkl_made; reflexivity|]. split; [apply ipp_made; reflexivity|].
  split; [apply ipp_dft_made; reflexivity|]. split; [apply ipp_rfft_made; reflexivity|]. split; [apply ipp_dct_made; reflexivity|].
  assert (V : vector_ok 4 (Vec (View1 1 4 2) LayoutStride) 8).
  { unfold vector_ok, inside1, safe1, at1. cbn. repeat split; intros; try lia. congruence. }
  split; [exact V|].
  split. { unfold vector_ok, inside1, safe1, at1. cbn. repeat split; intros; lia. }
  split. { unfold disjoint, at1. cbn. intros. lia. }
  destruct (C66_mkl 2 (MklPlan 2 (repeat C0 (2 ^ 2))) (Vec (View1 1 4 2) LayoutStride) Backward (map RtoC [0; 1; 2; 3; 4; 5; 6; 7]%R))
    as [p' [m [E [_ [_ [B Cc]]]]]]. { apply mkl_made. reflexivity. } { exact V. }
  exists p', m. split; [exact E|]. split.
  - specialize (B 0). unfold at1 in B. cbn [vec_view u_off u_s Nat.mul Nat.add] in B. rewrite B by (vm_compute; lia).
    unfold DFT, Csum. change (2 ^ 2) with 4. cbn [bsum]. rewrite !Nat.mul_0_r, DftTheory.W_0.
    unfold elem, at1. cbn. apply C_eq; simpl; ring.
  - rewrite Cc. { reflexivity. } intros i Hi. unfold at1. cbn. lia.
Qed.

Print Assumptions C66_vdsp.
Print Assumptions C66_mkl.
Print Assumptions C66_ipp.
Print Assumptions C66_ipp_copy.
Print Assumptions C66_ipp_dft.
Print Assumptions C66_ipp_dft_copy.
Print Assumptions C66_split.
Print Assumptions C66_interchangeable.
Print Assumptions C66_interchangeable_dft.
Print Assumptions C66_interchangeable_split.
Print Assumptions C66_orders.
Print Assumptions C66_order_zero.
Print Assumptions C66_ipp_rfft.
Print Assumptions C66_ipp_irfft.
Print Assumptions C66_interchangeable_real.
Print Assumptions C66_ipp_dct.
Print Assumptions C66_ipp_dct_round_trip.
Print Assumptions C66_dct_interchangeable_refuted.
Print Assumptions C66_scale.
Print Assumptions C66_scale_long_refuted.
