(** Proofs about the vendor FFT plans. *)
From Coq Require Import Reals ZArith List Arith Bool Lia Lra.
From Verif Require Import Base.Outcome Base.OutcomeFacts Base.Sums Base.Cplx Spec.Dft Spec.Transforms Spec.Views Spec.Vendor.
From Verif Require Import Model.Algorithm Model.VendorFft Proof.AlgorithmProof.
Import ListNotations.
Local Arguments Nat.pow : simpl never.
Local Arguments Nat.div : simpl never.

Lemma gather_ok : forall T (d : T) v mem buf, length buf = u_size v -> inside1 v (u_size v) (length mem) ->
  gather v mem buf = Ok (tab (u_size v) (fun i => nth (at1 v i) mem d)).
Proof.
  intros T d v mem buf L I. unfold gather. apply for_range_tab with (d := d); [auto|].
  intros j l Hj Hl _. rewrite (rd_ok _ _ _ d) by (apply I; exact Hj). cbn [bind]. apply wr_ok. lia.
Qed.

Lemma put_back_ok : forall T (d : T) buf v mem, inside1 v (length buf) (length mem) -> safe1 v v (length buf) ->
  exists mem', put_back buf v mem = Ok mem' /\ written1 d v (length buf) (fun i => nth i buf d) mem mem'.
Proof.
  intros T d buf v mem I S. unfold put_back. apply scatter1; auto. intros k m Hk Hm _.
  rewrite (rd_ok _ _ _ d) by exact Hk. cbn [bind]. apply wr_ok. rewrite Hm. apply I. exact Hk.
Qed.

Lemma written1_ext : forall T (d : T) v n f g mem mem', (forall i, i < n -> f i = g i) ->
  written1 d v n f mem mem' -> written1 d v n g mem mem'.
Proof. intros T d v n f g mem mem' H [A [B C]]. split; [exact A|]. split; [|exact C]. intros i Hi. rewrite B by exact Hi. auto. Qed.

Lemma dft_list_tab : forall d n f, DFT_list d (tab n f) = tab n (DFT d n f).
Proof.
  intros d n f. unfold DFT_list. rewrite tab_length. apply tab_ext. intros k Hk. unfold DFT. apply Csum_ext.
  intros j Hj. rewrite nth_tab by exact Hj. reflexivity.
Qed.

Lemma dft_ext : forall d n f g k, (forall j, j < n -> f j = g j) -> DFT d n f k = DFT d n g k.
Proof. intros d n f g k H. unfold DFT. apply Csum_ext. intros j Hj. rewrite H by exact Hj. reflexivity. Qed.

Lemma last_inside : forall n v len, 0 < n -> u_s v = 1 -> inside1 v n len -> u_off v + n <= len.
Proof. intros n v len Hn Hs I. specialize (I (n - 1) ltac:(lia)). unfold at1 in I. rewrite Hs in I. lia. Qed.

(** Writing a list at consecutive cells. *)
Lemma splice_written : forall T (d : T) v (s mem : list T), u_s v = 1 -> u_off v + length s <= length mem ->
  exists mem', splice mem (u_off v) s = Ok mem' /\ written1 d v (length s) (fun i => nth i s d) mem mem'.
Proof.
  intros T d v s mem Hs H. destruct (splice_spec T d mem s (u_off v) H) as [m [E [L N]]]. exists m. split; [exact E|].
  split; [exact L|]. unfold at1. rewrite Hs. split.
  - intros i Hi. rewrite N. replace (u_off v <=? u_off v + i * 1) with true by (symmetry; apply Nat.leb_le; lia).
    replace (u_off v + i * 1 <? u_off v + length s) with true by (symmetry; apply Nat.ltb_lt; lia). simpl. f_equal. lia.
  - intros l Hl. rewrite N. destruct (Nat.leb_spec (u_off v) l); [|reflexivity].
    destruct (Nat.ltb_spec l (u_off v + length s)); [|reflexivity]. exfalso. apply (Hl (l - u_off v)); lia.
Qed.

Lemma slice_at1 : forall T (d : T) v n (mem : list T), u_s v = 1 -> u_off v + n <= length mem ->
  slice mem (u_off v) (u_off v + n) = Ok (tab n (fun i => nth (at1 v i) mem d)).
Proof.
  intros T d v n mem Hs H. rewrite (slice_spec _ d) by lia. f_equal. replace (u_off v + n - u_off v) with n by lia.
  apply tab_ext. intros i Hi. unfold at1. rewrite Hs. f_equal. lia.
Qed.

Lemma lib_c2c_inplace_ok : forall n d v mem, 0 < n -> u_s v = 1 -> inside1 v n (length mem) ->
  exists mem', lib_c2c_inplace n d (u_off v) mem = Ok mem' /\
    written1 C0 v n (DFT d n (fun j => nth (at1 v j) mem C0)) mem mem'.
Proof.
  intros n d v mem Hn Hs I. pose proof (last_inside n v _ Hn Hs I) as L. unfold lib_c2c_inplace.
  rewrite (slice_at1 _ C0) by auto. cbn [bind]. rewrite dft_list_tab.
  destruct (splice_written _ C0 v (tab n (DFT d n (fun j => nth (at1 v j) mem C0))) mem Hs) as [m [E W]].
  { rewrite tab_length. exact L. }
  exists m. split; [exact E|]. rewrite tab_length in W. eapply written1_ext; [|exact W]. intros i Hi. cbv beta. apply nth_tab. exact Hi.
Qed.

(** On a buffer of exactly the transform's length. *)
Lemma lib_c2c_buffer : forall n d f, lib_c2c_inplace n d 0 (tab n f) = Ok (tab n (DFT d n f)).
Proof.
  intros n d f. unfold lib_c2c_inplace. rewrite (slice_spec _ C0) by (rewrite ?tab_length; lia). cbn [bind].
  replace (0 + n - 0) with n by lia. rewrite dft_list_tab. unfold splice. rewrite !tab_length.
  replace (0 + n <=? n) with true by (symmetry; apply Nat.leb_le; lia). f_equal.
  rewrite skipn_all2 by (rewrite tab_length; lia). rewrite app_nil_r. simpl firstn. simpl app.
  apply tab_ext. intros k Hk. apply dft_ext. intros j Hj. apply nth_tab. exact Hj.
Qed.

Lemma not_vectorizable1 : forall x, always_vectorizable [x] = true -> vec_layout x <> LayoutStride.
Proof. intros [v []]; unfold always_vectorizable; simpl; congruence. Qed.
Lemma not_vectorizable2 : forall x y, always_vectorizable [x; y] = true -> vec_layout x <> LayoutStride /\ vec_layout y <> LayoutStride.
Proof. intros [v []] [u []]; unfold always_vectorizable; simpl; split; congruence. Qed.

Lemma pow2_pos : forall p, 0 < 2 ^ p.
Proof. intros p. pose proof (Nat.pow_nonzero 2 p). lia. Qed.

(** Buffered path shared by MKL and IPP. *)
Lemma buffered : forall n d inp out mem buf, vector_ok n inp (length mem) -> vector_ok n out (length mem) -> length buf = n ->
  exists buf1 buf2 mem', gather (vec_view inp) mem buf = Ok buf1 /\ lib_c2c_inplace n d 0 buf1 = Ok buf2 /\
    put_back buf2 (vec_view out) mem = Ok mem' /\ length buf2 = n /\ holds_dft d n inp out mem mem'.
Proof.
  intros n d inp out mem buf [Si [Ii _]] [So [Io [Do _]]] Hb.
  rewrite (gather_ok _ C0) by (rewrite Si; auto). rewrite Si.
  eexists. eexists.
  destruct (put_back_ok _ C0 (tab n (DFT d n (elem C0 inp mem))) (vec_view out) mem) as [m [E W]]; rewrite ?tab_length; auto.
  exists m. split; [reflexivity|]. split; [apply lib_c2c_buffer|]. split; [exact E|]. split; [reflexivity|].
  rewrite tab_length in W. unfold holds_dft. eapply written1_ext; [|exact W]. intros i Hi. apply nth_tab. exact Hi.
Qed.

Lemma combined_length : forall (re im : list R) n, length re = n -> length im = n -> @length C (combine re im) = n.
Proof. intros re im n Hr Hi. transitivity (Nat.min (length re) (length im)); [apply (combine_length re im)|lia]. Qed.

(** ** Accelerate *)
Definition vdsp_inv (order : nat) (p : vdsp_plan) : Prop :=
  vd_order p = order /\ length (fst (vd_in p)) = 2 ^ order /\ length (snd (vd_in p)) = 2 ^ order /\
  length (fst (vd_out p)) = 2 ^ order /\ length (snd (vd_out p)) = 2 ^ order.

Lemma make_vdsp_inv : forall order p, make_vdsp order = Ok p -> vdsp_inv order p.
Proof.
  intros order p E. unfold make_vdsp, order_size, guard in E. destruct (order <? 64); [|discriminate E]. cbn [bind] in E.
  destruct (27 <? order); [discriminate E|]. injection E as <-. unfold vdsp_inv. cbn. rewrite !repeat_length. auto.
Qed.

Lemma lib_split_ok : forall n d re im out, length re = n -> length im = n -> length (fst out) = n -> length (snd out) = n ->
  lib_split_copy n d (re, im) out =
    Ok (map fst (DFT_list d (combine re im)), map snd (DFT_list d (combine re im))).
Proof.
  intros n d re im out Hr Hi Ho1 Ho2. unfold lib_split_copy. cbn [fst snd].
  assert (SL : forall l : list R, length l = n -> slice l 0 n = Ok l).
  { intros l Hl. rewrite slice_ok by lia. rewrite Nat.sub_0_r. cbn [skipn]. rewrite <- Hl, firstn_all. reflexivity. }
  assert (SP : forall o s : list R, length o = n -> length s = n -> splice o 0 s = Ok s).
  { intros o s H1 H2. unfold splice. rewrite H1, H2. replace (0 + n <=? n) with true by (symmetry; apply Nat.leb_le; lia).
    rewrite skipn_all2 by lia. rewrite app_nil_r. reflexivity. }
  rewrite SL by exact Hr. cbn [bind]. rewrite SL by exact Hi. cbn [bind].
  assert (Ly : length (DFT_list d (combine re im)) = n). { unfold DFT_list. rewrite tab_length. apply combined_length; assumption. }
  rewrite SP by (rewrite ?map_length; auto). cbn [bind]. rewrite SP by (rewrite ?map_length; auto). reflexivity.
Qed.

Lemma vdsp_run_ok : forall order p x d mem, vdsp_inv order p -> vector_ok (2 ^ order) x (length mem) ->
  exists p' mem', vdsp_run p x d mem = Ok (p', mem') /\ vdsp_inv order p' /\ holds_dft d (2 ^ order) x x mem mem'.
Proof.
  intros order p x d mem [O [L1 [L2 [L3 L4]]]] [Sx [Ix [Dx _]]]. unfold vdsp_run. rewrite O, Sx. set (n := 2 ^ order) in *.
  destruct (for_range_inv _ (fun k (s : list R * list R) => length (fst s) = n /\ length (snd s) = n /\
     forall i, i < k -> nth i (fst s) 0%R = fst (elem C0 x mem i) /\ nth i (snd s) 0%R = snd (elem C0 x mem i)) 0 n
    (fun i s => c <- rd mem (at1 (vec_view x) i) ;; re <- wr (fst s) i (fst c) ;; im <- wr (snd s) i (snd c) ;; Ok (re, im))
    (vd_in p)) as [[re im] [E [Lr [Li V]]]]; try lia.
  - repeat split; auto; lia.
  - intros j [re im] Hj [Lr [Li V]]. cbn [fst snd] in *. rewrite (rd_ok _ _ _ C0) by (apply Ix; lia). cbn [bind].
    rewrite wr_ok by lia. cbn [bind]. rewrite wr_ok by lia. cbn [bind]. eexists. split; [reflexivity|]. cbn [fst snd].
    rewrite !upd_length. split; [exact Lr|]. split; [exact Li|]. intros i Hi. destruct (Nat.eq_dec i j) as [->|N].
    + rewrite !nth_upd_eq by lia. split; reflexivity.
    + rewrite !nth_upd_neq by exact N. apply V. lia.
  - rewrite E. cbn [bind fst snd] in *. rewrite (lib_split_ok n) by assumption. cbn [bind fst snd].
    set (y := DFT_list d (combine re im)).
    assert (Ly : length y = n). { unfold y, DFT_list. rewrite tab_length. apply combined_length; assumption. }
    assert (Lf : length (map fst y) = n) by (etransitivity; [apply map_length|exact Ly]).
    assert (Ls : length (map snd y) = n) by (etransitivity; [apply map_length|exact Ly]).
    match goal with |- context [for_range 0 n ?b mem] =>
      destruct (scatter1 _ C0 n (vec_view x) (fun i => nth i y C0) b mem Ix Dx) as [m [E2 W]] end.
    { intros k m Hk Hm _. rewrite (rd_ok _ _ _ (fst C0)) by (rewrite Lf; exact Hk). cbn [bind].
      rewrite (rd_ok _ _ _ (snd C0)) by (rewrite Ls; exact Hk). cbn [bind]. rewrite !map_nth.
      rewrite <- surjective_pairing. apply wr_ok. rewrite Hm. apply Ix. exact Hk. }
    match goal with |- context [@for_range ?S 0 n ?b mem] =>
      assert (E3 : @for_range S 0 n b mem = Ok m) by exact E2; rewrite E3 end.
    cbn [bind]. eexists. exists m. split; [reflexivity|]. split.
    + unfold vdsp_inv. cbn [vd_order vd_in vd_out fst snd]. fold n. rewrite Lf, Ls. auto.
    + unfold holds_dft. eapply written1_ext; [|exact W]. intros i Hi. cbv beta. unfold y, DFT_list.
      rewrite (combined_length re im n Lr Li). rewrite nth_tab by exact Hi. apply dft_ext. intros j Hj.
      destruct (V j Hj) as [A B]. transitivity (nth j re 0%R, nth j im 0%R). { apply (combine_nth re im j 0%R 0%R). lia. }
      rewrite A, B. symmetry. apply surjective_pairing.
Qed.

Lemma vdsp_reach_inv : forall order p, vdsp_reach order p -> vdsp_inv order p.
Proof.
  intros order p H. induction H as [p E|p x d mem p' mem' H IH E].
  - apply make_vdsp_inv. exact E.
  - destruct IH as [O [L1 [L2 [L3 L4]]]]. unfold vdsp_run in E.
    apply bind_ok in E. destruct E as [[re im] [E1 E]]. apply bind_ok in E. destruct E as [[ore oim] [E2 E]].
    apply bind_ok in E. destruct E as [m [_ E]]. injection E as <- _.
    assert (Li : length re = 2 ^ order /\ length im = 2 ^ order).
    { unfold for_range in E1.
      assert (G : forall cnt lo s s', length (fst s) = 2 ^ order -> length (snd s) = 2 ^ order ->
        loop cnt lo 1 (fun i (s : list R * list R) => c <- rd mem (at1 (vec_view x) i) ;; re <- wr (fst s) i (fst c) ;;
           im <- wr (snd s) i (snd c) ;; Ok (re, im)) s = Ok s' -> length (fst s') = 2 ^ order /\ length (snd s') = 2 ^ order).
      { induction cnt; intros lo s s' H1 H2 E; simpl in E. { injection E as <-. auto. }
        apply bind_ok in E. destruct E as [s1 [F1 E]]. apply bind_ok in F1. destruct F1 as [c [_ F1]].
        apply bind_ok in F1. destruct F1 as [r [Er F1]]. apply bind_ok in F1. destruct F1 as [i [Ei F1]]. injection F1 as <-.
        apply wr_inv in Er. apply wr_inv in Ei. destruct Er as [_ ->]. destruct Ei as [_ ->].
        eapply IHcnt; [| |exact E]; cbn; rewrite upd_length; assumption. }
      apply G in E1; auto. }
    destruct Li as [Lr Li]. rewrite O in E2.
    rewrite (lib_split_ok (2 ^ order)) in E2 by assumption. injection E2 as <- <-.
    unfold vdsp_inv. cbn [vd_order vd_in vd_out fst snd]. rewrite !map_length. unfold DFT_list. rewrite tab_length. rewrite (combined_length re im (2 ^ order) Lr Li). auto.
Qed.

(** ** MKL *)
Lemma gather_length : forall T v (mem buf buf' : list T), gather v mem buf = Ok buf' -> length buf' = length buf.
Proof.
  intros T v mem buf buf' E. unfold gather, for_range in E.
  assert (G : forall cnt lo b b', loop cnt lo 1 (fun i buf => a <- rd mem (at1 v i) ;; wr buf i a) b = Ok b' -> length b' = length b).
  { induction cnt; intros lo b b' E1; simpl in E1. { injection E1 as <-. reflexivity. }
    apply bind_ok in E1. destruct E1 as [b1 [E1 E2]]. apply bind_ok in E1. destruct E1 as [a [_ E1]]. apply wr_inv in E1.
    destruct E1 as [_ ->]. rewrite (IHcnt _ _ _ E2). apply upd_length. }
  apply G in E. exact E.
Qed.

Lemma splice_length : forall T (l s l' : list T) lo, splice l lo s = Ok l' -> length l' = length l.
Proof.
  intros T l s l' lo E. unfold splice in E. destruct (Nat.leb_spec (lo + length s) (length l)); [|discriminate E].
  injection E as <-. rewrite !app_length, firstn_length, skipn_length. lia.
Qed.

Lemma lib_c2c_length : forall n d ptr mem mem', lib_c2c_inplace n d ptr mem = Ok mem' -> length mem' = length mem.
Proof. intros n d ptr mem mem' E. apply bind_ok in E. destruct E as [s [_ E]]. apply splice_length in E. exact E. Qed.

Definition mkl_inv (order : nat) (p : mkl_plan) : Prop := mk_order p = order /\ length (mk_buf p) = 2 ^ order.

Lemma mkl_run_ok : forall order p x d mem, mkl_inv order p -> vector_ok (2 ^ order) x (length mem) ->
  exists p' mem', mkl_run p x d mem = Ok (p', mem') /\ mkl_inv order p' /\ holds_dft d (2 ^ order) x x mem mem'.
Proof.
  intros order p x d mem [O L] V. assert (V0 := V). destruct V as [Sx [Ix [Dx Lx]]]. unfold mkl_run. rewrite O.
  destruct (always_vectorizable [x]) eqn:A.
  - destruct (lib_c2c_inplace_ok (2 ^ order) d (vec_view x) mem) as [m [E W]]; auto.
    { apply pow2_pos. } { apply Lx. apply not_vectorizable1. exact A. }
    rewrite E. cbn [bind]. exists p, m. split; [reflexivity|]. split; [split; auto|]. exact W.
  - destruct (buffered (2 ^ order) d x x mem (mk_buf p) V0 V0 L) as [b1 [b2 [m [E1 [E2 [E3 [Lb W]]]]]]].
    rewrite E1. cbn [bind]. rewrite E2. cbn [bind]. rewrite E3. cbn [bind]. eexists. exists m. split; [reflexivity|].
    split; [split; auto|]. exact W.
Qed.

Lemma mkl_reach_inv : forall order p, mkl_reach order p -> mkl_inv order p.
Proof.
  intros order p H. induction H as [p E|p x d mem p' mem' H IH E].
  - unfold make_mkl in E. destruct (27 <? order); [discriminate E|]. injection E as <-. split; [reflexivity|]. apply repeat_length.
  - destruct IH as [O L]. unfold mkl_run in E. destruct (always_vectorizable [x]).
    + apply bind_ok in E. destruct E as [m [_ E]]. injection E as <- _. split; auto.
    + apply bind_ok in E. destruct E as [b1 [E1 E]]. apply bind_ok in E. destruct E as [b2 [E2 E]].
      apply bind_ok in E. destruct E as [m [_ E]]. injection E as <- _. split; [exact O|]. cbn.
      apply lib_c2c_length in E2. apply gather_length in E1. lia.
Qed.

(** ** IPP, complex *)
Definition ipp_inv (order : nat) (p : ipp_plan) : Prop := ip_order p = order /\ length (ip_buf p) = 2 ^ order.

Lemma ipp_run_ok : forall order p x d mem, ipp_inv order p -> vector_ok (2 ^ order) x (length mem) ->
  exists p' mem', ipp_run p x d mem = Ok (p', mem') /\ ipp_inv order p' /\ holds_dft d (2 ^ order) x x mem mem'.
Proof.
  intros order p x d mem [O L] V. assert (V0 := V). destruct V as [Sx [Ix [Dx Lx]]]. unfold ipp_run. rewrite O.
  destruct (always_vectorizable [x]) eqn:A.
  - destruct (lib_c2c_inplace_ok (2 ^ order) d (vec_view x) mem) as [m [E W]]; auto.
    { apply pow2_pos. } { apply Lx. apply not_vectorizable1. exact A. }
    rewrite E. cbn [bind]. exists p, m. split; [reflexivity|]. split; [split; auto|]. exact W.
  - destruct (buffered (2 ^ order) d x x mem (ip_buf p) V0 V0 L) as [b1 [b2 [m [E1 [E2 [E3 [Lb W]]]]]]].
    rewrite E1. cbn [bind]. rewrite E2. cbn [bind]. rewrite E3. cbn [bind]. eexists. exists m. split; [reflexivity|].
    split; [split; auto|]. exact W.
Qed.

Lemma disjoint_ranges : forall n x y, 0 < n -> u_s (vec_view x) = 1 -> u_s (vec_view y) = 1 -> disjoint n x y ->
  (u_off (vec_view x) + n <=? u_off (vec_view y)) || (u_off (vec_view y) + n <=? u_off (vec_view x)) = true.
Proof.
  intros n x y Hn Hx Hy H. unfold disjoint, at1 in H. rewrite Hx, Hy in H.
  destruct (Nat.leb_spec (u_off (vec_view x) + n) (u_off (vec_view y))); [reflexivity|].
  destruct (Nat.leb_spec (u_off (vec_view y) + n) (u_off (vec_view x))); [reflexivity|]. exfalso.
  destruct (Nat.le_gt_cases (u_off (vec_view x)) (u_off (vec_view y))).
  - apply (H (u_off (vec_view y) - u_off (vec_view x)) 0); lia.
  - apply (H 0 (u_off (vec_view x) - u_off (vec_view y))); lia.
Qed.

Lemma lib_c2c_copy_ok : forall n d x y mem, 0 < n -> vector_ok n x (length mem) -> vector_ok n y (length mem) ->
  u_s (vec_view x) = 1 -> u_s (vec_view y) = 1 -> disjoint n x y ->
  exists mem', lib_c2c_copy n d (u_off (vec_view x)) (u_off (vec_view y)) mem = Ok mem' /\ holds_dft d n x y mem mem'.
Proof.
  intros n d x y mem Hn [_ [Ix _]] [_ [Iy _]] Hx Hy D. unfold lib_c2c_copy.
  rewrite (disjoint_ranges n x y Hn Hx Hy D). cbn [guard bind].
  rewrite (slice_at1 _ C0) by (try exact Hx; eapply last_inside; eauto). cbn [bind]. rewrite dft_list_tab.
  destruct (splice_written _ C0 (vec_view y) (tab n (DFT d n (elem C0 x mem))) mem Hy) as [m [E W]].
  { rewrite tab_length. eapply last_inside; eauto. }
  exists m. split; [exact E|]. rewrite tab_length in W. eapply written1_ext; [|exact W]. intros i Hi. apply nth_tab. exact Hi.
Qed.

Lemma ipp_run_copy_ok : forall order p x y d mem, ipp_inv order p -> vector_ok (2 ^ order) x (length mem) ->
  vector_ok (2 ^ order) y (length mem) -> (always_vectorizable [x; y] = true -> disjoint (2 ^ order) x y) ->
  exists p' mem', ipp_run_copy p x y d mem = Ok (p', mem') /\ ipp_inv order p' /\ holds_dft d (2 ^ order) x y mem mem'.
Proof.
  intros order p x y d mem [O L] Vx Vy D. unfold ipp_run_copy. rewrite O. destruct (always_vectorizable [x; y]) eqn:A.
  - destruct (not_vectorizable2 x y A) as [Lx Ly].
    destruct (lib_c2c_copy_ok (2 ^ order) d x y mem) as [m [E W]]; auto.
    { apply pow2_pos. } { apply Vx. exact Lx. } { apply Vy. exact Ly. }
    rewrite E. cbn [bind]. exists p, m. split; [reflexivity|]. split; [split; auto|]. exact W.
  - destruct (buffered (2 ^ order) d x y mem (ip_buf p) Vx Vy L) as [b1 [b2 [m [E1 [E2 [E3 [Lb W]]]]]]].
    rewrite E1. cbn [bind]. rewrite E2. cbn [bind]. rewrite E3. cbn [bind]. eexists. exists m. split; [reflexivity|].
    split; [split; auto|]. exact W.
Qed.

Lemma ipp_reach_inv : forall pr order p, ipp_reach pr order p -> ipp_inv order p.
Proof.
  intros pr order p H. induction H as [p E|p x d mem p' mem' H IH E|p x y d mem p' mem' H IH E].
  - unfold make_ipp in E. destruct (ipp_max_order pr <? order); [discriminate E|]. injection E as <-. split; [reflexivity|]. apply repeat_length.
  - destruct IH as [O L]. unfold ipp_run in E. destruct (always_vectorizable [x]).
    + apply bind_ok in E. destruct E as [m [_ E]]. injection E as <- _. split; auto.
    + apply bind_ok in E. destruct E as [b1 [E1 E]]. apply bind_ok in E. destruct E as [b2 [E2 E]].
      apply bind_ok in E. destruct E as [m [_ E]]. injection E as <- _. split; [exact O|]. cbn.
      apply lib_c2c_length in E2. apply gather_length in E1. lia.
  - destruct IH as [O L]. unfold ipp_run_copy in E. destruct (always_vectorizable [x; y]).
    + apply bind_ok in E. destruct E as [m [_ E]]. injection E as <- _. split; auto.
    + apply bind_ok in E. destruct E as [b1 [E1 E]]. apply bind_ok in E. destruct E as [b2 [E2 E]].
      apply bind_ok in E. destruct E as [m [_ E]]. injection E as <- _. split; [exact O|]. cbn.
      apply lib_c2c_length in E2. apply gather_length in E1. lia.
Qed.

(** ** IPP, any length *)
Definition ipp_dft_inv (n : nat) (p : ipp_dft_plan) : Prop :=
  0 < n /\ id_size p = n /\ length (id_in p) = n /\ length (id_out p) = n.

Lemma ipp_dft_tmp_ok : forall n p d f out, ipp_dft_inv n p -> length out = n ->
  ipp_dft_tmp p d (tab n f) out = Ok (tab n (DFT d n f)).
Proof.
  intros n p d f out [_ [S _]] L. unfold ipp_dft_tmp. rewrite S. rewrite (slice_spec _ C0) by (rewrite ?tab_length; lia). cbn [bind].
  replace (n - 0) with n by lia. rewrite dft_list_tab. unfold splice. rewrite tab_length, L.
  replace (0 + n <=? n) with true by (symmetry; apply Nat.leb_le; lia). f_equal.
  rewrite skipn_all2 by lia. rewrite app_nil_r. simpl firstn. simpl app.
  apply tab_ext. intros k Hk. apply dft_ext. intros j Hj. apply nth_tab. exact Hj.
Qed.

Lemma ipp_dft_buffered : forall n p d inp out mem, ipp_dft_inv n p -> vector_ok n inp (length mem) -> vector_ok n out (length mem) ->
  exists b1 b2 mem', gather (vec_view inp) mem (id_in p) = Ok b1 /\ ipp_dft_tmp p d b1 (id_out p) = Ok b2 /\
    put_back b2 (vec_view out) mem = Ok mem' /\ length b1 = n /\ length b2 = n /\ holds_dft d n inp out mem mem'.
Proof.
  intros n p d inp out mem I [Si [Ii _]] [So [Io [Do _]]]. assert (I0 := I). destruct I as [Hn [Sz [L1 L2]]].
  rewrite (gather_ok _ C0) by (rewrite Si; auto). rewrite Si. eexists. eexists.
  destruct (put_back_ok _ C0 (tab n (DFT d n (elem C0 inp mem))) (vec_view out) mem) as [m [E W]]; rewrite ?tab_length; auto.
  exists m. split; [reflexivity|]. split; [apply ipp_dft_tmp_ok; auto|]. split; [exact E|]. split; [first [reflexivity|apply tab_length]|].
  split; [first [reflexivity|apply tab_length]|].
  rewrite tab_length in W. unfold holds_dft. eapply written1_ext; [|exact W]. intros i Hi. apply nth_tab. exact Hi.
Qed.

Lemma ipp_dft_run_ok : forall n p x d mem, ipp_dft_inv n p -> vector_ok n x (length mem) ->
  exists p' mem', ipp_dft_run p x d mem = Ok (p', mem') /\ ipp_dft_inv n p' /\ holds_dft d n x x mem mem'.
Proof.
  intros n p x d mem I V. destruct (ipp_dft_buffered n p d x x mem I V V) as [b1 [b2 [m [E1 [E2 [E3 [L1 [L2 W]]]]]]]].
  unfold ipp_dft_run. rewrite E1. cbn [bind]. rewrite E2. cbn [bind]. rewrite E3. cbn [bind]. eexists. exists m.
  split; [reflexivity|]. destruct I as [Hn [S _]]. split; [split; auto|exact W].
Qed.

Lemma ipp_dft_run_copy_ok : forall n p x y d mem, ipp_dft_inv n p -> vector_ok n x (length mem) -> vector_ok n y (length mem) ->
  (always_vectorizable [x; y] = true -> disjoint n x y) ->
  exists p' mem', ipp_dft_run_copy p x y d mem = Ok (p', mem') /\ ipp_dft_inv n p' /\ holds_dft d n x y mem mem'.
Proof.
  intros n p x y d mem I Vx Vy D. unfold ipp_dft_run_copy. destruct (always_vectorizable [x; y]) eqn:A.
  - destruct (not_vectorizable2 x y A) as [Lx Ly]. assert (I0 := I). destruct I as [Hn [S _]]. rewrite S.
    destruct (lib_c2c_copy_ok n d x y mem) as [m [E W]]; auto. { apply Vx. exact Lx. } { apply Vy. exact Ly. }
    rewrite E. cbn [bind]. exists p, m. auto.
  - destruct (ipp_dft_buffered n p d x y mem I Vx Vy) as [b1 [b2 [m [E1 [E2 [E3 [L1 [L2 W]]]]]]]].
    rewrite E1. cbn [bind]. rewrite E2. cbn [bind]. rewrite E3. cbn [bind]. eexists. exists m.
    split; [reflexivity|]. destruct I as [Hn [S _]]. split; [split; auto|exact W].
Qed.

Lemma ipp_dft_tmp_length : forall p d a b c, ipp_dft_tmp p d a b = Ok c -> length c = length b.
Proof. intros p d a b c E. apply bind_ok in E. destruct E as [s [_ E]]. apply splice_length in E. exact E. Qed.

Lemma ipp_dft_reach_inv : forall n p, ipp_dft_reach n p -> ipp_dft_inv n p.
Proof.
  intros n p H. induction H as [p E|p x d mem p' mem' H IH E|p x y d mem p' mem' H IH E].
  - unfold make_ipp_dft in E. destruct (Nat.eqb_spec n 0); [discriminate E|]. injection E as <-. unfold ipp_dft_inv. cbn.
    rewrite !repeat_length. repeat split; lia.
  - destruct IH as [Hn [S [L1 L2]]]. unfold ipp_dft_run in E.
    apply bind_ok in E. destruct E as [b1 [E1 E]]. apply bind_ok in E. destruct E as [b2 [E2 E]].
    apply bind_ok in E. destruct E as [m [_ E]]. injection E as <- _. apply ipp_dft_tmp_length in E2. apply gather_length in E1.
    unfold ipp_dft_inv. cbn. repeat split; lia.
  - assert (IH0 := IH). destruct IH as [Hn [S [L1 L2]]]. unfold ipp_dft_run_copy in E. destruct (always_vectorizable [x; y]).
    + apply bind_ok in E. destruct E as [m [_ E]]. injection E as <- _. exact IH0.
    + apply bind_ok in E. destruct E as [b1 [E1 E]]. apply bind_ok in E. destruct E as [b2 [E2 E]].
      apply bind_ok in E. destruct E as [m [_ E]]. injection E as <- _. apply ipp_dft_tmp_length in E2. apply gather_length in E1.
      unfold ipp_dft_inv. cbn. repeat split; lia.
Qed.
