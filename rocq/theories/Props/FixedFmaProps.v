(** C89 — multiply_add on split-complex vectors of fixed-point numbers and registers.
    A number is its stored integer; one unit is 2^-F.  [clip t v] is v moved into the range
    [imin t .. imax t]; [Self] is the output itself, [Other l] another array, [contents] the values
    of either. *)
From Coq Require Import ZArith List Bool Lia Arith Reals Lra.
From Verif Require Import Base.Outcome Base.OutcomeFacts Base.Alias.
From Verif Require Import Model.Integers Model.FixedPoint Model.Simd Model.SimdBatch Model.FixedBench.
From Verif Require Import Spec.Batch Spec.FixedRange Proof.IntegersProof Proof.FixedProof Proof.SimdBatchProof.
From Verif Require Import Proof.FixedBenchProof.
Import ListNotations.
Local Open Scope Z_scope.

(** One call on q7 or q15 arrays, in place or not, is defined for all values.  The exact product is
    clipped, z is added and the sum is clipped again: the real part is within one unit of that, the
    imaginary part never above it and at most two units below. *)
Theorem C89_multiply_add : forall t xre xim yre yim zre zim ore oim n, t = int8 \/ t = int16 ->
  length xre = n -> length xim = n -> length yre = n -> length yim = n -> length ore = n -> length oim = n ->
  length (contents zre ore) = n -> length (contents zim oim) = n ->
  (forall v, In v (xre ++ xim ++ yre ++ yim) -> fits t v) ->
  (forall v, In v (contents zre ore ++ contents zim oim) -> fits t v) ->
  let F := iwidth t - 1 in
  exists re im, split_fma_fixed t F xre xim yre yim zre zim ore oim = Ok (re, im) /\
  length re = n /\ length im = n /\
  forall i, (i < n)%nat ->
    let a := nth i xre 0 in let b := nth i xim 0 in let c := nth i yre 0 in let d := nth i yim 0 in
    let z := nth i (contents zre ore) 0 in let w := nth i (contents zim oim) 0 in
    let u := nth i re 0 in let v := nth i im 0 in fits t u /\ fits t v /\
    (Rabs (IZR u - clip t (clip t (IZR (a * c - b * d) / IZR (2 ^ F)) + IZR z)) <= 1)%R /\
    (-2 <= IZR v - clip t (clip t (IZR (a * d + b * c) / IZR (2 ^ F)) + IZR w) <= 0)%R.
Proof.
  intros t xre xim yre yim zre zim ore oim n Hn L1 L2 L3 L4 L5 L6 L7 L8 Hf Hz F.
  assert (HF : 0 <= F) by (unfold F; destruct Hn as [->| ->]; cbn; lia).
  assert (HP : 0 < 2 ^ F) by (apply Z.pow_pos_nonneg; lia).
  rewrite (split_fma_fixed_ok t F xre xim yre yim zre zim ore oim n) by auto.
  eexists _, _. split; [reflexivity|]. rewrite !tab_length. split; [auto|]. split; [auto|].
  intros i Hi a b c d z w u v. unfold u, v. rewrite !nth_tab by auto. fold a b c d z w.
  assert (F1 : fits t a) by (apply Hf; apply in_app_iff; left; apply nth_In; lia).
  assert (F2 : fits t b) by (apply Hf; rewrite !in_app_iff; right; left; apply nth_In; lia).
  assert (F3 : fits t c) by (apply Hf; rewrite !in_app_iff; right; right; left; apply nth_In; lia).
  assert (F4 : fits t d) by (apply Hf; rewrite !in_app_iff; right; right; right; apply nth_In; lia).
  assert (P1 := prod_err t F a c Hn HF (full_scale t a c Hn F1 F3)).
  assert (P2 := prod_err t F b d Hn HF (full_scale t b d Hn F2 F4)).
  assert (P3 := prod_err t F a d Hn HF (full_scale t a d Hn F1 F4)).
  assert (P4 := prod_err t F b c Hn HF (full_scale t b c Hn F2 F3)).
  split; [apply sat_fits; auto|]. split; [apply sat_fits; auto|]. split.
  - assert (V := combine_sub t _ _ _ _ P1 P2). rewrite <- div_IZR_sub in V by auto.
    set (s := sat t (sat t (a * c / 2 ^ F) - sat t (b * d / 2 ^ F))) in *.
    set (p := clip t (IZR (a * c - b * d) / IZR (2 ^ F))) in *.
    assert (V1 := Rle_abs (IZR s - p)). assert (V2 := Rle_abs (- (IZR s - p))). rewrite Rabs_Ropp in V2.
    assert (A := add_err t s z p (IZR z) 1 1). apply Rabs_le. lra.
  - assert (V := combine_add t _ _ _ _ P3 P4). rewrite <- div_IZR_add in V by auto.
    set (s := sat t (sat t (a * d / 2 ^ F) + sat t (b * c / 2 ^ F))) in *.
    set (p := clip t (IZR (a * d + b * c) / IZR (2 ^ F))) in *.
    assert (A := add_err t s w p (IZR w) 2 0). lra.
Qed.

(** It is not the exact x * y + z clipped once: (1 + i)(1 - i) - 1 = 1 up to a unit, the call
    returns 0. *)
Theorem C89_clipped_once_refuted : exists xre xim yre yim zre zim im,
  (forall v, In v ([xre; xim; yre; yim; zre; zim]) -> fits int16 v) /\
  split_fma_fixed int16 15 [xre] [xim] [yre] [yim] Self Self [zre] [zim] = Ok ([0], [im]) /\
  32764 <= (xre * yre - xim * yim) / 2 ^ 15 + zre <= imax int16.
Proof.
  exists 32767, 32767, 32767, (-32767), (-32767), 5, 4. split; [|split].
  - intros v Hv. unfold fits, imin, imax. cbn in *. repeat (destruct Hv as [<-|Hv]; [lia|]). destruct Hv.
  - vm_compute. reflexivity.
  - unfold imax. cbn. split; discriminate.
Qed.

(** Accumulating m products in place: while every exact product and every exact partial sum of an
    element stays in the range, the error of its real part is at most m units and its imaginary part
    is at most 2m units low and never high. *)
Theorem C89_accumulate : forall t calls ore oim n, t = int8 \/ t = int16 ->
  (forall xre xim yre yim, In (xre, xim, yre, yim) calls ->
     length xre = n /\ length xim = n /\ length yre = n /\ length yim = n /\
     (forall v, In v (xre ++ xim ++ yre ++ yim) -> fits t v)) ->
  length ore = n -> length oim = n -> (forall v, In v (ore ++ oim) -> fits t v) ->
  let F := iwidth t - 1 in
  let ok v := (IZR (imin t) <= v <= IZR (imax t))%R in
  exists re im, split_fma_runs t F calls ore oim = Ok (re, im) /\
  length re = n /\ length im = n /\ (forall v, In v (re ++ im) -> fits t v) /\
  forall i, (i < n)%nat ->
    let z := IZR (nth i ore 0) in let w := IZR (nth i oim 0) in
    let u := IZR (nth i re 0) in let v := IZR (nth i im 0) in
    ((forall q, In q calls -> ok (exact_re F i q)) ->
     (forall k, (1 <= k <= length calls)%nat -> ok (total z (map (exact_re F i) (firstn k calls)))) ->
     (Rabs (u - total z (map (exact_re F i) calls)) <= INR (length calls))%R) /\
    ((forall q, In q calls -> ok (exact_im F i q)) ->
     (forall k, (1 <= k <= length calls)%nat -> ok (total w (map (exact_im F i) (firstn k calls)))) ->
     (- (2 * INR (length calls)) <= v - total w (map (exact_im F i) calls) <= 0)%R).
Proof.
  intros t calls ore oim n Hn Hq L5 L6 Hz F ok.
  destruct (runs_ok t calls ore oim n Hn) as [re [im [E [M1 [M2 [M3 V]]]]]]; auto.
  { intros [[[xre xim] yre] yim] H. apply Hq. auto. }
  exists re, im. split; [exact E|]. split; [auto|]. split; [auto|]. split; [auto|].
  intros i Hi z w u v. destruct (V i Hi) as [V1 V2]. split; intros H1 H2.
  - assert (A := V1 z 0%R H1 H2 (Rle_refl 0)). rewrite Rplus_0_l in A. apply A.
    unfold z. rewrite Rminus_diag_eq, Rabs_R0 by auto. lra.
  - assert (A := V2 w 0%R H1 H2 (Rle_refl 0)). rewrite Rplus_0_l in A. apply A.
    unfold w. lra.
Qed.

(** Registers on x86 (q15): lane by lane, both parts within one unit as long as no product is
    min * min. *)
Theorem C89_register_multiply_add : forall w B xre xim yre yim zre zim ore oim n,
  In (w, B) [(8%nat, q15x8); (16%nat, q15x16); (32%nat, q15x32)] ->
  length xre = n -> length xim = n -> length yre = n -> length yim = n -> length ore = n -> length oim = n ->
  length (contents zre ore) = n -> length (contents zim oim) = n ->
  (forall r, In r (xre ++ xim ++ yre ++ yim ++ contents zre ore ++ contents zim oim) ->
    length r = w /\ forall v, In v r -> fits int16 v) ->
  exists re im, split_fma_batch B xre xim yre yim zre zim ore oim = Ok (re, im) /\
  length re = n /\ length im = n /\
  forall i k, (i < n)%nat -> (k < w)%nat ->
    let lane r := nth k (nth i r []) 0 in
    let a := lane xre in let b := lane xim in let c := lane yre in let d := lane yim in
    (forall x y, In x [a; b] -> In y [c; d] -> ~ (x = imin int16 /\ y = imin int16)) ->
    (Rabs (IZR (lane re) - clip int16 (clip int16 (IZR (a * c - b * d) / IZR (2 ^ 15))
       + IZR (lane (contents zre ore)))) <= 1)%R /\
    (Rabs (IZR (lane im) - clip int16 (clip int16 (IZR (a * d + b * c) / IZR (2 ^ 15))
       + IZR (lane (contents zim oim)))) <= 1)%R.
Proof.
  intros w B xre xim yre yim zre zim ore oim n H L1 L2 L3 L4 L5 L6 L7 L8 Hf.
  assert (Hl : Spec.Batch.lanewise w mulhrs (b_mul B) /\
    Spec.Batch.lanewise w (fun a b => sat int16 (a - b)) (b_sub B) /\
    Spec.Batch.lanewise w (fun a b => sat int16 (a + b)) (b_add B)).
  { cbn [In] in H. destruct H as [H|[H|[H|[]]]]; injection H as <- <-;
      (split; [apply lanes_lanewise|split; apply lanewise_zip; intros; reflexivity]). }
  destruct Hl as [Hm [Hs Ha]].
  assert (E := split_fma_loop_ok (list Z) [] (fun x y => Ok (b_mul B x y)) (fun x y => Ok (b_sub B x y))
    (fun x y => Ok (b_add B x y)) xre xim yre yim zre zim ore oim n
    (fun i => b_add B (b_sub B (b_mul B (nth i xre []) (nth i yre [])) (b_mul B (nth i xim []) (nth i yim [])))
                (nth i (contents zre ore) []))
    (fun i => b_add B (b_add B (b_mul B (nth i xre []) (nth i yim [])) (b_mul B (nth i xim []) (nth i yre [])))
                (nth i (contents zim oim) [])) L1 L2 L3 L4 L5 L6 L7 L8 (fun i _ => conj eq_refl eq_refl)).
  eexists. eexists. split; [exact E|]. split; [apply tab_length|]. split; [apply tab_length|].
  intros i k Hi Hk lane a b c d Hne. change (imin int16) with (-32768) in Hne.
  assert (K : forall l, In l [xre; xim; yre; yim; contents zre ore; contents zim oim] ->
    length (nth i l []) = w /\ fits int16 (lane l)).
  { intros l Hl. assert (Hr : In (nth i l []) (xre ++ xim ++ yre ++ yim ++ contents zre ore ++ contents zim oim)).
    { cbn [In] in Hl. rewrite !in_app_iff.
      destruct Hl as [<-|[<-|[<-|[<-|[<-|[<-|[]]]]]]];
        [left|right; left|right; right; left|right; right; right; left|right; right; right; right; left|right; right; right; right; right];
        apply nth_In; lia. }
    destruct (Hf _ Hr) as [W Fv]. split; auto. apply Fv. apply nth_In. lia. }
  destruct (K xre ltac:(cbn; auto)) as [W1 Fa]. destruct (K xim ltac:(cbn; auto)) as [W2 Fb].
  destruct (K yre ltac:(cbn; auto)) as [W3 Fc]. destruct (K yim ltac:(cbn; auto)) as [W4 Fd].
  destruct (K (contents zre ore) ltac:(cbn; auto 7)) as [W5 _].
  destruct (K (contents zim oim) ltac:(cbn; auto 9)) as [W6 _].
  fold a b c d in Fa, Fb, Fc, Fd.
  destruct (Hm _ _ W1 W3) as [M1 N1]. destruct (Hm _ _ W2 W4) as [M2 N2].
  destruct (Hm _ _ W1 W4) as [M3 N3]. destruct (Hm _ _ W2 W3) as [M4 N4].
  destruct (Hs _ _ M1 M2) as [Q1 R1]. destruct (Ha _ _ M3 M4) as [Q2 R2].
  destruct (Ha _ _ Q1 W5) as [_ T1]. destruct (Ha _ _ Q2 W6) as [_ T2].
  assert (E1 : lane (tab n (fun i => b_add B (b_sub B (b_mul B (nth i xre []) (nth i yre []))
      (b_mul B (nth i xim []) (nth i yim []))) (nth i (contents zre ore) []))) =
    sat int16 (sat int16 (mulhrs a c - mulhrs b d) + lane (contents zre ore))).
  { unfold lane. rewrite nth_tab by auto. rewrite T1, R1, N1, N2 by auto. reflexivity. }
  assert (E2 : lane (tab n (fun i => b_add B (b_add B (b_mul B (nth i xre []) (nth i yim []))
      (b_mul B (nth i xim []) (nth i yre []))) (nth i (contents zim oim) []))) =
    sat int16 (sat int16 (mulhrs a d + mulhrs b c) + lane (contents zim oim))).
  { unfold lane. rewrite nth_tab by auto. rewrite T2, R2, N3, N4 by auto. reflexivity. }
  rewrite E1, E2. clear E1 E2.
  set (z := lane (contents zre ore)). set (v := lane (contents zim oim)).
  assert (C1 := proj1 (combine_round int16 _ _ _ _
    (mulhrs_err a c Fa Fc (Hne a c ltac:(cbn; auto) ltac:(cbn; auto)))
    (mulhrs_err b d Fb Fd (Hne b d ltac:(cbn; auto) ltac:(cbn; auto))))).
  assert (C2 := proj2 (combine_round int16 _ _ _ _
    (mulhrs_err a d Fa Fd (Hne a d ltac:(cbn; auto) ltac:(cbn; auto)))
    (mulhrs_err b c Fb Fc (Hne b c ltac:(cbn; auto) ltac:(cbn; auto))))).
  rewrite <- div_IZR_sub in C1 by reflexivity. rewrite <- div_IZR_add in C2 by reflexivity.
  assert (G : forall s p y, (Rabs (IZR s - p) <= 1)%R -> (Rabs (IZR (sat int16 (s + y)) - clip int16 (p + IZR y)) <= 1)%R).
  { intros s p y Hs'. assert (V1 := Rle_abs (IZR s - p)). assert (V2 := Rle_abs (- (IZR s - p))). rewrite Rabs_Ropp in V2.
    assert (A := add_err int16 s y p (IZR y) 1 1). apply Rabs_le. lra. }
  split; apply G; auto.
Qed.

(** 0.25 + (0.5 + 0.25i)(0.5 - 0.25i) = 0.5625 in q7, in place; two accumulations lose almost four units of
    the imaginary part: 4 * 127/128 = 3.97 becomes 0. *)
Example C89_example :
  split_fma_fixed int8 7 [64] [32] [64] [-32] Self (Other [9]) [32] [1] = Ok ([72], [9]) /\
  split_fma_runs int8 7 [([1], [1], [127], [127]); ([1], [1], [127], [127])] [0] [0] = Ok ([0], [0]) /\
  split_fma_batch q15x8 [repeat 16384 8] [repeat 0 8] [repeat 16384 8] [repeat 0 8] Self Self
    [repeat 1 8] [repeat 2 8] = Ok ([repeat 8193 8], [repeat 2 8]).
Proof. repeat split. Qed.

Print Assumptions C89_multiply_add.
Print Assumptions C89_clipped_once_refuted.
Print Assumptions C89_accumulate.
Print Assumptions C89_register_multiply_add.
