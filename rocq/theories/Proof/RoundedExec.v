(** The rounded radix-2 kernels as a sequence of stages. *)
From Coq Require Import Reals List Arith Lia Bool.
From Verif Require Import Base.Outcome Base.OutcomeFacts Base.Cplx Spec.Dft Spec.DigitRev Model.Fft2 Model.RoundedFft Proof.Fft2Proof.
Import ListNotations.
Local Open Scope outcome_scope.
Local Open Scope nat_scope.
Local Arguments Nat.div : simpl never.
Local Arguments Nat.modulo : simpl never.
Local Arguments Nat.pow : simpl never.

(** A stage with butterflies at distance [L], [bp] and [bm] give the two outputs. *)
Definition stagef (bp bm : C -> C -> C -> C) (L : nat) (tw : nat -> C) (v : nat -> C) (i : nat) : C :=
  let r := i mod (2 * L) in
  if r <? L then bp (tw r) (v i) (v (i + L)) else bm (tw (r - L)) (v (i - L)) (v i).

Section Generic.
Variables (bp bm : C -> C -> C -> C).

Definition stage_list (L : nat) (tw : nat -> C) (x : list C) : list C := tab (length x) (stagef bp bm L tw (fun i => nth i x C0)).

Lemma gstage_loop : forall L (tw : nat -> C) body n (x : list C), 0 < L -> length x = n * (2 * L) ->
  (forall k (y : list C), k + 2 * L <= length y -> length y = length x ->
     exists y', body k y = Ok y' /\ length y' = length y /\
     forall i, i < length y -> nth i y' C0 =
     if (k <=? i) && (i <? k + L) then bp (tw (i - k)) (nth i y C0) (nth (i + L) y C0)
     else if (k + L <=? i) && (i <? k + 2 * L) then bm (tw (i - L - k)) (nth (i - L) y C0) (nth i y C0)
     else nth i y C0) ->
  for_step 0 (length x) (2 * L) body x = Ok (stage_list L tw x).
Proof.
  intros L tw body n x HL0 Hlen Hb.
  rewrite for_step_loop with (cnt := n) by lia.
  destruct (loop_who C C0 n 0 (2 * L) body x (fun i => i / (2 * L))
    (stagef bp bm L tw (fun i => nth i x C0))) as [x' [E [HL HN]]].
  - intros j l Hj HLl HI.
    destruct (Hb (0 + j * (2 * L)) l) as [l' [E [L' N]]]; try nia; auto.
    exists l'. split; auto. split; [lia|].
    intros i Hi. rewrite N by lia. rewrite Nat.add_0_l. unfold stagef.
    pose proof (Nat.div_mod i (2 * L)) as DM. pose proof (Nat.mod_upper_bound i (2 * L)) as MB.
    set (r := i mod (2 * L)) in *.
    assert (Hin : forall i', j * (2 * L) <= i' < j * (2 * L) + 2 * L -> nth i' l C0 = nth i' x C0).
    { intros i' Hi'. apply HI; [nia|]. symmetry. apply Nat.div_unique with (i' - j * (2 * L)); lia. }
    destruct (Nat.eqb_spec (i / (2 * L)) j) as [Ej|Ej].
    + rewrite Ej in DM. cbv zeta.
      destruct (Nat.leb_spec (j * (2 * L)) i); [|lia].
      destruct (Nat.ltb_spec i (j * (2 * L) + L)); cbn [andb].
      * destruct (Nat.ltb_spec r L); [|lia]. rewrite !Hin by lia. replace (i - j * (2 * L)) with r by lia. auto.
      * destruct (Nat.ltb_spec r L); [lia|]. destruct (Nat.leb_spec (j * (2 * L) + L) i); [|lia].
        destruct (Nat.ltb_spec i (j * (2 * L) + 2 * L)); [|lia]. cbn [andb].
        rewrite !Hin by lia. replace (i - L - j * (2 * L)) with (r - L) by lia. auto.
    + assert (i < j * (2 * L) \/ j * (2 * L) + 2 * L <= i) by nia.
      destruct (Nat.leb_spec (j * (2 * L)) i); destruct (Nat.ltb_spec i (j * (2 * L) + L));
      destruct (Nat.leb_spec (j * (2 * L) + L) i); destruct (Nat.ltb_spec i (j * (2 * L) + 2 * L));
      cbn [andb]; auto; lia.
  - rewrite E. f_equal. apply list_eq_tab with (d := C0); auto. intros i Hi. rewrite HN by auto.
    assert (i / (2 * L) < n) by (apply Nat.div_lt_upper_bound; lia). destruct (Nat.ltb_spec (i / (2 * L)) n); [auto|lia].
Qed.

(** One block [k, k+2L) with L pairs, for a body that does one butterfly. *)
Lemma gblock_ok : forall L (tw : nat -> C) k (x : list C) (body : nat -> list C -> outcome (list C)),
  0 < L -> k + 2 * L <= length x ->
  (forall j l, j < L -> length l = length x -> exists l', body j l = Ok l' /\ length l' = length l /\
     forall i, nth i l' C0 = if i =? k + j then bp (tw j) (nth (k + j) l C0) (nth (k + j + L) l C0)
        else if i =? k + j + L then bm (tw j) (nth (k + j) l C0) (nth (k + j + L) l C0) else nth i l C0) ->
  exists x', for_range 0 L body x = Ok x' /\ length x' = length x /\
   forall i, i < length x -> nth i x' C0 =
     if (k <=? i) && (i <? k + L) then bp (tw (i - k)) (nth i x C0) (nth (i + L) x C0)
     else if (k + L <=? i) && (i <? k + 2 * L) then bm (tw (i - L - k)) (nth (i - L) x C0) (nth i x C0)
     else nth i x C0.
Proof.
  intros L tw k x body HL0 Hk Hbody.
  destruct (for_range_who C C0 0 L body x
    (fun i => if (k <=? i) && (i <? k + L) then i - k
              else if (k + L <=? i) && (i <? k + 2 * L) then i - L - k else L)
    (fun i => if (k <=? i) && (i <? k + L) then bp (tw (i - k)) (nth i x C0) (nth (i + L) x C0)
              else bm (tw (i - L - k)) (nth (i - L) x C0) (nth i x C0))) as [x' [E [HL HN]]].
  - intros j l Hj HLl HI.
    destruct (Hbody j l) as [l' [E [L' N]]]; try lia.
    exists l'. split; auto. split; [lia|].
    intros i Hi. rewrite N.
    assert (E1 : nth (k + j) l C0 = nth (k + j) x C0).
    { apply HI; try lia.
      destruct (Nat.leb_spec k (k + j)); destruct (Nat.ltb_spec (k + j) (k + L)); simpl; lia. }
    assert (E2 : nth (k + j + L) l C0 = nth (k + j + L) x C0).
    { apply HI; try lia.
      destruct (Nat.leb_spec k (k + j + L)); destruct (Nat.ltb_spec (k + j + L) (k + L));
      destruct (Nat.leb_spec (k + L) (k + j + L)); destruct (Nat.ltb_spec (k + j + L) (k + 2 * L)); simpl; lia. }
    destruct (Nat.eqb_spec i (k + j)).
    + subst i. rewrite E1, E2.
      destruct (Nat.leb_spec k (k + j)); destruct (Nat.ltb_spec (k + j) (k + L)); simpl; try lia.
      replace (k + j - k) with j by lia. rewrite Nat.eqb_refl. auto.
    + destruct (Nat.eqb_spec i (k + j + L)).
      * subst i. rewrite E1, E2.
        destruct (Nat.leb_spec k (k + j + L)); destruct (Nat.ltb_spec (k + j + L) (k + L));
        destruct (Nat.leb_spec (k + L) (k + j + L)); destruct (Nat.ltb_spec (k + j + L) (k + 2 * L)); simpl; try lia.
        replace (k + j + L - L - k) with j by lia. rewrite Nat.eqb_refl.
        replace (k + j + L - L) with (k + j) by lia. auto.
      * destruct (Nat.leb_spec k i); destruct (Nat.ltb_spec i (k + L));
        destruct (Nat.leb_spec (k + L) i); destruct (Nat.ltb_spec i (k + 2 * L)); simpl; try lia;
        try (destruct (Nat.eqb_spec (i - k) j); auto; lia);
        try (destruct (Nat.eqb_spec (i - L - k) j); auto; lia);
        destruct (Nat.eqb_spec L j); auto; lia.
  - exists x'. split; auto. split; auto. intros i Hi. rewrite HN by auto.
    destruct (Nat.leb_spec k i); destruct (Nat.ltb_spec i (k + L));
    destruct (Nat.leb_spec (k + L) i); destruct (Nat.ltb_spec i (k + 2 * L)); simpl; try lia;
    try (destruct (Nat.ltb_spec (i - k) L); auto; lia);
    try (destruct (Nat.ltb_spec (i - L - k) L); auto; lia);
    destruct (Nat.ltb_spec L L); auto; lia.
Qed.

Lemma stage_list_length : forall L tw x, length (stage_list L tw x) = length x.
Proof. intros. apply tab_length. Qed.

End Generic.

Lemma stage_list_ext : forall bp bm L tw tw' x, 0 < L -> (forall k, k < L -> tw k = tw' k) -> stage_list bp bm L tw x = stage_list bp bm L tw' x.
Proof.
  intros bp bm L tw tw' x HL H. apply tab_ext. intros i Hi. unfold stagef. pose proof (Nat.mod_upper_bound i (2 * L)). cbv zeta.
  destruct (Nat.ltb_spec (i mod (2 * L)) L); rewrite H by lia; auto.
Qed.

Section Rounded.
Variable rnd : R -> R.

Notation radd := (radd rnd). Notation rsub := (rsub rnd). Notation rmul := (rmul rnd).

Definition bp0 (w a b : C) : C := radd a b.
Definition bm0 (w a b : C) : C := rsub a b.
Definition bp1 (w a b : C) : C := radd a (rmul w b).
Definition bm1 (w a b : C) : C := rsub a (rmul w b).

Lemma rmul_comm : forall x y, rmul x y = rmul y x.
Proof.
  intros [a b] [c d]. unfold RoundedFft.rmul. cbn [fst snd]. rewrite (Rmult_comm a c), (Rmult_comm b d), (Rmult_comm a d), (Rmult_comm b c).
  rewrite (Rplus_comm (rnd (d * a)%R)). auto.
Qed.

Lemma two_writes : forall (l : list C) i1 i2 v1 v2, i1 < length l -> i2 < length l -> i1 <> i2 ->
  exists l', (x <- wr l i2 v2 ;; wr x i1 v1) = Ok l' /\ length l' = length l /\ forall i, nth i l' C0 = if i =? i1 then v1 else if i =? i2 then v2 else nth i l C0.
Proof.
  intros l i1 i2 v1 v2 H1 H2 N. rewrite wr_ok by auto. cbn [bind]. rewrite wr_ok by (rewrite upd_length; auto). eexists. split; [reflexivity|]. split; [rewrite !upd_length; auto|].
  intros i. rewrite !nth_upd, !upd_length.
  destruct (Nat.ltb_spec i1 (length l)); [|lia]. destruct (Nat.ltb_spec i2 (length l)); [|lia].
  destruct (Nat.eqb_spec i i1); destruct (Nat.eqb_spec i i2); simpl; auto.
Qed.

Lemma rstage0_ok : forall n (x : list C), length x = n * 2 -> rdit2_stage0 rnd x = Ok (stage_list bp0 bm0 1 (fun _ => C1) x).
Proof.
  intros n x Hx. unfold rdit2_stage0. change 2 with (2 * 1) at 1.
  apply gstage_loop with (n := n); try lia.
  intros k y Hk Hy.
  rewrite (rd_ok _ y k C0), (rd_ok _ y (k + 1) C0) by lia. cbn [bind].
  destruct (two_writes y k (k + 1) (radd (nth k y C0) (nth (k + 1) y C0)) (rsub (nth k y C0) (nth (k + 1) y C0))) as (y' & E & L' & N); try lia.
  exists y'. split; [exact E|]. split; auto. intros i Hi. rewrite N. unfold bp0, bm0.
  destruct (Nat.eqb_spec i k); destruct (Nat.eqb_spec i (k + 1)); simpl; try lia.
  - subst i. destruct (Nat.leb_spec k k); destruct (Nat.ltb_spec k (k + 1)); simpl; try lia. auto.
  - subst i. destruct (Nat.leb_spec k (k + 1)); destruct (Nat.ltb_spec (k + 1) (k + 1));
    destruct (Nat.leb_spec (k + 1) (k + 1)); destruct (Nat.ltb_spec (k + 1) (k + 2)); simpl; try lia.
    replace (k + 1 - 1) with k by lia. auto.
  - destruct (Nat.leb_spec k i); destruct (Nat.ltb_spec i (k + 1));
    destruct (Nat.leb_spec (k + 1) i); destruct (Nat.ltb_spec i (k + 2)); simpl; auto; lia.
Qed.

Lemma rbutterfly_ok : forall tw i1 i2 (x : list C), i1 < length x -> i2 < length x -> i1 <> i2 ->
  exists x', rdit2_butterfly rnd tw i1 i2 x = Ok x' /\ length x' = length x /\
   forall i, nth i x' C0 = if i =? i1 then bp1 tw (nth i1 x C0) (nth i2 x C0) else if i =? i2 then bm1 tw (nth i1 x C0) (nth i2 x C0) else nth i x C0.
Proof.
  intros tw i1 i2 x H1 H2 N. unfold rdit2_butterfly. rewrite (rd_ok _ x i1 C0), (rd_ok _ x i2 C0) by auto. cbn [bind]. apply two_writes; auto.
Qed.

Lemma rblock_ok : forall twl idx L (tw : nat -> C) k (x : list C), 0 < L -> k + 2 * L <= length x -> (forall p, p < L -> rd twl (idx p) = Ok (tw p)) ->
  exists x', for_range 0 L (fun pair x => t <- rd twl (idx pair) ;; rdit2_butterfly rnd t (k + pair) (k + pair + L) x) x = Ok x' /\ length x' = length x /\
   forall i, i < length x -> nth i x' C0 =
     if (k <=? i) && (i <? k + L) then bp1 (tw (i - k)) (nth i x C0) (nth (i + L) x C0)
     else if (k + L <=? i) && (i <? k + 2 * L) then bm1 (tw (i - L - k)) (nth (i - L) x C0) (nth i x C0)
     else nth i x C0.
Proof.
  intros twl idx L tw k x HL Hk Htw. apply gblock_ok; auto. intros j l Hj Hl. rewrite Htw by auto. cbn [bind]. apply rbutterfly_ok; lia.
Qed.

Lemma rstage_ok : forall twl L n ts (tw : nat -> C) (x : list C), 0 < L -> length x = n * (2 * L) ->
  (forall p, p < L -> rd twl (p * ts) = Ok (tw p)) ->
  rdit2_stage rnd twl L (2 * L) ts x = Ok (stage_list bp1 bm1 L tw x).
Proof.
  intros twl L n ts tw x HL Hx Htw. unfold rdit2_stage. apply gstage_loop with (n := n); auto.
  intros k y Hk Hy. apply (rblock_ok twl (fun p => p * ts)); auto.
Qed.

Lemma rv2_stage_ok : forall twl L n (tw : nat -> C) (x : list C), 0 < L -> 0 < n -> length x = n * (2 * L) ->
  (forall p, p < L -> rd twl (p * n) = Ok (tw p)) ->
  rdit2_v2_stage rnd twl (2 * L) x = Ok (stage_list bp1 bm1 L tw x).
Proof.
  intros twl L n tw x HL Hn Hx Htw. unfold rdit2_v2_stage.
  assert (E1 : 2 * L / 2 = L). { rewrite Nat.mul_comm, Nat.div_mul; lia. }
  assert (E2 : length x / (2 * L) = n). { rewrite Hx, Nat.div_mul; lia. }
  rewrite E1, E2. apply gstage_loop with (n := n); auto.
  intros k y Hk Hy.
  assert (Sh : forall (body : nat -> list C -> outcome (list C)), for_range k (k + L) body y = for_range 0 L (fun j => body (k + j)) y).
  { intros body. unfold for_range. rewrite Nat.sub_0_r. replace (k + L - k) with L by lia.
    assert (G : forall m lo s, loop m (k + lo) 1 body s = loop m lo 1 (fun j => body (k + j)) s).
    { induction m as [|m IH]; intros lo s; cbn [loop]; auto. destruct (body (k + lo) s); cbn [bind]; auto. rewrite <- IH. f_equal. lia. }
    specialize (G L 0 y). rewrite Nat.add_0_r in G. exact G. }
  rewrite Sh. apply gblock_ok; auto. intros j l Hj Hl. replace (k + j - k) with j by lia. rewrite Htw by auto. cbn [bind].
  rewrite (rd_ok _ l (k + j) C0), (rd_ok _ l (k + j + L) C0) by lia. cbn [bind]. cbv zeta.
  destruct (two_writes l (k + j + L) (k + j) (rsub (nth (k + j) l C0) (rmul (nth (k + j + L) l C0) (tw j))) (radd (nth (k + j) l C0) (rmul (nth (k + j + L) l C0) (tw j)))) as (l' & E & L' & N); try lia.
  exists l'. split; [exact E|]. split; auto. intros i. rewrite N. unfold bp1, bm1. rewrite (rmul_comm (tw j)).
  destruct (Nat.eqb_spec i (k + j + L)); destruct (Nat.eqb_spec i (k + j)); auto. lia.
Qed.

(** The stages of a transform of order [p] with the table [tw]: what every kernel computes. *)
Fixpoint stages (p : nat) (twl : list C) (s : nat) (x : list C) : list C :=
  match s with
  | O => x
  | S s' =>
    let y := stages p twl s' x in
    match s' with
    | O => stage_list bp0 bm0 1 (fun _ => C1) y
    | _ => stage_list bp1 bm1 (2 ^ s') (fun k => nth (k * 2 ^ (p - s' - 1)) twl C0) y
    end
  end.

Lemma stages_length : forall p twl s x, length (stages p twl s x) = length x.
Proof. induction s as [|s IH]; intros x; cbn [stages]; auto. destruct s; rewrite stage_list_length; auto. Qed.

Lemma half_split : forall p s, s < p -> 2 ^ p = 2 ^ (p - s - 1) * (2 * 2 ^ s).
Proof. intros p s H. replace (2 * 2 ^ s) with (2 ^ S s) by (cbn [Nat.pow]; auto). rewrite <- Nat.pow_add_r. f_equal. lia. Qed.

Lemma tw_in : forall p s k, s < p -> k < 2 ^ s -> k * 2 ^ (p - s - 1) < 2 ^ (p - 1).
Proof.
  intros p s k Hs Hk. replace (p - 1) with (s + (p - s - 1)) by lia. rewrite Nat.pow_add_r. assert (0 < 2 ^ (p - s - 1)) by (apply Nat.neq_0_lt_0, Nat.pow_nonzero; lia). nia.
Qed.

Lemma pow2_pos : forall s, 0 < 2 ^ s.
Proof. intros. apply Nat.neq_0_lt_0, Nat.pow_nonzero. lia. Qed.

Section Kernels.
Variables (p : nat) (twl x : list C).
Hypotheses (Hp : 0 < p) (Hx : length x = 2 ^ p) (Ht : length twl = 2 ^ (p - 1)).

Lemma first_stage : rdit2_stage0 rnd x = Ok (stages p twl 1 x).
Proof using All. cbn [stages]. apply rstage0_ok with (n := 2 ^ (p - 1)). rewrite Hx. replace p with (S (p - 1)) at 1 by lia. rewrite Nat.pow_succ_r'. lia. Qed.

Lemma next_stage : forall s, 0 < s < p -> rdit2_stage rnd twl (2 ^ s) (2 * 2 ^ s) (2 ^ (p - s - 1)) (stages p twl s x) = Ok (stages p twl (S s) x).
Proof using All.
  intros s Hs. cbn [stages]. destruct s as [|s]; [lia|]. apply rstage_ok with (n := 2 ^ (p - S s - 1)); [apply pow2_pos|rewrite stages_length, Hx; apply half_split; lia|].
  intros q Hq. apply rd_ok. rewrite Ht. apply tw_in; lia.
Qed.

Lemma rv3_ok : rdit2_v3 rnd x twl = Ok (stages p twl p x).
Proof using All.
  unfold rdit2_v3. rewrite Hx, bit_log2_pow. cbn [bind]. rewrite first_stage. cbn [bind].
  destruct (for_range_inv (list C) (fun s y => y = stages p twl s x) 1 p
    (fun stage x0 => rdit2_stage rnd twl (2 ^ stage) (2 ^ (stage + 1)) (2 ^ (p - stage - 1)) x0) (stages p twl 1 x)) as [y [E ->]]; auto.
  intros s y Hs ->. eexists. split; [|reflexivity]. rewrite Nat.add_1_r, Nat.pow_succ_r'. apply next_stage. lia.
Qed.

Lemma rv1_ok : rdit2_v1 rnd x twl = Ok (stages p twl p x).
Proof using All.
  unfold rdit2_v1. rewrite Hx, bit_log2_pow. cbn [bind]. rewrite first_stage. cbn [bind].
  destruct (for_range_inv (nat * nat * list C) (fun s st => st = (2 ^ s, 2 * 2 ^ s, stages p twl s x)) 1 p
    (fun (stage : nat) (s : nat * nat * list C) =>
      let '(stage_length, stride, x0) := s in
      x2 <- rdit2_stage rnd twl stage_length stride (2 ^ (p - stage - 1)) x0;;
      Ok (stage_length * 2, stride * 2, x2)) (2, 4, stages p twl 1 x)) as [y [E ->]]; auto.
  - intros s y Hs ->. rewrite next_stage by lia. cbn [bind]. eexists. split; [reflexivity|]. rewrite Nat.pow_succ_r'. f_equal. f_equal; lia.
  - rewrite E. reflexivity.
Qed.

Lemma rv4_ok : 2 <= p -> rdit2_v4 rnd x twl = Ok (stages p twl p x).
Proof using All.
  intros P2. unfold rdit2_v4. rewrite Hx, bit_log2_pow. cbn [bind]. rewrite first_stage. cbn [bind]. destruct (Nat.eqb_spec p 0); [lia|].
  destruct (for_range_inv (list C) (fun s y => y = stages p twl s x) 1 (p - 1)
    (fun stage x0 => rdit2_stage rnd twl (2 ^ stage) (2 ^ (stage + 1)) (2 ^ (p - stage - 1)) x0) (stages p twl 1 x)) as [y [E ->]]; auto; [lia| |].
  - intros s y Hs ->. eexists. split; [|reflexivity]. rewrite Nat.add_1_r, Nat.pow_succ_r'. apply next_stage. lia.
  - rewrite E. cbn [bind]. rewrite stages_length, Hx.
    assert (Eh : 2 ^ p / 2 = 2 ^ (p - 1)). { replace p with (S (p - 1)) at 1 by lia. rewrite Nat.pow_succ_r', Nat.mul_comm, Nat.div_mul; lia. }
    rewrite Eh. pose proof (next_stage (p - 1) ltac:(lia)) as N. replace (S (p - 1)) with p in N by lia. rewrite <- N.
    replace (p - (p - 1) - 1) with 0 by lia. unfold rdit2_stage. rewrite stages_length, Hx. rewrite for_step_loop with (cnt := 1). 
    2:{ pose proof (pow2_pos (p - 1)). lia. } 2:{ rewrite (half_split p (p - 1)) by lia. replace (p - (p - 1) - 1) with 0 by lia. change (2 ^ 0) with 1. lia. }
    cbn [loop].
    assert (Ext : forall y, for_range 0 (2 ^ (p - 1)) (fun pair x => tw <- rd twl pair ;; rdit2_butterfly rnd tw pair (pair + 2 ^ (p - 1)) x) y =
      for_range 0 (2 ^ (p - 1)) (fun pair x => tw <- rd twl (pair * 2 ^ 0) ;; rdit2_butterfly rnd tw (0 + pair) (0 + pair + 2 ^ (p - 1)) x) y).
    { intros y. apply for_range_ext. intros j s _. change (2 ^ 0) with 1. rewrite Nat.mul_1_r. reflexivity. }
    rewrite Ext. destruct (for_range 0 (2 ^ (p - 1)) _ _); reflexivity.
Qed.

Lemma rv2_loop : forall m s fuel, s + m = p -> 0 < s -> m < fuel ->
  exists q, while_fuel fuel (fun s : nat * list C => fst s <=? length (snd s))
      (fun s => x <- rdit2_v2_stage rnd twl (fst s) (snd s) ;; Ok (fst s * 2, x)) (2 ^ S s, stages p twl s x) = Ok (q, stages p twl p x).
Proof using All.
  induction m as [|m IH]; intros s fuel Hsm Hs Hf; destruct fuel as [|fuel]; try lia; cbn [while_fuel fst snd]; rewrite stages_length, Hx, Nat.pow_succ_r'.
  - replace s with p by lia. pose proof (pow2_pos p). destruct (Nat.leb_spec (2 * 2 ^ p) (2 ^ p)); [lia|]. eexists. reflexivity.
  - assert (Le : 2 ^ S s <= 2 ^ p) by (apply Nat.pow_le_mono_r; lia). rewrite Nat.pow_succ_r' in Le. destruct (Nat.leb_spec (2 * 2 ^ s) (2 ^ p)); [|lia].
    assert (E : rdit2_v2_stage rnd twl (2 * 2 ^ s) (stages p twl s x) = Ok (stages p twl (S s) x)).
    { cbn [stages]. destruct s as [|s]; [lia|]. apply rv2_stage_ok with (n := 2 ^ (p - S s - 1)); try apply pow2_pos; [rewrite stages_length, Hx; apply half_split; lia|].
      intros q Hq. apply rd_ok. rewrite Ht. apply tw_in; lia. }
    rewrite E. cbn [bind]. replace (2 * 2 ^ s * 2) with (2 ^ S (S s)) by (rewrite !Nat.pow_succ_r'; lia). apply IH; lia.
Qed.

Lemma rv2_ok : rdit2_v2 rnd x twl = Ok (stages p twl p x).
Proof using All.
  unfold rdit2_v2. rewrite first_stage. cbn [bind]. rewrite stages_length, Hx.
  destruct (rv2_loop (p - 1) 1 (2 ^ p)) as [q E]; try lia; [pose proof (Nat.pow_gt_lin_r 2 p); lia|]. change (2 ^ 2) with 4 in E. rewrite E. reflexivity.
Qed.
End Kernels.
End Rounded.
