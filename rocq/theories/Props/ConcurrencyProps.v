(** Property theorems C73: calls of FFT plans from concurrent threads, under every schedule.
    Threads, schedules and races are defined in Spec/Interleaving.v, calls and what they
    should produce in Spec/Jobs.v. *)
From Coq Require Import List Arith Lia Reals Lra.
From Verif Require Import Base.Outcome Base.OutcomeFacts Base.Cplx Spec.Dft Spec.Transforms Spec.Interleaving Spec.Jobs.
From Verif Require Import Model.Fft2 Model.FftApps Model.Concurrent.
From Verif Require Import Proof.Fft2Proof Proof.FftCorollaries Proof.RfftProof Proof.InterleavingProof Proof.ConcurrentProof.
Import ListNotations.
Local Arguments Nat.div : simpl never.
Local Arguments Nat.pow : simpl never.

(** Threads that make calls with no output or scratch buffer of one in use by another (plans
    of complex transforms and input vectors may be shared): whatever the schedule, there is
    no race, no crash and no deadlock, all finish within a bounded number of accesses, and
    then each call has its own result and nothing else has changed. *)
Theorem C73_any_schedule : forall m0 jobs,
  (forall j, In j jobs -> ready m0 j) ->
  (forall s t a b, s <> t -> nth_error jobs s = Some a -> nth_error jobs t = Some b -> separate a b) ->
  exists bound, forall n c, steps n (map job_prog jobs, m0) c ->
    ~ racing c /\ ~ crashed c /\ n <= bound /\ (finished c \/ exists c', step c c') /\
    (finished c -> (forall j, In j jobs -> result m0 (snd c) j) /\
       forall o i, (forall j, In j jobs -> ~ In o (writes j)) -> snd c (o, i) = m0 (o, i)).
Proof. exact any_schedule. Qed.

(** In particular one complex plan can serve any number of threads, each with its vector. *)
Theorem C73_one_plan_many_threads : forall m0 p calls,
  0 < pa_order p -> plan_in m0 p -> NoDup (map fst calls) ->
  (forall x d, In (x, d) calls -> ~ In x (plan_objects p) /\ exists xs, holds Cpx m0 x xs /\ length xs = 2 ^ pa_order p) ->
  forall n c, steps n (map (fun q => fft_prog p (fst q) (snd q)) calls, m0) c ->
    ~ racing c /\ ~ crashed c /\
    (finished c -> forall x d xs, In (x, d) calls -> holds Cpx m0 x xs -> holds Cpx (snd c) x (DFT_list d xs)).
Proof.
  intros m0 p calls Hp Hpl ND Hc n c Hs.
  set (jobs := map (fun q => FftJob p (fst q) (snd q)) calls).
  assert (E : map (fun q => fft_prog p (fst q) (snd q)) calls = map job_prog jobs).
  { unfold jobs. rewrite map_map. reflexivity. }
  rewrite E in Hs.
  destruct (C73_any_schedule m0 jobs) as [b G].
  - intros j Hj. unfold jobs in Hj. apply in_map_iff in Hj. destruct Hj as [[x d] [<- Hin]].
    destruct (Hc x d Hin) as [Nx Hx]. split; [|split].
    + cbn [writes reads fst]. intros o [<-|[]]. exact Nx.
    + cbn [writes fst]. constructor; [simpl; tauto|constructor].
    + cbn [fst]. auto.
  - intros s t a b Nst Ha Hb. unfold jobs in Ha, Hb. rewrite nth_error_map in Ha, Hb.
    destruct (nth_error calls s) as [[x d]|] eqn:Es; [|discriminate]. destruct (nth_error calls t) as [[y e]|] eqn:Et; [|discriminate].
    inversion Ha; inversion Hb; subst. intros o Ho. cbn [writes reads fst] in *. destruct Ho as [<-|[]].
    destruct (Hc x d (nth_error_In _ _ Es)) as [Nx _]. split; auto. intros [Exy|[]].
    apply Nst. apply (proj1 (NoDup_nth_error (map fst calls)) ND).
    + rewrite map_length. apply nth_error_Some. congruence.
    + rewrite !nth_error_map, Es, Et. simpl. congruence.
  - destruct (G n c Hs) as (A & B & _ & _ & F). split; [exact A|]. split; [exact B|]. intros Fin x d xs Hin Hx.
    destruct (F Fin) as [F1 _].
    assert (Hj : In (FftJob p x d) jobs).
    { unfold jobs. apply in_map_iff. exists (x, d). auto. }
    exact (F1 _ Hj xs Hx).
Qed.

(** A real plan must not be shared: it transforms in its own buffer.  Two threads that call
    one real plan race, and there is a schedule under which both return the second input's
    spectrum. *)
Theorem C73_shared_real_plan_refuted : forall m0 p buf in1 out1 in2 out2 x1 x2,
  ready m0 (RfftJob p buf in1 out1) -> ready m0 (RfftJob p buf in2 out2) ->
  out1 <> out2 -> out1 <> in2 -> out2 <> in1 -> ~ In out2 (plan_objects p) ->
  holds Flt m0 in1 x1 -> holds Flt m0 in2 x2 ->
  let threads := map job_prog [RfftJob p buf in1 out1; RfftJob p buf in2 out2] in
  (exists n c, steps n (threads, m0) c /\ racing c) /\
  exists n c, steps n (threads, m0) c /\ finished c /\
    holds Cpx (snd c) out1 (RDFT_list Forward x2) /\ holds Cpx (snd c) out2 (RDFT_list Forward x2).
Proof.
  intros m0 p buf in1 out1 in2 out2 x1 x2 R1 R2 N12 N3 N4 N5 H1 H2 threads.
  destruct R1 as (Own1 & ND1 & Hp & Hpl & (bs & Hb & Lb) & (xs1 & Hx1 & Lx1) & (os1 & Ho1 & Lo1)).
  destruct R2 as (Own2 & ND2 & _ & _ & _ & (xs2 & Hx2 & Lx2) & (os2 & Ho2 & Lo2)).
  rewrite <- (holds_fun _ Flt inj_Flt m0 in1 x1 xs1 H1 Hx1) in *.
  rewrite <- (holds_fun _ Flt inj_Flt m0 in2 x2 xs2 H2 Hx2) in *.
  cbn [writes reads] in Own1, Own2, ND1, ND2.
  pose proof (Own1 buf (or_introl eq_refl)) as B1. pose proof (Own2 buf (or_introl eq_refl)) as B2. simpl in B1, B2.
  assert (O1 : out1 <> buf) by (inversion ND1 as [|? ? A B]; subst; intros ->; apply A; simpl; auto).
  assert (O2 : out2 <> buf) by (inversion ND2 as [|? ? A B]; subst; intros ->; apply A; simpl; auto).
  assert (Npl : ~ In buf (plan_objects p)) by (intros K; apply B1; right; exact K).
  assert (Ni1 : in1 <> buf) by tauto. assert (Ni2 : in2 <> buf) by tauto.
  split.
  - (* both have read their first sample and are about to store it *)
    set (n := 2 ^ pa_order p).
    assert (Hn : 0 < n) by (apply pow_pos).
    assert (Shape : forall inp out, exists k, rfft_prog p buf inp out =
      Read (inp, 0) (fun v => match v with Flt r => Write (buf, 0) (Cpx (RtoC r)) k | _ => Crash end)).
    { intros inp out. unfold rfft_prog, rfft_transform_prog. fold n. cbv zeta. unfold pfor.
      destruct n as [|n'] eqn:En; [lia|].
      cbn [Nat.sub ploop]. unfold get_r at 1. unfold put at 1.
      change (0 <? S n') with true. cbn [pbind].
      eexists. f_equal. apply FunctionalExtensionality.functional_extensionality. intros [k|c|r]; cbn [pbind]; reflexivity. }
    destruct (Shape in1 out1) as [k1 S1]. destruct (Shape in2 out2) as [k2 S2].
    assert (V : forall inp xs, holds Flt m0 inp xs -> length xs = n -> exists r, m0 (inp, 0) = Some (Flt r)).
    { intros inp xs H L. destruct xs as [|r xs]; [simpl in L; lia|]. exists r. rewrite (H 0). reflexivity. }
    destruct (V in1 x1 H1 Lx1) as [r1 V1]. destruct (V in2 x2 H2 Lx2) as [r2 V2].
    exists 2, ([Write (buf, 0) (Cpx (RtoC r1)) k1; Write (buf, 0) (Cpx (RtoC r2)) k2], m0). split.
    + unfold threads. cbn [map job_prog]. rewrite S1, S2.
      apply (steps_S 1 _ ([Write (buf, 0) (Cpx (RtoC r1)) k1;
        Read (in2, 0) (fun v => match v with Flt r => Write (buf, 0) (Cpx (RtoC r)) k2 | _ => Crash end)], m0)).
      * apply (steps_S 0 _ ([Read (in1, 0) (fun v => match v with Flt r => Write (buf, 0) (Cpx (RtoC r)) k1 | _ => Crash end);
          Read (in2, 0) (fun v => match v with Flt r => Write (buf, 0) (Cpx (RtoC r)) k2 | _ => Crash end)], m0)).
        { constructor. }
        match goal with |- step (?ps, _) _ => apply (step_thread ps m0 0 (nth 0 ps Crash) (Write (buf, 0) (Cpx (RtoC r1)) k1) m0 eq_refl) end.
        cbn [nth thread_step]. rewrite V1. reflexivity.
      * match goal with |- step (?ps, _) _ => apply (step_thread ps m0 1 (nth 1 ps Crash) (Write (buf, 0) (Cpx (RtoC r2)) k2) m0 eq_refl) end.
        cbn [nth thread_step]. rewrite V2. reflexivity.
    + exists 0, 1. do 2 eexists. exists (buf, 0), true. split; [discriminate|]. repeat split; try reflexivity.
  - unfold threads. cbn [map job_prog].
    (* thread 0 up to the last loop, thread 1 completely, thread 0 to its end *)
    pose proof (run_rfft_transform m0 p buf in1 x1 bs Hp Hpl Npl Ni1 H1 Lx1 Hb Lb) as Ra.
    set (ma := with_obj Cpx m0 buf (DFT_list Forward (map RtoC x1))) in *.
    assert (Rb : run (rfft_prog p buf in2 out2) ma = Ok (tt, with_obj Cpx (with_obj Cpx ma buf (DFT_list Forward (map RtoC x2))) out2 (RDFT_list Forward x2))).
    { apply (run_rfft ma p buf in2 out2 x2 (DFT_list Forward (map RtoC x1)) os2); auto.
      - apply plan_in_with; auto.
      - apply holds_with_other; auto.
      - apply holds_with_obj.
      - rewrite DFT_list_length, map_length. auto.
      - apply holds_with_other; auto. }
    set (mb := with_obj Cpx (with_obj Cpx ma buf (DFT_list Forward (map RtoC x2))) out2 (RDFT_list Forward x2)) in *.
    assert (Rc : run (rfft_output_prog p buf out1) mb = Ok (tt, with_obj Cpx mb out1 (RDFT_list Forward x2))).
    { rewrite <- (firstn_DFT x2 (pa_order p)) by auto.
      apply (run_rfft_output mb p buf out1 (DFT_list Forward (map RtoC x2)) os1); auto.
      - apply holds_with_other; auto. apply holds_with_obj.
      - rewrite DFT_list_length, map_length. auto.
      - apply holds_with_other; auto. apply holds_with_other; auto. apply holds_with_other; auto. }
    destruct (steps_alone (rfft_transform_prog p buf in1) (fun _ => rfft_output_prog p buf out1) m0 ma
      [rfft_prog p buf in1 out1; rfft_prog p buf in2 out2] 0 eq_refl Ra) as [na Sa]. cbn [upd] in Sa.
    destruct (steps_to_end (rfft_prog p buf in2 out2) ma mb [rfft_output_prog p buf out1; rfft_prog p buf in2 out2] 1 eq_refl Rb)
      as [nb Sb]. cbn [upd] in Sb.
    destruct (steps_to_end (rfft_output_prog p buf out1) mb _ [rfft_output_prog p buf out1; Done tt] 0 eq_refl Rc)
      as [nc Sc]. cbn [upd] in Sc.
    eexists. eexists. split. { eapply steps_trans; [exact Sa|]. eapply steps_trans; [exact Sb|exact Sc]. }
    split; [|split].
    + intros q [<-|[<-|[]]]; reflexivity.
    + cbn [snd]. apply holds_with_obj.
    + cbn [snd]. apply holds_with_other; auto. apply holds_with_obj.
Qed.

(** Memories as the theorems ask for exist, for every order: a complex and two real vectors,
    transformed by threads that share the complex plan's tables and one input. *)
Example C73_hypotheses : forall p x y, 0 < p <= 27 -> length x = 2 ^ p -> length y = 2 ^ p ->
  exists m0, let pa := PlanArrays p 0 1 2 in holds Cpx m0 3 x /\ holds Flt m0 4 y /\
    let jobs := [FftJob pa 3 Forward; RfftJob pa 5 4 6; RfftJob pa 7 4 8] in
    (forall j, In j jobs -> ready m0 j) /\
    (forall s t a b, s <> t -> nth_error jobs s = Some a -> nth_error jobs t = Some b -> separate a b).
Proof.
  intros p x y Hp Lx Ly. destruct (fft_plan_object p Hp) as [pl [Hpl _]].
  set (n := 2 ^ p). set (buf := repeat C0 n). set (out := repeat C0 (n / 2 + 1)).
  exists (mem_of [map Index (p_reorder pl); map Cpx (p_wf pl); map Cpx (p_wb pl); map Cpx x; map Flt y;
    map Cpx buf; map Cpx out; map Cpx buf; map Cpx out]). intros pa.
  split; [intros i; reflexivity|]. split; [intros i; reflexivity|].
  intros jobs. 
  assert (PI : plan_in (mem_of [map Index (p_reorder pl); map Cpx (p_wf pl); map Cpx (p_wb pl); map Cpx x; map Flt y;
    map Cpx buf; map Cpx out; map Cpx buf; map Cpx out]) (PlanArrays p 0 1 2)).
  { exists pl. repeat split; auto; intros i; reflexivity. }
  split.
  - intros j [<-|[<-|[<-|[]]]].
    + split; [|split; [|split; [|split]]].
      * cbn [writes reads plan_objects pa_table pa_wf pa_wb]. intros o Ho Hi. simpl in Ho, Hi. lia.
      * cbn [writes]. repeat constructor. simpl. lia.
      * cbn. lia.
      * exact PI.
      * exists x. split; auto. intros i. reflexivity.
    + split; [|split; [|split; [|split; [|split; [|split]]]]].
      * cbn [writes reads plan_objects pa_table pa_wf pa_wb]. intros o Ho Hi. simpl in Ho, Hi. lia.
      * cbn [writes]. repeat constructor; simpl; lia.
      * cbn. lia.
      * exact PI.
      * exists buf. split. intros i; reflexivity. apply repeat_length.
      * exists y. split; auto. intros i. reflexivity.
      * exists out. split. intros i; reflexivity. apply repeat_length.
    + split; [|split; [|split; [|split; [|split; [|split]]]]].
      * cbn [writes reads plan_objects pa_table pa_wf pa_wb]. intros o Ho Hi. simpl in Ho, Hi. lia.
      * cbn [writes]. repeat constructor; simpl; lia.
      * cbn. lia.
      * exact PI.
      * exists buf. split. intros i; reflexivity. apply repeat_length.
      * exists y. split; auto. intros i. reflexivity.
      * exists out. split. intros i; reflexivity. apply repeat_length.
  - intros s t a b N Ha Hb.
    destruct s as [|[|[|s]]]; destruct t as [|[|[|t]]]; cbn [nth_error jobs] in Ha, Hb; try congruence;
    try (destruct s; discriminate); try (destruct t; discriminate);
    inversion Ha; inversion Hb; subst a b; intros o Ho; cbn [writes reads plan_objects pa_table pa_wf pa_wb] in *;
    simpl in Ho; split; intros Hi; simpl in Hi; lia.
Qed.

(** Two real calls with one plan and buffer, as in [C73_shared_real_plan_refuted]. *)
Example C73_shared_hypotheses : forall p x1 x2, 0 < p <= 27 -> length x1 = 2 ^ p -> length x2 = 2 ^ p ->
  exists m0 pa, pa_order pa = p /\ ready m0 (RfftJob pa 3 4 6) /\ ready m0 (RfftJob pa 3 5 7) /\
    ~ In 7 (plan_objects pa) /\ holds Flt m0 4 x1 /\ holds Flt m0 5 x2.
Proof.
  intros p x1 x2 Hp L1 L2. destruct (fft_plan_object p Hp) as [pl [Hpl _]].
  set (n := 2 ^ p). set (buf := repeat C0 n). set (out := repeat C0 (n / 2 + 1)).
  set (m := mem_of [map Index (p_reorder pl); map Cpx (p_wf pl); map Cpx (p_wb pl); map Cpx buf; map Flt x1;
    map Flt x2; map Cpx out; map Cpx out]).
  assert (PI : plan_in m (PlanArrays p 0 1 2)) by (exists pl; repeat split; auto; intros i; reflexivity).
  exists m, (PlanArrays p 0 1 2). split; [reflexivity|].
  assert (Rd : forall inp o x, length x = 2 ^ p -> holds Flt m inp x -> holds Cpx m o out -> 3 < inp < 6 -> 5 < o ->
    ready m (RfftJob (PlanArrays p 0 1 2) 3 inp o)).
  { intros inp o x Lx Hx Ho Hi Hoo. split; [|split; [|split; [|split; [|split; [|split]]]]].
    - cbn [writes reads plan_objects pa_table pa_wf pa_wb]. intros k Hk Hr. simpl in Hk, Hr. lia.
    - cbn [writes]. repeat constructor; simpl; lia.
    - cbn. lia.
    - exact PI.
    - exists buf. split. intros i; reflexivity. apply repeat_length.
    - exists x. auto.
    - exists out. split; auto. apply repeat_length. }
  split; [apply (Rd 4 6 x1); auto; try lia; intros i; reflexivity|].
  split; [apply (Rd 5 7 x2); auto; try lia; intros i; reflexivity|].
  split; [simpl; lia|]. split; intros i; reflexivity.
Qed.

Print Assumptions C73_any_schedule.
Print Assumptions C73_one_plan_many_threads.
Print Assumptions C73_shared_real_plan_refuted.
