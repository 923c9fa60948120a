(** Real-valued statements and the double-insert counterexample. *)
From Coq Require Import Reals List Arith Bool Lia Lra.
From Verif Require Import Base.Outcome Base.OutcomeFacts Base.Alias Model.Csr Spec.Sparse Proof.CsrProof.
Import ListNotations.
Local Open Scope R_scope.

Lemma real_fma_in_place : forall (m : csr R) r x out, made_once 0 m ->
  (r < c_rows m)%nat -> length x = c_cols m -> length out = c_cols m ->
  exists out', csr_multiply_add Rmult Rplus (Other x) m r Self out = Ok out' /\ length out' = length out /\
    forall c, (c < c_cols m)%nat -> exists v, csr_get 0 m r c = Ok v /\
      nth c out' 0 = nth c out 0 + nth c x 0 * v.
Proof.
  intros m r x out H Hr Hx Ho.
  destruct (made_once_fma R 0 Rmult Rplus m r x out H) as [o [E [L V]]]; auto.
  { intros. ring. }
  exists o. split; auto. split; auto. intros c Hc. destruct (V c Hc) as [v [E1 E2]]. exists v. split; auto. rewrite E2. ring.
Qed.

Lemma double_insert_disagrees : exists m : csr R, run_inserts [(0%nat, 0%nat, 2); (0%nat, 0%nat, 3)] (csr_empty 1 1) = Ok m /\
  csr_get 0 m 0 0 = Ok (3) /\
  csr_multiply_add Rmult Rplus (Other [1]) m 0 Self [0] = Ok [5] /\ 5 <> 0 + 1 * 3.
Proof.
  eexists. split; [reflexivity|]. split. { reflexivity. } split. { cbn. do 2 f_equal. ring. } simpl. lra.
Qed.

(** Out of place, an unstored column does not receive z. *)
Lemma out_of_place_not_z : exists m out', made_once 0 m /\
  csr_multiply_add Rmult Rplus (Other [1; 1]) m 0 (Other [7; 7]) [0; 0] = Ok out' /\
  csr_get 0 m 0 1 = Ok 0 /\ nth 1 out' 0 <> nth 1 [1; 1] 0 * 0 + nth 1 [7; 7] 0.
Proof.
  exists (csr_empty 1 2), [0; 0]. split. { constructor. } split. { reflexivity. } split. { reflexivity. }
  simpl. lra.
Qed.
