(** Property theorems C10-C12: sparse matrices.  Specification in Spec/Sparse.v. *)
From Coq Require Import Reals List Arith Bool Lia.
From Verif Require Import Base.Outcome Base.Alias Model.Csr Spec.Sparse Proof.CsrProof Proof.CsrCorollaries.
Import ListNotations.

(** C10. *)
Theorem C10_build : forall (T : Type) (zero : T) rows cols mat (keep : nat -> nat -> T -> bool),
  length mat = rows -> (forall l, In l mat -> length l = cols) ->
  exists m, csr_build zero rows cols mat keep = Ok m /\ csr_wf m /\ c_rows m = rows /\ c_cols m = cols /\
    length (c_values m) =
      list_sum (map (fun r => length (filter (fun c => keep r c (elem zero mat r c)) (seq 0 cols))) (seq 0 rows)) /\
    forall r c, r < rows -> c < cols ->
      csr_get zero m r c = Ok (if keep r c (elem zero mat r c) then elem zero mat r c else zero).
Proof. exact csr_build_get. Qed.

Example C10_example : exists m, csr_build 0 2 3 [[1; 0; 2]; [0; 5; 0]] (fun _ _ v => 0 <? v) = Ok m /\
  c_values m = [1; 2; 5] /\ c_colidx m = [0; 2; 1] /\ c_rowidx m = [0; 2; 3] /\ csr_get 0 m 1 1 = Ok 5.
Proof. eexists. repeat split. Qed.

(** C11: every history of in-range inserts. *)
Theorem C11_insert_history : forall (T : Type) (zero : T) rows cols ops,
  (forall r c v, In (r, c, v) ops -> r < rows /\ c < cols) ->
  exists m, run_inserts ops (csr_empty rows cols) = Ok m /\ csr_wf m /\ length (c_values m) = length ops /\
    forall r c, r < rows -> csr_get zero m r c = Ok (last_insert zero ops r c).
Proof. exact inserts_history. Qed.

(** One insert into any reachable matrix changes that element and no other. *)
Theorem C11_insert_get : forall (T : Type) (zero : T) m r c v, made zero m -> r < c_rows m -> c < c_cols m ->
  exists m', csr_insert m r c v = Ok m' /\ c_rows m' = c_rows m /\ c_cols m' = c_cols m /\
    length (c_values m') = S (length (c_values m)) /\
    csr_get zero m' r c = Ok v /\
    forall r' c', r' < c_rows m -> (r', c') <> (r, c) -> csr_get zero m' r' c' = csr_get zero m r' c'.
Proof. exact made_insert_get. Qed.

Theorem C11_reachable_wf : forall (T : Type) (zero : T) m, made zero m ->
  csr_wf m /\ forall r c, r < c_rows m -> exists v, csr_get zero m r c = Ok v.
Proof. exact made_access. Qed.

Example C11_example : exists m, run_inserts [(1, 2, 7); (0, 1, 4); (1, 0, 9); (1, 2, 8)] (csr_empty 2 3) = Ok m /\
  c_colidx m = [1; 0; 2; 2] /\ c_rowidx m = [0; 1; 4] /\ csr_get 0 m 1 2 = Ok 8 /\ csr_get 0 m 0 0 = Ok 0.
Proof. eexists. repeat split. Qed.

(** C12: in place, out[c] += x[c] * M(r, c) for every column. *)
Theorem C12_multiply_add : forall (m : csr R) r x out, made_once 0%R m ->
  r < c_rows m -> length x = c_cols m -> length out = c_cols m ->
  exists out', csr_multiply_add Rmult Rplus (Other x) m r Self out = Ok out' /\ length out' = length out /\
    forall c, c < c_cols m -> exists v, csr_get 0%R m r c = Ok v /\
      nth c out' 0%R = (nth c out 0 + nth c x 0 * v)%R.
Proof. exact real_fma_in_place. Qed.

(** Any element type and any operations; z another vector: columns without an entry keep
    their old output. *)
Theorem C12_multiply_add_out_of_place : forall (T : Type) (zero : T) (mul add : T -> T -> T) m r x z out,
  made_once zero m -> r < c_rows m -> length x = c_cols m -> length z = c_cols m -> length out = c_cols m ->
  exists out', csr_multiply_add mul add (Other x) m r (Other z) out = Ok out' /\ length out' = length out /\
    forall c, c < c_cols m ->
      (fresh m r c -> nth c out' zero = nth c out zero) /\
      (~ fresh m r c -> exists v, csr_get zero m r c = Ok v /\
         nth c out' zero = add (mul (nth c x zero) v) (nth c z zero)).
Proof. exact made_once_fma_other. Qed.

(** so the documented out = x * y[row] + z fails out of place, *)
Theorem C12_out_of_place_refuted : exists (m : csr R) out', made_once 0%R m /\
  csr_multiply_add Rmult Rplus (Other [1; 1]%R) m 0 (Other [7; 7]%R) [0; 0]%R = Ok out' /\
  csr_get 0%R m 0 1 = Ok 0%R /\ nth 1 out' 0%R <> (nth 1 [1; 1] 0 * 0 + nth 1 [7; 7] 0)%R.
Proof. exact out_of_place_not_z. Qed.

(** and after a double insert multiply_add uses both values while a read sees the last. *)
Theorem C12_double_insert_refuted : exists m : csr R,
  run_inserts [(0, 0, 2%R); (0, 0, 3%R)] (csr_empty 1 1) = Ok m /\
  csr_get 0%R m 0 0 = Ok 3%R /\
  csr_multiply_add Rmult Rplus (Other [1%R]) m 0 Self [0%R] = Ok [5%R] /\ 5%R <> (0 + 1 * 3)%R.
Proof. exact double_insert_disagrees. Qed.

Example C12_example : exists m, csr_build 0 2 3 [[1; 0; 2]; [0; 5; 0]] (fun _ _ v => 0 <? v) = Ok m /\
  csr_multiply_add Nat.mul Nat.add (Other [10; 20; 30]) m 0 Self [1; 1; 1] = Ok [11; 1; 61].
Proof. eexists. repeat split. Qed.

Print Assumptions C10_build.
Print Assumptions C11_insert_history.
Print Assumptions C11_insert_get.
Print Assumptions C11_reachable_wf.
Print Assumptions C12_multiply_add.
Print Assumptions C12_multiply_add_out_of_place.
Print Assumptions C12_out_of_place_refuted.
Print Assumptions C12_double_insert_refuted.
