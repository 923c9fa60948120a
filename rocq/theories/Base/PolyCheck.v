(** A checker for polynomials that are not negative on an interval. *)
From Coq Require Import Reals List ZArith Lia Lra.
Import ListNotations.
Local Open Scope R_scope.

(** Coefficients, lowest first. *)
Fixpoint peval (p : list Z) (x : R) : R :=
  match p with [] => 0 | a :: p => IZR a + x * peval p x end.

(** p(x + 1) *)
Fixpoint padd (p q : list Z) : list Z :=
  match p, q with
  | [], q => q
  | p, [] => p
  | a :: p, b :: q => (a + b)%Z :: padd p q
  end.
Fixpoint pshift (p : list Z) : list Z :=
  match p with [] => [] | a :: p => let q := pshift p in padd [a] (padd q (0%Z :: q)) end.

(** A lower bound of p on [0, 1]. *)
Fixpoint plow (p : list Z) : Z :=
  match p with [] => 0%Z | a :: p => (a + Z.min 0 (plow p))%Z end.

(** p is not negative on [0, n]. *)
Fixpoint pcheck (n : nat) (p : list Z) : bool :=
  match n with O => true | S n => (0 <=? plow p)%Z && pcheck n (pshift p) end.

Lemma padd_ok : forall p q x, peval (padd p q) x = peval p x + peval q x.
Proof.
  induction p as [|a p IH]; intros q x; [cbn; ring|]. destruct q as [|b q]; [cbn; ring|]. cbn [padd peval]. rewrite IH, plus_IZR. ring.
Qed.

Lemma pshift_ok : forall p x, peval (pshift p) x = peval p (x + 1).
Proof.
  induction p as [|a p IH]; intros x; [reflexivity|]. cbn [pshift]. cbv zeta. rewrite !padd_ok. cbn [peval]. rewrite IH. ring.
Qed.

Lemma plow_ok : forall p x, 0 <= x <= 1 -> IZR (plow p) <= peval p x.
Proof.
  induction p as [|a p IH]; intros x H; [cbn; lra|]. cbn [plow peval]. rewrite plus_IZR. apply Rplus_le_compat_l. specialize (IH x H).
  destruct (Z.min_spec 0 (plow p)) as [(A & ->)|(A & ->)].
  - apply Rmult_le_pos; [lra|]. apply IZR_lt in A. lra.
  - apply IZR_le in A. destruct (Rle_lt_dec 0 (peval p x)); [nra|]. nra.
Qed.

Lemma pcheck_ok : forall n p, pcheck (S n) p = true -> forall x, 0 <= x <= INR (S n) -> 0 <= peval p x.
Proof.
  induction n as [|n IH]; intros p H x Hx; change (pcheck (S ?k) p) with ((0 <=? plow p)%Z && pcheck k (pshift p))%bool in H;
    apply Bool.andb_true_iff in H; destruct H as [H1 H2]; apply Z.leb_le, IZR_le in H1.
  - cbn [INR] in Hx. pose proof (plow_ok p x Hx). lra.
  - destruct (Rle_lt_dec x 1) as [L|L].
    + pose proof (plow_ok p x (conj (proj1 Hx) L)). lra.
    + replace x with ((x - 1) + 1) by ring. rewrite <- pshift_ok. apply IH; auto. rewrite S_INR in Hx. lra.
Qed.
