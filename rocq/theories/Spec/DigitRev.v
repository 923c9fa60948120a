(** Specification: reversal of the base-[r] digits of an index. *)
From Coq Require Import Arith.

(** [digit_rev r k i]: the number whose [k] base-[r] digits are those of [i] in
    reverse order (least significant digit becomes most significant). *)
Fixpoint digit_rev (r k i : nat) : nat :=
  match k with
  | O => 0
  | S k' => (i mod r) * r ^ k' + digit_rev r k' (i / r)
  end.
