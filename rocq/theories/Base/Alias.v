(** Array arguments that may be the same object as the output. Nothing here models a
    particular function of /repo. *)
From Coq Require Import List Arith Lia.
From Verif Require Import Base.Outcome Base.OutcomeFacts.
Import ListNotations.

(** An input array of an in/out algorithm: a different array, or the output itself. *)
Inductive operand (T : Type) : Type :=
| Other (l : list T)
| Self.
Arguments Other {T} _.
Arguments Self {T}.

(** Current contents of an input when the output currently holds [out]. *)
Definition contents {T} (o : operand T) (out : list T) : list T :=
  match o with Other l => l | Self => out end.

(** Element-wise image of two vectors. *)
Definition zip_with {A B D} (f : A -> B -> D) (x : list A) (y : list B) : list D :=
  map (fun p => f (fst p) (snd p)) (combine x y).

Lemma zip_with_length : forall A B D (f : A -> B -> D) x y,
  length (zip_with f x y) = Nat.min (length x) (length y).
Proof. intros. unfold zip_with. rewrite map_length, combine_length. auto. Qed.

Lemma nth_zip_with : forall A B D (f : A -> B -> D) x y i da db d,
  i < length x -> i < length y -> nth i (zip_with f x y) d = f (nth i x da) (nth i y db).
Proof.
  intros A B D f x. induction x; intros y i da db d Hx Hy; simpl in *; [lia|].
  destruct y; simpl in *; [lia|]. destruct i; auto. apply IHx; lia.
Qed.

Lemma zip_with_tab : forall A B D (f : A -> B -> D) x y da db, length x = length y ->
  zip_with f x y = tab (length x) (fun i => f (nth i x da) (nth i y db)).
Proof.
  intros A B D f x y da db H.
  destruct x as [|a x0]. { destruct y; simpl in H; [reflexivity|discriminate]. }
  destruct y as [|b y0]. { discriminate. }
  apply list_eq_tab with (d := f a b).
  - rewrite zip_with_length. lia.
  - intros. apply nth_zip_with; simpl in *; lia.
Qed.

Lemma contents_nth : forall T (o : operand T) out out' j d,
  nth j out d = nth j out' d -> nth j (contents o out) d = nth j (contents o out') d.
Proof. intros T [l|] out out' j d H; simpl; auto. Qed.

Lemma contents_length : forall T (o : operand T) out out',
  length out = length out' -> length (contents o out) = length (contents o out').
Proof. intros T [l|] out out' H; simpl; auto. Qed.
