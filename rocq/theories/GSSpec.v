(** Vocabulary of the Gram-Schmidt properties: inner products, orthonormal families, spans. *)
From mathcomp Require Import all_ssreflect all_algebra.
Set Implicit Arguments. Unset Strict Implicit. Unset Printing Implicit Defensive.
Import GRing.Theory Num.Theory.
Local Open Scope ring_scope.

Section Spec.
Variables (F : numFieldType) (V : lmodType F).

(** Linear in the first argument, Hermitian for a conjugation that leaves real numbers alone. *)
Definition hermitian (conj : F -> F) (dot : V -> V -> F) : Prop :=
  [/\ (forall a x y z, dot (a *: x + y) z = a * dot x z + dot y z),
      (forall x y, dot x y = conj (dot y x)),
      (forall x, dot x x \is Num.real) &
      (forall a, a \is Num.real -> conj a = a)].
Definition positive_definite (dot : V -> V -> F) : Prop := forall x, x != 0 -> 0 < dot x x.
Definition square_root (sqrt : F -> F) : Prop := forall a, 0 <= a -> 0 <= sqrt a /\ sqrt a ^+ 2 = a.
Definition is_norm (dot : V -> V -> F) (x : V) (a : F) : Prop := 0 <= a /\ a ^+ 2 = dot x x.

(** The first n vectors of a family. *)
Definition orthonormal (dot : V -> V -> F) (u : nat -> V) (n : nat) : Prop :=
  forall i j, (i < n)%N -> (j < n)%N -> dot (u i) (u j) = (i == j)%:R.
Definition comb (u : nat -> V) (n : nat) (c : nat -> F) : V := \sum_(0 <= i < n) c i *: u i.
Definition in_span (u : nat -> V) (n : nat) (v : V) : Prop := exists c, v = comb u n c.

(** Indefinite inner product: the products of the vectors with themselves are the signature. *)
Definition sig_orthogonal (dot : V -> V -> F) (u : nat -> V) (sig : nat -> F) (n : nat) : Prop :=
  (forall i j, (i < n)%N -> (j < n)%N -> dot (u i) (u j) = if i == j then sig i else 0) /\
  (forall i, (i < n)%N -> sig i = 1 \/ sig i = -1).
End Spec.
