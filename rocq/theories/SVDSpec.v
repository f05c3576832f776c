(** Vocabulary of the singular value properties. *)
From mathcomp Require Import all_ssreflect all_algebra.
From Verif Require Import GSSpec.
Set Implicit Arguments. Unset Strict Implicit. Unset Printing Implicit Defensive.
Import GRing.Theory Num.Theory.
Local Open Scope ring_scope.

Section Spec.
Variables (F : numFieldType) (W : lmodType F) (dot : W -> W -> F).

Definition linop (a : W -> W) : Prop := forall c x y, a (c *: x + y) = c *: a x + a y.
Definition adjoint (a b : W -> W) : Prop := forall x y, dot (a x) y = dot x (b y).
Definition self_adjoint (a : W -> W) : Prop := adjoint a a.

(** What a Hermitian eigensolver returns, whatever its accuracy: orthonormal vectors in which the operator is
    diagonal (eigenvectors, or Ritz vectors). *)
Definition ritz_pairs (c : W -> W) (n : nat) (lambda : nat -> F) (x : nat -> W) : Prop :=
  orthonormal dot x n /\
  forall i j, (i < n)%N -> (j < n)%N -> dot (c (x i)) (x j) = if i == j then lambda i else 0.

(** PetscRealPart on the real numbers *)
Definition real_part (re : F -> F) : Prop := forall a, a \is Num.real -> re a = a.
(** PetscSortRealWithPermutation: a permutation of 0 .. n-1 that makes the values ascending. *)
Definition sorting (sort_perm : nat -> (nat -> F) -> nat -> nat) : Prop :=
  forall n f, (forall i, (i < n)%N -> f i \is Num.real) ->
  [/\ (forall i, (i < n)%N -> (sort_perm n f i < n)%N),
      (forall i j, (i < n)%N -> (j < n)%N -> sort_perm n f i = sort_perm n f j -> i = j) &
      (forall i j, (i <= j < n)%N -> f (sort_perm n f i) <= f (sort_perm n f j))].
(** A numbering of 0 .. n-1 *)
Definition renumbering (n : nat) (p : nat -> nat) : Prop :=
  (forall i, (i < n)%N -> (p i < n)%N) /\ (forall i j, (i < n)%N -> (j < n)%N -> p i = p j -> i = j).
End Spec.
