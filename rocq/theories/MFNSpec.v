(** Vocabulary of the properties of functions of a matrix times a vector. *)
From mathcomp Require Import all_ssreflect all_algebra.
From Verif Require Import GSSpec.
Set Implicit Arguments. Unset Strict Implicit. Unset Printing Implicit Defensive.
Import GRing.Theory Num.Theory.
Local Open Scope ring_scope.

Section Spec.
Variables (F : numFieldType) (V : lmodType F).
(** p(T) b *)
Definition polop (T : V -> V) (p : {poly F}) (b : V) : V := \sum_(i < size p) p`_i *: iter i T b.
(** The matrix of order n with entries H times a vector; the first column of p(H). *)
Definition mulh (n : nat) (H : nat -> nat -> F) (c : nat -> F) (k : nat) : F :=
  if (k < n)%N then \sum_(0 <= j < n) H k j * c j else 0.
Definition e1 (k : nat) : F := if k == 0%N then 1 else 0.
Definition polcol (n : nat) (H : nat -> nat -> F) (p : {poly F}) (k : nat) : F :=
  \sum_(i < size p) p`_i * iter i (mulh n H) e1 k.

(** op W = W H + beta v e_n^T with H upper Hessenberg *)
Definition arnoldi (op : V -> V) (n : nat) (W : nat -> V) (H : nat -> nat -> F) (beta : F) (v : V) : Prop :=
  (forall j, (j < n)%N -> op (W j) = comb W n (fun i => H i j) + (if j.+1 == n then beta *: v else 0)) /\
  (forall i j, (i < n)%N -> (j.+1 < i)%N -> H i j = 0).

(** On the matrix H of order n the function is the polynomial p. *)
Definition represents (fmv : nat -> (nat -> nat -> F) -> nat -> F) (p : {poly F}) (n : nat) (H : nat -> nat -> F) : Prop :=
  forall k, (k < n)%N -> fmv n H k = polcol n H p k.
End Spec.
