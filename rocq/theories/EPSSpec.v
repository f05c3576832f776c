(** Vocabulary of the properties of the interface of the eigensolver. *)
From mathcomp Require Import all_ssreflect all_algebra.
Set Implicit Arguments. Unset Strict Implicit. Unset Printing Implicit Defensive.
Import GRing.Theory Num.Theory.
Local Open Scope ring_scope.

Section Spec.
Variables (F : rcfType) (V : lmodType F).
(** Real arithmetic: a complex conjugate pair of eigenvalues occupies two places; the eigenvector has its real part
    in the first column and its imaginary part in the second one.  Whether place k is the first of its block: *)
Fixpoint block_start (eigi : nat -> F) (k : nat) : bool :=
  match k with 0 => true | k'.+1 => if block_start eigi k' then eigi k' == 0 else true end.
Definition block_of (eigi : nat -> F) (k : nat) : nat := if block_start eigi k then k else k.-1.
Definition conjugate_pairs (n : nat) (eigr eigi : nat -> F) : Prop :=
  forall k, (k < n)%N -> block_start eigi k -> eigi k != 0 ->
    [/\ (k.+1 < n)%N, eigr k.+1 = eigr k & eigi k.+1 = - eigi k].

(** Square of the norm of (A - (kr + i ki) B)(xr + i xi); for left vectors the adjoint of that operator is
    applied, its eigenvalue is the conjugate. *)
Definition resid2 (dot : V -> V -> F) (A B : V -> V) (kr ki : F) (xr xi : V) : F :=
  let re := A xr - kr *: B xr + ki *: B xi in
  let im := A xi - kr *: B xi - ki *: B xr in
  dot re re + dot im im.
(** (A - (kr + i ki) B)(xr + i xi) = 0 *)
Definition eigenpair (A B : V -> V) (kr ki : F) (xr xi : V) : Prop :=
  A xr = kr *: B xr - ki *: B xi /\ A xi = kr *: B xi + ki *: B xr.
(** x + i y = 0 *)
Definition nonzero (xr xi : V) : Prop := xr != 0 \/ xi != 0.
End Spec.
