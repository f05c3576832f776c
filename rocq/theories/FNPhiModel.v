(** First column of a phi function of a matrix.
    /repo/src/sys/classes/fn/impls/phi/fnphi.c:61-107 FNEvaluateFunctionMatVec_Phi. *)
From mathcomp Require Import all_ssreflect all_algebra.
Set Implicit Arguments. Unset Strict Implicit. Unset Printing Implicit Defensive.
Import GRing.Theory.
Local Open Scope ring_scope.

Section PhiVec.
Variable K : fieldType.
Variables (m' k : nat).
Notation m := m'.+1.
(** fnphi.c:70 *)
Notation n := (m' + k).+1.

(** fnphi.c:84-91: the auxiliary matrix H of order m+k. *)
Definition phi_H (alpha : K) (A : 'M[K]_m) : 'M[K]_n :=
  \matrix_(i, j)
    (if (j < m)%N then (if (i < m)%N then A (inord i) (inord j) else 0)
     else if (j == m :> nat)%N then (if (i == 0 :> nat)%N then alpha else 0)
     else (if (i.+1 == j :> nat)%N then alpha else 0)).

(** fnphi.c:94-104; [expm] is the matrix exponential (FNEvaluateFunctionMat_Exp_Higham). *)
Definition phi_vec (expm : 'M[K]_n -> 'M[K]_n) (alpha : K) (A : 'M[K]_m) : 'cV[K]_m :=
  let F := expm (phi_H alpha A) in
  if k == 0%N then \col_i (1 * F (inord i) (inord 0))
  else let sfactor := (alpha ^+ k)^-1 in \col_i (sfactor * F (inord i) (inord (m + k).-1)).
End PhiVec.
