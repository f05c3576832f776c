(** Vocabulary of the properties of Krylov-Schur: the contracts of the LAPACK routines (part of the trusted
    base) and the residuals of Schur vectors and eigenpairs. *)
From mathcomp Require Import all_ssreflect all_algebra.
From Verif Require Import GSSpec.
Set Implicit Arguments. Unset Strict Implicit. Unset Printing Implicit Defensive.
Import GRing.Theory Num.Theory.
Local Open Scope ring_scope.

Section Spec.
Variables (F : numFieldType) (conj : F -> F).
Notation matrix := (nat -> nat -> F).

(** Product of n x n matrices; the upper triangle; the matrix with the lower triangle of its first l columns
    cleared. *)
Definition prod (n : nat) (A B : matrix) : matrix := fun i j => \sum_(0 <= p < n) A i p * B p j.
Definition upper (T : matrix) : matrix := fun i j => if (i <= j)%N then T i j else 0.
Definition front (l : nat) (A : matrix) : matrix := fun i j => if (j < l)%N && (j < i)%N then 0 else A i j.
Definition same (n : nat) (A B : matrix) : Prop := forall i j, (i < n)%N -> (j < n)%N -> A i j = B i j.
(** Orthonormal columns; equal to the identity in the first l rows and columns. *)
Definition unitary (n : nat) (Q : matrix) : Prop :=
  forall i j, (i < n)%N -> (j < n)%N -> \sum_(0 <= p < n) Q p i * conj (Q p j) = (i == j)%:R.
Definition fixes (l n : nat) (Q : matrix) : Prop :=
  forall i j, (i < n)%N -> (j < n)%N -> (i < l)%N || (j < l)%N -> Q i j = (i == j)%:R.
(** (Q,T) is a Schur decomposition of A with the first l columns locked: A is read as if it were upper
    triangular in those columns, which are not changed. *)
Record schur_form (l n : nat) (A Q T : matrix) : Prop := SchurForm {
  sf_unitary : unitary n Q;
  sf_fixes : fixes l n Q;
  sf_similar : same n (prod n (front l A) Q) (prod n Q (upper T));
  sf_lower : forall i j, (l <= j < i)%N -> (i < n)%N -> T i j = 0;
  sf_locked : forall i j, (i < n)%N -> (j < n)%N -> (j < l)%N -> T i j = A i j }.

(** For matrices of order at most m.  gehrd, orghr, hseqr; without gehrd the matrix has to be upper Hessenberg from column l on. *)
Definition schur_contract (m : nat) (schur : bool -> nat -> nat -> matrix -> matrix * matrix) : Prop :=
  forall (hess : bool) l n A, (l < n)%N -> (n <= m)%N ->
    (hess -> forall i j, (l <= j)%N -> (j.+1 < i < n)%N -> A i j = 0) ->
    let QT := schur hess l n A in schur_form l n A QT.1 QT.2.
(** trexc: a unitary similarity that acts on the rows and columns from i on. *)
Definition trexc_contract (m : nat) (trexc : nat -> nat -> nat -> matrix * matrix -> matrix * matrix) : Prop :=
  forall n pos i QT, (i < pos < n)%N -> (n <= m)%N ->
    let QT' := trexc n pos i QT in
    exists Z, [/\ unitary n Z, fixes i n Z, same n QT'.1 (prod n QT.1 Z),
                  same n (prod n (upper QT.2) Z) (prod n Z (upper QT'.2)) &
                  forall p q, (q < p < n)%N -> QT'.2 p q = QT.2 p q].
(** The diagonal element pos is moved to position i, the ones in between are shifted. *)
Definition move (pos i : nat) (w : nat -> F) : nat -> F :=
  fun j => if j == i then w pos else if (i < j <= pos)%N then w j.-1 else w j.
Definition trexc_moves (m : nat) (trexc : nat -> nat -> nat -> matrix * matrix -> matrix * matrix) : Prop :=
  forall n pos i QT, (i < pos < n)%N -> (n <= m)%N -> forall j, (j < n)%N ->
    (trexc n pos i QT).2 j j = move pos i (fun p => QT.2 p p) j.
(** trevc: an eigenvector with its last nonzero entry at k, if the diagonal element k does not occur before
    (LAPACK perturbs the system otherwise); only the first k+1 columns of the upper triangle are read. *)
Definition trevc_contract (trevc : nat -> matrix -> nat -> F) : Prop :=
  [/\ (forall k T, trevc k T k != 0),
      (forall k T i, (k < i)%N -> trevc k T i = 0),
      (forall k T i, (forall j, (j < k)%N -> T j j != T k k) -> (i <= k)%N ->
         \sum_(0 <= j < k.+1) upper T i j * trevc k T j = T k k * trevc k T i) &
      (forall k T T' i, (forall p q, (p <= q <= k)%N -> T p q = T' p q) -> trevc k T i = trevc k T' i)].

Variables (V : lmodType F) (dot : V -> V -> F) (op : V -> V).
(** The operator with the component in the first nc vectors (constraints) removed. *)
Definition deflated (u : nat -> V) (nc : nat) (x : V) : V :=
  op x - \sum_(0 <= i < nc) dot (op x) (u i) *: u i.
(** Residual of the Schur relation at vector p (user column p is vector nc+p). *)
Definition schur_residual (u : nat -> V) (nc : nat) (T : matrix) (p : nat) : V :=
  deflated u nc (u (nc + p)%N) - \sum_(0 <= q < p.+1) T q p *: u (nc + q)%N.
End Spec.
