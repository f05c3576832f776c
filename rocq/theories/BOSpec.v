(** Vocabulary of block orthogonalization. *)
From mathcomp Require Import all_ssreflect all_algebra.
Set Implicit Arguments. Unset Strict Implicit. Unset Printing Implicit Defensive.
Import GRing.Theory Num.Theory.
Local Open Scope ring_scope.

Section Spec.
Variables (F : numFieldType) (V : lmodType F) (conj : F -> F) (dot : V -> V -> F).
Definition orthonormal (n : nat) (v : nat -> V) : Prop :=
  forall i j, (i < n)%N -> (j < n)%N -> dot (v i) (v j) = (i == j)%:R.
Definition independent (n : nat) (v : nat -> V) : Prop :=
  forall x : nat -> F, \sum_(0 <= i < n) x i *: v i = 0 -> forall i, (i < n)%N -> x i = 0.
(** Block of rows and columns l..k-1 of a matrix, its conjugate transpose, the upper triangle *)
Definition blk (l k : nat) (M : nat -> nat -> F) : 'M[F]_(k - l) := \matrix_(i, j) M (i + l)%N (j + l)%N.
Definition adj n (A : 'M[F]_n) : 'M[F]_n := map_mx conj A^T.
Definition up (M : nat -> nat -> F) (i j : nat) : F := if (i <= j)%N then M i j else 0.
Definition posdef n (A : 'M[F]_n) : Prop :=
  adj A = A /\ forall x : 'cV[F]_n, x != 0 -> 0 < ((map_mx conj x)^T *m A *m x) 0 0.

(** V = V' R for the columns l..k-1, other columns of the matrix R are left as they were (R0) *)
Definition qr_ok (l k : nat) (v v' : nat -> V) (R0 R1 : nat -> nat -> F) : Prop :=
  (forall j, (l <= j < k)%N -> v j = \sum_(0 <= i < k) R1 i j *: v' i) /\
  forall i j, ~~ (l <= j < k)%N -> R1 i j = R0 i j.
Definition upper (l k : nat) (R1 : nat -> nat -> F) : Prop :=
  forall i j, (l <= j < k)%N -> (j < i < k)%N -> R1 i j = 0.

(** What is required of the LAPACK routines for the block l..k-1 *)
Definition potrf_spec (l k : nat) (potrf : nat -> nat -> (nat -> nat -> F) -> option (nat -> nat -> F)) : Prop :=
  forall M, (posdef (blk l k M) -> potrf l k M <> None) /\
    forall C, adj (blk l k M) = blk l k M -> potrf l k M = Some C ->
      adj (blk l k (up C)) *m blk l k (up C) = blk l k M /\ forall i, (l <= i < k)%N -> C i i != 0.
Definition trtri_spec (l k : nat) (trtri : nat -> nat -> (nat -> nat -> F) -> option (nat -> nat -> F)) : Prop :=
  forall R, ((forall i, (l <= i < k)%N -> R i i != 0) -> trtri l k R <> None) /\
    forall T, trtri l k R = Some T -> blk l k (up T) *m blk l k (up R) = 1%:M.
Definition syev_spec (l k : nat) (syev : nat -> nat -> (nat -> nat -> F) -> option ((nat -> F) * (nat -> nat -> F))) : Prop :=
  forall N, adj (blk l k N) = blk l k N -> exists eig U, [/\ syev l k N = Some (eig, U),
    adj (blk l k U) *m blk l k U = 1%:M,
    blk l k N *m blk l k U = blk l k U *m blk l k (fun i j => if i == j then eig i else 0) &
    forall i, (l <= i < k)%N -> conj (eig i) = eig i].
(** Factor of a QR decomposition of the columns l..k-1 *)
Definition tsqr_spec (l k : nat) (tsqr_r : nat -> nat -> (nat -> V) -> nat -> nat -> F) : Prop :=
  forall w, let R := tsqr_r l k w in
    [/\ (forall i j, (l <= i < k)%N -> (l <= j < k)%N -> (j < i)%N -> R i j = 0),
      adj (blk l k R) *m blk l k R = blk l k (fun i j => dot (w j) (w i)) &
      posdef (blk l k (fun i j => dot (w j) (w i))) -> forall i, (l <= i < k)%N -> R i i != 0].
End Spec.
