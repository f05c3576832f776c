(** Vocabulary of the properties of Krylov decompositions. *)
From mathcomp Require Import all_ssreflect all_algebra.
From Verif Require Import GSSpec.
Set Implicit Arguments. Unset Strict Implicit. Unset Printing Implicit Defensive.
Import GRing.Theory Num.Theory.
Local Open Scope ring_scope.

Section Spec.
Variables (F : numFieldType) (V : lmodType F) (dot : V -> V -> F) (conj : F -> F) (op : V -> V).

(** The space has dimension at most N. *)
Definition dimension (N : nat) : Prop := forall u n, orthonormal dot u n -> (n <= N)%N.
Definition self_adjoint : Prop := forall x y, dot (op x) y = dot x (op y).
(** The real part of numbers that are real for [conj]. *)
Definition real_part (re : F -> F) : Prop := forall a, conj a = a -> re a = a.

(** Columns before [u] and after [u'] a request for columns k+1 .. m that ended with columns up to m';
    the first [nc] vectors are the constraints, user column i is vector nc+i. *)
Record krylov_basis (nc k m m' : nat) (u u' : nat -> V) (beta : F) (breakdown : bool) : Prop := KrylovBasis {
  kb_range : (k < m' <= m)%N;
  kb_locked : forall i, (i < nc + k.+1)%N -> u' i = u i;
  kb_beyond : forall i, (nc + m' < i)%N -> u' i = u i;
  kb_orthonormal : orthonormal dot u' (nc + m');
  kb_breakdown : breakdown -> beta = 0 /\ u' (nc + m')%N = 0;
  kb_complete : ~~ breakdown -> [/\ m' = m, 0 < beta & orthonormal dot u' (nc + m').+1] }.

(** op v_j = (constraints) + sum_{i<=j} h_i v_i + b v_{j+1} *)
Definition column_relation (nc : nat) (u : nat -> V) (j : nat) (h : nat -> F) (b : F) : Prop :=
  exists c, op (u (nc + j)%N) =
    comb u nc c + \sum_(0 <= i < j.+1) h i *: u (nc + i)%N + b *: u (nc + j.+1)%N.

(** Arnoldi: [e], [e'] the entries of H before and after. *)
Record arnoldi_matrix (nc N k m' lda : nat) (u' : nat -> V) (e e' : nat -> nat -> F) (beta : F) : Prop :=
  ArnoldiMatrix {
  am_relation : forall j, (k <= j < m')%N ->
    column_relation nc u' j (fun i => e' i j) (if (j.+1 < m')%N then e' j.+1 j else beta);
  am_positive : forall j, (k <= j)%N -> (j.+1 < m')%N -> 0 < e' j.+1 j;
  am_last : (m' < lda)%N -> m' != N -> e' m' m'.-1 = beta;
  am_other : forall p q, ~~ ((k <= q < m')%N && (p <= q.+1)%N) -> e' p q = e p q }.

(** Lanczos: diagonal and off-diagonal of T before and after. *)
Record lanczos_matrix (nc N k m' : nat) (u' : nat -> V) (a a' b b' : nat -> F) (beta : F) : Prop :=
  LanczosMatrix {
  lm_relation : forall j, (k < j < m')%N ->
    column_relation nc u' j (fun i => if i == j then a' j else if i == j.-1 then b' j.-1 else 0)
                    (if (j.+1 < m')%N then b' j else beta);
  lm_first : column_relation nc u' k
    (fun i => if i == k then a' k else dot (u' (nc + k)%N) (op (u' (nc + i)%N)))
    (if (k.+1 < m')%N then b' k else beta);
  lm_real : forall j, (k <= j < m')%N -> conj (a' j) = a' j;
  lm_positive : forall j, (k <= j)%N -> (j.+1 < m')%N -> 0 < b' j;
  lm_last : m' != N -> b' m'.-1 = beta;
  lm_other : forall j, ~~ (k <= j < m')%N -> a' j = a j /\ b' j = b j }.
End Spec.

(** Positions at which an eigenvalue or a conjugate pair begins, from [kini] on; [pair k]: positions k and
    k+1 are a pair. *)
Inductive starts (pair : nat -> bool) (kini : nat) : nat -> Prop :=
| starts0 : starts pair kini kini
| starts1 k : starts pair kini k -> ~~ pair k -> starts pair kini k.+1
| starts2 k : starts pair kini k -> pair k -> starts pair kini k.+2.
