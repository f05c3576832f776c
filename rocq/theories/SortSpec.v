(** Specification vocabulary for eigenvalue sorting: the layout of a list of
    eigenvalues as single values and adjacent conjugate pairs, sortedness, stability.
    Independent of the sorting algorithm. *)
From Coq Require Import ZArith List Bool Sorting.Permutation Sorting.Sorted.
From Verif Require Import Prelude.
Import ListNotations.
Open Scope Z_scope.

Section Spec.
Variable S : Type.
Variable isz : S -> bool.
Variables cplx flg : bool.
Variables eigr eigi : list S.

(** One eigenvalue index, or the two indices of a conjugate pair. *)
Inductive block := Single (a : Z) | Pair (a b : Z).

Definition head (b : block) : Z := match b with Single a => a | Pair a _ => a end.
Definition indices (b : block) : list Z := match b with Single a => [a] | Pair a b => [a; b] end.
Definition flatten (bs : list block) : list Z := flat_map indices bs.

(** Eigenvalue number [a] is [v] (real part, imaginary part). *)
Definition value (a : Z) (v : S * S) : Prop :=
  aget eigr a = Ok (fst v) /\ aget eigi a = Ok (snd v).

(** In complex scalars everything is a single value.  In real scalars a single value
    has zero imaginary part (or, with the Special convention, zero real part), and the
    members of a pair share the real part and have non-zero imaginary parts. *)
Inductive valid_block : block -> Prop :=
| valid_single a re im :
    value a (re, im) ->
    cplx = true \/ isz im = true \/ (flg = true /\ isz re = true) ->
    valid_block (Single a)
| valid_pair a b re im im' :
    cplx = false ->
    value a (re, im) -> value b (re, im') ->
    isz im = false -> isz im' = false ->
    (flg = false \/ isz re = false) ->
    valid_block (Pair a b).

(** [perm] lists the indices of [bs] in order, each block valid. *)
Definition layout (perm : list Z) (bs : list block) : Prop :=
  perm = flatten bs /\ Forall valid_block bs.

(** Criterion on blocks: comparison of the first members. *)
Variable cmp : S * S -> S * S -> Z.

Definition block_cmp (b c : block) : Z :=
  match aget eigr (head b), aget eigi (head b), aget eigr (head c), aget eigi (head c) with
  | Ok rb, Ok ib, Ok rc, Ok ic => cmp (rb, ib) (rc, ic)
  | _, _, _, _ => 0
  end.

(** No block is strictly less preferred than a later one. *)
Definition sorted_blocks (bs : list block) : Prop :=
  StronglySorted (fun b c => block_cmp b c <= 0) bs.

(** [b] and [c] are equally preferred. *)
Definition same_rank (b c : block) : bool := (block_cmp b c <=? 0) && (block_cmp c b <=? 0).
End Spec.

Arguments value {S}.
Arguments valid_block {S}.
Arguments layout {S}.
Arguments block_cmp {S}.
Arguments sorted_blocks {S}.
Arguments same_rank {S}.

(** A three-way comparison that is a total preorder. *)
Definition total_preorder {V} (cmp : V -> V -> Z) : Prop :=
  (forall x y, (cmp x y <= 0 \/ cmp y x <= 0)) /\
  (forall x y, cmp x y > 0 <-> cmp y x < 0) /\
  (forall x y z, cmp x y <= 0 -> cmp y z <= 0 -> cmp x z <= 0).

(** Eigenvalue of the block (its first member) after the spectral map. *)
Definition mapped_value {S} (map : option (S * S -> S * S)) eigr eigi (b : block) (w : S * S) : Prop :=
  exists v, value eigr eigi (head b) v /\ w = match map with Some f => f v | None => v end.
