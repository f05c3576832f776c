(** An SVD object used for several matrices (standard problem): shape of the matrix, state, swapped flag, bases. *)
From mathcomp Require Import all_ssreflect.
From Verif Require Import Prelude.
Set Implicit Arguments. Unset Strict Implicit. Unset Printing Implicit Defensive.

(** [op]: size (rows, columns) of svd->OP; [active]: svd->state is not SVD_STATE_INITIAL; [bases]: length of the vectors of
    svd->V and svd->U once allocated (both bases are allocated: svd->leftbasis); [work]: the size of svd->A *)
Record svd := Svd { op : option (nat * nat); active : bool; swapped : bool; bases : option (nat * nat); work : option (nat * nat) }.
(** svdbasic.c:105-110 *)
Definition create : svd := Svd None false false None None.
Inductive call := SetOperators of nat & nat | Option | SetUp | Reset.

(** svdbasic.c:134-156 *)
Definition reset (s : svd) : svd := Svd None false false None None.
(** svdsetup.c:30-85; the second matrix is absent; global sizes only *)
Definition set_operators (M N : nat) (s : svd) : svd :=
  let samesize := if op s is Some mn then mn == (M, N) else true in
  let s1 := if active s && ~~ samesize then reset s else Svd (op s) (active s) (swapped s) (bases s) None in
  Svd (Some (M, N)) false (swapped s1) (bases s1) (work s1).
(** svdsetup.c:243-410 (only what concerns these variables) followed by SVDAllocateSolution, svdsetup.c:522-567 *)
Definition set_up (s : svd) : res svd :=
  if active s then Ok s else
  match op s with
  | None => Err
  | Some (M, N) =>
    if (M == 0) || (N == 0) then Ok s else
    let A := if N <= M then (M, N) else (N, M) in
    let '(sw, b) := if (M < N) && ~~ swapped s then (true, omap (fun vu => (vu.2, vu.1)) (bases s)) else (swapped s, bases s) in
    let b' := if b is Some vu then vu else (A.2, A.1) in
    Ok (Svd (Some (M, N)) true sw (Some b') (Some A))
  end.
(** Option: a call that sets the state to SVD_STATE_INITIAL: SVDSetDimensions (svdopts.c:319), SVDSetImplicitTranspose :51,
    SVDSetTolerances :114, SVDSetThreshold :229, SVDSetWhichSingularTriplets :383 *)
Definition step (c : call) (s : svd) : res svd :=
  match c with
  | SetOperators M N => Ok (set_operators M N s)
  | Option => Ok (Svd (op s) false (swapped s) (bases s) (work s))
  | SetUp => set_up s
  | Reset => Ok (reset s)
  end.
Fixpoint run (cs : seq call) (s : svd) : res svd :=
  if cs is c :: cs' then do s' <- step c s; run cs' s' else Ok s.
