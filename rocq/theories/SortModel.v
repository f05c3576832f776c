(** Model of the eigenvalue sorting utilities, /repo/src/sys/slepcsc.c. *)
From Coq Require Import ZArith List Bool.
From Verif Require Import Prelude.
Import ListNotations.
Open Scope Z_scope.

Section Sort.
(** PetscScalar; only the test against zero is needed by the sort itself. *)
Variable S : Type.
Variable isz : S -> bool.                 (* x == 0.0 *)

(** slepcsc.c:40-62 SlepcSCCompare.  [map] is sc->map (identity if absent), [rg] is
    sc->rg with the answer cin of RGCheckInside, [comparison] is sc->comparison. *)
Definition sc_compare (map : option (S * S -> S * S)) (rg : option (S * S -> Z))
    (comparison : S * S -> S * S -> Z) (a b : S * S) : Z :=
  let a' := match map with Some f => f a | None => a end in
  let b' := match map with Some f => f b | None => b end in
  match rg with
  | Some cin =>
      let in0 := negb (cin a' <? 0) in
      let in1 := negb (cin b' <? 0) in
      if in0 && negb in1 then -1
      else if negb in0 && in1 then 1
      else comparison a' b'
  | None => comparison a' b'
  end.

(** The result of SlepcSCCompare on two (re,im) values. *)
Variable cmp : S * S -> S * S -> Z.
Variable cplx : bool.                     (* PETSC_USE_COMPLEX *)
Variable flg : bool.                      (* argument flg *)
Variable n : Z.                           (* argument n *)
Variables eigr eigi : list S.             (* arrays eigr[], eigi[] *)

(** slepcsc.c:84-109, the while loop that moves the block ending at j-1 to the right.
    [perm] is the index array; one unit of fuel per iteration. *)
Fixpoint sort_inner (fuel : nat) (perm : list Z) (j : Z) (re im : S) : res (list Z) :=
  match fuel with
  | O => Loop
  | Datatypes.S fuel' =>
    if j <? n then
      do pj <- aget perm j;
      do rj <- aget eigr pj;
      do ij <- aget eigi pj;
      if cmp (re, im) (rj, ij) <=? 0 then Ok perm
      else if cplx then
        do tmp <- aget perm (j-1);
        do p1 <- aset perm (j-1) pj;
        do p2 <- aset p1 j tmp;
        sort_inner fuel' p2 (j+1) re im
      else if isz im || (isz re && flg) then
        if isz ij || (flg && isz rj) then
          do tmp <- aget perm (j-1);
          do p1 <- aset perm (j-1) pj;
          do p2 <- aset p1 j tmp;
          sort_inner fuel' p2 (j+1) re im
        else
          do tmp <- aget perm (j-1);
          do p1 <- aset perm (j-1) pj;
          do pj1 <- aget p1 (j+1);
          do p2 <- aset p1 j pj1;
          do p3 <- aset p2 (j+1) tmp;
          sort_inner fuel' p3 (j+2) re im
      else
        if isz ij || (flg && isz rj) then
          do tmp <- aget perm (j-2);
          do p1 <- aset perm (j-2) pj;
          do pjm <- aget p1 (j-1);
          do p2 <- aset p1 j pjm;
          do p3 <- aset p2 (j-1) tmp;
          sort_inner fuel' p3 (j+1) re im
        else
          do tmp <- aget perm (j-2);
          do p1 <- aset perm (j-2) pj;
          do p2 <- aset p1 j tmp;
          do tmp' <- aget p2 (j-1);
          do pj1 <- aget p2 (j+1);
          do p3 <- aset p2 (j-1) pj1;
          do p4 <- aset p3 (j+1) tmp';
          sort_inner fuel' p4 (j+2) re im
    else Ok perm
  end.

(** slepcsc.c:71-112, the for loop on i from n-1 down. *)
Fixpoint sort_outer (fuel : nat) (i : Z) (perm : list Z) : res (list Z) :=
  match fuel with
  | O => Loop
  | Datatypes.S fuel' =>
    if i <? 0 then Ok perm
    else
      do pi <- aget perm i;
      do re <- aget eigr pi;
      do im <- aget eigi pi;
      if negb cplx && (negb (isz im) && (negb (isz re) || negb flg)) then
        do pi1 <- aget perm (i-1);
        do im1 <- aget eigi pi1;
        do perm' <- sort_inner (Datatypes.S (Z.to_nat n)) perm (i+1) re im1;
        sort_outer fuel' (i-2) perm'
      else
        do perm' <- sort_inner (Datatypes.S (Z.to_nat n)) perm (i+1) re im;
        sort_outer fuel' (i-1) perm'
  end.

(** slepcsc.c:64-113 SlepcSortEigenvalues_Private; flg=false is SlepcSortEigenvalues
    (lines 140-149), flg=true is SlepcSortEigenvaluesSpecial (lines 180-189). *)
Definition sort_eigenvalues (perm : list Z) : res (list Z) :=
  sort_outer (Datatypes.S (Z.to_nat n)) (n-1) perm.
End Sort.
