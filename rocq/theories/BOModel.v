(** Block orthogonalization, BVOrthogonalize: /repo/src/sys/classes/bv/interface/bvorthog.c:489-820 and the dense
    kernels of bvlapack.c:128-330.  Exact arithmetic.  Matrices are functions of row and column. *)
From mathcomp Require Import all_ssreflect all_algebra.
From Verif Require Import Prelude.
Set Implicit Arguments. Unset Strict Implicit. Unset Printing Implicit Defensive.
Import GRing.Theory Num.Theory.
Local Open Scope ring_scope.

Section BO.
Variables (F : numFieldType) (V : lmodType F).
(** [dot x y] is y^* B x, see GSModel.v; PETSC_MACHINE_EPSILON; PetscSqrtReal. *)
Variable dot : V -> V -> F.
Variable eps : F.
Variable sqrt : F -> F.
Notation mat := (nat -> nat -> F).
(** Oracles; l and k are the active columns, the matrix handed to LAPACK is the block l..k-1.
    potrf: Cholesky factor in the upper triangle, or info>0; trtri: inverse of an upper triangular matrix in the upper
    triangle, or info>0 (an error); syev: eigenvalues and vectors; tsqr_r: the factor of
    BVOrthogonalize_LAPACK_TSQR_OnlyR. *)
Variable potrf : nat -> nat -> mat -> option mat.
Variable trtri : nat -> nat -> mat -> option mat.
Variable syev : nat -> nat -> mat -> option ((nat -> F) * mat).
Variable tsqr_r : nat -> nat -> (nat -> V) -> mat.

Definition inb (l k i : nat) : bool := (l <= i < k)%N.
Definition inblk (l k i j : nat) : bool := inb l k i && inb l k j.

(** BVOrthogonalize_BlockGS, bvorthog.c:489-503: R12 = V1'*V2 in the buffer, V2 = V2 - V1*R12; called if V->l>0. *)
Definition block_gs (l k : nat) (R : mat) (v : nat -> V) : mat * (nat -> V) :=
  let R' i j := if (i < l)%N && inb l k j then dot (v j) (v i) else R i j in
  (R', fun j => if inb l k j then v j - \sum_(0 <= i < l) R' i j *: v i else v j).
Definition leading (l k : nat) (R : mat) (v : nat -> V) : mat * (nat -> V) :=
  if l == 0%N then (R, v) else block_gs l k R v.
(** BVDot(V,V,R) with active columns l..k-1 *)
Definition gram (l k : nat) (R : mat) (v : nat -> V) : mat :=
  fun i j => if inblk l k i j then dot (v j) (v i) else R i j.
(** BVMultInPlace(V,S,V->l,V->k) *)
Definition mult_in_place (l k : nat) (S : mat) (v : nat -> V) : nat -> V :=
  fun j => if inb l k j then \sum_(l <= i < k) S i j *: v i else v j.
(** BV_StoreCoeffsBlock_Default, bvorthog.c:578-594; no constraints (bvorthog.c:789). *)
Definition store (l k : nat) (tri : bool) (R Rin : mat) : mat :=
  fun i j => if inb l k j && (i < (if tri then j.+1 else k))%N then R i j else Rin i j.
(** PetscArrayzero(pS+l*lds,(k-l)*k): consecutive entries, lds is the number of rows of S *)
Definition zeroed (l k lds i j : nat) : bool := inb l k j && ((j - l) * lds + i < (k - l) * k)%N.

(** BVMatCholInv_LAPACK_Private, bvlapack.c:133-197; S is None if it is the same matrix as R, otherwise its number of
    rows and entries.  Returned R and S. *)
Definition chol_inv (l k : nat) (R : mat) (S : option (nat * mat)) : res (mat * mat) :=
  do C <- (match potrf l k R with
           | Some C => Ok C
           | None =>
               match potrf l k (fun i j => if inblk l k i j && (i == j) then R i j + 50%:R * eps else R i j) with
               | Some C => Ok C
               | None => Err
               end
           end);
  let R1 i j := if inblk l k i j && (i <= j)%N then C i j else R i j in
  match trtri l k R1 with
  | None => Err
  | Some T =>
      let inv old i j := if inblk l k i j then (if (i <= j)%N then T i j else 0) else old i j in
      match S with
      | None => let R2 := inv R1 in Ok (R2, R2)
      | Some (lds, S0) =>
          Ok (fun i j => if inblk l k i j && (j < i)%N then 0 else R1 i j,
              inv (fun i j => if zeroed l k lds i j then 0 else S0 i j))
      end
  end.
(** BVMatTriInv_LAPACK_Private, bvlapack.c:203-249 *)
Definition tri_inv (l k : nat) (R : mat) (S : option (nat * mat)) : res (mat * mat) :=
  match trtri l k R with
  | None => Err
  | Some T =>
      let inv old i j := if inblk l k i j && (i <= j)%N then T i j else old i j in
      match S with
      | None => Ok (inv R, inv R)
      | Some (lds, S0) =>
          Ok (R, inv (fun i j => if inblk l k i j then R i j else if zeroed l k lds i j then 0 else S0 i j))
      end
  end.
(** BVMatSVQB_LAPACK_Private, bvlapack.c:255-330; a division by zero is UB.  With S the same matrix as R only S is
    computed. *)
Definition svqb (l k : nat) (R : mat) (S : option (nat * mat)) : res (mat * mat) :=
  if has (fun i => R i i == 0) (iota l (k - l)) then UB else
  let D i := 1 / sqrt (R i i) in
  let N i j := R i j * D i * D j in
  match syev l k N with
  | None => Err
  | Some (eig, U) =>
      if has (fun j => eig j == 0) (iota l (k - l)) then UB else
      let S1 i j := U i j * D i / sqrt (eig j) in
      match S with
      | None => let S2 i j := if inblk l k i j then S1 i j else R i j in Ok (S2, S2)
      | Some (_, S0) =>
          Ok (fun i j => if inblk l k i j then U j i * sqrt (eig i) / D j else R i j,
              fun i j => if inblk l k i j then S1 i j else S0 i j)
      end
  end.

(** BVOrthogonalize with BV_ORTHOG_BLOCK_CHOL, _TSQRCHOL, _SVQB (bvorthog.c:614-630, 667-691, 703-718, 773-815).
    [buf]: former contents of the buffer; [Rin]: the matrix of the user with its number of rows (and columns);
    [matrix]: an inner product matrix has been set.  Returned: columns, and the matrix of the user. *)
Inductive method := Chol | TsqrChol | Svqb.
Definition orthogonalize (m : method) (matrix : bool) (l k : nat) (buf : mat) (v : nat -> V) (Rin : option (nat * mat))
  : res ((nat -> V) * option mat) :=
  check (if Rin is Some (n, _) then (k <= n)%N else true)
  (check (if m is TsqrChol then ~~ matrix else true)
  (let (R, w) := leading l k buf v in
   do ' (R, Sm) <- (match m with
                   | Chol => chol_inv l k (gram l k R w) Rin
                   | TsqrChol => tri_inv l k (fun i j => if inblk l k i j then tsqr_r l k w i j else R i j) Rin
                   | Svqb => svqb l k (gram l k R w) Rin
                   end);
   let v' := mult_in_place l k Sm w in
   Ok (v', if Rin is Some _ then Some (store l k (if m is Svqb then false else true) R Sm) else None))).
End BO.
