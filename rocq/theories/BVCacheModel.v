(** Model of the products with the inner-product matrix kept inside a BV: BV_IPMatMult and
    BV_IPMatMultBV (include/slepc/private/bvimpl.h:147-174) and everything that changes what they
    depend on.  Only the dependency on object identities and states matters: contents of vectors
    and matrices are values of arbitrary types. *)
From Coq Require Import ZArith List Bool Lia.
From Verif Require Import Prelude.
Import ListNotations.
Open Scope Z_scope.

Section Cache.
Variable T : Type.              (* content of a vector *)
Variable zero : T.              (* content of new columns *)
Variable M : Type.              (* content of a matrix *)
Variable act : M -> T -> T.     (* MatMult *)

(** Types of storage: BVVECS, BVCONTIGUOUS, BVSVEC. *)
Inductive kind := Vecs | Contiguous | Svec.

(** Identity of a Vec: a vector of the user, the Vec that belongs to a column (vecs.c:355,
    contig.c:255), or the work Vec bv->cv[0] on which BVSVEC places the array of a column
    (svec.c:301).  PETSc never reuses the id of an object. *)
Inductive vid := Ext (n : nat) | Col (j : nat) | Work.
Definition vid_eqb (a b : vid) : bool :=
  match a, b with
  | Ext n, Ext m => Nat.eqb n m
  | Col n, Col m => Nat.eqb n m
  | Work, Work => true
  | _, _ => false
  end.

Record sys := Sys {
  ext : nat -> T;               (* contents of the vectors of the user *)
  cols : nat -> T;              (* contents of the columns *)
  vst : vid -> Z;               (* PetscObjectState of every Vec *)
  mats : nat -> M;              (* contents of the matrix objects *)
  matrix : option nat;          (* bv->matrix *)
  indef : bool;                 (* bv->indef *)
  bstate : Z;                   (* state of the BV *)
  al : nat; ak : nat;           (* bv->l, bv->k *)
  xid : option vid; xstate : Z; (* bv->xid, bv->xstate *)
  bx : option T;                (* bv->Bx *)
  cached : nat -> T;            (* columns of bv->cached, created with zeros on first use *)
  cl : nat; ck : nat;           (* bv->cached->l, k *)
  bvstate : Z                   (* bv->bvstate *)
}.

(** New BV of m columns (bvfunc.c:165-231): zero columns, state 0; bv->cached will be created with
    l = 0, k = m (bvbasic.c:1758-1774). *)
Definition start (e : nat -> T) (ms : nat -> M) (m : nat) : sys :=
  Sys e (fun _ => zero) (fun _ => 0) ms None false 0 0 m None 0 None (fun _ => zero) 0 m 0.

Definition set_nat {A} (f : nat -> A) (n : nat) (v : A) : nat -> A := fun i => if Nat.eqb i n then v else f i.
Definition bump_vec (f : vid -> Z) (x : vid) : vid -> Z := fun y => if vid_eqb y x then f y + 1 else f y.

Definition with_ext s v := Sys v (cols s) (vst s) (mats s) (matrix s) (indef s) (bstate s) (al s) (ak s)
  (xid s) (xstate s) (bx s) (cached s) (cl s) (ck s) (bvstate s).
Definition with_cols s v := Sys (ext s) v (vst s) (mats s) (matrix s) (indef s) (bstate s) (al s) (ak s)
  (xid s) (xstate s) (bx s) (cached s) (cl s) (ck s) (bvstate s).
Definition with_vst s v := Sys (ext s) (cols s) v (mats s) (matrix s) (indef s) (bstate s) (al s) (ak s)
  (xid s) (xstate s) (bx s) (cached s) (cl s) (ck s) (bvstate s).
Definition bump_bv s := Sys (ext s) (cols s) (vst s) (mats s) (matrix s) (indef s) (bstate s + 1) (al s) (ak s)
  (xid s) (xstate s) (bx s) (cached s) (cl s) (ck s) (bvstate s).

(** bvimpl.h:147-157 BV_IPMatMult on the Vec [x] with content [v], matrix [B]. *)
Definition ip_mat_mult (s : sys) (b : nat) (x : vid) (v : T) : sys :=
  let hit := match xid s with Some y => vid_eqb x y && (vst s x =? xstate s) | None => false end in
  if hit then s
  else Sys (ext s) (cols s) (vst s) (mats s) (matrix s) (indef s) (bstate s) (al s) (ak s)
           (Some x) (vst s x) (Some (act (mats s b) v)) (cached s) (cl s) (ck s) (bvstate s).

(** bvbasic.c:588-599 BVApplyMatrix on the Vec [x] with content [v]; also the product used in
    BVNormVec, BVNormColumn, BVDotVec, BVDotColumn (bvglobal.c:444-453, impls DotVec).  [None] cannot
    happen (Bx is written before it is read). *)
Definition apply (s : sys) (x : vid) (v : T) : sys * option T :=
  match matrix s with
  | Some b => let s' := ip_mat_mult s b x v in (s', bx s')
  | None => (s, Some v)
  end.

(** BVGetColumn of column j: the Vec handed out and the state afterwards (VecPlaceArray increases
    the state of the Vec, svec.c:301; contig.c:255 and vecs.c:355 hand out the Vec of the column). *)
Definition get_column (k : kind) (s : sys) (j : nat) : sys * vid :=
  match k with
  | Svec => (with_vst s (bump_vec (vst s) Work), Work)
  | _ => (s, Col j)
  end.
(** BVRestoreColumn: VecResetArray increases the state again (svec.c:312); the state of the BV
    increases if that of the Vec did while it was out (bvbasic.c:1190-1193). *)
Definition restore_column (k : kind) (s : sys) (x : vid) (st0 : Z) : sys :=
  let s1 := if vst s x =? st0 then s else bump_bv s in
  match k with
  | Svec => with_vst s1 (bump_vec (vst s1) Work)
  | _ => s1
  end.

(** BVNormColumn, BVDotColumn: the product with column j. *)
Definition apply_column (k : kind) (s : sys) (j : nat) : sys * option T :=
  let '(s1, x) := get_column k s j in
  let st0 := vst s1 x in
  let '(s2, r) := apply s1 x (cols s1 j) in
  (restore_column k s2 x st0, r).

(** Column modified through BVGetColumn, some Vec operation, BVRestoreColumn. *)
Definition write_column (k : kind) (s : sys) (j : nat) (v : T) : sys :=
  let '(s1, x) := get_column k s j in
  let st0 := vst s1 x in
  let s2 := with_vst (with_cols s1 (set_nat (cols s1) j v)) (bump_vec (vst s1) x) in
  restore_column k s2 x st0.

(** Column modified by the BV operations themselves (BVScaleColumn, BVCopyColumn, BVMultInPlace,
    BVMultColumn, ...): BVVECS uses Vec operations (vecs.c), BVCONTIGUOUS writes in its array and does
    not touch the Vec of the column (contig.c:133-142, 209-216), BVSVEC writes in its big Vec.  All
    increase the state of the BV. *)
Definition direct_column (k : kind) (s : sys) (j : nat) (v : T) : sys :=
  let s1 := with_cols s (set_nat (cols s) j v) in
  let s2 := match k with Vecs => with_vst s1 (bump_vec (vst s1) (Col j)) | _ => s1 end in
  bump_bv s2.

(** Column modified through a split view (BVGetSplit): the view shares the storage, for BVVECS also
    the Vecs (vecs.c:524-531), while BVCONTIGUOUS views have their own Vecs on the same array
    (contig.c:367-376); the state of the parent does not change (only the GPU types implement
    ops->restoresplit). *)
Definition view_column (k : kind) (s : sys) (j : nat) (v : T) : sys :=
  let s1 := with_cols s (set_nat (cols s) j v) in
  match k with Vecs => with_vst s1 (bump_vec (vst s1) (Col j)) | _ => s1 end.

(** bvbasic.c:518-541 BVSetMatrix *)
Definition set_matrix (s : sys) (b : option nat) (ind : bool) : sys :=
  let same := match b, matrix s with
              | Some x, Some y => Nat.eqb x y
              | None, None => true
              | _, _ => false
              end in
  if same && Bool.eqb ind (indef s) then s
  else Sys (ext s) (cols s) (vst s) (mats s) b ind (bstate s + 1) (al s) (ak s)
           (xid s) (xstate s) (bx s) (cached s) (cl s) (ck s) (bvstate s).

(** bvimpl.h:163-174 BV_IPMatMultBV, and the columns l..k-1 of bv->cached that BVDot uses. *)
Definition apply_bv (s : sys) : sys :=
  if negb (bstate s =? bvstate s) || negb (Nat.eqb (al s) (cl s)) || negb (Nat.eqb (ak s) (ck s)) then
    let prod j := match matrix s with Some b => act (mats s b) (cols s j) | None => cols s j end in
    let c := fun j => if (al s <=? j)%nat && (j <? ak s)%nat then prod j else cached s j in
    Sys (ext s) (cols s) (vst s) (mats s) (matrix s) (indef s) (bstate s) (al s) (ak s)
        (xid s) (xstate s) (bx s) c (al s) (ak s) (bstate s)
  else s.

Inductive op :=
| VecWrite (n : nat) (v : T)        (* any modification of a vector of the user *)
| SetMatrix (b : option nat) (ind : bool)
| MatWrite (b : nat) (c : M)        (* modification of a matrix in place *)
| Apply (n : nat)                   (* BVApplyMatrix, BVNormVec, BVDotVec *)
| ApplyColumn (j : nat)             (* BVNormColumn, BVDotColumn *)
| WriteColumn (j : nat) (v : T)
| DirectColumn (j : nat) (v : T)
| ViewColumn (j : nat) (v : T)
| SetActive (l k : nat)
| ApplyBV.                          (* BVApplyMatrixBV(bv,NULL), BVDot *)

Inductive out := Done | Product (r : option T) | Products (r : list T).

Definition step (k : kind) (s : sys) (c : op) : sys * out :=
  match c with
  | VecWrite n v => (with_vst (with_ext s (set_nat (ext s) n v)) (bump_vec (vst s) (Ext n)), Done)
  | SetMatrix b ind => (set_matrix s b ind, Done)
  | MatWrite b m => (Sys (ext s) (cols s) (vst s) (set_nat (mats s) b m) (matrix s) (indef s) (bstate s)
                         (al s) (ak s) (xid s) (xstate s) (bx s) (cached s) (cl s) (ck s) (bvstate s), Done)
  | Apply n => let '(s', r) := apply s (Ext n) (ext s n) in (s', Product r)
  | ApplyColumn j => let '(s', r) := apply_column k s j in (s', Product r)
  | WriteColumn j v => (write_column k s j v, Done)
  | DirectColumn j v => (direct_column k s j v, Done)
  | ViewColumn j v => (view_column k s j v, Done)
  | SetActive l q => (Sys (ext s) (cols s) (vst s) (mats s) (matrix s) (indef s) (bstate s) l q
                         (xid s) (xstate s) (bx s) (cached s) (cl s) (ck s) (bvstate s), Done)
  | ApplyBV => let s' := apply_bv s in
               (s', Products (map (cached s') (seq (al s') (ak s' - al s'))))
  end.

End Cache.
