(** The interface of the eigensolver: /repo/src/eps/interface/epssolve.c (end of EPSSolve, EPSGetEigenvalue,
    EPSGetEigenvector, EPSGetLeftEigenvector, EPSComputeError), /repo/include/slepc/private/epsimpl.h
    (EPS_GetEigenvector and its variants), bvimpl.h (BV_GetEigenvector), epssetup.c (default dimensions).
    Exact arithmetic. *)
From mathcomp Require Import all_ssreflect all_algebra.
From Verif Require Import Prelude.
Set Implicit Arguments. Unset Strict Implicit. Unset Printing Implicit Defensive.
Import GRing.Theory Num.Theory.
Local Open Scope ring_scope.

Definition upd T (f : nat -> T) (i : nat) (v : T) : nat -> T := fun k => if k == i then v else f k.

(** * Real scalars *)
Section Real.
Variable F : rcfType.
Variable V : lmodType F.

(** eps->eigi, columns of eps->V and eps->W *)
Record arrays := Arrays { eigi : nat -> F; vv : nat -> V; ww : nat -> V }.

(** epssolve.c:179-195: positive imaginary part first.  [hamilt]: the problem type is EPS_HAMILT.  Without W its
    columns are irrelevant here.  EPSComputeVectors (line 188) has been done: [vv] are the eigenvectors. *)
Definition reorder_at (i : nat) (a : arrays) : arrays :=
  if eigi a i < 0 then
    Arrays (upd (upd (eigi a) i (- eigi a i)) i.+1 (- eigi a i.+1))
           (upd (vv a) i.+1 (- vv a i.+1)) (upd (ww a) i.+1 (- ww a i.+1))
  else a.
Fixpoint reorder_loop (fuel : nat) (hamilt : bool) (nconv : nat) (eigr : nat -> F) (i : nat) (a : arrays) : arrays :=
  match fuel with
  | 0 => a
  | fuel'.+1 =>
      if (i.+1 < nconv)%N then
        if (eigi a i != 0) && (~~ hamilt || (eigr i != 0))
        then reorder_loop fuel' hamilt nconv eigr i.+2 (reorder_at i a)
        else reorder_loop fuel' hamilt nconv eigr i.+1 a
      else a
  end.
Definition reorder (hamilt : bool) (nconv : nat) (eigr : nat -> F) (a : arrays) : arrays :=
  reorder_loop nconv hamilt nconv eigr 0 a.

(** bvimpl.h:421-444; column -1 is an error of BVCopyVec. *)
Definition bv_get_eigenvector (v : nat -> V) (k : nat) (ei : F) : res (V * V) :=
  if 0 < ei then Ok (v k, v k.+1)
  else if ei < 0 then (if k is k'.+1 then Ok (v k', - v k) else Err)
  else Ok (v k, 0).

(** epssolve.c:469-490 and epsimpl.h:553-556, unstructured problems.  EPSGetEigenpair, both vectors asked for. *)
Definition get_eigenpair (nconv : nat) (eigr : nat -> F) (perm : nat -> nat) (a : arrays) (left : bool) (i : nat)
  : res (F * F * V * V) :=
  check (i < nconv)%N
  (do ' (xr, xi) <- bv_get_eigenvector (if left then ww a else vv a) (perm i) (eigi a (perm i));
   Ok (eigr (perm i), eigi a (perm i), xr, xi)).

(** EPSComputeResidualNorm_Private, epssolve.c:739-791; [opA], [opB] are MatMult or MatMultHermitianTranspose with
    the matrices according to [trans], [nmat2] tells whether there is a second matrix, [eps] is
    PETSC_MACHINE_EPSILON. *)
Variable dot : V -> V -> F.
Variable eps : F.
Definition vnorm (x : V) : F := Num.sqrt (dot x x).
(** SlepcAbsEigenvalue, see C29 *)
Definition abs2 (a b : F) : F := Num.sqrt (a ^+ 2 + b ^+ 2).
Definition residual_norm (trans nmat2 : bool) (opA opB : V -> V) (kr ki : F) (xr xi : V) : F :=
  let bx x := if nmat2 then opB x else x in
  if (ki == 0) || (`|ki| < `|kr * eps|) then
    let u := opA xr in
    vnorm (if eps < `|kr| then u - kr *: bx xr else u)
  else
    let big := eps < abs2 kr ki in
    let u := opA xr in
    let u := if big then u - kr *: bx xr + (if trans then - ki else ki) *: bx xi else u in
    let nr := vnorm u in
    let u := opA xi in
    let u := if big then u - kr *: bx xi + (if trans then ki else - ki) *: bx xr else u in
    let ni := vnorm u in
    abs2 nr ni.

Inductive errtype := Absolute | Relative | Backward.
(** EPSComputeError, epssolve.c:820-893; [nrma], [nrmb]: MatNorm of the matrices (1 for B if the problem is not
    generalized), [ghep]: the problem type is EPS_GHEP; a zero denominator is UB. *)
Definition compute_error (nconv : nat) (eigr : nat -> F) (perm : nat -> nat) (a : arrays) (nmat2 ghep twosided : bool)
  (A B AT BT : V -> V) (nrma nrmb : F) (i : nat) (type : errtype) : res F :=
  do ' (kr, ki, xr, xi) <- get_eigenpair nconv eigr perm a false i;
  let e := residual_norm false nmat2 A B kr ki xr xi in
  let vecnorm := if ghep then vnorm xr else 1 in
  do e <- (if twosided then
             do ' (_, _, yr, yi) <- get_eigenpair nconv eigr perm a true i;
             Ok (Num.max e (residual_norm true nmat2 AT BT kr ki yr yi))
           else Ok e);
  let divide d := if d == 0 then UB else Ok (e / d) in
  match type with
  | Absolute => Ok e
  | Relative => divide (abs2 kr ki * vecnorm)
  | Backward => divide ((nrma + abs2 kr ki * nrmb) * vecnorm)
  end.

(** ** Hamiltonian problems *)
(** EPSGetEigenvalue, epssolve.c:503-526; the number of converged pairs is 2 nconv. *)
Definition quad_index (eigr eigi : nat -> F) (perm : nat -> nat) (i : nat) : nat :=
  let k := perm (i %/ 2)%N in
  let iquad := (i %% 2)%N in
  if (1 < i)%N then
    let k2 := perm ((i - 2) %/ 2)%N in
    if (eigr k == eigr k2) && (eigi k == - eigi k2) then (iquad + 2)%N else iquad
  else iquad.
Definition hamilt_eigenvalue (nconv : nat) (eigr eigi : nat -> F) (perm : nat -> nat) (i : nat) : res (F * F) :=
  check (i < 2 * nconv)%N
  (let k := perm (i %/ 2)%N in
   if eigi k == 0 then Ok (if odd i then - eigr k else eigr k, 0)
   else if eigr k == 0 then Ok (0, if odd i then - eigi k else eigi k)
   else
     let iquad := quad_index eigr eigi perm i in
     Ok (if (iquad < 2)%N then - eigr k else eigr k, if (iquad %% 3 == 0)%N then eigi k else - eigi k)).
(** EPS_GetEigenvector_HAMILT, epsimpl.h:437-518, real scalars, both vectors asked for.  [sh] = ncv/2+1. *)
Definition hamilt_eigenvector (nconv : nat) (eigr eigi : nat -> F) (perm : nat -> nat) (sh : nat) (v : nat -> V) (i : nat)
  : res (V * V) :=
  check (i < 2 * nconv)%N
  (let k := perm (i %/ 2)%N in
   let normalize nrm xr xi := if nrm == 0 then UB else Ok (nrm^-1 *: xr, nrm^-1 *: xi) in
   if eigi k == 0 then
     let xr := v (k + sh)%N + (if odd i then - eigr k else eigr k) *: v k in
     normalize (vnorm xr) xr 0
   else if eigr k == 0 then
     let xr := v (k + sh)%N in
     let xi := (if odd i then - eigi k else eigi k) *: v k in
     normalize (abs2 (vnorm xr) (vnorm xi)) xr xi
   else
     let iquad := quad_index eigr eigi perm i in
     let k0 := if (iquad < 2)%N then k else perm ((i - 2) %/ 2)%N in
     let k1 := k0.+1 in
     let sgn := if (iquad < 2)%N then -1 else 1 in
     let xr := (sgn * eigr k0) *: v k0 - (sgn * eigi k0) *: v k1 + v (k0 + sh)%N in
     let sgn := if odd iquad then -1 else 1 in
     let xi := (sgn * eigi k0) *: v k0 + (sgn * eigr k0) *: v k1 + (if (iquad %% 3 == 0)%N then -1 else 1) *: v (k1 + sh)%N in
     normalize (abs2 (vnorm xr) (vnorm xi)) xr xi).
End Real.

(** * Vectors with two parts *)
Section Structured.
Variable F : numFieldType.
Variable U : lmodType F.
(** VecConjugate; the identity for real scalars *)
Variable cj : U -> U.
(** A vector as the operator sees it: [Nest] if the matrix is a MATNEST with two block rows (MatNestGetISs). *)
Notation vec := (U * U)%type.
(** Problem types with left eigenvectors available without EPSSetTwoSided (epssolve.c:640); for EPS_LREP the
    reduced form or not. *)
Inductive ptype := HEP | GHEP | BSE | LREP (reduced : bool).
Definition isstructured (t : ptype) : bool := match t with BSE | LREP _ => true | _ => false end.

(** EPSGetEigenvalue, epssolve.c:482-502: with eps->which of magnitude type the structured problems have 2 nconv
    pairs; complex scalars or real eigenvalues, so that eigi plays no role. *)
Definition actual_converged (t : ptype) (nconv : nat) : nat := if isstructured t then (2 * nconv)%N else nconv.
Definition struct_eigenvalue (t : ptype) (nconv : nat) (eigr : nat -> F) (perm : nat -> nat) (i : nat) : res F :=
  check (i < actual_converged t nconv)%N
  (Ok (if isstructured t then let k := perm (i %/ 2)%N in if odd i then - eigr k else eigr k else eigr (perm i))).
(** epsimpl.h:547-576 with 384-435 and 520-540; Vr given, real eigenvalues. *)
Definition struct_eigenvector (t : ptype) (perm : nat -> nat) (v : nat -> vec) (i : nat) : vec :=
  match t with
  | HEP | GHEP => v (perm i)
  | BSE | LREP false =>
      let x := v (perm (i %/ 2)%N) in
      if odd i then (cj x.2, cj x.1) else x
  | LREP true =>
      let x := v (perm (i %/ 2)%N) in
      if odd i then (x.1, - x.2) else x
  end.
(** EPSGetLeftEigenvector, epssolve.c:640-679; [nest]: the first matrix is a MATNEST of two block rows, otherwise
    MatNestGetISs is an error. *)
Definition left_eigenvector (t : ptype) (nest : bool) (nconv : nat) (perm : nat -> nat) (v : nat -> vec) (i : nat) : res vec :=
  check (i < actual_converged t nconv)%N
  (let x := struct_eigenvector t perm v i in
   let lrepreduced := if t is LREP r then r else false in
   if (if t is BSE then true else false) || ~~ lrepreduced then check nest (Ok (x.1, - x.2))
   else Ok (x.2, x.1)).
End Structured.

(** * Discarded values and dimensions *)
(** epssolve.c:70-76: the values outside of the interval leave the first eps->nconv places of perm. *)
Fixpoint discard_loop (fuel : nat) (outside : nat -> bool) (i nconv : nat) (perm : nat -> nat) : res (nat * (nat -> nat)) :=
  match fuel with
  | 0 => Loop
  | fuel'.+1 =>
      if (i < nconv)%N then
        if outside (perm i) then
          let n := nconv.-1 in
          if (i < n)%N then discard_loop fuel' outside i n (upd (upd perm i (perm n)) n (perm i))
          else discard_loop fuel' outside i.+1 n perm
        else discard_loop fuel' outside i.+1 nconv perm
      else Ok (nconv, perm)
  end.
Definition discard (outside : nat -> bool) (nconv : nat) (perm : nat -> nat) : res (nat * (nat -> nat)) :=
  discard_loop nconv.+1 outside 0 nconv perm.

(** EPSSetDimensions_Default, epssetup.c:692-718; [None] is PETSC_DETERMINE; [half]: EPS_BSE or EPS_LREP; [thres]:
    eps->stop is EPS_STOP_THRESHOLD.  Returned nev, ncv, mpd. *)
Definition set_dimensions (half krylov thres : bool) (n nev : nat) (ncv mpd : option nat) : res (nat * nat * nat) :=
  let n := if half then (n %/ 2)%N else n in
  let nev := if (nev == 0)%N && ~~ thres then 1%N else nev in
  let nev2 := if half then (nev.+1 %/ 2)%N else nev in
  let finish c m := Ok (nev, c, if m is Some m then m else c) in
  match ncv with
  | Some c => check (if krylov then (nev2 < c)%N || ((c == nev2) && (c == n)) else (nev2 <= c)%N) (finish c mpd)
  | None =>
      match mpd with
      | Some m => finish (minn n (nev2 + m)) mpd
      | None => if (nev2 < 500)%N then finish (minn n (maxn (2 * nev2) (nev2 + 15))) None
                else finish (minn n (nev2 + 500)) (Some 500%N)
      end
  end.
