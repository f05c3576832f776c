(** The Krylov-Schur eigensolver: /repo/src/eps/impls/krylov/krylovschur/krylovschur.c
    (EPSSolve_KrylovSchur_Default), with the dense solver DSNHEP (/repo/src/sys/classes/ds/impls/nhep/dsnhep.c,
    /repo/src/sys/classes/ds/impls/dsutil.c, /repo/src/sys/classes/ds/interface/dsops.c), EPSGetStartVector
    (/repo/src/eps/interface/epssolve.c), EPSStoppingBasic and EPSComputeVectors_Schur
    (/repo/src/eps/interface/epsdefault.c), on top of BVMatArnoldi and EPSKrylovConvergence (KrylovModel).
    Complex scalars, one process, standard extraction, no arbitrary selection, no two-sided variant, problems
    that are not solved as Hermitian.  Exact arithmetic. *)
From mathcomp Require Import all_ssreflect all_algebra.
From Verif Require Import Prelude GSModel KrylovModel.
Set Implicit Arguments. Unset Strict Implicit. Unset Printing Implicit Defensive.
Import GRing.Theory Num.Theory.
Local Open Scope ring_scope.

Section KS.
Variable F : numFieldType.
Variable V : lmodType F.
Variable dot : V -> V -> F.
Variable conj : F -> F.
Variable sqrt : F -> F.
(** STGetOperator: the operator; V->N. *)
Variable op : V -> V.
Variable N : nat.
Variable g : config F.
Notation mem := (mem V).

(** * The dense solver *)
Definition matrix := nat -> nat -> F.
(** Square matrices of order n are functions, the entries with both indices below n matter. *)
Definition ident : matrix := fun i j => (i == j)%:R.
Definition mulm (n : nat) (A B : matrix) : matrix := fun i j => \sum_(0 <= p < n) A i p * B p j.

(** LAPACK: gehrd and orghr (skipped if [hess]), then hseqr, on the rows and columns l .. n-1 of the n x n
    matrix A: [lapack_schur hess l n A] is the pair (Q,T); trexc, which moves the diagonal element [pos] of
    (Q,T) to position [i]; trevc, the eigenvector of the upper triangular T for its diagonal element k. *)
Variable lapack_schur : bool -> nat -> nat -> matrix -> matrix * matrix.
Variable lapack_trexc : nat -> nat -> nat -> matrix * matrix -> matrix * matrix.
Variable lapack_trevc : nat -> matrix -> nat -> F.
(** SlepcSCCompare(ds->sc,re,0,wr[j],0,&result), result > 0 *)
Variable worse : F -> F -> bool.

Inductive dstate := Raw | Intermediate | Condensed | Truncated.
(** ds->omat[DS_MAT_A], ds->omat[DS_MAT_Q], ds->n, ds->l, ds->k, ds->t, ds->state; ds->extrarow is set
    (krylovschur.c EPSSetUp_KrylovSchur). *)
Record ds := DS { dA : matrix; dQ : matrix; dn : nat; dl : nat; dk : nat; dt : nat; state : dstate }.

(** dsops.c:131-171 DSSetDimensions; the check of k (line 162) always holds. *)
Definition set_dimensions (ld n l k : nat) (d : ds) : res ds :=
  check (n <= ld)%N (check (n < ld)%N (check (l <= n)%N
  (Ok (DS (dA d) (dQ d) n l k n (state d))))).
(** dsops.c:278-297, 419-439 DSGetMat: the number of rows and columns. *)
Definition get_mat_A (d : ds) : res (nat * nat) :=
  check ((dn d).+1 != 0%N) (check (dn d != 0%N) (Ok ((dn d).+1, dn d))).
Definition get_mat_Q (d : ds) : res (nat * nat) :=
  let rows := if state d is Truncated then dt d else dn d in
  check (rows != 0%N) (check (dn d != 0%N) (Ok (rows, dn d))).

(** dsops.c:728-747 DSSolve, dsutil.c:20-83 DSSolve_NHEP_Private.  In state RAW lines 51-56 clear the entries
    of the locked columns below the subdiagonal (those of the other columns hold the reflectors of gehrd, which
    does not reference the locked columns).  The eigenvalues are the diagonal of T. *)
Definition clear_locked (l : nat) (A : matrix) : matrix :=
  fun i j => if (j < l)%N && (j.+2 <= i)%N then 0 else A i j.
Definition ds_solve (d : ds) : ds * (nat -> F) :=
  match state d with
  | Condensed | Truncated => (d, fun i => dA d i i)
  | st =>
      if dn d == 1%N then (DS (dA d) ident (dn d) (dl d) (dk d) (dt d) Condensed, fun i => dA d i i)
      else
        let A := if st is Raw then clear_locked (dl d) (dA d) else dA d in
        let '(Q, T) := lapack_schur (if st is Raw then false else true) (dl d) (dn d) A in
        (* only the leading n x n block of the array is referenced *)
        let A' := fun i j => if (i < dn d)%N && (j < dn d)%N then T i j else dA d i j in
        (DS A' Q (dn d) (dl d) (dk d) (dt d) Condensed, fun i => A' i i)
  end.

(** dsutil.c:89-168 DSSort_NHEP_Total: selection sort.  The inner loop: position of the best value after i,
    0 if it is i itself. *)
Fixpoint find_best (m j : nat) (re : F) (pos : nat) (wr : nat -> F) : nat :=
  match m with
  | 0 => pos
  | m'.+1 => if worse re (wr j) then find_best m' j.+1 (wr j) j wr else find_best m' j.+1 re pos wr
  end.
(** [m] iterations left, [i] the next one. *)
Fixpoint sort_loop (m i n : nat) (QT : matrix * matrix) (wr : nat -> F) : (matrix * matrix) * (nat -> F) :=
  match m with
  | 0 => (QT, wr)
  | m'.+1 =>
      let pos := find_best (n - i.+1) i.+1 (wr i) 0 wr in
      if pos == 0%N then sort_loop m' i.+1 n QT wr
      else
        let QT := lapack_trexc n pos i QT in
        let wr := fun j => if (i <= j < n)%N then QT.2 j j else wr j in
        sort_loop m' i.+1 n QT wr
  end.
Definition ds_sort (d : ds) (wr : nat -> F) : ds * (nat -> F) :=
  let '((Q, T), wr) := sort_loop ((dn d).-1 - dl d) (dl d) (dn d) (dQ d, dA d) wr in
  (DS (fun i j => if (i < dn d)%N && (j < dn d)%N then T i j else dA d i j) Q (dn d) (dl d) (dk d) (dt d) (state d), wr).

(** dsnhep.c:312-334 DSUpdateExtraRow_NHEP *)
Definition update_extra_row (d : ds) : ds :=
  let n := dn d in
  let y i := \sum_(0 <= j < n) dA d n j * dQ d j i in
  DS (fun i j => if (i == n) && (j < n)%N then y j else dA d i j) (dQ d) n (dl d) n (dt d) (state d).

(** dsops.c:234-256 DSTruncate, dsnhep.c:388-419 DSTruncate_NHEP (without the check of debug builds); the
    state is set by DSTruncate (lines 251-252). *)
Definition truncate (n : nat) (trim : bool) (d : ds) : res ds :=
  check ((dl d <= n)%N && (n <= dn d)%N)
  (let A := dA d in
   if trim then
     Ok (DS (fun i j => if (i == dn d) && (dl d <= j < dn d)%N then 0 else A i j) (dQ d) n 0 0 n Raw)
   else
     let A := if dk d == dn d then
                let A1 := fun i j => if (i == n) && (dl d <= j < n)%N then A (dn d) j else A i j in
                fun i j => if (i == dn d) && (dl d <= j < dn d)%N then 0 else A1 i j
              else A in
     Ok (DS A (dQ d) n (dl d) n (dn d) Truncated)).

(** dsnhep.c:100-163 DSVectors_NHEP_Eigen_Some, complex scalars, state CONDENSED: the norm of the last entry
    of the normalized vector. *)
Definition nrm2 (n : nat) (x : nat -> F) : F := sqrt (\sum_(0 <= i < n) `|x i| ^+ 2).
Definition ds_residual (d : ds) (k : nat) : F :=
  let n := dn d in
  let y := lapack_trevc k (dA d) in
  let x i := \sum_(0 <= j < n) dQ d i j * y j in
  `|(nrm2 n x)^-1 * x n.-1|.
(** dsnhep.c:165-221 DSVectors_NHEP_Eigen_All, state RAW. *)
Definition ds_vectors (d : ds) : matrix :=
  fun i j => (nrm2 (dn d) (lapack_trevc j (dA d)))^-1 * lapack_trevc j (dA d) i.

(** * The eigensolver *)
(** eps->nev, eps->ncv, eps->mpd, eps->max_it; ctx->lock; [keep m] is the integer part of m*ctx->keep; whether
    start vectors are multiplied by the operator (epssolve.c:933). *)
Record kscfg := KSCfg { nev : nat; ncv : nat; mpd : nat; max_it : nat; lock : bool; keep : nat -> nat;
                        inrange : bool }.
Variable ks : kscfg.
(** What EPSKrylovConvergence reads, see KrylovModel. *)
Variable kc : kconfig F.
Variable back : F * F -> F * F.
Variable inside : F * F -> bool.
Variable converged : F * F -> F -> F.
(** The first start vector (initial space or random); the random vector of iteration its. *)
Variable start : V.
Variable random : nat -> V.

(** eps->reason; while iterating: None. *)
Inductive reason := Tol | Its | Breakdown.
Record run := Run { basis : mem; dense_solver : ds; nconv : nat; nkeep : nat; its : nat; eigr : nat -> F;
                    errest : nat -> F; why : option reason }.

(** epssolve.c:919-951 EPSGetStartVector; [first]: called with a NULL pointer for breakdown.  For norm zero
    the vector is not usable; the division is left to the convention 1/0 = 0. *)
Definition start_vector (first : bool) (x : V) (i : nat) (s : mem) : res (mem * bool) :=
  let s := with_col s (upd (col s) (nc g + i) x) in
  let s := if inrange ks then with_col s (upd (col s) (nc g + i) (op (col s (nc g + i)))) else s in
  do o <- orthogonalize_column dot conj sqrt g 0 i None true true s;
  let norm := if onorm o is Some a then a else 0 in
  let lindep := if olindep o is Some b then b else false in
  check (~~ (first && (lindep || (norm == 0))))
  (Ok (scale_column g i norm^-1 (after o), lindep)).

(** bvops.c:220-245 BVMultInPlace with active columns l .. k, Q of size [rows] x [cols]:
    V(:,s:e-1) = V(:,l:k-1) Q(l:k-1,s:e-1). *)
Definition mult_in_place (l k : nat) (rows cols : nat) (Q : matrix) (s e : nat) (m : mem) : res mem :=
  check ((l <= s)%N && (s <= ncols g)%N) (check ((l <= e)%N && (e <= ncols g)%N)
  (check (k <= rows)%N (check (e <= cols)%N
  (Ok (with_col m (fun i => if (nc g + s <= i < nc g + e)%N
                            then \sum_(l <= p < k) Q p (i - nc g)%N *: col m (nc g + p) else col m i)))))).
(** BVCopyColumn *)
Definition copy_col (j i : nat) (m : mem) : res mem :=
  check (j < ncols g)%N (check (i < ncols g)%N (Ok (with_col m (upd (col m) (nc g + i) (col m (nc g + j)))))).

(** epsdefault.c:286-298 EPSStoppingBasic *)
Definition stopping (its nconv : nat) : option reason :=
  if (nev ks <= nconv)%N then Some Tol else if (max_it ks <= its)%N then Some Its else None.

(** krylovschur.c:256-348, one iteration. *)
Definition iteration (r : run) : res run :=
  let ld := (ncv ks).+1 in
  let c := nconv r in let l := nkeep r in
  let it := (its r).+1 in
  (* 258-274 *)
  let nv := minn (c + mpd ks) (ncv ks) in
  do d <- set_dimensions ld nv c (c + l) (dense_solver r);
  do ' (rows, cols) <- get_mat_A d;
  do ' (v, H, nv, beta, breakdown) <-
    mat_arnoldi dot conj sqrt op N g (Some (Dense rows cols ld (dA d))) (c + l) nv 0 (basis r);
  let A := if H is Some h then entry h else dA d in
  let d := DS A (dQ d) (dn d) (dl d) (dk d) (dt d) (state d) in
  do d <- set_dimensions ld nv c (c + l) d;
  let d := DS (dA d) (dQ d) (dn d) (dl d) (dk d) (dt d) (if l == 0%N then Intermediate else Raw) in
  (* 280-287 *)
  let '(d, wr) := ds_solve d in
  let '(d, wr) := ds_sort d wr in
  let d := update_extra_row d in
  (* the array eps->eigr is written for the positions below nv *)
  let wr := fun i => if (i < nv)%N then wr i else eigr r i in
  (* 290-293 *)
  do ' (k, err) <- krylov_convergence kc (fun i => (wr i, 0)) back inside converged
    (fun i => (i, ds_residual d i)) (fun _ => 0) (fun _ _ => 0) false c (nv - c) beta 0 1 (errest r);
  let why := stopping it k in
  (* 296-301 *)
  let iterating := if why is None then true else false in
  let l := if ~~ iterating || breakdown || (k == nv) then 0%N else maxn 1 (keep ks (nv - k)) in
  let '(k, l) := if ~~ lock ks && (0 < l)%N then (0%N, l + k)%N else (k, l) in
  (* 304-330 *)
  do ' (v, d, breakdown, why) <-
    (if iterating then
       if breakdown || (k == nv) then
         if (k < nev ks)%N then
           do ' (v, b) <- start_vector false (random it) k v;
           Ok (v, d, b, if b then Some Breakdown else why)
         else Ok (v, d, breakdown, why)
       else do d <- truncate (k + l) false d; Ok (v, d, breakdown, why)
     else Ok (v, d, breakdown, why));
  (* 332-334 *)
  do ' (rows, cols) <- get_mat_Q d;
  do v <- mult_in_place c nv rows cols (dQ d) c (k + l) v;
  (* 336-347; EPS_STOP_THRESHOLD is not modelled *)
  do v <- (if (if why is None then true else false) && ~~ breakdown then copy_col nv (k + l) v else Ok v);
  Ok (Run v d k l it wr err why).

(** krylovschur.c:255: the loop; [fuel] bounds the number of iterations. *)
Fixpoint iterate (fuel : nat) (r : run) : res run :=
  match why r with
  | Some _ => Ok r
  | None => match fuel with
            | 0 => Loop
            | f.+1 => do r <- iteration r; iterate f r
            end
  end.
(** krylovschur.c:233-354.  On entry eps->nconv = its = 0 (epssolve.c EPSSolve). *)
Definition solve (v : mem) (d : ds) (eig err : nat -> F) : res run :=
  do ' (v, _) <- start_vector true start 0 v;
  do r <- iterate (maxn 1 (max_it ks)) (Run v d 0 0 0 eig err None);
  do d <- truncate (nconv r) true (dense_solver r);
  Ok (Run (basis r) d (nconv r) (nkeep r) (its r) (eigr r) (errest r) (why r)).
(** epsdefault.c:105-169 EPSComputeVectors_Schur without purification, balancing, left vectors; the active
    columns are 0 .. nconv (epssolve.c:EPSSolve, BVSetActiveColumns(eps->V,0,eps->nconv)). *)
Definition compute_vectors (r : run) : res run :=
  let d := dense_solver r in
  check (dn d != 0%N)
  (do v <- mult_in_place 0 (nconv r) (dn d) (dn d) (ds_vectors d) 0 (nconv r) (basis r);
   Ok (Run v d (nconv r) (nkeep r) (its r) (eigr r) (errest r) (why r))).
End KS.
