(** Krylov decompositions: /repo/src/sys/classes/bv/interface/bvkrylov.c (BVMatArnoldi, BVMatLanczos), on
    top of the model of BVOrthonormalizeColumn (GSModel), and the convergence loop of the Krylov
    eigensolvers, /repo/src/eps/impls/krylov/epskrylov.c (EPSKrylovConvergence).  Exact arithmetic. *)
From mathcomp Require Import all_ssreflect all_algebra.
From Verif Require Import Prelude GSModel.
Set Implicit Arguments. Unset Strict Implicit. Unset Printing Implicit Defensive.
Import GRing.Theory Num.Theory.
Local Open Scope ring_scope.

(** * bvkrylov.c *)
Section Krylov.
Variable F : numFieldType.
Variable V : lmodType F.
Variable dot : V -> V -> F.
Variable conj : F -> F.
Variable sqrt : F -> F.
(** PetscRealPart *)
Variable re : F -> F.
(** MatMult: any function of vectors. *)
Variable op : V -> V.
(** V->N, the dimension of the vectors; scalars are complex. *)
Variable N : nat.
Variable cplx : bool.
Variable g : config F.
Notation mem := (mem V).

(** A sequential dense matrix given by the caller: rows, columns, leading dimension; [entry i j] is
    element i+j*lda of its array. *)
Record dense := Dense { rows : nat; cols : nat; lda : nat; entry : nat -> nat -> F }.
(** A store in the array; past the end of a column or of the array is undefined behaviour. *)
Definition hset (i j : nat) (x : F) (H : dense) : res dense :=
  if (i < lda H)%N && (j < cols H)%N then Ok (Dense (rows H) (cols H) (lda H) (upd2 (entry H) i j x))
  else UB.
(** PetscArraycpy(h+j*ldh,src,n) *)
Fixpoint copy_column (n j : nat) (src : nat -> F) (H : dense) : res dense :=
  match n with
  | 0 => Ok H
  | n'.+1 => do H <- copy_column n' j src H; hset n' j (src n') H
  end.

(** The matrix T of BVMatLanczos, an array of real numbers: alpha[j] is element j, betat[j] element
    ldt+j (bvkrylov.c:212-213); with complex scalars a column has room for both. *)
Record tridiag := Tri { trows : nat; tcols : nat; tlda : nat; alpha : nat -> F; betat : nat -> F }.
Definition tset (j : nat) (a b : F) (T : tridiag) : res tridiag :=
  if (j < tlda T)%N && ((if cplx then 1 else 2) <= tcols T)%N
  then Ok (Tri (trows T) (tcols T) (tlda T) (upd (alpha T) j a) (upd (betat T) j b)) else UB.

(** bvops.c:862-885 BVMatMultColumn *)
Definition mat_mult_column (j : nat) (s : mem) : res mem :=
  check (j.+1 < ncols g)%N
  (Ok (with_col s (upd (col s) (nc g + j.+1) (op (col s (nc g + j)))))).

(** bvimpl.h:452-465 BV_OrthogonalizeColumn_Safe: without refinement, norm and lindep fixed. *)
Definition no_refinement : config F := Config (nc g) (ncols g) (indef g) (mgs g) Never (eta g) (deftol g).
Definition orthogonalize_safe (j : nat) (s : mem) : res (mem * F * bool) :=
  do o <- orthogonalize_column dot conj sqrt no_refinement 0 j None false false s;
  Ok (after o, 0, true).

(** bvkrylov.c:88-96, 198-206: [n] steps left, [j] is the next one.  Returned: the object, the final *m,
    *beta ([beta]: value before the call), lindep. *)
Fixpoint krylov_loop (n j : nat) (s : mem) (beta : F) : res (mem * nat * F * bool) :=
  match n with
  | 0 => Ok (s, j, beta, false)
  | n'.+1 =>
      do s <- mat_mult_column j s;
      do ' (s, beta, lindep) <-
        (if j.+1 == N then orthogonalize_safe j.+1 s
         else orthonormalize_column dot conj sqrt g j.+1 false 0 0 s);
      if lindep then Ok (s, j.+1, beta, true) else krylov_loop n' j.+1 s beta
  end.

(** bvkrylov.c:104-106: columns [j] .. m-2, then column m-1. *)
Fixpoint store_columns (n j : nat) (s : mem) (H : dense) : res dense :=
  match n with
  | 0 => Ok H
  | n'.+1 => do H <- copy_column j.+2 j (fun i => buf s j.+1 (nc g + i)) H; store_columns n' j.+1 s H
  end.
Definition store_h (k m : nat) (s : mem) (H : dense) : res dense :=
  do H <- store_columns (m.-1 - k) k s H;
  do H <- copy_column m m.-1 (fun i => buf s m (nc g + i)) H;
  if (m < lda H)%N then hset m m.-1 (buf s m (nc g + m)) H else Ok H.

(** bvkrylov.c:56-113 BVMatArnoldi.  Negative k, m are not representable. *)
Definition mat_arnoldi (H : option dense) (k m : nat) (beta : F) (s : mem) :
    res (mem * option dense * nat * F * bool) :=
  check (k <= ncols g)%N
  (check (0 < m <= ncols g)%N
  (check (k < m)%N
  (check (if H is Some h then (m <= rows h)%N && (m <= cols h)%N else true)
  (do ' (s, m, beta, b) <- krylov_loop (m - k) k s beta;
   do H <- (if H is Some h then do h <- store_h k m s h; Ok (Some h) else Ok None);
   Ok (s, H, m, beta, b))))).

(** bvkrylov.c:216-219 *)
Fixpoint store_t (n j : nat) (s : mem) (T : tridiag) : res tridiag :=
  match n with
  | 0 => Ok T
  | n'.+1 => do T <- tset j (re (buf s j.+1 (nc g + j))) (re (buf s j.+1 (nc g + j.+1))) T;
             store_t n' j.+1 s T
  end.
(** bvkrylov.c:165-226 BVMatLanczos.  The checks of lines 185-186 are disjunctions that always hold. *)
Definition mat_lanczos (T : option tridiag) (k m : nat) (beta : F) (s : mem) :
    res (mem * option tridiag * nat * F * bool) :=
  check (k < m)%N
  (check (if T is Some t then (m <= trows t)%N && ((if cplx then 1 else 2) <= tcols t)%N else true)
  (do ' (s, m, beta, b) <- krylov_loop (m - k) k s beta;
   do T <- (if T is Some t then do t <- store_t (m - k) k s t; Ok (Some t) else Ok None);
   Ok (s, T, m, beta, b))).

End Krylov.

(** * epskrylov.c *)
Section Convergence.
Variable F : numFieldType.

(** What the loop reads: eps->trueres, eps->twosided, eps->trackall, eps->tol, eps->conv==EPS_CONV_NORM,
    the kind of ST, whether the region is trivial, whether the DS computes refined vectors. *)
Record kconfig := KConfig {
  istrivial : bool; trueres : bool; isshift : bool; convnorm : bool; refined : bool; twosided : bool;
  trackall : bool; tol : F }.
Variable c : kconfig.
(** eps->eigr, eps->eigi *)
Variable eig : nat -> F * F.
(** STBackTransform, RGCheckInside (false: outside), eps->converged (eigenvalue, residual norm). *)
Variable back : F * F -> F * F.
Variable inside : F * F -> bool.
Variable converged : F * F -> F -> F.
(** DSVectors(ds,DS_MAT_X,&newk,&resnorm), DSVectors(ds,DS_MAT_Y,...): newk and resnorm; the residual of
    the Ritz pair, EPSComputeRitzVector and EPSComputeResidualNorm_Private. *)
Variable xvec : nat -> nat * F.
Variable yvec : nat -> F.
Variable residual : nat -> F * F -> F.

Definition uses_back : bool := trueres c || isshift c || convnorm c.

(** epskrylov.c:199-240, the loop; [n] bounds the number of iterations left (k+n >= kend).  [marker] is -1
    for None. *)
Fixpoint conv_loop (n : nat) (getall : bool) (kend : nat) (beta betat corrf : F) (k : nat) (marker : option nat)
    (errest : nat -> F) : res (nat * option nat * (nat -> F)) :=
  if (kend <= k)%N then Ok (k, marker, errest) else
  match n with
  | 0 => Loop
  | n'.+1 =>
      (* 201-203 *)
      let w := if ~~ istrivial c || uses_back then back (eig k) else eig k in
      (* 204-211 *)
      let '(w, marker) :=
        if ~~ istrivial c then
          (if ~~ uses_back then eig k else w,
           if marker is None then (if inside w then None else Some k) else marker)
        else (w, marker) in
      (* 212-223 *)
      let '(newk, resnorm) := xvec k in
      let resnorm := if trueres c then residual k w
                     else if ~~ refined c then resnorm * (beta * corrf) else resnorm in
      (* 225-226 *)
      let e := converged w resnorm in
      let errest := upd errest k e in
      let marker := if marker is None then (if tol c <= e then Some k else None) else marker in
      (* 227-234 *)
      let '(errest, marker) :=
        if twosided c then
          let le := converged w (yvec k * betat) in
          (upd errest k (if errest k <= le then le else errest k),
           if marker is None then (if tol c <= le then Some k else None) else marker)
        else (errest, marker) in
      (* 235-239 *)
      let '(errest, k) := if newk == k.+1 then (upd errest k.+1 (errest k), k.+1) else (errest, k) in
      if (if marker is None then false else true) && ~~ getall then Ok (k, marker, errest)
      else conv_loop n' getall kend beta betat corrf k.+1 marker errest
  end.
(** epskrylov.c:173-253 EPSKrylovConvergence: the value returned in kout and the error estimates. *)
Definition krylov_convergence (getall : bool) (kini nits : nat) (beta betat corrf : F) (errest : nat -> F) :
    res (nat * (nat -> F)) :=
  do ' (k, marker, errest) <-
    conv_loop nits (getall || trackall c) (kini + nits) beta betat corrf kini None errest;
  Ok (if marker is Some p then p else k, errest).
End Convergence.
