(** Spectral transformations (ST): /repo/src/sys/classes/st/interface/stsolve.c, stfunc.c, stset.c,
    stsles.c, stshellmat.c and impls/shift/shift.c, impls/sinvert/sinvert.c, impls/cayley/cayley.c.
    Exact arithmetic over a field; matrices are square of any size.  Mat objects live on a heap with
    reference counts, so that pointers to the same object, objects modified in place and objects
    destroyed too early are all visible.
    Not modelled: user preconditioners (Pmat, Psplit), which only affect how a linear system is
    solved; the structured (BSE) products; MatStructure and symmetry flags; options; logging. *)
From mathcomp Require Import all_ssreflect all_algebra.
From Verif Require Import Prelude.
Set Implicit Arguments. Unset Strict Implicit. Unset Printing Implicit Defensive.
Import GRing.Theory.
Local Open Scope ring_scope.

Section ST.
Variable K : fieldType.
(** PetscConj: the identity with real scalars. *)
Variable conj : {rmorphism K -> K}.
Variable n : nat.
Notation mat := 'M[K]_n.
Notation vec := 'cV[K]_n.

(** ** Matrix objects *)

(** A Mat: assembled; the shell matrix of stshellmat.c:17-24 (alpha, coeffs, matIdx); the shell matrix
    of cayley.c:148-150. *)
Inductive obj := Dense of mat | Shell of K & option (seq K) & seq nat | CayleyShell.

Definition ptr := option nat.
(** Live objects with their reference count; [nxt] is the next free address. *)
Record heap := Heap { cell : nat -> option (nat * obj); nxt : nat }.

Definition upd T (f : nat -> T) (i : nat) (v : T) : nat -> T := fun k => if k == i then v else f k.
Definition hput (h : heap) (i : nat) (c : option (nat * obj)) : heap := Heap (upd (cell h) i c) (nxt h).

(** PETSc: PetscObjectReference (nothing to do for NULL), MatDestroy (nothing to do for NULL), creation. *)
Definition href (h : heap) (p : ptr) : res heap :=
  match p with
  | None => Ok h
  | Some i => match cell h i with Some (r, o) => Ok (hput h i (Some (r.+1, o))) | None => UB end
  end.
Definition hdestroy (h : heap) (p : ptr) : res heap :=
  match p with
  | None => Ok h
  | Some i =>
      match cell h i with
      | Some (r.+2, o) => Ok (hput h i (Some (r.+1, o)))
      | Some (1%N, _) => Ok (hput h i None)
      | _ => UB
      end
  end.
Definition halloc (h : heap) (o : obj) : heap * nat :=
  (Heap (upd (cell h) (nxt h) (Some (1%N, o))) (nxt h).+1, nxt h).

(** The object behind a pointer; NULL is rejected by PETSc. *)
Definition hobj (h : heap) (p : ptr) : res obj :=
  match p with
  | None => Err
  | Some i => match cell h i with Some (_, o) => Ok o | None => UB end
  end.
Definition hset (h : heap) (p : ptr) (o : obj) : res heap :=
  match p with
  | None => Err
  | Some i => match cell h i with Some (r, _) => Ok (hput h i (Some (r, o))) | None => UB end
  end.
(** The entries of an assembled matrix; shell matrices do not support these operations. *)
Definition hdense (h : heap) (p : ptr) : res mat :=
  do o <- hobj h p; match o with Dense m => Ok m | _ => Err end.

(** PETSc: MatScale, MatAXPY (Y = Y + a X), MatShift (Y = Y + a I), MatCopy, MatDuplicate. *)
Definition mat_scale (h : heap) (y : ptr) (a : K) : res heap :=
  do m <- hdense h y; hset h y (Dense (a *: m)).
Definition mat_axpy (h : heap) (y : ptr) (a : K) (x : ptr) : res heap :=
  do my <- hdense h y; do mx <- hdense h x; hset h y (Dense (my + a *: mx)).
Definition mat_shift (h : heap) (y : ptr) (a : K) : res heap :=
  do my <- hdense h y; hset h y (Dense (my + a%:M)).
Definition mat_copy (h : heap) (x y : ptr) : res heap :=
  do mx <- hdense h x; do my <- hdense h y; hset h y (Dense mx).
Definition mat_dup (h : heap) (x : ptr) : res (heap * ptr) :=
  do mx <- hdense h x; let '(h', i) := halloc h (Dense mx) in Ok (h', Some i).

(** ** Building the transformed matrices *)

Inductive matmode := Copy | Inplace | ShellMode.

Definition cget (cs : seq K) (i : nat) : res K := if (i < size cs)%N then Ok (nth 0 cs i) else UB.
(** A[i] of the array of matrices. *)
Definition pget (As : seq ptr) (i : nat) : res ptr := if (i < size As)%N then Ok (nth None As i) else UB.

(** stsolve.c:599-602: first index with a nonzero coefficient (None is -1), and t. *)
Fixpoint seek (cs : seq K) (alpha : K) (m i : nat) (t : K) : res (option nat * K) :=
  match m with
  | 0 => Ok (None, t)
  | m'.+1 => do c <- cget cs i;
      if c != 0 then Ok (Some i, t) else seek cs alpha m' i.+1 (t * alpha)
  end.
(** stsolve.c:603-604: whether some later coefficient is not zero, or the first is not one. *)
Fixpoint any_nz (cs : seq K) (m i : nat) : res bool :=
  match m with
  | 0 => Ok false
  | m'.+1 => do c <- cget cs i; if c != 0 then Ok true else any_nz cs m' i.+1
  end.
(** stsolve.c:620-628: for (i=ini+k+1;i<PetscMax(2,nmat);i++). *)
Fixpoint axpys (As : seq ptr) (nmat k : nat) (coeffs : option (seq K)) (alpha : K) (s : ptr)
    (m i : nat) (t : K) (h : heap) : res heap :=
  match m with
  | 0 => Ok h
  | m'.+1 =>
      let t := t * alpha in
      do ta <- (if coeffs is Some cs then do c <- cget cs (i - k); Ok (t * c) else Ok t);
      do h <- (if ta != 0 then
                 (if (1 < nmat)%N then do x <- pget As i; mat_axpy h s ta x else mat_shift h s ta)
               else Ok h);
      axpys As nmat k coeffs alpha s m' i.+1 t h
  end.

(** stsolve.c:562-634 STMatMAXPY_Private, precond=false: returns the heap and the new value of S.
    coeffs=None is NULL.  The calls to MatSetOption are omitted. *)
Definition maxpy (md : matmode) (As : seq ptr) (nmat : nat) (alpha beta : K) (k : nat)
    (coeffs : option (seq K)) (initial : bool) (h : heap) (s : ptr) : res (heap * ptr) :=
  let nm := (nmat - k)%N in
  match md with
  | Inplace =>
      check (nmat <= 2)%N
      (do x0 <- pget As 0;
       do '(h, s, gamma) <- (if initial then do h <- href h x0; Ok (h, x0, alpha)
                             else Ok (h, s, alpha - beta));
       if gamma != 0 then
         do h <- (if (1 < nmat)%N then do x <- pget As 1; mat_axpy h s gamma x else mat_shift h s gamma);
         Ok (h, s)
       else Ok (h, s))
  | ShellMode =>
      if initial then
        let idx := if (2 < nmat)%N then iota k nm
                   else if (1 < nmat)%N then [:: 0; 1]%N else [:: 0]%N in
        (* stshellmat.c:157-202: the coefficients are copied *)
        do cs <- (if coeffs is Some cs then
                    (if (size idx <= size cs)%N then Ok (Some (take (size idx) cs)) else UB) else Ok None);
        let '(h, i) := halloc h (Shell alpha cs idx) in Ok (h, Some i)
      else (* stshellmat.c:26-35 STMatShellShift *)
        do o <- hobj h s;
        match o with
        | Shell _ cs idx => do h <- hset h s (Shell alpha cs idx); Ok (h, s)
        | _ => Err
        end
  | Copy =>
      do '(ini, t, nz) <-
        (match coeffs with
         | Some cs =>
             do '(oi, t) <- seek cs alpha nm 0 1;
             match oi with
             | None => UB   (* coeffs[-1] *)
             | Some ini =>
                 do c <- cget cs ini;
                 do nz <- (if c != 1 then Ok true else any_nz cs (nm - ini.+1) ini.+1);
                 Ok (ini, t, nz)
             end
         | None => Ok (0%N, 1, true)
         end);
      do x <- pget As (k + ini);
      if ((alpha == 0) || ~~ nz) && (t == 1) then
        do h <- href h x; do h <- hdestroy h s; Ok (h, x)
      else
        do '(h, s) <- (if (s != None) && (s != x) then do h <- mat_copy h x s; Ok (h, s)
                       else do h <- hdestroy h s; mat_dup h x);
        do h <- (if coeffs is Some cs then do c <- cget cs ini; if c != 1 then mat_scale h s c else Ok h
                 else Ok h);
        do h <- axpys As nmat k coeffs alpha s (maxn 2 nmat - (ini + k + 1))%N (ini + k + 1)%N t h;
        Ok (h, s)
  end.

(** ** Products with the matrix objects *)

(** What can be done with a Mat: MatMult, MatMultTranspose, MatMultHermitianTranspose. *)
Record lin := Lin { l_mult : vec -> vec; l_multT : vec -> vec; l_multH : vec -> vec }.

Definition conjm p q (m : 'M[K]_(p, q)) : 'M[K]_(p, q) := map_mx conj m.
Definition dense_lin (m : mat) : lin :=
  Lin (fun x => m *m x) (fun x => m^T *m x) (fun x => (conjm m)^T *m x).

(** stshellmat.c:41-112: y = sum_i coeffs[i] alpha^i A[idx[i]] x.  The three products follow the same
    steps; [mul] is the product with one of the matrices and [cj] is PetscConj in the third. *)
Fixpoint shell_loop (mul : mat -> vec -> vec) (cj : K -> K) (coeffs : option (seq K)) (alpha : K)
    (x : vec) (As : seq mat) (i : nat) (t : K) (y : vec) : vec :=
  match As with
  | [::] => y
  | a :: As' =>
      let z := mul a x in
      let t := t * alpha in
      let c := if coeffs is Some cs then t * nth 0 cs i else t in
      shell_loop mul cj coeffs alpha x As' i.+1 t (y + cj c *: z)
  end.
Definition shell_product (mul : mat -> vec -> vec) (cj : K -> K) (coeffs : option (seq K)) (alpha : K)
    (As : seq mat) (x : vec) : vec :=
  let y := mul (head 0 As) x in
  let y := if coeffs is Some cs then (if nth 0 cs 0 != 1 then cj (nth 0 cs 0) *: y else y) else y in
  if alpha != 0 then
    let y := shell_loop mul cj coeffs alpha x (behead As) 1 1 y in
    if size As == 1%N then y + cj alpha *: x else y
  else y.
(** stshellmat.c:41-63 MatMult_Shell, 65-87 MatMultTranspose_Shell, 90-112 MatMultHermitianTranspose_Shell *)
Definition shell_lin (coeffs : option (seq K)) (alpha : K) (As : seq mat) : lin :=
  Lin (shell_product (fun m x => m *m x) id coeffs alpha As)
      (shell_product (fun m x => m^T *m x) id coeffs alpha As)
      (shell_product (fun m x => (conjm m)^T *m x) conj coeffs alpha As).

(** stshellmat.c:115-142 MatGetDiagonal_Shell: the entries of the diagonal, as a vector.
    VecAYPX(diag,c,diagb) is diag = c*diag + diagb. *)
Definition diagv (m : mat) : vec := \col_i m i i.
Fixpoint diag_loop (coeffs : option (seq K)) (alpha : K) (As : seq mat) (i : nat) (t : K) (d : vec) : vec :=
  match As with
  | [::] => d
  | a :: As' =>
      let t := t * alpha in
      let c := if coeffs is Some cs then t * nth 0 cs i else t in
      diag_loop coeffs alpha As' i.+1 t (c *: d + diagv a)
  end.
Definition shell_diag (coeffs : option (seq K)) (alpha : K) (As : seq mat) : vec :=
  let d := diagv (head 0 As) in
  let d := if coeffs is Some cs then (if nth 0 cs 0 != 1 then nth 0 cs 0 *: d else d) else d in
  if alpha != 0 then
    if size As == 1%N then d + const_mx alpha else diag_loop coeffs alpha (behead As) 1 1 d
  else d.

(** cayley.c:21-45 MatMult_Cayley, 47-72 MatMultTranspose_Cayley.  The shell has no Hermitian
    product: MatMultHermitianTranspose of PETSc conjugates the vectors around MatMultTranspose. *)
Definition cayley_lin (md : matmode) (sigma nu : K) (ma : mat) (mb : option mat) : lin :=
  let nu := if md is Inplace then nu + sigma else nu in
  let mult (nu : K) (x : vec) :=
    if mb is Some b then ma *m x + nu *: (b *m x) else ma *m x + nu *: x in
  let multT (nu : K) (x : vec) :=
    if mb is Some b then ma^T *m x + nu *: (b^T *m x) else ma^T *m x + nu *: x in
  Lin (mult nu) (multT (conj nu)) (fun x => conjm (multT (conj nu) (conjm x))).

(** ** The ST object *)

Inductive sttype := Shift | Sinvert | Cayley.
Inductive ststate := Initial | SetUp | Updated.   (* stimpl.h: STStateType *)

Definition sttype_eq (a b : sttype) : bool :=
  match a, b with Shift, Shift | Sinvert, Sinvert | Cayley, Cayley => true | _, _ => false end.
Definition mode_eq (a b : matmode) : bool :=
  match a, b with Copy, Copy | Inplace, Inplace | ShellMode, ShellMode => true | _, _ => false end.
Definition state_eq (a b : ststate) : bool :=
  match a, b with Initial, Initial | SetUp, SetUp | Updated, Updated => true | _, _ => false end.

(** struct _p_ST for linear problems (nmat <= 2).  [a0],[a1] is st->A, [t0],[t1] is st->T (NULL entries
    when not allocated), [pp],[mm] are st->P, st->M, [ksp] the matrix of the linear solver, [opmade]
    tells whether st->Op exists, [bal] is st->D; [u0],[u1] are the user's own handles of the matrices
    last given to STSetMatrices. *)
Record world := W {
  hp : heap; ty : sttype; mode : matmode; sigma : K; sigset : bool; defsig : K; transf : bool;
  state : ststate; opready : bool; opmade : bool; nmat : nat; a0 : ptr; a1 : ptr; t0 : ptr; t1 : ptr;
  pp : ptr; mm : ptr; ksp : ptr; nu : K; nuset : bool; bal : option vec; u0 : ptr; u1 : ptr }.

Definition set_hp v w := W v (ty w) (mode w) (sigma w) (sigset w) (defsig w) (transf w) (state w) (opready w) (opmade w) (nmat w) (a0 w) (a1 w) (t0 w) (t1 w) (pp w) (mm w) (ksp w) (nu w) (nuset w) (bal w) (u0 w) (u1 w).
Definition set_ty v w := W (hp w) v (mode w) (sigma w) (sigset w) (defsig w) (transf w) (state w) (opready w) (opmade w) (nmat w) (a0 w) (a1 w) (t0 w) (t1 w) (pp w) (mm w) (ksp w) (nu w) (nuset w) (bal w) (u0 w) (u1 w).
Definition set_mode v w := W (hp w) (ty w) v (sigma w) (sigset w) (defsig w) (transf w) (state w) (opready w) (opmade w) (nmat w) (a0 w) (a1 w) (t0 w) (t1 w) (pp w) (mm w) (ksp w) (nu w) (nuset w) (bal w) (u0 w) (u1 w).
Definition set_sigma v w := W (hp w) (ty w) (mode w) v (sigset w) (defsig w) (transf w) (state w) (opready w) (opmade w) (nmat w) (a0 w) (a1 w) (t0 w) (t1 w) (pp w) (mm w) (ksp w) (nu w) (nuset w) (bal w) (u0 w) (u1 w).
Definition set_sigset v w := W (hp w) (ty w) (mode w) (sigma w) v (defsig w) (transf w) (state w) (opready w) (opmade w) (nmat w) (a0 w) (a1 w) (t0 w) (t1 w) (pp w) (mm w) (ksp w) (nu w) (nuset w) (bal w) (u0 w) (u1 w).
Definition set_defsig v w := W (hp w) (ty w) (mode w) (sigma w) (sigset w) v (transf w) (state w) (opready w) (opmade w) (nmat w) (a0 w) (a1 w) (t0 w) (t1 w) (pp w) (mm w) (ksp w) (nu w) (nuset w) (bal w) (u0 w) (u1 w).
Definition set_transf v w := W (hp w) (ty w) (mode w) (sigma w) (sigset w) (defsig w) v (state w) (opready w) (opmade w) (nmat w) (a0 w) (a1 w) (t0 w) (t1 w) (pp w) (mm w) (ksp w) (nu w) (nuset w) (bal w) (u0 w) (u1 w).
Definition set_state v w := W (hp w) (ty w) (mode w) (sigma w) (sigset w) (defsig w) (transf w) v (opready w) (opmade w) (nmat w) (a0 w) (a1 w) (t0 w) (t1 w) (pp w) (mm w) (ksp w) (nu w) (nuset w) (bal w) (u0 w) (u1 w).
Definition set_opready v w := W (hp w) (ty w) (mode w) (sigma w) (sigset w) (defsig w) (transf w) (state w) v (opmade w) (nmat w) (a0 w) (a1 w) (t0 w) (t1 w) (pp w) (mm w) (ksp w) (nu w) (nuset w) (bal w) (u0 w) (u1 w).
Definition set_opmade v w := W (hp w) (ty w) (mode w) (sigma w) (sigset w) (defsig w) (transf w) (state w) (opready w) v (nmat w) (a0 w) (a1 w) (t0 w) (t1 w) (pp w) (mm w) (ksp w) (nu w) (nuset w) (bal w) (u0 w) (u1 w).
Definition set_nmat v w := W (hp w) (ty w) (mode w) (sigma w) (sigset w) (defsig w) (transf w) (state w) (opready w) (opmade w) v (a0 w) (a1 w) (t0 w) (t1 w) (pp w) (mm w) (ksp w) (nu w) (nuset w) (bal w) (u0 w) (u1 w).
Definition set_a0 v w := W (hp w) (ty w) (mode w) (sigma w) (sigset w) (defsig w) (transf w) (state w) (opready w) (opmade w) (nmat w) v (a1 w) (t0 w) (t1 w) (pp w) (mm w) (ksp w) (nu w) (nuset w) (bal w) (u0 w) (u1 w).
Definition set_a1 v w := W (hp w) (ty w) (mode w) (sigma w) (sigset w) (defsig w) (transf w) (state w) (opready w) (opmade w) (nmat w) (a0 w) v (t0 w) (t1 w) (pp w) (mm w) (ksp w) (nu w) (nuset w) (bal w) (u0 w) (u1 w).
Definition set_t0 v w := W (hp w) (ty w) (mode w) (sigma w) (sigset w) (defsig w) (transf w) (state w) (opready w) (opmade w) (nmat w) (a0 w) (a1 w) v (t1 w) (pp w) (mm w) (ksp w) (nu w) (nuset w) (bal w) (u0 w) (u1 w).
Definition set_t1 v w := W (hp w) (ty w) (mode w) (sigma w) (sigset w) (defsig w) (transf w) (state w) (opready w) (opmade w) (nmat w) (a0 w) (a1 w) (t0 w) v (pp w) (mm w) (ksp w) (nu w) (nuset w) (bal w) (u0 w) (u1 w).
Definition set_pp v w := W (hp w) (ty w) (mode w) (sigma w) (sigset w) (defsig w) (transf w) (state w) (opready w) (opmade w) (nmat w) (a0 w) (a1 w) (t0 w) (t1 w) v (mm w) (ksp w) (nu w) (nuset w) (bal w) (u0 w) (u1 w).
Definition set_mm v w := W (hp w) (ty w) (mode w) (sigma w) (sigset w) (defsig w) (transf w) (state w) (opready w) (opmade w) (nmat w) (a0 w) (a1 w) (t0 w) (t1 w) (pp w) v (ksp w) (nu w) (nuset w) (bal w) (u0 w) (u1 w).
Definition set_ksp v w := W (hp w) (ty w) (mode w) (sigma w) (sigset w) (defsig w) (transf w) (state w) (opready w) (opmade w) (nmat w) (a0 w) (a1 w) (t0 w) (t1 w) (pp w) (mm w) v (nu w) (nuset w) (bal w) (u0 w) (u1 w).
Definition set_nu v w := W (hp w) (ty w) (mode w) (sigma w) (sigset w) (defsig w) (transf w) (state w) (opready w) (opmade w) (nmat w) (a0 w) (a1 w) (t0 w) (t1 w) (pp w) (mm w) (ksp w) v (nuset w) (bal w) (u0 w) (u1 w).
Definition set_nuset v w := W (hp w) (ty w) (mode w) (sigma w) (sigset w) (defsig w) (transf w) (state w) (opready w) (opmade w) (nmat w) (a0 w) (a1 w) (t0 w) (t1 w) (pp w) (mm w) (ksp w) (nu w) v (bal w) (u0 w) (u1 w).
Definition set_bal v w := W (hp w) (ty w) (mode w) (sigma w) (sigset w) (defsig w) (transf w) (state w) (opready w) (opmade w) (nmat w) (a0 w) (a1 w) (t0 w) (t1 w) (pp w) (mm w) (ksp w) (nu w) (nuset w) v (u0 w) (u1 w).
Definition set_u0 v w := W (hp w) (ty w) (mode w) (sigma w) (sigset w) (defsig w) (transf w) (state w) (opready w) (opmade w) (nmat w) (a0 w) (a1 w) (t0 w) (t1 w) (pp w) (mm w) (ksp w) (nu w) (nuset w) (bal w) v (u1 w).
Definition set_u1 v w := W (hp w) (ty w) (mode w) (sigma w) (sigset w) (defsig w) (transf w) (state w) (opready w) (opmade w) (nmat w) (a0 w) (a1 w) (t0 w) (t1 w) (pp w) (mm w) (ksp w) (nu w) (nuset w) (bal w) (u0 w) v.

(** stfunc.c:169-214 STCreate, then STSetType for a new object (stset.c:41-65). *)
Definition create (t : sttype) : world :=
  W (Heap (fun _ => None) 0%N) t Copy 0 false 0 false Initial false false 0%N
    None None None None None None None 0 false None None None.

(** PetscObjectReference(x); MatDestroy(&slot); slot = x. *)
Definition assign (h : heap) (slot x : ptr) : res heap := do h <- href h x; hdestroy h slot.

Definition arr (w : world) : seq ptr := [:: a0 w; a1 w].
Definition maxpyw (w : world) (alpha beta : K) (initial : bool) (s : ptr) : res (world * ptr) :=
  do '(h, s) <- maxpy (mode w) (arr w) (nmat w) alpha beta 0 None initial (hp w) s;
  Ok (set_hp h w, s).

(** stimpl.h ST_KSPSetOperators: the solver takes a reference of the matrix and drops the old one. *)
Definition ksp_set (w : world) (x : ptr) : res world :=
  do h <- assign (hp w) (ksp w) x; Ok (set_ksp x (set_hp h w)).

(** PetscObjectReference(x); MatDestroy(&st->P); st->P = x. *)
Definition set_P (w : world) (x : ptr) : res world :=
  do h <- assign (hp w) (pp w) x; Ok (set_pp x (set_hp h w)).

(** stsolve.c:465-493 STComputeOperator with shift.c:133-151, sinvert.c:92-109, cayley.c:132-163. *)
Definition compute_shift (w : world) : res world :=
  do h <- assign (hp w) (t1 w) (a1 w);
  let w := set_t1 (a1 w) (set_hp h w) in
  do '(w, t) <- maxpyw w (- sigma w) 0 (~~ state_eq (state w) Updated) (t0 w);
  let w := set_t0 t w in
  do w <- set_P w (if (1 < nmat w)%N then t1 w else None);
  Ok (set_mm (t0 w) w).
Definition compute_sinvert (w : world) : res world :=
  let w := if sigset w then w else set_sigma (defsig w) w in
  do h <- assign (hp w) (t0 w) (a1 w);
  let w := set_t0 (a1 w) (set_hp h w) in
  do '(w, t) <- maxpyw w (- sigma w) 0 (~~ state_eq (state w) Updated) (t1 w);
  let w := set_t1 t w in
  do w <- set_P w (t1 w);
  Ok (set_mm (if (1 < nmat w)%N then t0 w else None) w).
Definition compute_cayley (w : world) : res world :=
  let w := if sigset w then w else set_sigma (defsig w) w in
  let w := if nuset w then w else set_nu (sigma w) w in
  check ((nu w != 0) || (sigma w != 0))
  (check (nu w != - sigma w)
  (do w <- (if mode w is Inplace then
              let '(h, i) := halloc (hp w) CayleyShell in Ok (set_t0 (Some i) (set_hp h w))
            else
              do '(w, t) <- maxpyw w (nu w) 0 (~~ state_eq (state w) Updated) (t0 w);
              Ok (set_t0 t w));
   let w := set_mm (t0 w) w in
   do '(w, t) <- maxpyw w (- sigma w) 0 (~~ state_eq (state w) Updated) (t1 w);
   let w := set_t1 t w in
   set_P w (t1 w))).
Definition compute_operator (w : world) : res world :=
  if opready w then Ok w
  else
    do w <- (match ty w with
             | Shift => compute_shift w | Sinvert => compute_sinvert w | Cayley => compute_cayley w end);
    (* usesksp: shift.c:136, sinvert.c:248, cayley.c:342 *)
    let usesksp := if ty w is Shift then (1 < nmat w)%N else true in
    do w <- (if usesksp && (pp w != None) then ksp_set w (pp w) else Ok w);
    Ok (set_opready true w).

(** stsolve.c:507-549 STSetUp (nmat<3) with shift.c:153-200, sinvert.c:111-194, cayley.c:165-172.
    KSPSetUp is not modelled: a singular matrix is detected when a system is solved. *)
Definition setup (w : world) : res world :=
  check (0 < nmat w)%N
  (match state w with
   | SetUp => Ok w
   | st =>
       do w <- (if ~~ state_eq st Updated && ~~ opready w then
                  do h <- hdestroy (hp w) (t0 w);
                  do h <- hdestroy h (t1 w);
                  do h <- hdestroy h (pp w);
                  Ok (set_pp None (set_t1 None (set_t0 None (set_hp h w))))
                else Ok w);
       do w <- (if transf w then compute_operator w else Ok w);
       let w := if ty w is Sinvert then (if sigset w then w else set_sigma (defsig w) w) else w in
       Ok (set_state SetUp w)
   end).

(** shift.c:202-220, sinvert.c:196-225, cayley.c:174-198 *)
Definition setshift_shift (w : world) (s : K) : res world :=
  if transf w then
    do '(w, t) <- maxpyw w (- s) (- sigma w) false (t0 w);
    Ok (set_mm t (set_t0 t w))
  else Ok w.
Definition setshift_sinvert (w : world) (s : K) : res world :=
  do w <- (if transf w then
             do '(w, t) <- maxpyw w (- s) (- sigma w) false (t1 w);
             let w := set_t1 t w in
             if pp w != t1 w then set_P w (t1 w) else Ok w
           else Ok w);
  if pp w != None then ksp_set w (pp w) else Ok w.
Definition setshift_cayley (w : world) (s : K) : res world :=
  check ((s != 0) || (nuset w && (nu w != 0)))
  (check (nu w != - s)
  (do w <- (if nuset w then Ok w
            else
              do w <- (if mode w is Inplace then Ok w
                       else do '(w, t) <- maxpyw w s (nu w) false (t0 w); Ok (set_t0 t w));
              Ok (set_nu s w));
   do '(w, t) <- maxpyw w (- s) (- sigma w) false (t1 w);
   let w := set_t1 t w in
   do w <- (if pp w != t1 w then set_P w (t1 w) else Ok w);
   ksp_set w (pp w))).
(** stfunc.c:661-674 STSetShift *)
Definition setshift (w : world) (s : K) : res world :=
  do w <- (if sigma w != s then
             do w <- (if state w is SetUp then
                        match ty w with
                        | Shift => setshift_shift w s | Sinvert => setshift_sinvert w s
                        | Cayley => setshift_cayley w s end
                      else Ok w);
             Ok (set_sigma s w)
           else Ok w);
  Ok (set_sigset true w).

(** cayley.c:216-228, 252-259 STCayleySetAntishift (nothing to do for the other types) *)
Definition antishift (w : world) (s : K) : res world :=
  if ty w is Cayley then
    do w <- (if nu w != s then
               do w <- (if ~~ state_eq (state w) Initial && ~~ mode_eq (mode w) Inplace then
                          do '(w, t) <- maxpyw w s (nu w) false (t0 w); Ok (set_t0 t w)
                        else Ok w);
               Ok (set_nu s w)
             else Ok w);
    Ok (set_nuset true w)
  else Ok w.

(** shift.c:114-125, sinvert.c:73-84, cayley.c:113-124: STPostSolve *)
Definition postsolve (w : world) : res world :=
  if mode w is Inplace then
    check (0 < nmat w)%N
    (do h <- (if (1 < nmat w)%N then mat_axpy (hp w) (a0 w) (sigma w) (a1 w)
              else mat_shift (hp w) (a0 w) (sigma w));
     Ok (set_opready false (set_state Initial (set_hp h w))))
  else Ok w.

(** stset.c:41-65 STSetType; the Cayley context is allocated with zeros (cayley.c:339). *)
Definition settype (w : world) (t : sttype) : res world :=
  if sttype_eq (ty w) t then Ok w
  else
    let w := set_opready false (set_state Initial (set_ty t w)) in
    Ok (if t is Cayley then set_nuset false (set_nu 0 w) else w).
(** stset.c:259-271 STSetMatMode, 321-332 STSetTransform; stfunc.c:714-725 STSetDefaultShift *)
Definition setmode (w : world) (m : matmode) : res world :=
  if mode_eq (mode w) m then Ok w else Ok (set_opready false (set_state Initial (set_mode m w))).
Definition settransf (w : world) (b : bool) : res world :=
  if transf w == b then Ok w else Ok (set_opready false (set_state Initial (set_transf b w))).
Definition setdefault (w : world) (s : K) : res world :=
  if defsig w == s then Ok w else Ok (set_opready false (set_state Initial (set_defsig s w))).
(** stfunc.c:773-789 STSetBalanceMatrix; a new vector is always a different object. *)
Definition setbalance (w : world) (d : option vec) : res world :=
  if (bal w == None) && (d == None) then Ok w
  else Ok (set_opready false (set_state Initial (set_bal d w))).

(** stfunc.c:102-127 STReset; st->M is left as it is. *)
Definition reset (w : world) : res world :=
  do h <- hdestroy (hp w) (ksp w);
  do h <- hdestroy h (t0 w);
  do h <- hdestroy h (t1 w);
  do h <- hdestroy h (a0 w);
  do h <- hdestroy h (a1 w);
  do h <- hdestroy h (pp w);
  Ok (set_opready false (set_state Initial (set_bal None (set_pp None (set_opmade false
      (set_nmat 0%N (set_a1 None (set_a0 None (set_t1 None (set_t0 None (set_ksp None (set_hp h w)))))))))))).

(** stfunc.c:275-320 STSetMatrices with one matrix b0 or two matrices b0, b1. *)
Definition setmatrices (w : world) (b0 b1 : ptr) : res world :=
  let k := if b1 is Some _ then 2%N else 1%N in
  let same := ~~ state_eq (state w) Initial && (k == nmat w) && (b0 == a0 w) && ((k == 1%N) || (b1 == a1 w)) in
  do w <- (if ~~ state_eq (state w) Initial && ~~ same then reset w else Ok w);
  do w <- (if same then Ok w
           else do h <- hdestroy (hp w) (a0 w); do h <- hdestroy h (a1 w);
                Ok (set_a1 None (set_a0 None (set_hp h w))));
  do h <- assign (hp w) (a0 w) b0;
  let w := set_a0 b0 (set_hp h w) in
  do w <- (if (k == 2)%N then do h <- assign (hp w) (a1 w) b1; Ok (set_a1 b1 (set_hp h w))
           else Ok (set_a1 None w));
  Ok (set_opready false (set_state (if same then Updated else Initial) (set_nmat k w))).

(** What a Mat does when multiplied: the shells read the matrices, the shift and the antishift at that
    moment. *)
Fixpoint mats (h : heap) (As : seq ptr) (idx : seq nat) : res (seq mat) :=
  match idx with
  | [::] => Ok [::]
  | i :: idx' => do x <- pget As i; do m <- hdense h x; do l <- mats h As idx'; Ok (m :: l)
  end.
Definition deref (w : world) (p : ptr) : res lin :=
  do o <- hobj (hp w) p;
  match o with
  | Dense m => Ok (dense_lin m)
  | Shell alpha cs idx => do l <- mats (hp w) (arr w) idx; Ok (shell_lin cs alpha l)
  | CayleyShell =>
      do ma <- hdense (hp w) (a0 w);
      if (1 < nmat w)%N then do mb <- hdense (hp w) (a1 w); Ok (cayley_lin (mode w) (sigma w) (nu w) ma (Some mb))
      else Ok (cayley_lin (mode w) (sigma w) (nu w) ma None)
  end.

(** The matrix of a product; KSPSolve and KSPSolveTranspose are exact and report an error when the
    matrix of the system is singular. *)
Definition matrix_of (f : vec -> vec) : mat := \matrix_(i, j) f (delta_mx j 0) i 0.
Definition exact_solve (f : vec -> vec) (b : vec) : res vec :=
  if matrix_of f \in unitmx then Ok (invmx (matrix_of f) *m b) else Err.
(** stsles.c:198-216 STMatSolve, 268-286 STMatSolveTranspose, 305-332 STMatSolveHermitianTranspose *)
Definition matsolve (w : world) (b : vec) : res vec :=
  if pp w is Some _ then do l <- deref w (ksp w); exact_solve (l_mult l) b else Ok b.
Definition matsolveT (w : world) (b : vec) : res vec :=
  if pp w is Some _ then do l <- deref w (ksp w); exact_solve (l_multT l) b else Ok b.
Definition matsolveH (w : world) (b : vec) : res vec :=
  if pp w is Some _ then
    do l <- deref w (ksp w); do x <- exact_solve (l_multT l) (conjm b); Ok (conjm x)
  else Ok b.
(** stsolve.c:16-25, 107-116, 153-162 *)
Definition apply_generic (w : world) (x : vec) : res vec :=
  if mm w is Some _ then
    do l <- deref w (mm w);
    if pp w is Some _ then matsolve w (l_mult l x) else Ok (l_mult l x)
  else matsolve w x.
Definition apply_genericT (w : world) (x : vec) : res vec :=
  if mm w is Some _ then
    do l <- deref w (mm w);
    if pp w is Some _ then do y <- matsolveT w x; Ok (l_multT l y) else Ok (l_multT l x)
  else matsolveT w x.
Definition apply_genericH (w : world) (x : vec) : res vec :=
  if mm w is Some _ then
    do l <- deref w (mm w);
    if pp w is Some _ then do y <- matsolveH w x; Ok (l_multH l y) else Ok (l_multH l x)
  else matsolveH w x.

(** VecPointwiseMult, VecPointwiseDivide (a zero divisor gives zero). *)
Definition pmul (x d : vec) : vec := \col_i (x i 0 * d i 0).
Definition pdiv (x d : vec) : vec := \col_i (x i 0 / d i 0).

(** stsolve.c:324-359 STGetOperator_Private *)
Definition getoperator (w : world) : res world :=
  check (0 < nmat w)%N
  (if opmade w then Ok w else compute_operator (set_opmade true w)).
(** stsolve.c:45-60, 136-151, 185-200 with 244-259, 261-276, 278-309 *)
Definition apply (w : world) (x : vec) : res (world * vec) :=
  do w <- getoperator w; do w <- setup w;
  do y <- (if bal w is Some d then do y <- apply_generic w (pdiv x d); Ok (pmul y d)
           else apply_generic w x);
  Ok (w, y).
Definition applyT (w : world) (x : vec) : res (world * vec) :=
  do w <- getoperator w; do w <- setup w;
  do y <- (if bal w is Some d then do y <- apply_genericT w (pmul x d); Ok (pdiv y d)
           else apply_genericT w x);
  Ok (w, y).
Definition applyH (w : world) (x : vec) : res (world * vec) :=
  do w <- getoperator w; do w <- setup w;
  do y <- (if bal w is Some d then do y <- apply_genericH w (pmul x (conjm d)); Ok (pdiv y (conjm d))
           else apply_genericH w x);
  Ok (w, y).

(** ** Histories *)

Inductive op :=
| OType of sttype | OMode of matmode | OTransform of bool | OShift of K | ODefault of K
| OAntishift of K | OBalance of option vec
| OMatrices of mat & option mat      (* new matrices are created and given to STSetMatrices *)
| OUpdate of mat & option mat        (* new values are stored in the same matrices, then STSetMatrices *)
| OSetUp | OGetOperator | OPostSolve
| OApply of vec | OApplyT of vec | OApplyH of vec
| OGetShift | OReadA | OReadB.       (* STGetShift; reading the user's matrices *)
Inductive answer := Unit | Vec of vec | Scalar of K | Mat of mat.

(** Creating a matrix; storing values in an existing one. *)
Definition user_new (w : world) (a : mat) (b : option mat) : world :=
  let '(h, i) := halloc (hp w) (Dense a) in
  match b with
  | Some b => let '(h, j) := halloc h (Dense b) in set_u1 (Some j) (set_u0 (Some i) (set_hp h w))
  | None => set_u1 None (set_u0 (Some i) (set_hp h w))
  end.
Definition user_store (w : world) (a : mat) (b : option mat) : res world :=
  do h <- hset (hp w) (u0 w) (Dense a);
  match b with
  | Some b => do h <- hset h (u1 w) (Dense b); Ok (set_hp h w)
  | None => Ok (set_hp h w)
  end.

Definition unit_ (r : res world) : res (world * answer) := do w <- r; Ok (w, Unit).
Definition step (w : world) (o : op) : res (world * answer) :=
  match o with
  | OType t => unit_ (settype w t)
  | OMode m => unit_ (setmode w m)
  | OTransform b => unit_ (settransf w b)
  | OShift s => unit_ (setshift w s)
  | ODefault s => unit_ (setdefault w s)
  | OAntishift s => unit_ (antishift w s)
  | OBalance d => unit_ (setbalance w d)
  | OMatrices a b => let w := user_new w a b in unit_ (setmatrices w (u0 w) (u1 w))
  | OUpdate a b => unit_ (do w <- user_store w a b; setmatrices w (u0 w) (u1 w))
  | OSetUp => unit_ (setup w)
  | OGetOperator => unit_ (getoperator w)
  | OPostSolve => unit_ (postsolve w)
  | OApply x => do '(w, y) <- apply w x; Ok (w, Vec y)
  | OApplyT x => do '(w, y) <- applyT w x; Ok (w, Vec y)
  | OApplyH x => do '(w, y) <- applyH w x; Ok (w, Vec y)
  | OGetShift => Ok (w, Scalar (sigma w))
  | OReadA => do m <- hdense (hp w) (u0 w); Ok (w, Mat m)
  | OReadB => do m <- hdense (hp w) (u1 w); Ok (w, Mat m)
  end.
Fixpoint run (w : world) (os : seq op) : res (world * seq answer) :=
  match os with
  | [::] => Ok (w, [::])
  | o :: os' => do '(w, a) <- step w o; do '(w, l) <- run w os'; Ok (w, a :: l)
  end.

(** ** Polynomial problems (nmat > 2) *)

(** stsolve.c:640-655 STCoeffs_Monomial: the packed array of nmat*(nmat+1)/2 coefficients. *)
Definition seti (c : seq K) (i : nat) (v : K) : res (seq K) :=
  if (i < size c)%N then Ok (set_nth 0 c i v) else UB.
Fixpoint fill (c : seq K) (i m : nat) : res (seq K) :=
  match m with 0 => Ok c | m'.+1 => do c <- seti c i 1; fill c i.+1 m' end.
Fixpoint pascal (c : seq K) (ini inip i m : nat) : res (seq K) :=
  match m with
  | 0 => Ok c
  | m'.+1 => do x <- cget c (ini + i - 1); do y <- cget c (inip + i - 1);
      do c <- seti c (ini + i) (x + y); pascal c ini inip i.+1 m'
  end.
Fixpoint rows (c : seq K) (ini k : nat) : res (seq K) :=
  match k with
  | 0 => Ok c
  | k'.+1 =>
      let inip := ini.+1 in
      let ini := ((k * (k - 1)) %/ 2)%N in
      do c <- seti c ini 1;
      do c <- pascal c ini inip 1 (k - 1);
      rows c ini k'
  end.
Definition coeffs_monomial (nm : nat) (c : seq K) : res (seq K) :=
  let ini := ((nm * (nm - 1)) %/ 2)%N in
  do c <- fill c ini nm;
  rows c ini (nm - 1).

(** The loops over T[k]: shift.c:173 and 215, sinvert.c:138 and 209 (nmat>2).  [ks] is the list of
    values of k, [first] gives the first matrix and [off] the offset into the coefficients. *)
Fixpoint build (md : matmode) (As : seq ptr) (nm : nat) (alpha beta : K) (initial : bool)
    (first off : nat -> nat) (cs : option (seq K)) (ks : seq nat) (h : heap) (T : seq ptr)
    : res (heap * seq ptr) :=
  match ks with
  | [::] => Ok (h, T)
  | k :: ks' =>
      do s <- pget T k;
      do '(h, s) <- maxpy md As nm alpha beta (first k) (omap (drop (off k)) cs) initial h s;
      build md As nm alpha beta initial first off cs ks' h (set_nth None T k s)
  end.
Definition first_shift (nm k : nat) : nat := k.
Definition off_shift (nm k : nat) : nat := ((nm - k) * (nm - k - 1) %/ 2)%N.
Definition first_sinvert (nm k : nat) : nat := (nm - k - 1)%N.
Definition off_sinvert (nm k : nat) : nat := (k * (k + 1) %/ 2)%N.

(** shift.c:163-181, sinvert.c:128-146: STSetUp for nmat>2 with the transform flag, all T[k] NULL
    (stsolve.c:527-533), matrix mode COPY or SHELL. *)
Definition poly_setup (t : sttype) (md : matmode) (As : seq ptr) (nm : nat) (s : K) (junk : seq K) (h : heap)
    : res (heap * seq ptr) :=
  do cs <- coeffs_monomial nm junk;
  do x <- pget As (nm - 1);
  do h <- href h x;
  match t with
  | Shift => build md As nm s 0 true (first_shift nm) (off_shift nm) (Some cs) (iota 0 (nm - 1)) h
               (set_nth None (nseq nm None) (nm - 1) x)
  | _ => build md As nm s 0 true (first_sinvert nm) (off_sinvert nm) (Some cs) (iota 1 (nm - 1)) h
               (set_nth None (nseq nm None) 0 x)
  end.
(** shift.c:202-220, sinvert.c:196-210: STSetShift for nmat>2. *)
Definition poly_setshift (t : sttype) (md : matmode) (As : seq ptr) (nm : nat) (s old : K) (junk : seq K)
    (h : heap) (T : seq ptr) : res (heap * seq ptr) :=
  do cs <- (if md is Copy then do cs <- coeffs_monomial nm junk; Ok (Some cs) else Ok None);
  match t with
  | Shift => build md As nm s old false (first_shift nm) (off_shift nm) cs (iota 0 (nm - 1)) h T
  | _ => build md As nm s old false (first_sinvert nm) (off_sinvert nm) cs (iota 1 (nm - 1)) h T
  end.

(** What T[k] does when multiplied (as in [deref], with the array of all the matrices). *)
Definition pderef (As : seq ptr) (h : heap) (p : ptr) : res lin :=
  do o <- hobj h p;
  match o with
  | Dense m => Ok (dense_lin m)
  | Shell alpha cs idx => do l <- mats h As idx; Ok (shell_lin cs alpha l)
  | CayleyShell => Err
  end.
(** The user creates the matrices and gives them to STSetMatrices (stfunc.c:275-320), which takes a
    reference of each. *)
Fixpoint poly_new (h : heap) (Av : seq mat) : res (heap * seq ptr) :=
  match Av with
  | [::] => Ok (h, [::])
  | m :: Av' =>
      let '(h, i) := halloc h (Dense m) in
      do h <- href h (Some i);
      do '(h, l) <- poly_new h Av'; Ok (h, Some i :: l)
  end.
(** STSetUp with the shift s, then calls to STSetShift (stfunc.c:661-674); every call gets an array for
    the coefficients with arbitrary content (PetscMalloc1 of nmat*(nmat+1)/2 scalars). *)
Fixpoint poly_shifts (t : sttype) (md : matmode) (As : seq ptr) (nm : nat) (s : K) (l : seq (K * seq K))
    (h : heap) (T : seq ptr) : res (K * heap * seq ptr) :=
  match l with
  | [::] => Ok (s, h, T)
  | (s', junk) :: l' =>
      do '(h, T) <- (if s != s' then poly_setshift t md As nm s' s junk h T else Ok (h, T));
      poly_shifts t md As nm s' l' h T
  end.
Definition poly_run (t : sttype) (md : matmode) (Av : seq mat) (s : K) (junk : seq K) (l : seq (K * seq K))
    : res (K * heap * seq ptr * seq ptr) :=
  let nm := size Av in
  do '(h, As) <- poly_new (Heap (fun _ => None) 0%N) Av;
  do '(h, T) <- poly_setup t md As nm s junk h;
  do '(s, h, T) <- poly_shifts t md As nm s l h T;
  Ok (s, h, T, As).

(** ** Back-transforms of the eigenvalues *)

(** shift.c:108-110; sinvert.c:66-68; cayley.c:106-108 (complex scalars) *)
Definition back_shift (s th : K) : K := th + s.
Definition back_sinvert (s th : K) : K := 1 / th + s.
Definition back_cayley (s v th : K) : K := (v + th * s) / (th - 1).
Definition back (t : sttype) (s v th : K) : K :=
  match t with Shift => back_shift s th | Sinvert => back_sinvert s th | Cayley => back_cayley s v th end.
(** Real scalars: an eigenvalue is a pair (eigr,eigi).  shift.c:108-110; sinvert.c:57-64; cayley.c:93-104 *)
Definition rback_shift (s : K) (e : K * K) : K * K := (e.1 + s, e.2).
Definition rback_sinvert (s : K) (e : K * K) : K * K :=
  if e.2 == 0 then (1 / e.1 + s, e.2)
  else let t := e.1 * e.1 + e.2 * e.2 in (e.1 / t + s, - e.2 / t).
Definition rback_cayley (s v : K) (e : K * K) : K * K :=
  if e.2 == 0 then ((v + e.1 * s) / (e.1 - 1), e.2)
  else
    let r := e.1 in
    let i := e.2 in
    let r := s * (r * r + i * i - r) + v * (r - 1) in
    let i := - s * i - v * i in
    let t := i * i + r * (r - 2%:R) + 1 in
    (r / t, i / t).

End ST.
