(** Functions of a matrix times a vector: /repo/src/mfn/impls/krylov/mfnkrylov.c (MFNSolve_Krylov),
    /repo/src/mfn/interface/mfnsolve.c, mfnsetup.c, mfnbasic.c (MFNSolve, MFNSolveTranspose, MFNSetOperator,
    MFNReset), on top of the model of BVMatArnoldi.  Exact arithmetic. *)
From mathcomp Require Import all_ssreflect all_algebra.
From Verif Require Import Prelude GSModel KrylovModel.
Set Implicit Arguments. Unset Strict Implicit. Unset Printing Implicit Defensive.
Import GRing.Theory Num.Theory.
Local Open Scope ring_scope.

Section Krylov.
Variable F : numFieldType.
Variable V : lmodType F.
Variable dot : V -> V -> F.
Variable conj : F -> F.
Variable sqrt : F -> F.
(** MatMult with mfn->A or mfn->AT *)
Variable op : V -> V.
Variable N : nat.
(** mfn->V: ncv+1 columns (mfnkrylov.c:38, mfnsetup.c:153-165). *)
Variable g : config F.
(** mfn->ncv, mfn->max_it, mfn->tol after the set-up *)
Variables (ncv max_it : nat) (tol : F).
(** FNEvaluateFunctionMatVec(fn,H,F): entry k of the first column of f(H), H of the order given *)
Variable fmv : nat -> (nat -> nat -> F) -> nat -> F.

Inductive reason := Iterating | ConvergedTol | DivergedIts.

(** The variables of the loop: mfn->V, the array of M, n, m, the matrix H with n rows (meaningless before the
    first iteration), betaold, beta, x, mfn->its. *)
Record state := State { bv : mem V; marray : nat -> nat -> F; sn : nat; sm : nat; sH : nat -> nat -> F;
  betaold : F; sbeta : F; sx : V; its : nat }.

(** mfnkrylov.c:77-87: H of order n+m from the previous one and the array of M *)
Definition glue (first : bool) (n m : nat) (G M : nat -> nat -> F) (b : F) (i j : nat) : F :=
  if (n <= j)%N then (if (n <= i)%N then M (i - n)%N (j - n)%N else 0)
  else if first then 0
  else if (i < n)%N then G i j
  else if (i == n) && (j.+1 == n) then b else 0.

(** BLASnrm2 *)
Definition nrm2 (n : nat) (f : nat -> F) : F := sqrt (\sum_(0 <= i < n) f i * conj (f i)).

(** mfnkrylov.c:65-119, one iteration; the state after it and mfn->reason. *)
Definition krylov_step (bnorm : F) (s : state) : res (state * reason) :=
  let t := (its s).+1 in
  do ' (v, h, m, beta, breakdown) <-
    mat_arnoldi dot conj sqrt op N g (Some (Dense ncv.+1 ncv ncv.+1 (marray s))) 0 (sm s) (sbeta s) (bv s);
  let M := if h is Some h then entry h else marray s in
  let n := sn s in
  let H := glue (t == 1)%N n m (sH s) M (betaold s) in
  let f := fmv (n + m) H in
  let nrm := nrm2 m (fun j => f (n + j)%N) in
  (* BVMultVec with m active columns *)
  let x := sx s + \sum_(0 <= j < m) (f (n + j)%N * bnorm) *: col v (nc g + j)%N in
  let r := if (max_it <= t)%N then DivergedIts else Iterating in
  let r := if (1 < t)%N && [|| (m < ncv)%N, breakdown, beta == 0 | nrm < tol] then ConvergedTol else r in
  Ok (match r with
      | Iterating => (State (with_col v (upd (col v) (nc g) (col v (nc g + m)%N))) M (n + m) m H beta beta x t, r)
      | _ => (State v M n m H (betaold s) beta x t, r)
      end).

Fixpoint krylov_loop (fuel : nat) (bnorm : F) (s : state) : res (state * reason) :=
  match fuel with
  | 0 => Loop
  | fuel'.+1 => do ' (s, r) <- krylov_step bnorm s;
                match r with Iterating => krylov_loop fuel' bnorm s | _ => Ok (s, r) end
  end.

(** mfnsolve.c:23-40 with mfnkrylov.c:54-127; [v0]: mfn->V before.  The loop ends after at most max(1,max_it)
    iterations (line 108).  Returned: x, mfn->its, mfn->reason. *)
Definition solve_krylov (errorifnotconverged : bool) (v0 : mem V) (b : V) : res (V * nat * reason) :=
  let bnorm := sqrt (dot b b) in
  check (bnorm != 0)
  (let v := with_col v0 (upd (col v0) (nc g) ((1 / bnorm) *: b)) in
   do ' (s, r) <- krylov_loop (maxn 1 max_it) bnorm (State v (fun _ _ => 0) 0 ncv (fun _ _ => 0) 0 0 0 0);
   check (~~ errorifnotconverged || (if r is DivergedIts then false else true)) (Ok (sx s, its s, r))).
End Krylov.

(** * The operator of the object *)
Section Object.
(** Matrices, MatCreateTranspose *)
Variable Mat : Type.
Variable transpose : Mat -> Mat.
(** mfn->A, mfn->AT, mfn->setupcalled *)
Record mfn := Mfn { opA : option Mat; opAT : option Mat; setupcalled : bool }.
(** MFNCreate, mfnbasic.c:197-235 *)
Definition create : mfn := Mfn None None false.
(** mfnbasic.c:410-422 MFNReset *)
Definition reset (x : mfn) : mfn := Mfn None (opAT x) false.
Inductive call :=
| SetOperator (a : Mat)      (* mfnsetup.c:85-102 *)
| Solve                      (* mfnsolve.c:87-98 *)
| SolveTranspose             (* mfnsolve.c:130-142 *)
| SetDimensions              (* mfnopts.c:187-202, also MFNSetType mfnbasic.c:279 *)
| Reset.
(** The object afterwards and, for a solve, the matrix that MFNSolve multiplies with.  MFNSetUp needs A
    (mfnsetup.c:53); MatCreateTranspose needs it too. *)
Definition step (x : mfn) (c : call) : res (mfn * option Mat) :=
  match c with
  | SetOperator a => let y := if setupcalled x then reset x else x in Ok (Mfn (Some a) (opAT y) false, None)
  | Solve => match opA x with Some a => Ok (Mfn (Some a) (opAT x) true, Some a) | None => Err end
  | SolveTranspose =>
      match opA x with
      | Some a => let t := if opAT x is Some t then t else transpose a in Ok (Mfn (Some a) (Some t) true, Some t)
      | None => Err
      end
  | SetDimensions => Ok (Mfn (opA x) (opAT x) false, None)
  | Reset => Ok (reset x, None)
  end.
Fixpoint run (x : mfn) (l : seq call) : res mfn :=
  match l with [::] => Ok x | c :: l => do ' (x, _) <- step x c; run x l end.
End Object.
