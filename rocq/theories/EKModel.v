(** MFNSolve_Expokit, /repo/src/mfn/impls/expokit/mfnexpokit.c:44-180, in exact real arithmetic. *)
From mathcomp Require Import all_ssreflect all_algebra.
From Verif Require Import Prelude.
Set Implicit Arguments. Unset Strict Implicit. Unset Printing Implicit Defensive.
Import GRing.Theory Num.Theory. Local Open Scope ring_scope.

(** What BVMatArnoldi returns: basis, the array H, number of columns, breakdown *)
Record arn (R X : Type) := Arn { aV : nat -> X; aH : nat -> nat -> R; amb : nat; abrk : bool }.
(** Variables of the outer loop; [ex] is not in the code: some step ran out of attempts (line 110) *)
Record state (R X : Type) := St { sx : X; tnow : R; tnew : option R; sd : nat; k1 : nat; ex : bool }.
Inductive reason := ConvergedTol | DivergedIts.

Section Expokit.
Variables (R : realFieldType) (X : lmodType R).
(** VecNorm, MatMult, BVMatArnoldi started with x/beta, FNEvaluateFunctionMat with FNEXP on a matrix of the given size *)
Variables (nrm : X -> R) (A : X -> X) (arnoldi : X -> arn R X) (expm : nat -> (nat -> nat -> R) -> nat -> nat -> R).
(** PetscPowReal(z,1/d), PetscPowReal(10,PetscFloorReal(PetscLog10Real(y))-1), PetscCeilReal *)
Variables (pw : R -> nat -> R) (decade ceil : R -> R).
(** ncv, tolerance, |t|, t/|t| *)
Variables (m : nat) (tol tout sgn : R).

Definition mxrej : nat := 10.
Definition gamma : R := 9%:R / 10%:R.
Definition delta : R := 12%:R / 10%:R.

(** :146-147, :164-165 *)
Definition round_up (y : R) : R := ceil (y / decade y) * decade y.
(** :145-147 and :163-165 *)
Definition next_step (h err : R) (d : nat) : R := round_up (gamma * h * pw (h * tol / err) d).
(** :99, :107 the array B *)
Definition arrayB (k1 : nat) (a : arn R X) : nat -> nat -> R :=
  fun i j => if (k1 != 0%N) && (i == m.+1) && (j == m) then 1 else aH a i j.
(** :111-122 first column of K *)
Definition Kcol (k1 : nat) (a : arn R X) (h : R) : nat -> R :=
  fun j => expm (amb a + k1) (fun i j => sgn * arrayB k1 a i j * h) j 0%N.
(** :124-142 err_loc and the number whose inverse is xm *)
Definition estimate (k1 : nat) (a : arn R X) (beta h : R) : R * nat :=
  let p1 := `|beta * Kcol k1 a h m| in
  let p2 := `|beta * Kcol k1 a h m.+1 * nrm (A (aV a m))| in
  if 10%:R * p2 < p1 then (p2, m) else if p2 < p1 then (p1 * p2 / (p1 - p2), m) else (p1, m.-1).
(** :152-157 *)
Definition combine (k1 : nat) (a : arn R X) (beta h : R) : X :=
  \sum_(0 <= j < amb a + k1.-1) (beta * Kcol k1 a h j) *: aV a j.
(** :110-150 with [n] further attempts: step for which K was computed, t_step, err_loc, xm, and if accepted *)
Fixpoint attempts (n : nat) (k1 : nat) (a : arn R X) (beta h : R) (d : nat) : R * R * R * nat * bool :=
  if k1 == 0%N then (h, h, tol, d, true) else
  let (err, d') := estimate k1 a beta h in
  if err <= delta * h * tol then (h, h, err, d', true) else
  let h' := next_step h err d' in
  match n with 0 => (h, h', err, d', false) | n'.+1 => attempts n' k1 a beta h' d' end.
(** :88-166 one step; t_new infinite (None) if err_loc is zero, :89 *)
Definition step (s : state R X) : state R X :=
  let beta := nrm (sx s) in
  let a := arnoldi (sx s) in
  let rest := tout - tnow s in
  let h0 := match tnew s with Some t => Num.min rest t | None => rest end in
  let kk := if abrk a then 0%N else k1 s in
  let h1 := if abrk a then rest else h0 in
  let '(hK, h, err, d, ok) := attempts mxrej kk a beta h1 (sd s) in
  St (combine kk a beta hK) (tnow s + h) (if err == 0 then None else Some (next_step h err d)) d kk (ex s || ~~ ok).
(** :87, :161, :168: [its] steps done; [n] bounds the number of further ones *)
Fixpoint loop (n its max_it : nat) (s : state R X) : res (state R X * nat * reason) :=
  match n with
  | 0 => Loop
  | n'.+1 =>
    let s' := step s in
    let its' := its.+1 in
    if its' == max_it then Ok (s', its', DivergedIts)
    else if tout <= tnow s' then Ok (s', its', ConvergedTol)
    else loop n' its' max_it s'
  end.
(** :64-85, :171; [t0] is the first t_new (:75-78, not modelled) *)
Definition solve (n max_it : nat) (t0 sfactor : R) (b : X) : res (X * nat * reason * bool) :=
  do ' (s, its, r) <- loop n 0 max_it (St b 0 (Some t0) m 2 false);
  Ok (sfactor *: sx s, its, r, ex s).
End Expokit.
