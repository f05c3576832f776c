(** EPS and PEP objects used for several matrices: size of the matrix, state, basis. *)
From mathcomp Require Import all_ssreflect.
From Verif Require Import Prelude.
Set Implicit Arguments. Unset Strict Implicit. Unset Printing Implicit Defensive.

(** [mat]: size of the matrices given by the user; [size]: eps->n (pep->n), known since the last setup; [active]: the
    state is not INITIAL; [basis]: length of the vectors of eps->V (pep->V) once allocated *)
Record obj := Obj { mat : option nat; size : nat; active : bool; basis : option nat }.
Definition create : obj := Obj None 0 false None.
Inductive call := SetOperators of nat | Option | SetUp | Reset.

(** epsbasic.c:315-329 (STReset destroys the matrices), pepbasic.c:304-325 *)
Definition reset (s : obj) : obj := Obj None (size s) false None.
(** epssetup.c:511-521, pepsetup.c:302-316 *)
Definition set_operators (n : nat) (s : obj) : obj :=
  let s1 := if active s && (n != size s) then reset s else s in
  Obj (Some n) (size s1) false (basis s1).
(** epssetup.c:293, 317, 339 and EPSAllocateSolution, epssetup.c:739-779; pepsetup.c:112-117 and PEPAllocateSolution: the
    basis gets the length of the matrix only if it has no columns yet, otherwise BVResize keeps the length *)
Definition set_up (s : obj) : res obj :=
  if active s then Ok s else
  match mat s with
  | None => Err
  | Some n => if n == 0 then Ok (Obj (Some n) n false (basis s))
              else Ok (Obj (Some n) n true (Some (if basis s is Some b then b else n)))
  end.
(** Option: a call that sets the state to INITIAL: EPSSetDimensions (epsopts.c:431), EPSSetTolerances :323,
    EPSSetWhichEigenpairs :498, EPSSetProblemType :1054; PEPSetDimensions (pepopts.c:415) *)
Definition step (c : call) (s : obj) : res obj :=
  match c with
  | SetOperators n => Ok (set_operators n s)
  | Option => Ok (Obj (mat s) (size s) false (basis s))
  | SetUp => set_up s
  | Reset => Ok (reset s)
  end.
Fixpoint run (cs : seq call) (s : obj) : res obj :=
  if cs is c :: cs' then do s' <- step c s; run cs' s' else Ok s.
