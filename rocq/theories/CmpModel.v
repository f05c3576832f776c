(** Model of the predefined eigenvalue comparison functions, /repo/src/sys/slepcsc.c:201-373,
    in exact arithmetic over a real closed field.  An eigenvalue is a pair (real part,
    imaginary part): in real scalars these are the two arguments ar,ai of the C function,
    in complex scalars the real and imaginary part of ar (ai is not used then). *)
From mathcomp Require Import all_ssreflect all_algebra.
From Coq Require Import ZArith.
Set Implicit Arguments.
Unset Strict Implicit.
Unset Printing Implicit Defensive.
Import GRing.Theory Num.Theory.
Local Open Scope ring_scope.

Section Cmp.
Variable R : rcfType.
Variable cplx : bool.       (* PETSC_USE_COMPLEX *)

(** include/slepcmath.h:55-64 SlepcAbs *)
Definition slepc_abs (x y : R) : R :=
  let w := Num.max `|x| `|y| in
  let z := Num.min `|x| `|y| in
  if z == 0 then w else let t := z / w in w * Num.sqrt (1 + t * t).

(** include/slepcmath.h:92-96 SlepcAbsEigenvalue; PetscAbsScalar (complex modulus, a
    PETSc/libm routine) is taken to be the exact modulus. *)
Definition abs_eigenvalue (a : R * R) : R :=
  if cplx then Num.sqrt (a.1 ^+ 2 + a.2 ^+ 2) else slepc_abs a.1 a.2.

(** if (a<b) res=1; else if (a>b) res=-1; else res=0 *)
Definition prefer_larger (a b : R) : Z := if a < b then 1%Z else if b < a then (-1)%Z else 0%Z.
(** if (a>b) res=1; else if (a<b) res=-1; else res=0 *)
Definition prefer_smaller (a b : R) : Z := if b < a then 1%Z else if a < b then (-1)%Z else 0%Z.

(** slepcsc.c:201-212 *)
Definition cmp_largest_magnitude (a b : R * R) : Z :=
  prefer_larger (abs_eigenvalue a) (abs_eigenvalue b).
(** slepcsc.c:214-225 *)
Definition cmp_smallest_magnitude (a b : R * R) : Z :=
  prefer_smaller (abs_eigenvalue a) (abs_eigenvalue b).
(** slepcsc.c:227-238 *)
Definition cmp_largest_real (a b : R * R) : Z := prefer_larger a.1 b.1.
(** slepcsc.c:240-251 *)
Definition cmp_smallest_real (a b : R * R) : Z := prefer_smaller a.1 b.1.
(** The imaginary part used: |ai| in real scalars, Im(ar) in complex scalars. *)
Definition im_part (a : R * R) : R := if cplx then a.2 else `|a.2|.
(** slepcsc.c:253-275 *)
Definition cmp_largest_imaginary (a b : R * R) : Z :=
  if im_part a < im_part b then 1%Z else if im_part b < im_part a then (-1)%Z
  else prefer_larger (abs_eigenvalue a) (abs_eigenvalue b).
(** slepcsc.c:277-299 *)
Definition cmp_smallest_imaginary (a b : R * R) : Z :=
  if im_part b < im_part a then 1%Z else if im_part a < im_part b then (-1)%Z
  else prefer_larger (abs_eigenvalue a) (abs_eigenvalue b).
(** value minus target; in real scalars the target is real. *)
Definition shifted (t a : R * R) : R * R := (a.1 - t.1, if cplx then a.2 - t.2 else a.2).
(** slepcsc.c:301-314 *)
Definition cmp_target_magnitude (t a b : R * R) : Z :=
  prefer_smaller (abs_eigenvalue (shifted t a)) (abs_eigenvalue (shifted t b)).
(** slepcsc.c:316-328 *)
Definition cmp_target_real (t a b : R * R) : Z :=
  prefer_smaller `|a.1 - t.1| `|b.1 - t.1|.
(** slepcsc.c:330-348 *)
Definition cmp_target_imaginary (t a b : R * R) : Z :=
  if cplx then prefer_smaller `|a.2 - t.2| `|b.2 - t.2| else 0%Z.
(** slepcsc.c:354-373 *)
Definition cmp_smallest_pos_real (a b : R * R) : Z :=
  let ar := 0 < a.1 in
  let br := 0 < b.1 in
  if ar == br then prefer_smaller (abs_eigenvalue a) (abs_eigenvalue b)
  else if ar && ~~ br then (-1)%Z else 1%Z.
End Cmp.
