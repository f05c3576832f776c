(** The singular value solvers that use an eigensolver: /repo/src/svd/interface/svdsetup.c (SVDSetUp),
    svdsolve.c (SVDSolve, SVDComputeVectors_Left, SVDGetSingularTriplet, SVDComputeError),
    /repo/src/svd/impls/cross/cross.c and /repo/src/svd/impls/cyclic/cyclic.c.  One process, exact arithmetic.
    All vectors, whatever their length, are elements of one space: lengths are not tracked. *)
From mathcomp Require Import all_ssreflect all_algebra.
From Verif Require Import Prelude GSModel.
Set Implicit Arguments. Unset Strict Implicit. Unset Printing Implicit Defensive.
Import GRing.Theory Num.Theory.
Local Open Scope ring_scope.

Section SVD.
Variable F : numFieldType.
Variable W : lmodType F.
Variable dot : W -> W -> F.
Variable conj : F -> F.
(** PetscSqrtReal, PetscRealPart; whether scalars are complex. *)
Variable sqrt : F -> F.
Variable re : F -> F.
Variable cplx : bool.
(** 10*PETSC_MACHINE_EPSILON *)
Variable tiny : F.

(** A Mat: MatMult and MatMultHermitianTranspose. *)
Record mat := Mat { mult : W -> W; multh : W -> W }.
(** MatHermitianTranspose and MatCreateHermitianTranspose *)
Definition htranspose (m : mat) : mat := Mat (multh m) (mult m).
(** VecNorm *)
Definition norm2 (x : W) : F := sqrt (dot x x).

Inductive problem := Standard | Generalized | Hyperbolic.
Inductive order := Largest | Smallest.
(** What the user gives: svd->OP, svd->OPb and their sizes M x N, P x N; [signature x] is VecPointwiseMult of x
    with svd->omega; SVDSetImplicitTranspose; whether OP has the operation MATOP_TRANSPOSE; the problem type;
    SVDSetWhichSingularTriplets; SVDCrossSetExplicitMatrix or SVDCyclicSetExplicitMatrix. *)
Record input := Input { op : mat; opb : mat; M : nat; N : nat; P : nat; signature : W -> W; impltrans : bool;
  hastranspose : bool; ptype : problem; which : order; explicitmatrix : bool }.
Variable inp : input.
Definition isgeneralized : bool := if ptype inp is Generalized then true else false.
Definition ishyperbolic : bool := if ptype inp is Hyperbolic then true else false.

(** svdsetup.c:278-288 *)
Definition expltrans : bool := ~~ impltrans inp && hastranspose inp.
(** svdsetup.c:293-295 *)
Definition sizes_ok : bool := ~~ isgeneralized || (N inp <= M inp + P inp)%N.
(** svdsetup.c:304-338: svd->A, svd->AT, svd->B, svd->BT *)
Definition mA : mat := if isgeneralized || (N inp <= M inp)%N then op inp else htranspose (op inp).
Definition mAT : mat := if isgeneralized || (N inp <= M inp)%N then htranspose (op inp) else op inp.
Definition mB : mat := opb inp.
Definition mBT : mat := htranspose (opb inp).
(** svdsetup.c:340-351, an object that has not been set up before. *)
Definition swapped : bool := ~~ isgeneralized && (M inp < N inp)%N.

(** * Cross product *)
(** cross.c:31-41 MatMult_Cross *)
Definition mult_cross (a at' : mat) (x : W) : W :=
  let w := mult a x in
  let w := if ishyperbolic && ~~ swapped then signature inp w else w in
  mult at' w.
(** cross.c:99-150 SVDCrossGetProductMat: the product with a vector. *)
Definition product_mat (a at' : mat) : res (W -> W) :=
  if explicitmatrix inp then
    let b := if ~~ ishyperbolic || swapped then (if ~~ expltrans && swapped then at' else a)
             else Mat (fun x => signature inp (mult a x)) (fun y => multh a (signature inp y)) in
    if expltrans then Ok (fun x => mult at' (mult b x))            (* MATPRODUCT_AB *)
    else if cplx then Err
    else if ~~ swapped then Ok (fun x => multh a (mult b x))        (* MATPRODUCT_AtB *)
    else Ok (fun x => mult b (multh at' x))                         (* MATPRODUCT_ABt *)
  else Ok (mult_cross a at').

(** The eigensolver: for the operators (A,B) of EPSSetOperators (B may be missing) the number of converged
    pairs, the eigenvalues and the eigenvectors, in the order of EPSGetEigenpair. *)
Variable eps : (W -> W) -> option (W -> W) -> nat * (nat -> F) * (nat -> W).
(** cross.c:178-198: the eigenproblem. *)
Definition cross_operators : res ((W -> W) * option (W -> W)) :=
  do c <- product_mat mA mAT;
  if isgeneralized then do d <- product_mat mB mBT; Ok (c, Some d)
  else if ishyperbolic && swapped then Ok (c, Some (signature inp))
  else Ok (c, None).

(** cross.c:268-280: [n] values left, [i] the next one. *)
Fixpoint cross_values (n i : nat) (lambda : nat -> F) (sigma : nat -> F) : res (nat -> F) :=
  match n with
  | 0 => Ok sigma
  | n'.+1 =>
      let s := re (lambda i) in
      if ishyperbolic then cross_values n' i.+1 lambda (upd sigma i (sqrt `|s|))
      else check (- tiny < s)
        (let s := if s < 0 then 0 else s in cross_values n' i.+1 lambda (upd sigma i (sqrt s)))
  end.

(** After SVDSolve: svd->nconv, svd->sigma, svd->perm, and the eigenvectors kept by the eigensolver. *)
Record solved (X : Type) := Solved { nconv : nat; sigma : nat -> F; perm : nat -> nat; lambda : nat -> F;
  evec : nat -> X }.

(** PetscSortRealWithPermutation(n,values,idx) with idx = 0, 1, ...: the array idx on return. *)
Variable sort_perm : nat -> (nat -> F) -> nat -> nat.
(** svdsolve.c:146-151, 167-175 *)
Definition sorted_perm (n : nat) (sigma : nat -> F) : nat -> nat :=
  match which inp with
  | Smallest => fun i => if (i < n)%N then sort_perm n sigma i else i
  | Largest => fun i => if (i < n)%N then sort_perm n sigma (n - i - 1) else i
  end.

(** svdsolve.c:124-192 SVDSolve with cross.c:256-282 SVDSolve_Cross *)
Definition solve_cross : res (solved W) :=
  check sizes_ok
  (if (M inp == 0%N) || (N inp == 0%N) then Ok (Solved 0 (fun _ => 0) id (fun _ => 0) (fun _ => 0))
   else do ' (c, d) <- cross_operators;
        let '(n, lambda, x) := eps c d in
        do sigma <- cross_values n 0 lambda (fun _ => 0);
        Ok (Solved n sigma (sorted_perm n sigma) lambda x)).

(** * Vectors *)
(** The columns of svd->U (svd->V) for the caller's left (right) vectors, svd->sign. *)
Record vectors (X : Type) := Vectors { colU : nat -> X; colV : nat -> W; sign : nat -> F }.
(** The BV svd->U: its options (no constraints) and contents before the call; for the inner product given by
    the signature the options are [gom]. *)
Variable g gom : config F.
Variable u0 : mem W.
Definition dotom (x y : W) : F := dot (signature inp x) y.
(** svdsolve.c:65-68: flip the columns with negative sign. *)
Fixpoint flip (n : nat) (sg : nat -> F) (u : nat -> W) : nat -> W :=
  match n with
  | 0 => u
  | n'.+1 => let u := flip n' sg u in if re (sg n') < 0 then upd u n' ((-1) *: u n') else u
  end.
(** svdsolve.c:21-74 SVDComputeVectors_Left; [sg]: svd->sign before. *)
Definition vectors_left (n : nat) (v : nat -> W) (sg : nat -> F) : res (vectors W) :=
  let start f := with_col u0 (fun i => if (i < n)%N then f i else col u0 i) in
  if ishyperbolic && ~~ swapped then
    do ' (s, _) <- orthogonalize dotom conj sqrt gom 0 n (start (fun i => mult mA (v i))) None;
    Ok (Vectors (flip n (omega s) (col s)) v (fun i => if (i < n)%N then re (omega s i) else sg i))
  else
    let f := if ishyperbolic then fun i => mult mA (signature inp (v i)) else fun i => mult mA (v i) in
    do ' (s, _) <- orthogonalize dot conj sqrt g 0 n (start f) None;
    Ok (Vectors (col s) v sg).
(** PetscSign *)
Definition psign (a : F) : F := if 0 <= a then (if a == 0 then 0 else 1) else -1.
(** cross.c:324-353 SVDComputeVectors_Cross, standard and hyperbolic problems *)
Definition vectors_cross (r : solved W) : res (vectors W) :=
  if ishyperbolic && swapped then
    let w i := signature inp (evec r i) in
    let alpha i := dot (evec r i) (w i) in
    vectors_left (nconv r) (fun i => (1 / sqrt `|alpha i|) *: w i) (fun i => psign (re (alpha i)))
  else vectors_left (nconv r) (evec r) (fun _ => 1).

(** svdsolve.c:328-352 SVDGetSingularTriplet with both vectors; standard and hyperbolic problems. *)
Definition get_triplet (X : Type) (r : solved X) (vec : res (vectors W)) (i : nat) : res (F * W * W) :=
  check (i < nconv r)%N
  (do z <- vec;
   let k := perm r i in
   Ok (if (M inp < N inp)%N then (sigma r k, colV z k, colU z k) else (sigma r k, colU z k, colV z k))).
(** SVDGetSingularTriplet with NULL vectors *)
Definition get_value (X : Type) (r : solved X) (i : nat) : res F :=
  check (i < nconv r)%N (Ok (sigma r (perm r i))).

(** svdsolve.c:363-383 SVDComputeResidualNorms_Standard, 448-469 SVDComputeResidualNorms_Hyperbolic *)
Definition residual_norms (s sg : F) (u v : W) : F * F :=
  let n1 := norm2 (mult (op inp) v - s *: u) in
  let z := if ishyperbolic then signature inp u else u in
  let y := if (M inp < N inp)%N then mult mA z else mult mAT z in
  (n1, norm2 (y - (if ishyperbolic then s * sg else s) *: v)).
Inductive errortype := Absolute | Relative | Norm.
(** SlepcAbs *)
Definition slepc_abs (a b : F) : F := sqrt (a ^+ 2 + b ^+ 2).
(** svd->nrma, svd->nrmb: MatNorm(NORM_INFINITY) *)
Variables nrma nrmb : F.
Definition pmax (a b : F) : F := if a < b then b else a.
(** svdsolve.c:500-593 SVDComputeError, standard and hyperbolic problems. *)
Definition compute_error (X : Type) (r : solved X) (vec : res (vectors W)) (i : nat) (t : errortype) : res F :=
  do ' (s, u, v) <- get_triplet r vec i;
  do z <- vec;
  let '(n1, n2) := residual_norms s (sign z (perm r i)) u v in
  let e := slepc_abs n1 n2 in
  let vecnorm := if ishyperbolic then sqrt (1 + norm2 u ^+ 2) else sqrt 2%:R in
  Ok (match t with
      | Absolute => e
      | Relative => e / (s * vecnorm)
      | Norm => e / (pmax nrma nrmb * vecnorm)
      end).

(** * Cyclic matrix *)
(** svd->ncv after the set-up (cyclic.c:514). *)
Variable ncv : nat.
(** cyclic.c:20-45 MatMult_Cyclic, 93-111 (the explicit matrix is the same) *)
Definition cyclic_mat (a at' : mat) (x : W * W) : W * W := (mult a x.2, mult at' x.1).
(** cyclic.c:153-181 MatMult_ECross, 281-311 *)
Definition ecross_mat (a at' : mat) (x : W * W) : W * W := (x.1, mult at' (mult a x.2)).
Variable epsc : (W * W -> W * W) -> option (W * W -> W * W) -> nat * (nat -> F) * (nat -> W * W).
(** cyclic.c:387-400, 420-424, with the check of lines 94, 282.  Hyperbolic problems are not modelled. *)
Definition cyclic_operators : res ((W * W -> W * W) * option (W * W -> W * W)) :=
  check (~~ explicitmatrix inp || expltrans)
  (if isgeneralized then
     match which inp with
     | Smallest => Ok (cyclic_mat mB mBT, Some (ecross_mat mA mAT))
     | Largest => Ok (cyclic_mat mA mAT, Some (ecross_mat mB mBT))
     end
   else Ok (cyclic_mat mA mAT, None)).
(** cyclic.c:552-561: [n] values left, [i] the next one, [j] written. *)
Fixpoint cyclic_values (n i j : nat) (lambda sigma : nat -> F) : nat * (nat -> F) :=
  match n with
  | 0 => (j, sigma)
  | n'.+1 =>
      let s := re (lambda i) in
      if 0 < s then
        cyclic_values n' i.+1 j.+1 lambda
          (upd sigma j (if isgeneralized && (if which inp is Smallest then true else false) then 1 / s else s))
      else cyclic_values n' i.+1 j lambda sigma
  end.
(** SVDSolve with cyclic.c:539-563 SVDSolve_Cyclic; also returned: the number of eigenpairs examined. *)
Definition solve_cyclic : res (solved (W * W) * nat) :=
  check sizes_ok
  (if (M inp == 0%N) || (N inp == 0%N) then Ok (Solved 0 (fun _ => 0) id (fun _ => 0) (fun _ => (0, 0)), 0%N)
   else do ' (c, d) <- cyclic_operators;
        let '(n, lambda, x) := epsc c d in
        let n := minn n ncv in
        let '(k, sigma) := cyclic_values n 0 0 lambda (fun _ => 0) in
        Ok (Solved k sigma (sorted_perm k sigma) lambda x, n)).
(** cyclic.c:580-595 SVDComputeVectors_Cyclic_Standard *)
Fixpoint cyclic_vectors (n i j : nat) (lambda : nat -> F) (x : nat -> W * W) (z : vectors W) : vectors W :=
  match n with
  | 0 => z
  | n'.+1 =>
      if re (lambda i) < 0 then cyclic_vectors n' i.+1 j lambda x z
      else cyclic_vectors n' i.+1 j.+1 lambda x
             (Vectors (upd (colU z) j (sqrt 2%:R *: (x i).1)) (upd (colV z) j (sqrt 2%:R *: (x i).2)) (sign z))
  end.
Definition vectors_cyclic (r : solved (W * W)) (n : nat) (z : vectors W) : res (vectors W) :=
  Ok (cyclic_vectors n 0 0 (lambda r) (evec r) z).

(** * Generalized problems: a column of svd->U is [u;v], a column of svd->V is x *)
(** cross.c:295-323.  VecNormalize leaves a zero vector alone.  For B*x = 0 the quotient is left to the
    convention 1/0 = 0. *)
Definition normalize (x : W) : W := if norm2 x == 0 then x else (1 / norm2 x) *: x.
Definition gvectors_cross (r : solved W) : vectors (W * W) :=
  Vectors (fun i => (normalize (mult mA (evec r i)), normalize (mult mB (evec r i))))
          (fun i => (1 / (sqrt (1 + re (lambda r i)) * norm2 (mult mB (evec r i)))) *: evec r i)
          (fun _ => 1).
(** cyclic.c:621-666 SVDComputeVectors_Cyclic_Generalized *)
Fixpoint gvectors_loop (n i j : nat) (lambda : nat -> F) (x : nat -> W * W) (z : vectors (W * W)) : vectors (W * W) :=
  match n with
  | 0 => z
  | n'.+1 =>
      let s := re (lambda i) in
      if s < 0 then gvectors_loop n' i.+1 j lambda x z
      else
        let w := sqrt 2%:R *: (x i).2 in
        let y := (1 / sqrt (1 + s * s)) *: w in
        let uv := match which inp with
                  | Smallest => (mult mA w, sqrt 2%:R *: (x i).1)
                  | Largest => (sqrt 2%:R *: (x i).1, mult mB w)
                  end in
        gvectors_loop n' i.+1 j.+1 lambda x (Vectors (upd (colU z) j uv) (upd (colV z) j y) (sign z))
  end.
Definition gvectors_cyclic (r : solved (W * W)) (n : nat) (z : vectors (W * W)) : vectors (W * W) :=
  gvectors_loop n 0 0 (lambda r) (evec r) z.
(** SVDGetSingularTriplet: the value, [u;v] and x *)
Definition get_gtriplet (X : Type) (r : solved X) (z : vectors (W * W)) (i : nat) : res (F * (W * W) * W) :=
  check (i < nconv r)%N (Ok (sigma r (perm r i), colU z (perm r i), colV z (perm r i))).
(** svdsolve.c:395-436 SVDComputeResidualNorms_Generalized *)
Definition gresidual_norms (sg : F) (uv : W * W) (x : W) : F * F :=
  let s := 1 / sqrt (1 + sg * sg) in
  let c := sg * s in
  (norm2 ((s * s) *: multh (op inp) uv.1 + (- c) *: multh (opb inp) (mult (opb inp) x)),
   norm2 ((c * c) *: multh (opb inp) uv.2 + (- s) *: multh (op inp) (mult (op inp) x))).
(** svdsolve.c:500-593 SVDComputeError, generalized problems. *)
Definition compute_gerror (X : Type) (r : solved X) (z : vectors (W * W)) (i : nat) (t : errortype) : res F :=
  do ' (sg, uv, x) <- get_gtriplet r z i;
  let '(n1, n2) := gresidual_norms sg uv x in
  let e := slepc_abs n1 n2 in
  let vecnorm := sqrt (1 + norm2 x ^+ 2) in
  Ok (match t with
      | Absolute => e
      | Relative => let s := 1 / sqrt (1 + sg * sg) in let c := sg * s in
                    pmax (n1 / (c * vecnorm)) (n2 / (s * vecnorm))
      | Norm => e / (pmax nrma nrmb * vecnorm)
      end).
End SVD.
