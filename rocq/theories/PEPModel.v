(** Polynomial eigenproblems (PEP): the polynomial bases of /repo/src/pep/interface/pepdefault.c and
    /repo/src/pep/impls/peputils.c, residuals (/repo/src/pep/interface/pepsolve.c), and the solver PEPLINEAR
    (/repo/src/pep/impls/linear/linear.c and qeplin.c).
    Exact arithmetic over a field with an absolute value; matrices are square of any size n, the number nmat of
    coefficient matrices is arbitrary.  Arrays are bounds-checked, fresh arrays have arbitrary contents.
    Not modelled: the inner eigensolver (EPS), replaced by an arbitrary list of exact eigenpairs of the operator it
    is given; regions, tolerances, initial vectors, monitors, options, diagonal scaling. *)
From mathcomp Require Import all_ssreflect all_algebra.
From Verif Require Import Prelude STModel.
Set Implicit Arguments. Unset Strict Implicit. Unset Printing Implicit Defensive.
Import GRing.Theory Num.Theory.
Local Open Scope ring_scope.

(** ** Arrays and loops *)

(** a[i], a[i]=v; outside the array the behaviour is undefined. *)
Definition rd T (a : seq T) (i : nat) : res T := if drop i a is x :: _ then Ok x else UB.
Definition wr T (a : seq T) (i : nat) (v : T) : res (seq T) :=
  if (i < size a)%N then Ok (set_nth v a i v) else UB.
(** An index i-j. *)
Definition isub (i j : nat) : res nat := if (j <= i)%N then Ok (i - j)%N else UB.

Fixpoint loop S (k lo : nat) (body : nat -> S -> res S) (s : S) : res S :=
  if k is k'.+1 then do s' <- body lo s; loop k' lo.+1 body s' else Ok s.
(** for (i=lo;i<hi;i++) body *)
Definition for_ S (lo hi : nat) (body : nat -> S -> res S) (s : S) : res S := loop (hi - lo) lo body s.

(** ** Polynomial bases *)

(** PEPBasis, /repo/include/slepcpep.h:191-196 *)
Inductive basis := Monomial | Chebyshev1 | Chebyshev2 | Legendre | Laguerre | Hermite.

Section Basis.
Variable F : fieldType.

(** ca[k], cb[k], cg[k] in the array pbc of length 3*nmat, pepdefault.c:390-392 *)
Definition set3 (nmat : nat) (pbc : seq F) (k : nat) (a b g : F) : res (seq F) :=
  do p1 <- wr pbc k a; do p2 <- wr p1 (nmat + k)%N b; wr p2 (2 * nmat + k)%N g.

(** PEPBasisCoefficients, pepdefault.c:384-431 *)
Definition basis_coefficients (bs : basis) (nmat : nat) (pbc : seq F) : res (seq F) :=
  match bs with
  | Monomial => for_ 0 nmat (fun k p => set3 nmat p k 1 0 0) pbc
  | Chebyshev1 =>
      do p <- set3 nmat pbc 0 1 0 0;
      for_ 1 nmat (fun k p => set3 nmat p k (2%:R^-1) 0 (2%:R^-1)) p
  | Chebyshev2 =>
      do p <- set3 nmat pbc 0 (2%:R^-1) 0 0;
      for_ 1 nmat (fun k p => set3 nmat p k (2%:R^-1) 0 (2%:R^-1)) p
  | Legendre =>
      do p <- set3 nmat pbc 0 1 0 0;
      for_ 1 nmat (fun k p => set3 nmat p k (k + 1)%:R (- (2 * k)%:R) k%:R) p
  | Laguerre =>
      do p <- set3 nmat pbc 0 (-1) 0 0;
      for_ 1 nmat (fun k p => set3 nmat p k (- (k + 1)%:R) (2 * k + 1)%:R (- k%:R)) p
  | Hermite =>
      do p <- set3 nmat pbc 0 (2%:R^-1) 0 0;
      for_ 1 nmat (fun k p => set3 nmat p k (2%:R^-1) 0 (- k%:R)) p
  end.

(** PEPEvaluateBasis with ivals=NULL, peputils.c:56-76 *)
Definition eval_basis (nmat : nat) (pbc : seq F) (sigma : F) (vals : seq F) : res (seq F) :=
  do v <- wr vals 0 1;
  do b0 <- rd pbc nmat; do a0 <- rd pbc 0;
  do v <- wr v 1 ((sigma - b0) / a0);
  for_ 2 nmat (fun k v =>
    do b <- rd pbc (nmat + (k - 1))%N; do g <- rd pbc (2 * nmat + (k - 1))%N; do a <- rd pbc (k - 1)%N;
    do v1 <- rd v (k - 1)%N; do v2 <- rd v (k - 2)%N;
    wr v k (((sigma - b) * v1 - g * v2) / a)) v.

(** The same with real scalars and ivals given. *)
Definition eval_basis_ri (nmat : nat) (pbc : seq F) (sigma isigma : F) (vv : seq F * seq F) : res (seq F * seq F) :=
  let (vals, ivals) := vv in
  do iv <- for_ 0 nmat (fun k iv => wr iv k 0) ivals;
  do v <- wr vals 0 1;
  do b0 <- rd pbc nmat; do a0 <- rd pbc 0;
  do v <- wr v 1 ((sigma - b0) / a0);
  do iv <- wr iv 1 (isigma / a0);
  for_ 2 nmat (fun k (vv : seq F * seq F) => let (v, iv) := vv in
    do b <- rd pbc (nmat + (k - 1))%N; do g <- rd pbc (2 * nmat + (k - 1))%N; do a <- rd pbc (k - 1)%N;
    do v1 <- rd v (k - 1)%N; do v2 <- rd v (k - 2)%N;
    do i1 <- rd iv (k - 1)%N; do i2 <- rd iv (k - 2)%N;
    do v <- wr v k (((sigma - b) * v1 - g * v2) / a);
    do vk <- rd v k;
    do v <- wr v k (vk - isigma * i1 / a);
    do iv <- wr iv k (((sigma - b) * i1 + isigma * v1 - g * i2) / a);
    Ok (v, iv)) (v, iv).

(** for (k=nmat-1;k>0;k--) vals[k] = vals[k-1], peputils.c:88-91 *)
Fixpoint shift_up (k : nat) (v : seq F) : res (seq F) :=
  if k is k'.+1 then do a <- rd v k'; do v <- wr v k a; shift_up k' v else Ok v.

(** PEPEvaluateBasisDerivative with ivals=NULL, peputils.c:81-110 *)
Definition eval_derivative (nmat : nat) (pbc : seq F) (sigma : F) (vals : seq F) : res (seq F) :=
  do v <- eval_basis nmat pbc sigma vals;
  do v <- shift_up (nmat - 1) v;
  do v <- wr v 0 0;
  do a0 <- rd pbc 0; do v1 <- rd v 1;
  do v <- wr v 1 (v1 / a0);
  for_ 2 nmat (fun k v =>
    do b <- rd pbc (nmat + (k - 1))%N; do g <- rd pbc (2 * nmat + (k - 1))%N; do a <- rd pbc (k - 1)%N;
    do v1 <- rd v (k - 1)%N; do v2 <- rd v (k - 2)%N; do vk <- rd v k;
    do v <- wr v k (vk + ((sigma - b) * v1 - g * v2));
    do vk <- rd v k;
    wr v k (vk / a)) v.

(** The same with real scalars and ivals given. *)
Definition eval_derivative_ri (nmat : nat) (pbc : seq F) (sigma isigma : F) (vv : seq F * seq F) :
    res (seq F * seq F) :=
  do ' (v, iv) <- eval_basis_ri nmat pbc sigma isigma vv;
  do v <- shift_up (nmat - 1) v;
  do iv <- shift_up (nmat - 1) iv;
  do v <- wr v 0 0;
  do a0 <- rd pbc 0; do v1 <- rd v 1;
  do v <- wr v 1 (v1 / a0);
  do i1 <- rd iv 1;
  do iv <- wr iv 1 (i1 / a0);
  for_ 2 nmat (fun k (vv : seq F * seq F) => let (v, iv) := vv in
    do b <- rd pbc (nmat + (k - 1))%N; do g <- rd pbc (2 * nmat + (k - 1))%N; do a <- rd pbc (k - 1)%N;
    do v1 <- rd v (k - 1)%N; do v2 <- rd v (k - 2)%N;
    do i1 <- rd iv (k - 1)%N; do i2 <- rd iv (k - 2)%N;
    do vk <- rd v k;
    do v <- wr v k (vk + ((sigma - b) * v1 - g * v2));
    do vk <- rd v k;
    do v <- wr v k (vk - isigma * i1);
    do vk <- rd v k;
    do v <- wr v k (vk / a);
    do ik <- rd iv k;
    do iv <- wr iv k (ik + ((sigma - b) * i1 + isigma * v1 - g * i2));
    do ik <- rd iv k;
    do iv <- wr iv k (ik / a);
    Ok (v, iv)) (v, iv).

End Basis.

(** ** Residuals *)
Section Residual.
Variable F : numFieldType.
Variable n : nat.
Notation mat := 'M[F]_n.
Notation vec := 'cV[F]_n.

(** PEPComputeResidualNorm_Private, pepsolve.c:383-451, complex scalars: the vector u whose norm is returned.
    [vals] are the contents of the array of values when the function starts. *)
Definition residual (nmat : nat) (A : seq mat) (pbc : seq F) (kr : F) (x : vec) (vals : seq F) : res vec :=
  do vals <- eval_basis nmat pbc kr vals;
  for_ 0 nmat (fun i u =>
    do v <- rd vals i;
    if v != 0 then do a <- rd A i; Ok (u + v *: (a *m x)) else Ok u) 0.

(** The same with real scalars, pepsolve.c:383-451: the vectors u, ui with returned value sqrt(|u|^2+|ui|^2); ui=0
    if the imaginary part is not used.  [eps] is PETSC_MACHINE_EPSILON; the work vectors w, wi keep their contents
    from one iteration to the next. *)
Definition residual_ri (eps : F) (nmat : nat) (A : seq mat) (pbc : seq F) (kr ki : F) (xr xi : vec)
    (vv : seq F * seq F) (w0 wi0 : vec) : res (vec * vec) :=
  do ' (vals, ivals) <- eval_basis_ri nmat pbc kr ki vv;
  let imag := ~~ ((ki == 0) || (`|ki| < `|kr * eps|)) in
  do ' (u, ui, _, _) <- for_ 0 nmat (fun i (st : vec * vec * vec * vec) =>
    let '(u, ui, w, wi) := st in
    do v <- rd vals i; do iv <- rd ivals i; do a <- rd A i;
    let: (u, w) := if v != 0 then (u + v *: (a *m xr), a *m xr) else (u, w) in
    if imag then
      let: (w, wi) := if (iv != 0) || (v != 0) then (if v == 0 then a *m xr else w, a *m xi) else (w, wi) in
      let: (u, ui) := if iv != 0 then (u + (- iv) *: wi, ui + iv *: w) else (u, ui) in
      let ui := if v != 0 then ui + v *: wi else ui in
      Ok (u, ui, w, wi)
    else Ok (u, ui, w, wi)) (0, 0, w0, wi0);
  Ok (u, ui).
End Residual.

(** ** PEPLINEAR *)
Section Linear.
Variable F : numFieldType.
Variable n : nat.
Notation mat := 'M[F]_n.
Notation vec := 'cV[F]_n.

(** PEPProblemType and PEPExtract, /repo/include/slepcpep.h; PEP_EXTRACT_STRUCTURED is rejected, linear.c:632-633 *)
Inductive ptype := General | Hermitian | Hyperbolic | Gyroscopic.
Inductive extraction := XNone | XNorm | XResidual | XStructured.

(** What the user sets. [scale] is the scale factor, given by the user or computed by PEPComputeScaleFactor;
    [user_eps] says that the inner EPS was given by the user with target [user_target]. *)
Record config := Config {
  c_mats : seq mat; c_basis : basis; c_type : sttype; c_transform : bool; c_shift : F; c_target : F;
  c_scale : F; c_ptype : ptype; c_explicit : bool; c_alpha : F; c_beta : F; c_extract : extraction;
  c_user : option F }.

(** The PEP object: pbc, solvematcoeffs, sfactor, target; of its ST the type, the transform flag, the shift, the
    matrices STMatMult multiplies by and the matrix STMatSolve solves with; of the inner EPS the target; ctx->A and
    ctx->B if the explicit matrices are used. *)
Record pep := Pep {
  cfg : config; pbc : seq F; coeffs : option (seq F);
  st_sigma : F; tmats : seq mat; pmat : option mat; eps_target : F; ab : option ('M[F]_(n + n) * 'M[F]_(n + n)) }.

Definition nmat (c : config) : nat := size (c_mats c).

(** A block array: the local array of a vector of length deg*n is made of deg blocks; w=VecPlaceArray(array+i*m)
    accesses block i. VecAXPY(block i, a, v); VecScale(block i, a). *)
Definition axpy (py : seq vec) (i : nat) (a : F) (v : vec) : res (seq vec) := do y <- rd py i; wr py i (y + a *: v).
Definition scal (py : seq vec) (i : nat) (a : F) : res (seq vec) := do y <- rd py i; wr py i (a *: y).

(** STMatMult, /repo/src/sys/classes/st/interface/stsles.c *)
Definition st_mult (p : pep) (k : nat) (x : vec) : res vec := do t <- rd (tmats p) k; Ok (t *m x).
(** STMatSolve: an error if the matrix is singular. *)
Definition st_solve (p : pep) (b : vec) : res vec :=
  if pmat p is Some m then check (m \in unitmx) (Ok (invmx m *m b)) else Ok b.

(** MatMult_Linear_Shift, linear.c:17-92 *)
Definition mult_shift (p : pep) (px : seq vec) : res (seq vec) :=
  let sigma := if c_transform (cfg p) then 0 else st_sigma p in
  let nm := nmat (cfg p) in
  do deg <- isub nm 1;
  let ca := fun k => rd (pbc p) k in
  let cb := fun k => rd (pbc p) (nm + k)%N in
  let cg := fun k => rd (pbc p) (2 * nm + k)%N in
  let sf := c_scale (cfg p) in
  let py := nseq (size px) 0 in
  (* first block *)
  do x2 <- rd px 0; do x3 <- rd px 1; do b <- cb 0%N; do a <- ca 0%N;
  do py <- axpy py 0 (b - sigma) x2;
  do py <- axpy py 0 a x3;
  (* inner blocks *)
  do d1 <- isub deg 1;
  do py <- for_ 1 d1 (fun i py =>
    do x1 <- rd px (i - 1)%N; do x2 <- rd px i; do x3 <- rd px i.+1;
    do g <- cg i; do b <- cb i; do a <- ca i;
    do py <- axpy py i g x1;
    do py <- axpy py i (b - sigma) x2;
    axpy py i a x3) py;
  (* last block *)
  do ' (py, a) <- for_ 0 deg (fun i (s : seq vec * F) => let (py, a) := s in
    do x1 <- rd px i; do aux <- st_mult p i x1;
    do py <- axpy py d1 a aux;
    Ok (py, a * sf)) (py, 1);
  do aux <- rd py d1;
  do y <- st_solve p aux;
  do py <- wr py d1 y;
  do cl <- ca d1; do py <- scal py d1 (- cl / a);
  do d2 <- isub deg 2;
  do x1 <- rd px d2; do x2 <- rd px d1; do g <- cg d1; do b <- cb d1;
  do py <- axpy py d1 g x1;
  axpy py d1 (b - sigma) x2.

(** MatMult_Linear_Sinvert, linear.c:94-206 *)
Definition mult_sinvert (p : pep) (px : seq vec) : res (seq vec) :=
  let sigma := eps_target p in
  let nm := nmat (cfg p) in
  do deg <- isub nm 1;
  let ca := fun k => rd (pbc p) k in
  let cb := fun k => rd (pbc p) (nm + k)%N in
  let cg := fun k => rd (pbc p) (2 * nm + k)%N in
  let sf := c_scale (cfg p) in
  let py := nseq (size px) 0 in
  (* first block *)
  do x1 <- rd px 0; do a <- ca 0%N;
  do py <- wr py 1 x1;
  do py <- scal py 1 (1 / a);
  (* second block *)
  do py <- (if (2 < deg)%N then
      do x1 <- rd px 1; do y1 <- rd py 1; do b <- cb 1%N; do a <- ca 1%N;
      do py <- wr py 2 x1;
      do py <- axpy py 2 (sigma - b) y1;
      scal py 2 (1 / a)
    else Ok py);
  (* inner blocks *)
  do d1 <- isub deg 1;
  do py <- for_ 2 d1 (fun i py =>
    do x1 <- rd px i; do y1 <- rd py (i - 1)%N; do y2 <- rd py i;
    do a <- ca i; do b <- cb i; do g <- cg i;
    do py <- wr py i.+1 x1;
    do py <- axpy py i.+1 (sigma - b) y2;
    do py <- axpy py i.+1 (- g) y1;
    scal py i.+1 (1 / a)) py;
  (* last block *)
  do d2 <- isub deg 2;
  do ' (py, a) <- for_ 0 d2 (fun i (s : seq vec * F) => let (py, a) := s in
    do y2 <- rd py i.+1; do aux <- st_mult p i.+1 y2;
    do py <- axpy py 0 a aux;
    Ok (py, a * sf)) (py, sf);
  do y2 <- rd py d1; do y3 <- rd py d2; do g <- cg d1; do cl <- ca d1;
  do aux <- st_mult p d1 (y2 + (g / cl) *: y3);
  do py <- axpy py 0 a aux;
  let a := a * sf in
  do x1 <- rd px d1; do y3 <- rd py d1; do b <- cb d1; do cl <- ca d1;
  do aux <- st_mult p deg ((1 / cl) *: (x1 + (sigma - b) *: y3));
  do py <- axpy py 0 a aux;
  do y1 <- rd py 0;
  do y1 <- st_solve p y1;
  do py <- wr py 0 ((-1) *: y1);
  (* final update *)
  do ' (py, _, _) <- for_ 1 deg (fun i (s : seq vec * F * F) => let '(py, t, tp) := s in
    do b <- cb (i - 1)%N; do g <- cg (i - 1)%N; do a <- ca (i - 1)%N;
    let tt := t in
    let t := ((sigma - b) * t - g * tp) / a in
    let tp := tt in
    do y1 <- rd py 0;
    do py <- axpy py i t y1;
    Ok (py, t, tp)) (py, 1, 0);
  Ok py.

(** MatCreateTile(a,A,b,B,c,C,d,D), /repo/src/sys/mat/matutil.c: the block matrix [aA bB; cC dD]. *)
Definition tile (a : F) (A : mat) (b : F) (B : mat) (c : F) (C : mat) (d : F) (D : mat) : 'M[F]_(n + n) :=
  block_mx (a *: A) (b *: B) (c *: C) (d *: D).

(** qeplin.c:36-169. [s] is sfactor; dsfactor is [ds]. *)
Definition explicit_NA (a b s ds : F) (K C M : mat) : 'M[F]_(n + n) :=
  let: (scalt, T) :=
    if (a != 0) && (b != 0) then (1, (- a * ds * s) *: C + b%:M)
    else if a == 0 then (b, 1%:M) else (- a * ds * s, C) in
  tile (- b * ds) K a 1%:M (- ds * a) K scalt T.
Definition explicit_NB (a b s ds : F) (K C M : mat) : 'M[F]_(n + n) :=
  let: (scalt, T) :=
    if (a != 0) && (b != 0) then (1, (b * ds * s) *: C + a%:M)
    else if b == 0 then (a, 1%:M) else (b * ds * s, C) in
  tile scalt T (b * ds * s * s) M b 1%:M (a * s * s * ds) M.
Definition explicit_SA (a b s ds : F) (K C M : mat) : 'M[F]_(n + n) :=
  let: (scalt, T) :=
    if (a != 0) && (b != 0) then (1, (a * ds * s) *: C + (- b * ds * s * s) *: M)
    else if a == 0 then (- b * ds * s * s, M) else (a * ds * s, C) in
  tile (b * ds) K (a * ds) K (a * ds) K scalt T.
Definition explicit_SB (a b s ds : F) (K C M : mat) : 'M[F]_(n + n) :=
  let: (scalt, T) :=
    if (a != 0) && (b != 0) then (1, (- b * ds * s) *: C + (a * ds) *: K)
    else if b == 0 then (a * ds, K) else (- b * ds * s, C) in
  tile scalt T (- b * ds * s * s) M (- b * ds * s * s) M (- a * ds * s * s) M.
Definition explicit_HA (a b s ds : F) (K C M : mat) : 'M[F]_(n + n) :=
  let: (scalt, T) :=
    if (a != 0) && (b != 0) then (1, (a * ds * s) *: C + (b * ds * s * s) *: M)
    else if a == 0 then (b * ds * s * s, M) else (a * ds * s, C) in
  tile (a * ds) K (- b * ds) K scalt T (a * ds) K.
Definition explicit_HB (a b s ds : F) (K C M : mat) : 'M[F]_(n + n) :=
  let: (scalt, T) :=
    if (a != 0) && (b != 0) then (1, (b * ds * s) *: C + (a * ds) *: K)
    else if b == 0 then (a * ds, K) else (b * ds * s, C) in
  tile (b * ds * s * s) M scalt T (- a * ds * s * s) M (b * ds * s * s) M.

(** The table of linear.c:247-251 indexed as in linear.c:286-291. *)
Definition explicit_A (t : ptype) : F -> F -> F -> F -> mat -> mat -> mat -> 'M[F]_(n + n) :=
  match t with General => explicit_NA | Hermitian | Hyperbolic => explicit_SA | Gyroscopic => explicit_HA end.
Definition explicit_B (t : ptype) : F -> F -> F -> F -> mat -> mat -> mat -> 'M[F]_(n + n) :=
  match t with General => explicit_NB | Hermitian | Hyperbolic => explicit_SB | Gyroscopic => explicit_HB end.

Definition is_general (t : ptype) : bool := if t is General then true else false.
Definition is_monomial (b : basis) : bool := if b is Monomial then true else false.
Definition is_sinvert (t : sttype) : bool := if t is Sinvert then true else false.
Definition is_cayley (t : sttype) : bool := if t is Cayley then true else false.

(** pbc[nmat+i] /= s, pbc[2*nmat+i] /= s*s, linear.c:335-340 (multiplications in linear.c:662-666) *)
Definition scale_pbc (nm : nat) (s : F) (q : seq F) : res (seq F) :=
  for_ 0 nm (fun i q =>
    do b <- rd q (nm + i)%N; do q <- wr q (nm + i)%N (b / s);
    do g <- rd q (2 * nm + i)%N; wr q (2 * nm + i)%N (g / (s * s))) q.
Definition unscale_pbc (nm : nat) (s : F) (q : seq F) : res (seq F) :=
  for_ 0 nm (fun i q =>
    do b <- rd q (nm + i)%N; do q <- wr q (nm + i)%N (b * s);
    do g <- rd q (2 * nm + i)%N; wr q (2 * nm + i)%N (g * (s * s))) q.

(** PEPSetOperators, pepsetup.c:278-318, and the other options. *)
Definition create (c : config) : res pep :=
  check (2 < size (c_mats c))%N
    (Ok (Pep c (nseq (nmat c) 1 ++ nseq (2 * nmat c) 0) None (c_shift c) (c_mats c) None (odflt 0 (c_user c)) None)).

(** STMatSetUp(st,1.0,coeffs), stsles.c: the matrix sum_i coeffs[i]*A[i]. *)
Definition lincomb (cs : seq F) (A : seq mat) : mat := \sum_(i < size cs) nth 0 cs i *: nth 0 A i.

(** PEPSetUp_Linear, linear.c:239-417, followed by the rest of PEPSetUp, pepsetup.c:223-232.
    [ts] are the matrices computed by STSetUp if the transform flag is set; [junk] is the contents of the fresh
    array of coefficients; [ds] is dsfactor. *)
Definition setup (p : pep) (ts : seq mat) (junk : seq F) (ds : F) : res pep :=
  let c := cfg p in
  let nm := nmat c in
  check (~~ is_cayley (c_type c)) (
  let tm := if c_transform c then ts else c_mats c in
  let et := if ~~ c_transform c && ~~ (c_user c : bool) then c_target c else eps_target p in
  do ' (q, co, sg, m) <-
    (if c_explicit c then
       check (nm == 3%N) (check (is_monomial (c_basis c)) (check (~~ c_transform c) (
       do k0 <- rd tm 0; do k1 <- rd tm 1; do k2 <- rd tm 2;
       let A := explicit_A (c_ptype c) (c_alpha c) (c_beta c) (c_scale c) ds k0 k1 k2 in
       let B := explicit_B (c_ptype c) (c_alpha c) (c_beta c) (c_scale c) ds k0 k1 k2 in
       Ok (pbc p, coeffs p, st_sigma p, Some (A, B)))))
     else
       check (is_general (c_ptype c)) (check ((c_alpha c == 1) && (c_beta c == 0)) (
       do q <- basis_coefficients (c_basis c) nm (pbc p);
       do ' (co, sg) <-
         (if ~~ c_transform c then
            do co <- (if is_sinvert (c_type c) then eval_basis nm q (c_target c) junk
                      else do co <- for_ 0 (nm - 1) (fun i co => wr co i 0) junk; wr co (nm - 1) 1);
            Ok (Some co, st_sigma p * (1 / c_scale c))
          else Ok (coeffs p, st_sigma p));
       do q <- (if c_scale c != 1 then scale_pbc nm (c_scale c) q else Ok q);
       Ok (q, co, sg, None))));
  let et := if c_scale c != 1 then et / c_scale c else et in
  do pm <- (if ~~ c_transform c then
              Ok (if co is Some cs then Some (lincomb cs (c_mats c)) else pmat p)
            else check (is_monomial (c_basis c)) (do t <- rd tm (nm - 1); Ok (Some t)));
  Ok (Pep c q co sg tm pm et m)).

(** ctx->A, linear.c:320-322: the operator of the inner EPS when the matrices are not explicit (Apply_Linear). *)
Definition apply (p : pep) (x : seq vec) : res (seq vec) :=
  if is_sinvert (c_type (cfg p)) && ~~ c_transform (cfg p) then mult_sinvert p x else mult_shift p x.

(** The eigenvalue the inner EPS reports for an eigenvalue of its operator: BackTransform_Linear or
    BackTransform_Skip, linear.c:208-228 and 315-316; nothing to do for the explicit matrices. *)
Definition eps_value (p : pep) (th : F) : F :=
  if c_explicit (cfg p) then th
  else if c_transform (cfg p) then th else back (c_type (cfg p)) (st_sigma p) 0 th.

(** PEPSolve_Linear, linear.c:638-671: the eigenvalue reported by the PEP. *)
Definition pep_value (p : pep) (th : F) : F :=
  let e := eps_value p th * c_scale (cfg p) in
  if c_transform (cfg p) then back (c_type (cfg p)) (st_sigma p) 0 e else e.

(** PEPSolve_Linear: the object afterwards. *)
Definition solved (p : pep) : res pep :=
  let c := cfg p in
  let et := eps_target p * c_scale c in
  do ' (q, sg) <-
    (if c_scale c != 1 then
       do q <- unscale_pbc (nmat c) (c_scale c) (pbc p);
       Ok (q, if ~~ c_transform c && ~~ c_explicit c then st_sigma p * c_scale c else st_sigma p)
     else Ok (pbc p, st_sigma p));
  Ok (Pep c q (coeffs p) sg (tmats p) (pmat p) et (ab p)).

(** PEPLinearExtract_None, PEPLinearExtract_Norm and PEPLinearExtract_Residual, linear.c:429-618: the vector stored
    for the eigenvalue [lam] and the eigenvector made of the blocks [z]. [rn] is the residual norm of the normalized
    block; the normalization is omitted. *)
Definition extract (p : pep) (rn : vec -> F) (lam : F) (z : seq vec) : res vec :=
  match c_extract (cfg p) with
  | XNone => rd z 0
  | XNorm => do d1 <- isub (nmat (cfg p)) 2; rd z (if 1 < `|lam| then d1 else 0%N)
  | XResidual =>
      do x <- rd z 0;
      do d <- isub (nmat (cfg p)) 1;
      do ' (x, _) <- for_ 1 d (fun k (s : vec * F) => let (x, rn1) := s in
        do y <- rd z k; if rn y < rn1 then Ok (y, rn y) else Ok (x, rn1)) (x, rn x);
      Ok x
  | XStructured => Err
  end.
End Linear.
