(** Model of the distribution of integration points over subcommunicators and of the
    quadrature sums of contour integral solvers:
    /repo/src/sys/slepccontour.c and /repo/src/sys/classes/bv/interface/bvcontour.c.
    Exact arithmetic over a field; vectors are elements of a vector space. *)
From mathcomp Require Import all_ssreflect all_algebra.
Set Implicit Arguments. Unset Strict Implicit. Unset Printing Implicit Defensive.
Import GRing.Theory.
Local Open Scope ring_scope.

(** slepccontour.c:30-31: number of points of the subcommunicator [color]. *)
Definition npoints (n npart color : nat) : nat :=
  ((n %/ npart) + (color < n %% npart)%N)%N.

(** bvcontour.c:17, ciss.c:86,120 and similar: global number of the local point [i]. *)
Definition p_id (npart color i : nat) : nat := (i * npart + color)%N.

(** slepccontour.c:141-147: the two index lists built by the process owning rows
    [mstart,mend) of a vector of length m, in the order of the loops. *)
Definition scatter_idx (npart m mstart mend : nat) : seq (nat * nat) :=
  [seq (i, (i + m * k)%N) | k <- iota 0 npart, i <- iota mstart (mend - mstart)].

(** Arrays as functions with update. *)
Definition upd (T : Type) (f : nat -> T) (i : nat) (v : T) : nat -> T :=
  fun j => if j == i then v else f j.

(** bvcontour.c:57-58 VecScatter forward with INSERT_VALUES (entries of v copied to xdup)
    and bvcontour.c:136-137 reverse with ADD_VALUES (entries of xdup added to v), for a
    list of pairs (index in v, index in xdup).  PETSc's VecScatter is modelled as the
    sequential application of its pairs. *)
Definition scatter_fwd (T : Type) (idx : seq (nat * nat)) (v xdup : nat -> T) : nat -> T :=
  foldl (fun x p => upd x p.2 (v p.1)) xdup idx.
Definition scatter_rev_add (A : zmodType) (idx : seq (nat * nat)) (xdup v : nat -> A) : nat -> A :=
  foldl (fun v p => upd v p.1 (v p.1 + xdup p.2)) v idx.

(** The pairs of all the processes; [parts] lists the ownership ranges. *)
Definition scatter_all (npart m : nat) (parts : seq (nat * nat)) : seq (nat * nat) :=
  flatten [seq scatter_idx npart m p.1 p.2 | p <- parts].

Section Quadrature.
Variables (K : fieldType) (V : lmodType K).
Variable twice_re : K -> K.        (* x -> 2*Re(x), PetscRealPart *)
Variable twice_reV : V -> V.       (* the same, entrywise on a vector *)
Variable dotp : V -> V -> K.       (* VecDot(x,y) = y^H x; here dotp x y *)
Variables (w zn : nat -> K).       (* weights and normalized points *)

(** bvcontour.c:121,142: powers, one array per process; the update after each k. *)
Definition ppk_next (npart color np : nat) (ppk : nat -> K) : nat -> K :=
  foldl (fun f i => upd f i (f i * zn (p_id npart color i))) ppk (iota 0 np).

(** bvcontour.c:125-134: the local vector v of one subcommunicator. *)
Definition sum_local (npart color np Lmax : nat) (Y : nat -> V) (ppk : nat -> K) (useconj : bool) (j : nat) : V :=
  let v := foldl (fun v i => v + (ppk i * w (p_id npart color i)) *: Y (i * Lmax + j)%N) 0 (iota 0 np) in
  if useconj then twice_reV v else v.

(** bvcontour.c:135-140: with a scatter (npart>1) the contributions of all the
    subcommunicators are added to the present contents of column k*L+j of S (ADD_VALUES,
    SCATTER_REVERSE); without it v is copied.  [Y c] is the block held by subcommunicator c. *)
Definition sum_store (npart n Lmax : nat) (scat : bool) (Y : nat -> nat -> V) (ppk : nat -> nat -> K)
    (useconj : bool) (S : nat -> V) (col j : nat) : nat -> V :=
  if scat then
    upd S col (foldl (fun s c => s + sum_local npart c (npoints n npart c) Lmax (Y c) (ppk c) useconj j)
                     (S col) (iota 0 npart))
  else upd S col (sum_local npart 0 (npoints n npart 0) Lmax (Y 0%N) (ppk 0%N) useconj j).

(** bvcontour.c:108-147 BVSumQuadrature, all processes together. *)
Definition sum_quadrature (npart n M L Lmax : nat) (scat : bool) (Y : nat -> nat -> V) (useconj : bool)
    (S : nat -> V) : nat -> V :=
  (foldl (fun (st : (nat -> V) * (nat -> nat -> K)) k =>
     let S' := foldl (fun S j => sum_store npart n Lmax scat Y st.2 useconj S (k * L + j)%N j) st.1 (iota 0 L) in
     (S', fun c => ppk_next npart c (npoints n npart c) (st.2 c)))
   (S, fun _ _ => 1) (iota 0 M)).1.

(** bvcontour.c:187-237 BVDotQuadrature.  [Y c col] are the columns of Y in subcommunicator
    c, [Vs c s] the columns of V there, [size c] its number of processes.  H[s + col*L] is
    the inner product of column col of Y with column s of V. *)
Definition dot_temp (np L Lmax : nat) (H : nat -> K) : nat -> K :=
  foldl (fun f i => foldl (fun f j => foldl (fun f k =>
      upd f (k + j * L + i * L * L)%N (H (k + j * L + i * L * Lmax)%N)) f (iota 0 L)) f (iota 0 L))
    (fun _ => 0) (iota 0 np).

Definition dot_local (npart color np M L Lmax : nat) (Yc Vc : nat -> V) (useconj : bool) : nat -> K :=
  let H := fun x => dotp (Yc (x %/ L)%N) (Vc (x %% L)%N) in
  let temp := dot_temp np L Lmax H in
  (foldl (fun (st : (nat -> K) * (nat -> K)) k =>
     let t2 := foldl (fun t2 j => foldl (fun t2 i =>
         let alp := st.2 i * w (p_id npart color i) in
         foldl (fun t2 s =>
           let x := (s + (j + k * L) * L)%N in
           let y := temp (s + (j + i * L) * L)%N in
           upd t2 x (t2 x + (if useconj then twice_re (alp * y) else alp * y)))
         t2 (iota 0 L)) t2 (iota 0 np)) st.1 (iota 0 L) in
     (t2, ppk_next npart color np st.2))
   (fun _ => 0, fun _ => 1) (iota 0 (2 * M))).1.

(** bvcontour.c:230-233: every process divides by the size of its subcommunicator, then
    all the processes of the parent are added. *)
Definition dot_quadrature (npart n M L Lmax : nat) (size : nat -> nat) (Y Vs : nat -> nat -> V) (useconj : bool)
    : nat -> K :=
  fun x => \sum_(c < npart) \sum_(p < size c)
    (dot_local npart c (npoints n npart c) M L Lmax (Y c) (Vs c) useconj x / (size c)%:R).

(** bvcontour.c:275-308 BVTraceQuadrature, the sum whose modulus divided by L is returned.
    Without scatter y itself is used; with it, yall is a vector created before the loop
    (zero initially) to which the contributions are added. *)
Definition trace_quadrature (npart n L Lmax : nat) (scat : bool) (Y : nat -> nat -> V) (Vs : nat -> V) (useconj : bool) : K :=
  (foldl (fun (st : K * V) j =>
     let y c := foldl (fun y i => y + w (p_id npart c i) *: Y c (i * Lmax + j)%N) 0 (iota 0 (npoints n npart c)) in
     let yall := if scat then foldl (fun s c => s + y c) st.2 (iota 0 npart) else st.2 in
     let dot := if scat then dotp (Vs j) yall else dotp (Vs j) (y 0%N) in
     (st.1 + (if useconj then twice_re dot else dot), yall))
   (0, 0) (iota 0 L)).1.
End Quadrature.
