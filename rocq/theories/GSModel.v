(** Gram-Schmidt orthogonalization of basis vectors:
    /repo/src/sys/classes/bv/interface/bvorthog.c, the coefficient helpers of
    /repo/include/slepc/private/bvimpl.h and BVInsertVecs, BVInsertConstraints of bvfunc.c.
    Exact arithmetic: scalars are a numeric field (real or complex numbers), vectors an arbitrary
    vector space with an inner product.  The arrays of coefficients, including the column of the
    buffer that serves as scratch, are explicit. *)
From mathcomp Require Import all_ssreflect all_algebra.
From Verif Require Import Prelude.
Set Implicit Arguments. Unset Strict Implicit. Unset Printing Implicit Defensive.
Import GRing.Theory Num.Theory.
Local Open Scope ring_scope.

Section GS.
Variable F : numFieldType.
Variable V : lmodType F.
(** [dot x y] is y^* B x: VecDot(B*x,y), bvorthog.c:69-73; ops->dotvec gives the same values for
    all columns (Bx is current, see C22). *)
Variable dot : V -> V -> F.
(** PetscConj, PetscSqrtReal. *)
Variable conj : F -> F.
Variable sqrt : F -> F.

Inductive refinement := IfNeeded | Never | Always.
(** What does not change during the calls: number of constraints bv->nc, of columns bv->m, kind of
    inner product, bv->orthog_type == BV_ORTHOG_MGS, bv->orthog_ref, bv->orthog_eta, bv->deftol. *)
Record config := Config {
  nc : nat; ncols : nat; indef : bool; mgs : bool; ref : refinement; eta : F; deftol : F }.

(** Column i of the C code (from -nc to m-1) is [col (nc+i)]; [vec] is the Vec given to
    BVOrthogonalizeVec; omega is the signature; [buf k i] is entry k*(nc+m)+i of bv->buffer; [hv] and
    [cv] are the arrays bv->h and bv->c. *)
Record mem := Mem {
  col : nat -> V; vec : V; omega : nat -> F; buf : nat -> nat -> F; hv : nat -> F; cv : nat -> F }.

Definition upd T (f : nat -> T) (i : nat) (v : T) : nat -> T := fun k => if k == i then v else f k.
Definition upd2 T (f : nat -> nat -> T) (j i : nat) (v : T) : nat -> nat -> T :=
  fun k => if k == j then upd (f j) i v else f k.

Definition with_col s c := Mem c (vec s) (omega s) (buf s) (hv s) (cv s).
Definition with_vec s v := Mem (col s) v (omega s) (buf s) (hv s) (cv s).
Definition with_omega s o := Mem (col s) (vec s) o (buf s) (hv s) (cv s).
Definition with_buf s b := Mem (col s) (vec s) (omega s) b (hv s) (cv s).
Definition with_hv s h := Mem (col s) (vec s) (omega s) (buf s) h (cv s).
Definition with_cv s c := Mem (col s) (vec s) (omega s) (buf s) (hv s) c.

(** bvorthog.c:153-161: what is orthogonalized, and against how many columns.  For a column h and c
    are NULL, meaning columns j and 0 of the buffer. *)
Inductive target := Column (j : nat) | Vector (k : nat).
Definition upto (t : target) : nat := match t with Column j => j | Vector k => k end.

Section Cfg.
Variable g : config.

Definition work (s : mem) (t : target) : V :=
  match t with Column j => col s (nc g + j) | Vector _ => vec s end.
Definition set_work (s : mem) (t : target) (w : V) : mem :=
  match t with Column j => with_col s (upd (col s) (nc g + j) w) | Vector _ => with_vec s w end.
Definition c_get (s : mem) (t : target) (i : nat) : F :=
  match t with Column _ => buf s 0 i | Vector _ => cv s i end.
Definition c_set (t : target) (i : nat) (x : F) (s : mem) : mem :=
  match t with Column _ => with_buf s (upd2 (buf s) 0 i x) | Vector _ => with_cv s (upd (cv s) i x) end.
Definition h_get (s : mem) (t : target) (i : nat) : F :=
  match t with Column j => buf s j i | Vector _ => hv s i end.
Definition h_set (t : target) (i : nat) (x : F) (s : mem) : mem :=
  match t with Column j => with_buf s (upd2 (buf s) j i x) | Vector _ => with_hv s (upd (hv s) i x) end.

(** for (i=0;i<n;i++) *)
Definition loop (n : nat) (f : nat -> mem -> mem) (s : mem) : mem := foldl (fun s i => f i s) s (iota 0 n).

(** bvimpl.h:118-140 BV_SafeSqrt.  The argument is z^*Bz, real for a Hermitian B (the tolerance for an
    imaginary part is not modelled). *)
Definition safe_sqrt (a : F) : res F :=
  check (a \is Num.real)
  (if indef g then Ok (if a < 0 then - sqrt (- a) else sqrt a)
   else check (- deftol g < a) (Ok (if a < 0 then 0 else sqrt a))).

(** bvimpl.h:285-298, 304-318, 342-357, 364-383 *)
Definition clean_coefficients (t : target) : mem -> mem :=
  loop (nc g + upto t) (fun i s => h_set t i 0 s).
Definition add_coefficients (t : target) : mem -> mem :=
  loop (nc g + upto t) (fun i s => h_set t i (h_get s t i + c_get s t i) s).
Definition square_sum (t : target) (s : mem) : F :=
  foldl (fun a i => a + c_get s t i * conj (c_get s t i)) 0 (iota 0 (nc g + upto t)).
Definition apply_signature (t : target) (inverse : bool) : mem -> mem :=
  loop (nc g + upto t) (fun i s =>
    c_set t i (if inverse then c_get s t i / omega s i else c_get s t i * omega s i) s).

(** BVDotVec/BVDotColumn/BVDotColumnInc (bvorthog.c:32-47): products with the first n columns. *)
Definition dots (t : target) (n : nat) : mem -> mem :=
  loop n (fun i s => c_set t i (dot (work s t) (col s i)) s).
(** BVMultColumn/BVMultVec with alpha=-1, beta=1. *)
Definition mult (t : target) (s : mem) : mem :=
  set_work s t (work s t - foldl (fun a i => a + c_get s t i *: col s i) 0 (iota 0 (nc g + upto t))).
(** bvorthog.c:20-26, BVNormVec, BVNormColumn *)
Definition norm_work (t : target) (s : mem) : res F := safe_sqrt (dot (work s t) (work s t)).

(** bvorthog.c:52-85 BVOrthogonalizeMGS1.  [wo], [wn]: the arguments onrm, nrm are not NULL; their
    previous values are passed and returned ([None]: not initialized). *)
Definition selected (which : option (nat -> bool)) (i : nat) : bool :=
  match which with Some p => (i < nc g)%N || p (i - nc g)%N | None => true end.
Definition mgs1 (t : target) (which : option (nat -> bool)) (wo wn : bool) (s : mem) (onrm nrm : option F) :
    res (mem * option F * option F) :=
  do onrm <- (if wo then do b <- norm_work t s; Ok (Some b) else Ok onrm);
  let s := loop (nc g + upto t) (fun i s =>
             if ~~ selected which i then s
             else let d := dot (work s t) (col s i) in
                  let s := c_set t i d s in
                  let d := if indef g then d / omega s i else d in
                  set_work s t (work s t - d *: col s i)) s in
  do nrm <- (if wn then do b <- norm_work t s; Ok (Some b) else Ok nrm);
  Ok (add_coefficients t s, onrm, nrm).

(** bvorthog.c:91-132 BVOrthogonalizeCGS1 *)
Definition cgs1 (t : target) (wo wn : bool) (s : mem) (onrm nrm : option F) :
    res (mem * option F * option F) :=
  let n := (nc g + upto t)%N in
  do ' (s, beta) <-
    (if wo || wn then
       match t with
       | Column _ => let s := dots t n.+1 s in do b <- safe_sqrt (c_get s t n); Ok (s, Some b)
       | Vector _ => let s := dots t n s in do b <- norm_work t s; Ok (s, Some b)
       end
     else Ok (dots t n s, None));
  let s := if indef g then apply_signature t true s else s in
  let s := mult t s in
  let s := if indef g then apply_signature t false s else s in
  let onrm := if wo then beta else onrm in
  do nrm <-
    (if wn then
       if indef g then do b <- norm_work t s; Ok (Some b)
       else match beta with
            | Some b => let x := b * b - square_sum t s in
                        if x <= 0 then do b <- norm_work t s; Ok (Some b) else Ok (Some (sqrt x))
            | None => UB
            end
     else Ok nrm);
  Ok (add_coefficients t s, onrm, nrm).

(** bvorthog.c:134 (ops->gramschmidt, used by the tensor type only, is not modelled). *)
Definition gs1 (t : target) (which : option (nat -> bool)) (wo wn : bool) (s : mem) (onrm nrm : option F) :=
  if mgs g then mgs1 t which wo wn s onrm nrm else cgs1 t wo wn s onrm nrm.

(** Reading a variable. *)
Definition value (x : option F) : res F := match x with Some a => Ok a | None => UB end.

(** bvorthog.c:180-184; at most [n] more iterations. *)
Fixpoint refine_loop (n : nat) (t : target) (which : option (nat -> bool)) (s : mem) (onrm nrm : option F) :
    res (mem * option F * option F) :=
  do a <- value nrm;
  do b <- value onrm;
  if (a != 0) && (`|a| < eta g * `|b|) then
    match n with
    | 0 => Ok (s, onrm, nrm)
    | n'.+1 =>
        let onrm := if mgs g || indef g then nrm else onrm in
        do ' (s, onrm, nrm) <- gs1 t which (~~ (mgs g || indef g)) true s onrm nrm;
        refine_loop n' t which s onrm nrm
    end
  else Ok (s, onrm, nrm).

(** bvorthog.c:186, 201 *)
Definition dependent (onrm nrm : option F) : res bool :=
  do a <- value nrm;
  if a == 0 then Ok true else do b <- value onrm; Ok (~~ (eta g * `|b| <= `|a|)).

(** bvorthog.c:145-217 BVOrthogonalizeGS.  [wnorm], [wlin]: norm and lindep are not NULL; returned are
    the values stored there. *)
Definition gs (t : target) (which : option (nat -> bool)) (wnorm wlin : bool) (s : mem) :
    res (mem * option F * option bool) :=
  let dolindep := ~~ indef g && wlin in
  let signature := indef g && match t with Column _ => true | Vector _ => false end in
  let s := clean_coefficients t s in
  do ' (s, nrm, lin) <-
    match ref g with
    | IfNeeded =>
        do ' (s, onrm, nrm) <- gs1 t which true true s None None;
        do ' (s, onrm, nrm) <- refine_loop 2 t which s onrm nrm;
        do lin <- (if dolindep then do b <- dependent onrm nrm; Ok (Some b) else Ok None);
        Ok (s, nrm, lin)
    | Never =>
        do ' (s, onrm, nrm) <- gs1 t which false false s None None;
        do nrm <- (if wnorm || dolindep || signature then do b <- norm_work t s; Ok (Some b) else Ok nrm);
        do lin <- (if dolindep then do a <- value nrm; Ok (Some (a == 0)) else Ok None);
        Ok (s, nrm, lin)
    | Always =>
        do ' (s, onrm, nrm) <- gs1 t which false false s None None;
        do ' (s, onrm, nrm) <- gs1 t which dolindep (wnorm || dolindep || signature) s onrm nrm;
        do lin <- (if dolindep then do b <- dependent onrm nrm; Ok (Some b) else Ok None);
        Ok (s, nrm, lin)
    end;
  let lin := if indef g && wlin then Some false else lin in
  do s <- (if signature then
             do a <- value nrm; Ok (with_omega s (upd (omega s) (nc g + upto t) (if a < 0 then -1 else 1)))
           else Ok s);
  if wnorm then
    do a <- value nrm;
    let s := match t with
             | Column j => if dolindep && (if lin is Some true then true else false)
                           then h_set t (nc g + j) 0 s else h_set t (nc g + j) a s
             | Vector _ => s
             end in
    Ok (s, Some a, lin)
  else Ok (s, None, lin).

(** bvimpl.h:400-415 BV_StoreCoefficients: coefficients l..j-1 to the array of the caller. *)
Definition store_coefficients (t : target) (l : nat) (s : mem) (dest : nat -> F) : nat -> F :=
  foldl (fun d i => upd d (i - l) (h_get s t (nc g + i))) dest (iota l (upto t - l)).

(** What a call returns: the object afterwards, the arrays and values given to the caller. *)
Record outcome := Outcome { after : mem; coefs : option (nat -> F); onorm : option F; olindep : option bool }.

(** bvorthog.c:249-273 BVOrthogonalizeVec with l, k active columns. *)
Definition orthogonalize_vec (l k : nat) (H : option (nat -> F)) (wnorm wlin : bool) (s : mem) : res outcome :=
  do ' (s, a, b) <- gs (Vector k) None wnorm wlin s;
  Ok (Outcome s (omap (store_coefficients (Vector k) l s) H) a b).

(** bvorthog.c:314-339 BVOrthogonalizeColumn, 460-487 BVOrthogonalizeSomeColumn *)
Definition orthogonalize_column (l j : nat) (H : option (nat -> F)) (wnorm wlin : bool) (s : mem) : res outcome :=
  check (j < ncols g)%N
  (do ' (s, a, b) <- gs (Column j) None wnorm wlin s;
   Ok (Outcome s (omap (store_coefficients (Column j) l s) H) a b)).
Definition orthogonalize_some (l j : nat) (which : nat -> bool) (H : option (nat -> F)) (wnorm wlin : bool)
    (s : mem) : res outcome :=
  check (j < ncols g)%N (check (mgs g)
  (do ' (s, a, b) <- gs (Column j) (Some which) wnorm wlin s;
   Ok (Outcome s (omap (store_coefficients (Column j) l s) H) a b))).

(** BVScaleColumn *)
Definition scale_column (j : nat) (a : F) (s : mem) : mem :=
  with_col s (upd (col s) (nc g + j) (a *: col s (nc g + j))).

(** bvorthog.c:379-426 BVOrthonormalizeColumn; r1, r2 are the vectors that BVSetRandomColumn would
    give. *)
Definition flagged (a : F) (b : option bool) : bool := (a == 0) || (if b is Some true then true else false).
Definition orthonormalize_column (j : nat) (replace : bool) (r1 r2 : V) (s : mem) : res (mem * F * bool) :=
  check (j < ncols g)%N
  (do ' (s, a, b) <- gs (Column j) None true true s;
   do a <- value a;
   do ' (s, a, b) <-
     (if replace && flagged a b then
        do ' (s, a, b) <- gs (Column j) None true true (set_work s (Column j) r1);
        do a <- value a;
        if flagged a b then
          do ' (s, a, b) <- gs (Column j) None true true (set_work s (Column j) r2);
          do a <- value a; Ok (s, a, b)
        else Ok (s, a, b)
      else Ok (s, a, b));
   let s := if (a != 1) && (a != 0) then scale_column j (1 / a) s else s in
   Ok (s, a, if b is Some true then true else false)).

(** bvfunc.c:365-378, the loop of BVInsertVecs with orth; returns the new number of vectors. *)
Fixpoint insert_loop (st i ndep : nat) (ws : seq V) (s : mem) : res (mem * nat) :=
  match ws with
  | [::] => Ok (s, (i - ndep)%N)
  | w :: ws =>
      let j := (st + i - ndep)%N in
      let s := set_work s (Column j) w in
      do o <- orthogonalize_column 0 j None true true s;
      do a <- value (onorm o);
      if flagged a (olindep o) then insert_loop st i.+1 ndep.+1 ws (after o)
      else insert_loop st i.+1 ndep ws (scale_column j (1 / a) (after o))
  end.
(** bvfunc.c:338-381 BVInsertVecs with orth=PETSC_TRUE *)
Definition insert_vecs (st : nat) (ws : seq V) (s : mem) : res (mem * nat) :=
  if nilp ws then Ok (s, 0%N)
  else check (st < ncols g)%N (check (st + size ws <= ncols g)%N (insert_loop st 0 0 ws s)).

(** bvorthog.c:516-558 BVOrthogonalize_GS for columns l..k-1 ([n] of them left, next one [j]); the
    filling of the kept product bv->cached is not modelled (C22).  [R i j] is entry (i,j). *)
Fixpoint orthogonalize_gs (n j : nat) (s : mem) (R : option (nat -> nat -> F)) :
    res (mem * option (nat -> nat -> F)) :=
  match n with
  | 0 => Ok (s, R)
  | n'.+1 =>
      do o <- orthogonalize_column 0 j None true false s;
      do a <- value (onorm o);
      let s := after o in
      (* V->l = -V->nc with nc = 0: coefficients from row 0 *)
      let R := omap (fun r => let d := store_coefficients (Column j) 0 s (fun i => r i j) in
                              fun p q => if q == j then (if p == j then a else d p) else r p q) R in
      check (a != 0) (orthogonalize_gs n' j.+1 (scale_column j (1 / a) s) R)
  end.
(** bvorthog.c:773-814 BVOrthogonalize with BV_ORTHOG_BLOCK_GS; [l], [k]: leading and active columns. *)
Definition orthogonalize (l k : nat) (s : mem) (R : option (nat -> nat -> F)) :=
  check (nc g == 0)%N (orthogonalize_gs (k - l) l s R).

End Cfg.

(** bvfunc.c:418-446 BVInsertConstraints on a basis without constraints: the columns are replaced
    (BVResize without copy gives [s]), the constraints are inserted as first columns; afterwards the
    basis has that many constraints and the original number of columns. *)
Definition insert_constraints (g : config) (cs : seq V) (s : mem) : res (config * mem * nat) :=
  if nilp cs then Ok (g, s, 0%N)
  else check (nc g == 0)%N
  (do ' (s, n) <- insert_vecs (Config 0 (size cs + ncols g) (indef g) (mgs g) (ref g) (eta g) (deftol g)) 0 cs s;
   Ok (Config n (ncols g) (indef g) (mgs g) (ref g) (eta g) (deftol g), s, n)).

End GS.
