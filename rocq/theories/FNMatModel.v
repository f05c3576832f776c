(** Matrix functions of function objects: FNEvaluateFunctionMat and FNEvaluateFunctionMatVec.
    /repo/src/sys/classes/fn/interface/fnbasic.c, impls/rational/fnrational.c,
    impls/combine/fncombine.c.  Scalars form a field; dense matrices live at numbered
    locations, so that in-place evaluation (A==B) and work matrices are explicit. *)
From mathcomp Require Import all_ssreflect all_algebra.
From Verif Require Import Prelude FNModel.
Set Implicit Arguments. Unset Strict Implicit. Unset Printing Implicit Defensive.
Import GRing.Theory.
Local Open Scope ring_scope.

Section FNMat.
Variable K : fieldType.
Variable n' : nat.
Notation n := n'.+1.
Notation mat := ('M[K]_n).

(** Scalar evaluation and derivative of the leaf types (exp, log, ...). *)
Variable slf sdlf : leaf -> K -> res K.
(** Table ops->evaluatefunctionmat[] of the leaf types: the dense algorithms (Pade, Schur,
    Newton...) are not modelled; [None] is a NULL entry.  They handle A==B and only
    write the destination. *)
Variable leafmat : leaf -> nat -> option (mat -> res mat).
(** Table ops->evaluatefunctionmatvec[] of the leaf types. *)
Variable leafvec : leaf -> nat -> option (mat -> res 'cV[K]_n).
(** Complex conjugation. *)
Variable conj : K -> K.
(** LAPACK syev with "V","L": eigenvectors and eigenvalues, read from the lower triangle. *)
Variable syev : mat -> res (mat * 'rV[K]_n).

Definition fops : sops K :=
  {| s_zero := 0; s_one := 1; s_add := fun a b => a + b; s_sub := fun a b => a - b;
     s_mul := fun a b => a * b; s_div := fun a b => a / b; s_eqb := fun a b => a == b;
     s_leaf := slf; s_dleaf := sdlf |}.

Definition mem := nat -> mat.
Definition mset (m : mem) (l : nat) (X : mat) : mem := fun j => if j == l then X else m j.

(** fnrational.c:51-67 EvaluatePoly; [w] is the workspace. *)
Definition eval_poly (a p w : nat) (cs : seq K) (m : mem) : mem :=
  let m := mset m p 0 in
  match cs with
  | [::] => mset m p (m p + 1%:M)
  | c0 :: cs' =>
      foldl (fun m cj => let m := mset m w (m p *m m a) in
                         let m := mset m p (m w) in
                         mset m p (m p + cj%:M))
            (mset m p (m p + c0%:M)) cs'
  end.

(** MatLUFactor and MatMatSolve(F,P,P): a singular matrix is an error. *)
Definition lu_solve (q p : nat) (m : mem) : res mem :=
  check (m q \in unitmx) (Ok (mset m p (invmx (m q) *m m p))).

(** fnrational.c:69-99 FNEvaluateFunctionMat_Rational; the matrices P, W, Q created with
    MatDuplicate are at fresh, fresh+1, fresh+2. *)
Definition rational_mat (ps qs : seq K) (a b fresh : nat) (m : mem) : res mem :=
  let p := if a == b then fresh else b in
  let w := fresh.+1 in
  let q := fresh.+2 in
  let m := eval_poly a p w ps m in
  do m <- (match qs with
           | [::] => Ok m
           | _ => let m := eval_poly a q w qs m in lu_solve q p m
           end);
  Ok (if a == b then mset m b (m p) else m).

(** fnrational.c:101-131 FNEvaluateFunctionMatVec_Rational. *)
Definition rational_vec (ps qs : seq K) (a fresh : nat) (m : mem) : res (mem * 'cV[K]_n) :=
  let p := fresh in
  let w := fresh.+1 in
  let q := fresh.+2 in
  let m := eval_poly a p w ps m in
  match qs with
  | [::] => Ok (m, col 0 (m p))
  | _ => let m := eval_poly a q w qs m in
         check (m q \in unitmx) (Ok (m, invmx (m q) *m col 0 (m p)))
  end.

(** fncombine.c:92-130 FNEvaluateFunctionMat_Combine, given the evaluation of children
    without synchronization.  FN_AllocateWorkMat (fnimpl.h:59-82) copies A into the new
    matrix, which is taken at a location not in use. *)
Definition combine_mat (ev : option nat -> nat -> nat -> nat -> mem -> res mem)
    (c : comb) (f1 f2 : option nat) (a b fresh : nat) (m : mem) : res mem :=
  let w := fresh in
  let m := mset m w (m a) in
  match c with
  | CAdd =>
      do m <- ev f1 a w fresh.+1 m;
      do m <- ev f2 a b fresh.+1 m;
      Ok (mset m b (m b + m w))
  | CMul =>
      let z := fresh.+1 in
      let m := mset m z (m a) in
      do m <- ev f1 a w fresh.+2 m;
      do m <- ev f2 a z fresh.+2 m;
      Ok (mset m b (m w *m m z))
  | CDiv =>
      do m <- ev f2 a w fresh.+1 m;
      do m <- ev f1 a b fresh.+1 m;
      lu_solve w b m
  | CCompose =>
      do m <- ev f1 a w fresh.+1 m;
      ev f2 w b fresh.+1 m
  end.

(** fncombine.c:132-179 FNEvaluateFunctionMatVec_Combine; [v] is the content of the
    destination vector, [w] of its duplicate (zero). *)
Definition combine_vec (ev : option nat -> nat -> nat -> nat -> mem -> res mem)
    (evv : option nat -> nat -> nat -> mem -> 'cV[K]_n -> res (mem * 'cV[K]_n))
    (c : comb) (f1 f2 : option nat) (a fresh : nat) (m : mem) (v : 'cV[K]_n) : res (mem * 'cV[K]_n) :=
  let z := fresh in
  match c with
  | CAdd =>
      do ' (m, w) <- evv f1 a fresh m 0;
      do ' (m, v) <- evv f2 a fresh m v;
      Ok (m, v + w)
  | CMul =>
      let m := mset m z (m a) in
      do m <- ev f1 a z fresh.+1 m;
      do ' (m, w) <- evv f2 a fresh.+1 m 0;
      Ok (m, m z *m w)
  | CDiv =>
      let m := mset m z (m a) in
      do m <- ev f2 a z fresh.+1 m;
      do ' (m, w) <- evv f1 a fresh.+1 m 0;
      check (m z \in unitmx) (Ok (m, invmx (m z) *m w))
  | CCompose =>
      let m := mset m z (m a) in
      do m <- ev f1 a z fresh.+1 m;
      evv f2 z fresh.+1 m v
  end.

(** fnbasic.c:596-610 FNEvaluateFunctionMat_Basic (no CUDA).  Entries beyond the table are
    UB; the rational and combine types only provide method 0. *)
Definition basic_mat (ev : option nat -> nat -> nat -> nat -> mem -> res mem)
    (meth : nat) (t : fntype K) (a b fresh : nat) (m : mem) : res mem :=
  if (FN_MAX_SOLVE <= meth)%N then UB else
  match t with
  | TRational ps qs => check (meth == 0)%N (rational_mat ps qs a b fresh m)
  | TLeaf l => match leafmat l meth with
               | None => Err
               | Some g => do F <- g (m a); Ok (mset m b F)
               end
  | TCombine c f1 f2 => check (meth == 0)%N (combine_mat ev c f1 f2 a b fresh m)
  end.

(** fnbasic.c:791-793 with 729-739: the specific method for the first column, or the first
    column of the whole matrix function. *)
Definition basic_vec (ev : option nat -> nat -> nat -> nat -> mem -> res mem)
    (evv : option nat -> nat -> nat -> mem -> 'cV[K]_n -> res (mem * 'cV[K]_n))
    (meth : nat) (t : fntype K) (a fresh : nat) (m : mem) (v : 'cV[K]_n) : res (mem * 'cV[K]_n) :=
  let default :=
    let m := mset m fresh (m a) in
    do m <- basic_mat ev meth t a fresh fresh.+1 m;
    Ok (m, col 0 (m fresh)) in
  if (FN_MAX_SOLVE <= meth)%N then UB else
  match t with
  | TRational ps qs => if meth == 0%N then rational_vec ps qs a fresh m else default
  | TLeaf l => match leafvec l meth with
               | Some g => do v <- g (m a); Ok (m, v)
               | None => default
               end
  | TCombine c f1 f2 => if meth == 0%N then combine_vec ev evv c f1 f2 a fresh m v else default
  end.

(** Evaluation at each entry of a row of values, in order. *)
Fixpoint mapm (f : K -> res K) (xs : seq K) : res (seq K) :=
  match xs with
  | [::] => Ok [::]
  | x :: xs' => do y <- f x; do ys <- mapm f xs'; Ok (y :: ys)
  end.

Definition tril (A : mat) : mat := \matrix_(i, j) (if (j <= i)%N then A i j else 0).

(** fnbasic.c:551-565 FNEvaluateFunctionMat_Sym_Private; [ev] is the scalar evaluation of the
    type (ops->evaluatefunction).  W has the columns selected by [firstonly]. *)
Definition sym_w (ev : K -> res K) (alpha beta : K) (Q : mat) (eig : 'rV[K]_n) : res mat :=
  do ys <- mapm ev [seq alpha * eig 0 i | i <- enum 'I_n];
  Ok (\matrix_(i, j) (conj (Q j i) * beta * nth 0 ys i)).

Definition sym_mat (ev : K -> res K) (alpha beta : K) (A : mat) : res mat :=
  do ' (Q, eig) <- syev (tril A);
  do W <- sym_w ev alpha beta Q eig;
  Ok (Q *m W).
Definition sym_vec (ev : K -> res K) (alpha beta : K) (A : mat) : res 'cV[K]_n :=
  do ' (Q, eig) <- syev (tril A);
  do W <- sym_w ev alpha beta Q eig;
  Ok (Q *m col 0 W).

(** fnbasic.c:630 which ranks take part. *)
Definition active (size rank : nat) (p : pmode) : bool :=
  (size == 1)%N || match p with PRedundant => true | PSync => (rank == 0)%N end.

(** fnbasic.c:612-658 FNEvaluateFunctionMat_Private with sync=PETSC_FALSE.  [herm] is the
    answer of MatIsHermitianKnown(A); work matrices, being duplicates of A, give the same
    answer.  [fresh] and above are the locations not in use. *)
Fixpoint mat_priv (fuel : nat) (h : heap K) (size rank : nat) (herm : bool) (f : option nat)
    (a b fresh : nat) (m : mem) : res mem :=
  match fuel with
  | O => Loop
  | S fuel' =>
      match f with
      | None => UB
      | Some i =>
          match h_obj K h i with
          | None => UB
          | Some ob =>
              if ~~ active size rank (f_pmode K ob) then Ok m else
              if (FN_MAX_SOLVE <= f_meth K ob)%N then UB else
              match f_type K ob with
              | None => Err
              | Some t =>
                  if herm && (f_meth K ob == 0)%N then
                    do F <- sym_mat (eval_type K fops (eval K fops fuel' h) t)
                              (f_alpha K ob) (f_beta K ob) (m a);
                    Ok (mset m b F)
                  else
                    let ev := mat_priv fuel' h size rank herm in
                    do m <- (if f_alpha K ob != 1
                             then let m := mset m fresh (f_alpha K ob *: m a) in
                                  basic_mat ev (f_meth K ob) t fresh b fresh.+1 m
                             else basic_mat ev (f_meth K ob) t a b fresh m);
                    Ok (mset m b (f_beta K ob *: m b))
              end
          end
      end
  end.

(** fnbasic.c:762-810 FNEvaluateFunctionMatVec_Private with sync=PETSC_FALSE. *)
Fixpoint vec_priv (fuel : nat) (h : heap K) (size rank : nat) (herm : bool) (f : option nat)
    (a fresh : nat) (m : mem) (v : 'cV[K]_n) : res (mem * 'cV[K]_n) :=
  match fuel with
  | O => Loop
  | S fuel' =>
      match f with
      | None => UB
      | Some i =>
          match h_obj K h i with
          | None => UB
          | Some ob =>
              if ~~ active size rank (f_pmode K ob) then Ok (m, v) else
              if (FN_MAX_SOLVE <= f_meth K ob)%N then UB else
              match f_type K ob with
              | None => Err
              | Some t =>
                  if herm && (f_meth K ob == 0)%N then
                    do v <- sym_vec (eval_type K fops (eval K fops fuel' h) t)
                              (f_alpha K ob) (f_beta K ob) (m a);
                    Ok (m, v)
                  else
                    let ev := mat_priv fuel' h size rank herm in
                    let evv := vec_priv fuel' h size rank herm in
                    do ' (m, v) <- (if f_alpha K ob != 1
                             then let m := mset m fresh (f_alpha K ob *: m a) in
                                  basic_vec ev evv (f_meth K ob) t fresh fresh.+1 m v
                             else basic_vec ev evv (f_meth K ob) t a fresh m v);
                    Ok (m, f_beta K ob *: v)
              end
          end
      end
  end.

(** fnbasic.c:691-723 FNEvaluateFunctionMat (A and B dense, square and of the same size), on
    [size] processes with memories [ms]; [b = None] is B=NULL.  fnbasic.c:650-656: with
    synchronization the destination of process 0 is broadcast.  Locations from [fresh] on
    are not in use. *)
Definition root_mode (h : heap K) (i : nat) : pmode :=
  match h_obj K h i with Some ob => f_pmode K ob | None => PRedundant end.
Definition is_sync (p : pmode) : bool := match p with PSync => true | PRedundant => false end.

Definition evaluate_mat (fuel : nat) (h : heap K) (size : nat) (herm : bool) (i : nat)
    (a : nat) (b : option nat) (fresh : nat) (ms : nat -> mem) (rank : nat) : res mem :=
  match h_obj K h i with
  | None => UB
  | Some ob =>
      match f_type K ob with
      | None => Err
      | Some _ =>
          let d := odflt a b in
          do m <- mat_priv fuel h size rank herm (Some i) a d fresh (ms rank);
          if (1 < size)%N && is_sync (f_pmode K ob) then
            do m0 <- mat_priv fuel h size 0 herm (Some i) a d fresh (ms 0%N);
            Ok (mset m d (m0 d))
          else Ok m
      end
  end.

(** fnbasic.c:832-856 FNEvaluateFunctionMatVec, likewise. *)
Definition evaluate_vec (fuel : nat) (h : heap K) (size : nat) (herm : bool) (i : nat)
    (a fresh : nat) (ms : nat -> mem) (vs : nat -> 'cV[K]_n) (rank : nat) : res (mem * 'cV[K]_n) :=
  match h_obj K h i with
  | None => UB
  | Some ob =>
      match f_type K ob with
      | None => Err
      | Some _ =>
          do ' (m, v) <- vec_priv fuel h size rank herm (Some i) a fresh (ms rank) (vs rank);
          if (1 < size)%N && is_sync (f_pmode K ob) then
            do ' (m0, v0) <- vec_priv fuel h size 0 herm (Some i) a fresh (ms 0%N) (vs 0%N);
            Ok (m, v0)
          else Ok (m, v)
      end
  end.
End FNMat.
