(** Model of math function objects (FN): objects in a heap, setters, duplication and scalar
    evaluation.  /repo/src/sys/classes/fn.  The scalar type and its operations are
    parameters, instantiated with the reals (FNRModel.v) or any field (FNMatModel.v). *)
From Coq Require Import List Bool Arith.
From Verif Require Import Prelude.
Import ListNotations.

(** include/slepcfn.h FNCombineType, FNParallelType. *)
Inductive comb := CAdd | CMul | CDiv | CCompose.
Inductive pmode := PRedundant | PSync.
(** Types without children and without coefficients; phi carries its index. *)
Inductive leaf := LExp | LLog | LSqrt | LInvsqrt | LPhi (k : nat).

(** slepcfn.h:20 FN_MAX_SOLVE, fnphi.c:25 MAX_INDEX. *)
Definition FN_MAX_SOLVE : nat := 16.
Definition MAX_INDEX : nat := 10.

Section FN.
Variable K : Type.

(** Scalar arithmetic, and evaluation of the leaf types and of their derivatives. *)
Record sops := {
  s_zero : K; s_one : K;
  s_add : K -> K -> K; s_sub : K -> K -> K; s_mul : K -> K -> K; s_div : K -> K -> K;
  s_eqb : K -> K -> bool;
  s_leaf : leaf -> K -> res K;
  s_dleaf : leaf -> K -> res K }.
Variable o : sops.

(** fnrational.c:16-21, fncombine.c:22-25 (a child may be NULL). *)
Inductive fntype :=
| TRational (p q : list K)
| TLeaf (l : leaf)
| TCombine (c : comb) (f1 f2 : option nat).

(** fnimpl.h:39-52; an object without type has [f_type = None]. *)
Record fnobj := { f_alpha : K; f_beta : K; f_meth : nat; f_pmode : pmode; f_type : option fntype }.

(** Live objects by identity; [h_next] is the next identity. *)
Record heap := { h_obj : nat -> option fnobj; h_next : nat }.
Definition empty_heap : heap := {| h_obj := fun _ => None; h_next := 0 |}.
Definition hset (h : heap) (i : nat) (ob : fnobj) : heap :=
  {| h_obj := fun j => if Nat.eqb j i then Some ob else h_obj h j; h_next := h_next h |}.

(** fnrational.c:30-35, 38-40: Horner loop; an absent list counts as 1. *)
Definition horner (cs : list K) (x : K) : K :=
  match cs with
  | [] => s_one o
  | c0 :: cs' => fold_left (fun p ci => s_add o ci (s_mul o x p)) cs' c0
  end.

(** fnrational.c:140-150, 153-158: value and derivative together. *)
Definition horner_d (cs : list K) (x : K) : K * K :=
  match cs with
  | [] => (s_one o, s_zero o)
  | c0 :: cs' => fold_left (fun '(p, pp) ci => (s_add o ci (s_mul o x p), s_add o p (s_mul o x pp)))
                           cs' (c0, s_zero o)
  end.

(** fnrational.c:23-45 FNEvaluateFunction_Rational. *)
Definition eval_rational (p q : list K) (x : K) : res K :=
  let pv := horner p x in
  match q with
  | [] => Ok pv
  | _ => let qv := horner q x in
         if s_eqb o qv (s_zero o) then Err else Ok (s_div o pv qv)
  end.

(** fnrational.c:133-163 FNEvaluateDerivative_Rational. *)
Definition deriv_rational (p q : list K) (x : K) : res K :=
  let '(pv, pp) := horner_d p x in
  match q with
  | [] => Ok pp
  | _ => let '(qv, qp) := horner_d q x in
         if s_eqb o qv (s_zero o) then Err
         else Ok (s_div o (s_sub o (s_mul o pp qv) (s_mul o pv qp)) (s_mul o qv qv))
  end.

(** Evaluation of a type at a point, given evaluation of objects
    (fncombine.c:27-53 FNEvaluateFunction_Combine and the leaf types). *)
Definition eval_type (ev : option nat -> K -> res K) (t : fntype) (x : K) : res K :=
  match t with
  | TRational p q => eval_rational p q x
  | TLeaf l => s_leaf o l x
  | TCombine c f1 f2 =>
      do a <- ev f1 x;
      match c with
      | CAdd => do b <- ev f2 x; Ok (s_add o a b)
      | CMul => do b <- ev f2 x; Ok (s_mul o a b)
      | CDiv => do b <- ev f2 x; if s_eqb o b (s_zero o) then Err else Ok (s_div o a b)
      | CCompose => ev f2 a
      end
  end.

(** fnbasic.c:471-485 FNEvaluateFunction: beta*f(alpha*x).  A NULL object is UB, an
    untyped one an error; the fuel bounds the depth of nesting (a cyclic object recurses
    for ever). *)
Fixpoint eval (fuel : nat) (h : heap) (f : option nat) (x : K) : res K :=
  match fuel with
  | O => Loop
  | S fuel' =>
      match f with
      | None => UB
      | Some i =>
          match h_obj h i with
          | None => UB
          | Some ob =>
              match f_type ob with
              | None => Err
              | Some t => do y <- eval_type (eval fuel' h) t (s_mul o (f_alpha ob) x);
                          Ok (s_mul o (f_beta ob) y)
              end
          end
      end
  end.

(** fncombine.c:55-90 FNEvaluateDerivative_Combine and the leaf types. *)
Definition deriv_type (ev dv : option nat -> K -> res K) (t : fntype) (x : K) : res K :=
  match t with
  | TRational p q => deriv_rational p q x
  | TLeaf l => s_dleaf o l x
  | TCombine c f1 f2 =>
      match c with
      | CAdd => do ap <- dv f1 x; do bp <- dv f2 x; Ok (s_add o ap bp)
      | CMul => do ap <- dv f1 x; do bp <- dv f2 x; do a <- ev f1 x; do b <- ev f2 x;
                Ok (s_add o (s_mul o ap b) (s_mul o a bp))
      | CDiv => do ap <- dv f1 x; do bp <- dv f2 x; do a <- ev f1 x; do b <- ev f2 x;
                if s_eqb o b (s_zero o) then Err
                else Ok (s_div o (s_sub o (s_mul o ap b) (s_mul o a bp)) (s_mul o b b))
      | CCompose => do a <- ev f1 x; do ap <- dv f1 x; do y <- dv f2 a; Ok (s_mul o y ap)
      end
  end.

(** fnbasic.c:507-521 FNEvaluateDerivative: alpha*beta*f'(alpha*x). *)
Fixpoint deriv (fuel : nat) (h : heap) (f : option nat) (x : K) : res K :=
  match fuel with
  | O => Loop
  | S fuel' =>
      match f with
      | None => UB
      | Some i =>
          match h_obj h i with
          | None => UB
          | Some ob =>
              match f_type ob with
              | None => Err
              | Some t => do y <- deriv_type (eval fuel' h) (deriv fuel' h) t (s_mul o (f_alpha ob) x);
                          Ok (s_mul o (s_mul o (f_alpha ob) (f_beta ob)) y)
              end
          end
      end
  end.

(** fnbasic.c:100-117 FNCreate. *)
Definition fn_create (h : heap) : heap * nat :=
  let i := h_next h in
  ({| h_obj := fun j => if Nat.eqb j i
                        then Some {| f_alpha := s_one o; f_beta := s_one o; f_meth := 0;
                                     f_pmode := PRedundant; f_type := None |}
                        else h_obj h j;
      h_next := S i |}, i).

(** fnbasic.c:217-238 FNSetType: no change when the type matches, otherwise the data of
    the new type is created with its defaults (fnrational.c:499-523, fnphi.c:272-279,
    fncombine.c:338-343). *)
Inductive typename := NRational | NExp | NLog | NSqrt | NInvsqrt | NPhi | NCombine.
Definition type_name (t : fntype) : typename :=
  match t with
  | TRational _ _ => NRational
  | TLeaf LExp => NExp | TLeaf LLog => NLog | TLeaf LSqrt => NSqrt | TLeaf LInvsqrt => NInvsqrt
  | TLeaf (LPhi _) => NPhi
  | TCombine _ _ _ => NCombine
  end.
Definition typename_eqb (a b : typename) : bool :=
  match a, b with
  | NRational, NRational | NExp, NExp | NLog, NLog | NSqrt, NSqrt | NInvsqrt, NInvsqrt
  | NPhi, NPhi | NCombine, NCombine => true
  | _, _ => false
  end.
Definition new_type (n : typename) : fntype :=
  match n with
  | NRational => TRational [] []
  | NExp => TLeaf LExp | NLog => TLeaf LLog | NSqrt => TLeaf LSqrt | NInvsqrt => TLeaf LInvsqrt
  | NPhi => TLeaf (LPhi 1)
  | NCombine => TCombine CAdd None None
  end.

Definition with_type (ob : fnobj) (t : option fntype) : fnobj :=
  {| f_alpha := f_alpha ob; f_beta := f_beta ob; f_meth := f_meth ob; f_pmode := f_pmode ob; f_type := t |}.

Definition set_type (ob : fnobj) (n : typename) : fnobj :=
  match f_type ob with
  | Some t => if typename_eqb (type_name t) n then ob else with_type ob (Some (new_type n))
  | None => with_type ob (Some (new_type n))
  end.

(** fnbasic.c:292-302 FNSetScale. *)
Definition set_scale (ob : fnobj) (a b : K) : res fnobj :=
  check (negb (s_eqb o a (s_zero o)) && negb (s_eqb o b (s_zero o)))
    (Ok {| f_alpha := a; f_beta := b; f_meth := f_meth ob; f_pmode := f_pmode ob; f_type := f_type ob |}).

(** fnbasic.c:353-362 FNSetMethod (a negative number is an error). *)
Definition set_method (ob : fnobj) (m : nat) : res fnobj :=
  check (Nat.leb m FN_MAX_SOLVE)
    (Ok {| f_alpha := f_alpha ob; f_beta := f_beta ob; f_meth := m; f_pmode := f_pmode ob; f_type := f_type ob |}).

(** fnbasic.c:418-425 FNSetParallel. *)
Definition set_parallel (ob : fnobj) (p : pmode) : fnobj :=
  {| f_alpha := f_alpha ob; f_beta := f_beta ob; f_meth := f_meth ob; f_pmode := p; f_type := f_type ob |}.

(** Setters of the types: on another type they do nothing (PetscTryMethod).
    fnrational.c:230-244, 327-341; fnphi.c:109-122; fncombine.c:218-231. *)
Definition set_numerator (ob : fnobj) (cs : list K) : fnobj :=
  match f_type ob with Some (TRational p q) => with_type ob (Some (TRational cs q)) | _ => ob end.
Definition set_denominator (ob : fnobj) (cs : list K) : fnobj :=
  match f_type ob with Some (TRational p q) => with_type ob (Some (TRational p cs)) | _ => ob end.
Definition set_phi_index (ob : fnobj) (k : nat) : res fnobj :=
  match f_type ob with
  | Some (TLeaf (LPhi _)) => check (Nat.leb k MAX_INDEX) (Ok (with_type ob (Some (TLeaf (LPhi k)))))
  | _ => Ok ob
  end.
Definition set_children (ob : fnobj) (c : comb) (f1 f2 : nat) : fnobj :=
  match f_type ob with Some (TCombine _ _ _) => with_type ob (Some (TCombine c (Some f1) (Some f2))) | _ => ob end.

(** Calls of a user program.  Children must be live objects (PetscValidHeaderSpecific). *)
Inductive op :=
| OCreate
| OSetType (f : nat) (n : typename)
| OSetScale (f : nat) (a b : K)
| OSetMethod (f : nat) (m : nat)
| OSetParallel (f : nat) (p : pmode)
| OSetNumerator (f : nat) (cs : list K)
| OSetDenominator (f : nat) (cs : list K)
| OSetPhiIndex (f : nat) (k : nat)
| OSetChildren (f : nat) (c : comb) (f1 f2 : nat).

Definition on_obj (h : heap) (f : nat) (k : fnobj -> res fnobj) : res heap :=
  match h_obj h f with
  | None => UB
  | Some ob => do ob' <- k ob; Ok (hset h f ob')
  end.
Definition live (h : heap) (f : nat) : bool :=
  match h_obj h f with Some _ => true | None => false end.

Definition step (h : heap) (c : op) : res heap :=
  match c with
  | OCreate => Ok (fst (fn_create h))
  | OSetType f n => on_obj h f (fun ob => Ok (set_type ob n))
  | OSetScale f a b => on_obj h f (fun ob => set_scale ob a b)
  | OSetMethod f m => on_obj h f (fun ob => set_method ob m)
  | OSetParallel f p => on_obj h f (fun ob => Ok (set_parallel ob p))
  | OSetNumerator f cs => on_obj h f (fun ob => Ok (set_numerator ob cs))
  | OSetDenominator f cs => on_obj h f (fun ob => Ok (set_denominator ob cs))
  | OSetPhiIndex f k => on_obj h f (fun ob => set_phi_index ob k)
  | OSetChildren f c f1 f2 =>
      if live h f1 && live h f2 then on_obj h f (fun ob => Ok (set_children ob c f1 f2)) else UB
  end.

Fixpoint steps (h : heap) (cs : list op) : res heap :=
  match cs with [] => Ok h | c :: cs' => do h' <- step h c; steps h' cs' end.

(** fnbasic.c:1000-1022 FNDuplicate with fnrational.c:448-465, fnphi.c:232-239 and
    fncombine.c:303-312.  The types without a duplicate method have no data. *)
Fixpoint duplicate (fuel : nat) (h : heap) (f : option nat) : res (heap * nat) :=
  match fuel with
  | O => Loop
  | S fuel' =>
      match f with
      | None => UB
      | Some i =>
          match h_obj h i with
          | None => UB
          | Some ob =>
              match f_type ob with
              | None => Err
              | Some t =>
                  let '(h1, g) := fn_create h in
                  do h2 <- on_obj h1 g (fun ob' => Ok (set_type ob' (type_name t)));
                  do h3 <- on_obj h2 g (fun ob' => set_scale ob' (f_alpha ob) (f_beta ob));
                  do h4 <- on_obj h3 g (fun ob' => set_method ob' (f_meth ob));
                  do h5 <- on_obj h4 g (fun ob' => Ok (set_parallel ob' (f_pmode ob)));
                  match t with
                  | TRational p q =>
                      do h6 <- on_obj h5 g (fun ob' => Ok (with_type ob' (Some (TRational p q))));
                      Ok (h6, g)
                  | TLeaf (LPhi k) =>
                      do h6 <- on_obj h5 g (fun ob' => Ok (with_type ob' (Some (TLeaf (LPhi k)))));
                      Ok (h6, g)
                  | TLeaf _ => Ok (h5, g)
                  | TCombine c f1 f2 =>
                      do h6 <- on_obj h5 g (fun ob' => Ok (with_type ob' (Some (TCombine c None None))));
                      do ' (h7, g1) <- duplicate fuel' h6 f1;
                      do h8 <- on_obj h7 g (fun ob' => Ok (with_type ob' (Some (TCombine c (Some g1) None))));
                      do ' (h9, g2) <- duplicate fuel' h8 f2;
                      do h10 <- on_obj h9 g (fun ob' => Ok (with_type ob' (Some (TCombine c (Some g1) (Some g2)))));
                      Ok (h10, g)
                  end
              end
          end
      end
  end.
End FN.
Arguments TRational {K}. Arguments TLeaf {K}. Arguments TCombine {K}.
