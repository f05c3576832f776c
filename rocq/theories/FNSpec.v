(** Notions used in the statements about matrix functions. *)
From mathcomp Require Import all_ssreflect all_algebra.
From Verif Require Import Prelude FNModel.
Set Implicit Arguments. Unset Strict Implicit. Unset Printing Implicit Defensive.
Import GRing.Theory.
Local Open Scope ring_scope.

Section Spec.
Variable K : fieldType.

(** The polynomial given by a list of coefficients, highest degree first; an absent list
    stands for the constant 1. *)
Definition upoly (cs : seq K) : {poly K} := if cs is [::] then 1 else Poly (rev cs).

(** x is an eigenvalue of A with eigenvector v (possibly zero). *)
Definition eigenpair n (A : 'M[K]_n) (x : K) (v : 'cV[K]_n) : Prop := A *m v = x *: v.

(** Conjugate transpose. *)
Definition adj (conj : K -> K) n (A : 'M[K]_n) : 'M[K]_n := map_mx conj A^T.

(** A predicate on the objects of a tree, to a given depth. *)
Fixpoint tree_all (P : fnobj K -> Prop) (d : nat) (h : heap K) (f : option nat) : Prop :=
  match d with
  | O => True
  | S d' =>
      match f with
      | None => True
      | Some i =>
          match h_obj K h i with
          | None => True
          | Some ob => P ob /\ match f_type K ob with
                               | Some (TCombine _ f1 f2) => tree_all P d' h f1 /\ tree_all P d' h f2
                               | _ => True
                               end
          end
      end
  end.

(** Not one of exp, log, sqrt, invsqrt, phi. *)
Definition no_leaf (ob : fnobj K) : Prop := match f_type K ob with Some (TLeaf _) => False | _ => True end.

End Spec.
