(** Histories in which the kept products cannot be out of date.  The bookkeeping only says which
    vector was used in the latest product, whether that vector was modified since through its own
    interface, and whether the matrix or the storage changed since in some other way. *)
From Coq Require Import ZArith List Bool.
From Verif Require Import Prelude BVCacheModel.
Import ListNotations.

Section Spec.
Variable T : Type.
Variable M : Type.
Variable act : M -> T -> T.
Notation sys := (sys T M).
Notation op := (op T M).

(** The right answers. *)
Definition product (s : sys) (v : T) : T :=
  match matrix T M s with Some b => act (mats T M s b) v | None => v end.

(** The vector of the latest product, if it has not been modified since; and whether something
    else the product depends on has changed since. *)
Record latest := Latest { who : vid; outdated : bool }.
(** The latest product with all active columns: none since the last change of the basis that it
    noticed, up to date, or out of date. *)
Inductive whole := NotDone | UpToDate | OutOfDate.
Record book := Book { vec : option latest; bas : whole }.

Definition modified (x : vid) (b : book) : book :=
  match vec b with
  | Some q => if vid_eqb (who q) x then Book None (bas b) else b
  | None => b
  end.
Definition outdate (P : vid -> bool) (b : book) : book :=
  match vec b with
  | Some q => if P (who q) then Book (Some (Latest (who q) true)) (bas b) else b
  | None => b
  end.
Definition noticed (b : book) : book := Book (vec b) NotDone.
Definition unnoticed (b : book) : book :=
  Book (vec b) (match bas b with UpToDate => OutOfDate | x => x end).
Definition same_matrix (s : sys) (b : option nat) (ind : bool) : bool :=
  match b, matrix T M s with
  | Some x, Some y => Nat.eqb x y
  | None, None => true
  | _, _ => false
  end && Bool.eqb ind (indef T M s).

Definition used (s : sys) (x : vid) (b : book) : book :=
  match matrix T M s with Some _ => Book (Some (Latest x false)) (bas b) | None => b end.

Definition note (k : kind) (s : sys) (c : op) (b : book) : book :=
  match c with
  | VecWrite _ _ n _ => modified (Ext n) b
  | SetMatrix _ _ m ind => if same_matrix s m ind then b else noticed (outdate (fun _ => true) b)
  | MatWrite _ _ m _ =>
      match matrix T M s with
      | Some y => if Nat.eqb m y then unnoticed (outdate (fun _ => true) b) else b
      | None => b
      end
  | Apply _ _ n => used s (Ext n) b
  | ApplyColumn _ _ j => match k with
                         | Svec => match matrix T M s with Some _ => Book None (bas b) | None => b end
                         | _ => used s (Col j) b
                         end
  | WriteColumn _ _ j _ => noticed (modified (Col j) b)
  | DirectColumn _ _ j _ =>
      noticed match k with
              | Vecs => modified (Col j) b
              | Contiguous => outdate (vid_eqb (Col j)) b
              | Svec => b
              end
  | ViewColumn _ _ j _ =>
      unnoticed match k with
                | Vecs => modified (Col j) b
                | Contiguous => outdate (vid_eqb (Col j)) b
                | Svec => b
                end
  | SetActive _ _ _ _ => b
  | ApplyBV _ _ => Book (vec b) UpToDate
  end.

(** Calls whose answer cannot be out of date. *)
Definition current (x : vid) (b : book) : Prop :=
  match vec b with Some q => vid_eqb (who q) x && outdated q = false | None => True end.
Definition safe (k : kind) (s : sys) (b : book) (c : op) : Prop :=
  match c with
  | Apply _ _ n => matrix T M s = None \/ current (Ext n) b
  | ApplyColumn _ _ j => matrix T M s = None \/ k = Svec \/ current (Col j) b
  | ApplyBV _ _ => bas b <> OutOfDate
  | _ => True
  end.

(** What a call must return. *)
Definition right (s : sys) (c : op) : out T :=
  match c with
  | Apply _ _ n => Product T (Some (product s (ext T M s n)))
  | ApplyColumn _ _ j => Product T (Some (product s (cols T M s j)))
  | ApplyBV _ _ => Products T (map (fun j => product s (cols T M s j)) (seq (al T M s) (ak T M s - al T M s)))
  | _ => Done T
  end.

(** Calls that neither replace nor modify the matrix, and modify columns in a way that their Vecs
    notice. *)
Definition plain (k : kind) (c : op) : Prop :=
  match c with
  | SetMatrix _ _ _ _ | MatWrite _ _ _ _ | ViewColumn _ _ _ _ => False
  | DirectColumn _ _ _ _ => k <> Contiguous
  | _ => True
  end.
Fixpoint states (k : kind) (s : sys) (cs : list op) : sys :=
  match cs with [] => s | c :: r => states k (fst (step T M act k s c)) r end.

Variable zero : T.
Inductive history (k : kind) : sys -> book -> Prop :=
| h_new e ms m : history k (start T zero M e ms m) (Book None UpToDate)
| h_call s b c : history k s b -> safe k s b c -> history k (fst (step T M act k s c)) (note k s c b).

End Spec.
