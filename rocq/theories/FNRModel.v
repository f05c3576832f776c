(** Function objects over the reals (real scalars, exact arithmetic): the scalar operations
    and the leaf functions of /repo/src/sys/classes/fn/impls. *)
From Coq Require Import List Bool Arith Reals Rpower.
From Verif Require Import Prelude RealBool FNModel.
Import ListNotations.
Open Scope R_scope.

(** fnphi.c:27 rfactorial[MAX_INDEX+2]; reading outside of it is UB. *)
Definition rfactorial : list R :=
  [1; 1; / 2; / 6; / 24; / 120; / 720; / 5040; / 40320; / 362880; / 3628800; / 39916800].
Definition rfact (i : nat) : res R :=
  match nth_error rfactorial i with Some v => Ok v | None => UB end.

(** fnphi.c:38-39, 54-55: entry i of the local array phi. *)
Fixpoint phi_entry (x : R) (i : nat) : res R :=
  match i with
  | O => Ok (exp x)
  | S j => do p <- phi_entry x j; do r <- rfact j; Ok ((p - r) / x)
  end.

(** fnphi.c:29-43; the local array has MAX_INDEX+1 entries. *)
Definition eval_phi (k : nat) (x : R) : res R :=
  if Reqb x 0 then rfact k
  else if Nat.leb k MAX_INDEX then phi_entry x k else UB.

(** fnphi.c:45-59; the local array has MAX_INDEX+2 entries. *)
Definition deriv_phi (k : nat) (x : R) : res R :=
  if Reqb x 0 then rfact (k + 1)
  else if Nat.leb (k + 1) (MAX_INDEX + 1)
       then do a <- phi_entry x k; do b <- phi_entry x (k + 1); Ok (a - b * INR k)
       else UB.

(** fnexp.c:17-22, fnlog.c:17-25 (the logarithm of zero passes the check and is minus
    infinity, which is outside of the model), fnsqrt.c:17-25, fninvsqrt.c:17-26. *)
Definition eval_leaf (l : leaf) (x : R) : res R :=
  match l with
  | LExp => Ok (exp x)
  | LLog => check (Rleb 0 x) (if Reqb x 0 then UB else Ok (ln x))
  | LSqrt => check (Rleb 0 x) (Ok (sqrt x))
  | LInvsqrt => check (negb (Reqb x 0)) (check (Rltb 0 x) (Ok (1 / sqrt x)))
  | LPhi k => eval_phi k x
  end.

(** fnexp.c:24-29, fnlog.c:27-36, fnsqrt.c:27-36, fninvsqrt.c:28-37. *)
Definition deriv_leaf (l : leaf) (x : R) : res R :=
  match l with
  | LExp => Ok (exp x)
  | LLog => check (negb (Reqb x 0)) (check (Rltb 0 x) (Ok (1 / x)))
  | LSqrt => check (negb (Reqb x 0)) (check (Rltb 0 x) (Ok (1 / (2 * sqrt x))))
  | LInvsqrt => check (negb (Reqb x 0)) (check (Rltb 0 x) (Ok (- 1 / (2 * Rpower x (3 / 2)))))
  | LPhi k => deriv_phi k x
  end.

Definition rops : sops R :=
  {| s_zero := 0; s_one := 1; s_add := Rplus; s_sub := Rminus; s_mul := Rmult; s_div := Rdiv;
     s_eqb := Reqb; s_leaf := eval_leaf; s_dleaf := deriv_leaf |}.
