(** Dimensions: defaults at setup of SVD, PEP, NEP objects, and DSSetDimensions. *)
From mathcomp Require Import all_ssreflect all_algebra.
From Verif Require Import Prelude.
Set Implicit Arguments. Unset Strict Implicit. Unset Printing Implicit Defensive.

(** PetscMin(ncv,dim); PETSC_DETERMINE (None) is negative and therefore kept *)
Definition cap (dim : nat) (ncv : option nat) : option nat := omap (minn dim) ncv.

(** svdsetup.c:353-356 and SVDSetDimensions_Default, svdsetup.c:474-499; maxnsol: smallest dimension; thres: svd->stop is
    SVD_STOP_THRESHOLD.  Returned nsv, ncv, mpd. *)
Definition svd_setup (thres : bool) (maxnsol nsv : nat) (ncv mpd : option nat) : res (nat * nat * nat) :=
  let ncv := cap maxnsol ncv in
  let nsv := minn nsv maxnsol in
  check (if ncv is Some c then nsv <= c else true)
  (let nsv := if (nsv == 0) && ~~ thres then 1 else nsv in
   let finish c m := Ok (nsv, c, if m is Some m then m else c) in
   match ncv with
   | Some c => check (nsv <= c) (finish c mpd)
   | None =>
     match mpd with
     | Some m => finish (minn maxnsol (nsv + m)) mpd
     | None => if nsv < 500 then finish (minn maxnsol (maxn (2 * nsv) 10)) None
               else finish (minn maxnsol (nsv + 500)) (Some 500)
     end
   end).
(** pepsetup.c:121-122 and PEPSetDimensions_Default, pepsetup.c:417-442; dim = (nmat-1)*n *)
Definition pep_setup (krylov : bool) (dim nev : nat) (ncv mpd : option nat) : res (nat * nat * nat) :=
  let ncv := cap dim ncv in
  let nev := minn nev dim in
  let finish c m := Ok (nev, c, if m is Some m then m else c) in
  match ncv with
  | Some c => check (if krylov then (nev < c) || ((c == nev) && (c == dim)) else nev <= c) (finish c mpd)
  | None =>
    match mpd with
    | Some m => finish (minn dim (nev + m)) mpd
    | None => if nev < 500 then finish (minn dim (maxn (2 * nev) (nev + 15))) None
              else finish (minn dim (nev + 500)) (Some 500)
    end
  end.
(** NEPSetDimensions_Default, nepsetup.c:264-281 *)
Definition nep_setup (n nev : nat) (ncv mpd : option nat) : res (nat * nat * nat) :=
  let finish c m := Ok (nev, c, if m is Some m then m else c) in
  match ncv with
  | Some c => check (nev <= c) (finish c mpd)
  | None =>
    match mpd with
    | Some m => finish (minn n (nev + m)) mpd
    | None => if nev < 500 then finish (minn n (maxn (2 * nev) (nev + 15))) None
              else finish (minn n (nev + 500)) (Some 500)
    end
  end.

(** Arguments of DSSetDimensions; a Value is neither PETSC_DETERMINE (-1) nor PETSC_CURRENT (-2) *)
Inductive arg := Determine | Current | Value of int.
Record dims := Dims { n_ : int; l_ : int; k_ : int; t_ : int }.
Import GRing.Theory Num.Theory. Local Open Scope ring_scope.
(** DSSetDimensions, dsops.c:132-164; [issvd]: DSSVD or DSGSVD *)
Definition ds_set_dimensions (issvd extrarow : bool) (ld : int) (n l k : arg) (d : dims) : res dims :=
  do n' <- match n with
           | Determine => Ok (if extrarow then ld - 1 else ld)%R
           | Current => Ok (n_ d)
           | Value v => check (((0 : int) <= v) && (v <= ld)) (check (~~ extrarow || (v < ld) || issvd) (Ok v))
           end;
  do l' <- match l with
           | Determine => Ok (0 : int)
           | Current => Ok (l_ d)
           | Value v => check (((0 : int) <= v) && (v <= n')) (Ok v)
           end;
  do k' <- match k with
           | Determine => Ok (n' %/ 2)%Z
           | Current => Ok (k_ d)
           | Value v => check (((0 : int) <= v) || (v <= n')) (Ok v)
           end;
  Ok (Dims n' l' k' n').
