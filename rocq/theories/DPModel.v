(** DSSort for the types whose condensed form is diagonal: /repo/src/sys/classes/ds/interface/dspriv.c:202-400,
    dsops.c:782-806, impls/hep/dshep.c:321-345, ghep/dsghep.c:75-94, svd/dssvd.c:158-183, hsvd/dshsvd.c:153-184,
    gsvd/dsgsvd.c:193-241.  Arrays are functions of the index. *)
From mathcomp Require Import all_ssreflect.
From Verif Require Import Prelude.
Set Implicit Arguments. Unset Strict Implicit. Unset Printing Implicit Defensive.

Definition upd T (f : nat -> T) (i : nat) (x : T) : nat -> T := fun k => if k == i then x else f k.

Section Sort.
(** Values; [lt a b]: SlepcSCCompare(ds->sc,a,b) returns a negative result (a is preferred). *)
Variable V : Type.
Variable lt : V -> V -> bool.

(** dspriv.c:266-269: the inner loop of DSSortEigenvaluesReal_Private, j+1 = p; perm[j] and perm[j+1] are exchanged *)
Fixpoint sink (l : nat) (d : nat -> V) (re : V) (p : nat) (perm : nat -> nat) : nat -> nat :=
  match p with
  | 0 => perm
  | j.+1 => if (l <= j) && lt re (d (perm j)) then sink l d re j (upd (upd perm j (perm p)) p (perm j)) else perm
  end.
(** dspriv.c:254-273 DSSortEigenvaluesReal_Private *)
Definition sort_real (l t : nat) (d : nat -> V) (perm : nat -> nat) : nat -> nat :=
  foldl (fun perm i => sink l d (d (perm i)) i perm) perm (iota l.+1 (t - l.+1)).
(** dspriv.c:228-247: the inner loop of DSSortEigenvalues_Private with wi=NULL (or all imaginary parts zero), d=1 *)
Fixpoint sift (l : nat) (d : nat -> V) (re : V) (tmp1 p : nat) (perm : nat -> nat) : nat -> nat :=
  match p with
  | 0 => upd perm p tmp1
  | j.+1 => if (l <= j) && lt re (d (perm j)) then sift l d re tmp1 j (upd perm p (perm j)) else upd perm p tmp1
  end.
(** dspriv.c:202-249 *)
Definition sort_scalar (l t : nat) (d : nat -> V) (perm : nat -> nat) : nat -> nat :=
  foldl (fun perm i => sift l d (d (perm i)) (perm i) i perm) perm (iota l.+1 (t - l.+1)).

(** Permutation of columns, dspriv.c:278-400: DSPermuteColumns_Private, and DSPermuteColumnsTwo_, DSPermuteBoth_Private
    with a column of both matrices as one element of W.  perm has ld entries; reading further is undefined. *)
Variable W : Type.
Fixpoint find (fuel ld : nat) (perm : nat -> nat) (i j : nat) : option nat :=
  match fuel with
  | 0 => None
  | f.+1 => if ld <= j then None else if perm j == i then Some j else find f ld perm i j.+1
  end.
Definition permute_step (ld i : nat) (s : (nat -> nat) * (nat -> W)) : res ((nat -> nat) * (nat -> W)) :=
  let (perm, Q) := s in
  let p := perm i in
  if p == i then Ok (perm, Q) else
  match find ld ld perm i i.+1 with
  | None => UB
  | Some j => Ok (upd (upd perm j p) i i, upd (upd Q p (Q i)) i (Q p))
  end.
Fixpoint permute_loop (ld m i : nat) (s : (nat -> nat) * (nat -> W)) : res ((nat -> nat) * (nat -> W)) :=
  match m with
  | 0 => Ok s
  | m'.+1 => do s' <- permute_step ld i s; permute_loop ld m' i.+1 s'
  end.
Definition permute (ld istart iend : nat) (perm : nat -> nat) (Q : nat -> W) : res (nat -> W) :=
  do ' (p, Q') <- permute_loop ld (iend - istart) istart (perm, Q); Ok Q'.

Definition range T (l n : nat) (f g : nat -> T) : nat -> T := fun i => if (l <= i < n) then f i else g i.
(** dsops.c:796: trivial permutation *)
Definition trivial (n : nat) (perm : nat -> nat) : nat -> nat := range 0 n (fun i => i) perm.

(** Dimensions of the DS; former contents of ds->perm; the flag compact *)
Record ds := Ds { dl : nat; dn : nat; dt : nat; dld : nat; dperm : nat -> nat; dcompact : bool }.
(** What DSSort changes: eigenvalue array, the array T, the diagonal of A, the columns, the signs (HSVD) or the
    diagonal of B (GSVD, compact: array D) *)
Record data := Data { wr : nat -> V; dT : nat -> V; dA : nat -> V; cols : nat -> W; dS : nat -> V }.

(** The permutation: the values themselves, or the values rr given by the caller *)
Definition order (s : ds) (real : bool) (d : nat -> V) (rr : option (nat -> V)) : nat -> nat :=
  let perm := trivial (dn s) (dperm s) in
  match rr with
  | None => (if real then sort_real else sort_scalar) (dl s) (dt s) d perm
  | Some r => sort_scalar (dl s) (dt s) r perm
  end.
(** dshep.c:321-345 *)
Definition sort_hep (s : ds) (rr : option (nat -> V)) (x : data) : res data :=
  let perm := order s true (dT x) rr in
  let w := range (dl s) (dn s) (fun i => dT x (perm i)) (wr x) in
  do Q <- permute (dld s) (dl s) (dn s) perm (cols x);
  Ok (Data w (range (dl s) (dn s) w (dT x)) (if dcompact s then dA x else range (dl s) (dn s) w (dA x)) Q (dS x)).
(** dsghep.c:75-94 *)
Definition sort_ghep (s : ds) (rr : option (nat -> V)) (x : data) : res data :=
  let w := range (dl s) (dn s) (dA x) (wr x) in
  let perm := order s false w rr in
  let A := range (dl s) (dn s) (fun i => w (perm i)) (dA x) in
  let w' := range (dl s) (dn s) A w in
  do Q <- permute (dld s) (dl s) (dn s) perm (cols x);
  Ok (Data w' (dT x) A Q (dS x)).
(** dssvd.c:158-183 and dshsvd.c:153-184 (also moves the signs s); m: number of columns *)
Definition sort_svd (hyper : bool) (m : nat) (s : ds) (rr : option (nat -> V)) (x : data) : res data :=
  check (m != 0)
  (let n := minn (dn s) m in
   let perm := order s true (dT x) rr in
   let sg := if hyper then range (dl s) n (fun i => dS x (perm i)) (dS x) else dS x in
   let w := range (dl s) n (fun i => dT x (perm i)) (wr x) in
   do Q <- permute (dld s) (dl s) n perm (cols x);
   Ok (Data w (range (dl s) n w (dT x)) (if dcompact s then dA x else range (dl s) n w (dA x)) Q sg)).
(** dsgsvd.c:193-241; quot: T[i]/D[i], infinity if D[i]=0; three matrices with their own copy of perm (the columns of
    all of them are one element of W) *)
Definition sort_gsvd (quot : V -> V -> V) (m : nat) (s : ds) (x : data) : res data :=
  check (m != 0)
  (let c := if dcompact s then dT x else dA x in
   let eig i := quot (c i) (dS x i) in
   let perm := order s true eig None in
   let mv (f : nat -> V) := range (dl s) (dt s) (fun i => f (perm i)) f in
   do Q <- permute (dld s) (dl s) (dt s) perm (cols x);
   Ok (Data (range (dl s) (dt s) (fun i => eig (perm i)) (wr x)) (if dcompact s then mv (dT x) else dT x)
            (if dcompact s then dA x else mv (dA x)) Q (mv (dS x)))).
End Sort.
