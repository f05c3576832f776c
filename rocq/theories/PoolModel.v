(** Model of the pool of vectors, /repo/src/sys/vec/pool.c. *)
From Coq Require Import ZArith List Bool Lia.
From Verif Require Import Prelude.
Import ListNotations.
Open Scope Z_scope.

(** struct VecPool_ (include/slepc/private/vecimplslepc.h:91-98): guess, used, n, vecs.
    A Vec is an identity (a natural number); the template vector v is not modelled. *)
Record pool := Pool { guess : Z; used : Z; pn : Z; vecs : option (list nat) }.

(** A pool object together with the Vec heap.  The linked list p, p->next, p->next->next,...
    is [chain] in reverse order (last link first, p itself at the end).
    [live] lists the Vecs created and not destroyed, [next] the next fresh identity. *)
Record state := State { chain : list pool; live : list nat; next : nat }.

(** VecDuplicateVecs(v,m,&vecs): m fresh vectors; PETSc requires m>0. *)
Definition dup_vecs (m : Z) (lv : list nat) (nx : nat) : res (list nat * list nat * nat) :=
  check (0 <? m)
   (let ids := seq nx (Z.to_nat m) in Ok (ids, lv ++ ids, (nx + Z.to_nat m)%nat)).

(** VecDestroyVecs: every vector must be live. *)
Fixpoint destroy_vecs (ids lv : list nat) : res (list nat) :=
  match ids with
  | [] => Ok lv
  | i :: r => if in_dec Nat.eq_dec i lv then destroy_vecs r (remove Nat.eq_dec i lv) else UB
  end.
Definition destroy_opt (v : option (list nat)) (lv : list nat) : res (list nat) :=
  match v with None => Ok lv | Some ids => destroy_vecs ids lv end.

(** pool.c:32-47 SlepcVecPoolCreate *)
Definition pool_create (init_size : Z) : res state :=
  check (0 <=? init_size) (Ok (State [Pool init_size 0 0 None] [] 0%nat)).

(** guess of the first link, p->guess *)
Definition first_guess (ch : list pool) : Z := guess (List.last ch (Pool 0 0 0 None)).

(** *vecs = pool->vecs + pool->used; the n vectors the caller may then use. *)
Definition slice (v : option (list nat)) (off n : Z) : res (list nat) :=
  match v with
  | None => if n =? 0 then Ok [] else UB
  | Some l => if (0 <=? off) && (off + n <=? zlen l)
              then Ok (firstn (Z.to_nat n) (skipn (Z.to_nat off) l)) else UB
  end.

(** pool.c:94-116 SlepcVecPoolGetVecs; returns the n vectors handed out. *)
Definition pool_get (s : state) (n : Z) : res (state * list nat) :=
  check (0 <=? n)
  match chain s with
  | [] => UB
  | pl :: front =>
    if pn pl - used pl <? n then
      let g := Z.max (first_guess (pl :: front)) (used pl + n) in
      match vecs pl with
      | Some ids =>
        if used pl =? 0 then
          (* array too small and unused: destroy it and reallocate *)
          do lv <- destroy_vecs ids (live s);
          do ' (ids', lv', nx') <- dup_vecs g lv (next s);
          do out <- slice (Some ids') 0 n;
          Ok (State (Pool g (0 + n) g (Some ids') :: front) lv' nx', out)
        else
          (* new link created with SlepcVecPoolCreate(p->v,guess-used,&pool->next) *)
          check (0 <=? g - used pl)
          (let pl1 := Pool g (used pl) (pn pl) (vecs pl) in
           do ' (ids', lv', nx') <- dup_vecs (g - used pl) (live s) (next s);
           do out <- slice (Some ids') 0 n;
           Ok (State (Pool (g - used pl) (0 + n) (g - used pl) (Some ids') :: pl1 :: front) lv' nx', out))
      | None =>
        do ' (ids', lv', nx') <- dup_vecs g (live s) (next s);
        do out <- slice (Some ids') (used pl) n;
        Ok (State (Pool g (used pl + n) g (Some ids') :: front) lv' nx', out)
      end
    else
      do out <- slice (vecs pl) (used pl) n;
      Ok (State (Pool (guess pl) (used pl + n) (pn pl) (vecs pl) :: front) (live s) (next s), out)
  end.

(** pool->used -= n; PetscCheck(pool->used>=0,...) *)
Definition pool_sub (pl : pool) (n : Z) : res pool :=
  check (0 <=? used pl - n) (Ok (Pool (guess pl) (used pl - n) (pn pl) (vecs pl))).

(** pool.c:133-148 SlepcVecPoolRestoreVecs (its argument vecs is not used) *)
Definition pool_restore (s : state) (n : Z) : res state :=
  match chain s with
  | [] => UB
  | [pl] => do pl' <- pool_sub pl n; Ok (State [pl'] (live s) (next s))
  | pl :: pl0 :: front =>
    if used pl =? 0 then
      let pl0' := Pool (used pl0 + guess pl) (used pl0) (pn pl0) (vecs pl0) in
      do lv <- destroy_opt (vecs pl) (live s);
      do pl' <- pool_sub pl0' n;
      Ok (State (pl' :: front) lv (next s))
    else
      do pl' <- pool_sub pl n;
      Ok (State (pl' :: pl0 :: front) (live s) (next s))
  end.

(** pool.c:61-76 SlepcVecPoolDestroy: destroys the vectors of every link.
    (The C code frees from p onwards; the order is immaterial.) *)
Fixpoint pool_destroy_chain (ch : list pool) (lv : list nat) : res (list nat) :=
  match ch with
  | [] => Ok lv
  | pl :: r => do lv' <- destroy_opt (vecs pl) lv; pool_destroy_chain r lv'
  end.
Definition pool_destroy (s : state) : res (list nat) := pool_destroy_chain (chain s) (live s).
