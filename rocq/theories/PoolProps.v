(** Property theorem C06 (vector pool). *)
From Coq Require Import ZArith List Bool Lia.
From Verif Require Import Prelude PoolModel PoolProofs.
Import ListNotations.
Open Scope Z_scope.

(** C06.  For every initial guess and every history of gets and puts with stack
    discipline ([sizes] computes the sizes of the outstanding requests, independently of
    the pool): no call fails, each outstanding request holds exactly the requested number
    of vectors, no vector is held twice, all held vectors are live, and destroying the
    pool then leaves no live vector behind.  As histories are prefix closed, this holds
    at every moment of a history. *)
Theorem C06_pool_vectors_live_and_distinct :
  forall init ops szs, 0 <= init -> sizes [] ops = Some szs ->
  exists s0 s held,
    pool_create init = Ok s0 /\ run (s0, []) ops = Ok (s, held)
    /\ map zlen held = szs
    /\ NoDup (concat held)
    /\ (forall x, In x (concat held) -> In x (live s))
    /\ pool_destroy s = Ok [].
Proof.
  intros init ops szs Hi Hs.
  destruct (create_inv init Hi) as (s0 & E0 & I0).
  destruct (run_ok ops s0 [] szs I0 Hs) as (s & held & E & I & M).
  destruct (outstanding_sub s held I) as [N L].
  destruct (destroy_ok s held I) as (lv & D & ->).
  exists s0, s, held. auto 10.
Qed.
Print Assumptions C06_pool_vectors_live_and_distinct.

(** A history that reallocates, chains a second array, drops it, and reuses. *)
Definition ex_ops := [Get 2; Get 0; Get 3; Put; Put; Put; Get 7; Get 1; Put; Get 4].
Example ex_sizes : sizes [] ex_ops = Some [4; 7].
Proof. reflexivity. Qed.
Example ex_run : exists s0 s, pool_create 1 = Ok s0 /\
  run (s0, []) ex_ops = Ok (s, [[13; 14; 15; 16]; [5; 6; 7; 8; 9; 10; 11]])%nat.
Proof. eexists _, _. split; [reflexivity|]. vm_compute. reflexivity. Qed.
