(** Property theorems C13 (integration points and scatter) and C31 (quadrature sums). *)
From mathcomp Require Import all_ssreflect all_algebra.
From mathcomp Require Import zify.
From Verif Require Import ContourModel ContourProofs.
Set Implicit Arguments. Unset Strict Implicit. Unset Printing Implicit Defensive.
Import GRing.Theory.
Local Open Scope ring_scope.

(** C13.  For every n and npart > 0: listing, over the partitions c and the local points
    i of each, the global number of the local point gives every number 0..n-1 exactly
    once; the counts add up to n and differ by at most one. *)
Theorem C13_points_partition : forall n npart, (0 < npart)%N ->
  perm_eq [seq p_id npart c i | c <- iota 0 npart, i <- iota 0 (npoints n npart c)] (iota 0 n)
  /\ (\sum_(c < npart) npoints n npart c = n)%N
  /\ (forall c c', (npoints n npart c <= (npoints n npart c').+1)%N).
Proof.
move=> n npart Hp; split; first exact: all_points_perm.
split; first exact: npoints_sum.
move=> c c'; rewrite /npoints; move: (n %/ npart)%N (n %% npart)%N => q r.
by case: (c < r)%N; case: (c' < r)%N => /=; lia.
Qed.
Print Assumptions C13_points_partition.

(** C13, communication.  The rows of a vector of length m are distributed in any way over
    the processes ([parts]: disjoint ranges covering 0..m-1).  Forward, each of the npart
    duplicates receives the whole vector; in reverse, each entry is increased by the sum
    of its npart duplicates. *)
Theorem C13_scatter_duplicates : forall (A : zmodType) npart m parts (v xdup : nat -> A) i,
  perm_eq (flatten [seq iota p.1 (p.2 - p.1) | p <- parts]) (iota 0 m) -> (i < m)%N ->
  (forall k, (k < npart)%N -> scatter_fwd (scatter_all npart m parts) v xdup (i + m * k)%N = v i)
  /\ scatter_rev_add (scatter_all npart m parts) xdup v i = v i + \sum_(k < npart) xdup (i + m * k)%N.
Proof.
move=> A npart m parts v xdup i H Hi; split; last exact: scatter_revE.
by move=> k Hk; apply: scatter_fwdE.
Qed.
Print Assumptions C13_scatter_duplicates.

Section Quad.
Variables (K : fieldType) (V : lmodType K).

(** The block of solutions of point p, column j, is [y p j].  It is stored in the
    partition c that owns the point, at the position the solvers put it. *)
Definition blocks_stored (npart n L Lmax : nat) (Y : nat -> nat -> V) (y : nat -> nat -> V) : Prop :=
  forall c i j, (c < npart)%N -> (i < npoints n npart c)%N -> (j < L)%N ->
  Y c (i * Lmax + j)%N = y (p_id npart c i) j.

(** C31.  Moment vectors: whatever the number of partitions, column k*L+j of the result
    is the sum over all the integration points of zn_p^k w_p y_pj (twice its real part
    with conjugate points), starting from zero columns. *)
Theorem C31_sum_quadrature : forall (twice_reV : V -> V) (w zn : nat -> K) npart n M L Lmax Y y useconj S k j,
  (0 < npart)%N -> {morph twice_reV : a b / a + b} -> twice_reV 0 = 0 ->
  blocks_stored npart n L Lmax Y y ->
  ((1 < npart)%N -> S (k * L + j)%N = 0) ->
  (k < M)%N -> (j < L)%N ->
  let v := \sum_(p < n) (zn p ^+ k * w p) *: y p j in
  sum_quadrature twice_reV w zn npart n M L Lmax (1 < npart)%N Y useconj S (k * L + j)%N =
  if useconj then twice_reV v else v.
Proof.
move=> tr w zn npart n M L Lmax Y y uc S k j Hp HD H0 HY HS Hk Hj v.
rewrite (sum_quadrature_main w zn uc S Hp HD H0 HY Hk Hj).
by case: ifP HS => [_ -> //|_ _]; rewrite add0r.
Qed.
Print Assumptions C31_sum_quadrature.

(** The other columns are not touched. *)
Theorem C31_sum_quadrature_frame : forall (twice_reV : V -> V) (w zn : nat -> K) npart n M L Lmax scat Y useconj S x,
  (M * L <= x)%N -> sum_quadrature twice_reV w zn npart n M L Lmax scat Y useconj S x = S x.
Proof.
move=> tr w zn npart n M L Lmax scat Y uc S x Hx; rewrite /sum_quadrature.
by have [_ _ ->] := sum_quadrature_state tr w zn npart n L Lmax scat Y uc S M.
Qed.
Print Assumptions C31_sum_quadrature_frame.

(** C31.  Moment matrices: entry (s,j) of block k is the sum over all the points of
    zn_p^k w_p <y_pj, v_s>, whatever the number of partitions and their sizes. *)
Theorem C31_dot_quadrature : forall (twice_re : K -> K) (dotp : V -> V -> K) (w zn : nat -> K)
    npart n M L Lmax size Y Vs y v useconj s j k,
  (0 < npart)%N -> (forall c, (c < npart)%N -> (size c)%:R != 0 :> K) ->
  blocks_stored npart n L Lmax Y y ->
  (forall c s, (c < npart)%N -> (s < L)%N -> Vs c s = v s) ->
  (s < L)%N -> (j < L)%N -> (k < 2 * M)%N ->
  dot_quadrature twice_re dotp w zn npart n M L Lmax size Y Vs useconj (s + (j + k * L) * L)%N =
  \sum_(p < n) (let x := (zn p ^+ k * w p) * dotp (y p j) (v s) in if useconj then twice_re x else x).
Proof. by move=> *; apply: dot_quadrature_main. Qed.
Print Assumptions C31_dot_quadrature.

(** C31.  Estimated count: the trace sum is right with one partition, or one column. *)
Theorem C31_trace_quadrature : forall (twice_re : K -> K) (dotp : V -> V -> K) (w : nat -> K)
    npart n L Lmax Y v y useconj,
  (0 < npart)%N -> (npart = 1)%N \/ (L <= 1)%N ->
  blocks_stored npart n L Lmax Y y ->
  trace_quadrature twice_re dotp w npart n L Lmax (1 < npart)%N Y v useconj =
  \sum_(j < L) (let d := dotp (v j) (\sum_(p < n) w p *: y p j) in if useconj then twice_re d else d).
Proof. by move=> *; apply: trace_quadrature_main. Qed.
Print Assumptions C31_trace_quadrature.
End Quad.

(** With two partitions and two columns the trace sum is wrong: the communication vector
    keeps the contributions of the previous columns.  Vectors of length 1 over the
    rationals, two points, unit weights; exact value 1*1 + 1*0 = 1, computed 2. *)
Definition rY (c x : nat) : rat^o := if (c == 0%N) && (x == 0%N) then 1 else 0.
Definition ry (p j : nat) : rat^o := if (p == 0%N) && (j == 0%N) then 1 else 0.

Theorem C31_trace_partitions_refuted :
  blocks_stored 2 2 2 2 rY ry /\
  trace_quadrature (K := rat_fieldType) (V := [lmodType rat of rat^o]) id (fun x y => x * y) (fun _ => 1) 2 2 2 2 true rY (fun _ => 1) false
  <> \sum_(j < 2) (1 : rat) * (\sum_(p < 2) (1 : rat) *: ry p j).
Proof.
split; first by move=> [|[|//]] [|[|//]] [|[|//]].
rewrite !big_ord_recl !big_ord0; apply/eqP; vm_compute. by [].
Qed.
Print Assumptions C31_trace_partitions_refuted.

(** With two partitions a nonzero output column is added to, with one it is overwritten:
    a second call on the same output doubles the result. *)
Theorem C31_sum_accumulates_refuted :
  let f npart S := sum_quadrature (K := rat_fieldType) (V := [lmodType rat of rat^o]) id (fun _ => 1) (fun _ => 1)
                 npart 2 1 1 1 (1 < npart)%N (fun _ _ => 1) false S in
  f 1%N (f 1%N (fun _ => 0)) 0%N = f 1%N (fun _ => 0) 0%N /\
  f 2%N (f 2%N (fun _ => 0)) 0%N <> f 2%N (fun _ => 0) 0%N.
Proof. by split; [apply/eqP|apply/eqP]; vm_compute. Qed.
Print Assumptions C31_sum_accumulates_refuted.

(** Concrete cases: 7 points over 3 partitions; a vector of 3 rows over 2 processes. *)
Example ex_partition :
  [seq [seq p_id 3 c i | i <- iota 0 (npoints 7 3 c)] | c <- iota 0 3] = [:: [:: 0; 3; 6]; [:: 1; 4]; [:: 2; 5]]%N.
Proof. by []. Qed.
Example ex_parts : perm_eq (flatten [seq iota p.1 (p.2 - p.1) | p <- [:: (0, 2); (2, 3)]%N]) (iota 0 3).
Proof. by []. Qed.
Example ex_scatter : scatter_all 2 3 [:: (0, 2); (2, 3)]%N = [:: (0,0); (1,1); (0,3); (1,4); (2,2); (2,5)]%N.
Proof. by []. Qed.

(** Blocks for 3 points in 2 partitions, two columns, panels of width 3. *)
Definition exy (p j : nat) : rat^o := ((2 * p + j + 1)%N)%:R.
Definition exY (c x : nat) : rat^o := exy (p_id 2 c (x %/ 3)) (x %% 3).
Example ex_blocks : blocks_stored 2 3 2 3 exY exy.
Proof. by move=> [|[|//]] [|[|//]] [|[|//]]. Qed.
Example ex_sum : sum_quadrature (K := rat_fieldType) (V := [lmodType rat of rat^o]) id (fun _ => 1) (fun p => p%:R)
   2 3 2 2 3 true exY false (fun _ => 0) 3%N = 16%:R.
Proof. by apply/eqP; vm_compute. Qed.
