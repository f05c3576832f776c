(** Property theorems C01-C04 (eigenvalue sorting). *)
From Coq Require Import ZArith List Bool Lia Sorting.Permutation Sorting.Sorted.
From Verif Require Import Prelude SortModel SortSpec SortProofs.
Import ListNotations.
Open Scope Z_scope.

(** C01.  For every comparison oracle [cmp], build ([cplx]) and convention ([flg]):
    sorting the first [n] entries of the array [perm ++ tail], where [perm] has a valid
    layout, terminates without undefined behaviour, permutes [perm], keeps [tail]. *)
Theorem C01_sort_permutes :
  forall S (isz : S -> bool) cmp cplx flg eigr eigi perm tail bs,
  layout isz cplx flg eigr eigi perm bs ->
  exists perm',
    sort_eigenvalues S isz cmp cplx flg (zlen perm) eigr eigi (perm ++ tail) = Ok (perm' ++ tail)
    /\ Permutation perm perm'.
Proof.
  intros S isz cmp cplx flg eigr eigi perm tail bs [-> V].
  exists (flatten (isort S cmp eigr eigi bs)). split.
  - now apply sort_spec.
  - apply flatten_perm. symmetry. apply isort_perm.
Qed.
Print Assumptions C01_sort_permutes.

(** C02.  The sorted array is again a valid layout made of the same blocks: every
    conjugate pair is adjacent and its members are in the original order. *)
Theorem C02_sort_keeps_pairs :
  forall S (isz : S -> bool) cmp cplx flg eigr eigi perm tail bs,
  layout isz cplx flg eigr eigi perm bs ->
  exists perm' bs',
    sort_eigenvalues S isz cmp cplx flg (zlen perm) eigr eigi (perm ++ tail) = Ok (perm' ++ tail)
    /\ layout isz cplx flg eigr eigi perm' bs' /\ Permutation bs bs'.
Proof.
  intros S isz cmp cplx flg eigr eigi perm tail bs [-> V].
  exists (flatten (isort S cmp eigr eigi bs)), (isort S cmp eigr eigi bs). repeat split.
  - now apply sort_spec.
  - now apply isort_valid.
  - symmetry. apply isort_perm.
Qed.
Print Assumptions C02_sort_keeps_pairs.

(** C03.  For a comparison that is a total preorder the result is sorted and stable. *)
Theorem C03_sort_sorted_stable :
  forall S (isz : S -> bool) cmp cplx flg eigr eigi perm tail bs,
  total_preorder cmp ->
  layout isz cplx flg eigr eigi perm bs ->
  exists perm' bs',
    sort_eigenvalues S isz cmp cplx flg (zlen perm) eigr eigi (perm ++ tail) = Ok (perm' ++ tail)
    /\ layout isz cplx flg eigr eigi perm' bs' /\ Permutation bs bs'
    /\ sorted_blocks eigr eigi cmp bs'
    /\ forall x, In x bs ->
         filter (same_rank eigr eigi cmp x) bs' = filter (same_rank eigr eigi cmp x) bs.
Proof.
  intros S isz cmp cplx flg eigr eigi perm tail bs T [-> V].
  exists (flatten (isort S cmp eigr eigi bs)), (isort S cmp eigr eigi bs). repeat split.
  - now apply sort_spec.
  - now apply isort_valid.
  - symmetry. apply isort_perm.
  - eapply isort_sorted; eauto.
  - intros x Hx. eapply isort_stable; eauto. rewrite Forall_forall in V; auto.
Qed.
Print Assumptions C03_sort_sorted_stable.

(** C04.  With a region ([cin] is the answer of RGCheckInside), the sorted blocks are
    those not outside followed by those outside, each group sorted by the comparison. *)
Theorem C04_sort_inside_first :
  forall S (isz : S -> bool) map cin comparison cplx flg eigr eigi perm tail bs,
  total_preorder comparison ->
  layout isz cplx flg eigr eigi perm bs ->
  exists perm' ins outs,
    sort_eigenvalues S isz (sc_compare S map (Some cin) comparison) cplx flg (zlen perm) eigr eigi (perm ++ tail)
      = Ok (perm' ++ tail)
    /\ layout isz cplx flg eigr eigi perm' (ins ++ outs) /\ Permutation bs (ins ++ outs)
    /\ (forall b w, In b ins -> mapped_value map eigr eigi b w -> 0 <= cin w)
    /\ (forall b w, In b outs -> mapped_value map eigr eigi b w -> cin w < 0)
    /\ (forall g, g = ins \/ g = outs ->
        StronglySorted (fun b c => forall v w, mapped_value map eigr eigi b v ->
            mapped_value map eigr eigi c w -> comparison v w <= 0) g).
Proof.
  intros S isz map cin comparison cplx flg eigr eigi perm tail bs T L.
  destruct (C03_sort_sorted_stable S isz _ cplx flg eigr eigi perm tail bs
     (sc_compare_preorder S map (Some cin) comparison T) L)
    as (perm' & bs' & E & L' & P & Hs & _).
  destruct (inside_split S isz cplx flg eigr eigi map cin comparison bs' (proj2 L') Hs)
    as (ins & outs & -> & Hi & Ho & Si & So).
  exists perm', ins, outs. repeat split; auto; try apply L'.
  intros g [->| ->]; assumption.
Qed.
Print Assumptions C04_sort_inside_first.

(** Concrete instance: values 1, 3+i, 3-i, 2, 5 in real scalars, largest real part first;
    the pair is moved as a block.  With the region {re <= 4} the value 5 goes last. *)
Definition ex_eigr := [1; 3; 3; 2; 5].
Definition ex_eigi := [0; 1; -1; 0; 0].
Definition ex_cmp (a b : Z * Z) : Z := fst b - fst a.

Example ex_layout : layout (Z.eqb 0) false false ex_eigr ex_eigi [0;1;2;3;4]
   [Single 0; Pair 1 2; Single 3; Single 4].
Proof.
  split; [reflexivity|].
  repeat (apply Forall_cons || apply Forall_nil).
  - eapply valid_single with (re := 1) (im := 0); [split; reflexivity|auto].
  - eapply valid_pair with (re := 3) (im := 1) (im' := -1); try reflexivity; try (split; reflexivity); auto.
  - eapply valid_single with (re := 2) (im := 0); [split; reflexivity|auto].
  - eapply valid_single with (re := 5) (im := 0); [split; reflexivity|auto].
Qed.
Example ex_tp : total_preorder ex_cmp.
Proof. unfold total_preorder, ex_cmp. repeat split; intros; lia. Qed.
Example ex_sort : sort_eigenvalues Z (Z.eqb 0) ex_cmp false false 5 ex_eigr ex_eigi [0;1;2;3;4]
   = Ok [4;1;2;3;0].
Proof. reflexivity. Qed.
Example ex_sort_rg : sort_eigenvalues Z (Z.eqb 0)
   (sc_compare Z None (Some (fun v => 4 - fst v)) ex_cmp) false false 5 ex_eigr ex_eigi [0;1;2;3;4]
   = Ok [1;2;3;0;4].
Proof. reflexivity. Qed.

(** The layout hypothesis is needed: a non-real value alone in position 0 makes the code
    read perm[-1]. *)
Example ex_bad_layout_ub :
  sort_eigenvalues Z (Z.eqb 0) ex_cmp false false 1 [3] [1] [0] = UB.
Proof. reflexivity. Qed.
