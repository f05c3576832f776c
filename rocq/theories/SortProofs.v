(** Proofs about the eigenvalue sort. *)
From Coq Require Import ZArith List Bool Lia Sorting.Permutation Sorting.Sorted.
From Verif Require Import Prelude SortModel SortSpec.
Import ListNotations.
Open Scope Z_scope.

Section P.
Variable S : Type.
Variable isz : S -> bool.
Variable cmp : S * S -> S * S -> Z.
Variables cplx flg : bool.
Variables eigr eigi : list S.

Notation valid := (valid_block isz cplx flg eigr eigi).
Notation bcmp := (block_cmp eigr eigi cmp).

(** Functional insertion of a block. *)
Fixpoint insert (b : block) (bs : list block) : list block :=
  match bs with
  | [] => [b]
  | c :: r => if bcmp b c <=? 0 then b :: c :: r else c :: insert b r
  end.
Definition isort (bs : list block) : list block := fold_right insert [] bs.

Lemma flatten_app bs cs : flatten (bs ++ cs) = flatten bs ++ flatten cs.
Proof. apply flat_map_app. Qed.

Lemma insert_perm b bs : Permutation (insert b bs) (b :: bs).
Proof.
  induction bs as [|c r IH]; simpl; [reflexivity|].
  destruct (bcmp b c <=? 0); [reflexivity|].
  rewrite IH. apply perm_swap.
Qed.

Lemma isort_perm bs : Permutation (isort bs) bs.
Proof.
  induction bs; simpl; [reflexivity|]. rewrite insert_perm. now constructor.
Qed.

Lemma flatten_perm bs cs : Permutation bs cs -> Permutation (flatten bs) (flatten cs).
Proof. apply Permutation_flat_map. Qed.

Lemma perm_valid bs cs : Permutation bs cs -> Forall valid bs -> Forall valid cs.
Proof. intros H F. eapply Permutation_Forall; eauto. Qed.

Lemma len_insert b bs : zlen (flatten (insert b bs)) = zlen (indices b) + zlen (flatten bs).
Proof.
  unfold zlen. rewrite (Permutation_length (flatten_perm _ _ (insert_perm b bs))).
  simpl. rewrite app_length. lia.
Qed.

Lemma bcmp_eq b c vb vc :
  value eigr eigi (head b) vb -> value eigr eigi (head c) vc -> bcmp b c = cmp vb vc.
Proof.
  intros [H1 H2] [H3 H4]. unfold block_cmp. rewrite H1, H2, H3, H4.
  now destruct vb, vc.
Qed.

Definition iskey (b : block) (re im : S) : Prop := value eigr eigi (head b) (re, im).

Ltac lens := rewrite ?zlen_app, ?zlen_cons, ?zlen_nil; try lia.

(** The inner loop performs the functional insertion. *)
Lemma inner_spec n tail : forall rest fuel pre b re im j,
  valid b -> iskey b re im -> Forall valid rest ->
  j = zlen pre + zlen (indices b) ->
  n = j + zlen (flatten rest) ->
  (Z.of_nat fuel > zlen (flatten rest)) ->
  sort_inner S isz cmp cplx flg n eigr eigi fuel
     (pre ++ indices b ++ flatten rest ++ tail) j re im
  = Ok (pre ++ flatten (insert b rest) ++ tail).
Proof.
  induction rest as [|c rest IH]; intros fuel pre b re im j Vb Kb Vr Hj Hn Hf.
  - change (zlen (flatten [])) with 0 in *. destruct fuel; [simpl in Hf; lia|].
    cbn [sort_inner].
    destruct (Z.ltb_spec j n); [lia|]. simpl. rewrite app_nil_r. reflexivity.
  - inversion Vr as [|? ? Vc Vr']; subst x l.
    destruct fuel; [change (Z.of_nat 0) with 0 in Hf; pose proof (zlen_nonneg (flatten (c :: rest))); lia|].
    assert (Hpos : 0 < zlen (indices c)) by (destruct c; reflexivity).
    simpl flatten in *. rewrite zlen_app in *.
    pose proof (zlen_nonneg (flatten rest)).
    cbn [sort_inner]. destruct (Z.ltb_spec j n); [|lia].
    (* read perm[j] = head c *)
    assert (Hget : aget (pre ++ indices b ++ (indices c ++ flatten rest) ++ tail) j = Ok (head c)).
    { destruct c; simpl.
      - replace (pre ++ indices b ++ a :: flatten rest ++ tail)
          with ((pre ++ indices b) ++ a :: (flatten rest ++ tail)) by now rewrite <- app_assoc.
        apply aget_app_mid. lens.
      - replace (pre ++ indices b ++ a :: b0 :: flatten rest ++ tail)
          with ((pre ++ indices b) ++ a :: (b0 :: flatten rest ++ tail)) by now rewrite <- app_assoc.
        apply aget_app_mid. lens. }
    rewrite Hget. cbn [bind].
    assert (exists rc ic, iskey c rc ic /\
       ((exists a, c = Single a /\ (cplx = true \/ isz ic || (flg && isz rc) = true)) \/
        (exists a b', c = Pair a b' /\ cplx = false /\ isz ic || (flg && isz rc) = false))) as (rc & ic & Kc & Sc).
    { destruct Vc as [a0 re0 im0 Hv Hd | a0 b0 re0 im0 im1 Hx Hv Hv' Hi Hi' Hd];
        exists re0, im0; (split; [assumption|]).
      - left. eexists; split; [reflexivity|]. destruct Hd as [?|[Hd|[Hd Hd']]]; [tauto|right|right].
        + now rewrite Hd.
        + rewrite Hd, Hd'. apply orb_true_r.
      - right. do 2 eexists; split; [reflexivity|]. split; [assumption|]. rewrite Hi.
        destruct Hd as [-> | ->]; [reflexivity| now rewrite andb_false_r]. }
    destruct Kc as [Kc1 Kc2]. simpl in Kc1, Kc2. rewrite Kc1, Kc2. cbn [bind].
    rewrite <- (bcmp_eq b c (re,im) (rc,ic)) by (assumption || (split; assumption)).
    simpl insert. destruct (bcmp b c <=? 0) eqn:Ecmp.
    { destruct b; simpl; rewrite ?flatten_app, <- ?app_assoc; simpl; rewrite <- ?app_assoc; reflexivity. }
    assert (Sb : (exists a, b = Single a /\ (cplx = true \/ isz im || (isz re && flg) = true)) \/
        (exists a b', b = Pair a b' /\ cplx = false /\ isz im || (isz re && flg) = false)).
    { clear - Kb Vb. destruct Kb as [Kb1 Kb2]; simpl in Kb1, Kb2.
      destruct Vb as [a0 re0 im0 Hv Hd | a0 b0 re0 im0 im1 Hx Hv Hv' Hi Hi' Hd];
        destruct Hv as [G1 G2]; simpl in G1, G2, Kb1, Kb2; rewrite G1 in Kb1; rewrite G2 in Kb2;
        injection Kb1 as ->; injection Kb2 as ->.
      - left; eexists; split; [reflexivity|].
        destruct Hd as [?|[Hd|[Hd Hd']]]; [tauto|right|right].
        + now rewrite Hd.
        + rewrite Hd, Hd'. apply orb_true_r.
      - right. do 2 eexists; split; [reflexivity|]. split; [assumption|]. rewrite Hi.
        destruct Hd as [-> | ->]; simpl; [apply andb_false_r|reflexivity]. }
    destruct Sb as [(a1 & -> & Hb)|(a1 & a2 & -> & Hcx & Hb)];
    destruct Sc as [(c1 & -> & Hc)|(c1 & c2 & -> & Hcx' & Hc)].
    + (* single, single *)
      simpl indices in *. simpl head in *.
      replace (pre ++ [a1] ++ ([c1] ++ flatten rest) ++ tail)
        with (pre ++ a1 :: c1 :: flatten rest ++ tail) by reflexivity.
      assert (G : (if cplx then
        do tmp <- aget (pre ++ a1 :: c1 :: flatten rest ++ tail) (j-1);
        do p1 <- aset (pre ++ a1 :: c1 :: flatten rest ++ tail) (j-1) c1;
        do p2 <- aset p1 j tmp;
        sort_inner S isz cmp cplx flg n eigr eigi fuel p2 (j+1) re im
      else
        do tmp <- aget (pre ++ a1 :: c1 :: flatten rest ++ tail) (j-1);
        do p1 <- aset (pre ++ a1 :: c1 :: flatten rest ++ tail) (j-1) c1;
        do p2 <- aset p1 j tmp;
        sort_inner S isz cmp cplx flg n eigr eigi fuel p2 (j+1) re im) =
        Ok (pre ++ flatten (Single c1 :: insert (Single a1) rest) ++ tail)).
      { replace (if cplx then _ else _) with (
        do tmp <- aget (pre ++ a1 :: c1 :: flatten rest ++ tail) (j-1);
        do p1 <- aset (pre ++ a1 :: c1 :: flatten rest ++ tail) (j-1) c1;
        do p2 <- aset p1 j tmp;
        sort_inner S isz cmp cplx flg n eigr eigi fuel p2 (j+1) re im) by now destruct cplx.
        rewrite aget_app_mid by (simpl in Hj; rewrite zlen_cons, zlen_nil in Hj; lia). cbn [bind].
        rewrite aset_app_mid by (rewrite zlen_cons, zlen_nil in Hj; lia). cbn [bind].
        replace (pre ++ c1 :: c1 :: flatten rest ++ tail)
          with ((pre ++ [c1]) ++ c1 :: flatten rest ++ tail) by now rewrite <- app_assoc.
        rewrite aset_app_mid by (rewrite zlen_cons, zlen_nil in Hj; lens). cbn [bind].
        replace ((pre ++ [c1]) ++ a1 :: flatten rest ++ tail)
          with ((pre ++ [c1]) ++ indices (Single a1) ++ flatten rest ++ tail) by reflexivity.
        rewrite IH; try assumption.
        - now rewrite <- app_assoc.
        - simpl indices. lens. rewrite zlen_cons, zlen_nil in Hj. lia.
        - rewrite zlen_cons, zlen_nil in Hn. lia.
        - rewrite zlen_cons, zlen_nil in Hf. lia. }
      destruct cplx; [exact G|].
      destruct Hb as [?|Hb]; [discriminate|]. destruct Hc as [?|Hc]; [discriminate|].
      rewrite Hb, Hc. exact G.
    + (* single, pair *)
      rewrite Hcx' in *. destruct Hb as [?|Hb]; [discriminate|]. rewrite Hb, Hc.
      simpl indices in *. simpl head in *.
      rewrite ?zlen_cons, ?zlen_nil in *.
      replace (pre ++ [a1] ++ ([c1;c2] ++ flatten rest) ++ tail)
        with (pre ++ a1 :: c1 :: c2 :: flatten rest ++ tail) by reflexivity.
      rewrite aget_app_mid by lia. cbn [bind].
      rewrite aset_app_mid by lia. cbn [bind].
      replace (pre ++ c1 :: c1 :: c2 :: flatten rest ++ tail)
        with ((pre ++ [c1;c1]) ++ c2 :: flatten rest ++ tail) by now rewrite <- app_assoc.
      rewrite aget_app_mid by lens. cbn [bind].
      replace ((pre ++ [c1;c1]) ++ c2 :: flatten rest ++ tail)
        with ((pre ++ [c1]) ++ c1 :: c2 :: flatten rest ++ tail) by now rewrite <- !app_assoc.
      rewrite aset_app_mid by lens. cbn [bind].
      replace ((pre ++ [c1]) ++ c2 :: c2 :: flatten rest ++ tail)
        with ((pre ++ [c1;c2]) ++ c2 :: flatten rest ++ tail) by now rewrite <- !app_assoc.
      rewrite aset_app_mid by lens. cbn [bind].
      replace ((pre ++ [c1;c2]) ++ a1 :: flatten rest ++ tail)
        with ((pre ++ [c1;c2]) ++ indices (Single a1) ++ flatten rest ++ tail) by reflexivity.
      rewrite IH; try assumption.
      * now rewrite <- app_assoc.
      * simpl indices. lens.
      * lia.
      * lia.
    + (* pair, single *)
      rewrite Hcx in *. destruct Hc as [?|Hc]; [discriminate|]. rewrite Hb, Hc.
      simpl indices in *. simpl head in *.
      rewrite ?zlen_cons, ?zlen_nil in *.
      replace (pre ++ [a1;a2] ++ ([c1] ++ flatten rest) ++ tail)
        with (pre ++ a1 :: a2 :: c1 :: flatten rest ++ tail) by reflexivity.
      rewrite aget_app_mid by lia. cbn [bind].
      rewrite aset_app_mid by lia. cbn [bind].
      replace (pre ++ c1 :: a2 :: c1 :: flatten rest ++ tail)
        with ((pre ++ [c1]) ++ a2 :: c1 :: flatten rest ++ tail) by now rewrite <- app_assoc.
      rewrite aget_app_mid by lens. cbn [bind].
      replace ((pre ++ [c1]) ++ a2 :: c1 :: flatten rest ++ tail)
        with ((pre ++ [c1;a2]) ++ c1 :: flatten rest ++ tail) by now rewrite <- !app_assoc.
      rewrite aset_app_mid by lens. cbn [bind].
      replace ((pre ++ [c1;a2]) ++ a2 :: flatten rest ++ tail)
        with ((pre ++ [c1]) ++ a2 :: a2 :: flatten rest ++ tail) by now rewrite <- !app_assoc.
      rewrite aset_app_mid by lens. cbn [bind].
      replace ((pre ++ [c1]) ++ a1 :: a2 :: flatten rest ++ tail)
        with ((pre ++ [c1]) ++ indices (Pair a1 a2) ++ flatten rest ++ tail) by reflexivity.
      rewrite IH; try assumption.
      * now rewrite <- app_assoc.
      * simpl indices. lens.
      * lia.
      * lia.
    + (* pair, pair *)
      rewrite Hcx in *. rewrite Hb, Hc.
      simpl indices in *. simpl head in *.
      rewrite ?zlen_cons, ?zlen_nil in *.
      replace (pre ++ [a1;a2] ++ ([c1;c2] ++ flatten rest) ++ tail)
        with (pre ++ a1 :: a2 :: c1 :: c2 :: flatten rest ++ tail) by reflexivity.
      rewrite aget_app_mid by lia. cbn [bind].
      rewrite aset_app_mid by lia. cbn [bind].
      replace (pre ++ c1 :: a2 :: c1 :: c2 :: flatten rest ++ tail)
        with ((pre ++ [c1;a2]) ++ c1 :: c2 :: flatten rest ++ tail) by now rewrite <- app_assoc.
      rewrite aset_app_mid by lens. cbn [bind].
      replace ((pre ++ [c1;a2]) ++ a1 :: c2 :: flatten rest ++ tail)
        with ((pre ++ [c1]) ++ a2 :: a1 :: c2 :: flatten rest ++ tail) by now rewrite <- !app_assoc.
      rewrite aget_app_mid by lens. cbn [bind].
      replace ((pre ++ [c1]) ++ a2 :: a1 :: c2 :: flatten rest ++ tail)
        with ((pre ++ [c1;a2;a1]) ++ c2 :: flatten rest ++ tail) by now rewrite <- !app_assoc.
      rewrite aget_app_mid by lens. cbn [bind].
      replace ((pre ++ [c1;a2;a1]) ++ c2 :: flatten rest ++ tail)
        with ((pre ++ [c1]) ++ a2 :: a1 :: c2 :: flatten rest ++ tail) by now rewrite <- !app_assoc.
      rewrite aset_app_mid by lens. cbn [bind].
      replace ((pre ++ [c1]) ++ c2 :: a1 :: c2 :: flatten rest ++ tail)
        with ((pre ++ [c1;c2;a1]) ++ c2 :: flatten rest ++ tail) by now rewrite <- !app_assoc.
      rewrite aset_app_mid by lens. cbn [bind].
      replace ((pre ++ [c1;c2;a1]) ++ a2 :: flatten rest ++ tail)
        with ((pre ++ [c1;c2]) ++ indices (Pair a1 a2) ++ flatten rest ++ tail) by now rewrite <- !app_assoc.
      rewrite IH; try assumption.
      * now rewrite <- app_assoc.
      * simpl indices. lens.
      * lia.
      * lia.
Qed.

Lemma outer_spec n tail : forall bs done fuel,
  Forall valid bs -> Forall valid done ->
  n = zlen (flatten bs) + zlen (flatten done) ->
  Z.of_nat fuel > zlen (flatten bs) ->
  sort_outer S isz cmp cplx flg n eigr eigi fuel (zlen (flatten bs) - 1)
     (flatten bs ++ flatten done ++ tail)
  = Ok (flatten (fold_right insert done bs) ++ tail).
Proof.
  induction bs as [|b bs IH] using rev_ind; intros done fuel Vb Vd Hn Hf.
  - change (zlen (flatten [])) with 0 in *. destruct fuel; [simpl in Hf; lia|]. reflexivity.
  - apply Forall_app in Vb. destruct Vb as [Vbs Vb]. inversion Vb; subst x l.
    rewrite flatten_app in *. simpl flatten in *. rewrite app_nil_r in *.
    rewrite zlen_app in *. pose proof (zlen_nonneg (flatten bs)).
    pose proof (zlen_nonneg (flatten done)).
    destruct fuel; [change (Z.of_nat 0) with 0 in Hf; pose proof (zlen_nonneg (indices b)); lia|].
    rewrite fold_right_app. simpl fold_right.
    assert (Vd' : Forall valid (insert b done)).
    { eapply perm_valid; [symmetry; apply insert_perm|]. now constructor. }
    assert (Vb0 := H1).
    destruct Vb0 as [a re im Hv H5 | a b0 re im im' Hx Hv Hv' Hni Hni' H9].
    + (* single *)
      destruct Hv as [Hr Hi]. simpl in Hr, Hi. simpl indices in *.
      rewrite zlen_cons, zlen_nil in *.
      cbn [sort_outer]. destruct (Z.ltb_spec (zlen (flatten bs) + (1+0) - 1) 0); [lia|].
      replace ((flatten bs ++ [a]) ++ flatten done ++ tail) with (flatten bs ++ a :: flatten done ++ tail) by now rewrite <- app_assoc.
      rewrite aget_app_mid by lia. cbn [bind]. rewrite Hr, Hi. cbn [bind].
      replace (negb cplx && (negb (isz im) && (negb (isz re) || negb flg))) with false.
      2:{ destruct H5 as [->|[->|[-> ->]]]; simpl; try reflexivity.
          - now rewrite andb_false_r.
          - now rewrite !andb_false_r. }
      replace (flatten bs ++ a :: flatten done ++ tail)
        with (flatten bs ++ indices (Single a) ++ flatten done ++ tail) by reflexivity.
      rewrite inner_spec; try assumption.
      * cbn [bind].
        replace (zlen (flatten bs) + (1 + 0) - 1 - 1) with (zlen (flatten bs) - 1) by lia.
        apply IH; try assumption; try lia.
        rewrite len_insert. simpl indices. lens.
      * split; assumption.
      * simpl indices. lens.
      * lia.
      * lia.
    + (* pair *)
      destruct Hv as [Hr Hi]. destruct Hv' as [Hr' Hi']. simpl in Hr, Hi, Hr', Hi'. simpl indices in *.
      rewrite ?zlen_cons, ?zlen_nil in *.
      cbn [sort_outer]. destruct (Z.ltb_spec (zlen (flatten bs) + (1+(1+0)) - 1) 0); [lia|].
      replace ((flatten bs ++ [a;b0]) ++ flatten done ++ tail) with (flatten bs ++ a :: b0 :: flatten done ++ tail) by now rewrite <- app_assoc.
      replace (flatten bs ++ a :: b0 :: flatten done ++ tail)
        with ((flatten bs ++ [a]) ++ b0 :: flatten done ++ tail) by now rewrite <- app_assoc.
      rewrite aget_app_mid by lens. cbn [bind]. rewrite Hr', Hi'. cbn [bind].
      rewrite Hni'.
      replace (negb cplx && (negb false && (negb (isz re) || negb flg))) with true.
      2:{ rewrite Hx. simpl. destruct H9 as [->| ->]; simpl; [now rewrite orb_true_r|reflexivity]. }
      replace ((flatten bs ++ [a]) ++ b0 :: flatten done ++ tail)
        with (flatten bs ++ a :: b0 :: flatten done ++ tail) by now rewrite <- app_assoc.
      rewrite aget_app_mid by lia. cbn [bind]. rewrite Hi. cbn [bind].
      replace (flatten bs ++ a :: b0 :: flatten done ++ tail)
        with (flatten bs ++ indices (Pair a b0) ++ flatten done ++ tail) by reflexivity.
      rewrite inner_spec; try assumption.
      * cbn [bind].
        replace (zlen (flatten bs) + (1 + (1 + 0)) - 1 - 2) with (zlen (flatten bs) - 1) by lia.
        apply IH; try assumption; try lia.
        rewrite len_insert. simpl indices. lens.
      * split; assumption.
      * simpl indices. lens.
      * lia.
      * lia.
Qed.

Lemma sort_spec bs tail :
  Forall valid bs ->
  sort_eigenvalues S isz cmp cplx flg (zlen (flatten bs)) eigr eigi (flatten bs ++ tail)
  = Ok (flatten (isort bs) ++ tail).
Proof.
  intros V. unfold sort_eigenvalues, isort.
  replace (flatten bs ++ tail) with (flatten bs ++ flatten [] ++ tail) by reflexivity.
  apply outer_spec; try assumption.
  - constructor.
  - simpl. rewrite zlen_nil. lia.
  - pose proof (zlen_nonneg (flatten bs)). lia.
Qed.

(** Sortedness and stability of the functional insertion sort. *)
Lemma bcmp_preorder : total_preorder cmp ->
  (forall b c d, valid b -> valid c -> valid d -> bcmp b c <= 0 -> bcmp c d <= 0 -> bcmp b d <= 0) /\
  (forall b c, valid b -> valid c -> (bcmp b c > 0 <-> bcmp c b < 0)).
Proof.
  intros (T & A & Tr).
  assert (K : forall b, valid b -> exists v, value eigr eigi (head b) v)
    by (intros b Vb; inversion Vb; subst; eauto).
  split.
  - intros b c d Vb Vc Vd. destruct (K _ Vb) as [vb Hb], (K _ Vc) as [vc Hc], (K _ Vd) as [vd Hd].
    rewrite (bcmp_eq b c vb vc), (bcmp_eq c d vc vd), (bcmp_eq b d vb vd) by assumption. eauto.
  - intros b c Vb Vc. destruct (K _ Vb) as [vb Hb], (K _ Vc) as [vc Hc].
    rewrite (bcmp_eq b c vb vc), (bcmp_eq c b vc vb) by assumption. apply A.
Qed.

Lemma insert_sorted b bs : total_preorder cmp -> valid b -> Forall valid bs ->
  sorted_blocks eigr eigi cmp bs -> sorted_blocks eigr eigi cmp (insert b bs).
Proof.
  intros T Vb. destruct (bcmp_preorder T) as [Tr As].
  induction bs as [|c r IH]; simpl; intros Vs Hs.
  - repeat constructor.
  - inversion Vs as [|? ? Vc Vr]; subst. inversion Hs as [|? ? Hr Hc]; subst.
    destruct (Z.leb_spec (bcmp b c) 0).
    + constructor; [assumption|]. constructor; [lia|].
      rewrite Forall_forall in *. intros d Hd. eapply Tr with (c := c); auto.
    + constructor; [apply IH; assumption|].
      eapply Permutation_Forall; [symmetry; apply insert_perm|].
      constructor; [|assumption]. apply Z.lt_le_incl. apply As; auto. lia.
Qed.

Lemma isort_valid bs : Forall valid bs -> Forall valid (isort bs).
Proof. intros V. eapply perm_valid; [symmetry; apply isort_perm|assumption]. Qed.

Lemma isort_sorted bs : total_preorder cmp -> Forall valid bs ->
  sorted_blocks eigr eigi cmp (isort bs).
Proof.
  intros T. induction bs; simpl; intros V; [constructor|].
  inversion V; subst. apply insert_sorted; auto. now apply isort_valid.
Qed.

Lemma insert_stable b bs x : total_preorder cmp -> valid b -> valid x -> Forall valid bs ->
  filter (same_rank eigr eigi cmp x) (insert b bs) = filter (same_rank eigr eigi cmp x) (b :: bs).
Proof.
  intros T Vb Vx. destruct (bcmp_preorder T) as [Tr As].
  induction bs as [|c r IH]; intros V; [reflexivity|].
  inversion V as [|? ? Vc Vr]; subst. simpl insert.
  destruct (Z.leb_spec (bcmp b c) 0); [reflexivity|].
  simpl filter in *. rewrite IH by assumption.
  destruct (same_rank eigr eigi cmp x c) eqn:Ec, (same_rank eigr eigi cmp x b) eqn:Eb; try reflexivity.
  exfalso. unfold same_rank in *. apply andb_prop in Ec. apply andb_prop in Eb.
  destruct Ec as [E1 E2], Eb as [E3 E4]. rewrite !Z.leb_le in *.
  pose proof (Tr b x c Vb Vx Vc E4 E1). lia.
Qed.

Lemma isort_stable bs x : total_preorder cmp -> Forall valid bs -> valid x ->
  filter (same_rank eigr eigi cmp x) (isort bs) = filter (same_rank eigr eigi cmp x) bs.
Proof.
  intros T. induction bs as [|b bs IH]; intros V Vx; [reflexivity|].
  inversion V; subst. simpl isort. fold (isort bs).
  change (fold_right insert [] bs) with (isort bs).
  rewrite insert_stable; auto using isort_valid.
  simpl. now rewrite IH.
Qed.
End P.

(** SlepcSCCompare preserves total preorders. *)
Definition mapped {S} (map : option (S * S -> S * S)) (a : S * S) : S * S :=
  match map with Some f => f a | None => a end.

Lemma sc_compare_rg S map cin (comparison : S * S -> S * S -> Z) a b :
  sc_compare S map (Some cin) comparison a b =
    (if negb (cin (mapped map a) <? 0) && negb (negb (cin (mapped map b) <? 0)) then -1
     else if negb (negb (cin (mapped map a) <? 0)) && negb (cin (mapped map b) <? 0) then 1
     else comparison (mapped map a) (mapped map b)).
Proof. reflexivity. Qed.

Lemma sc_compare_norg S map (comparison : S * S -> S * S -> Z) a b :
  sc_compare S map None comparison a b = comparison (mapped map a) (mapped map b).
Proof. reflexivity. Qed.

Lemma sc_compare_preorder S map rg (comparison : S * S -> S * S -> Z) :
  total_preorder comparison -> total_preorder (sc_compare S map rg comparison).
Proof.
  intros (T & A & Tr). destruct rg as [cin|].
  - split; [|split].
    + intros x y. rewrite !sc_compare_rg.
      destruct (cin (mapped map x) <? 0), (cin (mapped map y) <? 0); simpl; try lia; apply T.
    + intros x y. rewrite !sc_compare_rg.
      destruct (cin (mapped map x) <? 0), (cin (mapped map y) <? 0); simpl; try lia; apply A.
    + intros x y z. rewrite !sc_compare_rg.
      destruct (cin (mapped map x) <? 0), (cin (mapped map y) <? 0), (cin (mapped map z) <? 0);
        simpl; try lia; apply Tr.
  - split; [|split]; intros *; rewrite !sc_compare_norg.
    + apply T.
    + apply A.
    + apply Tr.
Qed.

(** Splitting a list sorted by SlepcSCCompare with a region. *)
Section Inside.
Variable S : Type.
Variable isz : S -> bool.
Variables cplx flg : bool.
Variables eigr eigi : list S.
Variable map : option (S * S -> S * S).
Variable cin : S * S -> Z.
Variable comparison : S * S -> S * S -> Z.
Notation cmp := (sc_compare S map (Some cin) comparison).
Notation mv := (mapped_value map eigr eigi).

Lemma mv_unique b v w : mv b v -> mv b w -> v = w.
Proof.
  intros (x & [A1 A2] & ->) (y & [B1 B2] & ->).
  assert (x = y) by (destruct x, y; simpl in *; congruence). now subst.
Qed.

Lemma mv_cmp b c v w : mv b v -> mv c w -> block_cmp eigr eigi cmp b c <= 0 ->
  (cin w < 0 \/ 0 <= cin v) /\ ((cin v < 0 <-> cin w < 0) -> comparison v w <= 0).
Proof.
  intros (v0 & Hv & ->) (w0 & Hw & ->).
  rewrite (bcmp_eq S cmp eigr eigi b c v0 w0 Hv Hw). rewrite sc_compare_rg.
  change (match map with Some f => f v0 | None => v0 end) with (mapped map v0).
  change (match map with Some f => f w0 | None => w0 end) with (mapped map w0).
  destruct (Z.ltb_spec (cin (mapped map v0)) 0), (Z.ltb_spec (cin (mapped map w0)) 0); simpl; intros; split; lia.
Qed.

Definition le_mapped b c := forall v w, mv b v -> mv c w -> comparison v w <= 0.

Lemma inside_split bs : Forall (valid_block isz cplx flg eigr eigi) bs ->
  sorted_blocks eigr eigi cmp bs ->
  exists ins outs, bs = ins ++ outs
    /\ (forall b w, In b ins -> mv b w -> 0 <= cin w)
    /\ (forall b w, In b outs -> mv b w -> cin w < 0)
    /\ StronglySorted le_mapped ins /\ StronglySorted le_mapped outs.
Proof.
  induction bs as [|b bs IH]; intros V Hs.
  - exists [], []. repeat split; try constructor; intros ? ? [].
  - inversion V as [|? ? Vb Vbs]; subst. inversion Hs as [|? ? Hbs Hb]; subst.
    destruct (IH Vbs Hbs) as (ins & outs & -> & Hi & Ho & Si & So).
    assert (exists v, mv b v) as [v Hv].
    { inversion Vb; subst; eexists; eexists; split; eauto. }
    rewrite Forall_forall in Hb.
    destruct (Z.ltb_spec (cin v) 0) as [Hv0|Hv0].
    + (* b outside: then nothing inside after it *)
      assert (ins = []) as ->.
      { destruct ins as [|c ins]; [reflexivity|exfalso].
        assert (Vc : valid_block isz cplx flg eigr eigi c)
          by (rewrite Forall_forall in Vbs; apply Vbs; now left).
        assert (exists w, mv c w) as [w Hw].
        { inversion Vc; subst; eexists; eexists; split; eauto. }
        pose proof (Hi c w (or_introl eq_refl) Hw).
        destruct (mv_cmp b c v w Hv Hw) as [[?|?] _]; try lia. apply Hb. now left. }
      exists [], (b :: outs). split; [reflexivity|]. split; [intros ? ? []|].
      split; [|split; [constructor|constructor; [assumption|]]].
      * intros c w [<-|Hc] Hw; [|eauto]. now rewrite (mv_unique _ _ _ Hw Hv).
      * apply Forall_forall. intros c Hc v' w Hv' Hw.
        rewrite (mv_unique _ _ _ Hv' Hv).
        apply (mv_cmp b c v w Hv Hw (Hb c Hc)). pose proof (Ho c w Hc Hw). tauto.
    + exists (b :: ins), outs. split; [reflexivity|].
      split; [|split; [assumption|split; [|assumption]]].
      * intros c w [<-|Hc] Hw; [|eauto]. now rewrite (mv_unique _ _ _ Hw Hv).
      * constructor; [assumption|].
        apply Forall_forall. intros c Hc v' w Hv' Hw.
        rewrite (mv_unique _ _ _ Hv' Hv).
        apply (mv_cmp b c v w Hv Hw (Hb c (in_or_app _ _ _ (or_introl Hc)))).
        pose proof (Hi c w Hc Hw). lia.
Qed.
End Inside.
