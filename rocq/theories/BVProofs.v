(** Proofs about the columns of a basis: refinement of [BVSpec.basis]. *)
From Coq Require Import ZArith List Bool Lia Permutation.
From Verif Require Import Prelude BVModel BVSpec.
Import ListNotations.
Open Scope Z_scope.

Section Proofs.
Variable T : Type.
Variable zero : T.
Variable Sg : Type.
Variables sone szero : Sg.
Notation sys := (sys T Sg).
Notation heap := (heap T).

Lemma nth_upd (h : heap) b v b' :
  (b < length h)%nat ->
  nth_error (upd T h b v) b' = if Nat.eqb b' b then Some v else nth_error h b'.
Proof.
  revert b b'; induction h as [|x h IH]; intros [|b] [|b'] H; simpl in *; try lia; auto.
  apply IH. lia.
Qed.
Lemma upd_length (h : heap) b v : length (upd T h b v) = length h.
Proof. revert b; induction h; intros [|b]; simpl; auto. Qed.

Lemma block_lt (h : heap) b cs : block T h b = Ok cs -> (b < length h)%nat.
Proof.
  unfold block. destruct (nth_error h b) eqn:E; [|discriminate]. intros _.
  apply nth_error_Some. congruence.
Qed.
Lemma block_upd_same (h : heap) b cs cs' :
  block T h b = Ok cs -> block T (upd T h b (Some cs')) b = Ok cs'.
Proof.
  intros H. pose proof (block_lt _ _ _ H). unfold block. rewrite nth_upd by auto.
  now rewrite Nat.eqb_refl.
Qed.
Lemma block_upd_other (h : heap) b v b' :
  (b < length h)%nat -> b' <> b -> block T (upd T h b v) b' = block T h b'.
Proof.
  intros H Hn. unfold block. rewrite nth_upd by auto.
  destruct (Nat.eqb_spec b' b); [contradiction|reflexivity].
Qed.

(** Content of position q of an array of cells. *)
Definition cval (cs : list (cell T)) (q : Z) (v : T) : Prop := exists st, aget cs q = Ok (v, st).

Lemma cval_fun cs q v w : cval cs q v -> cval cs q w -> v = w.
Proof. intros [s H] [s' H']. congruence. Qed.
Lemma cval_ex cs q : 0 <= q < zlen cs -> exists v, cval cs q v.
Proof. intros H. apply aget_ok_iff in H. destruct H as [[v st] H]. exists v, st. exact H. Qed.

Lemma hget_ok (h : heap) b cs q v :
  block T h b = Ok cs -> cval cs q v -> exists st, hget T h (b, q) = Ok (v, st).
Proof. intros Hb [st H]. exists st. unfold hget; cbn. now rewrite Hb; cbn. Qed.

Lemma hset_ok (h : heap) b cs q v :
  block T h b = Ok cs -> 0 <= q < zlen cs ->
  exists h' cs', hset T h (b, q) v = Ok h' /\ block T h' b = Ok cs' /\ zlen cs' = zlen cs /\
    (forall q' w, cval cs' q' w <-> if q' =? q then w = v else cval cs q' w).
Proof.
  intros Hb Hq. unfold hset; cbn. rewrite Hb; cbn.
  destruct (proj2 (aget_ok_iff cs q) Hq) as [[w st] E]. rewrite E; cbn.
  destruct (proj2 (aset_ok_iff cs q (v, st + 1)) Hq) as [cs' E']. rewrite E'; cbn.
  eexists _, cs'. split; [reflexivity|]. split; [eapply block_upd_same; eauto|].
  split; [eapply aset_len; eauto|].
  intros q' u. unfold cval. rewrite (aget_aset _ _ _ _ q' E').
  destruct (q' =? q).
  - split; [intros [? [= ]]; auto | intros ->; eauto].
  - tauto.
Qed.

(** ** Slots *)
Notation free o := (- o_nc o - 1) (only parsing).

Definition outs (o : obj) : list Z :=
  (if o_c0 o =? free o then [] else [o_c0 o]) ++ (if o_c1 o =? free o then [] else [o_c1 o]).

(** Object whose columns are positions [o_off], ... of an allocation. *)
Record wfo (h : heap) (o : obj) : Prop := Wfo {
  wf_cs : exists cs, block T h (o_blk o) = Ok cs /\ 0 <= o_off o /\
                     o_off o + o_nc o + o_m o <= zlen cs;
  wf_nc : 0 <= o_nc o;
  wf_m : 0 <= o_m o;
  wf_c0 : o_c0 o = free o \/
          (- o_nc o <= o_c0 o < o_m o /\ o_i0 o = Some (colpos o (o_c0 o)));
  wf_c1 : o_c1 o = free o \/
          (- o_nc o <= o_c1 o < o_m o /\ o_i1 o = Some (colpos o (o_c1 o)));
  wf_ne : o_c0 o = free o \/ o_c0 o <> o_c1 o
}.

Lemma outs_in h o j : wfo h o -> In j (outs o) <-> (- o_nc o <= j /\ (j = o_c0 o \/ j = o_c1 o)).
Proof.
  intros W. unfold outs. rewrite in_app_iff.
  pose proof (wf_c0 _ _ W); pose proof (wf_c1 _ _ W).
  destruct (Z.eqb_spec (o_c0 o) (free o)); destruct (Z.eqb_spec (o_c1 o) (free o)); simpl; lia.
Qed.
Lemma outs_nodup h o : wfo h o -> NoDup (outs o).
Proof.
  intros W. unfold outs. pose proof (wf_ne _ _ W). pose proof (wf_c1 _ _ W).
  destruct (Z.eqb_spec (o_c0 o) (free o)); destruct (Z.eqb_spec (o_c1 o) (free o)); simpl;
    repeat constructor; simpl; try tauto. lia.
Qed.
Lemma outs_len o : (length (outs o) < 2)%nat <-> o_c0 o = free o \/ o_c1 o = free o.
Proof.
  unfold outs.
  destruct (Z.eqb_spec (o_c0 o) (free o)); destruct (Z.eqb_spec (o_c1 o) (free o)); simpl; lia.
Qed.
Lemma outs_nil o : length (outs o) = 0%nat <-> o_c0 o = free o /\ o_c1 o = free o.
Proof.
  unfold outs.
  destruct (Z.eqb_spec (o_c0 o) (free o)); destruct (Z.eqb_spec (o_c1 o) (free o)); simpl; lia.
Qed.

Lemma wfo_cell h o j : wfo h o -> - o_nc o <= j < o_m o ->
  exists cs, block T h (o_blk o) = Ok cs /\ 0 <= snd (colpos o j) < zlen cs.
Proof. intros W Hj. destruct (wf_cs _ _ W) as [cs [? [? ?]]]. exists cs. cbn. split; auto. lia. Qed.

(** BVGetColumn succeeds exactly when the column exists, is not out, and a slot is free. *)
Lemma get_column_spec h o j :
  wfo h o ->
  if (- o_nc o <=? j) && (j <? o_m o) && negb (existsb (Z.eqb j) (outs o)) && (length (outs o) <? 2)%nat
  then exists o', get_column T h o j = Ok (o', colpos o j) /\ wfo h o' /\
         Permutation (outs o') (j :: outs o) /\ o_blk o' = o_blk o /\ o_off o' = o_off o /\
         o_nc o' = o_nc o /\ o_m o' = o_m o /\ o_l o' = o_l o /\ o_k o' = o_k o /\ o_state o' = o_state o
  else get_column T h o j = Err.
Proof.
  intros W. unfold get_column, check.
  pose proof (wf_nc _ _ W) as Wc.
  assert (G1 : (0 <=? j) || (- j <=? o_nc o) = (- o_nc o <=? j)).
  { destruct (Z.leb_spec 0 j), (Z.leb_spec (- j) (o_nc o)), (Z.leb_spec (- o_nc o) j); simpl; auto; lia. }
  assert (G2 : - o_nc o <= j -> negb (j =? o_c0 o) && negb (j =? o_c1 o) = negb (existsb (Z.eqb j) (outs o))).
  { intros Hj. rewrite <- negb_orb. f_equal. apply eq_true_iff_eq. rewrite existsb_exists, orb_true_iff.
    split.
    - intros E. exists j. rewrite Z.eqb_refl. split; auto. apply (outs_in _ _ _ W). lia.
    - intros [x [Hx Ex]]. apply Z.eqb_eq in Ex. subst x. apply (outs_in _ _ _ W) in Hx. lia. }
  assert (G3 : (o_c0 o =? free o) || (o_c1 o =? free o) = (length (outs o) <? 2)%nat).
  { apply eq_true_iff_eq. rewrite orb_true_iff, !Z.eqb_eq, Nat.ltb_lt. symmetry. apply outs_len. }
  rewrite G1.
  destruct (Z.leb_spec (- o_nc o) j) as [Hj|Hj]; cbn [andb]; [|reflexivity].
  destruct (Z.ltb_spec j (o_m o)) as [Hm|Hm]; cbn [andb]; [|reflexivity].
  rewrite <- (G2 Hj), <- G3.
  destruct (Z.eqb_spec j (o_c0 o)) as [J0|J0]; cbn [negb andb]; [reflexivity|].
  destruct (Z.eqb_spec j (o_c1 o)) as [J1|J1]; cbn [negb andb]; [reflexivity|].
  destruct (wfo_cell h o j W ltac:(lia)) as [cs [Hb Hq]].
  destruct (cval_ex _ _ Hq) as [v Hv].
  destruct (hget_ok _ _ _ _ _ Hb Hv) as [st E].
  change (o_blk o, snd (colpos o j)) with (colpos o j) in E.
  destruct (wf_cs _ _ W) as [cs2 [Hb2 [? ?]]].
  pose proof (wf_c0 _ _ W) as W0; pose proof (wf_c1 _ _ W) as W1; pose proof (wf_ne _ _ W) as Wn.
  pose proof (wf_m _ _ W) as Wm.
  rewrite E. cbn [bind].
  destruct (Z.eqb_spec (o_c0 o) (free o)) as [E0|E0]; cbn [orb].
  - eexists; split; [reflexivity|]; split.
    + constructor; cbn; auto. exists cs2; auto.
    + unfold outs; cbn. destruct (Z.eqb_spec j (free o)); [lia|].
      destruct (Z.eqb_spec (o_c0 o) (free o)); [|lia]. simpl.
      split; [apply Permutation_refl|repeat split].
  - destruct (Z.eqb_spec (o_c1 o) (free o)) as [E1|E1]; [|reflexivity].
    eexists; split; [reflexivity|]; split.
    + constructor; cbn; auto. exists cs2; auto.
    + unfold outs; cbn. destruct (Z.eqb_spec j (free o)); [lia|].
      destruct (Z.eqb_spec (o_c0 o) (free o)); [lia|].
      destruct (Z.eqb_spec (o_c1 o) (free o)); [|lia]. simpl.
      split; [apply perm_swap|repeat split].
Qed.

Lemma handle_eqb_refl p : handle_eqb p p = true.
Proof. unfold handle_eqb. now rewrite Nat.eqb_refl, Z.eqb_refl. Qed.

Lemma restore_column_spec h o j :
  wfo h o -> In j (outs o) ->
  exists o', restore_column T h o j (colpos o j) = Ok o' /\ wfo h o' /\
    Permutation (j :: outs o') (outs o) /\ o_blk o' = o_blk o /\ o_off o' = o_off o /\
    o_nc o' = o_nc o /\ o_m o' = o_m o /\ o_l o' = o_l o /\ o_k o' = o_k o /\
    o_state o <= o_state o'.
Proof.
  intros W Hin.
  pose proof (proj1 (outs_in _ _ _ W) Hin) as [Hj Hc].
  pose proof (wf_c0 _ _ W) as W0; pose proof (wf_c1 _ _ W) as W1; pose proof (wf_ne _ _ W) as Wn.
  pose proof (wf_nc _ _ W) as Wc; pose proof (wf_m _ _ W) as Wm.
  destruct (wf_cs _ _ W) as [cs2 [Hb2 [? ?]]].
  assert (Hjm : - o_nc o <= j < o_m o) by lia.
  destruct (wfo_cell h o j W Hjm) as [cs [Hb Hq]].
  destruct (cval_ex _ _ Hq) as [v Hv].
  destruct (hget_ok _ _ _ _ _ Hb Hv) as [st E].
  unfold restore_column, check.
  replace ((0 <=? j) || (- j <=? o_nc o)) with true
    by (destruct (Z.leb_spec 0 j), (Z.leb_spec (- j) (o_nc o)); simpl; auto; lia).
  replace (j <? o_m o) with true by (symmetry; apply Z.ltb_lt; lia).
  replace ((j =? o_c0 o) || (j =? o_c1 o)) with true
    by (destruct (Z.eqb_spec j (o_c0 o)), (Z.eqb_spec j (o_c1 o)); simpl; auto; lia).
  cbn [snd] in *. unfold colpos at 1. cbn [colpos fst snd] in E. rewrite E. cbn [bind].
  destruct (Z.eqb_spec j (o_c0 o)) as [E0|E0].
  - destruct W0 as [W0|[_ Hid]]; [lia|]. rewrite Hid, <- E0. cbn [id_eqb]. rewrite handle_eqb_refl.
    eexists; split; [reflexivity|].
    destruct (snd (v, st) =? o_s0 o); cbn; (split; [constructor; cbn; auto; exists cs2; auto|]);
    unfold outs; cbn;
    rewrite Z.eqb_refl; destruct (Z.eqb_spec (o_c0 o) (free o)); try lia; rewrite <- E0; simpl;
    (split; [apply Permutation_refl|]); repeat split; lia.
  - destruct Hc as [?|E1]; [lia|].
    destruct W1 as [W1|[_ Hid]]; [lia|]. rewrite Hid, <- E1. cbn [id_eqb]. rewrite handle_eqb_refl.
    eexists; split; [reflexivity|].
    destruct (snd (v, st) =? o_s1 o); cbn;
    (split; [constructor; cbn; auto; [exists cs2; auto|lia]|]);
    unfold outs; cbn;
    rewrite Z.eqb_refl; destruct (Z.eqb_spec (o_c1 o) (free o)); try lia; rewrite <- E1;
    destruct (Z.eqb_spec (o_c0 o) (free o)); simpl;
    (split; [apply Permutation_refl || apply perm_swap|]); repeat split; lia.
Qed.

(** Restoring a column that is not out is an error, whatever Vec is given. *)
Lemma restore_not_out h o j p :
  wfo h o -> ~ In j (outs o) -> restore_column T h o j p = Err.
Proof.
  intros W Hin. unfold restore_column, check.
  pose proof (wf_nc _ _ W) as Wc.
  destruct (Z.leb_spec 0 j), (Z.leb_spec (- j) (o_nc o)); cbn [orb]; auto;
  destruct (j <? o_m o); auto;
  destruct (Z.eqb_spec j (o_c0 o)), (Z.eqb_spec j (o_c1 o)); cbn [orb]; auto;
  exfalso; apply Hin; apply (outs_in _ _ _ W); lia.
Qed.

Lemma wfo_heap h h' o cs cs' :
  wfo h o -> block T h (o_blk o) = Ok cs -> block T h' (o_blk o) = Ok cs' -> zlen cs' = zlen cs ->
  wfo h' o.
Proof.
  intros W Hb Hb' Hl. destruct W as [[cs0 [Hb0 [? ?]]] ? ? ? ? ?].
  constructor; auto. exists cs'. rewrite Hb in Hb0. injection Hb0 as <-. repeat split; auto. lia.
Qed.

(** ** BVSetNumConstraints *)
Lemma shift_one_spec h o cs diff i :
  wfo h o -> outs o = [] -> block T h (o_blk o) = Ok cs ->
  0 <= i < o_m o -> - o_nc o <= diff < 0 ->
  exists h' o' cs',
    shift_one T diff i (h, o) = Ok (h', o') /\ wfo h' o' /\ outs o' = [] /\
    block T h' (o_blk o') = Ok cs' /\ zlen cs' = zlen cs /\
    o_blk o' = o_blk o /\ o_off o' = o_off o /\
    o_nc o' = o_nc o /\ o_m o' = o_m o /\ o_l o' = o_l o /\ o_k o' = o_k o /\
    (forall q w, cval cs' q w <->
       if q =? o_off o + o_nc o + (i + diff) then cval cs (o_off o + o_nc o + i) w else cval cs q w).
Proof.
  intros W Ho Hb Hi Hd. unfold shift_one.
  pose proof (get_column_spec h o i W) as G1. rewrite Ho in G1. cbn [existsb length negb] in G1.
  replace ((- o_nc o <=? i) && (i <? o_m o) && true && (0 <? 2)%nat) with true in G1
    by (pose proof (wf_nc _ _ W); destruct (Z.leb_spec (- o_nc o) i), (Z.ltb_spec i (o_m o)); simpl; auto; lia).
  destruct G1 as [o1 [E1 [W1 [P1 [B1 [F1 [N1 [M1 [L1 [K1 S1]]]]]]]]]]. rewrite E1. cbn [bind].
  apply Permutation_sym, Permutation_length_1_inv in P1. 
  pose proof (get_column_spec h o1 (i + diff) W1) as G2. rewrite P1 in G2. cbn [existsb length] in G2.
  replace ((- o_nc o1 <=? i + diff) && (i + diff <? o_m o1) && negb ((i + diff =? i) || false) && (1 <? 2)%nat)
    with true in G2
    by (rewrite N1, M1; destruct (Z.leb_spec (- o_nc o) (i + diff)), (Z.ltb_spec (i + diff) (o_m o)),
                                  (Z.eqb_spec (i + diff) i); simpl; auto; lia).
  destruct G2 as [o2 [E2 [W2 [P2 [B2 [F2 [N2 [M2 [L2 [K2 S2]]]]]]]]]]. rewrite E2. cbn [bind].
  destruct (wfo_cell h o i W ltac:(lia)) as [cs0 [Hb0 Hq]].
  assert (cs0 = cs) by congruence; subst cs0. cbn [colpos snd] in Hq.
  destruct (cval_ex _ _ Hq) as [v Hv].
  destruct (hget_ok _ _ _ _ _ Hb Hv) as [st E]. unfold colpos at 1. rewrite E. cbn [bind].
  destruct (wfo_cell h o (i + diff) W ltac:(lia)) as [cs0 [Hb0' Hq2]].
  assert (cs0 = cs) by congruence; subst cs0. cbn [colpos snd] in Hq2.
  assert (C1 : forall j, colpos o1 j = colpos o j) by (intros; unfold colpos; now rewrite B1, F1, N1).
  assert (C2 : forall j, colpos o2 j = colpos o j) by (intros; rewrite <- C1; unfold colpos; now rewrite B2, F2, N2).
  rewrite C1.
  destruct (hset_ok _ _ _ _ v Hb Hq2) as [h' [cs' [E3 [Hb' [Hl' Hc']]]]].
  unfold colpos at 1. cbn [fst]. rewrite E3. cbn [bind].
  assert (W2' : wfo h' o2).
  { eapply wfo_heap; [exact W2| | |]; rewrite ?B2, ?B1; eauto. }
  assert (In2 : In i (outs o2)).
  { apply (Permutation_in i (Permutation_sym P2)). right; left; reflexivity. }
  destruct (restore_column_spec h' o2 i W2' In2) as [o3 [E4 [W3 [P3 [B3 [F3 [N3 [M3 [L3 [K3 S3]]]]]]]]]].
  rewrite <- C2, E4. cbn [bind].
  assert (P3' : outs o3 = [i + diff]).
  { assert (Permutation (i :: outs o3) (i :: [i + diff])).
    { etransitivity; [exact P3|]. etransitivity; [exact P2|]. apply perm_swap. }
    apply Permutation_cons_inv in H. apply Permutation_sym, Permutation_length_1_inv in H. auto. }
  assert (In3 : In (i + diff) (outs o3)) by (rewrite P3'; left; reflexivity).
  destruct (restore_column_spec h' o3 (i + diff) W3 In3) as [o4 [E5 [W4 [P4 [B4 [F4 [N4 [M4 [L4 [K4 S4]]]]]]]]]].
  assert (C3 : colpos o3 (i + diff) = colpos o (i + diff))
    by (rewrite <- C2; unfold colpos; now rewrite B3, F3, N3).
  rewrite <- C3, E5. cbn [bind].
  eexists h', o4, cs'. split; [reflexivity|]. split; [exact W4|].
  split.
  { rewrite P3' in P4. apply Permutation_cons_inv in P4. now apply Permutation_sym, Permutation_nil in P4. }
  replace (o_blk o4) with (o_blk o) by congruence.
  split; [exact Hb'|]. split; [exact Hl'|].
  repeat split; try congruence.
  - intros H. apply Hc' in H. destruct (q =? _); [subst; auto|auto].
  - intros H. apply Hc'. destruct (q =? _); [eapply cval_fun; eauto|auto].
Qed.

Lemma shift_loop h o cs diff :
  wfo h o -> outs o = [] -> block T h (o_blk o) = Ok cs -> - o_nc o <= diff < 0 ->
  exists h' o' cs',
    forz 0 (o_m o) (shift_one T diff) (h, o) = Ok (h', o') /\ wfo h' o' /\ outs o' = [] /\
    block T h' (o_blk o') = Ok cs' /\ zlen cs' = zlen cs /\
    o_blk o' = o_blk o /\ o_off o' = o_off o /\
    o_nc o' = o_nc o /\ o_m o' = o_m o /\ o_l o' = o_l o /\ o_k o' = o_k o /\
    (forall q w, cval cs' q w <->
       if (o_off o + o_nc o + diff <=? q) && (q <? o_off o + o_nc o + diff + o_m o)
       then cval cs (q - diff) w else cval cs q w).
Proof.
  intros W Ho Hb Hd.
  pose proof (wf_m _ _ W) as Hm.
  destruct (forz_inv (fun i ho => let '(h', o') := ho in exists cs',
     wfo h' o' /\ outs o' = [] /\
     block T h' (o_blk o') = Ok cs' /\ zlen cs' = zlen cs /\
     o_blk o' = o_blk o /\ o_off o' = o_off o /\
     o_nc o' = o_nc o /\ o_m o' = o_m o /\ o_l o' = o_l o /\ o_k o' = o_k o /\
     (forall q w, cval cs' q w <->
       if (o_off o + o_nc o + diff <=? q) && (q <? o_off o + o_nc o + diff + i)
       then cval cs (q - diff) w else cval cs q w))
    0 (o_m o) (shift_one T diff) (h, o)) as [[h' o'] [E H]].
  - lia.
  - exists cs. do 10 (split; [now auto|]). intros q w.
    destruct (Z.leb_spec (o_off o + o_nc o + diff) q), (Z.ltb_spec q (o_off o + o_nc o + diff + 0));
      simpl; try tauto; lia.
  - intros i [h1 o1] Hi [cs1 [W1 [O1 [B1 [Z1 [Bk [F1 [N1 [M1 [L1 [K1 C1]]]]]]]]]]].
    destruct (shift_one_spec h1 o1 cs1 diff i W1 O1 B1 ltac:(lia) ltac:(lia))
      as [h2 [o2 [cs2 [E2 [W2 [O2 [B2 [Z2 [Bk2 [F2 [N2 [M2 [L2 [K2 C2]]]]]]]]]]]]]].
    exists (h2, o2). split; [exact E2|]. exists cs2.
    do 10 (split; [now auto || congruence|]). intros q w. split.
    + intros H. apply C2 in H. rewrite F1, N1 in H.
      destruct (Z.eqb_spec q (o_off o + o_nc o + (i + diff))).
      * apply C1 in H.
        destruct (Z.leb_spec (o_off o + o_nc o + diff) q), (Z.ltb_spec q (o_off o + o_nc o + diff + (i + 1)));
          cbn [andb]; try lia.
        destruct (Z.leb_spec (o_off o + o_nc o + diff) (o_off o + o_nc o + i)),
          (Z.ltb_spec (o_off o + o_nc o + i) (o_off o + o_nc o + diff + i)); cbn [andb] in H; try lia.
        replace (q - diff) with (o_off o + o_nc o + i) by lia. exact H.
      * apply C1 in H.
        destruct (Z.leb_spec (o_off o + o_nc o + diff) q), (Z.ltb_spec q (o_off o + o_nc o + diff + (i + 1))),
          (Z.ltb_spec q (o_off o + o_nc o + diff + i));
          cbn [andb] in *; try lia; auto.
    + intros H. apply C2. rewrite F1, N1.
      destruct (Z.eqb_spec q (o_off o + o_nc o + (i + diff))).
      * apply C1.
        destruct (Z.leb_spec (o_off o + o_nc o + diff) q), (Z.ltb_spec q (o_off o + o_nc o + diff + (i + 1)));
          cbn [andb] in H; try lia.
        destruct (Z.leb_spec (o_off o + o_nc o + diff) (o_off o + o_nc o + i)),
          (Z.ltb_spec (o_off o + o_nc o + i) (o_off o + o_nc o + diff + i)); cbn [andb]; try lia.
        replace (o_off o + o_nc o + i) with (q - diff) by lia. exact H.
      * apply C1.
        destruct (Z.leb_spec (o_off o + o_nc o + diff) q), (Z.ltb_spec q (o_off o + o_nc o + diff + (i + 1))),
          (Z.ltb_spec q (o_off o + o_nc o + diff + i));
          cbn [andb] in *; try lia; auto.
  - destruct H as [cs' H]. exists h', o', cs'. split; auto.
Qed.

Lemma set_num_constraints_spec h o cs nc :
  wfo h o -> 0 < o_m o -> block T h (o_blk o) = Ok cs ->
  if (0 <=? nc) && (nc <? o_nc o + o_m o) && (length (outs o) =? 0)%nat then
    exists h' o' cs',
    set_num_constraints T h o nc = Ok (h', o') /\ wfo h' o' /\ outs o' = [] /\
    block T h' (o_blk o') = Ok cs' /\ zlen cs' = zlen cs /\
    o_blk o' = o_blk o /\ o_off o' = o_off o /\ o_nc o' = nc /\ o_m o' = o_nc o + o_m o - nc /\
    o_l o' = (if nc =? o_nc o then o_l o else Z.min (o_l o) (o_m o')) /\
    o_k o' = (if nc =? o_nc o then o_k o else Z.min (o_k o) (o_m o')) /\
    (forall q w, cval cs' q w <->
       if (nc <? o_nc o) && (o_off o + nc <=? q) && (q <? o_off o + nc + o_m o)
       then cval cs (q - (nc - o_nc o)) w else cval cs q w)
  else set_num_constraints T h o nc = Err.
Proof.
  intros W Wm Hb. unfold set_num_constraints, check. pose proof (wf_nc _ _ W) as Wn.
  assert (G3 : (o_c0 o =? free o) && (o_c1 o =? free o) = (length (outs o) =? 0)%nat).
  { apply eq_true_iff_eq. rewrite andb_true_iff, !Z.eqb_eq, Nat.eqb_eq. symmetry. apply outs_nil. }
  rewrite G3.
  destruct (Z.leb_spec 0 nc) as [Hnc|]; cbn [andb]; [|reflexivity].
  destruct (Nat.eqb_spec (length (outs o)) 0) as [Ho|Ho]; rewrite ?andb_true_r, ?andb_false_r; [|reflexivity].
  assert (Ho' : outs o = []) by (destruct (outs o); [auto|discriminate]).
  destruct (Z.eqb_spec (nc - o_nc o) 0) as [Hd|Hd].
  - replace (nc <? o_nc o + o_m o) with true by (symmetry; apply Z.ltb_lt; lia).
    exists h, o, cs. split; [reflexivity|]. split; [exact W|].
    replace (nc =? o_nc o) with true by (symmetry; apply Z.eqb_eq; lia).
    do 9 (split; [auto; lia|]). intros q w.
    destruct (Z.ltb_spec nc (o_nc o)); [lia|]. simpl. tauto.
  - replace (0 <? o_nc o + o_m o - nc) with (nc <? o_nc o + o_m o)
      by (destruct (Z.ltb_spec nc (o_nc o + o_m o)), (Z.ltb_spec 0 (o_nc o + o_m o - nc)); auto; lia).
    destruct (Z.ltb_spec nc (o_nc o + o_m o)) as [Ht|Ht]; [|reflexivity].
    replace (nc =? o_nc o) with false by (symmetry; apply Z.eqb_neq; lia).
    destruct (Z.ltb_spec (nc - o_nc o) 0) as [Hneg|Hpos].
    + destruct (shift_loop h o cs (nc - o_nc o) W Ho' Hb ltac:(lia))
        as [h' [o' [cs' [E [W' [O' [B' [Z' [Bk [F [N [M [L [K C]]]]]]]]]]]]]].
      rewrite E. cbn [bind]. eexists h', _, cs'. split; [reflexivity|].
      destruct (wf_cs _ _ W') as [cs2 [Hb2 [? ?]]]. assert (cs2 = cs') by congruence. subst cs2.
      split; [constructor; cbn; auto; [exists cs'; repeat split; auto; lia | lia]|].
      split; [unfold outs; cbn; rewrite Z.eqb_refl; reflexivity|].
      cbn. do 6 (split; [auto; fail|]). do 2 (split; [congruence|]).
      intros q w. rewrite C. replace (o_off o + o_nc o + (nc - o_nc o)) with (o_off o + nc) by lia.
      destruct (Z.ltb_spec nc (o_nc o)); [|lia]. cbn [andb]. tauto.
    + cbn [bind]. eexists h, _, cs. split; [reflexivity|].
      destruct (wf_cs _ _ W) as [cs2 [Hb2 [? ?]]]. assert (cs2 = cs) by congruence. subst cs2.
      split; [constructor; cbn; auto; [exists cs; repeat split; auto; lia | lia]|].
      split; [unfold outs; cbn; rewrite Z.eqb_refl; reflexivity|].
      cbn. do 8 (split; [auto; fail|]).
      intros q w. destruct (Z.ltb_spec nc (o_nc o)); [lia|]. cbn [andb]. tauto.
Qed.

(** ** Simulation *)
Notation basis := (basis T).

Record sim (s : sys) (t : table) (a : basis) : Prop := Sim {
  sm_wf : wfo (s_heap T Sg s) (s_par T Sg s);
  sm_off : o_off (s_par T Sg s) = 0;
  sm_nc : a_nc T a = o_nc (s_par T Sg s);
  sm_m : a_m T a = o_m (s_par T Sg s);
  sm_pos : 0 < a_m T a;
  sm_len : exists cs, block T (s_heap T Sg s) (o_blk (s_par T Sg s)) = Ok cs /\
           zlen cs = o_nc (s_par T Sg s) + o_m (s_par T Sg s) /\
           forall j, - a_nc T a <= j < a_m T a -> cval cs (a_nc T a + j) (a_col T a j);
  sm_out : Permutation (a_out T a) (outs (s_par T Sg s));
  sm_t : forall j, t j = if outb T a j then Some (colpos (s_par T Sg s) j) else None;
  sm_w : forall w, s_omega T Sg s = Some w -> False
}.

Lemma outb_in a j : outb T a j = true <-> In j (a_out T a).
Proof.
  unfold outb. rewrite existsb_exists. split.
  - intros [x [H E]]. apply Z.eqb_eq in E. now subst.
  - intros H. exists j. now rewrite Z.eqb_refl.
Qed.
Lemma outb_outs s t a j : sim s t a -> outb T a j = true <-> In j (outs (s_par T Sg s)).
Proof.
  intros R. rewrite outb_in. pose proof (sm_out _ _ _ R) as P. split; apply Permutation_in; auto.
  now apply Permutation_sym.
Qed.
Lemma existsb_outs s t a j : sim s t a -> existsb (Z.eqb j) (outs (s_par T Sg s)) = outb T a j.
Proof.
  intros R. apply eq_true_iff_eq. rewrite (outb_outs _ _ _ j R), existsb_exists. split.
  - intros [x [H E]]. apply Z.eqb_eq in E. now subst.
  - intros H. exists j. now rewrite Z.eqb_refl.
Qed.
Lemma outb_valid s t a j : sim s t a -> outb T a j = true -> - a_nc T a <= j < a_m T a.
Proof.
  intros R H. apply (outb_outs _ _ _ _ R) in H. pose proof (sm_wf _ _ _ R) as W.
  apply (outs_in _ _ _ W) in H. rewrite (sm_nc _ _ _ R), (sm_m _ _ _ R).
  pose proof (wf_c0 _ _ W); pose proof (wf_c1 _ _ W). lia.
Qed.

Lemma perm_remove (j : Z) l l' : NoDup (j :: l') -> Permutation l (j :: l') ->
  Permutation (remove Z.eq_dec j l) l'.
Proof.
  intros Hn P.
  assert (Hn2 : NoDup l) by (eapply Permutation_NoDup; [apply Permutation_sym; eauto|auto]).
  apply NoDup_Permutation.
  - clear -Hn2. induction l as [|x l IH]; simpl; [constructor|].
    inversion Hn2; subst. destruct (Z.eq_dec j x); auto. constructor; auto.
    intros H. apply in_remove in H. tauto.
  - now inversion Hn.
  - intros x. split.
    + intros H. apply in_remove in H. destruct H as [H Hx].
      apply (Permutation_in x P) in H. destruct H; [congruence|auto].
    + intros H. apply in_in_remove.
      * inversion Hn; subst. congruence.
      * apply (Permutation_in x (Permutation_sym P)). now right.
Qed.

Notation cstep := (client_step T zero Sg sone szero).
Notation astep := (basis_step T zero).

Theorem sim_step s t a c :
  sim s t a -> allowed T a c ->
  snd (cstep (s, t) c) = snd (astep a c) /\
  sim (fst (fst (cstep (s, t) c))) (snd (fst (cstep (s, t) c))) (fst (astep a c)).
Proof.
  intros R Hal.
  pose proof (sm_wf _ _ _ R) as W. pose proof (sm_off _ _ _ R) as Hoff.
  pose proof (sm_nc _ _ _ R) as Hnc. pose proof (sm_m _ _ _ R) as Hm.
  assert (Hpos : 0 < o_m (s_par T Sg s)) by (rewrite <- Hm; exact (sm_pos _ _ _ R)).
  pose proof (sm_pos _ _ _ R) as Hpos'.
  pose proof (sm_out _ _ _ R) as Hout. pose proof (sm_t _ _ _ R) as Ht.
  destruct (sm_len _ _ _ R) as [cs [Hcs [Hlen Hval]]].
  assert (HL : length (a_out T a) = length (outs (s_par T Sg s))) by now apply Permutation_length.
  destruct c as [j|j|j v|j|nc|m copy|j i|l k]; cbn [client_step basis_step allowed] in *.
  - (* CGet *)
    unfold mstep; cbn [step obj_of bind].
    pose proof (get_column_spec (s_heap T Sg s) (s_par T Sg s) j W) as G.
    rewrite (existsb_outs _ _ _ j R), <- Hnc, <- Hm, <- HL in G. unfold validb.
    destruct ((- a_nc T a <=? j) && (j <? a_m T a) && negb (outb T a j) && (length (a_out T a) <? 2)%nat) eqn:E.
    + destruct G as [o' [-> [W' [P [B [F [N [M [L [K S]]]]]]]]]]. cbn [bind wrap fst snd].
      split; [reflexivity|]. constructor; cbn; auto; try congruence.
      * exists cs. rewrite B, N, M. split; [auto|]. split; [congruence|auto].
      * etransitivity; [apply perm_skip; exact Hout|]. now apply Permutation_sym.
      * intros i. unfold vset, outb; cbn. unfold colpos. rewrite B, F, N, Hnc.
        destruct (Z.eqb_spec i j) as [->|]; [reflexivity|]. cbn. apply Ht.
      * exact (sm_w _ _ _ R).
    + rewrite G. cbn [bind wrap fst snd]. split; [reflexivity|exact R].
  - (* CRead *)
    rewrite Ht. destruct (outb T a j) eqn:E; cbn [fst snd]; [|split; [reflexivity|exact R]].
    pose proof (outb_valid _ _ _ _ R E) as Hj. specialize (Hval _ Hj).
    destruct (hget_ok _ _ _ _ _ Hcs Hval) as [st Eg].
    unfold mstep; cbn [step]. unfold colpos. rewrite Hoff, <- Hnc.
    replace (0 + a_nc T a + j) with (a_nc T a + j) by lia. rewrite Eg. cbn.
    split; [reflexivity|exact R].
  - (* CWrite *)
    rewrite Ht. destruct (outb T a j) eqn:E; cbn [fst snd]; [|split; [reflexivity|exact R]].
    pose proof (outb_valid _ _ _ _ R E) as Hj.
    destruct (hset_ok _ _ _ (a_nc T a + j) v Hcs ltac:(lia)) as [h' [cs' [Eh [Hb' [Hl' Hc']]]]].
    unfold mstep; cbn [step]. unfold colpos. rewrite Hoff, <- Hnc.
    replace (0 + a_nc T a + j) with (a_nc T a + j) by lia. rewrite Eh. cbn.
    split; [reflexivity|]. constructor; cbn; auto.
    + eapply wfo_heap; eauto.
    + exists cs'. split; [auto|]. split; [congruence|]. intros i Hi. apply Hc'. unfold setcol.
      destruct (Z.eqb_spec (a_nc T a + i) (a_nc T a + j)), (Z.eqb_spec i j); try lia; auto.
    + exact (sm_w _ _ _ R).
  - (* CRestore *)
    rewrite Ht. destruct (outb T a j) eqn:E; cbn [fst snd]; [|split; [reflexivity|exact R]].
    pose proof (proj1 (outb_outs _ _ _ _ R) E) as Hin.
    destruct (restore_column_spec _ _ _ W Hin) as [o' [Er [W' [P [B [F [N [M [L [K S]]]]]]]]]].
    unfold mstep; cbn [step obj_of bind]. rewrite Er. cbn.
    split; [reflexivity|].
    assert (Hperm : Permutation (remove Z.eq_dec j (a_out T a)) (outs o')).
    { apply perm_remove.
      - eapply Permutation_NoDup; [apply Permutation_sym; exact P|]. eapply outs_nodup; eauto.
      - etransitivity; [exact Hout|]. now apply Permutation_sym. }
    constructor; cbn; auto; try congruence.
    + exists cs. rewrite B, N, M. split; [auto|]. split; [congruence|auto].
    + intros i. unfold vset. unfold colpos. rewrite B, F, N.
      assert (Hi : outb T (Basis T (a_nc T a) (a_m T a) (a_col T a) (remove Z.eq_dec j (a_out T a))) i
                   = if i =? j then false else outb T a i).
      { apply eq_true_iff_eq. rewrite outb_in. cbn. destruct (Z.eqb_spec i j) as [->|Hne].
        - split; [intros H; apply in_remove in H; tauto|discriminate].
        - rewrite outb_in. split; [intros H; apply in_remove in H; tauto|].
          intros H. apply in_in_remove; auto. }
      unfold outb in Hi at 1. cbn [a_out] in Hi. rewrite Hi.
      destruct (i =? j); [reflexivity|]. apply Ht.
    + exact (sm_w _ _ _ R).
  - (* CConstraints *)
    unfold mstep; cbn [step].
    pose proof (set_num_constraints_spec _ _ cs nc W Hpos Hcs) as G.
    rewrite <- Hnc, <- Hm, <- HL in G.
    destruct ((0 <=? nc) && (nc <? a_nc T a + a_m T a) && (length (a_out T a) =? 0)%nat) eqn:E.
    + destruct G as [h' [o' [cs' [-> [W' [O' [B' [Z' [Bk [F [N [M [L [K C]]]]]]]]]]]]]].
      cbn. split; [reflexivity|].
      assert (Ho : a_out T a = []).
      { apply andb_true_iff in E. destruct E as [_ E]. apply Nat.eqb_eq in E.
        now destruct (a_out T a). }
      apply andb_true_iff in E. destruct E as [E _]. apply andb_true_iff in E. destruct E as [E1 E2].
      apply Z.leb_le in E1. apply Z.ltb_lt in E2.
      constructor; cbn; auto; try lia.
      * exists cs'. split; [auto|]. split; [lia|]. intros j Hj. apply C. rewrite Hoff.
        destruct (Z.ltb_spec (nc - a_nc T a) 0) as [Hd|Hd].
        -- destruct (Z.ltb_spec nc (a_nc T a)); [|lia]. cbn [andb].
           destruct (Z.leb_spec (0 + nc) (nc + j)), (Z.ltb_spec (nc + j) (0 + nc + a_m T a)),
             (Z.leb_spec 0 j), (Z.ltb_spec j (a_m T a)); cbn [andb]; try lia.
           all: match goal with
                | |- cval _ (_ - _) _ => replace (nc + j - (nc - a_nc T a)) with (a_nc T a + j) by lia
                | _ => replace (nc + j) with (a_nc T a + (j + (nc - a_nc T a))) by lia
                end; apply Hval; lia.
        -- destruct (Z.ltb_spec nc (a_nc T a)); [lia|]. cbn [andb].
           replace (nc + j) with (a_nc T a + (j + (nc - a_nc T a))) by lia. apply Hval. lia.
      * rewrite O'. constructor.
      * intros j. specialize (Ht j). unfold outb in *. rewrite Ho in Ht. cbn in *. auto.
      * exact (sm_w _ _ _ R).
    + rewrite G. cbn. split; [reflexivity|exact R].
  - (* CResize *)
    unfold mstep; cbn [step]. unfold resize, check.
    destruct (Z.ltb_spec 0 m) as [Hm0|]; cbn [andb]; [|cbn; split; [reflexivity|exact R]].
    rewrite <- Hnc.
    destruct (Z.eqb_spec (a_nc T a) 0) as [Hn0|]; cbn [andb]; [|cbn; split; [reflexivity|exact R]].
    rewrite <- Hm.
    destruct (Z.eqb_spec (a_m T a) m) as [Hmm|Hmm]; [cbn; split; [reflexivity|exact R]|].
    rewrite Hcs. cbn [bind].
    assert (Hw : s_omega T Sg s = None).
    { pose proof (sm_w _ _ _ R) as Hw. destruct (s_omega T Sg s); [exfalso; eauto|reflexivity]. }
    rewrite Hw. cbn [resize_omega bind wrap lift fst snd].
    split; [reflexivity|].
    assert (Ho0 : o_c0 (s_par T Sg s) = - 0 - 1 /\ o_c1 (s_par T Sg s) = - 0 - 1).
    { rewrite Hal in HL. cbn in HL. symmetry in HL. apply outs_nil in HL. lia. }
    destruct Ho0 as [Ec0 Ec1].
    pose proof (block_lt _ _ _ Hcs) as Hblt.
    assert (Hb' : block T (upd T (s_heap T Sg s) (o_blk (s_par T Sg s)) None ++
              [Some (resize_store T zero cs (a_m T a) m copy)]) (length (s_heap T Sg s))
              = Ok (resize_store T zero cs (a_m T a) m copy)).
    { unfold block. rewrite nth_error_app2 by (rewrite upd_length; lia).
      rewrite upd_length, Nat.sub_diag. reflexivity. }
    assert (Hlen' : zlen (resize_store T zero cs (a_m T a) m copy) = m).
    { unfold resize_store, zlen. unfold zlen in Hlen. destruct copy.
      - rewrite app_length, firstn_length, repeat_length. lia.
      - rewrite repeat_length. lia. }
    constructor; cbn; auto; try lia.
    + constructor; cbn; auto; try lia.
      exists (resize_store T zero cs (a_m T a) m copy). rewrite Hb', Hlen'. repeat split; lia.
    + exists (resize_store T zero cs (a_m T a) m copy). split; [exact Hb'|]. split; [lia|].
      intros j Hj. unfold resize_store. destruct copy; cbn [andb].
      * destruct (Z.ltb_spec j (a_m T a)) as [Hjm|Hjm].
        -- destruct (Hval j ltac:(lia)) as [st Est]. exists st. unfold aget in *.
           destruct (Z.ltb_spec (a_nc T a + j) 0); [lia|].
           destruct (Z.ltb_spec j 0); [lia|].
           rewrite nth_error_app1 by (rewrite firstn_length; unfold zlen in Hlen; lia).
           rewrite <- (firstn_skipn (Z.to_nat (Z.min m (a_m T a))) cs) in Est.
           rewrite nth_error_app1 in Est by (rewrite firstn_length; unfold zlen in Hlen; lia).
           rewrite Hn0 in Est. exact Est.
        -- exists 0. unfold aget. destruct (Z.ltb_spec j 0); [lia|].
           rewrite nth_error_app2 by (rewrite firstn_length; unfold zlen in Hlen; lia).
           rewrite nth_error_repeat; [reflexivity|].
           rewrite firstn_length. unfold zlen in Hlen. lia.
      * exists 0. unfold aget. destruct (Z.ltb_spec j 0); [lia|].
        rewrite nth_error_repeat; [reflexivity|]. lia.
    + rewrite Hal. unfold outs; cbn. rewrite Ec0, Ec1, Hn0. cbn. constructor.
    + intros j. specialize (Ht j). unfold outb in *. cbn. rewrite Hal in *. cbn in *. auto.
    + intros w Hw'. discriminate.
  - (* CCopy *)
    destruct Hal as [Hj Hi]. unfold valid in *.
    unfold mstep; cbn [step]. unfold copy_column.
    destruct (Z.eqb_spec j i) as [->|Hji].
    + cbn. split; [reflexivity|]. destruct R. constructor; cbn; auto.
      exists cs. split; [auto|]. split; [auto|]. intros q Hq. unfold setcol.
      destruct (Z.eqb_spec q i) as [->|]; auto.
    + assert (Hw : s_omega T Sg s = None).
      { pose proof (sm_w _ _ _ R) as Hw. destruct (s_omega T Sg s); [exfalso; eauto|reflexivity]. }
      rewrite Hw. cbn [bind]. unfold colpos. rewrite Hoff, <- Hnc.
      replace (0 + a_nc T a + j) with (a_nc T a + j) by lia.
      replace (0 + a_nc T a + i) with (a_nc T a + i) by lia.
      destruct (hget_ok _ _ _ _ _ Hcs (Hval _ Hj)) as [st Eg]. rewrite Eg. cbn [bind fst].
      destruct (hset_ok _ _ _ (a_nc T a + i) (a_col T a j) Hcs ltac:(lia)) as [h' [cs' [Eh [Hb' [Hl' Hc']]]]].
      rewrite Eh. cbn. split; [reflexivity|].
      constructor; cbn; auto.
      * assert (W1 : wfo h' (s_par T Sg s)) by (eapply wfo_heap; eauto).
        destruct W1. constructor; cbn; auto.
      * exists cs'. split; [auto|]. split; [congruence|]. intros q Hq. apply Hc'. unfold setcol.
        destruct (Z.eqb_spec (a_nc T a + q) (a_nc T a + i)), (Z.eqb_spec q i); try lia; auto.
      * intros w Hw'. discriminate.
  - (* CActive *)
    unfold mstep; cbn [step obj_of]. destruct Hal as [-> Hk].
    assert (E : exists k', set_active (s_par T Sg s) Determine k = (with_lk (s_par T Sg s) 0 k', true)).
    { destruct Hk as [-> | ->]; eexists; reflexivity. }
    destruct E as [k' ->]. cbn. split; [reflexivity|].
    destruct R. constructor; cbn; auto. destruct sm_wf0. constructor; cbn; auto.
Qed.

Theorem run_refines s t a cs :
  sim s t a -> all_allowed T zero a cs ->
  client_run T zero Sg sone szero (s, t) cs = basis_run T zero a cs.
Proof.
  revert s t a. induction cs as [|c cs IH]; intros s t a R H; [reflexivity|].
  cbn [client_run basis_run all_allowed] in *. destruct H as [Hc Hr].
  destruct (sim_step s t a c R Hc) as [E R'].
  destruct (cstep (s, t) c) as [[s' t'] o]. destruct (astep a c) as [a' o'].
  cbn in *. rewrite E. f_equal. now apply IH.
Qed.

Lemma sim_create m s : bv_create T zero Sg m = Ok s ->
  sim s (fun _ => None) (Basis T 0 m (fun _ => zero) []).
Proof.
  unfold bv_create, check. destruct (Z.ltb_spec 0 m) as [Hm|]; [|discriminate]. intros [= <-].
  constructor; cbn; auto; try congruence.
  - constructor; cbn; auto; try lia.
    exists (repeat (zero, 0) (Z.to_nat m)). unfold zlen. rewrite repeat_length.
    split; [reflexivity|lia].
  - exists (repeat (zero, 0) (Z.to_nat m)). unfold zlen. rewrite repeat_length.
    split; [reflexivity|]. split; [lia|]. intros j Hj. exists 0. unfold aget.
    destruct (Z.ltb_spec j 0); [lia|]. rewrite nth_error_repeat; [reflexivity|lia].
Qed.

End Proofs.
