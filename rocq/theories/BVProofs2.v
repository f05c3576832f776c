(** Invariants of the basis object: active columns, buffer, signature, split views. *)
From Coq Require Import ZArith List Bool Lia Permutation.
From Verif Require Import Prelude BVModel BVSpec BVProofs.
Import ListNotations.
Open Scope Z_scope.

Section Proofs.
Variable T : Type.
Variable zero : T.
Variable Sg : Type.
Variables sone szero : Sg.
Notation sys := (sys T Sg).
Notation heap := (heap T).
Notation op := (op T Sg).
Notation step := (step T zero Sg sone szero).
Notation reach := (reach T zero Sg sone szero).
Notation par s := (s_par T Sg s).
Notation succeeds := (succeeds T zero Sg sone szero).

Ltac binv H :=
  repeat match type of H with
  | check ?b _ = Ok _ => unfold check at 1 in H; let E := fresh "Ck" in destruct b eqn:E; [|discriminate H]
  | bind ?r _ = Ok _ =>
      let E := fresh "Eb" in destruct r eqn:E; cbn [bind] in H; try discriminate H
  | (let '(_, _) := ?x in _) = Ok _ => destruct x
  end.

(** Shape of the results of the calls: which fields of the object may change. *)
Definition same_lk (o o' : obj) : Prop :=
  o_nc o' = o_nc o /\ o_m o' = o_m o /\ o_l o' = o_l o /\ o_k o' = o_k o /\
  o_blk o' = o_blk o /\ o_off o' = o_off o.
Lemma same_lk_refl o : same_lk o o. Proof. repeat split. Qed.
Lemma same_lk_trans a b c : same_lk a b -> same_lk b c -> same_lk a c.
Proof. unfold same_lk. intuition congruence. Qed.

Lemma get_column_lk h o j o' p : get_column T h o j = Ok (o', p) -> same_lk o o' /\ p = colpos o j.
Proof.
  unfold get_column. intros H. binv H.
  destruct (o_c0 o =? - o_nc o - 1); injection H as <- <-; repeat split.
Qed.
Lemma restore_column_lk h o j p o' : restore_column T h o j p = Ok o' -> same_lk o o'.
Proof.
  unfold restore_column. intros H. binv H.
  destruct (j =? o_c0 o); binv H; injection H as <-;
  match goal with |- context [if ?b then o else bump o] => destruct b end; repeat split.
Qed.

Lemma shift_one_lk diff i h o h' o' :
  shift_one T diff i (h, o) = Ok (h', o') -> same_lk o o'.
Proof.
  unfold shift_one. intros H.
  destruct (get_column T h o i) as [[o1 x]| | |] eqn:E1; try discriminate. cbn [bind] in H.
  destruct (get_column T h o1 (i + diff)) as [[o2 y]| | |] eqn:E2; try discriminate. cbn [bind] in H.
  binv H. injection H as <- <-.
  apply get_column_lk in E1. apply get_column_lk in E2.
  apply restore_column_lk in Eb1. apply restore_column_lk in Eb2.
  destruct E1, E2. eauto using same_lk_trans.
Qed.

Lemma snc_lk h o nc h' o' :
  set_num_constraints T h o nc = Ok (h', o') ->
  (o' = o /\ h' = h /\ nc = o_nc o) \/
  (0 <= nc /\ 0 < o_nc o + o_m o - nc /\ o_nc o' = nc /\ o_m o' = o_nc o + o_m o - nc /\
   o_l o' = Z.min (o_l o) (o_m o') /\ o_k o' = Z.min (o_k o) (o_m o')).
Proof.
  unfold set_num_constraints. intros H. binv H.
  destruct (Z.eqb_spec (nc - o_nc o) 0); [injection H as <- <-; left; repeat split; lia|].
  binv H. cbn beta iota in H.
  assert (S : same_lk o o0).
  { destruct (nc - o_nc o <? 0).
    - change o with (snd (h, o)). change o0 with (snd (h0, o0)).
      apply (forz_pres (fun x => same_lk (snd (h, o)) (snd x)) _ _ _ _ _ Eb); [apply same_lk_refl|].
      intros i [h1 o1] [h2 o2] Hi P E. apply shift_one_lk in E. cbn in *. eauto using same_lk_trans.
    - injection Eb as <- <-. apply same_lk_refl. }
  injection H as <- <-. right. cbn. apply Z.leb_le in Ck. apply Z.ltb_lt in Ck1.
  unfold same_lk in S. intuition congruence.
Qed.

(** ** C20 *)
Definition lk_ok (o : obj) : Prop := 0 <= o_l o <= o_k o /\ o_k o <= o_m o.

(** Calls that succeed; a call of BVSetActiveColumns that keeps the current l does not set k below it. *)
Definition keeps_order (s : sys) (c : op) : Prop :=
  succeeds s c /\
  match c with
  | SetActive _ _ w Current (Val z) =>
      match obj_of T Sg s w with Ok o => o_l o <= z | _ => True end
  | _ => True
  end.

Definition inv20 (s : sys) : Prop :=
  0 <= o_nc (par s) /\ 0 < o_m (par s) /\ lk_ok (par s) /\
  (forall v, s_L T Sg s = Some v -> lk_ok v) /\ (forall v, s_R T Sg s = Some v -> lk_ok v).

Lemma lk_ok_same o o' : same_lk o o' -> lk_ok o -> lk_ok o'.
Proof. unfold same_lk, lk_ok. intuition lia. Qed.

Lemma wrap_cases s r : (exists s' o, r = Ok (s', o) /\ wrap T Sg s r = (s', Ok o)) \/
                       (fst (wrap T Sg s r) = s /\ forall o, snd (wrap T Sg s r) <> Ok o).
Proof. destruct r as [[s' o]| | |]; cbn; [left; eauto|right|right|right]; split; congruence. Qed.

Lemma inv20_put s w o o' :
  inv20 s -> obj_of T Sg s w = Ok o -> o_nc o' = o_nc o -> o_m o' = o_m o ->
  lk_ok o' -> inv20 (put_obj T Sg s w o').
Proof.
  intros [H1 [H2 [H3 [H4 H5]]]] Ho Hn Hm Hl. unfold inv20. destruct w; cbn in *.
  - injection Ho as <-. rewrite Hn, Hm. auto.
  - do 3 (split; [assumption|]). split; [intros v [= <-]; assumption|assumption].
  - do 4 (split; [assumption|]). intros v [= <-]; assumption.
Qed.
Lemma inv20_obj s w o : inv20 s -> obj_of T Sg s w = Ok o -> lk_ok o.
Proof.
  intros [H1 [H2 [H3 [H4 H5]]]] Ho. destruct w; cbn in Ho; unfold check in Ho.
  - injection Ho as <-; auto.
  - destruct (0 <? s_lsplit T Sg s); [|discriminate].
    destruct (s_L T Sg s); [injection Ho as <-; auto|discriminate].
  - destruct (0 <? s_lsplit T Sg s); [|discriminate].
    destruct (s_R T Sg s); [injection Ho as <-; auto|discriminate].
Qed.
Lemma inv20_eq s s' : inv20 s -> same_lk (par s) (par s') -> s_L T Sg s' = s_L T Sg s ->
  s_R T Sg s' = s_R T Sg s -> inv20 s'.
Proof.
  intros [H1 [H2 [H3 [H4 H5]]]] S HL HR. unfold inv20. rewrite HL, HR.
  pose proof (lk_ok_same _ _ S H3). unfold same_lk in S. intuition congruence.
Qed.

Lemma alloc_par s : par (alloc_signature T Sg sone s) = par s /\
  s_L T Sg (alloc_signature T Sg sone s) = s_L T Sg s /\
  s_R T Sg (alloc_signature T Sg sone s) = s_R T Sg s /\
  s_heap T Sg (alloc_signature T Sg sone s) = s_heap T Sg s /\
  s_lsplit T Sg (alloc_signature T Sg sone s) = s_lsplit T Sg s /\
  s_indef T Sg (alloc_signature T Sg sone s) = s_indef T Sg s /\
  s_buf T Sg (alloc_signature T Sg sone s) = s_buf T Sg s.
Proof. unfold alloc_signature. destruct (s_omega T Sg s); [auto 10|]. destruct (s_indef T Sg s) eqn:E; cbn; auto 10. Qed.
Lemma buffer_par s : par (get_buffer T Sg s) = par s /\
  s_L T Sg (get_buffer T Sg s) = s_L T Sg s /\ s_R T Sg (get_buffer T Sg s) = s_R T Sg s /\
  s_heap T Sg (get_buffer T Sg s) = s_heap T Sg s /\
  s_lsplit T Sg (get_buffer T Sg s) = s_lsplit T Sg s /\
  s_indef T Sg (get_buffer T Sg s) = s_indef T Sg s /\
  s_omega T Sg (get_buffer T Sg s) = s_omega T Sg s.
Proof. unfold get_buffer. destruct (s_buf T Sg s); cbn; auto 10. Qed.

(** Effect of each call on everything but the storage and the slots. *)
Lemma set_signature_frame s vs s' : set_signature T Sg sone s vs = Ok s' ->
  same_lk (par s) (par s') /\ o_c0 (par s') = o_c0 (par s) /\ o_c1 (par s') = o_c1 (par s) /\
  o_i0 (par s') = o_i0 (par s) /\ o_i1 (par s') = o_i1 (par s) /\
  s_L T Sg s' = s_L T Sg s /\ s_R T Sg s' = s_R T Sg s /\
  s_heap T Sg s' = s_heap T Sg s /\ s_lsplit T Sg s' = s_lsplit T Sg s /\
  s_indef T Sg s' = s_indef T Sg s /\ s_buf T Sg s' = s_buf T Sg s.
Proof.
  unfold set_signature. intros H. binv H. pose proof (alloc_par s) as [E1 [E2 [E3 [E4 [E5 [E6 E7]]]]]].
  destruct (s_indef T Sg (alloc_signature T Sg sone s)) eqn:Ei.
  - destruct (s_omega T Sg (alloc_signature T Sg sone s)); [|discriminate].
    binv Eb. injection Eb as <-. injection H as <-. cbn. rewrite E1, E2, E3, E4, E5, E7.
    repeat split; congruence.
  - injection Eb as <-. injection H as <-. cbn. rewrite E1, E2, E3, E4, E5, E7. repeat split; congruence.
Qed.
Lemma use_buffer_frame s j s' : use_buffer T Sg sone s j = Ok s' ->
  same_lk (par s) (par s') /\ o_c0 (par s') = o_c0 (par s) /\ o_c1 (par s') = o_c1 (par s) /\
  o_i0 (par s') = o_i0 (par s) /\ o_i1 (par s') = o_i1 (par s) /\
  s_L T Sg s' = s_L T Sg s /\ s_R T Sg s' = s_R T Sg s /\
  s_heap T Sg s' = s_heap T Sg s /\ s_lsplit T Sg s' = s_lsplit T Sg s /\
  s_indef T Sg s' = s_indef T Sg s.
Proof.
  unfold use_buffer. intros H. binv H.
  pose proof (buffer_par s) as [B1 [B2 [B3 [B4 [B5 [B6 B7]]]]]].
  pose proof (alloc_par (get_buffer T Sg s)) as [E1 [E2 [E3 [E4 [E5 [E6 E7]]]]]].
  destruct (s_buf _ _ _); [|discriminate]. destruct (forallb _ _); [|discriminate].
  injection H as <-. cbn. rewrite E2, E3, E4, E5, E6, B2, B3, B4, B5, B6. repeat split.
Qed.
Lemma copy_column_frame s j i s' : copy_column T Sg s j i = Ok s' ->
  same_lk (par s) (par s') /\ o_c0 (par s') = o_c0 (par s) /\ o_c1 (par s') = o_c1 (par s) /\
  o_i0 (par s') = o_i0 (par s) /\ o_i1 (par s') = o_i1 (par s) /\
  s_L T Sg s' = s_L T Sg s /\ s_R T Sg s' = s_R T Sg s /\
  s_lsplit T Sg s' = s_lsplit T Sg s /\ s_indef T Sg s' = s_indef T Sg s /\ s_buf T Sg s' = s_buf T Sg s.
Proof.
  unfold copy_column. intros H. destruct (j =? i); [injection H as <-; repeat split|].
  binv H. injection H as <-. cbn. repeat split.
Qed.
Lemma set_indef_frame s b :
  same_lk (par s) (par (set_indef T Sg s b)) /\ o_c0 (par (set_indef T Sg s b)) = o_c0 (par s) /\
  o_c1 (par (set_indef T Sg s b)) = o_c1 (par s) /\
  o_i0 (par (set_indef T Sg s b)) = o_i0 (par s) /\ o_i1 (par (set_indef T Sg s b)) = o_i1 (par s) /\
  s_L T Sg (set_indef T Sg s b) = s_L T Sg s /\ s_R T Sg (set_indef T Sg s b) = s_R T Sg s /\
  s_heap T Sg (set_indef T Sg s b) = s_heap T Sg s /\
  s_lsplit T Sg (set_indef T Sg s b) = s_lsplit T Sg s /\
  s_omega T Sg (set_indef T Sg s b) = s_omega T Sg s /\
  s_buf T Sg (set_indef T Sg s b) = s_buf T Sg s /\ s_indef T Sg (set_indef T Sg s b) = b.
Proof.
  unfold set_indef. destruct (Bool.eqb b (s_indef T Sg s)) eqn:E; cbn; repeat split.
  apply eqb_prop in E. auto.
Qed.

Lemma set_active_lk o l k o' ok : set_active o l k = (o', ok) ->
  o_nc o' = o_nc o /\ o_m o' = o_m o /\ o_blk o' = o_blk o /\ o_off o' = o_off o /\
  o_c0 o' = o_c0 o /\ o_c1 o' = o_c1 o /\ o_i0 o' = o_i0 o /\ o_i1 o' = o_i1 o.
Proof.
  unfold set_active.
  destruct (negb _); [intros [= <- <-]; repeat split|].
  destruct (negb _); intros [= <- <-]; repeat split.
Qed.
Lemma set_active_ok o l k o' : set_active o l k = (o', true) -> 0 <= o_m o -> lk_ok o ->
  match l, k with Current, Val z => o_l o <= z | _, _ => True end -> lk_ok o'.
Proof.
  unfold set_active, lk_ok. intros H Hm Hlk Hs.
  destruct l as [| |l], k as [| |k]; cbn in H;
  repeat match type of H with
  | (if negb ?b then _ else _) = _ => let E := fresh in destruct b eqn:E; cbn in H; [|discriminate]
  end; injection H as <-; cbn;
  repeat match goal with H : (_ && _) = true |- _ => apply andb_true_iff in H; destruct H end;
  repeat match goal with H : (_ <=? _) = true |- _ => apply Z.leb_le in H end; lia.
Qed.

Theorem inv20_step s c : inv20 s -> keeps_order s c -> inv20 (fst (step s c)).
Proof.
  intros I [[r Hr] Hc].
  destruct c; cbn [BVModel.step] in *.
  - (* GetColumn *)
    destruct (wrap_cases s (do o <- obj_of T Sg s w; do ' (o', p) <- get_column T (s_heap T Sg s) o j;
              Ok (put_obj T Sg s w o', Vec T Sg p))) as [[s' [o' [E ->]]]|[-> _]]; [|exact I]. cbn.
    binv E. cbn in E. injection E as <- <-. apply get_column_lk in Eb0. destruct Eb0 as [S _].
    pose proof (inv20_obj _ _ _ I Eb) as L.
    eapply inv20_put; eauto; [apply S|apply S|eapply lk_ok_same; eauto].
  - destruct (hget _ _ _); exact I.
  - destruct (hset _ _ _ _); exact I.
  - destruct (wrap_cases s (do o <- obj_of T Sg s w; do o' <- restore_column T (s_heap T Sg s) o j p;
              Ok (put_obj T Sg s w o', Done T Sg))) as [[s' [o' [E ->]]]|[-> _]]; [|exact I]. cbn.
    binv E. injection E as <- <-. apply restore_column_lk in Eb0.
    pose proof (inv20_obj _ _ _ I Eb) as L.
    eapply inv20_put; eauto; [apply Eb0|apply Eb0|eapply lk_ok_same; eauto].
  - destruct (obj_of T Sg s w) as [o| | |] eqn:Eo; try exact I.
    destruct (set_active o l k) as [o' ok] eqn:Es. cbn in *.
    destruct ok; [|discriminate].
    pose proof (inv20_obj _ _ _ I Eo) as L.
    pose proof (set_active_lk _ _ _ _ _ Es) as [? [? _]].
    eapply inv20_put; eauto. eapply set_active_ok; eauto.
    unfold lk_ok in L; lia.
  - destruct (wrap_cases s (do ' (h', o') <- set_num_constraints T (s_heap T Sg s) (par s) nc;
              Ok (with_par T Sg (with_heap T Sg s h') o', Done T Sg))) as [[s' [o' [E ->]]]|[-> _]]; [|exact I].
    binv E. cbn in E. injection E as <- <-. cbn.
    apply snc_lk in Eb. destruct Eb as [[-> [-> _]]|[? [? [? [? [? ?]]]]]].
    + destruct I as [? [? [? [? ?]]]]. unfold inv20; cbn; auto.
    + destruct I as [? [? [[[? ?] ?] [? ?]]]]. unfold inv20; cbn. unfold lk_ok at 1; cbn.
      do 3 (split; [lia|]). auto.
  - destruct (wrap_cases s (do s' <- resize T zero Sg sone szero s m copy; Ok (s', Done T Sg)))
      as [[s' [o' [E ->]]]|[-> _]]; [|exact I].
    binv E. injection E as <- <-. cbn. unfold resize in Eb. binv Eb.
    destruct (o_m (par s) =? m); [injection Eb as <-; exact I|]. binv Eb. injection Eb as <-.
    apply Z.ltb_lt in Ck. destruct I as [? [? [[[? ?] ?] [? ?]]]]. unfold inv20; cbn. unfold lk_ok at 1; cbn.
    do 3 (split; [lia|]). auto.
  - destruct (wrap_cases s (do s' <- copy_column T Sg s j i; Ok (s', Done T Sg)))
      as [[s' [o' [E ->]]]|[-> _]]; [|exact I].
    binv E. injection E as <- <-. cbn. apply copy_column_frame in Eb.
    eapply inv20_eq; eauto; apply Eb.
  - pose proof (set_indef_frame s b). eapply inv20_eq; eauto; apply H.
  - destruct (wrap_cases s (do s' <- set_signature T Sg sone s vs; Ok (s', Done T Sg)))
      as [[s' [o' [E ->]]]|[-> _]]; [|exact I].
    binv E. injection E as <- <-. cbn. apply set_signature_frame in Eb.
    eapply inv20_eq; eauto; apply Eb.
  - destruct (get_signature _ _ _ _ _); exact I.
  - pose proof (buffer_par s) as B. cbn. eapply inv20_eq; eauto; try apply B.
    destruct B as [-> _]. apply same_lk_refl.
  - unfold set_buffer, check. destruct (_ =? _); cbn; [|exact I].
    destruct I as [? [? [? [? ?]]]]; unfold inv20; cbn; auto.
  - destruct (wrap_cases s (do s' <- use_buffer T Sg sone s j; Ok (s', Done T Sg)))
      as [[s' [o' [E ->]]]|[-> _]]; [|exact I].
    binv E. injection E as <- <-. cbn. apply use_buffer_frame in Eb.
    eapply inv20_eq; eauto; apply Eb.
  - destruct (wrap_cases s (do s' <- get_split T Sg s; Ok (s', Done T Sg)))
      as [[s' [o' [E ->]]]|[-> _]]; [|exact I].
    binv E. injection E as <- <-. cbn. unfold get_split in Eb. binv Eb. injection Eb as <-.
    destruct I as [? [? [[[? ?] ?] [? ?]]]]. unfold inv20; cbn. unfold lk_ok at 1; cbn.
    do 3 (split; [lia|]). split.
    + intros v E; injection E as <-. unfold lk_ok, split_private; cbn. lia.
    + intros v E; injection E as <-. unfold lk_ok, split_private; cbn. lia.
  - unfold restore_split, check. destruct (0 <? _); cbn; [|exact I].
    destruct (view_restored _); cbn; [|exact I]. destruct (view_restored _); cbn; [|exact I].
    destruct I as [? [? [? [? ?]]]]; unfold inv20; cbn; auto.
Qed.

Lemma inv20_new m s : bv_create T zero Sg m = Ok s -> inv20 s.
Proof.
  unfold bv_create. intros H. binv H. injection H as <-. apply Z.ltb_lt in Ck.
  unfold inv20; cbn. unfold lk_ok at 1; cbn. do 3 (split; [lia|]). split; discriminate.
Qed.

Theorem inv20_reach s : reach keeps_order s -> inv20 s.
Proof.
  induction 1; [eapply inv20_new; eauto|]. now apply inv20_step.
Qed.

(** ** C26 *)
Definition no_fewer_constraints (s : sys) (c : op) : Prop :=
  match c with
  | SetNumConstraints _ _ nc => s_buf T Sg s = None \/ o_nc (par s) <= nc
  | _ => True
  end.

Definition inv26 (s : sys) : Prop :=
  0 <= o_nc (par s) /\ 0 < o_m (par s) /\
  forall n, s_buf T Sg s = Some n -> (o_nc (par s) + o_m (par s)) * o_m (par s) <= n.

Lemma inv26_eq s s' : inv26 s -> same_lk (par s) (par s') -> s_buf T Sg s' = s_buf T Sg s -> inv26 s'.
Proof.
  intros [H1 [H2 H3]] [S1 [S2 _]] B. unfold inv26. rewrite S1, S2, B. auto.
Qed.
Lemma put_par_lk s w o o' : obj_of T Sg s w = Ok o -> same_lk o o' ->
  same_lk (par s) (par (put_obj T Sg s w o')) /\ s_buf T Sg (put_obj T Sg s w o') = s_buf T Sg s.
Proof.
  intros Ho S. destruct w; cbn in *; [injection Ho as <-; auto|split; auto; apply same_lk_refl..].
Qed.
Lemma inv26_buffer s : inv26 s -> inv26 (get_buffer T Sg s).
Proof.
  intros [H1 [H2 H3]]. unfold get_buffer. destruct (s_buf T Sg s) eqn:E.
  - unfold inv26. rewrite E. auto.
  - unfold inv26; cbn. repeat split; auto. intros n [= <-]. lia.
Qed.

Theorem inv26_step s c : inv26 s -> no_fewer_constraints s c -> inv26 (fst (step s c)).
Proof.
  intros I Hc.
  destruct c; cbn [BVModel.step] in *.
  - destruct (wrap_cases s (do o <- obj_of T Sg s w; do ' (o', p) <- get_column T (s_heap T Sg s) o j;
              Ok (put_obj T Sg s w o', Vec T Sg p))) as [[s' [o' [E ->]]]|[-> _]]; [|exact I]. cbn.
    binv E. cbn in E. injection E as <- <-. apply get_column_lk in Eb0. destruct Eb0 as [S _].
    destruct (put_par_lk _ _ _ _ Eb S). eapply inv26_eq; eauto.
  - destruct (hget _ _ _); exact I.
  - destruct (hset _ _ _ _); exact I.
  - destruct (wrap_cases s (do o <- obj_of T Sg s w; do o' <- restore_column T (s_heap T Sg s) o j p;
              Ok (put_obj T Sg s w o', Done T Sg))) as [[s' [o' [E ->]]]|[-> _]]; [|exact I]. cbn.
    binv E. injection E as <- <-. apply restore_column_lk in Eb0.
    destruct (put_par_lk _ _ _ _ Eb Eb0). eapply inv26_eq; eauto.
  - destruct (obj_of T Sg s w) as [o| | |] eqn:Eo; try exact I.
    destruct (set_active o l k) as [o' ok] eqn:Es. cbn.
    pose proof (set_active_lk _ _ _ _ _ Es) as [A1 [A2 _]].
    destruct I as [H1 [H2 H3]]. destruct w; cbn in Eo; unfold inv26; cbn; auto.
    injection Eo as <-. rewrite A1, A2. auto.
  - destruct (wrap_cases s (do ' (h', o') <- set_num_constraints T (s_heap T Sg s) (par s) nc;
              Ok (with_par T Sg (with_heap T Sg s h') o', Done T Sg))) as [[s' [o' [E ->]]]|[-> _]]; [|exact I].
    binv E. cbn in E. injection E as <- <-. cbn.
    apply snc_lk in Eb. destruct Eb as [[-> [-> _]]|[? [? [E1 [E2 [? ?]]]]]].
    + destruct I as [? [? ?]]. unfold inv26; cbn; auto.
    + destruct I as [I1 [I2 I3]]. unfold inv26; cbn. repeat split; [lia|lia|].
      intros n Hn. rewrite E1, E2. destruct Hc as [Hc|Hc]; [congruence|].
      specialize (I3 n Hn). nia.
  - destruct (wrap_cases s (do s' <- resize T zero Sg sone szero s m copy; Ok (s', Done T Sg)))
      as [[s' [o' [E ->]]]|[-> _]]; [|exact I].
    binv E. injection E as <- <-. cbn. unfold resize in Eb. binv Eb.
    destruct (o_m (par s) =? m); [injection Eb as <-; exact I|]. binv Eb. injection Eb as <-.
    apply Z.ltb_lt in Ck. destruct I as [? [? ?]]. unfold inv26; cbn. repeat split; auto. discriminate.
  - destruct (wrap_cases s (do s' <- copy_column T Sg s j i; Ok (s', Done T Sg)))
      as [[s' [o' [E ->]]]|[-> _]]; [|exact I].
    binv E. injection E as <- <-. cbn. apply copy_column_frame in Eb.
    eapply inv26_eq; eauto; apply Eb.
  - pose proof (set_indef_frame s b). eapply inv26_eq; eauto; apply H.
  - destruct (wrap_cases s (do s' <- set_signature T Sg sone s vs; Ok (s', Done T Sg)))
      as [[s' [o' [E ->]]]|[-> _]]; [|exact I].
    binv E. injection E as <- <-. cbn. apply set_signature_frame in Eb.
    eapply inv26_eq; eauto; apply Eb.
  - destruct (get_signature _ _ _ _ _); exact I.
  - now apply inv26_buffer.
  - unfold set_buffer, check. destruct (Z.eqb_spec n ((o_m (par s) + o_nc (par s)) * o_m (par s))); cbn; [|exact I].
    destruct I as [? [? ?]]; unfold inv26; cbn. repeat split; auto. intros n' [= <-]. lia.
  - destruct (wrap_cases s (do s' <- use_buffer T Sg sone s j; Ok (s', Done T Sg)))
      as [[s' [o' [E ->]]]|[-> _]]; [|exact I].
    binv E. injection E as <- <-. cbn. pose proof (use_buffer_frame _ _ _ Eb) as F.
    apply (inv26_eq (get_buffer T Sg s)); [now apply inv26_buffer| |].
    + destruct (buffer_par s) as [-> _]. apply F.
    + unfold use_buffer in Eb. binv Eb.
      pose proof (alloc_par (get_buffer T Sg s)) as [_ [_ [_ [_ [_ [_ E7]]]]]]. rewrite E7 in Eb.
      destruct (s_buf T Sg (get_buffer T Sg s)) eqn:Ebf; [|discriminate]. destruct (forallb _ _); [|discriminate].
      injection Eb as <-. cbn. congruence.
  - destruct (wrap_cases s (do s' <- get_split T Sg s; Ok (s', Done T Sg)))
      as [[s' [o' [E ->]]]|[-> _]]; [|exact I].
    binv E. injection E as <- <-. cbn. unfold get_split in Eb. binv Eb. injection Eb as <-. exact I.
  - unfold restore_split, check. destruct (0 <? _); cbn; [|exact I].
    destruct (view_restored _); cbn; [|exact I]. destruct (view_restored _); cbn; exact I.
Qed.

Lemma inv26_new m s : bv_create T zero Sg m = Ok s -> inv26 s.
Proof.
  unfold bv_create. intros H. binv H. injection H as <-. apply Z.ltb_lt in Ck.
  unfold inv26; cbn. repeat split; try lia; discriminate.
Qed.
Theorem inv26_reach s : reach no_fewer_constraints s -> inv26 s.
Proof. induction 1; [eapply inv26_new; eauto|]. now apply inv26_step. Qed.

Theorem orthogonalize_safe s j : inv26 s -> 0 <= j < o_m (par s) ->
  snd (step s (Orthogonalize T Sg j)) = Ok (Done T Sg).
Proof.
  intros I Hj. apply inv26_buffer in I. destruct I as [H1 [H2 H3]].
  pose proof (buffer_par s) as [B1 _]. rewrite B1 in *.
  cbn [BVModel.step]. unfold use_buffer, check.
  replace (0 <=? j) with true by (symmetry; apply Z.leb_le; lia).
  replace (j <? o_m (par s)) with true by (symmetry; apply Z.ltb_lt; lia).
  pose proof (alloc_par (get_buffer T Sg s)) as [_ [_ [_ [_ [_ [_ E7]]]]]]. rewrite E7.
  destruct (s_buf T Sg (get_buffer T Sg s)) as [n|] eqn:E.
  - specialize (H3 n eq_refl).
    replace (forallb _ _) with true; [reflexivity|]. symmetry. apply forallb_forall.
    intros x Hx. unfold buffer_entries in Hx. apply andb_true_iff. rewrite Z.leb_le, Z.ltb_lt.
    apply in_app_iff in Hx. destruct Hx as [Hx|Hx]; apply in_map_iff in Hx; destruct Hx as [i [<- Hi]];
    apply in_seq in Hi; nia.
  - unfold get_buffer in E. destruct (s_buf T Sg s) eqn:E2; cbn in E; congruence.
Qed.

End Proofs.
