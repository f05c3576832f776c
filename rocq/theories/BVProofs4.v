(** Split views of a basis. *)
From Coq Require Import ZArith List Bool Lia Permutation.
From Verif Require Import Prelude BVModel BVSpec BVProofs BVProofs2.
Import ListNotations.
Open Scope Z_scope.

Section Proofs.
Variable T : Type.
Variable zero : T.
Variable Sg : Type.
Variables sone szero : Sg.
Notation sys := (sys T Sg).
Notation heap := (heap T).
Notation op := (op T Sg).
Notation step := (step T zero Sg sone szero).
Notation reach := (reach T zero Sg sone szero).
Notation par s := (s_par T Sg s).
Notation hp s := (s_heap T Sg s).
Notation peek := (peek T zero Sg sone szero).

Ltac binv H :=
  repeat match type of H with
  | check ?b _ = Ok _ => unfold check at 1 in H; let E := fresh "Ck" in destruct b eqn:E; [|discriminate H]
  | bind ?r _ = Ok _ =>
      let E := fresh "Eb" in destruct r eqn:E; cbn [bind] in H; try discriminate H
  | (let '(_, _) := ?x in _) = Ok _ => destruct x
  end.

(** Calls considered: the sizes are not changed once the basis has been split, and it is not
    resized while columns are out. *)
Definition split_domain (s : sys) (c : op) : Prop :=
  match c with
  | SetNumConstraints _ _ _ => s_L T Sg s = None
  | Resize _ _ _ _ => s_L T Sg s = None /\ outs (par s) = []
  | _ => True
  end.

Definition sizes_ok (h : heap) (o : obj) : Prop :=
  exists cs, block T h (o_blk o) = Ok cs /\ zlen cs = o_nc o + o_m o.

Record inv27 (s : sys) : Prop := Inv27 {
  v_par : wfo T (hp s) (par s);
  v_off : o_off (par s) = 0;
  v_pos : 0 < o_m (par s);
  v_len : sizes_ok (hp s) (par s);
  v_l : 0 <= o_l (par s) <= o_k (par s) \/ 0 <= o_l (par s) <= o_m (par s);
  v_k : 0 <= o_k (par s) <= o_m (par s);
  v_ls : s_lsplit T Sg s = 0 \/
         (o_nc (par s) < s_lsplit T Sg s <= o_nc (par s) + o_m (par s) /\
          s_L T Sg s <> None /\ s_R T Sg s <> None);
  v_none : s_L T Sg s = None -> s_R T Sg s = None /\ s_lsplit T Sg s = 0;
  v_L : forall v, s_L T Sg s = Some v ->
        wfo T (hp s) v /\ o_blk v = o_blk (par s) /\ o_off v = 0 /\ o_nc v = o_nc (par s) /\
        (0 < s_lsplit T Sg s -> o_m v = s_lsplit T Sg s - o_nc (par s));
  v_R : forall v, s_R T Sg s = Some v ->
        wfo T (hp s) v /\ o_blk v = o_blk (par s) /\ o_nc v = 0 /\
        o_off v = o_nc (par s) + o_m (par s) - o_m v /\
        (0 < s_lsplit T Sg s -> o_m v = o_nc (par s) + o_m (par s) - s_lsplit T Sg s)
}.

(** Writing to a column keeps the size of every allocation. *)
Lemma hset_keeps h p v h' : hset T h p v = Ok h' -> forall b cs, block T h b = Ok cs ->
  exists cs', block T h' b = Ok cs' /\ zlen cs' = zlen cs.
Proof.
  unfold hset. intros H b cs Hb. binv H. injection H as <-.
  pose proof (block_lt _ _ _ _ Eb) as Hlt.
  destruct (Nat.eq_dec b (fst p)) as [->|Hn].
  - assert (a = cs) by congruence; subst. exists a1. split; [eapply block_upd_same; eauto|].
    eapply aset_len; eauto.
  - exists cs. rewrite block_upd_other by auto. auto.
Qed.
Lemma wfo_keeps h p v h' o : hset T h p v = Ok h' -> wfo T h o -> wfo T h' o.
Proof.
  intros H W. destruct (wf_cs _ _ _ W) as [cs [Hb ?]].
  destruct (hset_keeps _ _ _ _ H _ _ Hb) as [cs' [Hb' ?]]. eapply wfo_heap; eauto.
Qed.
Lemma inv27_heap s p v h' : inv27 s -> hset T (hp s) p v = Ok h' -> inv27 (with_heap T Sg s h').
Proof.
  intros I H. destruct I. constructor; cbn; auto.
  - eapply wfo_keeps; eauto.
  - destruct v_len0 as [cs [Hb Hl]]. destruct (hset_keeps _ _ _ _ H _ _ Hb) as [cs' [? ?]].
    exists cs'. split; auto. congruence.
  - intros x Hx. destruct (v_L0 x Hx) as [? ?]. split; auto. eapply wfo_keeps; eauto.
  - intros x Hx. destruct (v_R0 x Hx) as [? ?]. split; auto. eapply wfo_keeps; eauto.
Qed.

(** Same object up to state, slots, l and k. *)
Definition like (o o' : obj) : Prop :=
  o_blk o' = o_blk o /\ o_off o' = o_off o /\ o_nc o' = o_nc o /\ o_m o' = o_m o.

Lemma inv27_obj s w o : inv27 s -> obj_of T Sg s w = Ok o -> wfo T (hp s) o.
Proof.
  intros I Ho. destruct I. destruct w; cbn in Ho; unfold check in Ho.
  - injection Ho as <-; auto.
  - destruct (0 <? s_lsplit T Sg s); [|discriminate].
    destruct (s_L T Sg s) eqn:E; [injection Ho as <-; apply v_L0; auto|discriminate].
  - destruct (0 <? s_lsplit T Sg s); [|discriminate].
    destruct (s_R T Sg s) eqn:E; [injection Ho as <-; apply v_R0; auto|discriminate].
Qed.

Lemma inv27_put s w o o' : inv27 s -> obj_of T Sg s w = Ok o -> like o o' -> wfo T (hp s) o' ->
  (w = Par -> (0 <= o_l o' <= o_k o' \/ 0 <= o_l o' <= o_m o') /\ 0 <= o_k o' <= o_m o') ->
  inv27 (put_obj T Sg s w o').
Proof.
  intros I Ho [L1 [L2 [L3 L4]]] W Hk. destruct I. destruct w; cbn in *; unfold check in Ho.
  - injection Ho as <-. destruct (Hk eq_refl). constructor; cbn; auto; try congruence.
    all: rewrite ?L1, ?L3, ?L4; auto.
    destruct v_len0 as [cs ?]. exists cs. rewrite L1, L3, L4. auto.
  - destruct (0 <? s_lsplit T Sg s) eqn:E0; [|discriminate].
    destruct (s_L T Sg s) eqn:E; [injection Ho as ->|discriminate].
    destruct (v_L0 _ eq_refl) as [A1 [A2 [A3 [A4 A5]]]].
    constructor; cbn; auto; try discriminate.
    + destruct v_ls0 as [?|[? [? ?]]]; [auto|right; repeat split; auto; try lia; discriminate].
    + intros v [= <-]. rewrite L1, L2, L3, L4. auto.
  - destruct (0 <? s_lsplit T Sg s) eqn:E0; [|discriminate]. apply Z.ltb_lt in E0.
    destruct (s_R T Sg s) eqn:E; [injection Ho as ->|discriminate].
    destruct (v_R0 _ eq_refl) as [A1 [A2 [A3 [A4 A5]]]].
    constructor; cbn; auto; try discriminate.
    + destruct v_ls0 as [?|[? [? ?]]]; [auto|right; repeat split; auto; try lia; discriminate].
    + intros Hn. apply v_none0 in Hn. lia.
    + intros v [= <-]. rewrite L1, L2, L3, L4. auto.
Qed.

Lemma wfo_slots h o o' : like o o' -> o_c0 o' = o_c0 o -> o_c1 o' = o_c1 o ->
  o_i0 o' = o_i0 o -> o_i1 o' = o_i1 o -> wfo T h o -> wfo T h o'.
Proof.
  intros [L1 [L2 [L3 L4]]] C0 C1 I0 I1 W. destruct W.
  constructor; unfold colpos in *; rewrite ?L1, ?L2, ?L3, ?L4, ?C0, ?C1, ?I0, ?I1; auto.
Qed.

Lemma get_column_wfo h o j o' p : wfo T h o -> get_column T h o j = Ok (o', p) ->
  wfo T h o' /\ like o o' /\ o_l o' = o_l o /\ o_k o' = o_k o /\ p = colpos o j /\
  Permutation (outs o') (j :: outs o) /\ - o_nc o <= j < o_m o.
Proof.
  intros W E. pose proof (get_column_spec _ h o j W) as G.
  destruct ((- o_nc o <=? j) && (j <? o_m o) && negb (existsb (Z.eqb j) (outs o)) && (length (outs o) <? 2)%nat) eqn:Eg.
  - destruct G as [o1 [E1 [W1 [P1 [B1 [F1 [N1 [M1 [L1 [K1 S1]]]]]]]]]].
    rewrite E1 in E. injection E as <- <-.
    repeat (apply andb_true_iff in Eg; destruct Eg as [Eg ?]).
    apply Z.leb_le in Eg. apply Z.ltb_lt in H1. unfold like. auto 12.
  - congruence.
Qed.

Lemma restore_column_wfo h o j p o' : wfo T h o -> restore_column T h o j p = Ok o' ->
  wfo T h o' /\ like o o' /\ o_l o' = o_l o /\ o_k o' = o_k o.
Proof.
  intros W E. pose proof W as W2. destruct W2.
  unfold restore_column in E. binv E.
  assert (Hj : - o_nc o <= j < o_m o).
  { apply Z.ltb_lt in Ck0. apply orb_true_iff in Ck. rewrite !Z.leb_le in Ck. lia. }
  destruct (Z.eqb_spec j (o_c0 o)); binv E; injection E as <-;
  match goal with |- context [if ?b then o else bump o] => destruct b end;
  (split; [constructor; cbn; auto; lia|]); unfold like; cbn; auto 10.
Qed.

Lemma split_left_wfo h o ls old :
  wfo T h o -> o_off o = 0 -> 0 <= o_l o <= o_m o -> 0 <= ls ->
  (forall v, old = Some v -> wfo T h v /\ o_blk v = o_blk o /\ o_off v = 0 /\ o_nc v = o_nc o) ->
  let v := split_private o ls true old in
  wfo T h v /\ o_blk v = o_blk o /\ o_off v = 0 /\ o_nc v = o_nc o /\ o_m v = o_l o /\
  (old = None -> outs v = []).
Proof.
  intros W Hoff Hl Hls Hold. unfold split_private.
  destruct (wf_cs _ _ _ W) as [cs [Hb [? Hz]]]. pose proof (wf_nc _ _ _ W) as Hnc.
  set (v0 := match old with Some v => if o_nc o + o_l o =? o_m v then v else new_obj (o_blk o) 0 (o_m o)
             | None => new_obj (o_blk o) 0 (o_m o) end).
  assert (Hv : o_blk v0 = o_blk o /\ o_off v0 = 0).
  { unfold v0. destruct old as [v|]; [|auto]. destruct (Hold v eq_refl) as [? [? [? ?]]].
    destruct (_ =? _); auto. }
  destruct Hv as [Hv1 Hv2]. cbn. rewrite Hv1, Hv2.
  split; [|split; [auto|split; [auto|split; [auto|split; [lia|]]]]].
  - destruct (Z.eqb_spec (o_nc o) 0) as [E0|E0].
    + assert (Hs : (o_c0 v0 = -1 /\ o_c1 v0 = -1) \/ (wfo T h v0 /\ o_m v0 = o_l o /\ o_nc v0 = 0)).
      { unfold v0. destruct old as [v|]; [|left; auto]. destruct (Hold v eq_refl) as [? [? [? ?]]].
        destruct (Z.eqb_spec (o_nc o + o_l o) (o_m v)); [right|left; auto].
        split; [auto|lia]. }
      destruct Hs as [[C0 C1]|[W0 [M0 N0]]].
      * constructor; cbn; try lia. exists cs. repeat split; auto; lia.
      * destruct W0. constructor; cbn; try lia.
        -- exists cs. repeat split; auto; lia.
        -- unfold colpos in *. cbn. rewrite Hv1, Hv2, N0 in *. rewrite E0.
          destruct wf_c0 as [?|[? Hid]]; [left; lia|right]. split; [lia|]. rewrite Hid. f_equal.
        -- unfold colpos in *. cbn. rewrite Hv1, Hv2, N0 in *. rewrite E0.
           destruct wf_c1 as [?|[? Hid]]; [left; lia|right]. split; [lia|]. rewrite Hid. f_equal.
    + constructor; cbn; try lia. exists cs. repeat split; auto; lia.
  - intros ->. subst v0. unfold outs; cbn. destruct (Z.eqb_spec (o_nc o) 0) as [E0|E0].
    + rewrite E0. reflexivity.
    + rewrite Z.eqb_refl. reflexivity.
Qed.

Lemma split_right_wfo h o old cs :
  wfo T h o -> o_off o = 0 -> 0 <= o_l o <= o_m o -> block T h (o_blk o) = Ok cs ->
  zlen cs = o_nc o + o_m o ->
  (forall v, old = Some v -> wfo T h v /\ o_blk v = o_blk o /\ o_nc v = 0 /\
                             o_off v = o_nc o + o_m o - o_m v) ->
  let v := split_private o (o_nc o + o_l o) false old in
  wfo T h v /\ o_blk v = o_blk o /\ o_nc v = 0 /\ o_off v = o_nc o + o_l o /\ o_m v = o_m o - o_l o /\
  (old = None -> outs v = []).
Proof.
  intros W Hoff Hl Hb Hz Hold. unfold split_private. pose proof (wf_nc _ _ _ W) as Hnc.
  set (v0 := match old with Some v => if o_m o - o_l o =? o_m v then v else new_obj (o_blk o) (o_nc o + o_l o) (o_m o)
             | None => new_obj (o_blk o) (o_nc o + o_l o) (o_m o) end).
  assert (Hv : o_blk v0 = o_blk o /\ o_off v0 = o_nc o + o_l o).
  { unfold v0. destruct old as [v|]; [|auto]. destruct (Hold v eq_refl) as [? [? [? ?]]].
    destruct (Z.eqb_spec (o_m o - o_l o) (o_m v)); [|auto]. split; [auto|lia]. }
  destruct Hv as [Hv1 Hv2]. cbn. rewrite Hv1, Hv2.
  split; [|split; [auto|split; [auto|split; [auto|split; [lia|]]]]].
  - assert (Hs : (o_c0 v0 = -1 /\ o_c1 v0 = -1) \/ (wfo T h v0 /\ o_m v0 = o_m o - o_l o /\ o_nc v0 = 0)).
    { unfold v0. destruct old as [v|]; [|left; auto]. destruct (Hold v eq_refl) as [? [? [? ?]]].
      destruct (Z.eqb_spec (o_m o - o_l o) (o_m v)); [right|left; auto].
      split; [auto|lia]. }
    destruct Hs as [[C0 C1]|[W0 [M0 N0]]].
    + constructor; cbn; try lia. exists cs. repeat split; auto; lia.
    + destruct W0. constructor; cbn; try lia.
      * exists cs. repeat split; auto; lia.
      * unfold colpos in *. cbn. rewrite Hv1, Hv2, N0 in *.
        destruct wf_c0 as [?|[? Hid]]; [left; lia|right]. split; [lia|]. rewrite Hid. f_equal.
      * unfold colpos in *. cbn. rewrite Hv1, Hv2, N0 in *.
        destruct wf_c1 as [?|[? Hid]]; [left; lia|right]. split; [lia|]. rewrite Hid. f_equal.
  - intros ->. reflexivity.
Qed.

Lemma set_active_l o l k o' ok : set_active o l k = (o', ok) -> 0 <= o_m o ->
  0 <= o_k o <= o_m o -> 0 <= o_l o <= o_m o ->
  0 <= o_k o' <= o_m o' /\ 0 <= o_l o' <= o_m o'.
Proof.
  unfold set_active. intros H Hm Hk Hl.
  destruct k as [| |k], l as [| |l]; cbn in H;
  repeat match type of H with
  | (if negb ?b then _ else _) = _ => let E := fresh in destruct b eqn:E; cbn in H
  end; try (injection H as <- <-; cbn; lia);
  repeat match goal with H : (_ && _) = true |- _ => apply andb_true_iff in H; destruct H end;
  repeat match goal with H : (_ <=? _) = true |- _ => apply Z.leb_le in H end;
  injection H as <- <-; cbn; lia.
Qed.

Lemma inv27_frame s s' :
  inv27 s -> hp s' = hp s -> same_lk (par s) (par s') ->
  o_c0 (par s') = o_c0 (par s) -> o_c1 (par s') = o_c1 (par s) ->
  o_i0 (par s') = o_i0 (par s) -> o_i1 (par s') = o_i1 (par s) ->
  s_L T Sg s' = s_L T Sg s -> s_R T Sg s' = s_R T Sg s -> s_lsplit T Sg s' = s_lsplit T Sg s ->
  inv27 s'.
Proof.
  intros I Hh [S1 [S2 [S3 [S4 [S5 S6]]]]] C0 C1 I0 I1 HL HR Hs. destruct I.
  constructor; rewrite ?Hh, ?HL, ?HR, ?Hs, ?S1, ?S2, ?S3, ?S4, ?S5, ?S6; auto.
  - eapply wfo_slots; [| | | | |exact v_par0]; auto. repeat split; auto.
  - destruct v_len0 as [cs ?]. exists cs. rewrite S5, S1, S2. auto.
Qed.

Theorem inv27_step s c : inv27 s -> split_domain s c -> inv27 (fst (step s c)).
Proof.
  intros I D.
  assert (Hlm : 0 <= o_l (par s) <= o_m (par s)) by (pose proof (v_l _ I); pose proof (v_k _ I); lia).
  destruct c; cbn [BVModel.step split_domain] in *.
  - destruct (wrap_cases T Sg s (do o <- obj_of T Sg s w; do ' (o', p) <- get_column T (hp s) o j;
              Ok (put_obj T Sg s w o', Vec T Sg p))) as [[s' [o' [E ->]]]|[-> _]]; [|exact I]. cbn.
    binv E. cbn in E. injection E as <- <-.
    pose proof (inv27_obj _ _ _ I Eb) as W.
    destruct (get_column_wfo _ _ _ _ _ W Eb0) as [W' [Lk [E1 [E2 _]]]].
    eapply inv27_put; eauto. intros ->. cbn in Eb. injection Eb as <-.
    destruct Lk as [? [? [? Hm]]]. rewrite E1, E2, Hm. split; [apply (v_l _ I)|apply (v_k _ I)].
  - destruct (hget _ _ _); exact I.
  - destruct (hset T (hp s) p v) eqn:E; cbn; try exact I. eapply inv27_heap; eauto.
  - destruct (wrap_cases T Sg s (do o <- obj_of T Sg s w; do o' <- restore_column T (hp s) o j p;
              Ok (put_obj T Sg s w o', Done T Sg))) as [[s' [o' [E ->]]]|[-> _]]; [|exact I]. cbn.
    binv E. injection E as <- <-.
    pose proof (inv27_obj _ _ _ I Eb) as W.
    destruct (restore_column_wfo _ _ _ _ _ W Eb0) as [W' [Lk [E1 E2]]].
    eapply inv27_put; eauto. intros ->. cbn in Eb. injection Eb as <-.
    destruct Lk as [? [? [? Hm]]]. rewrite E1, E2, Hm. split; [apply (v_l _ I)|apply (v_k _ I)].
  - destruct (obj_of T Sg s w) as [o| | |] eqn:Eo; try exact I.
    destruct (set_active o l k) as [o' ok] eqn:Es. cbn.
    pose proof (set_active_lk _ _ _ _ _ Es) as [A1 [A2 [A3 [A4 [A5 [A6 [A7 A8]]]]]]].
    assert (Lk : like o o') by (repeat split; auto).
    pose proof (inv27_obj _ _ _ I Eo) as W.
    eapply inv27_put; eauto; [eapply wfo_slots; eauto|].
    intros ->. cbn in Eo. injection Eo as <-.
    pose proof (set_active_l _ _ _ _ _ Es ltac:(lia) (v_k _ I) Hlm). lia.
  - destruct (wrap_cases T Sg s (do ' (h', o') <- set_num_constraints T (hp s) (par s) nc;
              Ok (with_par T Sg (with_heap T Sg s h') o', Done T Sg))) as [[s' [o' [E ->]]]|[-> _]]; [|exact I].
    binv E. cbn in E. injection E as <- <-. cbn.
    destruct (v_len _ I) as [cs [Hb Hz]].
    pose proof (set_num_constraints_spec T (hp s) (par s) cs nc (v_par _ I) (v_pos _ I) Hb) as G.
    destruct ((0 <=? nc) && (nc <? o_nc (par s) + o_m (par s)) && (length (outs (par s)) =? 0)%nat) eqn:Eg; [|congruence].
    destruct G as [h' [o' [cs' [E [W' [O' [B' [Z' [Bk [F [N [M [L [K C]]]]]]]]]]]]]].
    rewrite E in Eb. injection Eb as <- <-.
    destruct (v_none _ I D) as [HR Hs].
    pose proof (v_k _ I) as Hk. pose proof (v_off _ I) as Hoff.
    repeat (apply andb_true_iff in Eg; destruct Eg as [Eg ?]).
    apply Z.leb_le in Eg. apply Z.ltb_lt in H0.
    constructor; cbn; auto; try congruence; try lia.
    + exists cs'. split; auto. lia.
    + right. rewrite L. destruct (nc =? o_nc (par s)) eqn:En; [apply Z.eqb_eq in En|]; lia.
    + rewrite K. destruct (nc =? o_nc (par s)) eqn:En; [apply Z.eqb_eq in En|]; lia.
  - destruct D as [D Ho].
    destruct (wrap_cases T Sg s (do s' <- resize T zero Sg sone szero s m copy; Ok (s', Done T Sg)))
      as [[s' [o' [E ->]]]|[-> _]]; [|exact I].
    binv E. injection E as <- <-. cbn. unfold resize in Eb. binv Eb.
    destruct (o_m (par s) =? m); [injection Eb as <-; exact I|].
    apply Z.ltb_lt in Ck. apply Z.eqb_eq in Ck0.
    destruct (v_len _ I) as [cs [Hb Hz]]. rewrite Hb in Eb. cbn [bind] in Eb.
    binv Eb. injection Eb as <-.
    destruct (v_none _ I D) as [HR Hs].
    assert (Hc : o_c0 (par s) = - o_nc (par s) - 1 /\ o_c1 (par s) = - o_nc (par s) - 1)
      by (apply outs_nil; rewrite Ho; reflexivity).
    assert (Hb' : block T (upd T (hp s) (o_blk (par s)) None ++
              [Some (resize_store T zero cs (o_m (par s)) m copy)]) (length (hp s))
              = Ok (resize_store T zero cs (o_m (par s)) m copy)).
    { unfold block. rewrite nth_error_app2 by (rewrite upd_length; lia).
      rewrite upd_length, Nat.sub_diag. reflexivity. }
    assert (Hlen' : zlen (resize_store T zero cs (o_m (par s)) m copy) = m).
    { pose proof (v_pos _ I). unfold resize_store, zlen. unfold zlen in Hz. destruct copy.
      - rewrite app_length, firstn_length, repeat_length. lia.
      - rewrite repeat_length. lia. }
    pose proof (v_k _ I).
    constructor; cbn; auto; try congruence; try lia.
    + constructor; cbn; try lia. eexists. split; [exact Hb'|]. lia.
    + eexists. split; [exact Hb'|]. cbn. lia.
  - destruct (wrap_cases T Sg s (do s' <- copy_column T Sg s j i; Ok (s', Done T Sg)))
      as [[s' [o' [E ->]]]|[-> _]]; [|exact I].
    binv E. injection E as <- <-. cbn.
    unfold copy_column in Eb. destruct (j =? i); [injection Eb as <-; exact I|].
    binv Eb. injection Eb as <-. pose proof (inv27_heap _ _ _ _ I Eb2) as I2.
    eapply inv27_frame; [exact I2|..]; cbn; auto. repeat split.
  - pose proof (set_indef_frame T Sg s b) as F. eapply inv27_frame; [exact I|..]; apply F.
  - destruct (wrap_cases T Sg s (do s' <- set_signature T Sg sone s vs; Ok (s', Done T Sg)))
      as [[s' [o' [E ->]]]|[-> _]]; [|exact I].
    binv E. injection E as <- <-. cbn. apply set_signature_frame in Eb.
    eapply inv27_frame; [exact I|..]; apply Eb.
  - destruct (get_signature _ _ _ _ _); exact I.
  - pose proof (buffer_par T Sg s) as B. cbn. eapply inv27_frame; [exact I|..]; try apply B;
    destruct B as [-> _]; auto. apply same_lk_refl.
  - unfold set_buffer, check. destruct (_ =? _); cbn; [|exact I].
    eapply inv27_frame; [exact I|..]; cbn; auto. repeat split.
  - destruct (wrap_cases T Sg s (do s' <- use_buffer T Sg sone s j; Ok (s', Done T Sg)))
      as [[s' [o' [E ->]]]|[-> _]]; [|exact I].
    binv E. injection E as <- <-. cbn. apply use_buffer_frame in Eb.
    eapply inv27_frame; [exact I|..]; apply Eb.
  - destruct (wrap_cases T Sg s (do s' <- get_split T Sg s; Ok (s', Done T Sg)))
      as [[s' [o' [E ->]]]|[-> _]]; [|exact I].
    binv E. injection E as <- <-. cbn. unfold get_split in Eb. binv Eb. injection Eb as <-.
    apply negb_true_iff, Z.eqb_neq in Ck.
    pose proof (wf_nc _ _ _ (v_par _ I)) as Hnc. destruct (v_len _ I) as [cs [Hb Hz]].
    pose proof (split_left_wfo (hp s) (par s) (o_nc (par s) + o_l (par s)) (s_L T Sg s)
      (v_par _ I) (v_off _ I) Hlm ltac:(lia)) as HL.
    pose proof (split_right_wfo (hp s) (par s) (s_R T Sg s) cs
      (v_par _ I) (v_off _ I) Hlm Hb Hz) as HR.
    destruct I. cbn zeta in *. constructor; cbn -[split_private]; auto; try discriminate.
    + right. repeat split; try lia; discriminate.
    + intros v E. injection E as <-. destruct HL as [? [? [? [? [? ?]]]]].
      { intros v Hv. destruct (v_L0 v Hv) as [? [? [? [? ?]]]]. auto. }
      do 4 (split; [auto|]). intros _. lia.
    + intros v E. injection E as <-. destruct HR as [? [? [? [? [? ?]]]]].
      { intros v Hv. destruct (v_R0 v Hv) as [? [? [? [? ?]]]]. auto. }
      do 3 (split; [auto|]). lia.
  - unfold restore_split, check. destruct (0 <? _) eqn:E0; cbn; [|exact I].
    destruct (view_restored _); cbn; [|exact I]. destruct (view_restored _); cbn; [|exact I].
    destruct I. constructor; cbn; auto.
    + intros Hn. split; auto. now apply v_none0.
    + intros v Hv. destruct (v_L0 v Hv) as [? [? [? [? ?]]]]. do 4 (split; [auto|]). lia.
    + intros v Hv. destruct (v_R0 v Hv) as [? [? [? [? ?]]]]. do 4 (split; [auto|]). lia.
Qed.

Lemma inv27_new m s : bv_create T zero Sg m = Ok s -> inv27 s.
Proof.
  unfold bv_create. intros H. binv H. injection H as <-. apply Z.ltb_lt in Ck.
  constructor; cbn; auto; try discriminate; try lia.
  - constructor; cbn; try lia. eexists. split; [reflexivity|]. unfold zlen. rewrite repeat_length. lia.
  - eexists. split; [reflexivity|]. unfold zlen. rewrite repeat_length. cbn. lia.
Qed.
Theorem inv27_reach s : reach split_domain s -> inv27 s.
Proof. induction 1; [eapply inv27_new; eauto|]. now apply inv27_step. Qed.

(** What [peek] sees. *)
Definition guard (o : obj) (j : Z) : bool :=
  (- o_nc o <=? j) && (j <? o_m o) && negb (existsb (Z.eqb j) (outs o)) && (length (outs o) <? 2)%nat.

Lemma peek_spec s w o cs j :
  obj_of T Sg s w = Ok o -> wfo T (hp s) o -> block T (hp s) (o_blk o) = Ok cs ->
  (guard o j = false -> peek s w j = None) /\
  (guard o j = true -> forall v, cval T cs (o_off o + o_nc o + j) v -> peek s w j = Some v).
Proof.
  intros Ho W Hb. pose proof (get_column_spec _ (hp s) o j W) as G. unfold BVSpec.peek, guard.
  cbn [BVModel.step]. rewrite Ho. cbn [bind].
  destruct ((- o_nc o <=? j) && (j <? o_m o) && negb (existsb (Z.eqb j) (outs o)) && (length (outs o) <? 2)%nat).
  - destruct G as [o' [E1 _]]. rewrite E1. cbn [bind wrap]. split; [discriminate|].
    intros _ v Hv. destruct (hget_ok _ _ _ _ _ _ Hb Hv) as [st E].
    unfold colpos.
    replace (s_heap T Sg (put_obj T Sg s w o')) with (hp s) by (destruct w; reflexivity).
    rewrite E. reflexivity.
  - rewrite G. cbn. auto. split; [auto|discriminate].
Qed.

Lemma guard_range o j : guard o j = true -> - o_nc o <= j < o_m o.
Proof.
  unfold guard. intros H. repeat (apply andb_true_iff in H; destruct H as [H ?]).
  apply Z.leb_le in H. apply Z.ltb_lt in H2. lia.
Qed.

Lemma obj_of_put s w w' o o' : w <> w' -> obj_of T Sg s w = Ok o ->
  obj_of T Sg (put_obj T Sg s w' o') w = Ok o.
Proof. intros Hn. destruct w, w'; cbn; auto; congruence. Qed.
Lemma obj_of_heap s h w : obj_of T Sg (with_heap T Sg s h) w = obj_of T Sg s w.
Proof. destruct w; reflexivity. Qed.

(** Writing a column obtained from one of the objects, seen from another one with the same storage. *)
Lemma write_seen s w1 w2 o1 o2 j p s1 v :
  inv27 s -> w2 <> w1 -> obj_of T Sg s w1 = Ok o1 -> obj_of T Sg s w2 = Ok o2 ->
  o_blk o2 = o_blk o1 ->
  step s (GetColumn T Sg w1 j) = (s1, Ok (Vec T Sg p)) ->
  exists s2, step s1 (Write T Sg p v) = (s2, Ok (Done T Sg)) /\
    forall i, peek s2 w2 i =
      option_map (fun old => if o_off o2 + o_nc o2 + i =? o_off o1 + o_nc o1 + j then v else old) (peek s w2 i).
Proof.
  intros I Hw H1 H2 Hb E.
  pose proof (inv27_obj _ _ _ I H1) as W1. pose proof (inv27_obj _ _ _ I H2) as W2.
  cbn [BVModel.step] in E. rewrite H1 in E. cbn [bind] in E.
  destruct (get_column T (hp s) o1 j) as [[o1' p']| | |] eqn:Eg; cbn in E; try discriminate.
  injection E as <- <-.
  destruct (get_column_wfo _ _ _ _ _ W1 Eg) as [W1' [Lk [_ [_ [-> [_ Hj]]]]]].
  destruct (wf_cs _ _ _ W1) as [cs [Hcs [? ?]]].
  destruct (hset_ok T (hp s) (o_blk o1) cs (o_off o1 + o_nc o1 + j) v Hcs ltac:(lia))
    as [h' [cs' [Eh [Hb' [Hl' Hc']]]]].
  cbn [BVModel.step]. replace (hp (put_obj T Sg s w1 o1')) with (hp s) by (destruct w1; reflexivity).
  unfold colpos. rewrite Eh. cbn [bind wrap]. eexists. split; [reflexivity|]. intros i.
  assert (H2' : obj_of T Sg (with_heap T Sg (put_obj T Sg s w1 o1') h') w2 = Ok o2).
  { rewrite obj_of_heap. now apply obj_of_put. }
  assert (W2' : wfo T (hp (with_heap T Sg (put_obj T Sg s w1 o1') h')) o2) by (cbn; eapply wfo_keeps; eauto).
  assert (Hcs2 : block T (hp s) (o_blk o2) = Ok cs) by congruence.
  assert (Hcs2' : block T (hp (with_heap T Sg (put_obj T Sg s w1 o1') h')) (o_blk o2) = Ok cs') by (cbn; congruence).
  destruct (peek_spec _ _ _ _ i H2 W2 Hcs2) as [P1 P2].
  destruct (peek_spec _ _ _ _ i H2' W2' Hcs2') as [Q1 Q2].
  destruct (guard o2 i) eqn:Eg2.
  - pose proof (guard_range _ _ Eg2) as Hi.
    destruct (wf_cs _ _ _ W2) as [cs0 [Hcs0 [? ?]]]. assert (cs0 = cs) by congruence; subst cs0.
    destruct (cval_ex T cs (o_off o2 + o_nc o2 + i) ltac:(lia)) as [old Hold].
    rewrite (P2 eq_refl _ Hold). cbn [option_map]. apply Q2; auto.
    apply Hc'. destruct (o_off o2 + o_nc o2 + i =? o_off o1 + o_nc o1 + j); auto.
  - rewrite (P1 eq_refl), (Q1 eq_refl). reflexivity.
Qed.

Lemma views s : inv27 s -> 0 < s_lsplit T Sg s ->
  exists vl vr, obj_of T Sg s Lv = Ok vl /\ obj_of T Sg s Rv = Ok vr /\
    s_L T Sg s = Some vl /\ s_R T Sg s = Some vr /\
    o_blk vl = o_blk (par s) /\ o_blk vr = o_blk (par s) /\
    o_off vl = 0 /\ o_nc vl = o_nc (par s) /\ o_nc vr = 0 /\
    o_off vr = o_nc (par s) + o_m vl /\ o_m vl + o_m vr = o_m (par s) /\ 0 < o_m vl /\ 0 <= o_m vr.
Proof.
  intros I Hs. pose proof (v_ls _ I) as [?|[Hls [HL HR]]]; [lia|].
  destruct (s_L T Sg s) as [vl|] eqn:EL; [|congruence].
  destruct (s_R T Sg s) as [vr|] eqn:ER; [|congruence].
  destruct (v_L _ I _ EL) as [? [? [? [? M1]]]]. destruct (v_R _ I _ ER) as [? [? [? [? M2]]]].
  specialize (M1 Hs). specialize (M2 Hs).
  exists vl, vr. cbn. rewrite EL, ER. unfold check. replace (0 <? s_lsplit T Sg s) with true by (symmetry; now apply Z.ltb_lt).
  do 4 (split; [auto|]). do 3 (split; [auto|]). do 2 (split; [auto|]). lia.
Qed.

(** The check of BVRestoreSplit. *)
Lemma view_restored_spec h v : wfo T h v ->
  view_restored (Some v) = true <-> (forall j, In j (outs v) -> j < o_nc v).
Proof.
  intros W. cbn. rewrite andb_true_iff, !Z.leb_le. pose proof (wf_nc _ _ _ W).
  split.
  - intros [? ?] j Hj. apply (outs_in _ _ _ _ W) in Hj. lia.
  - intros Hx. split.
    + destruct (wf_c0 _ _ _ W) as [->|[? _]]; [lia|].
      assert (o_c0 v < o_nc v); [|lia]. apply Hx. apply (outs_in _ _ _ _ W). lia.
    + destruct (wf_c1 _ _ _ W) as [->|[? _]]; [lia|].
      assert (o_c1 v < o_nc v); [|lia]. apply Hx. apply (outs_in _ _ _ _ W). lia.
Qed.

End Proofs.
