(** The parent object in arbitrary histories; views are always handed out with all their columns. *)
From Coq Require Import ZArith List Bool Lia Permutation.
From Verif Require Import Prelude BVModel BVSpec BVProofs BVProofs2 BVProofs4.
Import ListNotations.
Open Scope Z_scope.

Section Proofs.
Variable T : Type.
Variable zero : T.
Variable Sg : Type.
Variables sone szero : Sg.
Notation sys := (sys T Sg).
Notation heap := (heap T).
Notation op := (op T Sg).
Notation step := (step T zero Sg sone szero).
Notation reach := (reach T zero Sg sone szero).
Notation par s := (s_par T Sg s).
Notation hp s := (s_heap T Sg s).
Notation peek := (peek T zero Sg sone szero).

Ltac binv H :=
  repeat match type of H with
  | check ?b _ = Ok _ => unfold check at 1 in H; let E := fresh "Ck" in destruct b eqn:E; [|discriminate H]
  | bind ?r _ = Ok _ =>
      let E := fresh "Eb" in destruct r eqn:E; cbn [bind] in H; try discriminate H
  | (let '(_, _) := ?x in _) = Ok _ => destruct x
  end.

(** The only obligation: no resizing while a column of the basis is out. *)
Definition calm (s : sys) (c : op) : Prop :=
  match c with Resize _ _ _ _ => outs (par s) = [] | _ => True end.

Definition par_ok (s : sys) : Prop :=
  wfo T (hp s) (par s) /\ o_off (par s) = 0 /\ 0 < o_m (par s) /\ sizes_ok T (hp s) (par s).

Lemma par_ok_heap s p v h' : par_ok s -> hset T (hp s) p v = Ok h' -> par_ok (with_heap T Sg s h').
Proof.
  intros [A1 [A2 [A3 [cs [Hb Hl]]]]] H. split; [cbn; eapply wfo_keeps; eauto|]. cbn.
  destruct (hset_keeps T _ _ _ _ H _ _ Hb) as [cs' [? ?]].
  do 2 (split; [auto|]). exists cs'. split; auto. congruence.
Qed.
Lemma par_ok_put s o : par_ok s -> like (par s) o -> wfo T (hp s) o -> par_ok (with_par T Sg s o).
Proof.
  intros [A1 [A2 [A3 [cs [Hb Hl]]]]] [L1 [L2 [L3 L4]]] W. split; [exact W|]. cbn.
  split; [congruence|]. split; [congruence|]. exists cs. rewrite L1, L3, L4. auto.
Qed.
Lemma par_ok_frame s s' :
  par_ok s -> hp s' = hp s -> same_lk (par s) (par s') ->
  o_c0 (par s') = o_c0 (par s) -> o_c1 (par s') = o_c1 (par s) ->
  o_i0 (par s') = o_i0 (par s) -> o_i1 (par s') = o_i1 (par s) -> par_ok s'.
Proof.
  intros [A1 [A2 [A3 [cs [Hb Hl]]]]] Hh [S1 [S2 [S3 [S4 [S5 S6]]]]] C0 C1 I0 I1.
  assert (Lk : like (par s) (par s')) by (repeat split; auto).
  split; [rewrite Hh; eapply wfo_slots; eauto|]. split; [congruence|]. split; [congruence|].
  exists cs. rewrite Hh, S5, S1, S2. auto.
Qed.

Theorem par_ok_step s c : par_ok s -> calm s c -> par_ok (fst (step s c)).
Proof.
  intros I D. pose proof I as [W [Hoff [Hpos [cs [Hb Hz]]]]].
  destruct c; cbn [BVModel.step calm] in *.
  - destruct (wrap_cases T Sg s (do o <- obj_of T Sg s w; do ' (o', p) <- get_column T (hp s) o j;
              Ok (put_obj T Sg s w o', Vec T Sg p))) as [[s' [o' [E ->]]]|[-> _]]; [|exact I]. cbn.
    binv E. cbn in E. injection E as <- <-.
    destruct w; [|exact I|exact I]. cbn in Eb. injection Eb as <-.
    destruct (get_column_wfo _ _ _ _ _ _ W Eb0) as [W' [Lk _]]. now apply par_ok_put.
  - destruct (hget _ _ _); exact I.
  - destruct (hset T (hp s) p v) eqn:E; cbn; try exact I. eapply par_ok_heap; eauto.
  - destruct (wrap_cases T Sg s (do o <- obj_of T Sg s w; do o' <- restore_column T (hp s) o j p;
              Ok (put_obj T Sg s w o', Done T Sg))) as [[s' [o' [E ->]]]|[-> _]]; [|exact I]. cbn.
    binv E. injection E as <- <-.
    destruct w; [|exact I|exact I]. cbn in Eb. injection Eb as <-.
    destruct (restore_column_wfo _ _ _ _ _ _ W Eb0) as [W' [Lk _]]. now apply par_ok_put.
  - destruct (obj_of T Sg s w) as [o| | |] eqn:Eo; try exact I.
    destruct (set_active o l k) as [o' ok] eqn:Es. cbn.
    pose proof (set_active_lk _ _ _ _ _ Es) as [A1 [A2 [A3 [A4 [A5 [A6 [A7 A8]]]]]]].
    destruct w; [|exact I|exact I]. cbn in Eo. injection Eo as <-.
    assert (Lk : like (par s) o') by (repeat split; auto).
    apply par_ok_put; auto. eapply wfo_slots; eauto.
  - destruct (wrap_cases T Sg s (do ' (h', o') <- set_num_constraints T (hp s) (par s) nc;
              Ok (with_par T Sg (with_heap T Sg s h') o', Done T Sg))) as [[s' [o' [E ->]]]|[-> _]]; [|exact I].
    binv E. cbn in E. injection E as <- <-. cbn.
    pose proof (set_num_constraints_spec T (hp s) (par s) cs nc W Hpos Hb) as G.
    destruct ((0 <=? nc) && (nc <? o_nc (par s) + o_m (par s)) && (length (outs (par s)) =? 0)%nat) eqn:Eg; [|congruence].
    destruct G as [h' [o' [cs' [E [W' [O' [B' [Z' [Bk [F [N [M [L [K C]]]]]]]]]]]]]].
    rewrite E in Eb. injection Eb as <- <-.
    repeat (apply andb_true_iff in Eg; destruct Eg as [Eg ?]). apply Z.ltb_lt in H0.
    split; [exact W'|]. cbn. split; [congruence|]. split; [lia|]. exists cs'. split; auto. lia.
  - destruct (wrap_cases T Sg s (do s' <- resize T zero Sg sone szero s m copy; Ok (s', Done T Sg)))
      as [[s' [o' [E ->]]]|[-> _]]; [|exact I].
    binv E. injection E as <- <-. cbn. unfold resize in Eb. binv Eb.
    destruct (o_m (par s) =? m); [injection Eb as <-; exact I|].
    apply Z.ltb_lt in Ck. apply Z.eqb_eq in Ck0. rewrite Hb in Eb. cbn [bind] in Eb.
    binv Eb. injection Eb as <-.
    assert (Hc : o_c0 (par s) = - o_nc (par s) - 1 /\ o_c1 (par s) = - o_nc (par s) - 1)
      by (apply outs_nil; rewrite D; reflexivity).
    assert (Hb' : block T (upd T (hp s) (o_blk (par s)) None ++
              [Some (resize_store T zero cs (o_m (par s)) m copy)]) (length (hp s))
              = Ok (resize_store T zero cs (o_m (par s)) m copy)).
    { unfold block. rewrite nth_error_app2 by (rewrite upd_length; lia).
      rewrite upd_length, Nat.sub_diag. reflexivity. }
    assert (Hlen' : zlen (resize_store T zero cs (o_m (par s)) m copy) = m).
    { unfold resize_store, zlen. unfold zlen in Hz. destruct copy.
      - rewrite app_length, firstn_length, repeat_length. lia.
      - rewrite repeat_length. lia. }
    split; [constructor; cbn; try lia; eexists; split; [exact Hb'|lia]|]. cbn.
    split; [auto|]. split; [lia|]. eexists. split; [exact Hb'|]. cbn. lia.
  - destruct (wrap_cases T Sg s (do s' <- copy_column T Sg s j i; Ok (s', Done T Sg)))
      as [[s' [o' [E ->]]]|[-> _]]; [|exact I].
    binv E. injection E as <- <-. cbn.
    unfold copy_column in Eb. destruct (j =? i); [injection Eb as <-; exact I|].
    binv Eb. injection Eb as <-. pose proof (par_ok_heap _ _ _ _ I Eb2) as I2.
    eapply par_ok_frame; [exact I2|..]; cbn; auto. repeat split.
  - pose proof (set_indef_frame T Sg s b) as F. eapply par_ok_frame; [exact I|..]; apply F.
  - destruct (wrap_cases T Sg s (do s' <- set_signature T Sg sone s vs; Ok (s', Done T Sg)))
      as [[s' [o' [E ->]]]|[-> _]]; [|exact I].
    binv E. injection E as <- <-. cbn. apply set_signature_frame in Eb.
    eapply par_ok_frame; [exact I|..]; apply Eb.
  - destruct (get_signature _ _ _ _ _); exact I.
  - pose proof (buffer_par T Sg s) as B. cbn. eapply par_ok_frame; [exact I|..]; try apply B;
    destruct B as [-> _]; auto. apply same_lk_refl.
  - unfold set_buffer, check. destruct (_ =? _); cbn; [|exact I].
    eapply par_ok_frame; [exact I|..]; cbn; auto. repeat split.
  - destruct (wrap_cases T Sg s (do s' <- use_buffer T Sg sone s j; Ok (s', Done T Sg)))
      as [[s' [o' [E ->]]]|[-> _]]; [|exact I].
    binv E. injection E as <- <-. cbn. apply use_buffer_frame in Eb.
    eapply par_ok_frame; [exact I|..]; apply Eb.
  - destruct (wrap_cases T Sg s (do s' <- get_split T Sg s; Ok (s', Done T Sg)))
      as [[s' [o' [E ->]]]|[-> _]]; [|exact I].
    binv E. injection E as <- <-. cbn. unfold get_split in Eb. binv Eb. injection Eb as <-. exact I.
  - unfold restore_split, check. destruct (0 <? _) eqn:E0; cbn; [|exact I].
    destruct (view_restored _); cbn; [|exact I]. destruct (view_restored _); cbn; exact I.
Qed.

Lemma par_ok_new m s : bv_create T zero Sg m = Ok s -> par_ok s.
Proof.
  unfold bv_create. intros H. binv H. injection H as <-. apply Z.ltb_lt in Ck.
  split; [|cbn; split; [auto|split; [lia|]]].
  - constructor; cbn; try lia. eexists. split; [reflexivity|]. unfold zlen. rewrite repeat_length. lia.
  - eexists. split; [reflexivity|]. unfold zlen. rewrite repeat_length. cbn. lia.
Qed.
Theorem par_ok_reach s : reach calm s -> par_ok s.
Proof. induction 1; [eapply par_ok_new; eauto|]. now apply par_ok_step. Qed.

(** ** Column numbers of the parent *)
Lemma peek_par s cs j : par_ok s -> block T (hp s) (o_blk (par s)) = Ok cs -> outs (par s) = [] ->
  forall v, peek s Par j = Some v <->
    (- o_nc (par s) <= j < o_m (par s) /\ cval T cs (o_nc (par s) + j) v).
Proof.
  intros [W [Hoff [Hpos [cs0 [Hb0 Hl]]]]] Hb Ho v.
  assert (cs0 = cs) by congruence; subst.
  destruct (peek_spec T zero Sg sone szero s Par (par s) cs j eq_refl W Hb) as [P1 P2].
  rewrite Hoff, Z.add_0_l in P2.
  destruct (guard (par s) j) eqn:Eg.
  - pose proof (guard_range _ _ Eg) as Hj.
    destruct (cval_ex T cs (o_nc (par s) + j) ltac:(lia)) as [u Hu]. rewrite (P2 eq_refl _ Hu).
    split; [intros [= <-]; auto|]. intros [_ Hv]. f_equal. eapply cval_fun; eauto.
  - rewrite (P1 eq_refl). split; [discriminate|]. intros [Hj _]. unfold guard in Eg. rewrite Ho in Eg.
    cbn in Eg. destruct (Z.leb_spec (- o_nc (par s)) j), (Z.ltb_spec j (o_m (par s))); (try discriminate Eg); lia.
Qed.

Theorem constraints_effect s nc : par_ok s ->
  let s' := fst (step s (SetNumConstraints T Sg nc)) in
  if (0 <=? nc) && (nc <? o_nc (par s) + o_m (par s)) && (length (outs (par s)) =? 0)%nat then
    snd (step s (SetNumConstraints T Sg nc)) = Ok (Done T Sg) /\
    o_nc (par s') = nc /\ o_m (par s') = o_nc (par s) + o_m (par s) - nc /\
    (nc <= o_nc (par s) -> forall j, 0 <= j < o_m (par s) -> peek s' Par j = peek s Par j) /\
    (nc <= o_nc (par s) -> forall j, - nc <= j < 0 -> peek s' Par j = peek s Par (j - (o_nc (par s) - nc))) /\
    (o_nc (par s) <= nc -> forall j, - nc <= j < o_m (par s') ->
        peek s' Par j = peek s Par (j + (nc - o_nc (par s))))
  else step s (SetNumConstraints T Sg nc) = (s, Err).
Proof.
  intros I. pose proof I as [W [Hoff [Hpos [cs [Hb Hz]]]]].
  pose proof (set_num_constraints_spec T (hp s) (par s) cs nc W Hpos Hb) as G. cbn zeta.
  pose proof (par_ok_step s (SetNumConstraints T Sg nc) I Logic.I) as I'. cbn [BVModel.step] in *.
  destruct ((0 <=? nc) && (nc <? o_nc (par s) + o_m (par s)) && (length (outs (par s)) =? 0)%nat) eqn:Eg.
  2:{ rewrite G. reflexivity. }
  destruct G as [h' [o' [cs' [E [W' [O' [B' [Z' [Bk [F [N [M [L [K C]]]]]]]]]]]]]].
  rewrite E in *. cbn [bind wrap fst snd] in *.
  repeat (apply andb_true_iff in Eg; destruct Eg as [Eg ?]).
  apply Z.leb_le in Eg. apply Z.ltb_lt in H0. apply Nat.eqb_eq in H.
  assert (Ho : outs (par s) = []) by (destruct (outs (par s)); [auto|discriminate]).
  rewrite Hoff in C.
  assert (P' := fun j => peek_par _ cs' j I' B' O'). assert (P := fun j => peek_par _ cs j I Hb Ho).
  cbn [s_par with_par] in P' |- *. rewrite N, M in P'.
  assert (eqv : forall a b, (forall v, a = Some v <-> b = Some v) -> a = b :> option T).
  { intros a b Hab. destruct a as [a|]; [symmetry; now apply Hab|].
    destruct b as [b|]; auto. now apply Hab. }
  split; [reflexivity|]. split; [auto|]. split; [auto|].
  split; [|split]; intros Hle j Hj; apply eqv; intros v; rewrite (P' j v), P, C.
  - destruct (Z.ltb_spec nc (o_nc (par s))); cbn [andb].
    + destruct (Z.leb_spec (0 + nc) (nc + j)); [|lia]. destruct (Z.ltb_spec (nc + j) (0 + nc + o_m (par s))); [|lia].
      cbn [andb]. replace (nc + j - (nc - o_nc (par s))) with (o_nc (par s) + j) by lia.
      split; (intros [_ ?]; split; [lia|auto]).
    + replace nc with (o_nc (par s)) by lia. split; (intros [_ ?]; split; [lia|auto]).
  - replace (nc + j) with (o_nc (par s) + (j - (o_nc (par s) - nc))) by lia.
    destruct (Z.ltb_spec nc (o_nc (par s))); cbn [andb].
    + destruct (Z.leb_spec (0 + nc) (o_nc (par s) + (j - (o_nc (par s) - nc)))); [lia|]. cbn [andb].
      split; (intros [_ ?]; split; [lia|auto]).
    + split; (intros [_ ?]; split; [lia|auto]).
  - rewrite M in Hj. destruct (Z.ltb_spec nc (o_nc (par s))); [lia|]. cbn [andb].
    replace (o_nc (par s) + (j + (nc - o_nc (par s)))) with (nc + j) by lia.
    split; (intros [_ ?]; split; [lia|auto]).
Qed.

(** ** Detection of changes *)
Lemma hget_hset h p v h' : hset T h p v = Ok h' ->
  exists u st, hget T h p = Ok (u, st) /\ hget T h' p = Ok (v, st + 1).
Proof.
  unfold hset, hget. intros H. binv H. injection H as <-. cbn [bind]. try rewrite Eb0. destruct a0 as [u st].
  exists u, st. split; [reflexivity|]. rewrite (block_upd_same T h (fst p) a a1 Eb). cbn [bind].
  rewrite (aget_aset _ _ _ _ (snd p) Eb1), Z.eqb_refl. reflexivity.
Qed.

Fixpoint writes (s : sys) (p : handle) (vs : list T) : sys :=
  match vs with [] => s | v :: r => writes (fst (step s (Write T Sg p v))) p r end.

Lemma last_cons (v : T) vs u : last (v :: vs) u = last vs v.
Proof. revert v. induction vs as [|x r IH]; intros v; [reflexivity|]. 
  change (last (v :: x :: r) u) with (last (x :: r) u). rewrite IH. destruct r; [reflexivity|].
  change (last (x :: t :: r) v) with (last (t :: r) v). now rewrite <- (IH v), <- IH.
Qed.
Lemma writes_state s p vs : (exists u st, hget T (hp s) p = Ok (u, st)) ->
  forall u st, hget T (hp s) p = Ok (u, st) ->
  par (writes s p vs) = par s /\
  hget T (hp (writes s p vs)) p = Ok (last vs u, st + zlen vs).
Proof.
  revert s. induction vs as [|v vs IH]; intros s _ u st Hg; cbn [writes].
  - cbn. rewrite Z.add_0_r. auto.
  - cbn [BVModel.step]. destruct (hset T (hp s) p v) as [h'| | |] eqn:E; cbn [bind wrap fst].
    + destruct (hget_hset _ _ _ _ E) as [u' [st' [E1 E2]]]. rewrite E1 in Hg. injection Hg as -> ->.
      destruct (IH (with_heap T Sg s h') (ex_intro _ v (ex_intro _ (st + 1) E2)) v (st + 1) E2) as [-> ->].
      split; [reflexivity|]. f_equal. f_equal; [|rewrite zlen_cons; lia].
      now rewrite last_cons.
    + unfold hget in Hg. unfold hset in E. destruct (block T (hp s) (fst p)) as [l| | |]; cbn [bind] in *; try discriminate;
      rewrite Hg in E; cbn [bind] in E;
      assert (Hr : 0 <= snd p < zlen l) by (apply aget_ok_iff; eauto);
      destruct (proj2 (aset_ok_iff l (snd p) (v, snd (u, st) + 1)) Hr) as [? Ea]; rewrite Ea in E; discriminate.
    + unfold hget in Hg. unfold hset in E. destruct (block T (hp s) (fst p)) as [l| | |]; cbn [bind] in *; try discriminate;
      rewrite Hg in E; cbn [bind] in E;
      assert (Hr : 0 <= snd p < zlen l) by (apply aget_ok_iff; eauto);
      destruct (proj2 (aset_ok_iff l (snd p) (v, snd (u, st) + 1)) Hr) as [? Ea]; rewrite Ea in E; discriminate.
    + unfold hget in Hg. unfold hset in E. destruct (block T (hp s) (fst p)) as [l| | |]; cbn [bind] in *; try discriminate;
      rewrite Hg in E; cbn [bind] in E;
      assert (Hr : 0 <= snd p < zlen l) by (apply aget_ok_iff; eauto);
      destruct (proj2 (aset_ok_iff l (snd p) (v, snd (u, st) + 1)) Hr) as [? Ea]; rewrite Ea in E; discriminate.
Qed.

Theorem change_noticed s j p s1 vs : par_ok s ->
  step s (GetColumn T Sg Par j) = (s1, Ok (Vec T Sg p)) ->
  exists s3, step (writes s1 p vs) (RestoreColumn T Sg Par j p) = (s3, Ok (Done T Sg)) /\
    o_state (par s3) = o_state (par s) + (if (length vs =? 0)%nat then 0 else 1).
Proof.
  intros [W [Hoff [Hpos [cs [Hb Hz]]]]] E. cbn [BVModel.step obj_of bind] in E.
  destruct (get_column T (hp s) (par s) j) as [[o' p']| | |] eqn:Eg; cbn in E; try discriminate.
  injection E as <- <-.
  destruct (get_column_wfo _ _ _ _ _ _ W Eg) as [W' [[L1 [L2 [L3 L4]]] [El [Ek [-> [P Hj]]]]]].
  unfold get_column in Eg. binv Eg. destruct a as [u st]. cbn [snd] in Eg.
  apply andb_true_iff in Ck1. rewrite !negb_true_iff, !Z.eqb_neq in Ck1. destruct Ck1 as [C0 C1].
  apply orb_true_iff in Ck2. rewrite !Z.eqb_eq in Ck2.
  set (sx := with_par T Sg s o').
  assert (Hg : hget T (hp sx) (colpos (par s) j) = Ok (u, st)) by exact Eb.
  destruct (writes_state sx (colpos (par s) j) vs (ex_intro _ u (ex_intro _ st Hg)) u st Hg) as [Hp Hr].
  change (with_par T Sg s o') with sx. cbn [BVModel.step obj_of bind]. rewrite Hp.
  unfold restore_column. change (par sx) with o'. rewrite L3, L4, Ck, Ck0. cbn [check].
  assert (Hlen : st + zlen vs =? st = (length vs =? 0)%nat).
  { unfold zlen. destruct vs; cbn [length Nat.eqb]; [apply Z.eqb_eq; cbn; lia|apply Z.eqb_neq; lia]. }
  destruct (Z.eqb_spec (o_c0 (par s)) (- o_nc (par s) - 1)) as [F0|F0]; injection Eg as <-; cbn.
  - rewrite Z.eqb_refl. cbn [orb]. rewrite Hr. cbn [bind].
    rewrite handle_eqb_refl. cbn [snd]. rewrite Hlen. eexists. split; [reflexivity|].
    destruct (length vs =? 0)%nat; cbn; lia.
  - destruct (Z.eqb_spec j (o_c0 (par s))); [congruence|]. rewrite Z.eqb_refl. cbn [orb]. rewrite Hr. cbn [bind].
    rewrite handle_eqb_refl. cbn [snd]. rewrite Hlen. eexists. split; [reflexivity|].
    destruct (length vs =? 0)%nat; cbn; lia.
Qed.

(** ** Views are handed out with no column out *)
Notation inv27 := (inv27 T Sg).
Notation split_domain := (split_domain T Sg).
Definition idle (s : sys) : Prop := s_lsplit T Sg s = 0 ->
  (forall v, s_L T Sg s = Some v -> o_nc v = 0 -> outs v = []) /\
  (forall v, s_R T Sg s = Some v -> outs v = []).

Lemma idle_step s c : inv27 s -> split_domain s c -> idle s -> idle (fst (step s c)).
Proof.
  intros I D F.
  assert (Same : forall s', s_L T Sg s' = s_L T Sg s -> s_R T Sg s' = s_R T Sg s ->
                 s_lsplit T Sg s' = s_lsplit T Sg s -> idle s').
  { unfold idle. intros s' -> -> ->. auto. }
  assert (Put : forall w o o', obj_of T Sg s w = Ok o -> idle (put_obj T Sg s w o')).
  { intros w o o' Ho. destruct w; [apply Same; auto|..]; intros Hs; cbn in Ho; cbn in Hs;
    rewrite Hs in Ho; discriminate. }
  destruct c; cbn [BVModel.step].
  - destruct (wrap_cases T Sg s (do o <- obj_of T Sg s w; do ' (o', p) <- get_column T (hp s) o j;
              Ok (put_obj T Sg s w o', Vec T Sg p))) as [[s' [o' [E ->]]]|[-> _]]; [|exact F]. cbn.
    binv E. cbn in E. injection E as <- <-. eauto.
  - destruct (hget _ _ _); exact F.
  - destruct (hset T (hp s) p v) eqn:E; cbn; try exact F.
  - destruct (wrap_cases T Sg s (do o <- obj_of T Sg s w; do o' <- restore_column T (hp s) o j p;
              Ok (put_obj T Sg s w o', Done T Sg))) as [[s' [o' [E ->]]]|[-> _]]; [|exact F]. cbn.
    binv E. injection E as <- <-. eauto.
  - destruct (obj_of T Sg s w) as [o| | |] eqn:Eo; try exact F.
    destruct (set_active o l k) as [o' ok] eqn:Es. cbn. eauto.
  - destruct (wrap_cases T Sg s (do ' (h', o') <- set_num_constraints T (hp s) (par s) nc;
              Ok (with_par T Sg (with_heap T Sg s h') o', Done T Sg))) as [[s' [o' [E ->]]]|[-> _]]; [|exact F].
    binv E. cbn in E. injection E as <- <-. apply Same; reflexivity.
  - destruct (wrap_cases T Sg s (do s' <- resize T zero Sg sone szero s m copy; Ok (s', Done T Sg)))
      as [[s' [o' [E ->]]]|[-> _]]; [|exact F].
    binv E. injection E as <- <-. cbn. unfold resize in Eb. binv Eb.
    destruct (o_m (par s) =? m); [injection Eb as <-; exact F|].
    binv Eb. injection Eb as <-. apply Same; reflexivity.
  - destruct (wrap_cases T Sg s (do s' <- copy_column T Sg s j i; Ok (s', Done T Sg)))
      as [[s' [o' [E ->]]]|[-> _]]; [|exact F].
    binv E. injection E as <- <-. cbn. apply copy_column_frame in Eb. apply Same; apply Eb.
  - pose proof (set_indef_frame T Sg s b) as Fr. apply Same; apply Fr.
  - destruct (wrap_cases T Sg s (do s' <- set_signature T Sg sone s vs; Ok (s', Done T Sg)))
      as [[s' [o' [E ->]]]|[-> _]]; [|exact F].
    binv E. injection E as <- <-. cbn. apply set_signature_frame in Eb. apply Same; apply Eb.
  - destruct (get_signature _ _ _ _ _); exact F.
  - pose proof (buffer_par T Sg s) as B. cbn. apply Same; apply B.
  - unfold set_buffer, check. destruct (_ =? _); cbn; [|exact F]. apply Same; reflexivity.
  - destruct (wrap_cases T Sg s (do s' <- use_buffer T Sg sone s j; Ok (s', Done T Sg)))
      as [[s' [o' [E ->]]]|[-> _]]; [|exact F].
    binv E. injection E as <- <-. cbn. apply use_buffer_frame in Eb. apply Same; apply Eb.
  - destruct (wrap_cases T Sg s (do s' <- get_split T Sg s; Ok (s', Done T Sg)))
      as [[s' [o' [E ->]]]|[-> _]]; [|exact F].
    binv E. injection E as <- <-. cbn. unfold get_split in Eb. binv Eb. injection Eb as <-.
    apply negb_true_iff, Z.eqb_neq in Ck. intros Hs. cbn in Hs.
    pose proof (wf_nc _ _ _ (v_par _ _ _ I)).
    assert (0 <= o_l (par s)) by (pose proof (v_l _ _ _ I); lia). lia.
  - unfold restore_split, check. destruct (0 <? _) eqn:E0; cbn [fst wrap bind]; [|exact F].
    destruct (view_restored (s_L T Sg s)) eqn:EL; cbn [fst wrap bind]; [|exact F].
    destruct (view_restored (s_R T Sg s)) eqn:ER; cbn [fst wrap bind]; [|exact F].
    intros _. cbn. split.
    + intros v Hv Hn. destruct (v_L _ _ _ I v Hv) as [W _]. rewrite Hv in EL.
      pose proof (proj1 (view_restored_spec T (hp s) v W) EL) as Hx.
      destruct (outs v) as [|x r] eqn:Ex; [reflexivity|exfalso].
      assert (Hin : In x (outs v)) by (rewrite Ex; now left).
      pose proof (Hx x ltac:(rewrite <- Ex; auto)). apply (outs_in _ _ _ _ W) in Hin. lia.
    + intros v Hv. destruct (v_R _ _ _ I v Hv) as [W [_ [Hn _]]]. rewrite Hv in ER.
      pose proof (proj1 (view_restored_spec T (hp s) v W) ER) as Hx.
      destruct (outs v) as [|x r] eqn:Ex; [reflexivity|exfalso].
      assert (Hin : In x (outs v)) by (rewrite Ex; now left).
      pose proof (Hx x ltac:(rewrite <- Ex; auto)). apply (outs_in _ _ _ _ W) in Hin. lia.
Qed.
Lemma idle_reach s : reach split_domain s -> idle s.
Proof.
  induction 1 as [m s H|s c R IH D].
  - intros _. unfold bv_create in H. binv H. injection H as <-. cbn. split; discriminate.
  - apply idle_step; auto. now apply inv27_reach with (1 := R).
Qed.

Theorem split_ok s s' : reach split_domain s -> step s (GetSplit T Sg) = (s', Ok (Done T Sg)) ->
  exists vl vr, obj_of T Sg s' Lv = Ok vl /\ obj_of T Sg s' Rv = Ok vr /\ par s' = par s /\
    o_nc vl = o_nc (par s) /\ o_m vl = o_l (par s) /\ o_l vl = 0 /\ o_k vl = o_l (par s) /\
    o_nc vr = 0 /\ o_m vr = o_m (par s) - o_l (par s) /\ o_l vr = 0 /\ o_k vr = o_k (par s) - o_l (par s) /\
    outs vl = [] /\ outs vr = [].
Proof.
  intros R E. pose proof (inv27_reach _ _ _ _ _ _ R) as I. pose proof (idle_reach _ R) as F.
  assert (Hlm : 0 <= o_l (par s) <= o_m (par s)) by (pose proof (v_l _ _ _ I); pose proof (v_k _ _ _ I); lia).
  pose proof (wf_nc _ _ _ (v_par _ _ _ I)) as Hnc.
  cbn [BVModel.step] in E. unfold get_split, check in E.
  destruct (Z.eqb_spec (o_l (par s)) 0); cbn [negb bind wrap] in E; [discriminate|].
  destruct (Z.leb_spec 0 (s_lsplit T Sg s)); cbn [bind wrap] in E; [|discriminate].
  destruct (Z.eqb_spec (s_lsplit T Sg s) 0) as [E0|]; cbn [bind wrap] in E; [|discriminate].
  injection E as <-. destruct (F E0) as [FL FR].
  cbn -[split_private]. unfold check. replace (0 <? o_nc (par s) + o_l (par s)) with true by (symmetry; apply Z.ltb_lt; lia).
  eexists _, _. split; [reflexivity|]. split; [reflexivity|]. split; [reflexivity|].
  cbn [split_private o_nc o_m o_l o_k].
  do 4 (split; [lia|]). do 4 (split; [lia|]).
  split.
  - unfold split_private. unfold outs. cbn.
    destruct (Z.eqb_spec (o_nc (par s)) 0) as [N0|N0]; [|rewrite Z.eqb_refl; reflexivity].
    rewrite N0. cbn.
    destruct (s_L T Sg s) as [v|] eqn:EL; [|reflexivity]. destruct (_ =? o_m v); [|reflexivity].
    destruct (v_L _ _ _ I v EL) as [_ [_ [_ [Hn _]]]].
    assert (Hv : outs v = []) by (apply FL; auto; congruence). unfold outs in Hv. rewrite Hn, N0 in Hv. exact Hv.
  - unfold split_private, outs. cbn.
    destruct (s_R T Sg s) as [v|] eqn:ER; [|reflexivity]. destruct (_ =? o_m v); [|reflexivity].
    destruct (v_R _ _ _ I v ER) as [_ [_ [Hn _]]].
    pose proof (FR v eq_refl) as Hv. unfold outs in Hv. rewrite Hn in Hv. exact Hv.
Qed.

(** A view with no column out can hand out each of its columns. *)
Lemma available s w o : inv27 s -> obj_of T Sg s w = Ok o -> outs o = [] ->
  forall j, - o_nc o <= j < o_m o -> exists v, peek s w j = Some v.
Proof.
  intros I Ho Hx j Hj. pose proof (inv27_obj T Sg _ _ _ I Ho) as W.
  destruct (wf_cs _ _ _ W) as [cs [Hb [? ?]]].
  destruct (peek_spec T zero Sg sone szero s w o cs j Ho W Hb) as [_ P2].
  destruct (cval_ex T cs (o_off o + o_nc o + j) ltac:(lia)) as [v Hv]. exists v. apply P2; auto.
  unfold guard. rewrite Hx. cbn.
  destruct (Z.leb_spec (- o_nc o) j), (Z.ltb_spec j (o_m o)); (reflexivity || lia).
Qed.

(** Two objects that can both hand out the same position see the same content. *)
Lemma same_content s w1 w2 o1 o2 i j u v : inv27 s ->
  obj_of T Sg s w1 = Ok o1 -> obj_of T Sg s w2 = Ok o2 -> o_blk o1 = o_blk o2 ->
  o_off o1 + o_nc o1 + i = o_off o2 + o_nc o2 + j ->
  peek s w1 i = Some u -> peek s w2 j = Some v -> u = v.
Proof.
  intros I H1 H2 Hb Hp P1 P2.
  pose proof (inv27_obj T Sg _ _ _ I H1) as W1. pose proof (inv27_obj T Sg _ _ _ I H2) as W2.
  destruct (wf_cs _ _ _ W1) as [cs [Hc [? ?]]]. assert (Hc2 : block T (hp s) (o_blk o2) = Ok cs) by congruence.
  destruct (peek_spec T zero Sg sone szero s w1 o1 cs i H1 W1 Hc) as [A1 A2].
  destruct (peek_spec T zero Sg sone szero s w2 o2 cs j H2 W2 Hc2) as [B1 B2].
  destruct (guard o1 i) eqn:G1; [|rewrite (A1 eq_refl) in P1; discriminate].
  destruct (guard o2 j) eqn:G2; [|rewrite (B1 eq_refl) in P2; discriminate].
  pose proof (guard_range _ _ G1). destruct (cval_ex T cs (o_off o1 + o_nc o1 + i) ltac:(lia)) as [x Hx].
  rewrite (A2 eq_refl _ Hx) in P1. rewrite Hp in Hx. rewrite (B2 eq_refl _ Hx) in P2. congruence.
Qed.

End Proofs.
