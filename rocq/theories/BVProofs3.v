(** Signature of an indefinite basis, and split views. *)
From Coq Require Import ZArith List Bool Lia Permutation.
From Verif Require Import Prelude BVModel BVSpec BVProofs BVProofs2.
Import ListNotations.
Open Scope Z_scope.

Section Proofs.
Variable T : Type.
Variable zero : T.
Variable Sg : Type.
Variables sone szero : Sg.
Notation sys := (sys T Sg).
Notation heap := (heap T).
Notation op := (op T Sg).
Notation step := (step T zero Sg sone szero).
Notation reach := (reach T zero Sg sone szero).
Notation sreach := (sreach T zero Sg sone szero).
Notation par s := (s_par T Sg s).
Notation peek := (peek T zero Sg sone szero).

Ltac binv H :=
  repeat match type of H with
  | check ?b _ = Ok _ => unfold check at 1 in H; let E := fresh "Ck" in destruct b eqn:E; [|discriminate H]
  | bind ?r _ = Ok _ =>
      let E := fresh "Eb" in destruct r eqn:E; cbn [bind] in H; try discriminate H
  | (let '(_, _) := ?x in _) = Ok _ => destruct x
  end.

(** ** C28 *)
Lemma store_from_spec vs : forall w i, 0 <= i -> i + zlen vs <= zlen w ->
  exists w', store_from Sg w i vs = Ok w' /\ zlen w' = zlen w /\
    forall q, aget w' q = if (i <=? q) && (q <? i + zlen vs) then Ok (nth (Z.to_nat (q - i)) vs sone) else aget w q.
Proof.
  induction vs as [|v vs IH]; intros w i Hi Hl; cbn [store_from].
  - exists w. split; [auto|]. split; [auto|]. intros q. rewrite zlen_nil.
    destruct (Z.leb_spec i q), (Z.ltb_spec q (i + 0)); cbn; auto; lia.
  - rewrite zlen_cons in *. pose proof (zlen_nonneg vs).
    destruct (proj2 (aset_ok_iff w i v) ltac:(lia)) as [w1 E1]. rewrite E1. cbn [bind].
    pose proof (aset_len _ _ _ _ E1) as L1.
    destruct (IH w1 (i + 1) ltac:(lia) ltac:(lia)) as [w' [E [L G]]].
    exists w'. split; [exact E|]. split; [congruence|]. intros q. rewrite G, (aget_aset _ _ _ _ q E1).
    destruct (Z.leb_spec (i + 1) q), (Z.ltb_spec q (i + 1 + zlen vs)), (Z.leb_spec i q),
      (Z.ltb_spec q (i + (1 + zlen vs))), (Z.eqb_spec q i); cbn [andb]; try lia; auto.
    all: first [ replace (Z.to_nat (q - i)) with (S (Z.to_nat (q - (i + 1)))) by lia; reflexivity
               | subst q; rewrite Z.sub_diag; reflexivity ].
Qed.

Lemma load_from_spec n : forall w i (g : Z -> Sg), 0 <= i ->
  (forall q, 0 <= q < Z.of_nat n -> aget w (i + q) = Ok (g q)) ->
  load_from Sg w i n = Ok (map (fun q => g (Z.of_nat q)) (seq 0 n)).
Proof.
  induction n as [|n IH]; intros w i g Hi H; [reflexivity|]. cbn [load_from].
  replace i with (i + 0) at 1 by lia. rewrite (H 0) by lia. cbn [bind].
  rewrite (IH w (i + 1) (fun q => g (q + 1))); [|lia|].
  - cbn [bind seq map]. do 2 f_equal. rewrite <- seq_shift, map_map. apply map_ext.
    intros q. f_equal. lia.
  - intros q Hq. replace (i + 1 + q) with (i + (q + 1)) by lia. apply H. lia.
Qed.

(** Calls after which the code still knows the signature of every column: BVCopyColumn without
    constraints, no growing copy, no decrease of the number of constraints, unless no signature
    has been stored yet. *)
Definition sign_domain (s : sys) (c : op) : Prop :=
  match c with
  | CopyColumn _ _ j i =>
      - o_nc (par s) <= j < o_m (par s) /\ - o_nc (par s) <= i < o_m (par s) /\
      (s_omega T Sg s = None \/ o_nc (par s) = 0)
  | Resize _ _ m copy => s_omega T Sg s = None \/ copy = false \/ m <= o_m (par s)
  | SetNumConstraints _ _ nc => s_omega T Sg s = None \/ o_nc (par s) <= nc
  | _ => True
  end.

Definition sinv (s : sys) (g : Z -> Sg) : Prop :=
  0 <= o_nc (par s) /\ 0 < o_m (par s) /\ 0 <= o_k (par s) <= o_m (par s) /\
  match s_omega T Sg s with
  | None => forall j, g j = sone
  | Some w => zlen w = o_nc (par s) + o_m (par s) /\
      forall j, - o_nc (par s) <= j < o_m (par s) -> aget w (o_nc (par s) + j) = Ok (g j)
  end.

Lemma sinv_eq s s' g : sinv s g -> same_lk (par s) (par s') -> s_omega T Sg s' = s_omega T Sg s -> sinv s' g.
Proof.
  intros H [S1 [S2 [S3 [S4 _]]]] E. unfold sinv. rewrite E, S1, S2, S4. exact H.
Qed.
Lemma put_frame s w o o' : obj_of T Sg s w = Ok o -> same_lk o o' ->
  same_lk (par s) (par (put_obj T Sg s w o')) /\ s_omega T Sg (put_obj T Sg s w o') = s_omega T Sg s.
Proof.
  intros Ho S. destruct w; cbn in *; [injection Ho as <-; auto|split; auto; apply same_lk_refl..].
Qed.

Lemma aget_repeat {A} (x : A) n q : 0 <= q < Z.of_nat n -> aget (repeat x n) q = Ok x.
Proof.
  intros H. unfold aget. destruct (Z.ltb_spec q 0); [lia|].
  rewrite nth_error_repeat; [reflexivity|lia].
Qed.

Lemma sinv_alloc s g : sinv s g -> sinv (alloc_signature T Sg sone s) g.
Proof.
  intros [H1 [H2 [H3 H4]]]. unfold alloc_signature. destruct (s_omega T Sg s) eqn:E.
  - unfold sinv. rewrite E. auto.
  - destruct (s_indef T Sg s); [|unfold sinv; rewrite E; auto].
    unfold sinv; cbn. repeat split; auto; try lia.
    + unfold zlen. rewrite repeat_length. lia.
    + intros j Hj. rewrite H4. apply aget_repeat. lia.
Qed.

Lemma set_active_k o l k o' ok : set_active o l k = (o', ok) -> 0 <= o_m o -> 0 <= o_k o <= o_m o ->
  0 <= o_k o' <= o_m o'.
Proof.
  unfold set_active. intros H Hm Hk.
  destruct k as [| |k]; cbn in H;
  repeat match type of H with
  | (if negb ?b then _ else _) = _ => let E := fresh in destruct b eqn:E; cbn in H
  end; try (injection H as <- <-; cbn; lia);
  repeat match goal with H : (_ && _) = true |- _ => apply andb_true_iff in H; destruct H end;
  repeat match goal with H : (_ <=? _) = true |- _ => apply Z.leb_le in H end;
  injection H as <- <-; cbn; lia.
Qed.

Lemma sinv_after s g c : sinv s g -> sign_domain s c ->
  match snd (step s c) with
  | Ok _ => sinv (fst (step s c))
      (sign_after T Sg sone (o_nc (par s)) (o_m (par s)) (o_k (par s)) (s_indef T Sg s) g c)
  | _ => sinv (fst (step s c)) g
  end.
Proof.
  intros I D. pose proof I as [I1 [I2 [I3 I4]]].
  destruct c; cbn [BVModel.step sign_after sign_domain] in *.
  - destruct (wrap_cases T Sg s (do o <- obj_of T Sg s w; do ' (o', p) <- get_column T (s_heap T Sg s) o j;
              Ok (put_obj T Sg s w o', Vec T Sg p))) as [[s' [o' [E ->]]]|[-> _]]; cbn; [|destruct (snd _); exact I].
    binv E. cbn in E. injection E as <- <-. apply get_column_lk in Eb0. destruct Eb0 as [S _].
    destruct (put_frame _ _ _ _ Eb S). eapply sinv_eq; eauto.
  - destruct (hget _ _ _); exact I.
  - destruct (hset _ _ _ _); exact I.
  - destruct (wrap_cases T Sg s (do o <- obj_of T Sg s w; do o' <- restore_column T (s_heap T Sg s) o j p;
              Ok (put_obj T Sg s w o', Done T Sg))) as [[s' [o' [E ->]]]|[-> _]]; cbn; [|destruct (snd _); exact I].
    binv E. injection E as <- <-. apply restore_column_lk in Eb0.
    destruct (put_frame _ _ _ _ Eb Eb0). eapply sinv_eq; eauto.
  - destruct (obj_of T Sg s w) as [o| | |] eqn:Eo; try exact I.
    destruct (set_active o l k) as [o' ok] eqn:Es.
    assert (sinv (put_obj T Sg s w o') g).
    { destruct w; cbn in Eo; unfold sinv; cbn; auto. injection Eo as <-.
      pose proof (set_active_k _ _ _ _ _ Es ltac:(lia) I3).
      pose proof (set_active_lk _ _ _ _ _ Es) as [A1 [A2 _]].
      rewrite A1. rewrite A2 in *. auto. }
    cbn. destruct ok; auto.
  - destruct (wrap_cases T Sg s (do ' (h', o') <- set_num_constraints T (s_heap T Sg s) (par s) nc;
              Ok (with_par T Sg (with_heap T Sg s h') o', Done T Sg))) as [[s' [o' [E ->]]]|[-> N]]; cbn.
    + binv E. cbn in E. injection E as <- <-. apply snc_lk in Eb.
      unfold sinv; cbn.
      assert (Hpos : 0 <= o_nc o /\ 0 < o_m o /\ 0 <= o_k o <= o_m o /\ o_nc o = nc /\
                     o_nc o + o_m o = o_nc (par s) + o_m (par s)).
      { destruct Eb as [[-> [_ ->]]|[? [? [E1 [E2 [? ?]]]]]]; [auto 10|lia]. }
      destruct Hpos as [P1 [P2 [P3 [P4 P5]]]].
      do 3 (split; [assumption|]).
      destruct (s_omega T Sg s) as [w|] eqn:Ew.
      * destruct D as [D|D]; [discriminate|].
        destruct (Z.ltb_spec nc (o_nc (par s))); [lia|].
        destruct I4 as [Lw Gw]. split; [congruence|]. intros j Hj. rewrite P4.
        replace (nc + j) with (o_nc (par s) + (j + (nc - o_nc (par s)))) by lia. apply Gw. lia.
      * intros j. apply I4.
    + destruct (snd _) eqn:Es; try exact I. now destruct (N a).
  - destruct (wrap_cases T Sg s (do s' <- resize T zero Sg sone szero s m copy; Ok (s', Done T Sg)))
      as [[s' [o' [E ->]]]|[-> N]]; cbn.
    + binv E. injection E as <- <-. unfold resize in Eb. binv Eb.
      destruct (Z.eqb_spec (o_m (par s)) m) as [Hm|Hm]; [injection Eb as <-; exact I|].
      apply Z.ltb_lt in Ck. apply Z.eqb_eq in Ck0. binv Eb. injection Eb as <-.
      unfold sinv; cbn. do 2 (split; [lia|]). split; [lia|].
      unfold resize_omega in Eb1. destruct (s_omega T Sg s) as [w|] eqn:Ew.
      * destruct I4 as [Lw Gw]. destruct copy.
        -- destruct (Nat.leb_spec (Z.to_nat (Z.min m (o_m (par s)))) (length w)); [|discriminate].
           injection Eb1 as <-. cbn [andb].
           destruct D as [D|[D|D]]; [discriminate|discriminate|].
           unfold zlen in *. rewrite app_length, firstn_length, repeat_length. split; [lia|].
           intros j Hj. destruct (Z.ltb_spec j (o_m (par s))); [|lia].
           rewrite <- (Gw j ltac:(lia)). unfold aget.
           destruct (Z.ltb_spec (o_nc (par s) + j) 0); [reflexivity|].
           rewrite nth_error_app1 by (rewrite firstn_length; lia).
           rewrite <- (firstn_skipn (Z.to_nat (Z.min m (o_m (par s)))) w) at 2.
           rewrite nth_error_app1 by (rewrite firstn_length; lia). reflexivity.
        -- injection Eb1 as <-. unfold zlen. rewrite repeat_length. split; [lia|].
           intros j Hj. cbn [andb]. apply aget_repeat. lia.
      * injection Eb1 as <-. intros j. destruct (_ && _); auto.
    + destruct (snd _) eqn:Es; try exact I. now destruct (N a).
  - destruct (wrap_cases T Sg s (do s' <- copy_column T Sg s j i; Ok (s', Done T Sg)))
      as [[s' [o' [E ->]]]|[-> N]]; cbn.
    + binv E. injection E as <- <-. destruct D as [Dj [Di D]].
      unfold copy_column in Eb. destruct (Z.eqb_spec j i) as [->|Hne].
      * injection Eb as <-. unfold sinv in *. do 3 (split; [tauto|]).
        destruct (s_omega T Sg s) as [w|].
        -- destruct I4 as [Lw Gw]. split; [auto|]. intros q Hq. destruct (Z.eqb_spec q i) as [->|]; auto.
        -- intros q. destruct (q =? i); auto.
      * destruct (s_omega T Sg s) as [w|] eqn:Ew.
        -- destruct D as [D|D]; [discriminate|]. destruct I4 as [Lw Gw].
           cbn [bind] in Eb.
           destruct (aget w j) as [v| | |] eqn:Ej; try discriminate. cbn [bind] in Eb.
           destruct (aset w i v) as [w'| | |] eqn:Ei; try discriminate. cbn [bind] in Eb.
           binv Eb. injection Eb as <-. unfold sinv; cbn. do 3 (split; [tauto|]).
           split; [pose proof (aset_len _ _ _ _ Ei); congruence|].
           intros q Hq. rewrite (aget_aset _ _ _ _ _ Ei).
           pose proof (Gw j Dj) as Gj. rewrite D in *. cbn [Z.add] in *. rewrite Ej in Gj. injection Gj as ->.
           destruct (q =? i); [reflexivity|]. now apply Gw.
        -- cbn [bind] in Eb. binv Eb. injection Eb as <-. unfold sinv; cbn. do 3 (split; [tauto|]).
           intros q. destruct (q =? i); auto.
    + destruct (snd _) eqn:Es; try exact I. now destruct (N a).
  - pose proof (set_indef_frame T Sg s b) as F. eapply sinv_eq; eauto; apply F.
  - destruct (wrap_cases T Sg s (do s' <- set_signature T Sg sone s vs; Ok (s', Done T Sg)))
      as [[s' [o' [E ->]]]|[-> N]]; cbn.
    + binv E. injection E as <- <-. unfold set_signature in Eb. binv Eb. apply Z.eqb_eq in Ck.
      pose proof (alloc_par T Sg sone s) as [A1 [A2 [A3 [A4 [A5 [A6 A7]]]]]].
      pose proof (sinv_alloc _ _ I) as J. unfold sinv in J. rewrite A1 in J. destruct J as [_ [_ [_ J]]].
      rewrite A6 in Eb0.
      destruct (s_indef T Sg s) eqn:Ei.
      * destruct (s_omega T Sg (alloc_signature T Sg sone s)) as [w|]; [|discriminate].
        destruct J as [Lw Gw]. rewrite A1 in Eb0.
        destruct (store_from_spec vs w (o_nc (par s)) ltac:(lia) ltac:(lia)) as [w' [E' [L' G']]].
        rewrite E' in Eb0. cbn [bind] in Eb0. injection Eb0 as <-. injection Eb as <-.
        unfold sinv; cbn. rewrite A1. do 3 (split; [tauto|]). split; [congruence|].
        intros j Hj. rewrite G'.
        destruct (Z.leb_spec (o_nc (par s)) (o_nc (par s) + j)),
          (Z.ltb_spec (o_nc (par s) + j) (o_nc (par s) + zlen vs)), (Z.leb_spec 0 j),
          (Z.ltb_spec j (o_k (par s))); cbn [andb]; try lia; auto.
        do 2 f_equal. lia.
      * injection Eb0 as <-. injection Eb as <-. unfold sinv; cbn. rewrite A1. auto.
    + destruct (snd _) eqn:Es; try exact I. now destruct (N a).
  - destruct (get_signature _ _ _ _ _); exact I.
  - pose proof (buffer_par T Sg s) as B. cbn. eapply sinv_eq; eauto; try apply B.
    destruct B as [-> _]. apply same_lk_refl.
  - unfold set_buffer, check. destruct (_ =? _); cbn; exact I.
  - destruct (wrap_cases T Sg s (do s' <- use_buffer T Sg sone s j; Ok (s', Done T Sg)))
      as [[s' [o' [E ->]]]|[-> N]]; cbn.
    + binv E. injection E as <- <-. pose proof (use_buffer_frame T Sg sone _ _ _ Eb) as F.
      apply (sinv_eq (alloc_signature T Sg sone (get_buffer T Sg s))).
      * apply sinv_alloc. pose proof (buffer_par T Sg s) as B. eapply sinv_eq; eauto; try apply B.
        destruct B as [-> _]. apply same_lk_refl.
      * pose proof (alloc_par T Sg sone (get_buffer T Sg s)) as [-> _].
        pose proof (buffer_par T Sg s) as [-> _]. apply F.
      * unfold use_buffer in Eb. binv Eb. destruct (s_buf _ _ _); [|discriminate].
        destruct (forallb _ _); [|discriminate]. injection Eb as <-. reflexivity.
    + destruct (snd _) eqn:Es; exact I.
  - destruct (wrap_cases T Sg s (do s' <- get_split T Sg s; Ok (s', Done T Sg)))
      as [[s' [o' [E ->]]]|[-> N]]; cbn.
    + binv E. injection E as <- <-. unfold get_split in Eb. binv Eb. injection Eb as <-. exact I.
    + destruct (snd _) eqn:Es; exact I.
  - unfold restore_split, check. destruct (0 <? _); cbn; [|exact I].
    destruct (view_restored _); cbn; [|exact I]. destruct (view_restored _); cbn; exact I.
Qed.

Lemma sinv_reach s g : sreach sign_domain s g -> sinv s g.
Proof.
  induction 1 as [m s H|s g c r R IH D E|s g c R IH D E].
  - unfold bv_create in H. binv H. injection H as <-. apply Z.ltb_lt in Ck.
    unfold sinv; cbn. repeat split; lia.
  - pose proof (sinv_after s g c IH D) as H. now rewrite E in H.
  - pose proof (sinv_after s g c IH D) as H.
    destruct (snd (step s c)) as [r| | |] eqn:Er; auto. now destruct (E r).
Qed.

Theorem signature_correct s g n : sreach sign_domain s g ->
  snd (step s (GetSignature T Sg n)) =
  if n =? o_k (par s) then Ok (Signs T Sg (signs Sg sone (o_k (par s)) (s_indef T Sg s) g)) else Err.
Proof.
  intros R. pose proof (sinv_reach _ _ R) as [I1 [I2 [I3 I4]]].
  cbn [BVModel.step]. unfold get_signature, check.
  destruct (Z.eqb_spec n (o_k (par s))) as [->|]; [|reflexivity].
  unfold signs. destruct (s_indef T Sg s).
  - destruct (s_omega T Sg s) as [w|].
    + destruct I4 as [Lw Gw]. rewrite (load_from_spec _ w _ g).
      * reflexivity.
      * lia.
      * intros q Hq. apply Gw. lia.
    + cbn. do 2 f_equal. rewrite <- (seq_length (Z.to_nat (o_k (par s))) 0) at 1.
      generalize (seq 0 (Z.to_nat (o_k (par s)))) as l. induction l as [|x l IH]; cbn; [reflexivity|].
      now rewrite IH, I4.
  - reflexivity.
Qed.

End Proofs.
