(** Lemmas on the heap of function objects and on duplication. *)
From Coq Require Import List Bool Arith Lia.
From Verif Require Import Prelude FNModel.
Import ListNotations.

Lemma bind_ok {A B} (r : res A) (k : A -> res B) b :
  bind r k = Ok b -> exists a, r = Ok a /\ k a = Ok b.
Proof. destruct r; simpl; intros H; try discriminate. eauto. Qed.

Section Dup.
Variables (K : Type) (o : sops K).
Notation heap := (heap K). Notation fnobj := (fnobj K). Notation fntype := (fntype K).

Definition children (t : option fntype) : list (option nat) :=
  match t with Some (TCombine _ f1 f2) => [f1; f2] | _ => [] end.

Definition oin (P : nat -> Prop) (f : option nat) : Prop := match f with Some i => P i | None => True end.

Definition closed (P : nat -> Prop) (h : heap) : Prop :=
  forall i ob c, P i -> h_obj K h i = Some ob -> In c (children (f_type K ob)) -> oin P c.

Definition agree (P : nat -> Prop) (h h' : heap) : Prop := forall i, P i -> h_obj K h i = h_obj K h' i.

(** Equal up to depth n. *)
Definition same_type (R : option nat -> option nat -> Prop) (t t' : fntype) : Prop :=
  match t, t' with
  | TRational p q, TRational p' q' => p = p' /\ q = q'
  | TLeaf l, TLeaf l' => l = l'
  | TCombine c f1 f2, TCombine c' g1 g2 => c = c' /\ R f1 g1 /\ R f2 g2
  | _, _ => False
  end.
Definition same_otype (R : option nat -> option nat -> Prop) (t t' : option fntype) : Prop :=
  match t, t' with None, None => True | Some t, Some t' => same_type R t t' | _, _ => False end.
Definition same_obj (R : option nat -> option nat -> Prop) (a b : fnobj) : Prop :=
  f_alpha K a = f_alpha K b /\ f_beta K a = f_beta K b /\ f_meth K a = f_meth K b /\ f_pmode K a = f_pmode K b
  /\ same_otype R (f_type K a) (f_type K b).
Fixpoint same (n : nat) (h : heap) (f : option nat) (h' : heap) (f' : option nat) : Prop :=
  match n with
  | O => True
  | S n' =>
      match f, f' with
      | None, None => True
      | Some i, Some i' =>
          match h_obj K h i, h_obj K h' i' with
          | None, None => True
          | Some a, Some b => same_obj (fun x y => same n' h x h' y) a b
          | _, _ => False
          end
      | _, _ => False
      end
  end.

Lemma same_otype_impl (R R' : option nat -> option nat -> Prop) t t' :
  (forall c c', In c (children t) -> In c' (children t') -> R c c' -> R' c c') ->
  same_otype R t t' -> same_otype R' t t'.
Proof.
  intros H. destruct t as [[p q|l|c f1 f2]|], t' as [[p' q'|l'|c' g1 g2]|]; simpl; auto.
  intros (E & A & B). split; [assumption|]. split; apply H; simpl; auto.
Qed.

Lemma same_ext_l P n : forall h h2 f h' f',
  closed P h -> agree P h h2 -> oin P f -> same n h f h' f' -> same n h2 f h' f'.
Proof.
  induction n as [|n IH]; intros h h2 f h' f' HC HA Hf; [trivial|]. simpl.
  destruct f as [i|], f' as [i'|]; auto. simpl in Hf. rewrite <- (HA i Hf).
  destruct (h_obj K h i) as [a|] eqn:Ea, (h_obj K h' i') as [b|]; auto.
  intros (E1 & E2 & E3 & E4 & E5). repeat split; auto.
  eapply same_otype_impl; [|exact E5]. intros c c' Hc _ S. apply (IH h); auto.
  exact (HC i a c Hf Ea Hc).
Qed.

Lemma same_ext_r P n : forall h f h' h2' f',
  closed P h' -> agree P h' h2' -> oin P f' -> same n h f h' f' -> same n h f h2' f'.
Proof.
  induction n as [|n IH]; intros h f h' h2' f' HC HA Hf; [trivial|]. simpl.
  destruct f as [i|], f' as [i'|]; auto. simpl in Hf. rewrite <- (HA i' Hf).
  destruct (h_obj K h i) as [a|] eqn:Ea, (h_obj K h' i') as [b|] eqn:Eb; auto.
  intros (E1 & E2 & E3 & E4 & E5). repeat split; auto.
  eapply same_otype_impl; [|exact E5]. intros c c' _ Hc S. apply (IH h c h'); auto.
  exact (HC i' b c' Hf Eb Hc).
Qed.

Lemma same_refl_on P n : forall h h2 f,
  closed P h -> agree P h h2 -> oin P f -> same n h f h2 f.
Proof.
  induction n as [|n IH]; intros h h2 f HC HA Hf; [exact I|]. simpl.
  destruct f as [i|]; auto. simpl in Hf. rewrite <- (HA i Hf).
  destruct (h_obj K h i) as [a|] eqn:Ea; auto.
  do 4 (split; [reflexivity|]).
  assert (forall c, In c (children (f_type K a)) -> same n h c h2 c).
  { intros c Hc. apply IH; auto. exact (HC i a c Hf Ea Hc). }
  destruct (f_type K a) as [[p q|l|c f1 f2]|]; simpl in *; auto 10.
Qed.

(** Evaluation to depth n only depends on the objects up to depth n. *)
Lemma eval_same n : forall h f h' f' x, same n h f h' f' -> eval K o n h f x = eval K o n h' f' x.
Proof.
  induction n as [|n IH]; intros h f h' f' x; [reflexivity|]. simpl.
  destruct f as [i|], f' as [i'|]; try contradiction; auto.
  destruct (h_obj K h i) as [a|], (h_obj K h' i') as [b|]; try contradiction; auto.
  intros (E1 & E2 & E3 & E4 & E5). rewrite E1, E2.
  destruct (f_type K a) as [t|], (f_type K b) as [t'|]; try contradiction; auto.
  simpl in E5. f_equal. destruct t as [p q|l|c f1 f2], t' as [p' q'|l'|c' g1 g2]; simpl in E5; try contradiction.
  - destruct E5; now subst.
  - now subst.
  - destruct E5 as (-> & S1 & S2). simpl. rewrite (IH _ _ _ _ _ S1). destruct (eval K o n h' g1 _); simpl; auto.
    destruct c'; rewrite (IH _ _ _ _ _ S2); reflexivity.
Qed.

Lemma deriv_same n : forall h f h' f' x, same n h f h' f' -> deriv K o n h f x = deriv K o n h' f' x.
Proof.
  induction n as [|n IH]; intros h f h' f' x; [reflexivity|]. simpl.
  destruct f as [i|], f' as [i'|]; try contradiction; auto.
  destruct (h_obj K h i) as [a|], (h_obj K h' i') as [b|]; try contradiction; auto.
  intros (E1 & E2 & E3 & E4 & E5). rewrite E1, E2.
  destruct (f_type K a) as [t|], (f_type K b) as [t'|]; try contradiction; auto.
  simpl in E5. f_equal. destruct t as [p q|l|c f1 f2], t' as [p' q'|l'|c' g1 g2]; simpl in E5; try contradiction.
  - destruct E5; now subst.
  - now subst.
  - destruct E5 as (-> & S1 & S2). simpl.
    assert (Ed1 : forall x, deriv K o n h f1 x = deriv K o n h' g1 x) by (intros; now apply IH).
    assert (Ed2 : forall x, deriv K o n h f2 x = deriv K o n h' g2 x) by (intros; now apply IH).
    assert (Ee1 : forall x, eval K o n h f1 x = eval K o n h' g1 x) by (intros; now apply eval_same).
    assert (Ee2 : forall x, eval K o n h f2 x = eval K o n h' g2 x) by (intros; now apply eval_same).
    destruct c'; rewrite ?Ed1, ?Ed2, ?Ee1, ?Ee2; auto.
    destruct (eval K o n h' g1 _); simpl; auto. destruct (deriv K o n h' g1 _); simpl; auto. now rewrite Ed2.
Qed.

(** Heaps produced by the interface. *)
Definition obj_ok (N : nat) (ob : fnobj) : Prop :=
  s_eqb K o (f_alpha K ob) (s_zero K o) = false /\ s_eqb K o (f_beta K ob) (s_zero K o) = false
  /\ f_meth K ob <= FN_MAX_SOLVE
  /\ (forall c, In c (children (f_type K ob)) -> oin (fun i => i < N) c).
Definition heap_ok (h : heap) : Prop :=
  (forall i, h_obj K h i <> None -> i < h_next K h) /\
  (forall i ob, h_obj K h i = Some ob -> obj_ok (h_next K h) ob).

Lemma obj_ok_mono N M ob : N <= M -> obj_ok N ob -> obj_ok M ob.
Proof.
  intros H (A & B & C & D). repeat split; auto. intros c Hc. specialize (D c Hc).
  destruct c; simpl in *; auto; lia.
Qed.

Lemma empty_ok : heap_ok (empty_heap K).
Proof. split; simpl; [intros i H; now elim H|intros; discriminate]. Qed.

Hypothesis one_nz : s_eqb K o (s_one K o) (s_zero K o) = false.

Lemma create_ok h : heap_ok h -> heap_ok (fst (fn_create K o h)).
Proof.
  intros [H1 H2]. unfold fn_create. split; simpl.
  - intros i. destruct (Nat.eqb_spec i (h_next K h)); [lia|]. intros H. specialize (H1 i H). lia.
  - intros i ob. destruct (Nat.eqb_spec i (h_next K h)).
    + intros [= <-]. repeat split; simpl; auto. lia. intros c [].
    + intros H. apply (obj_ok_mono (h_next K h)); [lia|eauto].
Qed.

Lemma on_obj_ok h f k h' : heap_ok h -> on_obj K h f k = Ok h' ->
  (forall ob ob', obj_ok (h_next K h) ob -> k ob = Ok ob' -> obj_ok (h_next K h) ob') -> heap_ok h'.
Proof.
  intros [H1 H2] E Hk. unfold on_obj in E. destruct (h_obj K h f) as [ob|] eqn:Ef; [|discriminate].
  apply bind_ok in E as (ob' & E & [= <-]). split; simpl.
  - intros i. destruct (Nat.eqb_spec i f); [intros _; subst; apply H1; rewrite Ef; discriminate|apply H1].
  - intros i ob2. destruct (Nat.eqb_spec i f); [intros [= <-]; eauto|apply H2].
Qed.

Lemma on_obj_frame h f k h' : on_obj K h f k = Ok h' ->
  h_next K h' = h_next K h /\ (forall i, i <> f -> h_obj K h' i = h_obj K h i)
  /\ exists ob ob', h_obj K h f = Some ob /\ k ob = Ok ob' /\ h_obj K h' f = Some ob'.
Proof.
  unfold on_obj. destruct (h_obj K h f) as [ob|] eqn:Ef; [|discriminate]. intros E.
  apply bind_ok in E as (ob' & E & [= <-]). split; [reflexivity|]. split.
  - intros i Hi. simpl. destruct (Nat.eqb_spec i f); congruence.
  - exists ob, ob'. simpl. rewrite Nat.eqb_refl. auto.
Qed.

Lemma step_ok h c h' : heap_ok h -> step K o h c = Ok h' -> heap_ok h'.
Proof.
  intros H E. destruct c; simpl in E.
  - injection E as <-. now apply create_ok.
  - eapply on_obj_ok; eauto. intros ob ob' Ho [= <-]. unfold set_type.
    assert (G : obj_ok (h_next K h) (with_type K ob (Some (new_type K n)))).
    { destruct Ho as (A & B & C & D). repeat split; auto. simpl. destruct n; simpl; try (now intros ? []). intros cc [<-|[<-|[]]]; exact I. }
    destruct (f_type K ob); [destruct typename_eqb|]; auto.
  - eapply on_obj_ok; eauto. intros ob ob' (A & B & C & D). unfold set_scale, check.
    destruct (s_eqb K o a _) eqn:Ea; [discriminate|]. destruct (s_eqb K o b _) eqn:Eb; [discriminate|].
    intros [= <-]. repeat split; auto.
  - eapply on_obj_ok; eauto. intros ob ob' (A & B & C & D). unfold set_method, check.
    destruct (Nat.leb_spec m FN_MAX_SOLVE); [|discriminate]. intros [= <-]. repeat split; auto.
  - eapply on_obj_ok; eauto. intros ob ob' (A & B & C & D) [= <-]. repeat split; auto.
  - eapply on_obj_ok; eauto. intros ob ob' (A & B & C & D) [= <-]. unfold set_numerator.
    destruct (f_type K ob) as [[]|] eqn:Et; repeat split; auto; simpl; rewrite ?Et; auto; intros ? [].
  - eapply on_obj_ok; eauto. intros ob ob' (A & B & C & D) [= <-]. unfold set_denominator.
    destruct (f_type K ob) as [[]|] eqn:Et; repeat split; auto; simpl; rewrite ?Et; auto; intros ? [].
  - eapply on_obj_ok; eauto. intros ob ob' (A & B & C & D). unfold set_phi_index, check.
    destruct (f_type K ob) as [[|[]|]|] eqn:Et; try (intros [= <-]; repeat split; auto; rewrite ?Et; auto; intros ? []).
    destruct (Nat.leb_spec k MAX_INDEX); [|discriminate]. intros [= <-]. repeat split; auto.
  - destruct (live K h f1 && live K h f2) eqn:El; [|discriminate].
    apply andb_true_iff in El as [L1 L2]. unfold live in *.
    eapply on_obj_ok; eauto. intros ob ob' (A & B & C & D) [= <-]. unfold set_children.
    destruct (f_type K ob) as [[]|] eqn:Et; repeat split; auto; simpl; rewrite ?Et; auto.
    intros cc [<-|[<-|[]]]; simpl; apply (proj1 H).
    + destruct (h_obj K h f1); congruence.
    + destruct (h_obj K h f2); congruence.
Qed.

Lemma steps_ok cs : forall h h', heap_ok h -> steps K o h cs = Ok h' -> heap_ok h'.
Proof.
  induction cs as [|c cs IH]; simpl; intros h h' H E; [injection E as <-; auto|].
  apply bind_ok in E as (h1 & E1 & E). eauto using step_ok.
Qed.

(** What one call changes. *)
Definition target (c : op K) : option nat :=
  match c with
  | OCreate _ => None
  | OSetType _ f _ | OSetScale _ f _ _ | OSetMethod _ f _ | OSetParallel _ f _ | OSetNumerator _ f _
  | OSetDenominator _ f _ | OSetPhiIndex _ f _ | OSetChildren _ f _ _ _ => Some f
  end.

Lemma step_frame h c h' i : heap_ok h -> step K o h c = Ok h' -> i < h_next K h -> target c <> Some i ->
  h_obj K h' i = h_obj K h i.
Proof.
  intros Hh E Hi T. destruct c; simpl in E, T.
  1: { injection E as <-. simpl. destruct (Nat.eqb_spec i (h_next K h)); [lia|reflexivity]. }
  8: { destruct (live K h f1 && live K h f2); [|discriminate].
       apply on_obj_frame in E as (_ & F & _). apply F. congruence. }
  all: apply on_obj_frame in E as (_ & F & _); apply F; congruence.
Qed.

Lemma step_next h c h' : step K o h c = Ok h' -> h_next K h <= h_next K h'.
Proof.
  intros E. destruct c; simpl in E.
  1: { injection E as <-. simpl. lia. }
  8: { destruct (live K h f1 && live K h f2); [|discriminate].
       apply on_obj_frame in E as (F & _). lia. }
  all: apply on_obj_frame in E as (F & _); lia.
Qed.

Lemma steps_frame cs : forall h h' i, heap_ok h -> steps K o h cs = Ok h' -> i < h_next K h ->
  Forall (fun c => target c <> Some i) cs -> h_obj K h' i = h_obj K h i.
Proof.
  induction cs as [|c cs IH]; simpl; intros h h' i Hh E Hi F; [injection E as <-; auto|].
  apply bind_ok in E as (h1 & E1 & E). inversion F; subst.
  rewrite (IH h1 h' i); eauto using step_ok, step_frame. apply step_next in E1. lia.
Qed.

(** FNCreate followed by the common setters of FNDuplicate. *)
Lemma dup_prefix h i ob t (Hh : heap_ok h) (Ei : h_obj K h i = Some ob) (Et : f_type K ob = Some t) :
  exists h5,
  (let '(h1, g) := fn_create K o h in
   do h2 <- on_obj K h1 g (fun ob' => Ok (set_type K ob' (type_name K t)));
   do h3 <- on_obj K h2 g (fun ob' => set_scale K o ob' (f_alpha K ob) (f_beta K ob));
   do h4 <- on_obj K h3 g (fun ob' => set_method K ob' (f_meth K ob));
   on_obj K h4 g (fun ob' => Ok (set_parallel K ob' (f_pmode K ob)))) = Ok h5
  /\ h_next K h5 = S (h_next K h)
  /\ (forall j, j <> h_next K h -> h_obj K h5 j = h_obj K h j)
  /\ h_obj K h5 (h_next K h) = Some {| f_alpha := f_alpha K ob; f_beta := f_beta K ob; f_meth := f_meth K ob;
       f_pmode := f_pmode K ob; f_type := Some (new_type K (type_name K t)) |}.
Proof.
  destruct (proj2 Hh i ob Ei) as (A & B & C & D).
  assert (A' : Nat.leb (f_meth K ob) FN_MAX_SOLVE = true) by now apply Nat.leb_le.
  unfold fn_create, on_obj, set_scale, set_method, check.
  repeat (cbn [hset h_obj h_next bind f_type set_type with_type]; rewrite ?Nat.eqb_refl, ?A, ?B, ?A'; cbn [negb andb]).
  eexists; split; [reflexivity|]. cbn. rewrite !Nat.eqb_refl. split; [reflexivity|]. split; [|reflexivity].
  intros j Hj. destruct (Nat.eqb_spec j (h_next K h)); congruence.
Qed.

Lemma set_obj_ok h i ob : heap_ok h -> i < h_next K h -> obj_ok (h_next K h) ob -> heap_ok (hset K h i ob).
Proof.
  intros [H1 H2] Hi Ho. split; simpl.
  - intros j. destruct (Nat.eqb_spec j i); [subst; auto|apply H1].
  - intros j ob'. destruct (Nat.eqb_spec j i); [intros [= <-]; auto|apply H2].
Qed.

Definition dup_spec (h : heap) (f : option nat) (h' : heap) (g : nat) : Prop :=
  heap_ok h' /\ h_next K h <= g < h_next K h'
  /\ (forall i, i < h_next K h -> h_obj K h' i = h_obj K h i)
  /\ (forall i ob c, h_next K h <= i -> h_obj K h' i = Some ob -> In c (children (f_type K ob)) ->
        oin (fun j => h_next K h <= j) c)
  /\ (forall n, same n h f h' (Some g)).

Lemma heap_ok_closed h : heap_ok h -> closed (fun i => i < h_next K h) h.
Proof. intros [_ H] i ob c Hi E Hc. destruct (H i ob E) as (_ & _ & _ & D). auto. Qed.

Lemma duplicate_spec fuel : forall h f h' g, heap_ok h -> oin (fun i => i < h_next K h) f ->
  duplicate K o fuel h f = Ok (h', g) -> dup_spec h f h' g.
Proof.
  induction fuel as [|fuel IH]; intros h f h' g Hh Hf E; [discriminate|].
  cbn [duplicate] in E. destruct f as [i|]; [|discriminate].
  destruct (h_obj K h i) as [ob|] eqn:Ei; [|discriminate].
  destruct (f_type K ob) as [t|] eqn:Et; [|discriminate].
  destruct (proj2 Hh i ob Ei) as (Pa & Pb & Pc & Pd). rewrite Et in Pd.
  destruct (dup_prefix h i ob t Hh Ei Et) as (h5 & E5 & N5 & F5 & O5).
  set (N := h_next K h) in *.
  unfold fn_create in E, E5. cbn [fst snd] in E, E5.
  fold N in E, E5.
  destruct (on_obj K {| h_obj := _; h_next := _ |} N _) as [h2| | |]; try discriminate; cbn [bind] in E, E5.
  destruct (on_obj K h2 N _) as [h3| | |]; try discriminate; cbn [bind] in E, E5.
  destruct (on_obj K h3 N _) as [h4| | |]; try discriminate; cbn [bind] in E, E5.
  rewrite E5 in E; cbn [bind] in E. clear h2 h3 h4 E5.
  assert (Hlt : forall j ob', h_obj K h j = Some ob' -> j < N) by (intros j ob' Hj; apply (proj1 Hh); congruence).
  assert (Hi : i < N) by eauto.
  assert (Hh5 : heap_ok h5).
  { split; rewrite N5.
    - intros j Hj. destruct (Nat.eq_dec j N); [lia|]. rewrite F5 in Hj by auto. specialize (proj1 Hh j Hj). fold N. lia.
    - intros j ob'. destruct (Nat.eq_dec j N).
      + subst j. rewrite O5. intros [= <-]. repeat split; auto. simpl.
        destruct t as [| []|]; simpl; try (now intros ? []). intros cc [<-|[<-|[]]]; exact I.
      + rewrite F5 by auto. intros Hj. apply (obj_ok_mono N); [lia|]. exact (proj2 Hh j ob' Hj). }
  (* the three cases without children *)
  assert (Simple : forall t' h6, h_next K h6 = S N ->
     (forall j, j <> N -> h_obj K h6 j = h_obj K h j) ->
     h_obj K h6 N = Some {| f_alpha := f_alpha K ob; f_beta := f_beta K ob; f_meth := f_meth K ob;
        f_pmode := f_pmode K ob; f_type := Some t' |} -> t' = t -> children (Some t) = [] ->
     dup_spec h (Some i) h6 N).
  { intros t' h6 Hn F6 O6 -> Hc. split; [|split; [|split; [|split]]].
    - split; rewrite Hn.
      + intros j Hj. destruct (Nat.eq_dec j N); [lia|]. rewrite F6 in Hj by auto. specialize (proj1 Hh j Hj). fold N. lia.
      + intros j ob'. destruct (Nat.eq_dec j N).
        * subst j. rewrite O6. intros [= <-]. repeat split; auto. simpl f_type. rewrite Hc. intros ? [].
        * rewrite F6 by auto. intros Hj. apply (obj_ok_mono N); [lia|]. exact (proj2 Hh j ob' Hj).
    - fold N. lia.
    - intros j Hj. apply F6. fold N in Hj. lia.
    - intros j ob' c Hj Ej Hcin. fold N in Hj. destruct (Nat.eq_dec j N).
      + subst j. rewrite O6 in Ej. injection Ej as <-. simpl f_type in Hcin. rewrite Hc in Hcin. destruct Hcin.
      + rewrite F6 in Ej by auto. apply Hlt in Ej. lia.
    - intros [|n]; [exact I|]. simpl. rewrite Ei, O6. do 4 (split; [reflexivity|]). simpl. rewrite Et.
      destruct t; simpl in *; auto; discriminate. }
  destruct t as [p q|l|c f1 f2].
  - unfold on_obj in E. rewrite O5 in E. cbn [bind] in E. injection E as <- <-.
    eapply Simple; simpl; auto; rewrite ?Nat.eqb_refl; try reflexivity.
    intros j Hj. destruct (Nat.eqb_spec j N); [congruence|auto].
  - destruct l; try (injection E as <- <-; eapply Simple; eauto; fail).
    unfold on_obj in E. rewrite O5 in E. cbn [bind] in E. injection E as <- <-.
    eapply Simple; simpl; auto; rewrite ?Nat.eqb_refl; try reflexivity.
    intros j Hj. destruct (Nat.eqb_spec j N); [congruence|auto].
  - clear Simple. unfold on_obj in E at 1. rewrite O5 in E. cbn [bind] in E.
    set (mk := fun g1 g2 => with_type K {| f_alpha := f_alpha K ob; f_beta := f_beta K ob; f_meth := f_meth K ob;
        f_pmode := f_pmode K ob; f_type := None |} (Some (TCombine c g1 g2))).
    change (with_type K _ (Some (TCombine c None None))) with (mk None None) in E.
    set (h6 := hset K h5 N (mk None None)) in *.
    assert (Hh6 : heap_ok h6).
    { apply set_obj_ok; auto; [lia|]. repeat split; auto. simpl. intros cc [<-|[<-|[]]]; exact I. }
    assert (Pf1 : oin (fun i => i < N) f1) by (apply Pd; simpl; auto).
    assert (Pf2 : oin (fun i => i < N) f2) by (apply Pd; simpl; auto).
    apply bind_ok in E as ((h7 & g1) & Ed1 & E).
    assert (D1 : dup_spec h6 f1 h7 g1).
    { apply (IH _ _ _ _ Hh6); auto. destruct f1; simpl in *; auto. rewrite N5. lia. }
    destruct D1 as (Hh7 & Hg1 & Fr7 & Cl7 & S7). change (h_next K h6) with (h_next K h5) in *. rewrite N5 in *.
    assert (O7 : h_obj K h7 N = Some (mk None None)).
    { rewrite Fr7 by lia. simpl. now rewrite Nat.eqb_refl. }
    unfold on_obj in E at 1. rewrite O7 in E. cbn [bind] in E.
    change (with_type K _ (Some (TCombine c (Some g1) None))) with (mk (Some g1) None) in E.
    set (h8 := hset K h7 N (mk (Some g1) None)) in *.
    assert (Hh8 : heap_ok h8).
    { apply set_obj_ok; auto; [lia|]. repeat split; auto. simpl. intros cc [<-|[<-|[]]]; simpl; auto. lia. }
    apply bind_ok in E as ((h9 & g2) & Ed2 & E).
    assert (D2 : dup_spec h8 f2 h9 g2).
    { apply (IH _ _ _ _ Hh8); auto. destruct f2; simpl in *; auto. lia. }
    destruct D2 as (Hh9 & Hg2 & Fr9 & Cl9 & S9). change (h_next K h8) with (h_next K h7) in *.
    assert (O9 : h_obj K h9 N = Some (mk (Some g1) None)).
    { rewrite Fr9 by lia. simpl. now rewrite Nat.eqb_refl. }
    unfold on_obj in E at 1. rewrite O9 in E. cbn [bind] in E.
    change (with_type K _ (Some (TCombine c (Some g1) (Some g2)))) with (mk (Some g1) (Some g2)) in E.
    injection E as <- <-. set (h10 := hset K h9 N (mk (Some g1) (Some g2))) in *.
    assert (A6 : agree (fun j => j < N) h h6).
    { intros j Hj. simpl. destruct (Nat.eqb_spec j N); [lia|]. symmetry. apply F5. auto. }
    assert (A8 : agree (fun j => j < N) h h8).
    { intros j Hj. simpl. destruct (Nat.eqb_spec j N); [lia|]. rewrite (Fr7 j) by lia. simpl.
      destruct (Nat.eqb_spec j N); [lia|]. symmetry. apply F5. auto. }
    assert (CN6 : closed (fun j => j < N) h6).
    { intros j ob' cc Hj Ej Hc. rewrite <- A6 in Ej by auto. exact (heap_ok_closed h Hh j ob' cc Hj Ej Hc). }
    assert (CN8 : closed (fun j => j < N) h8).
    { intros j ob' cc Hj Ej Hc. rewrite <- A8 in Ej by auto. exact (heap_ok_closed h Hh j ob' cc Hj Ej Hc). }
    split; [|split; [|split; [|split]]].
    + apply set_obj_ok; auto; [lia|]. repeat split; auto. simpl. intros cc [<-|[<-|[]]]; simpl; lia.
    + fold N. simpl. lia.
    + intros j Hj. fold N in Hj. simpl. destruct (Nat.eqb_spec j N); [lia|]. rewrite (Fr9 j) by lia.
      symmetry. now apply A8.
    + fold N. intros j ob' cc Hj. simpl. destruct (Nat.eqb_spec j N).
      * intros [= <-]. simpl. intros [<-|[<-|[]]]; simpl; lia.
      * intros Ej Hc. destruct (le_lt_dec (h_next K h7) j).
        -- specialize (Cl9 j ob' cc l Ej Hc). destruct cc; simpl in *; auto; lia.
        -- rewrite Fr9 in Ej by auto. simpl in Ej. destruct (Nat.eqb_spec j N); [lia|].
           assert (S N <= j) by lia. specialize (Cl7 j ob' cc H Ej Hc). destruct cc; simpl in *; auto; lia.
    + intros [|n]; [exact I|]. cbn [same]. rewrite Ei. simpl h_obj. rewrite Nat.eqb_refl.
      do 4 (split; [reflexivity|]). simpl f_type. rewrite Et. simpl. split; [reflexivity|]. split.
      * apply (same_ext_l (fun j => j < N) n h6 h); auto.
        { intros j Hj. symmetry. now apply A6. }
        apply (same_ext_r (fun j => S N <= j < h_next K h7) n h6 f1 h7); auto.
        { intros j ob' cc [Hj1 Hj2] Ej Hc. specialize (Cl7 j ob' cc Hj1 Ej Hc).
          pose proof (heap_ok_closed h7 Hh7 j ob' cc Hj2 Ej Hc). destruct cc; simpl in *; auto. }
        { intros j [Hj1 Hj2]. simpl. destruct (Nat.eqb_spec j N); [lia|]. rewrite (Fr9 j) by auto. simpl.
          destruct (Nat.eqb_spec j N); [lia|reflexivity]. }
      * apply (same_ext_l (fun j => j < N) n h8 h); auto.
        { intros j Hj. symmetry. now apply A8. }
        apply (same_ext_r (fun j => h_next K h7 <= j) n h8 f2 h9); [| | |auto].
        { intros j ob' cc Hj Ej Hc. exact (Cl9 j ob' cc Hj Ej Hc). }
        { intros j Hj. simpl. destruct (Nat.eqb_spec j N); [lia|reflexivity]. }
        { simpl. lia. }
Qed.

(** An object that evaluates can be duplicated. *)
Lemma duplicate_total fuel : forall h f x y, heap_ok h -> oin (fun i => i < h_next K h) f ->
  eval K o fuel h f x = Ok y -> exists h' g, duplicate K o fuel h f = Ok (h', g).
Proof.
  induction fuel as [|fuel IH]; intros h f x y Hh Hf E; [discriminate|].
  cbn [eval duplicate] in *. destruct f as [i|]; [|discriminate].
  destruct (h_obj K h i) as [ob|] eqn:Ei; [|discriminate].
  destruct (f_type K ob) as [t|] eqn:Et; [|discriminate].
  destruct (proj2 Hh i ob Ei) as (Pa & Pb & Pc & Pd). rewrite Et in Pd.
  destruct (dup_prefix h i ob t Hh Ei Et) as (h5 & E5 & N5 & F5 & O5).
  set (N := h_next K h) in *.
  unfold fn_create in *. cbn [fst snd] in *. fold N in E5 |- *.
  destruct (on_obj K {| h_obj := _; h_next := _ |} N _) as [h2| | |]; try discriminate; cbn [bind] in E5 |- *.
  destruct (on_obj K h2 N _) as [h3| | |]; try discriminate; cbn [bind] in E5 |- *.
  destruct (on_obj K h3 N _) as [h4| | |]; try discriminate; cbn [bind] in E5 |- *.
  rewrite E5; cbn [bind]. clear h2 h3 h4 E5.
  assert (Hlt : forall j ob', h_obj K h j = Some ob' -> j < N) by (intros j ob' Hj; apply (proj1 Hh); congruence).
  assert (Hi : i < N) by eauto.
  assert (Hh5 : heap_ok h5).
  { split; rewrite N5.
    - intros j Hj. destruct (Nat.eq_dec j N); [lia|]. rewrite F5 in Hj by auto. specialize (proj1 Hh j Hj). fold N. lia.
    - intros j ob'. destruct (Nat.eq_dec j N).
      + subst j. rewrite O5. intros [= <-]. repeat split; auto. simpl.
        destruct t as [| []|]; simpl; try (now intros ? []). intros cc [<-|[<-|[]]]; exact I.
      + rewrite F5 by auto. intros Hj. apply (obj_ok_mono N); [lia|]. exact (proj2 Hh j ob' Hj). }
  destruct t as [p q|l|c f1 f2].
  - unfold on_obj. rewrite O5. cbn [bind]. eauto.
  - destruct l; eauto. unfold on_obj. rewrite O5. cbn [bind]. eauto.
  - apply bind_ok in E as (z & E & _). cbn [eval_type] in E. apply bind_ok in E as (a & E1 & E2).
    assert (exists x2 y2, eval K o fuel h f2 x2 = Ok y2) as (x2 & y2 & E2').
    { destruct c; try (apply bind_ok in E2 as (b & E2 & _)); eauto. } clear E2.
    unfold on_obj at 1. rewrite O5. cbn [bind].
    set (mk := fun g1 g2 => with_type K {| f_alpha := f_alpha K ob; f_beta := f_beta K ob; f_meth := f_meth K ob;
        f_pmode := f_pmode K ob; f_type := None |} (Some (TCombine c g1 g2))).
    change (with_type K _ (Some (TCombine c None None))) with (mk None None).
    set (h6 := hset K h5 N (mk None None)) in *.
    assert (Hh6 : heap_ok h6).
    { apply set_obj_ok; auto; [lia|]. repeat split; auto. simpl. intros cc [<-|[<-|[]]]; exact I. }
    assert (Pf1 : oin (fun i => i < N) f1) by (apply Pd; simpl; auto).
    assert (Pf2 : oin (fun i => i < N) f2) by (apply Pd; simpl; auto).
    assert (A6 : agree (fun j => j < N) h h6).
    { intros j Hj. simpl. destruct (Nat.eqb_spec j N); [lia|]. symmetry. apply F5. auto. }
    assert (Q6 : oin (fun i => i < h_next K h6) f1).
    { destruct f1; simpl in *; auto. rewrite N5. lia. }
    rewrite (eval_same fuel h f1 h6 f1) in E1 by (apply (same_refl_on (fun j => j < N)); auto; now apply heap_ok_closed).
    destruct (IH _ _ _ _ Hh6 Q6 E1) as (h7 & g1 & Ed1). rewrite Ed1. cbn [bind].
    destruct (duplicate_spec fuel h6 f1 h7 g1 Hh6 Q6 Ed1) as (Hh7 & Hg1 & Fr7 & Cl7 & S7).
    change (h_next K h6) with (h_next K h5) in *. rewrite N5 in *.
    assert (O7 : h_obj K h7 N = Some (mk None None)).
    { rewrite Fr7 by lia. simpl. now rewrite Nat.eqb_refl. }
    unfold on_obj at 1. rewrite O7. cbn [bind].
    change (with_type K _ (Some (TCombine c (Some g1) None))) with (mk (Some g1) None).
    set (h8 := hset K h7 N (mk (Some g1) None)) in *.
    assert (Hh8 : heap_ok h8).
    { apply set_obj_ok; auto; [lia|]. repeat split; auto. simpl. intros cc [<-|[<-|[]]]; simpl; auto. lia. }
    assert (A8 : agree (fun j => j < N) h h8).
    { intros j Hj. simpl. destruct (Nat.eqb_spec j N); [lia|]. rewrite (Fr7 j) by lia. simpl.
      destruct (Nat.eqb_spec j N); [lia|]. symmetry. apply F5. auto. }
    rewrite (eval_same fuel h f2 h8 f2) in E2' by (apply (same_refl_on (fun j => j < N)); auto; now apply heap_ok_closed).
    assert (Q8 : oin (fun i => i < h_next K h8) f2).
    { destruct f2; simpl in *; auto. lia. }
    destruct (IH _ _ _ _ Hh8 Q8 E2') as (h9 & g2 & Ed2). rewrite Ed2. cbn [bind].
    destruct (duplicate_spec fuel h8 f2 h9 g2 Hh8 Q8 Ed2) as (Hh9 & Hg2 & Fr9 & Cl9 & S9).
    change (h_next K h8) with (h_next K h7) in *.
    assert (O9 : h_obj K h9 N = Some (mk (Some g1) None)).
    { rewrite Fr9 by lia. simpl. now rewrite Nat.eqb_refl. }
    unfold on_obj at 1. rewrite O9. cbn [bind]. eauto.
Qed.
End Dup.
