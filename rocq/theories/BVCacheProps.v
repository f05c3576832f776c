(** Property theorem C22: products with the inner-product matrix. *)
From Coq Require Import ZArith List Bool Lia.
From Verif Require Import Prelude BVCacheModel BVCacheSpec.
Import ListNotations.
Open Scope Z_scope.

Section Props.
Variable T : Type.
Variable zero : T.
Variable M : Type.
Variable act : M -> T -> T.
Notation sys := (sys T M).
Notation step := (step T M act).
Notation history := (history T M act zero).
Notation product := (product T M act).
Notation right := (right T M act).
Notation plain := (plain T M).
Notation states := (states T M act).
Notation vst := (vst T M).
Notation xid := (xid T M).
Notation xstate := (xstate T M).
Notation matrix := (matrix T M).
Notation mats := (mats T M).
Notation cols := (cols T M).
Notation bstate := (bstate T M).
Notation bvstate := (bvstate T M).

Lemma vid_eqb_spec x y : reflect (x = y) (vid_eqb x y).
Proof.
  destruct x, y; cbn; try (constructor; congruence); destruct (Nat.eqb_spec n n0) || destruct (Nat.eqb_spec j j0);
  constructor; congruence.
Qed.
Lemma vid_refl x : vid_eqb x x = true.
Proof. destruct (vid_eqb_spec x x); congruence. Qed.

Definition content (s : sys) (x : vid) : T :=
  match x with Ext n => ext T M s n | Col j => cols s j | Work => zero end.

Definition vinv (s : sys) (b : book) : Prop :=
  match vec b with
  | Some q => who q <> Work /\ xid s = Some (who q) /\ xstate s = vst s (who q) /\
              (outdated q = false -> exists m, matrix s = Some m /\
                bx T M s = Some (act (mats s m) (content s (who q))))
  | None => match xid s with Some x => xstate s < vst s x | None => True end
  end.
Definition binv (s : sys) (b : book) : Prop :=
  match bas b with
  | NotDone => bvstate s < bstate s
  | UpToDate => bvstate s = bstate s /\
      forall j, (cl T M s <= j < ck T M s)%nat -> cached T M s j = product s (cols s j)
  | OutOfDate => bvstate s = bstate s
  end.

Ltac veq := repeat match goal with
  | |- context [vid_eqb ?a ?b] => destruct (vid_eqb_spec a b); subst
  | H : context [vid_eqb ?a ?b] |- _ => destruct (vid_eqb_spec a b); subst
  end.

Lemma bump_same f x : bump_vec f x x = f x + 1.
Proof. unfold bump_vec. now rewrite vid_refl. Qed.
Lemma bump_ge f x y : f y <= bump_vec f x y.
Proof. unfold bump_vec. destruct (vid_eqb y x); lia. Qed.
Lemma bump_ne f x y : y <> x -> bump_vec f x y = f y.
Proof. unfold bump_vec. destruct (vid_eqb_spec y x); congruence. Qed.

(** Content of one vector changed and its state increased. *)
Lemma vinv_modified s b x s' : vinv s b -> x <> Work ->
  xid s' = xid s -> xstate s' = xstate s -> vst s' = bump_vec (vst s) x -> matrix s' = matrix s ->
  mats s' = mats s -> bx T M s' = bx T M s -> (forall y, y <> x -> content s' y = content s y) ->
  vinv s' (modified x b).
Proof.
  unfold vinv, modified. intros I Hx E1 E2 E3 E4 E5 E6 E7. destruct (vec b) as [q|] eqn:Eq.
  - destruct I as [I0 [I1 [I2 I3]]]. destruct (vid_eqb_spec (who q) x); cbn [vec].
    + rewrite E1, I1, E2, E3, I2. subst. rewrite bump_same. lia.
    + rewrite Eq, E1, E2, E3, E4, E5, E6, bump_ne, E7 by auto. auto.
  - rewrite Eq, E1, E2, E3. destruct (xid s) as [y|]; [|auto]. pose proof (bump_ge (vst s) x y). lia.
Qed.
(** Nothing the product depends on, other than what [P] says, has changed. *)
Lemma vinv_outdate s b P s' : vinv s b ->
  xid s' = xid s -> xstate s' = xstate s -> vst s' = vst s -> bx T M s' = bx T M s ->
  (forall x, P x = false -> matrix s' = matrix s /\ (forall m, matrix s = Some m -> mats s' m = mats s m) /\
             content s' x = content s x) ->
  vinv s' (outdate P b).
Proof.
  unfold vinv, outdate. intros I E1 E2 E3 E6 E7. destruct (vec b) as [q|] eqn:Eq.
  - destruct I as [I0 [I1 [I2 I3]]]. destruct (P (who q)) eqn:Ep; cbn [vec].
    + cbn. rewrite E1, E2, E3. split; auto. split; auto. split; auto. discriminate.
    + rewrite Eq, E1, E2, E3, E6. split; auto. split; auto. split; auto.
      destruct (E7 _ Ep) as [-> [F1 ->]]. intros Ho. destruct (I3 Ho) as [m [Em Eb]].
      exists m. split; auto. rewrite F1; auto.
  - rewrite Eq, E1, E2, E3. auto.
Qed.

Lemma ip_frame s m x v : let s' := ip_mat_mult T M act s m x v in
  ext T M s' = ext T M s /\ cols s' = cols s /\ vst s' = vst s /\ mats s' = mats s /\ matrix s' = matrix s /\
  bstate s' = bstate s /\ bvstate s' = bvstate s /\ cached T M s' = cached T M s /\ cl T M s' = cl T M s /\ ck T M s' = ck T M s.
Proof.
  cbn. unfold ip_mat_mult. destruct (xid s) as [y|]; [destruct (vid_eqb x y && _)|]; repeat split.
Qed.

(** The result of a product: right if the vector is current. *)
Lemma ip_right s b m x v : vinv s b -> current x b -> v = content s x ->
  matrix s = Some m -> x <> Work ->
  let s' := ip_mat_mult T M act s m x v in
  bx T M s' = Some (act (mats s m) v) /\ xid s' = Some x /\ xstate s' = vst s x.
Proof.
  unfold vinv, current. intros I C -> Em Hw. cbn. unfold ip_mat_mult.
  destruct (vec b) as [q|] eqn:Eq.
  - destruct I as [I0 [I1 [I2 I3]]]. rewrite I1. destruct (vid_eqb_spec x (who q)) as [->|Hn]; cbn [andb].
    + rewrite vid_refl in C. cbn [andb] in C. rewrite I2, Z.eqb_refl.
      destruct (I3 C) as [m' [E' Eb]]. rewrite I1, I2. assert (m' = m) by congruence; subst. auto.
    + cbn. auto.
  - destruct (xid s) as [y|]; [|cbn; auto].
    destruct (vid_eqb_spec x y) as [<-|]; cbn [andb]; [|cbn; auto].
    destruct (Z.eqb_spec (vst s x) (xstate s)); [lia|cbn; auto].
Qed.
Lemma ip_always s m x v : (match xid s with Some y => xstate s < vst s x \/ x <> y | None => True end) ->
  let s' := ip_mat_mult T M act s m x v in
  bx T M s' = Some (act (mats s m) v) /\ xid s' = Some x /\ xstate s' = vst s x.
Proof.
  cbn. unfold ip_mat_mult. destruct (xid s) as [y|]; intros H; [|cbn; auto].
  destruct (vid_eqb_spec x y) as [<-|]; cbn [andb]; [|cbn; auto].
  destruct (Z.eqb_spec (vst s x) (xstate s)); [destruct H; [lia|congruence]|cbn; auto].
Qed.

Lemma binv_noticed s s' b : binv s b -> bvstate s' = bvstate s -> bstate s' = bstate s + 1 ->
  binv s' (noticed b).
Proof. unfold binv. cbn. destruct (bas b); lia. Qed.
Lemma binv_unnoticed s s' b : binv s b -> bvstate s' = bvstate s -> bstate s' = bstate s ->
  binv s' (unnoticed b).
Proof. unfold binv. cbn. destruct (bas b); cbn; lia. Qed.
Lemma binv_same s s' b b' : binv s b -> bas b' = bas b -> bvstate s' = bvstate s -> bstate s' = bstate s ->
  cached T M s' = cached T M s -> cl T M s' = cl T M s -> ck T M s' = ck T M s ->
  cols s' = cols s -> matrix s' = matrix s -> (forall m, matrix s = Some m -> mats s' m = mats s m) -> binv s' b'.
Proof.
  unfold binv. intros I -> E1 E2 E3 E4 E5 E6 E7 E8. destruct (bas b); rewrite ?E1, ?E2; auto.
  rewrite E3, E4, E5, E6. destruct I as [I1 I2]. split; auto. intros j Hj. rewrite I2; auto.
  unfold BVCacheSpec.product. rewrite E7. destruct (matrix s) eqn:Em; [|auto]. now rewrite E8.
Qed.
Lemma bas_modified x b : bas (modified x b) = bas b.
Proof. unfold modified. destruct (vec b) as [q|]; [destruct (vid_eqb _ _)|]; reflexivity. Qed.
Lemma bas_outdate P b : bas (outdate P b) = bas b.
Proof. unfold outdate. destruct (vec b) as [q|]; [destruct (P _)|]; reflexivity. Qed.
Lemma vinv_eq s b b' : vinv s b -> vec b' = vec b -> vinv s b'.
Proof. unfold vinv. now intros I ->. Qed.

(** For the storage BVSVEC the kept product never belongs to a column. *)
Definition nocol (k : kind) (s : sys) : Prop :=
  k = Svec -> match xid s with Some Work => xstate s < vst s Work | Some (Col _) => False | _ => True end.

Theorem step_ok k s b c : vinv s b -> binv s b -> nocol k s -> safe T M k s b c ->
  snd (step k s c) = right s c /\ vinv (fst (step k s c)) (note T M k s c b) /\
  binv (fst (step k s c)) (note T M k s c b) /\ nocol k (fst (step k s c)).
Proof.
  intros I B N S. destruct c; cbn [BVCacheModel.step note BVCacheSpec.right safe] in *.
  - split; [reflexivity|]. cbn [fst]. split; [|split].
    + eapply vinv_modified; eauto; try discriminate; try reflexivity.
      intros y Hy. destruct y; cbn; auto. unfold set_nat. destruct (Nat.eqb_spec n0 n); [congruence|auto].
    + eapply binv_same; eauto using bas_modified.
    + intros Hk. specialize (N Hk). cbn. destruct (xid s) as [[| |]|]; auto.
  - split; [reflexivity|]. cbn [fst]. unfold set_matrix, same_matrix.
    destruct (_ && Bool.eqb ind (indef T M s)) eqn:E; [auto|]. split; [|split].
    + eapply vinv_eq; [eapply vinv_outdate with (P := fun _ => true); [exact I|..]; try reflexivity; discriminate|reflexivity].
    + eapply binv_noticed with (s := s); [|reflexivity|reflexivity]. unfold binv in *. rewrite bas_outdate. exact B.
    + exact N.
  - split; [reflexivity|]. cbn [fst]. split; [|split]; [| |exact N].
    + destruct (matrix s) as [y|] eqn:Em.
      * destruct (Nat.eqb_spec b0 y) as [->|Hn].
        -- eapply vinv_eq; [eapply vinv_outdate with (P := fun _ => true); [exact I|..]; try reflexivity; discriminate|reflexivity].
        -- unfold vinv in *. destruct (vec b) as [q|]; [|exact I]. cbn. destruct I as [I0 [I1 [I2 I3]]].
           do 3 (split; auto). intros Ho. destruct (I3 Ho) as [m [E1 E2]]. exists m. split; [congruence|].
           unfold set_nat. destruct (Nat.eqb_spec m b0); [congruence|exact E2].
      * unfold vinv in *. destruct (vec b) as [q|]; [|exact I]. cbn. destruct I as [I0 [I1 [I2 I3]]].
        do 3 (split; auto). intros Ho. destruct (I3 Ho) as [m [E1 E2]]. congruence.
    + destruct (matrix s) as [y|] eqn:Em.
      * destruct (Nat.eqb_spec b0 y) as [->|Hn].
        -- eapply binv_unnoticed with (s := s); [|reflexivity|reflexivity]. unfold binv in *. rewrite bas_outdate. exact B.
        -- eapply binv_same; [exact B|..]; try reflexivity; [symmetry; exact Em|]. intros m Hm. cbn. unfold set_nat.
           destruct (Nat.eqb_spec m b0); [congruence|auto].
      * eapply binv_same; [exact B|..]; try reflexivity; cbn; congruence.
  - unfold apply, used, BVCacheSpec.product. destruct (matrix s) as [m|] eqn:Em; [|cbn; auto].
    destruct S as [S|S]; [discriminate|]. cbn [fst snd].
    pose proof (ip_right s b m (Ext n) (ext T M s n) I S eq_refl Em ltac:(discriminate)) as [R1 [R2 R3]].
    pose proof (ip_frame s m (Ext n) (ext T M s n)) as [F1 [F2 [F3 [F4 [F5 [F6 [F7 [F8 [F9 F10]]]]]]]]].
    cbn zeta in *. set (s' := ip_mat_mult _ _ _ _ _ _ _) in *. clearbody s'.
    split; [rewrite R1; reflexivity|]. split; [|split].
    + unfold vinv. cbn. rewrite R2, R3, F1, F3, F4, F5, R1. split; [discriminate|]. do 2 (split; [auto|]). eauto.
    + eapply binv_same; [exact B|reflexivity|..]; auto. intros. now rewrite F4.
    + intros Hk. rewrite R2. exact Logic.I.
  - unfold apply_column. destruct k; cbn [get_column].
    1,2: unfold apply, used, BVCacheSpec.product; destruct (matrix s) as [m|] eqn:Em;
      [|cbn; rewrite Z.eqb_refl; auto];
      destruct S as [S|[S|S]]; try discriminate;
      pose proof (ip_right s b m (Col j) (cols s j) I S eq_refl Em ltac:(discriminate)) as [R1 [R2 R3]];
      pose proof (ip_frame s m (Col j) (cols s j)) as [F1 [F2 [F3 [F4 [F5 [F6 [F7 [F8 [F9 F10]]]]]]]]];
      cbn zeta in *; cbn [fst snd]; set (s' := ip_mat_mult _ _ _ _ _ _ _) in *; clearbody s';
      cbn [restore_column]; rewrite F3, Z.eqb_refl;
      (split; [rewrite R1; reflexivity|]); (split; [|split]);
      [ unfold vinv; cbn; rewrite R2, R3, F2, F3, F4, F5, R1; split; [discriminate|]; do 2 (split; [auto|]); eauto
      | eapply binv_same; [exact B|reflexivity|..]; auto; intros; now rewrite F4
      | intros Hk; discriminate Hk ].
    specialize (N eq_refl). set (s1 := with_vst T M s (bump_vec (vst s) Work)).
    assert (Ev : vst s1 = bump_vec (vst s) Work) by reflexivity.
    unfold apply, BVCacheSpec.product. replace (matrix s1) with (matrix s) by reflexivity.
    destruct (matrix s) as [m|] eqn:Em.
    + pose proof (ip_always s1 m Work (cols s1 j)) as [R1 [R2 R3]].
      { replace (xid s1) with (xid s) by reflexivity. destruct (xid s) as [[| |]|]; auto; try (right; discriminate).
        left. rewrite Ev, bump_same. replace (xstate s1) with (xstate s) by reflexivity. lia. }
      pose proof (ip_frame s1 m Work (cols s1 j)) as [F1 [F2 [F3 [F4 [F5 [F6 [F7 [F8 [F9 F10]]]]]]]]].
      cbn zeta in *. set (s' := ip_mat_mult _ _ _ _ _ _ _) in *. clearbody s'. cbn [fst snd].
      cbn [restore_column]. rewrite F3, Z.eqb_refl. split; [rewrite R1; reflexivity|]. split; [|split].
      * unfold vinv. cbn. rewrite R2, R3, F3, ?Ev, ?bump_same. lia.
      * eapply binv_same; [exact B|reflexivity|..]; cbn; auto. intros. now rewrite F4.
      * intros _. cbn. rewrite R2, R3, F3, ?Ev, ?bump_same. lia.
    + cbn [fst snd restore_column]. rewrite Z.eqb_refl. split; [reflexivity|]. split; [|split].
      * unfold vinv in *. cbn. destruct (vec b) as [q|].
        -- destruct I as [I0 [I1 [I2 I3]]]. rewrite !bump_ne by auto. auto.
        -- destruct (xid s) as [y|]; [|auto]. pose proof (bump_ge (vst s) Work y).
           pose proof (bump_ge (bump_vec (vst s) Work) Work y). lia.
      * eapply binv_same; [exact B|reflexivity|..]; auto.
      * intros _. cbn. destruct (xid s) as [[| |]|]; auto. rewrite ?bump_same. lia.
  - assert (Hc : forall y, y <> Col j -> forall c : nat -> T, (forall i, i <> j -> c i = cols s i) ->
       forall e, match y with Ext n => e n | Col i => c i | Work => zero end =
                 match y with Ext n => e n | Col i => cols s i | Work => zero end).
    { intros y Hy c Hc e. destruct y; auto; apply Hc; congruence. }
    assert (Hs : forall i, i <> j -> set_nat (cols s) j v i = cols s i).
    { intros i Hi. unfold set_nat. destruct (Nat.eqb_spec i j); congruence. }
    split; [reflexivity|]. cbn [fst]. unfold write_column. destruct k; cbn [get_column restore_column].
    1,2: cbn [BVCacheModel.vst with_vst with_cols]; rewrite bump_same;
      (destruct (Z.eqb_spec (vst s (Col j) + 1) (vst s (Col j))) as [|_]; [lia|]);
      (split; [|split]);
      [ eapply vinv_eq; [eapply vinv_modified with (x := Col j); [exact I|..]; try reflexivity; try discriminate|reflexivity];
        intros y Hy; unfold content; cbn; apply Hc; auto
      | eapply binv_noticed with (s := s); [|reflexivity|reflexivity]; unfold binv in *; rewrite bas_modified; exact B
      | intros Hk; discriminate Hk ].
    cbn [BVCacheModel.vst with_vst with_cols bump_bv]. rewrite !bump_same.
    destruct (Z.eqb_spec (vst s Work + 1 + 1) (vst s Work + 1)) as [|_]; [lia|].
    specialize (N eq_refl). split; [|split].
    + unfold vinv, noticed, modified in *. cbn. destruct (vec b) as [q|] eqn:Eq.
      * destruct I as [I0 [I1 [I2 I3]]]. rewrite I1 in N.
        destruct (vid_eqb_spec (who q) (Col j)) as [E|E]; [rewrite E in N; contradiction|].
        rewrite Eq, !bump_ne by auto. do 3 (split; auto). intros Ho. destruct (I3 Ho) as [m [E1 E2]].
        exists m. split; auto. rewrite E2. unfold content. cbn. f_equal. f_equal. symmetry. apply Hc; auto.
      * rewrite Eq. destruct (xid s) as [y|]; [|auto]. pose proof (bump_ge (vst s) Work y).
        pose proof (bump_ge (bump_vec (vst s) Work) Work y).
        pose proof (bump_ge (bump_vec (bump_vec (vst s) Work) Work) Work y). lia.
    + eapply binv_noticed with (s := s); [|reflexivity|reflexivity]. unfold binv in *. rewrite bas_modified. exact B.
    + intros _. cbn. destruct (xid s) as [[| |]|]; auto. rewrite ?bump_same. lia.
  - assert (Hs : forall i, i <> j -> set_nat (cols s) j v i = cols s i).
    { intros i Hi. unfold set_nat. destruct (Nat.eqb_spec i j); congruence. }
    split; [reflexivity|]. cbn [fst]. unfold direct_column. split; [|split].
    + destruct k.
      * eapply vinv_eq; [eapply vinv_modified with (x := Col j); [exact I|..]; try reflexivity; try discriminate|reflexivity].
        intros y Hy. destruct y; cbn; auto; apply Hs; congruence.
      * eapply vinv_eq; [eapply vinv_outdate with (P := vid_eqb (Col j)); [exact I|..]; try reflexivity|reflexivity].
        intros x Hx. cbn. split; [reflexivity|]. split; [reflexivity|]. destruct x; cbn; auto. apply Hs.
        cbn in Hx. apply Nat.eqb_neq in Hx. congruence.
      * specialize (N eq_refl). unfold vinv in *. cbn. destruct (vec b) as [q|] eqn:Eq; [|exact I].
        destruct I as [I0 [I1 [I2 I3]]]. do 3 (split; auto). intros Ho. destruct (I3 Ho) as [m [E1 E2]].
        exists m. split; auto. rewrite E2. rewrite I1 in N. destruct (who q); auto; contradiction.
    + eapply binv_noticed with (s := s); [|destruct k; reflexivity|destruct k; reflexivity].
      unfold binv in *. destruct k; rewrite ?bas_modified, ?bas_outdate; exact B.
    + intros Hk. subst k. specialize (N eq_refl). exact N.
  - assert (Hs : forall i, i <> j -> set_nat (cols s) j v i = cols s i).
    { intros i Hi. unfold set_nat. destruct (Nat.eqb_spec i j); congruence. }
    split; [reflexivity|]. cbn [fst]. unfold view_column. split; [|split].
    + destruct k.
      * eapply vinv_eq; [eapply vinv_modified with (x := Col j); [exact I|..]; try reflexivity; try discriminate|reflexivity].
        intros y Hy. destruct y; cbn; auto; apply Hs; congruence.
      * eapply vinv_eq; [eapply vinv_outdate with (P := vid_eqb (Col j)); [exact I|..]; try reflexivity|reflexivity].
        intros x Hx. cbn. split; [reflexivity|]. split; [reflexivity|]. destruct x; cbn; auto. apply Hs.
        cbn in Hx. apply Nat.eqb_neq in Hx. congruence.
      * specialize (N eq_refl). unfold vinv in *. cbn. destruct (vec b) as [q|] eqn:Eq; [|exact I].
        destruct I as [I0 [I1 [I2 I3]]]. do 3 (split; auto). intros Ho. destruct (I3 Ho) as [m [E1 E2]].
        exists m. split; auto. rewrite E2. rewrite I1 in N. destruct (who q); auto; contradiction.
    + eapply binv_unnoticed with (s := s); [|destruct k; reflexivity|destruct k; reflexivity].
      unfold binv in *. destruct k; rewrite ?bas_modified, ?bas_outdate; exact B.
    + intros Hk. subst k. specialize (N eq_refl). exact N.
  - split; [reflexivity|]. cbn [fst]. split; [exact I|]. split; [|exact N].
    eapply binv_same; [exact B|..]; reflexivity.
  - cbn [fst snd]. unfold apply_bv.
    destruct (negb (bstate s =? bvstate s) || negb (Nat.eqb (al T M s) (cl T M s)) || negb (Nat.eqb (ak T M s) (ck T M s))) eqn:E.
    + cbn -[Nat.leb Nat.ltb]. split.
      * f_equal. apply map_ext_in. intros j Hj. apply in_seq in Hj.
        destruct (Nat.leb_spec (al T M s) j), (Nat.ltb_spec j (ak T M s)); cbn; try lia. reflexivity.
      * split; [exact I|]. split; [|exact N]. split; [reflexivity|]. cbn -[Nat.leb Nat.ltb]. intros j Hj.
        destruct (Nat.leb_spec (al T M s) j), (Nat.ltb_spec j (ak T M s)); cbn; try lia. reflexivity.
    + rewrite !orb_false_iff, !negb_false_iff, Z.eqb_eq, !Nat.eqb_eq in E. destruct E as [[E1 E2] E3].
      unfold binv in B. destruct (bas b) eqn:Eb; [lia| |contradiction]. destruct B as [B1 B2]. split.
      * f_equal. apply map_ext_in. intros j Hj. apply in_seq in Hj. apply B2. lia.
      * split; [exact I|]. split; [|exact N]. split; auto.
Qed.

(** C22.  In every history of calls in which no product is asked for while the bookkeeping says it
    may be out of date, every product is the one with the current matrix and the current contents. *)
Theorem C22_products_are_current : forall k s b c,
  history k s b -> safe T M k s b c -> snd (step k s c) = right s c.
Proof.
  intros k s b c H S.
  assert (K : vinv s b /\ binv s b /\ nocol k s).
  { clear S c. induction H as [e ms m|s b c H [I [B N]] S].
    - split; [exact Logic.I|]. split; [|intros _; exact Logic.I]. split; [reflexivity|]. reflexivity.
    - now destruct (step_ok k s b c I B N S) as [_ H']. }
  destruct K as [I [B N]]. now apply (step_ok k s b c I B N S).
Qed.

(** C22.  In particular, if the matrix object is set before the first product and neither replaced
    nor modified afterwards, and columns are not modified through split views, then with BVVECS and
    BVSVEC storage every product is right; with BVCONTIGUOUS if columns are only modified through
    their Vecs. *)
Theorem C22_fixed_matrix : forall k e ms m b ind cs c,
  Forall (plain k) (cs ++ [c]) ->
  let s := states k (fst (step k (start T zero M e ms m) (SetMatrix T M b ind))) cs in
  snd (step k s c) = right s c.
Proof.
  intros k e ms m b ind cs c HF. cbn zeta.
  assert (G : forall cs s bk, history k s bk -> bas bk <> OutOfDate ->
     (match vec bk with Some q => outdated q = false | None => True end) ->
     Forall (plain k) (cs ++ [c]) -> snd (step k (states k s cs) c) = right (states k s cs) c).
  { clear. induction cs as [|c1 cs IH]; intros s bk H Hb Hq HF.
    - cbn [app BVCacheSpec.states] in *. apply Forall_inv in HF. eapply C22_products_are_current; [exact H|].
      destruct c; cbn; auto; unfold current; [right|right; right]; destruct (vec bk) as [q|]; auto;
      rewrite Hq, andb_false_r; reflexivity.
    - cbn [app BVCacheSpec.states] in *. pose proof (Forall_inv HF) as Hp. apply Forall_inv_tail in HF.
      eapply IH; [apply (h_call T M act zero k s bk c1 H)|..]; auto.
      + destruct c1; cbn; auto; unfold current; [right|right; right]; destruct (vec bk) as [q|]; auto;
        rewrite Hq, andb_false_r; reflexivity.
      + destruct c1; cbn [note] in *; try contradiction; unfold used, noticed; cbn; try discriminate;
        rewrite ?bas_modified; auto; try (destruct (matrix s); cbn; auto);
        try (destruct k; cbn; auto).
      + destruct c1; cbn [note BVCacheSpec.plain] in *; try contradiction; unfold used, noticed, modified; cbn; auto;
        try (destruct k; try contradiction); try (destruct (matrix s); cbn; auto);
        destruct (vec bk) as [q|] eqn:Eq; cbn; rewrite ?Eq; auto;
        destruct (vid_eqb _ _); cbn; rewrite ?Eq; auto. }
  apply (G cs _ _ (h_call T M act zero k _ _ (SetMatrix T M b ind) (h_new T M act zero k e ms m) Logic.I)); auto.
  - cbn. destruct (same_matrix T M _ b ind); cbn; discriminate.
  - cbn. destruct (same_matrix T M _ b ind); cbn; auto.
Qed.

End Props.
Print Assumptions C22_products_are_current.
Print Assumptions C22_fixed_matrix.

(** Contents are integers, a matrix is a factor. *)
Notation zstep := (step Z Z Z.mul).
Definition st0 : sys Z Z := start Z 0 Z (fun n => Z.of_nat n + 10) (fun n => Z.of_nat n + 2) 3.
Definition after (k : kind) (cs : list (op Z Z)) : sys Z Z := states Z Z Z.mul k st0 cs.
Definition answer (k : kind) (cs : list (op Z Z)) (c : op Z Z) := snd (zstep k (after k cs) c).
Definition B (n : nat) := SetMatrix Z Z (Some n) false.

Example ex_C22 :
  answer Contiguous [B 0; Apply Z Z 1; VecWrite Z Z 1 7; Apply Z Z 2; B 1] (Apply Z Z 1) = Product Z (Some 21) /\
  answer Vecs [B 0; WriteColumn Z Z 1 5; ApplyColumn Z Z 1; DirectColumn Z Z 1 6] (ApplyColumn Z Z 1) = Product Z (Some 12) /\
  answer Svec [B 0; WriteColumn Z Z 1 5; ApplyColumn Z Z 1; DirectColumn Z Z 1 6; SetActive Z Z 1 3; ApplyBV Z Z; B 1]
    (ApplyBV Z Z) = Products Z [18; 0].
Proof. repeat split. Qed.

(** The product with the previous matrix is returned when the matrix is replaced and the same
    unmodified vector is used again ... *)
Theorem C22_set_matrix_refuted :
  exists k cs n, answer k (cs ++ [B 1]) (Apply Z Z n) <> right Z Z Z.mul (after k (cs ++ [B 1])) (Apply Z Z n).
Proof. exists Vecs, [B 0; Apply Z Z 1], 1%nat. vm_compute. discriminate. Qed.
Print Assumptions C22_set_matrix_refuted.
(** ... with BVCONTIGUOUS when the column was changed by a BV operation such as BVScaleColumn ... *)
Theorem C22_contiguous_refuted :
  exists cs j v, answer Contiguous (cs ++ [DirectColumn Z Z j v]) (ApplyColumn Z Z j) <>
    right Z Z Z.mul (after Contiguous (cs ++ [DirectColumn Z Z j v])) (ApplyColumn Z Z j).
Proof. exists [B 0; WriteColumn Z Z 1 5; ApplyColumn Z Z 1], 1%nat, 6. vm_compute. discriminate. Qed.
Print Assumptions C22_contiguous_refuted.
(** ... and for the product with all columns when a column was changed through a split view, for every
    type of storage. *)
Theorem C22_split_refuted :
  forall k, exists cs j v, answer k (cs ++ [ViewColumn Z Z j v]) (ApplyBV Z Z) <>
    right Z Z Z.mul (after k (cs ++ [ViewColumn Z Z j v])) (ApplyBV Z Z).
Proof. intros k. exists [B 0; ApplyBV Z Z], 1%nat, 6. destruct k; vm_compute; discriminate. Qed.
Print Assumptions C22_split_refuted.
