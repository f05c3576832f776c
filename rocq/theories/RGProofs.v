(** Lemmas on regions. *)
From Coq Require Import Reals ZArith List Bool Lra Lia Psatz.
From Verif Require Import Prelude RealBool RGModel RGSpec.
Import ListNotations.
Open Scope R_scope.

(** Validity of the parameters. *)
Definition shape_ok (cplx : bool) (s : shape) : Prop :=
  match s with
  | Interval a b c d => a <= b /\ c <= d /\ (cplx = false -> c = - d)
      /\ (a = b -> a = 0) /\ (c = d -> c = 0) /\ ~ (a = b /\ c = d)
  | Ellipse ce ra vs => 0 < ra /\ 0 < vs /\ (cplx = false -> snd ce = 0)
  | Ring ce ra vs sa ea w => 0 < ra /\ 0 < vs /\ 0 <= sa <= 1 /\ 0 <= ea <= 1 /\ 0 < w
      /\ (cplx = false -> snd ce = 0 /\ sa + ea = 1)
  | Polygon vs => vs = [] \/ (2 < zlen vs <= 30)%Z
  end.
Definition rg_ok (cplx : bool) (r : rg) : Prop :=
  shape_ok cplx (data r) /\ 0 < sfactor r /\ 0 <= osfactor r.

Lemma set_param_ok (P : R -> Prop) new old dflt ok v :
  set_param new old dflt ok = Ok v -> P old -> P dflt -> (forall x, ok x = true -> P x) -> P v.
Proof.
  unfold set_param, check. intros H Po Pd Hok.
  destruct (Reqb new DETERMINE); [injection H as <-; exact Pd|].
  destruct (Reqb new CURRENT); [injection H as <-; exact Po|].
  destruct (ok new) eqn:E; [|discriminate]. injection H as <-. auto.
Qed.
Lemma positive_P x : positive x = true -> 0 < x.
Proof. unfold positive. rb; [auto|discriminate]. Qed.
Lemma in01_P x : in01 x = true -> 0 <= x <= 1.
Proof. unfold in01. repeat rb; simpl; try discriminate; lra. Qed.

Lemma bind_ok {A B} (r : res A) (f : A -> res B) b :
  bind r f = Ok b -> exists a, r = Ok a /\ f a = Ok b.
Proof. destruct r; simpl; intros H; try discriminate. eauto. Qed.
Lemma check_ok {A} c (k : res A) a : check c k = Ok a -> c = true /\ k = Ok a.
Proof. unfold check. destruct c; [auto|discriminate]. Qed.

Lemma interval_set_ok cplx r a b c d r' :
  rg_ok cplx r -> interval_set_endpoints cplx r a b c d = Ok r' -> rg_ok cplx r'.
Proof.
  intros (Hs & Hf & Ho). unfold interval_set_endpoints, rg_ok.
  destruct (data r) as [a0 b0 c0 d0| | |] eqn:E;
    try (intros H; injection H as <-; rewrite E; simpl in *; tauto).
  intros H. repeat (apply check_ok in H; destruct H as [?H H]). injection H as <-.
  simpl. split; [|split; assumption].
  unfold nz in *. destruct cplx; repeat rb; simpl in *; try discriminate; subst;
  repeat split; intros; try discriminate; try lra; intuition lra.
Qed.

Lemma ellipse_set_ok cplx r ce ra vs r' :
  rg_ok cplx r -> ellipse_set_parameters cplx r ce ra vs = Ok r' -> rg_ok cplx r'.
Proof.
  intros (Hs & Hf & Ho). unfold ellipse_set_parameters, rg_ok.
  destruct (data r) eqn:E;
    try (intros H; injection H as <-; rewrite E; simpl in *; tauto).
  intros H. apply bind_ok in H as (ra' & E1 & H). apply bind_ok in H as (vs' & E2 & H).
  injection H as <-. simpl in *. split; [|split; assumption].
  split; [|split].
  - eapply (set_param_ok (fun x => 0 < x)); eauto using positive_P; simpl; lra.
  - eapply (set_param_ok (fun x => 0 < x)); eauto using positive_P; simpl; lra.
  - intros ->. reflexivity.
Qed.

Lemma ring_set_ok cplx r ce ra vs sa ea w r' :
  rg_ok cplx r -> ring_set_parameters cplx r ce ra vs sa ea w = Ok r' -> rg_ok cplx r'.
Proof.
  intros (Hs & Hf & Ho). unfold ring_set_parameters, rg_ok.
  destruct (data r) eqn:E;
    try (intros H; injection H as <-; rewrite E; simpl in *; tauto).
  intros H. apply bind_ok in H as (ra' & E1 & H). apply bind_ok in H as (vs' & E2 & H).
  apply bind_ok in H as (sa' & E3 & H). apply bind_ok in H as (ea' & E4 & H).
  apply check_ok in H as (C & H). apply bind_ok in H as (w' & E5 & H).
  injection H as <-. simpl in *. destruct Hs as (H1 & H2 & H3 & H4 & H5 & _).
  split; [|split; assumption]. repeat split;
    try (eapply (set_param_ok (fun x => 0 < x)); eauto using positive_P; simpl; lra);
    try (eapply (set_param_ok (fun x => 0 <= x <= 1)); eauto using in01_P; simpl; lra);
    intros; subst cplx; simpl in *; auto.
  rb; auto; discriminate.
Qed.

Lemma polygon_set_ok cplx r vs r' :
  rg_ok cplx r -> polygon_set_vertices cplx r vs = Ok r' -> rg_ok cplx r'.
Proof.
  intros (Hs & Hf & Ho). unfold polygon_set_vertices, rg_ok.
  destruct (data r) eqn:E;
    try (intros H; injection H as <-; rewrite E; simpl in *; tauto).
  intros H. apply check_ok in H as (C1 & H). apply check_ok in H as (C2 & H).
  apply bind_ok in H as (sy & _ & H). apply check_ok in H as (_ & H). injection H as <-.
  simpl. split; [|split; assumption]. right. lia.
Qed.

Lemma set_scale_ok cplx r s r' : rg_ok cplx r -> rg_set_scale r s = Ok r' -> rg_ok cplx r'.
Proof.
  intros (Hs & Hf & Ho) H. unfold rg_set_scale in H. apply check_ok in H as (C & H).
  injection H as <-. unfold rg_ok. simpl. revert C.
  match goal with |- context [Rltb 0 ?x] => destruct (RltbP 0 x); [auto|discriminate] end.
Qed.
Lemma push_ok cplx r s r' : rg_ok cplx r -> rg_push_scale r s = Ok r' -> rg_ok cplx r'.
Proof.
  intros (Hs & Hf & Ho) H. unfold rg_push_scale in H. apply check_ok in H as (C & H).
  apply check_ok in H as (C2 & H).
  injection H as <-. unfold rg_ok. simpl. rb; [|discriminate]. repeat split; auto; try lra.
  now apply Rmult_lt_0_compat.
Qed.
Lemma pop_ok cplx r r' : rg_ok cplx r -> rg_pop_scale r = Ok r' -> rg_ok cplx r'.
Proof.
  intros (Hs & Hf & Ho) H. unfold rg_pop_scale in H. apply check_ok in H as (C & H).
  injection H as <-. unfold rg_ok. simpl. unfold nz in C. rb; [discriminate|].
  repeat split; auto; lra.
Qed.

Lemma reachable_ok cplx MAXR r : 0 < MAXR -> reachable cplx MAXR r -> rg_ok cplx r.
Proof.
  intros HM. induction 1; eauto using interval_set_ok, ellipse_set_ok, ring_set_ok,
    polygon_set_ok, set_scale_ok, push_ok, pop_ok.
  1-4: unfold rg_ok; simpl; repeat split; intros; try lra; auto.
Qed.

(** Membership *)
Lemma scaled_point s P p : s <> 0 -> scaled s P p <-> P (fst p / s, snd p / s).
Proof.
  intros Hs. split.
  - intros ((x,y) & Hq & ->). simpl.
    replace (s * x / s) with x by (field; auto). replace (s * y / s) with y by (field; auto). exact Hq.
  - intros H. exists (fst p / s, snd p / s). split; [exact H|]. destruct p; simpl. f_equal; field; auto.
Qed.

(** RGCheckInside reduces to the type method at the scaled point. *)
Lemma check_inside_scaled cplx tol r p :
  0 < sfactor r ->
  rg_check_inside cplx tol r p =
  do ins <- check_shape cplx tol (data r) (fst p / sfactor r, snd p / sfactor r);
  Ok (if complement r then (- ins)%Z else ins).
Proof.
  intros H. unfold rg_check_inside. rb; simpl.
  - rewrite e. destruct p as [x y]. simpl. unfold Rdiv. now rewrite Rinv_1, !Rmult_1_r.
  - rewrite !rdiv_ok by lra. reflexivity.
Qed.

Lemma check_interval_position a b c d p :
  a <= b -> c <= d ->
  position (rect_in a b c d) (rect_bd a b c d) p (check_interval a b c d (fst p) (snd p)).
Proof.
  intros H1 H2. unfold position, rect_in, rect_bd, check_interval.
  destruct p as [x y]; simpl.
  repeat rb; subst; simpl; repeat rb; subst; simpl;
    first [ left; split; [reflexivity|lra]
          | right; left; split; [reflexivity|split; [lra|tauto]]
          | right; right; split; [reflexivity|split; lra] ].
Qed.

Lemma ell_q_eq ce ra vs (p : point) : 0 < ra -> 0 < vs ->
  1 - (fst p - fst ce) / ra * ((fst p - fst ce) / ra)
    - (snd p - snd ce) / ra * ((snd p - snd ce) / ra) / (vs * vs) = 1 - ell_q ce ra vs p.
Proof. intros. unfold ell_q. field. lra. Qed.

Lemma check_ellipse_eq cplx ce ra vs p :
  0 < ra -> 0 < vs -> (cplx = false -> snd ce = 0) ->
  check_ellipse cplx ce ra vs p = Ok (rsign (1 - ell_q ce ra vs p)).
Proof.
  intros H1 H2 H3. unfold check_ellipse, rel. simpl.
  assert (vs * vs <> 0) by nra.
  destruct cplx.
  - rewrite !rdiv_ok by lra. simpl. rewrite rdiv_ok by lra. simpl. now rewrite ell_q_eq.
  - rewrite !rdiv_ok by lra. simpl. rewrite rdiv_ok by lra. simpl. f_equal. f_equal.
    rewrite <- ell_q_eq by auto. rewrite (H3 eq_refl). now rewrite Rminus_0_r.
Qed.

Lemma rsign_ell_position ce ra vs p :
  position (ell_in ce ra vs) (ell_bd ce ra vs) p (rsign (1 - ell_q ce ra vs p)).
Proof.
  unfold position, ell_in, ell_bd.
  destruct (rsign_cases (1 - ell_q ce ra vs p)) as [[-> ?] | [[-> ?] | [-> ?]]];
    [left | right; left | right; right]; repeat split; lra.
Qed.

Lemma position_scaled s I B p z : s <> 0 ->
  position I B (fst p / s, snd p / s) z -> position (scaled s I) (scaled s B) p z.
Proof. intros Hs. unfold position. rewrite !(scaled_point s) by auto. auto. Qed.
