(** Derivatives of function objects over the reals. *)
From Coq Require Import List Bool Arith Reals Rpower Lra Lia.
From Coquelicot Require Import Coquelicot.
From Verif Require Import Prelude RealBool FNModel FNRModel.
Import ListNotations.
Open Scope R_scope.

Lemma bind_ok' A B (r : res A) (k : A -> res B) y : bind r k = Ok y -> exists a, r = Ok a /\ k a = Ok y.
Proof. destruct r; simpl; intros; try discriminate; eauto. Qed.

(** ** Phi functions *)
Definition phc (k : nat) (j : nat) : R := / INR (fact (j + k)).
Definition phi (k : nat) (x : R) : R := PSeries (phc k) x.

Lemma fact_nz n : INR (fact n) <> 0.
Proof. apply INR_fact_neq_0. Qed.

Lemma phc_radius k : CV_radius (phc k) = p_infty.
Proof.
  apply CV_radius_infinite_DAlembert.
  - intros n. unfold phc. apply Rinv_neq_0_compat, fact_nz.
  - apply is_lim_seq_ext with (u := fun n => / INR (S (n + k))).
    + intros n. unfold phc. change (S n + k)%nat with (S (n + k)). rewrite fact_simpl, mult_INR.
      assert (INR (S (n + k)) <> 0) by (apply not_0_INR; lia). pose proof (fact_nz (n + k)).
      rewrite Rabs_right. field; auto.
      apply Rle_ge, Rmult_le_pos.
      * apply Rlt_le, Rinv_0_lt_compat, Rmult_lt_0_compat; [apply lt_0_INR; lia|apply INR_fact_lt_0].
      * rewrite Rinv_involutive by auto. apply Rlt_le, INR_fact_lt_0.
    + apply (is_lim_seq_inv (fun n => INR (S (n + k))) p_infty).
      * apply is_lim_seq_ext with (u := fun n => INR (n + S k)); [intros; f_equal; lia|].
        apply (is_lim_seq_incr_n INR (S k)). apply is_lim_seq_INR.
      * discriminate.
Qed.

Lemma phc_ex k x : ex_pseries (phc k) x.
Proof. apply CV_disk_correct, CV_disk_inside. rewrite phc_radius. exact I. Qed.

Lemma phi_exp x : phi 0 x = exp x.
Proof.
  unfold phi. rewrite exp_Reals. apply PSeries_ext. intros n. unfold phc. now rewrite Nat.add_0_r.
Qed.

Lemma phi_rec k x : phi k x = / INR (fact k) + x * phi (k + 1) x.
Proof.
  unfold phi. rewrite PSeries_decr_1 by apply phc_ex. unfold phc at 1. simpl (0 + k)%nat. f_equal. f_equal.
  apply PSeries_ext. intros n. unfold PS_decr_1, phc. do 3 f_equal. lia.
Qed.

Lemma phi_0 k : phi k 0 = / INR (fact k).
Proof. unfold phi. rewrite PSeries_0. reflexivity. Qed.

Lemma phi_derive k x : is_derive (phi k) x (phi k x - INR k * phi (k + 1) x).
Proof.
  unfold phi. replace (PSeries (phc k) x - INR k * PSeries (phc (k + 1)) x) with (PSeries (PS_derive (phc k)) x).
  - apply is_derive_PSeries. rewrite phc_radius. exact I.
  - rewrite <- PSeries_scal, <- PSeries_minus; [|apply phc_ex|apply ex_pseries_scal; [apply Rmult_comm|apply phc_ex]].
    apply PSeries_ext. intros n. unfold PS_derive, PS_minus, PS_plus, PS_opp, PS_scal, phc.
    unfold plus, opp, scal; simpl. unfold mult; simpl.
    change (match n with 0%nat => 1 | S _ => INR n + 1 end) with (INR (S n)).
    replace (n + (k + 1))%nat with (S (n + k)) by lia.
    change (fact (n + k) + (n + k) * fact (n + k))%nat with (fact (S (n + k))).
    rewrite fact_simpl, mult_INR.
    assert (INR (S (n + k)) <> 0) by (apply not_0_INR; lia). pose proof (fact_nz (n + k)).
    replace (INR (S n)) with (INR (S (n + k)) - INR k); [field; auto|].
    rewrite !S_INR, plus_INR. ring.
Qed.

Lemma fact_step n a b : INR (fact n) = a -> INR (S n) * a = b -> INR (fact (S n)) = b.
Proof. intros <- <-. now rewrite fact_simpl, mult_INR. Qed.

Lemma rfact_ok i v : rfact i = Ok v -> v = / INR (fact i).
Proof.
  assert (F0 : INR (fact 0) = 1) by (simpl; lra).
  assert (F1 : INR (fact 1) = 1) by (simpl; lra).
  assert (F2 : INR (fact 2) = 2) by (apply (fact_step 1 1); [auto|simpl; lra]).
  assert (F3 : INR (fact 3) = 6) by (apply (fact_step 2 2); [auto|simpl; lra]).
  assert (F4 : INR (fact 4) = 24) by (apply (fact_step 3 6); [auto|simpl; lra]).
  assert (F5 : INR (fact 5) = 120) by (apply (fact_step 4 24); [auto|simpl; lra]).
  assert (F6 : INR (fact 6) = 720) by (apply (fact_step 5 120); [auto|simpl; lra]).
  assert (F7 : INR (fact 7) = 5040) by (apply (fact_step 6 720); [auto|simpl; lra]).
  assert (F8 : INR (fact 8) = 40320) by (apply (fact_step 7 5040); [auto|simpl; lra]).
  assert (F9 : INR (fact 9) = 362880) by (apply (fact_step 8 40320); [auto|simpl; lra]).
  assert (F10 : INR (fact 10) = 3628800) by (apply (fact_step 9 362880); [auto|simpl; lra]).
  assert (F11 : INR (fact 11) = 39916800) by (apply (fact_step 10 3628800); [auto|simpl; lra]).
  unfold rfact, rfactorial.
  do 12 (destruct i as [|i]; [cbn [nth_error]; intros [= <-];
    rewrite ?F0, ?F1, ?F2, ?F3, ?F4, ?F5, ?F6, ?F7, ?F8, ?F9, ?F10, ?F11; lra|]).
  cbn [nth_error]. destruct i; discriminate.
Qed.

Lemma rfact_def i : (i <= 11)%nat -> exists v, rfact i = Ok v.
Proof.
  intros H. unfold rfact. destruct (nth_error rfactorial i) as [v|] eqn:E; [eauto|].
  apply nth_error_None in E. simpl in E. lia.
Qed.

Lemma phi_entry_ok x i v : x <> 0 -> phi_entry x i = Ok v -> v = phi i x.
Proof.
  intros Hx. revert v. induction i as [|i IH]; intros v; cbn [phi_entry].
  - intros [= <-]. now rewrite phi_exp.
  - intros E. apply bind_ok' in E as (p & E1 & E). apply bind_ok' in E as (r & E2 & [= <-]).
    rewrite (IH p E1), (rfact_ok _ _ E2), (phi_rec i x). replace (i + 1)%nat with (S i) by lia.
    pose proof (fact_nz i). field. auto.
Qed.

Lemma phi_entry_def x i : (i <= 12)%nat -> exists v, phi_entry x i = Ok v.
Proof.
  induction i as [|i IH]; intros H; cbn [phi_entry]; [eauto|].
  destruct IH as [p ->]; [lia|]. destruct (rfact_def i) as [r ->]; [lia|]. cbn [bind]. eauto.
Qed.

Lemma eval_phi_ok k x : (k <= MAX_INDEX)%nat -> eval_phi k x = Ok (phi k x).
Proof.
  intros H. unfold eval_phi. destruct (ReqbP x 0) as [->|Hx].
  - destruct (rfact_def k) as [v E]; [unfold MAX_INDEX in H; lia|]. rewrite E.
    now rewrite phi_0, (rfact_ok _ _ E).
  - rewrite (proj2 (Nat.leb_le _ _) H).
    destruct (phi_entry_def x k) as [v E]; [unfold MAX_INDEX in H; lia|]. rewrite E.
    now rewrite (phi_entry_ok _ _ _ Hx E).
Qed.

Lemma deriv_phi_ok k x y : deriv_phi k x = Ok y ->
  (k <= MAX_INDEX)%nat /\ y = phi k x - INR k * phi (k + 1) x.
Proof.
  unfold deriv_phi. destruct (ReqbP x 0) as [->|Hx].
  - intros E. split.
    + unfold rfact in E. destruct (nth_error rfactorial (k + 1)) eqn:En; [|discriminate].
      assert (k + 1 < length rfactorial)%nat by (apply nth_error_Some; congruence).
      simpl in H. unfold MAX_INDEX. lia.
    + rewrite (rfact_ok _ _ E). rewrite !phi_0. replace (k + 1)%nat with (S k) by lia. rewrite fact_simpl, mult_INR, S_INR.
      pose proof (fact_nz k). pose proof (pos_INR k). field. split; auto; lra.
  - destruct (Nat.leb_spec (k + 1) (MAX_INDEX + 1)); [|discriminate]. intros E.
    apply bind_ok' in E as (a & Ea & E). apply bind_ok' in E as (b & Eb & [= <-]).
    split; [lia|]. rewrite (phi_entry_ok _ _ _ Hx Ea), (phi_entry_ok _ _ _ Hx Eb). ring.
Qed.

(** ** Rational functions *)
Lemma horner_d_fst cs x : fst (horner_d R rops cs x) = horner R rops cs x.
Proof.
  destruct cs as [|c cs]; [reflexivity|]. simpl.
  assert (forall p pp, fst (fold_left (fun '(p, pp) ci => (ci + x * p, p + x * pp)) cs (p, pp))
     = fold_left (fun p ci => ci + x * p) cs p) as H.
  { induction cs as [|a cs IH]; intros; simpl; auto. }
  apply H.
Qed.

Lemma horner_d_snd cs x : is_derive (fun t => horner R rops cs t) x (snd (horner_d R rops cs x)).
Proof.
  destruct cs as [|c cs]; [simpl; apply (is_derive_const (V := R_NormedModule) 1 x)|]. simpl.
  assert (forall (g : R -> R) p pp, g x = p -> is_derive g x pp ->
     is_derive (fun t => fold_left (fun p ci => ci + t * p) cs (g t)) x
       (snd (fold_left (fun '(p, pp) ci => (ci + x * p, p + x * pp)) cs (p, pp)))) as H.
  { induction cs as [|a cs IH]; intros g p pp Hp Hd; simpl; auto.
    apply (IH (fun t => a + t * g t)); [now rewrite Hp|].
    auto_derive; [eexists; exact Hd|]. rewrite (is_derive_unique (fun t : R => g t) x pp Hd), Hp. ring. }
  apply (H (fun _ => c)); auto. apply (is_derive_const (V := R_NormedModule) c x).
Qed.

Lemma locally_nz (g : R -> R) x d : is_derive g x d -> g x <> 0 -> locally x (fun t => g t <> 0).
Proof.
  intros Hd Hx. assert (C : continuous g x) by (apply (ex_derive_continuous (V := R_NormedModule)); eexists; eauto).
  apply (C (fun y => y <> 0)). apply (open_neq 0). exact Hx.
Qed.

Lemma rational_derive p q x y : deriv_rational R rops p q x = Ok y ->
  exists g, locally x (fun t => eval_rational R rops p q t = Ok (g t)) /\ is_derive g x y.
Proof.
  unfold deriv_rational, eval_rational.
  pose proof (horner_d_fst p x) as P1. pose proof (horner_d_snd p x) as P2.
  destruct (horner_d R rops p x) as [pv pp]. simpl in P1, P2.
  destruct q as [|q0 q].
  - intros [= <-]. exists (fun t => horner R rops p t). split; auto. now apply filter_forall.
  - set (qq := q0 :: q) in *.
    pose proof (horner_d_fst qq x) as Q1. pose proof (horner_d_snd qq x) as Q2.
    destruct (horner_d R rops qq x) as [qv qp]. simpl fst in *. simpl snd in *.
    simpl s_eqb. simpl s_zero. destruct (ReqbP qv 0) as [|Hq]; [discriminate|]. intros [= <-].
    exists (fun t => horner R rops p t / horner R rops qq t). split.
    + apply (filter_imp (fun t => horner R rops qq t <> 0)); [|apply (locally_nz _ x qp); auto; now rewrite <- Q1].
      intros t Ht. match goal with |- (if Reqb ?e 0 then _ else _) = _ => change e with (horner R rops qq t) end.
      destruct (ReqbP (horner R rops qq t) 0); [contradiction|reflexivity].
    + simpl. rewrite P1, Q1 in *.
      replace ((pp * horner R rops qq x - horner R rops p x * qp) / (horner R rops qq x * horner R rops qq x))
        with ((pp * horner R rops qq x - horner R rops p x * qp) / (horner R rops qq x) ^ 2) by (simpl; now rewrite Rmult_1_r).
      apply is_derive_div; auto.
Qed.

(** ** Leaf functions *)
Lemma locally_pos x : 0 < x -> locally x (fun t => 0 < t).
Proof. intros H. apply (open_gt 0). exact H. Qed.

Lemma leaf_derive l x y : deriv_leaf l x = Ok y ->
  exists g, locally x (fun t => eval_leaf l t = Ok (g t)) /\ is_derive g x y.
Proof.
  destruct l; cbn [deriv_leaf eval_leaf]; unfold check.
  - intros [= <-]. exists exp. split; [now apply filter_forall|apply is_derive_exp].
  - destruct (ReqbP x 0); simpl; [discriminate|]. destruct (RltbP 0 x); [|discriminate]. intros [= <-].
    exists ln. split.
    + refine (filter_imp _ _ _ ((locally_pos x r))); intros t Ht. simpl.
      destruct (RlebP 0 t); [|lra]. destruct (ReqbP t 0); [lra|reflexivity].
    + replace (1 / x) with (/ x) by (field; auto). apply is_derive_Reals, derivable_pt_lim_ln; auto.
  - destruct (ReqbP x 0); simpl; [discriminate|]. destruct (RltbP 0 x); [|discriminate]. intros [= <-].
    exists sqrt. split.
    + apply (filter_imp (fun t => 0 < t)); [|now apply locally_pos]. intros t Ht.
      destruct (RlebP 0 t); [reflexivity|lra].
    + replace (1 / (2 * sqrt x)) with (/ (2 * sqrt x)) by (unfold Rdiv; ring). apply is_derive_Reals, derivable_pt_lim_sqrt; auto.
  - destruct (ReqbP x 0); simpl; [discriminate|]. destruct (RltbP 0 x); [|discriminate]. intros [= <-].
    exists (fun t => 1 / sqrt t). split.
    + apply (filter_imp (fun t => 0 < t)); [|now apply locally_pos]. intros t Ht.
      destruct (ReqbP t 0); [lra|]. simpl. destruct (RltbP 0 t); [reflexivity|lra].
    + assert (S : 0 < sqrt x) by now apply sqrt_lt_R0.
      replace (Rpower x (3 / 2)) with (x * sqrt x).
      * auto_derive; [repeat split; auto; lra|]. field_simplify; [|split; lra|lra].
        rewrite <- (sqrt_sqrt x) at 3 by lra. field. lra.
      * replace (3 / 2) with (1 + / 2) by lra. rewrite Rpower_plus, Rpower_1, Rpower_sqrt; auto.
  - intros E. apply deriv_phi_ok in E as [Hk ->]. exists (phi k). split; [|apply phi_derive].
    apply filter_forall. intros t. now apply eval_phi_ok.
Qed.

(** ** Trees *)
Theorem deriv_correct n : forall h f x y, deriv R rops n h f x = Ok y ->
  exists g, locally x (fun t => eval R rops n h f t = Ok (g t)) /\ is_derive g x y.
Proof.
  induction n as [|n IH]; intros h f x y; [discriminate|]. cbn [deriv eval].
  destruct f as [i|]; [|discriminate]. destruct (h_obj R h i) as [ob|]; [|discriminate].
  destruct (f_type R ob) as [t|]; [|discriminate].
  set (al := f_alpha R ob). set (be := f_beta R ob). cbn [rops s_mul]. intros E.
  apply bind_ok' in E as (d & E & [= <-]).
  assert (exists g, locally (al * x) (fun u => eval_type R rops (eval R rops n h) t u = Ok (g u))
            /\ is_derive g (al * x) d) as (g & Lg & Dg).
  2: { exists (fun u => be * g (al * u)). split.
       - assert (C : continuous (fun u => al * u) x) by (apply (ex_derive_continuous (V := R_NormedModule)); auto_derive; auto).
         specialize (C _ Lg). unfold filtermap in C. revert C. apply filter_imp. intros u Hu. now rewrite Hu.
       - auto_derive; [eexists; exact Dg|].
         rewrite (is_derive_unique (fun x0 : R => g x0) (al * x) d Dg). ring. }
  clearbody al be. revert E. generalize (al * x). clear x. intros x E.
  destruct t as [p q|l|c f1 f2]; cbn [deriv_type eval_type] in *.
  - now apply rational_derive.
  - now apply leaf_derive.
  - cbn [rops s_add s_sub s_mul s_div s_eqb s_zero] in E.
    destruct c; apply bind_ok' in E as (a1 & E1 & E); apply bind_ok' in E as (a2 & E2 & E).
    + injection E as <-. destruct (IH _ _ _ _ E1) as (g1 & L1 & D1), (IH _ _ _ _ E2) as (g2 & L2 & D2).
      exists (fun u => g1 u + g2 u). split.
      * refine (filter_imp _ _ _ ((filter_and _ _ L1 L2))); intros u Hu. destruct Hu as [-> ->]. reflexivity.
      * apply (is_derive_plus (K := R_AbsRing) (V := R_NormedModule)); auto.
    + apply bind_ok' in E as (b1 & F1 & E). apply bind_ok' in E as (b2 & F2 & [= <-]).
      destruct (IH _ _ _ _ E1) as (g1 & L1 & D1), (IH _ _ _ _ E2) as (g2 & L2 & D2).
      pose proof (locally_singleton _ _ L1) as V1. pose proof (locally_singleton _ _ L2) as V2.
      simpl in V1, V2. rewrite F1 in V1. rewrite F2 in V2. injection V1 as ->. injection V2 as ->.
      exists (fun u => g1 u * g2 u). split.
      * refine (filter_imp _ _ _ ((filter_and _ _ L1 L2))); intros u Hu. destruct Hu as [-> ->]. reflexivity.
      * apply (is_derive_mult (K := R_AbsRing) g1 g2); auto. intros; apply Rmult_comm.
    + apply bind_ok' in E as (b1 & F1 & E). apply bind_ok' in E as (b2 & F2 & E).
      destruct (ReqbP b2 0) as [|Hb]; [discriminate|]. injection E as <-.
      destruct (IH _ _ _ _ E1) as (g1 & L1 & D1), (IH _ _ _ _ E2) as (g2 & L2 & D2).
      pose proof (locally_singleton _ _ L1) as V1. pose proof (locally_singleton _ _ L2) as V2.
      simpl in V1, V2. rewrite F1 in V1. rewrite F2 in V2. injection V1 as ->. injection V2 as ->.
      exists (fun u => g1 u / g2 u). split.
      * refine (filter_imp _ _ _ ((filter_and _ _ (filter_and _ _ L1 L2) (locally_nz _ _ _ D2 Hb)))); intros u Hu. destruct Hu as [[-> ->] Hz]. simpl. destruct (ReqbP (g2 u) 0); [contradiction|reflexivity].
      * replace (g2 x * g2 x) with (g2 x ^ 2) by ring. apply is_derive_div; auto.
    + apply bind_ok' in E as (b & F & [= <-]).
      destruct (IH _ _ _ _ E2) as (g1 & L1 & D1), (IH _ _ _ _ F) as (g2 & L2 & D2).
      pose proof (locally_singleton _ _ L1) as V1. simpl in V1. rewrite E1 in V1. injection V1 as ->.
      exists (fun u => g2 (g1 u)). split.
      * assert (C : continuous g1 x) by (apply (ex_derive_continuous (V := R_NormedModule)); eexists; eauto).
        specialize (C _ L2). unfold filtermap in C. generalize (filter_and _ _ L1 C). apply filter_imp. intros u Hu.
        destruct Hu as [-> Hu]. exact Hu.
      * rewrite Rmult_comm. apply (is_derive_comp (K := R_AbsRing) (V := R_NormedModule) g2 g1); auto.
Qed.
