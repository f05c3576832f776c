(** Properties of function objects: derivatives (C14), duplication (C17), method numbers (C32). *)
From Coq Require Import List Bool Arith Reals Lra Lia.
From Coquelicot Require Import Coquelicot.
From Verif Require Import Prelude RealBool FNModel FNRModel FNDupProofs FNDerivProofs.
Import ListNotations.

(** ** C14 *)
Section C14.
Open Scope R_scope.
(** Wherever FNEvaluateDerivative succeeds, FNEvaluateFunction succeeds in a neighbourhood and
    the value returned is the derivative of the function it computes. *)
Theorem C14_derivative : forall fuel h f x y',
  deriv R rops fuel h f x = Ok y' ->
  exists (g : R -> R) (eps : R), 0 < eps
    /\ (forall t, Rabs (t - x) < eps -> eval R rops fuel h f t = Ok (g t))
    /\ derivable_pt_lim g x y'.
Proof.
  intros fuel h f x y' E. destruct (deriv_correct fuel h f x y' E) as (g & [eps L] & D).
  exists g, eps. split; [apply cond_pos|]. split; [|now apply is_derive_Reals].
  intros t Ht. apply L. exact Ht.
Qed.

(** The logarithm of zero passes the check of the domain (x>=0). *)
Theorem C14_log_zero_refuted : exists h f,
  eval R rops 1 h f 0 = UB /\ deriv R rops 1 h f 0 = Err.
Proof.
  exists {| h_obj := fun j => if Nat.eqb j 0 then Some {| f_alpha := 1; f_beta := 1; f_meth := 0;
       f_pmode := PRedundant; f_type := Some (TLeaf LLog) |} else None; h_next := 1 |}, (Some 0%nat).
  cbn [eval deriv h_obj Nat.eqb f_type f_alpha f_beta rops s_mul eval_type deriv_type s_leaf s_dleaf eval_leaf deriv_leaf].
  rewrite Rmult_1_l. unfold check. split.
  - destruct (RlebP 0 0); [|lra]. destruct (ReqbP 0 0); [reflexivity|lra].
  - destruct (ReqbP 0 0); [reflexivity|lra].
Qed.

(** exp(x^2+1)*phi_2(x) composed with scaling; the program builds it and the derivative
    succeeds everywhere. *)
Definition ex_prog : list (op R) :=
  [OCreate _; OSetType _ 0 NRational; OSetNumerator _ 0 [1; 0; 1];
   OCreate _; OSetType _ 1 NExp; OSetScale _ 1 2 3;
   OCreate _; OSetType _ 2 NCombine; OSetChildren _ 2 CCompose 0 1;
   OCreate _; OSetType _ 3 NPhi; OSetPhiIndex _ 3 2;
   OCreate _; OSetType _ 4 NCombine; OSetChildren _ 4 CMul 2 3].
Example ex_C14 : exists h, steps R rops (empty_heap R) ex_prog = Ok h /\
  forall x, exists y', deriv R rops 3 h (Some 4%nat) x = Ok y'.
Proof.
  assert (S : forall ob, set_scale R rops ob 2 3
     = Ok {| f_alpha := 2; f_beta := 3; f_meth := f_meth R ob; f_pmode := f_pmode R ob; f_type := f_type R ob |}).
  { intros ob. unfold set_scale, check. cbn [rops s_eqb s_zero].
    destruct (ReqbP 2 0); [lra|]. destruct (ReqbP 3 0); [lra|]. reflexivity. }
  unfold ex_prog. cbn -[Reqb set_scale]. rewrite S. cbn -[Reqb].
  eexists. split; [reflexivity|]. intros x.
  cbn -[Reqb deriv_phi eval_phi horner_d exp].
  rewrite (eval_phi_ok 2) by (unfold MAX_INDEX; lia).
  assert (exists d, deriv_phi 2 (1 * (1 * x)) = Ok d) as [d ->].
  { unfold deriv_phi. destruct (ReqbP (1 * (1 * x)) 0).
    - apply rfact_def. lia.
    - cbn [Nat.leb Nat.add MAX_INDEX].
      destruct (phi_entry_def (1 * (1 * x)) 2) as [a ->]; [lia|].
      destruct (phi_entry_def (1 * (1 * x)) 3) as [b ->]; [lia|]. cbn [bind]. eauto. }
  cbn -[Reqb phi exp]. eauto.
Qed.
End C14.
Print Assumptions C14_derivative.
Print Assumptions C14_log_zero_refuted.

(** ** C17 *)
Local Open Scope nat_scope.
(** [h] is any heap built by a user program and [g] the object returned by FNDuplicate of [f].
    Objects of [h] have identities below [h_next h]; those created by the duplication are
    from there on. *)
Theorem C17_duplicate_same : forall K (o : sops K),
  s_eqb K o (s_one K o) (s_zero K o) = false ->
  forall prog h fuel f h' g,
  steps K o (empty_heap K) prog = Ok h -> live K h f = true ->
  duplicate K o fuel h (Some f) = Ok (h', g) ->
  (forall d x, eval K o d h' (Some g) x = eval K o d h (Some f) x)
  /\ (forall d x, deriv K o d h' (Some g) x = deriv K o d h (Some f) x)
  /\ (exists ob ob', h_obj K h f = Some ob /\ h_obj K h' g = Some ob' /\ f_meth K ob' = f_meth K ob
        /\ f_pmode K ob' = f_pmode K ob)
  /\ (forall i, i < h_next K h -> h_obj K h' i = h_obj K h i)
  /\ h_obj K h g = None.
Proof.
  intros K o H1 prog h fuel f h' g Hs Hl Hd.
  assert (Hh : heap_ok K o h) by (eapply steps_ok; eauto; apply empty_ok).
  assert (Hf : f < h_next K h).
  { apply (proj1 Hh). unfold live in Hl. destruct (h_obj K h f); congruence. }
  destruct (duplicate_spec K o fuel h (Some f) h' g Hh Hf Hd) as (A & B & C & D & E).
  split; [|split; [|split; [|split]]].
  - intros d x. symmetry. now apply eval_same.
  - intros d x. symmetry. now apply deriv_same.
  - specialize (E 1). simpl in E. unfold live in Hl. destruct (h_obj K h f) as [ob|]; [|discriminate].
    destruct (h_obj K h' g) as [ob'|]; [|contradiction]. destruct E as (E1 & E2 & E3 & E4 & _).
    exists ob, ob'. auto.
  - exact C.
  - destruct (h_obj K h g) eqn:Eg; auto. assert (g < h_next K h) by (apply (proj1 Hh); congruence). lia.
Qed.

(** Later calls that do not modify the copy (resp. the original) leave its values alone. *)
Theorem C17_duplicate_independent : forall K (o : sops K),
  s_eqb K o (s_one K o) (s_zero K o) = false ->
  forall prog h fuel f h' g later h'',
  steps K o (empty_heap K) prog = Ok h -> live K h f = true ->
  duplicate K o fuel h (Some f) = Ok (h', g) ->
  steps K o h' later = Ok h'' ->
  (List.Forall (fun c => forall i, target K c = Some i -> i < h_next K h \/ h_next K h' <= i) later ->
     forall d x, eval K o d h'' (Some g) x = eval K o d h (Some f) x)
  /\ (List.Forall (fun c => forall i, target K c = Some i -> h_next K h <= i) later ->
     forall j d x, j < h_next K h -> eval K o d h'' (Some j) x = eval K o d h (Some j) x).
Proof.
  intros K o H1 prog h fuel f h' g later h'' Hs Hl Hd Hs'.
  assert (Hh : heap_ok K o h) by (eapply steps_ok; eauto; apply empty_ok).
  assert (Hf : f < h_next K h).
  { apply (proj1 Hh). unfold live in Hl. destruct (h_obj K h f); congruence. }
  destruct (duplicate_spec K o fuel h (Some f) h' g Hh Hf Hd) as (A & B & C & D & E).
  split.
  - intros HF d x. transitivity (eval K o d h' (Some g) x); [|symmetry; now apply eval_same].
    symmetry. apply eval_same.
    apply (same_refl_on K (fun i => h_next K h <= i < h_next K h')).
    + intros i ob c [Hi1 Hi2] Ei Hc. specialize (D i ob c Hi1 Ei Hc).
      pose proof (heap_ok_closed K o h' A i ob c Hi2 Ei Hc). destruct c; simpl in *; auto.
    + intros i [Hi1 Hi2]. symmetry. apply (steps_frame K o H1 later h' h''); auto.
      eapply Forall_impl; [|exact HF]. intros c Hc Ht. specialize (Hc i Ht). lia.
    + simpl. lia.
  - intros HF j d x Hj. symmetry. apply eval_same.
    apply (same_refl_on K (fun i => i < h_next K h)).
    + apply (heap_ok_closed K o h Hh).
    + intros i Hi. rewrite <- (C i Hi). symmetry. apply (steps_frame K o H1 later h' h''); auto; [lia|].
      eapply Forall_impl; [|exact HF]. intros c Hc Ht. specialize (Hc i Ht). lia.
    + exact Hj.
Qed.

(** An object that can be evaluated somewhere can be duplicated. *)
Theorem C17_duplicate_succeeds : forall K (o : sops K),
  s_eqb K o (s_one K o) (s_zero K o) = false ->
  forall prog h fuel f x y,
  steps K o (empty_heap K) prog = Ok h -> live K h f = true ->
  eval K o fuel h (Some f) x = Ok y -> exists h' g, duplicate K o fuel h (Some f) = Ok (h', g).
Proof.
  intros K o H1 prog h fuel f x y Hs Hl He.
  assert (Hh : heap_ok K o h) by (eapply steps_ok; eauto; apply empty_ok).
  eapply duplicate_total; eauto. simpl. apply (proj1 Hh). unfold live in Hl. destruct (h_obj K h f); congruence.
Qed.

(** Over the natural numbers (no division used): a combine object with a shared child, whose
    numerator is changed after duplication. *)
Definition zops : sops nat :=
  {| s_zero := 0; s_one := 1; s_add := Nat.add; s_sub := Nat.sub; s_mul := Nat.mul; s_div := Nat.div;
     s_eqb := Nat.eqb; s_leaf := fun _ _ => Err; s_dleaf := fun _ _ => Err |}.
Definition ex_prog2 : list (op nat) :=
  [OCreate _; OSetType _ 0 NRational; OSetNumerator _ 0 [1; 0; 1];
   OCreate _; OSetType _ 1 NCombine; OSetChildren _ 1 CMul 0 0; OSetScale _ 1 2 3].
Example ex_C17 : exists h h' g h'',
  steps nat zops (empty_heap nat) ex_prog2 = Ok h /\ live nat h 1 = true
  /\ duplicate nat zops 2 h (Some 1) = Ok (h', g)
  /\ eval nat zops 2 h (Some 1) 1 = Ok 75
  /\ steps nat zops h' [OSetNumerator _ 0 [7]] = Ok h''
  /\ eval nat zops 2 h'' (Some g) 1 = Ok 75 /\ eval nat zops 2 h'' (Some 1) 1 = Ok 147.
Proof. do 4 eexists. repeat (split; [reflexivity|]). reflexivity. Qed.
Print Assumptions C17_duplicate_same.
Print Assumptions C17_duplicate_independent.
Print Assumptions C17_duplicate_succeeds.
