(** The ST object refines the abstract object: every call, and every history. *)
From mathcomp Require Import all_ssreflect all_algebra zify.
From Verif Require Import Prelude STModel STSpec STProofs STProofs2 STProofs3 STProofs4 STProofs5 STProofs6.
Set Implicit Arguments. Unset Strict Implicit. Unset Printing Implicit Defensive.
Import GRing.Theory.
Local Open Scope ring_scope.

Section P.
Variable K : fieldType.
Hypothesis two : 2%:R != 0 :> K.
Variable conj : {rmorphism K -> K}.
Hypothesis conjK : involutive conj.
Variable n : nat.
Notation mat := 'M[K]_n.
Notation vec := 'cV[K]_n.
Notation heap := (heap K n).
Notation world := (world K n).
Implicit Types (h : heap) (L : seq ptr) (p q : ptr) (w : world).

Arguments maxpy : simpl never.
Arguments assign : simpl never.
Arguments hdense : simpl never.
Arguments hobj : simpl never.
Arguments hdestroy : simpl never.
Arguments halloc : simpl never.
Arguments hset : simpl never.
Arguments href : simpl never.

Ltac gen_nb := repeat match goal with |- context [nat_of_bool ?b] => let k := fresh "k" in
  set k := nat_of_bool b; clearbody k end.
Ltac perm := apply: own_perm; [eassumption | clear; move=> ? /=; gen_nb; lia].
Ltac inl := by rewrite ?inE ?eqxx ?orbT.
Ltac flat := rewrite /set_sigset /set_sigma /set_nu /set_nuset /set_t0 /set_state /set_opready /set_hp;
  cbn [hp ty mode sigma sigset defsig transf state opready opmade nmat a0 a1 t0 t1 pp mm ksp nu nuset bal u0 u1].


(** ** Configuration *)

Lemma type_step w built ms t : rel w built ms -> legal conj (abs w built ms) (OType _ n t) ->
  refines (step conj w (OType _ n t)) (s_step conj (abs w built ms) (OType _ n t)).
Proof.
move=> R; rewrite /legal /s_step /step /settype; cbn [abs s_ty s_mode s_ready].
case: (type_eqP (ty w) t) => /= [_ _|Et Hs]; first by exists w, built, ms.
case: t Et => Et; (eexists; exists built, ms; split; [reflexivity| |reflexivity]);
  by have Hb := r_bal R; apply: (rel_reconf R Hs) => //=.
Qed.
Lemma mode_step w built ms t : rel w built ms -> legal conj (abs w built ms) (OMode _ n t) ->
  refines (step conj w (OMode _ n t)) (s_step conj (abs w built ms) (OMode _ n t)).
Proof.
move=> R; rewrite /legal /s_step /step /setmode; cbn [abs s_ty s_mode s_ready].
case: (mode_eqP (mode w) t) => /= [_ _|Et Hs]; first by exists w, built, ms.
eexists; exists built, ms; split; [reflexivity| |reflexivity].
by have Hb := r_bal R; apply: (rel_reconf R Hs) => //=.
Qed.
Lemma transform_step w built ms t : rel w built ms -> legal conj (abs w built ms) (OTransform _ n t) ->
  refines (step conj w (OTransform _ n t)) (s_step conj (abs w built ms) (OTransform _ n t)).
Proof.
move=> R; rewrite /legal /s_step /step /settransf; cbn [abs s_ty s_mode s_ready s_transf].
case: (transf w == t) => /= Hs; first by exists w, built, ms.
eexists; exists built, ms; split; [reflexivity| |reflexivity].
by have Hb := r_bal R; apply: (rel_reconf R Hs) => //=.
Qed.
Lemma default_step w built ms g : rel w built ms -> legal conj (abs w built ms) (ODefault n g) ->
  refines (step conj w (ODefault n g)) (s_step conj (abs w built ms) (ODefault n g)).
Proof.
move=> R; rewrite /legal /s_step /step /setdefault; cbn [abs s_ty s_mode s_ready s_def].
case: (defsig w == g) => /= Hs; first by exists w, built, ms.
eexists; exists built, ms; split; [reflexivity| |reflexivity].
by have Hb := r_bal R; apply: (rel_reconf R Hs) => //=.
Qed.
Lemma balance_step w built ms d : rel w built ms -> legal conj (abs w built ms) (OBalance d) ->
  refines (step conj w (OBalance d)) (s_step conj (abs w built ms) (OBalance d)).
Proof.
move=> R; rewrite /legal /s_step /step /setbalance; cbn [abs s_ty s_mode s_ready s_bal].
case/andP=> Hd; case: ((bal w == None) && (d == None)) => /= Hs; first by exists w, built, ms.
eexists; exists built, ms; split; [reflexivity| |reflexivity].
by have Hb := r_bal R; apply: (rel_reconf R Hs) => //=.
Qed.

(** ** Set up, operator, product *)

Lemma setup_step w built ms : rel w built ms -> legal conj (abs w built ms) (OSetUp _ n) ->
  refines (step conj w (OSetUp _ n)) (s_step conj (abs w built ms) (OSetUp _ n)).
Proof.
move=> R Ht; have := setup_ok R Ht; rewrite /s_step /step /unit_.
case: (s_setup _) => [s'|||] /=; [|by case=> // ? ->..].
by case=> w' [-> R' -> _ _]; exists w', true, ms.
Qed.
Lemma getoperator_step w built ms : rel w built ms -> legal conj (abs w built ms) (OGetOperator _ n) ->
  refines (step conj w (OGetOperator _ n)) (s_step conj (abs w built ms) (OGetOperator _ n)).
Proof.
move=> R /andP[_ Hu]; have := getoperator_ok R Hu; rewrite /s_step /step /unit_; cbn [abs s_mats s_made].
case: ms R Hu => [m|] R Hu /=; last by case=> _ ->.
case: (opmade w) => /=; first by case=> w' [b' [-> R' -> _]]; exists w', b', (Some m).
case: (s_compute _) => [s'|||] /=; [|by case=> // ? ->..].
by case=> w' [b' [-> R' -> _]]; exists w', b', (Some m).
Qed.
Lemma postsolve_step w built ms : rel w built ms -> legal conj (abs w built ms) (OPostSolve _ n) ->
  refines (step conj w (OPostSolve _ n)) (s_step conj (abs w built ms) (OPostSolve _ n)).
Proof.
move=> R Hl; have [w' [E R' A]] := postsolve_ok R Hl; rewrite /s_step /step /unit_ E /=.
by exists w', built, ms; split=> //; rewrite A.
Qed.

Lemma s_setup_params (s s' : sst K n) : s_setup s = Ok s' ->
  [/\ s_ty s' = s_ty s, s_mode s' = s_mode s, s_sigma s' = (if s_ready s then s_sigma s else eff_sigma s),
      s_nu s' = (if s_ready s then s_nu s else eff_nu s) & s_mats s' = s_mats s].
Proof.
case: s => ty md sg ss df tr st rd mk bu ms v vs bl; rewrite /s_setup /s_compute.
cbn [s_mats s_ready s_ty s_mode s_sigma s_nu]; case: ms => //= m; case: rd => /=; first by case=> <-.
by case: admissible => //= -[<-].
Qed.
Lemma real_after w built ms w' s' : real_cayley conj (abs w built ms) -> s_setup (abs w built ms) = Ok s' ->
  with_made s' = abs w' true ms -> realw conj w'.
Proof.
move=> H /s_setup_params [E1 E2 E3 E4 E5] Q; rewrite /realw.
have -> : ty w' = s_ty s' by rewrite -[ty w']/(s_ty (abs w' true ms)) -Q.
have -> : mode w' = s_mode s' by rewrite -[mode w']/(s_mode (abs w' true ms)) -Q.
have -> : nu w' = s_nu s' by rewrite -[nu w']/(s_nu (abs w' true ms)) -Q.
have -> : sigma w' = s_sigma s' by rewrite -[sigma w']/(s_sigma (abs w' true ms)) -Q.
rewrite E1 E2 E3 E4 => T I; move: H; rewrite /real_cayley T I /= => /eqP; exact.
Qed.

Lemma apply_gen w built ms x (f : world -> vec -> res vec) (F : mat -> vec -> vec) :
  rel w built ms -> unused (abs w built ms) -> transf w ->
  (forall w' s' a b, rel w' true (Some (a, b)) -> opready w' -> s_setup (abs w built ms) = Ok s' ->
     with_made s' = abs w' true ms -> ms = Some (a, b) ->
     f w' x = if den (ty w') (sigma w') a b \in unitmx
              then Ok (F (operator (ty w') (sigma w') (nu w') a b (bal w')) x) else Err) ->
  refines (do '(w, y) <- (do w <- getoperator w; do w <- setup w; do y <- f w x; Ok (w, y)); Ok (w, Vec y))
    (s_apply (abs w built ms) F x).
Proof.
move=> R Hu Ht Hf; have := prepare_ok R Hu Ht; rewrite /s_apply.
have E0 (k : world -> res (world * vec)) : (do w <- getoperator w; do w <- setup w; k w) =
  (do w <- (do w <- getoperator w; setup w); k w) by case: (getoperator w).
rewrite E0; case Es : (s_setup _) => [s'|||]; cbn [bind]; [|by case=> // ? -> ..].
case=> w' [-> R' A' Hr]; cbn [bind].
have [_ _ _ _ E5] := s_setup_params Es.
case: ms R Hu Hf E0 Es R' A' E5 => [[a b]|] R Hu Hf E0 Es R' A' E5; last first.
  by move: Es; rewrite /s_setup.
rewrite E5; cbn [abs s_mats]; rewrite (Hf w' s' a b) //.
have -> : s_ty s' = ty w' by rewrite -[ty w']/(s_ty (abs w' true (Some (a, b)))) -A'.
have -> : s_nu s' = nu w' by rewrite -[nu w']/(s_nu (abs w' true (Some (a, b)))) -A'.
have -> : s_sigma s' = sigma w' by rewrite -[sigma w']/(s_sigma (abs w' true (Some (a, b)))) -A'.
have -> : s_bal s' = bal w' by rewrite -[bal w']/(s_bal (abs w' true (Some (a, b)))) -A'.
case: (_ \in unitmx) => //=.
by exists w', true, (Some (a, b)).
Qed.

Lemma apply_step w built ms x : rel w built ms -> legal conj (abs w built ms) (OApply x) ->
  refines (step conj w (OApply x)) (s_step conj (abs w built ms) (OApply x)).
Proof.
move=> R /andP[Ht Hu].
apply: (@apply_gen w built ms x (fun w x => if bal w is Some d then do y <- apply_generic conj w (pdiv x d); Ok (pmul y d)
           else apply_generic conj w x) (fun m x => m *m x)) => // w' s' a b R' Hr _ _ _.
exact: balanced_ok.
Qed.
Lemma applyT_step w built ms x : rel w built ms -> legal conj (abs w built ms) (OApplyT x) ->
  refines (step conj w (OApplyT x)) (s_step conj (abs w built ms) (OApplyT x)).
Proof.
move=> R /and3P[Ht Hu Hc].
apply: (@apply_gen w built ms x (fun w x => if bal w is Some d then do y <- apply_genericT conj w (pmul x d); Ok (pdiv y d)
           else apply_genericT conj w x) (fun m x => m^T *m x)) => // w' s' a b R' Hr Es Ea _.
by apply: balancedT_ok => //; exact: real_after Hc Es Ea.
Qed.
Lemma applyH_step w built ms x : rel w built ms -> legal conj (abs w built ms) (OApplyH x) ->
  refines (step conj w (OApplyH x)) (s_step conj (abs w built ms) (OApplyH x)).
Proof.
move=> R /and3P[Ht Hu Hc].
apply: (@apply_gen w built ms x (fun w x => if bal w is Some d then do y <- apply_genericH conj w (pmul x (conjm conj d)); Ok (pdiv y (conjm conj d))
           else apply_genericH conj w x) (fun m x => (map_mx conj m)^T *m x)) => // w' s' a b R' Hr Es Ea _.
by apply: balancedH_ok => //; exact: real_after Hc Es Ea.
Qed.

(** ** Every call, every history *)

Lemma step_ok w built ms o : rel w built ms -> legal conj (abs w built ms) o ->
  refines (step conj w o) (s_step conj (abs w built ms) o).
Proof.
case: o => [t|m|b|g|g|g|d|a b|a b||||x|x|x|||] R Hl.
- exact: type_step.
- exact: mode_step.
- exact: transform_step.
- exact: setshift_step.
- exact: default_step.
- exact: antishift_step.
- exact: balance_step.
- exact: matrices_step.
- exact: update_step.
- exact: setup_step.
- exact: getoperator_step.
- exact: postsolve_step.
- exact: apply_step.
- exact: applyT_step.
- exact: applyH_step.
- by exists w, built, ms.
- rewrite /s_step /step /=; case: ms R Hl => [[a b]|] R Hl.
    rewrite (r_A R (erefl _)) /=; exists w, built, (Some (a, b)); split=> //.
    by rewrite scaleNr.
  by have [_ [_ _ -> _] _ _ _] := r_none R (erefl _).
- rewrite /s_step /step /=; case: ms R Hl => [[a [b|]]|] R Hl.
  + by have /= -> := r_B R (erefl _); exists w, built, (Some (a, Some b)).
  + by have /= -> := r_B R (erefl _).
  + by have [_ [_ _ _ ->] _ _ _] := r_none R (erefl _).
Qed.

Definition answers (A B : Type) (r : res (A * B)) : res B := do '(_, l) <- r; Ok l.

Lemma run_ok os w built ms : rel w built ms -> legal_run conj (abs w built ms) os ->
  answers (run conj w os) = answers (s_run conj (abs w built ms) os) /\
  (answers (run conj w os) = Err \/ exists l, answers (run conj w os) = Ok l).
Proof.
elim: os w built ms => [|o os IH] w built ms R /=; first by split=> //; right; exists [::].
case/andP=> Hl; have := step_ok R Hl; rewrite /refines.
case: (s_step _ _ _) => [[s' ans]|||]; [|by case=> // ? -> _; split=> //; left..].
case=> w' [b' [m' [-> R' ->]]] /(IH _ _ _ R') /=.
rewrite /answers; case: (run conj w' os) => [[w2 l2]|||]; case: (s_run _ _ _) => [[s2 l2']|||] //= [] [E]; case=> //.
by move=> _; rewrite E; split=> //; right; exists (ans :: l2').
Qed.

Lemma rel_create t : rel (create K n t) false None.
Proof. by constructor. Qed.

End P.
