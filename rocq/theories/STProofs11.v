From mathcomp Require Import all_ssreflect all_algebra zify.
(** Concrete histories outside the covered ones: what the object answers and what it should answer. *)
From Verif Require Import Prelude STModel STSpec STProofs STProofs2 STProofs3 STProofs7.
Set Implicit Arguments. Unset Strict Implicit. Unset Printing Implicit Defensive.
Import GRing.Theory.
Local Open Scope ring_scope.
Section P.
Variable n : nat.
Variable K : fieldType.
Variable conj : {rmorphism K -> K}.
Notation mat := 'M[K]_n.
Hypothesis two : 2%:R != 0 :> K.
Lemma one_opp : (1 == - 1 :> K) = false.
Proof. by apply: negbTE; rewrite -subr_eq0 opprK -(natrD _ 1 1). Qed.
Lemma opp_one : (- 1 == 1 :> K) = false.
Proof. by rewrite eq_sym one_opp. Qed.
Lemma run_cons (w w2 : world K n) o os x l : step conj w o = Ok (w2, x) ->
  answers (run conj w2 os) = Ok l -> answers (run conj w (o :: os)) = Ok (x :: l).
Proof. by move=> E /=; rewrite E /=; case: (run conj w2 os) => [[? ?] [<-]|||]. Qed.
Lemma bindE A B (r : res A) (k : A -> res B) a z : r = Ok a -> k a = z -> bind r k = z.
Proof. by move=> ->. Qed.
Lemma checkE A c (k z : res A) : c = true -> k = z -> check c k = z.
Proof. by move=> ->. Qed.
Ltac flat := cbv beta iota zeta delta [set_hp set_ty set_mode set_sigma set_sigset set_defsig set_transf set_state set_opready
  set_opmade set_nmat set_a0 set_a1 set_t0 set_t1 set_pp set_mm set_ksp set_nu set_nuset set_bal set_u0 set_u1
  hp ty mode sigma sigset defsig transf state opready opmade nmat a0 a1 t0 t1 pp mm ksp nu nuset bal u0 u1].
Ltac simp := cbn [hput upd cell nxt nth size leq subn subn_rec addn addn_rec maxn sttype_eq mode_eq state_eq eqn Equality.op nat_eqMixin 
  eq_op Equality.sort Equality.class nat_eqType option_eqType option_eqMixin opt_eq andb orb negb Nat.sub Nat.add Nat.max Nat.eqb arr isSome halloc user_new].
Ltac eqs := rewrite ?mul1r ?oppr0 ?eqxx ?oner_eq0 ?oppr_eq0 ?oner_eq0 ?(eq_sym (0:K) 1) ?oner_eq0 ?(eq_sym (0:K) (-1)) ?oppr_eq0 ?oner_eq0 ?one_opp ?opp_one ?opprK ?eqxx.
Ltac headof t := lazymatch t with ?f _ => headof f | _ => t end.
Ltac cond := match goal with |- ?c = _ => eqs; simp; eqs; simp end; reflexivity.
Lemma caset A (c : bool) (x y z : res A) : c = true -> x = z -> (if c then x else y) = z.
Proof. by move->. Qed.
Lemma casef A (c : bool) (x y z : res A) : c = false -> y = z -> (if c then x else y) = z.
Proof. by move->. Qed.
Ltac isb c := lazymatch c with true => idtac | false => idtac end.
Ltac ev :=
  lazymatch goal with
  | |- Ok _ = _ => try reflexivity
  | |- Err = _ => try reflexivity
  | |- UB = _ => try reflexivity
  | |- bind (Ok _) _ = _ => cbn [bind]; flat; ev
  | |- bind _ _ = _ => eapply bindE; [ev | flat; ev]
  | |- check _ _ = _ => eapply checkE; [cond | flat; ev]
  | |- (if ?c then _ else _) = _ => first [eapply caset; [cond | flat] | eapply casef; [cond | flat]]; ev
  | |- (match ?c with _ => _ end) = _ => progress simp; flat; ev
  | |- exact_solve _ _ = _ => idtac
  | |- axpys _ _ _ _ _ _ _ _ _ _ = _ => progress (simp; cbn [axpys]); flat; ev
  | |- ?t = _ => let h := headof t in unfold h; flat; ev
  end.
Ltac stp := eapply run_cons; [cbn [step]; simp; flat; ev |].

Lemma run_err (w : world K n) o os : step conj w o = Err -> answers (run conj w (o :: os)) = Err.
Proof. by move=> E /=; rewrite E. Qed.
Lemma run_ub (w : world K n) o os : step conj w o = UB -> answers (run conj w (o :: os)) = UB.
Proof. by move=> E /=; rewrite E. Qed.
Lemma run_err' (w w2 : world K n) o os x : step conj w o = Ok (w2, x) ->
  answers (run conj w2 os) = Err -> answers (run conj w (o :: os)) = Err.
Proof. by move=> E /=; rewrite E /=; case: (run conj w2 os) => [[]|||]. Qed.
Lemma run_ub' (w w2 : world K n) o os x : step conj w o = Ok (w2, x) ->
  answers (run conj w2 os) = UB -> answers (run conj w (o :: os)) = UB.
Proof. by move=> E /=; rewrite E /=; case: (run conj w2 os) => [[]|||]. Qed.
Ltac stpe := eapply run_err'; [cbn [step]; simp; flat; ev |].
Ltac stpu := eapply run_ub'; [cbn [step]; simp; flat; ev |].
Local Notation U := (Unit K n).
Local Notation go t os := (answers (run conj (create K n t) os)).
Local Notation sgo t os := (answers (s_run conj (s_create K n t) os)).


Lemma srun_cons (w w2 : sst K n) o os x l : s_step conj w o = Ok (w2, x) ->
  answers (s_run conj w2 os) = Ok l -> answers (s_run conj w (o :: os)) = Ok (x :: l).
Proof. by move=> E /=; rewrite E /=; case: (s_run conj w2 os) => [[? ?] [<-]|||]. Qed.
Ltac sflat := cbv beta iota zeta delta [s_ty s_mode s_sigma s_sigset s_def s_transf s_state s_ready s_made s_built s_mats s_nu s_nuset s_bal
  changed with_state with_made eff_nu eff_sigma admissible inplace shifted].
Ltac scond := match goal with |- ?c = _ => simp; eqs; simp end; reflexivity.
Ltac sev :=
  lazymatch goal with
  | |- Ok _ = _ => simp; eqs; simp; try reflexivity
  | |- Err = _ => try reflexivity
  | |- UB = _ => try reflexivity
  | |- bind (Ok _) _ = _ => cbn [bind]; sflat; sev
  | |- bind _ _ = _ => eapply bindE; [sev | sflat; sev]
  | |- check _ _ = _ => eapply checkE; [try scond | sflat; sev]
  | |- (if ?c then _ else _) = _ => first [eapply caset; [scond | sflat] | eapply casef; [scond | sflat]]; sev
  | |- (match ?c with _ => _ end) = _ => progress simp; sflat; sev
  | |- ?t = _ => let h := headof t in unfold h; sflat; sev
  end.
Ltac sstp := eapply srun_cons; [cbn [s_step]; simp; sflat; sev |].

Definition h1 (a : mat) : seq (op K n) := [:: OTransform K n true; OMode K n Inplace; OMatrices a None; OShift n (1:K); OSetUp K n; OType K n Sinvert; OReadA K n].
Lemma h1_run a : go Shift (h1 a) = Ok [:: U; U; U; U; U; U; Mat (a + (- 1)%:M)].
Proof. by rewrite /create /h1; do 7! stp. Qed.
Lemma h1_spec a : sgo Shift (h1 a) = Ok [:: U; U; U; U; U; U; Mat a].
Proof. rewrite /s_create /h1. do 7! sstp. by []. Qed.

Definition h2 (a : mat) x : seq (op K n) := [:: OTransform K n true; OMatrices a None; OGetOperator K n; OShift n (1:K); OApply x].
Lemma h2_run a x : go Shift (h2 a x) = Ok [:: U; U; U; U; Vec (a *m x)].
Proof. rewrite /create /h2; do 5! stp. by []. Qed.

Definition h3 (a : mat) : seq (op K n) := [:: OTransform K n true; OMatrices a None; OShift n (1:K); OSetUp K n; OShift n (-1)].



Lemma op_shift1 sg nu a : operator Shift sg nu a (None : option mat) None = a - sg *: 1%:M.
Proof. by rewrite /operator /den /num /second /= invmx1 mul1mx. Qed.
Lemma h2_spec a x : sgo Shift (h2 a x) = Ok [:: U; U; U; U; Vec ((a - 1%:M) *m x)].
Proof.
rewrite /s_create /h2; do 4! sstp.
eapply srun_cons; [cbn [s_step]; simp; sflat; sev | ]; [exact: unitmx1 | | by []].
by rewrite op_shift1 scale1r.
Qed.
Lemma h3_run a : go Cayley (h3 a) = Err.
Proof.
rewrite /create /h3. do 4! stpe. apply: run_err. cbn [step]; simp; flat.
rewrite /unit_ /setshift; flat; rewrite one_opp /setshift_cayley; flat.
by rewrite opprK eqxx oppr_eq0 oner_eq0.
Qed.
Lemma h3_spec a : sgo Cayley (h3 a) = Ok [:: U; U; U; U; U].
Proof. rewrite /s_create /h3; do 5! sstp; last by []. by rewrite /= one_opp /= oppr_eq0 oner_eq0 opprK opp_one. Qed.

Definition h4 (x : 'cV[K]_n) : seq (op K n) := [:: OTransform K n true; OMatrices 2%:R%:M None; OShift n (1:K); OAntishift n (0:K); OSetUp K n; OAntishift n (1:K); OApply x].
Lemma two_one : (2%:R%:M + (1 * -1)%:M)%R = 1%:M :> mat.
Proof. by rewrite mul1r -raddfD /= -[2%:R]/(1 + 1) addrK. Qed.
Lemma h4_run x : go Cayley (h4 x) = Ok [:: U; U; U; U; U; U; Vec (2%:R *: x)].
Proof.
rewrite /create /h4. do 7! stp; last by []. rewrite (exact_solve_mul (m := 1%:M)) ?unitmx1 ?invmx1 ?mul1mx //=.
  by rewrite mul_scalar_mx.
by rewrite two_one.
Qed.

Lemma op_cayley1 nu s x : operator Cayley s nu (1 + s)%:M (None : option mat) None *m x = (1 + s + nu) *: x :> 'cV[K]_n.
Proof.
rewrite /operator /den /num /second /= !scalemx1 -raddfB -raddfD /= addrK invmx1 mul1mx.
by rewrite mul_scalar_mx.
Qed.
Lemma den_cayley1 s : den Cayley s (1 + s)%:M (None : option mat) \in unitmx.
Proof. by rewrite /den /second scalemx1 -raddfB /= addrK unitmx1. Qed.
Lemma h4_spec x : sgo Cayley (h4 x) = Ok [:: U; U; U; U; U; U; Vec (3%:R *: x)].
Proof.
rewrite /s_create /h4 -[2%:R]/(1 + 1); do 6! sstp.
eapply srun_cons; [cbn [s_step]; simp; sflat; sev | ]; [exact: den_cayley1 | | by []].
by rewrite op_cayley1 -addrA.
Qed.

Definition h5 (x : 'cV[K]_n) : seq (op K n) := [:: OTransform K n true; OMatrices 2%:R%:M None; OShift n (1:K); OSetUp K n; OAntishift n (0:K); OApply x].
Lemma h5_run x : go Cayley (h5 x) = UB.
Proof.
rewrite /create /h5. do 5! stpu. apply: run_ub. cbn [step]; simp; flat.
by rewrite /apply /getoperator; flat; rewrite /check /=.
Qed.
Lemma h5_spec x : sgo Cayley (h5 x) = Ok [:: U; U; U; U; U; Vec (2%:R *: x)].
Proof.
rewrite /s_create /h5 -[2%:R]/(1 + 1); do 5! sstp.
eapply srun_cons; [cbn [s_step]; simp; sflat; sev | ]; [exact: den_cayley1 | | by []].
by rewrite op_cayley1 addr0.
Qed.

Definition h6 (a b : mat)  : seq (op K n) := [:: OTransform K n true; OMatrices a (Some b); OShift n (1:K); OSetUp K n; OType K n Sinvert; OGetOperator K n; OReadB K n].
Lemma h6_run (a b : mat)  : go Shift (h6 a b) = Ok [:: U; U; U; U; U; U; Mat 0].
Proof.
rewrite /create /h6. do 7! stp; last by [].
have -> : a + (1 * -1) *: a = 0 by rewrite mul1r scaleN1r subrr.
reflexivity.
Qed.
Lemma h6_spec (a b : mat)  : sgo Shift (h6 a b) = Ok [:: U; U; U; U; U; U; Mat b].
Proof. by rewrite /s_create /h6; do 7! sstp. Qed.
Definition h7 (a : mat)  : seq (op K n) := [:: OMode K n Inplace; OMatrices a None; OShift n (1:K); OPostSolve K n;  OReadA K n].
Lemma h7_run (a : mat)  : go Shift (h7 a) = Ok [:: U; U; U; U; Mat (a + 1%:M)].
Proof. rewrite /create /h7. do 5! stp. by []. Qed. 
Lemma h7_spec (a : mat)  : sgo Shift (h7 a) = Ok [:: U; U; U; U; Mat a].
Proof. by rewrite /s_create /h7; do 5! sstp. Qed.

Definition h8 (s : K) (x : 'cV[K]_n)  : seq (op K n) := [:: OTransform K n true; OMode K n Inplace; OMatrices (1 + s)%:M None; OShift n s; OSetUp K n; OApplyT x].
Ltac eqs ::= rewrite ?mul1r ?oppr0 ?eqxx ?oner_eq0 ?oppr_eq0 ?oner_eq0 ?(eq_sym (0:K) 1) ?oner_eq0 ?(eq_sym (0:K) (-1)) ?oppr_eq0 ?oner_eq0 ?one_opp ?opp_one ?opprK ?eqxx;
  repeat match goal with H : (_ == _) = false |- _ => progress rewrite H end.
Lemma h8_run (s : K) (x : 'cV[K]_n) : (0 == s) = false -> (s == - s) = false -> go Cayley (h8 s x) = Ok [:: U; U; U; U; U; Vec (x + conj (s + s) *: x)].
Proof. move=> E E'.
have E1 : (s == 0) = false by rewrite eq_sym.
have E2 : (- s == 0) = false by rewrite oppr_eq0.
have E3 : (1 + s)%:M + (- s)%:M = 1%:M :> mat by rewrite -raddfD /= addrK.
rewrite /create /h8. 
do 6! stp; [| |by []].
  by rewrite (exact_solve_mul (m := 1%:M)) ?unitmx1 ?invmx1 ?mul1mx // => y; rewrite E3 /= trmx1.
by rewrite E3 /= trmx1 mul1mx.
Qed.
Lemma h8_spec (s : K) (x : 'cV[K]_n) : (0 == s) = false -> (s == - s) = false -> sgo Cayley (h8 s x) = Ok [:: U; U; U; U; U; Vec (x + (s + s) *: x)].
Proof. move=> E E'.
have E1 : (s == 0) = false by rewrite eq_sym.
have E2 : (- s == 0) = false by rewrite oppr_eq0.
rewrite /s_create /h8; do 5! sstp.
eapply srun_cons; [cbn [s_step]; simp; sflat; sev | ]; [exact: den_cayley1 | | by []].
have -> : (operator Cayley s s (1 + s)%:M None None)^T = operator Cayley s s (1 + s)%:M None None :> mat.
  rewrite /operator /den /num /second /= !scalemx1 -raddfB -raddfD /= addrK invmx1 mul1mx.
  by rewrite tr_scalar_mx.
by rewrite op_cayley1 -addrA scalerDl scale1r.
Qed.

(** A covered history. *)
Lemma legal_cons (s s2 : sst K n) o os x : legal conj s o = true -> s_step conj s o = Ok (s2, x) ->
  legal_run conj s2 os -> legal_run conj s (o :: os).
Proof. by move=> /= -> ->. Qed.
Ltac leg := eapply legal_cons; [cbn [legal]; rewrite /unused /shifted /inplace; cbn [s_ty s_mode s_sigma s_sigset s_def s_transf s_state s_ready s_made s_built s_mats s_nu s_nuset s_bal]; cond
  | cbn [s_step]; simp; sflat; sev |].
Lemma legal_ex (a : mat) x : legal_run conj (s_create K n Shift) [:: OTransform K n true; OMode K n Inplace; OMatrices a None; OShift n 1; OSetUp K n;
  OApply x; OShift n (- 1); OApply x; OReadA K n; OPostSolve K n; OReadA K n].
Proof.
rewrite /s_create; do 5! leg.
leg; first exact: unitmx1.
leg. leg; first exact: unitmx1.
by do 3! leg.
Qed.
End P.
