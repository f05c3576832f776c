(** The ST object refines the abstract object: every call, and every history. *)
From mathcomp Require Import all_ssreflect all_algebra zify.
From Verif Require Import Prelude STModel STSpec STProofs STProofs2 STProofs3 STProofs4.
Set Implicit Arguments. Unset Strict Implicit. Unset Printing Implicit Defensive.
Import GRing.Theory.
Local Open Scope ring_scope.

Section P.
Variable K : fieldType.
Hypothesis two : 2%:R != 0 :> K.
Variable conj : {rmorphism K -> K}.
Hypothesis conjK : involutive conj.
Variable n : nat.
Notation mat := 'M[K]_n.
Notation vec := 'cV[K]_n.
Notation heap := (heap K n).
Notation world := (world K n).
Implicit Types (h : heap) (L : seq ptr) (p q : ptr) (w : world).

Arguments maxpy : simpl never.
Arguments assign : simpl never.
Arguments hdense : simpl never.
Arguments hobj : simpl never.
Arguments hdestroy : simpl never.
Arguments halloc : simpl never.
Arguments hset : simpl never.
Arguments href : simpl never.

Ltac gen_nb := repeat match goal with |- context [nat_of_bool ?b] => let k := fresh "k" in
  set k := nat_of_bool b; clearbody k end.
Ltac perm := apply: own_perm; [eassumption | clear; move=> ? /=; gen_nb; lia].
Ltac inl := by rewrite ?inE ?eqxx ?orbT.
Ltac flat := rewrite /set_sigset /set_sigma /set_nu /set_nuset /set_t0 /set_state /set_opready /set_hp;
  cbn [hp ty mode sigma sigset defsig transf state opready opmade nmat a0 a1 t0 t1 pp mm ksp nu nuset bal u0 u1].

Lemma state_eqP (x y : ststate) : reflect (x = y) (state_eq x y).
Proof. by case: x; case: y; constructor. Qed.
Lemma type_eqP (x y : sttype) : reflect (x = y) (sttype_eq x y).
Proof. by case: x; case: y; constructor. Qed.
Lemma mode_eqP (x y : matmode) : reflect (x = y) (mode_eq x y).
Proof. by case: x; case: y; constructor. Qed.

(** Only the shift (antishift) is stored. *)
Lemma rel_sigma w built ms g : rel w built ms -> opready w = false ->
  rel (set_sigset true (set_sigma g w)) built ms.
Proof.
case: w => h ty md sg ss df tr st rd mk nm x0 x1 y0 y1 p m kk v vs bl v0 v1 R /= Er; subst rd; flat.
have T := r_T R; have /= A := r_A R; case: R => *; constructor=> //=.
- by move=> a b E; rewrite (A _ _ E) /shiftedw /= andbF.
- move=> a b E Hst; have := T _ _ E Hst; rewrite /tstruct /=; case: (ty) => /=.
  + by case=> A1 A2 _; split=> //; exact: slot_old A2.
  + by case=> A1 A2 _; split=> //; exact: slot_old A2.
  + by case=> A1 A2 A3 _; split=> //; exact: slot_old A2.
Qed.
Lemma rel_sigset w built ms : rel w built ms -> rel (set_sigset true w) built ms.
Proof.
case: w => h ty md sg ss df tr st rd mk nm x0 x1 y0 y1 p m kk v vs bl v0 v1 R; flat.
by case: R => *; constructor.
Qed.
Lemma rel_nuset w built ms : rel w built ms -> rel (set_nuset true w) built ms.
Proof.
case: w => h ty md sg ss df tr st rd mk nm x0 x1 y0 y1 p m kk v vs bl v0 v1 R; flat.
by case: R => *; constructor.
Qed.

Lemma setshift_step w built ms g : rel w built ms -> legal conj (abs w built ms) (OShift n g) ->
  refines (step conj w (OShift n g)) (s_step conj (abs w built ms) (OShift n g)).
Proof.
move=> R; rewrite /legal /s_step /step /setshift; cbn [s_sigma s_ready s_state s_ty s_nuset s_nu abs].
case: (eqVneq (sigma w) g) => [Eg _|Ng] /=.
  rewrite andbF /=; exists (set_sigset true w), built, ms; split=> //; first exact: rel_sigset.
  by rewrite /abs /= Eg.
case: state_eqP => Es /=; last first.
  rewrite orbF => /negbTE Er.
  have -> : (match state w with SetUp => match ty w with Shift => setshift_shift w g
      | Sinvert => setshift_sinvert w g | Cayley => setshift_cayley w g end | _ => Ok w end) = Ok w by case: (state w) Es.
  by exists (set_sigset true (set_sigma g w)), built, ms; split=> //; exact: rel_sigma.
have Er := r_setup R Es; rewrite Er Es /=.
case: ms R => [[a b]|] R; last by have [_ _ _ _] := r_none R (erefl _); rewrite Er.
case Et : (ty w) => /= Hg.
- have [w' [-> R' E']] := setshift_shift_ok g R Et Es.
  by exists (set_sigset true (set_sigma g w')), built, (Some (a, b)); split=> //; rewrite E' Et Es Er.
- have [w' [-> R' E']] := setshift_sinvert_ok g R Et Es.
  by exists (set_sigset true (set_sigma g w')), built, (Some (a, b)); split=> //; rewrite E' Et Es Er.
- have := setshift_cayley_ok two R Et Es (implyP Hg); rewrite /=.
  have -> : (if ~~ nuset w then g else nu w) = (if nuset w then nu w else g) by case: (nuset w).
  case: ifP => Had; last by move=> ->.
  case=> w' [-> R' E'].
  by exists (set_sigset true (set_sigma g w')), built, (Some (a, b)); split=> //; rewrite E' Et Es Er.
Qed.

Lemma antishift_step w built ms g : rel w built ms -> legal conj (abs w built ms) (OAntishift n g) ->
  refines (step conj w (OAntishift n g)) (s_step conj (abs w built ms) (OAntishift n g)).
Proof.
move=> R; rewrite /legal /s_step /step /antishift; cbn [s_nu s_ready s_state s_ty s_mode abs].
case Et : (ty w) => /=; [by exists w, built, ms; split=> //; rewrite /abs Et..|].
case: (eqVneq (nu w) g) => [Eg _|Ng] /=.
  exists (set_nuset true w), built, ms; split=> //; first exact: rel_nuset.
  by rewrite /abs /= Eg Et.
case Em : (mode_eq (mode w) Inplace); rewrite ?andbF ?andbT /=.
  move=> _; exists (set_nuset true (set_nu g w)), built, ms; split=> //; last by rewrite /abs /= Et.
  case: w R Et Ng Em => h ty md sg ss df tr st rd mk nm x0 x1 y0 y1 p m kk v vs bl v0 v1 R /= Et Ng Em; subst ty; flat.
  have T := r_T R; case: R => *; constructor=> //=.
  move=> a b E Hst; have := T _ _ E Hst; rewrite /tstruct /= /inplace Em.
  by case=> A1 A2 A3 A4; split.
rewrite /inplace Em /=.
case: state_eqP => Es /=.
  move=> Hr; exists (set_nuset true (set_nu g w)), built, ms; split=> //; last by rewrite /abs /= Et.
  have Er : opready w = false by apply/negbTE; move: Hr; rewrite orbF.
  case: w R Et Ng Em Es Er {Hr} => h ty md sg ss df tr st rd mk nm x0 x1 y0 y1 p m kk v vs bl v0 v1 R /= Et Ng Em Es Er.
  subst ty st rd; flat; have T := r_T R; case: R => *; constructor=> //=.
case: ms R => [[a b]|] R; last by have [_ _] := r_none R (erefl _).
have [U0 U1] := r_user R.
case: w R Et Ng Em Es U0 U1 => h ty md sg ss df tr st rd mk nm x0 x1 y0 y1 p m kk v vs bl v0 v1 R /= Et Ng Em Es U0 U1.
subst ty x0 x1 => Hr.
have [h' [s' [X [O C] [HA HB] [S0 S1] [Q1 Q2]]]] := recoef_ok g R Es Em.
rewrite X; cbn [bind]; exists (W h' Cayley md sg ss df tr st rd mk nm v0 v1 s' y1 p m kk g true bl v0 v1), built, (Some (a, b)).
split=> //.
have Em' : inplace md = false by [].
have T := r_T R; have Dm := r_def R; have Hn := r_nmat R; have Hd := r_dist R; have Bu := r_built R.
have Su := r_setup R; have Tr := r_tr R; have Bl := r_bal R.
constructor=> //=.
- by rewrite /slots /=; perm.
- move=> Q; have [/= T0 T1 _] := Bu Q.
  have := T _ _ (erefl _); rewrite /tstruct /= Em' => H.
  have [] := H; first by case: (st) Es => //; rewrite orbT.
  by case; rewrite T0.
- by move=> a' b' [<- _]; rewrite /shiftedw /= Em' HA.
- by move=> a' b' [_ <-].
- move=> a' b' [<- <-] Hst; have := T _ _ (erefl _) Hst; rewrite /tstruct /= Em' => -[A1 A2 A3 A4].
  case: (rd) Hr Q2 A4 S1 => /= Hr Q2 A4 S1.
    have Es' : s' = y0.
      apply: Q2 => //; case/orP: Hr => [/mode_eqP ->|/andP[]]; [by left|by right].
    by subst s'; split.
  by split=> //; exact: slot_old S0.
Qed.

End P.
