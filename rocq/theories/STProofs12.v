(** Eigenpairs of the operator and of the problem; the polynomial problem as a whole. *)
From mathcomp Require Import all_ssreflect all_algebra zify.
From mathcomp Require Import algebra_tactics.ring.
From mathcomp Require Import complex.
From Verif Require Import Prelude STModel STSpec STProofs STProofs2 STProofs3 STProofs8 STProofs9 STProofs10.
Set Implicit Arguments. Unset Strict Implicit. Unset Printing Implicit Defensive.
Import GRing.Theory Num.Theory.
Local Open Scope ring_scope.

Section P.
Variable K : fieldType.
Variable conj : {rmorphism K -> K}.
Variable n : nat.
Notation mat := 'M[K]_n.
Notation vec := 'cV[K]_n.

Lemma inv_eig (D N : mat) th (x : vec) : D \in unitmx -> invmx D *m N *m x = th *: x <-> N *m x = th *: (D *m x).
Proof.
move=> U; split=> E.
  by rewrite -{1}(mulKVmx U (N *m x)) [invmx D *m _]mulmxA E -scalemxAr.
by rewrite -mulmxA E -scalemxAr mulKmx.
Qed.

(** The pencil: N x = th D x against A x = lam B x. *)
Lemma pencil t sg nu (a : mat) b th (x : vec) : finite_value t th -> separate t sg nu ->
  num t sg nu a b *m x = th *: (den t sg a b *m x) <-> a *m x = back t sg nu th *: (second b *m x).
Proof.
move=> F S; rewrite /num /den /back; set B := second b.
case: t F S => /= F S.
- rewrite mulmxBl -scalemxAl /back_shift scalerDl; split; last by move->; rewrite addrK.
  by move/eqP; rewrite subr_eq => /eqP.
- rewrite /back_sinvert div1r mulmxBl -scalemxAl scalerDl scalerBr; split=> [E|->].
    move/eqP: E; rewrite eq_sym subr_eq => /eqP E.
    by rewrite -(scalerK F (a *m x)) E scalerDr scalerK.
  by rewrite scalerDr (scalerA th) mulfV // scale1r addrK.
- rewrite /back_cayley mulmxBl mulmxDl -!scalemxAl.
  have F1 : th - 1 != 0 by rewrite subr_eq0.
  have Q : (a *m x + nu *: (B *m x) == th *: (a *m x - sg *: (B *m x))) =
           ((th - 1) *: (a *m x) == (nu + th * sg) *: (B *m x)).
    rewrite scalerBr scalerBl scale1r scalerDl scalerA -subr_eq0 -[RHS]subr_eq0 -oppr_eq0.
    rewrite (opprB (_ + _)); congr (_ == _); rewrite -?addrA.
    set u := a *m x; set p := nu *: _; set w := th *: u; set q := _ *: _.
    by rewrite !opprD; congr (_ + _); rewrite addrC addrA.
  split=> E.
    by move/eqP: E; rewrite Q => /eqP E; rewrite -(scalerK F1 (a *m x)) E scalerA mulrC.
  by apply/eqP; rewrite Q E scalerA mulrC divfK.
Qed.

Lemma theta_back t (sg nu th : K) : finite_value t th -> separate t sg nu -> theta t sg nu (back t sg nu th) = th.
Proof.
case: t => /= F S; rewrite /theta /back /back_shift /back_sinvert /back_cayley ?addrK //.
  by rewrite !div1r invrK.
have F1 : th - 1 != 0 by rewrite subr_eq0.
have S1 : nu + sg != 0 by rewrite addr_eq0.
have -> : (nu + th * sg) / (th - 1) + nu = th * (nu + sg) / (th - 1).
  by rewrite -{2}(mulfK F1 nu) -mulrDl; congr (_ / _); ring.
have -> : (nu + th * sg) / (th - 1) - sg = (nu + sg) / (th - 1).
  by rewrite -{2}(mulfK F1 sg) -mulrBl; congr (_ / _); ring.
by rewrite invf_div mulrA divfK // mulfK.
Qed.
Lemma back_theta t (sg nu lam : K) : separate t sg nu -> (if t is Shift then true else lam != sg) ->
  back t sg nu (theta t sg nu lam) = lam.
Proof.
case: t => /= S L; rewrite /theta /back /back_shift /back_sinvert /back_cayley ?subrK //.
  by rewrite !div1r invrK subrK.
have L1 : lam - sg != 0 by rewrite subr_eq0.
have S1 : nu + sg != 0 by rewrite addr_eq0.
have -> : (lam + nu) / (lam - sg) - 1 = (nu + sg) / (lam - sg).
  by rewrite -[X in _ - X](divff L1) -mulrBl; congr (_ / _); ring.
have -> : nu + (lam + nu) / (lam - sg) * sg = lam * (nu + sg) / (lam - sg).
  by rewrite -{1}(mulfK L1 nu) [_ / _ * sg]mulrAC -mulrDl; congr (_ / _); ring.
by rewrite invf_div mulrA divfK // mulfK.
Qed.
Lemma finite_theta t (sg nu lam : K) : separate t sg nu -> (if t is Shift then true else lam != sg) ->
  finite_value t (theta t sg nu lam).
Proof.
case: t => //= S L; have L1 : lam - sg != 0 by rewrite subr_eq0.
  by rewrite div1r invr_eq0.
rewrite -subr_eq0 -[X in _ - X](divff L1) -mulrBl mulf_neq0 ?invr_eq0 //.
have -> : lam + nu - (lam - sg) = nu + sg by ring.
by rewrite addr_eq0.
Qed.

Lemma dmx_eig (d : vec) (m : mat) th x : [forall i, d i 0 != 0] ->
  eig (dmx d *m m *m invmx (dmx d)) th x <-> eig m th (invmx (dmx d) *m x).
Proof.
move=> /dmx_unit U; rewrite /eig; split=> [[x0 E]|[x0 E]]; split.
- by apply: contraNN x0 => /eqP E0; rewrite -(mulKVmx U x) E0 mulmx0.
- have E2 : dmx d *m (m *m (invmx (dmx d) *m x)) = th *: x by rewrite !mulmxA.
  by rewrite -[LHS](mulKmx U) E2 -scalemxAr.
- by apply: contraNN x0 => /eqP ->; rewrite mulmx0.
- by rewrite -!mulmxA E -scalemxAr mulKVmx.
Qed.

Lemma eig_operator t sg nu (a : mat) b d th x : den t sg a b \in unitmx -> nonzero d ->
  eig (operator t sg nu a b d) th x <->
  unbalance d x != 0 /\ num t sg nu a b *m unbalance d x = th *: (den t sg a b *m unbalance d x).
Proof.
move=> U; rewrite /operator /unbalance; case: d => [d|] /= D.
  by rewrite dmx_eig // /eig; split=> [[? /(inv_eig _ _ _ U)]|[? /(inv_eig _ _ _ U)]].
by rewrite /eig; split=> [[? /(inv_eig _ _ _ U)]|[? /(inv_eig _ _ _ U)]].
Qed.

Lemma eig_geig t sg nu (a : mat) b d th x : den t sg a b \in unitmx -> nonzero d -> separate t sg nu ->
  finite_value t th ->
  eig (operator t sg nu a b d) th x <-> geig a (second b) (back t sg nu th) (unbalance d x).
Proof.
move=> U D S F; rewrite eig_operator // /geig.
by split=> -[? /(pencil _ _ _ F S)].
Qed.

Lemma geig_not_shift t sg (a : mat) b lam x : den t sg a b \in unitmx -> geig a (second b) lam x ->
  if t is Shift then true else lam != sg.
Proof.
move=> U [x0 E]; case: t U => //= U; apply: contraNneq x0 => L; rewrite -(mulKmx U x).
- by rewrite mulmxBl E L -scalemxAl subrr mulmx0.
- by rewrite mulmxBl E L -scalemxAl subrr mulmx0.
Qed.
End P.

(** ** Real scalars *)
Section Real.
Variable R : rcfType.
Local Open Scope complex_scope.
Notation rv e := (e.1 +i* e.2 : R[i]).

Lemma cdivE (a b c d : R) : (a +i* b) / (c +i* d) =
  ((a * c + b * d) / (c ^+ 2 + d ^+ 2)) +i* ((b * c - a * d) / (c ^+ 2 + d ^+ 2)) :> R[i].
Proof.
rewrite -[(c +i* d)^-1]/((c / (c ^+ 2 + d ^+ 2)) -i* (d / (c ^+ 2 + d ^+ 2))); set N := (_ + _)^-1.
by apply/eqP; rewrite eq_complex /=; apply/andP; split; apply/eqP; ring.
Qed.
Lemma rback_shiftE s (e : R * R) : rv (rback_shift s e) = back_shift s%:C (rv e).
Proof. by rewrite /rback_shift /back_shift; congr (_ +i* _); rewrite addr0. Qed.
Lemma rback_sinvertE s (e : R * R) : e != (0, 0) -> rv (rback_sinvert s e) = back_sinvert s%:C (rv e).
Proof.
case: e => r i; rewrite xpair_eqE /rback_sinvert /back_sinvert /= => N.
rewrite -[1 : R[i]]/(1 +i* 0) cdivE; have [i0|i0] := eqVneq i 0.
  move: N; rewrite i0 eqxx andbT /= => r0; congr (_ +i* _); last by rewrite !mul0r mulr0 subrr mul0r addr0.
  by rewrite !mul1r !mul0r !addr0 expr0n /= addr0 expr2 invfM mulrA divff // mul1r.
by congr (_ +i* _); rewrite ?mul1r ?mul0r ?addr0 ?sub0r -?expr2.
Qed.
Lemma rback_cayleyE s v (e : R * R) : e.2 = 0 -> e.1 != 1 ->
  rv (rback_cayley s v e) = back_cayley s%:C v%:C (rv e).
Proof.
case: e => r i /= -> r1; rewrite /rback_cayley /back_cayley /= eqxx.
have -> : v%:C + (r +i* 0) * s%:C = (v + r * s) +i* 0 :> R[i].
  by apply/eqP; rewrite eq_complex /= !mulr0 !mul0r !addr0 subr0 !eqxx.
have -> : (r +i* 0) - 1 = (r - 1) +i* 0 :> R[i] by apply/eqP; rewrite eq_complex /= subr0 !eqxx.
have D : r - 1 != 0 by rewrite subr_eq0.
rewrite cdivE !mul0r !mulr0 !addr0 subrr mul0r expr0n addr0; congr (_ +i* _).
by rewrite expr2 invfM !mulrA mulfK.
Qed.
(** What the formula should be. *)
Lemma cayley_true s v (r i : R) : (r, i) != (1, 0) ->
  back_cayley s%:C v%:C (r +i* i) =
  ((s * (r * r + i * i - r) + v * (r - 1)) / (i * i + r * (r - 2%:R) + 1)) +i*
  ((- s * i - v * i) / (i * i + r * (r - 2%:R) + 1)).
Proof.
move=> N; rewrite /back_cayley.
have -> : v%:C + (r +i* i) * s%:C = (v + r * s) +i* (i * s) :> R[i].
  by apply/eqP; rewrite eq_complex /=; apply/andP; split; apply/eqP; ring.
have -> : (r +i* i) - 1 = (r - 1) +i* i :> R[i] by apply/eqP; rewrite eq_complex /= subr0 !eqxx.
rewrite cdivE; have -> : (r - 1) ^+ 2 + i ^+ 2 = i * i + r * (r - 2%:R) + 1 by ring.
by congr (_ +i* _); congr (_ / _); ring.
Qed.
End Real.
