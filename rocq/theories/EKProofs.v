(** Expokit: lemmas. *)
From mathcomp Require Import all_ssreflect all_algebra.
From mathcomp Require Import zify ring.
From Verif Require Import Prelude EKModel EKSpec.
Set Implicit Arguments. Unset Strict Implicit. Unset Printing Implicit Defensive.
Import GRing.Theory Num.Theory Order.POrderTheory Order.TotalTheory. Local Open Scope ring_scope.

Section Proofs.
Variables (R : realFieldType) (X : lmodType R).
Variables (nrm : X -> R) (A : X -> X) (arnoldi : X -> arn R X) (expm : nat -> (nat -> nat -> R) -> nat -> nat -> R).
Variables (pw : R -> nat -> R) (decade ceil : R -> R).
Variables (m : nat) (tol tout sgn : R) (E : R -> X -> X).
Hypotheses (Hpw : root_spec pw) (Hdec : decade_spec decade) (Hceil : ceil_spec ceil).
Hypotheses (Hm : (1 < m)%N) (Htol : 0 < tol) (Htout : 0 < tout).
Notation next_step := (next_step pw decade ceil tol).
Notation estimate := (estimate nrm A expm m sgn).
Notation attempts := (attempts nrm A expm pw decade ceil m tol sgn).
Notation combine := (combine expm m sgn).
Notation step := (step nrm A arnoldi expm pw decade ceil m tol tout sgn).
Notation loop := (loop nrm A arnoldi expm pw decade ceil m tol tout sgn).

Lemma round_up_ok y : 0 < y -> y <= round_up decade ceil y <= y + y / 10%:R.
Proof.
move=> Hy; have [s0 s1] := Hdec Hy; have [c1 c2] := Hceil (y / decade y).
have e : y / decade y * decade y = y by rewrite divfK // gt_eqF.
rewrite /round_up; apply/andP; split; first by rewrite -{1}e ler_pmul2r.
have : ceil (y / decade y) * decade y <= (y / decade y + 1) * decade y by rewrite ler_pmul2r // ltW.
rewrite mulrDl e mul1r => /le_trans; apply; rewrite ler_add2l ler_pdivl_mulr ?ltr0n //.
by rewrite mulrC.
Qed.
Lemma gamma_pos : 0 < gamma R. Proof. by rewrite /gamma divr_gt0 // ltr0n. Qed.
Lemma delta_pos : 0 < delta R. Proof. by rewrite /delta divr_gt0 // ltr0n. Qed.
Lemma delta_ge1 : 1 <= delta R. Proof. by rewrite /delta ler_pdivl_mulr ?ltr0n // mul1r ler_nat. Qed.
Lemma dht h : 0 < h -> 0 <= delta R * h * tol.
Proof. by move=> Hh; apply: ltW; apply: mulr_gt0 => //; apply: mulr_gt0 => //; apply: delta_pos. Qed.
Lemma next_pos h err d : 0 < h -> 0 < err -> (0 < d)%N -> 0 < next_step h err d.
Proof.
move=> Hh He Hd; rewrite /EKModel.next_step.
have z0 : 0 < h * tol / err by rewrite divr_gt0 // mulr_gt0.
have [p0 _] := Hpw Hd z0.
have y0 : 0 < gamma R * h * pw (h * tol / err) d by apply: mulr_gt0 => //; apply: mulr_gt0 => //; apply: gamma_pos.
by have /andP[H _] := round_up_ok y0; apply: lt_le_trans H.
Qed.
Lemma next_less h err d : 0 < h -> delta R * h * tol < err -> (0 < d)%N -> next_step h err d < h.
Proof.
move=> Hh He Hd; have ht : 0 < h * tol by rewrite mulr_gt0.
have He1 : h * tol <= err.
  by apply: le_trans (ltW He); rewrite -mulrA -{1}[h * tol]mul1r ler_pmul2r // delta_ge1.
have He0 : 0 < err by apply: lt_le_trans He1.
have z0 : 0 < h * tol / err by rewrite divr_gt0.
have [p0 p1] := Hpw Hd z0.
have {}p1 : pw (h * tol / err) d <= 1 by apply: p1; rewrite ler_pdivr_mulr // mul1r.
have gh : 0 < gamma R * h by apply: mulr_gt0 => //; apply: gamma_pos.
have y0 : 0 < gamma R * h * pw (h * tol / err) d by rewrite mulr_gt0.
have y1 : gamma R * h * pw (h * tol / err) d <= gamma R * h by rewrite -[leRHS]mulr1 ler_pmul2l.
have /andP[_ H] := round_up_ok y0; rewrite /EKModel.next_step.
apply: le_lt_trans H _; apply: (@le_lt_trans _ _ (gamma R * h + gamma R * h / 10%:R)).
  by rewrite ler_add // ler_pmul2r // invr_gt0 ltr0n.
have -> : gamma R * h + gamma R * h / 10%:R = 99%:R / 100%:R * h by rewrite /gamma; field.
by rewrite -[ltRHS]mul1r ltr_pmul2r // ltr_pdivr_mulr ?ltr0n // mul1r ltr_nat.
Qed.
Lemma estimate_ok kk a beta h : 0 <= (estimate kk a beta h).1 /\ (0 < (estimate kk a beta h).2)%N.
Proof.
rewrite /EKModel.estimate; move: (normr_ge0 (beta * Kcol expm m sgn kk a h m)).
move: (normr_ge0 (beta * Kcol expm m sgn kk a h m.+1 * nrm (A (aV a m)))).
move: (Num.norm _) (Num.norm _) => p2 p1 q2 q1.
case: ifP => _ /=; first by split; last lia.
case: ifP => H /=; last by split; last lia.
by split; [rewrite divr_ge0 ?mulr_ge0 // subr_ge0 ltW|lia].
Qed.
Lemma attempts_ok n kk a beta h d : 0 < h -> (0 < d)%N ->
  let: (hK, h', err, d', ok) := attempts n kk a beta h d in
  [/\ 0 < h' <= h, 0 <= err, (0 < d')%N, (kk = 0%N -> [/\ hK = h, h' = h & ok]) &
      ok -> hK = h' /\ (kk = 0%N \/ err = (estimate kk a beta h').1 /\ err <= delta R * h' * tol)].
Proof.
elim: n h d => [|n IH] h d Hh Hd /=; case: eqP => [->|K0].
1,3: by rewrite Hh lexx ltW //; split=> //; split=> //; left.
- have [] := estimate_ok kk a beta h; case E1: (estimate kk a beta h) => [err d'] /= e0 d0.
  case: ifP => C; first by rewrite Hh lexx; split=> // _; split=> //; right; rewrite E1.
  have C' : delta R * h * tol < err by rewrite ltNge C.
  have ep : 0 < err by apply: le_lt_trans C'; apply: dht.
  by split=> //; rewrite next_pos // ltW // next_less.
have [] := estimate_ok kk a beta h; case E1: (estimate kk a beta h) => [err d'] /= e0 d0.
case: ifP => C; first by rewrite Hh lexx; split=> // _; split=> //; right; rewrite E1.
have C' : delta R * h * tol < err by rewrite ltNge C.
have ep : 0 < err by apply: le_lt_trans C'; apply: dht.
have := IH _ d' (next_pos Hh ep d0) d0.
case: (attempts _ _ _ _ _ _) => [[[[hK h'] er] dd] ok] [/andP[a1 a2] a3 a4 a5 a6]; split=> //.
by rewrite a1 (le_trans a2) // ltW // next_less.
Qed.

Hypotheses (Hn : norm_spec nrm) (HE : contractive_flow nrm E).
Hypothesis Hrel : forall x h, 0 < h -> let a := arnoldi x in
  if abrk a then combine 0 a (nrm x) h = E h x
  else nrm (combine 2 a (nrm x) h - E h x) <= (estimate 2 a (nrm x) h).1.
Variable b : X.

Definition inv (s : state R X) : Prop :=
  [/\ 0 <= tnow s <= tout, (forall t, tnew s = Some t -> tnow s < tout -> 0 < t), (0 < sd s)%N,
      (tnow s < tout -> k1 s = 2%N) & ex s = false -> nrm (sx s - E (tnow s) b) <= delta R * tol * tnow s].
Lemma step_ok s : inv s -> tnow s < tout -> inv (step s).
Proof.
case: s => x t tn d k e [/= /andP[t0 t1] H1 H2 H3 H4] Hlt; have {}H3 := H3 Hlt; rewrite /EKModel.step; move: mxrej => N; rewrite /= H3.
set kk := if abrk _ then _ else _; set h1 := if abrk _ then _ else _.
have h1p : 0 < h1 <= tout - t.
  have r0 : 0 < tout - t by rewrite subr_gt0.
  rewrite /h1; case: abrk; first by rewrite r0 lexx.
  case E1: tn H1 => [tn'|] H1; last by rewrite r0 lexx.
  by rewrite lt_minr r0 (H1 tn') // le_minl lexx.
case/andP: h1p => p1 p2.
have := @attempts_ok N kk (arnoldi x) (nrm x) h1 d p1 H2.
case: (attempts _ _ _ _ _ _) => [[[[hK h'] er] dd] ok] [/andP[a1 a2] a3 a4 a5 a6].
split; rewrite /=.
- by rewrite addr_ge0 ?(ltW a1) //= -ler_subr_addl (le_trans a2).
- by move=> u; case: eqP => // /eqP er0 [<-] _; apply: next_pos => //; rewrite lt_def er0.
- by [].
- move=> L; move: a5; rewrite /kk /h1; case: abrk => // a5.
  by case: (a5 erefl) => _ E1 _; move: L; rewrite E1 addrC subrK ltxx.
move=> /norP; rewrite negbK => -[/negbTE e0 oK]; have [E1 D] := a6 oK; rewrite E1.
have {}H4 := H4 e0; case: HE => _ Ea Ec; case: Hn => n0 ntri _.
have h0 : 0 <= h' by apply: ltW.
rewrite Ea //.
have -> : combine kk (arnoldi x) (nrm x) h' - E h' (E t b) =
   (combine kk (arnoldi x) (nrm x) h' - E h' x) + (E h' x - E h' (E t b)) by rewrite addrA subrK.
have L : nrm (combine kk (arnoldi x) (nrm x) h' - E h' x) <= delta R * h' * tol.
  have := Hrel x a1; move: D; rewrite /kk /=; case: abrk => [_ ->|]; last by case=> // -[<- D]; move/le_trans; apply.
  by rewrite subrr n0; apply: dht.
apply: le_trans (ntri _ _) _; apply: le_trans (ler_add L (le_trans (Ec _ _ _ h0) H4)) _.
by rewrite le_eqVlt; apply/orP; left; apply/eqP; ring.
Qed.
Lemma loop_ok n its mx s s' its' r : inv s -> tnow s < tout -> (its < mx)%N -> loop n its mx s = Ok (s', its', r) ->
  [/\ inv s', (its < its' <= mx)%N & if r is ConvergedTol then tnow s' = tout /\ (its' < mx)%N else its' = mx].
Proof.
elim: n its s => //= n IH its s Hi Hs Hm'; have Hi' := step_ok Hi Hs; case: eqP => [E1|E1].
  by case=> <- <- <-; split=> //; rewrite E1 leqnn andbT; lia.
case: ifP => C.
  case=> <- <- <-; split=> //; first lia.
  split; last lia.
  by apply/eqP; rewrite eq_le C andbT; case: Hi' => /andP[].
move/IH; case=> //; [by rewrite ltNge C|lia|] => i1 i2 i3; split=> //; lia.
Qed.
End Proofs.

Lemma loop_ends (R : realFieldType) (X : lmodType R) nrm A arnoldi expm pw decade ceil m tol tout sgn n its mx (s : state R X) :
  (its < mx <= its + n)%N -> exists y, @loop R X nrm A arnoldi expm pw decade ceil m tol tout sgn n its mx s = Ok y.
Proof.
elim: n its s => [|n IH] its s; first lia.
move=> H; rewrite [loop _ _ _ _ _ _ _ _ _ _ _ _ _ _ _]/=; case: eqP => [_|E1]; first by eexists.
case: ifP => _; first by eexists.
by apply: IH; lia.
Qed.
