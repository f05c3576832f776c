(** Expokit: the properties. *)
From mathcomp Require Import all_ssreflect all_algebra.
From mathcomp Require Import zify ring.
From Verif Require Import Prelude EKModel EKSpec EKProofs.
Set Implicit Arguments. Unset Strict Implicit. Unset Printing Implicit Defensive.
Import GRing.Theory Num.Theory Order.POrderTheory Order.TotalTheory. Local Open Scope ring_scope.

Section Props.
Variables (R : realFieldType) (X : lmodType R).
Variables (nrm : X -> R) (A : X -> X) (arnoldi : X -> arn R X) (expm : nat -> (nat -> nat -> R) -> nat -> nat -> R).
Variables (pw : R -> nat -> R) (decade ceil : R -> R).
Variables (m : nat) (tol tout sgn : R) (E : R -> X -> X).
Hypotheses (Hpw : root_spec pw) (Hdec : decade_spec decade) (Hceil : ceil_spec ceil).
Hypotheses (Hm : (1 < m)%N) (Htol : 0 < tol) (Htout : 0 < tout).
Notation estimate := (estimate nrm A expm m sgn).
Notation attempts := (attempts nrm A expm pw decade ceil m tol sgn).
Notation combine := (combine expm m sgn).
Notation step := (step nrm A arnoldi expm pw decade ceil m tol tout sgn).
Notation solve := (solve nrm A arnoldi expm pw decade ceil m tol tout sgn).

Section Error.
Hypotheses (Hn : norm_spec nrm) (HE : contractive_flow nrm E).
(** The Krylov approximation is exact after a breakdown, otherwise the estimate bounds its error *)
Hypothesis Hrel : forall x h, 0 < h -> let a := arnoldi x in
  if abrk a then combine 0 a (nrm x) h = E h x
  else nrm (combine 2 a (nrm x) h - E h x) <= (estimate 2 a (nrm x) h).1.

(** Expokit ends after at most max_it steps.  If it reports convergence and no step ran out of attempts, the result is
    the exponential at exactly the requested time up to 1.2 times the tolerance times this time. *)
Theorem C64_expokit n max_it t0 sfactor b : (0 < max_it <= n)%N -> 0 < t0 ->
  exists y its r e, [/\ solve n max_it t0 sfactor b = Ok (y, its, r, e), (0 < its <= max_it)%N,
    r = DivergedIts <-> its = max_it &
    r = ConvergedTol -> e = false ->
      nrm (y - sfactor *: E tout b) <= `|sfactor| * (12%:R / 10%:R * tol * tout)].
Proof.
move=> Hmx Ht0; set s0 := St b 0 (Some t0) m 2 false.
have I0 : inv nrm tol tout E b s0.
  split=> //=; [by rewrite lexx ltW|by move=> t [<-]|lia|].
  by case: HE Hn => -> _ _ [n0 _ _]; rewrite subrr n0 mulr0.
have [[[s its] r] L] : exists y, loop nrm A arnoldi expm pw decade ceil m tol tout sgn n 0 max_it s0 = Ok y.
  by apply: loop_ends; rewrite add0n.
have [|[i1 i2 i3 i4 i5] i6 i7] := loop_ok Hpw Hdec Hceil Hm Htol Htout Hn HE Hrel I0 Htout _ L; first lia.
exists (sfactor *: sx s), its, r, (ex s); split=> //.
- by rewrite /EKModel.solve -/s0 L.
- by case: (r) i7 => // -[_ H]; split=> // H'; move: H; rewrite H' ltnn.
move=> r0 e0; move: i7; rewrite r0 => -[T _]; case: Hn => _ _ nZ.
by rewrite -scalerBr nZ -T; apply: ler_wpmul2l; [apply: normr_ge0|apply: i5].
Qed.
(** After a breakdown in the first step the result is exact; one step suffices, but if only one was allowed then
    divergence is reported (part of the property refuted: a step that reaches the end is reported as convergence). *)
Theorem C64_breakdown n max_it t0 sfactor b : (0 < max_it <= n)%N -> abrk (arnoldi b) ->
  solve n max_it t0 sfactor b =
    Ok (sfactor *: E tout b, 1%N, (if max_it == 1%N then DivergedIts else ConvergedTol), false).
Proof.
case: n => [|n] Hmx Hb; first lia.
have S : step (St b 0 (Some t0) m 2 false) =
  St (E tout b) tout (Some (next_step pw decade ceil tol tout tol m)) m 0 false.
  have /= := Hrel b Htout; rewrite Hb => Hx; rewrite /EKModel.step; case: mxrej => [|N] /=; rewrite Hb /= subr0 add0r Hx;
  by rewrite (gt_eqF Htol).
rewrite /EKModel.solve [EKModel.loop _ _ _ _ _ _ _ _ _ _ _ _ _ _ _]/= S.
by rewrite [1%N == _]eq_sym; case: eqP => //= _; rewrite lexx.
Qed.
Theorem C64_last_step_refuted t0 sfactor b : abrk (arnoldi b) ->
  exists y, solve 1 1 t0 sfactor b = Ok (y, 1%N, DivergedIts, false) /\ y = sfactor *: E tout b.
Proof. by move=> Hb; exists (sfactor *: E tout b); rewrite C64_breakdown. Qed.
End Error.

Lemma attempts_rejected h0 n kk a beta h d : (0 < kk)%N -> 0 < h -> h <= h0 ->
  (forall h, 0 < h <= h0 -> delta R * h * tol < (estimate kk a beta h).1) ->
  let: (hK, h', err, d', ok) := attempts n kk a beta h d in [/\ 0 < h' < hK, hK <= h & ok = false].
Proof.
move=> Hk Hh Hh0 Hrej; elim: n h d Hh Hh0 => [|n IH] h d Hh Hh0 /=; rewrite (gtn_eqF Hk).
  have [] : 0 <= (estimate kk a beta h).1 /\ (0 < (estimate kk a beta h).2)%N by apply: estimate_ok Htol _ _ _ _.
have := Hrej h; rewrite Hh Hh0 => /(_ isT).
  case: (estimate kk a beta h) => err d' /= C e0 d0; rewrite leNgt C /=.
  have ep : 0 < err by apply: le_lt_trans C; apply: dht.
  by rewrite lexx (next_pos Hpw) // (next_less Hpw).
have [] : 0 <= (estimate kk a beta h).1 /\ (0 < (estimate kk a beta h).2)%N by apply: estimate_ok Htol _ _ _ _.
have := Hrej h; rewrite Hh Hh0 => /(_ isT).
case: (estimate kk a beta h) => err d' /= C e0 d0; rewrite leNgt C /=.
have ep : 0 < err by apply: le_lt_trans C; apply: dht.
have Hl := next_less Hpw Hdec Hceil Htol Hh C d0.
have := IH _ d' (next_pos Hpw Hdec Hceil Htol Hh ep d0) (le_trans (ltW Hl) Hh0).
case: (attempts _ _ _ _ _ _) => [[[[hK h'] er] dd] ok] [a1 a2 a3]; split=> //.
by apply: le_trans a2 (ltW Hl).
Qed.
(** Refuted: the vector belongs to the time recorded.  If all attempts of a step are rejected, the vector has been
    advanced (here with an exact Krylov approximation) by more than the time. *)
Theorem C64_rejected_refuted (s : state R X) : tnow s < tout -> k1 s = 2%N ->
  (forall t, tnew s = Some t -> 0 < t) -> abrk (arnoldi (sx s)) = false ->
  (forall h, 0 < h <= tout - tnow s -> 12%:R / 10%:R * h * tol < (estimate 2 (arnoldi (sx s)) (nrm (sx s)) h).1) ->
  (forall h, 0 < h <= tout - tnow s -> combine 2 (arnoldi (sx s)) (nrm (sx s)) h = E h (sx s)) ->
  exists2 h, sx (step s) = E h (sx s) & 0 < tnow (step s) - tnow s < h.
Proof.
case: s => x t tn d k e /= Hlt -> Ht Hb Hrej Hex; rewrite /EKModel.step; move: mxrej => N; rewrite /= Hb.
set h1 := match tn with Some _ => _ | None => _ end.
have [h1p h1q] : 0 < h1 /\ h1 <= tout - t.
  have r0 : 0 < tout - t by rewrite subr_gt0.
  by rewrite /h1; case: tn Ht {h1} => [u|] // Ht; rewrite lt_minr r0 Ht // le_minl lexx.
have := @attempts_rejected (tout - t) N 2 (arnoldi x) (nrm x) h1 d isT h1p h1q Hrej.
case: (attempts _ _ _ _ _ _) => [[[[hK h'] er] dd] ok] [a1 a2 a3] /=.
exists hK; last by rewrite addrAC subrr add0r.
by apply: Hex; rewrite (le_trans a2) // andbT; case/andP: a1; apply: lt_trans.
Qed.
End Props.
Print Assumptions C64_expokit.
Print Assumptions C64_breakdown.
Print Assumptions C64_last_step_refuted.
Print Assumptions C64_rejected_refuted.

(** Rational scalars: the contracts of roots and rounding, and two instances with one unknown.  First: A = 0. *)
Definition ex_pw (z : rat) (d : nat) : rat := if z <= 1 then z else 1.
Definition ex_decade (y : rat) : rat := y / 10%:R.
Definition ex_ceil (z : rat) : rat := z.
Lemma ex_pw_ok : root_spec ex_pw.
Proof. by move=> z d _ Hz; rewrite /ex_pw; case: ifP => // _; rewrite ltr01 lexx. Qed.
Lemma ex_decade_ok : decade_spec ex_decade.
Proof. by move=> y Hy; rewrite /ex_decade divr_gt0 // mulrC divfK. Qed.
Lemma ex_ceil_ok : ceil_spec ex_ceil.
Proof. by move=> z; rewrite /ex_ceil lexx ltr_addl ltr01. Qed.
Definition ex_nrm (x : rat^o) : rat := `|x|.
Definition ex_arn (x : rat^o) : arn rat rat^o :=
  Arn (fun j => if j == 0%N then x / `|x| else 0) (fun _ _ => 0) 2 false.
Definition ex_expm (n : nat) (M : nat -> nat -> rat) (i j : nat) : rat := if i == j then 1 else 0.
Example ex_C64 : [/\ norm_spec ex_nrm, contractive_flow ex_nrm (fun _ x => x),
  forall (x : rat^o) h, 0 < h -> let a := ex_arn x in
    if abrk a then combine ex_expm 2 1 0 a (ex_nrm x) h = x
    else ex_nrm (combine ex_expm 2 1 2 a (ex_nrm x) h - x) <= (estimate ex_nrm (fun _ => 0) ex_expm 2 1 2 a (ex_nrm x) h).1 &
  exists y its r e, solve ex_nrm (fun _ => 0) ex_arn ex_expm ex_pw ex_decade ex_ceil 2 1 1 1 9 9 (1 / 4%:R) 3%:R
    (5%:R : rat^o) = Ok (y, its, r, e) /\ (0 < its <= 9)%N].
Proof.
have Hn : norm_spec ex_nrm by split=> [|x y|c x]; rewrite /ex_nrm ?normr0 ?ler_norm_add // normrM.
have HE : contractive_flow ex_nrm (fun _ x => x) by split.
have Hrel (x : rat^o) h : 0 < h -> let a := ex_arn x in
    if abrk a then combine ex_expm 2 1 0 a (ex_nrm x) h = x
    else ex_nrm (combine ex_expm 2 1 2 a (ex_nrm x) h - x) <= (estimate ex_nrm (fun _ => 0) ex_expm 2 1 2 a (ex_nrm x) h).1.
  move=> _ /=; have [H _] := estimate_ok ex_nrm (fun _ => 0) ex_expm 1 (isT : (1 < 2)%N) (ltr01 : 0 < 1 :> rat) (ltr01 : 0 < 1 :> rat) 2%N (ex_arn x) (ex_nrm x) h.
  apply: le_trans H; rewrite /combine /Kcol /ex_expm /= !big_nat_recr //= big_geq // !scaler0 !addr0 add0r.
  have -> : (ex_nrm x * 1) *: (x / `|x| : rat^o) = x.
    rewrite /ex_nrm mulr1 /GRing.scale /=; have [->|x0] := eqVneq x 0; first by rewrite normr0 mul0r.
    by rewrite mulrC divfK // normr_eq0.
  by rewrite subrr /ex_nrm normr0.
split=> //.
have t0 : 0 < 1 / 4%:R :> rat by rewrite divr_gt0 // ltr0n.
have C := @C64_expokit rat_realFieldType (GRing.regular_lmodType rat_Ring) ex_nrm (fun _ => 0) ex_arn ex_expm ex_pw
  ex_decade ex_ceil 2 1 1 1 (fun _ x => x) ex_pw_ok ex_decade_ok ex_ceil_ok (isT : (1 < 2)%N) ltr01 ltr01 Hn HE Hrel
  9 9 (1 / 4%:R) 3%:R (5%:R : rat^o) isT t0.
case: C => y [its [r [e [H1 H2 _ _]]]].
exists y, its, r, e; split; [exact: H1|exact: H2].
Qed.

(** The hypotheses of C64_rejected_refuted: a constant estimate, larger than what the tolerance permits. *)
Definition ex_arn2 (x : rat^o) : arn rat rat^o := Arn (fun _ => 1) (fun _ _ => 0) 2 false.
Definition ex_expm2 (n : nat) (M : nat -> nat -> rat) (i j : nat) : rat := 1.
Example ex_C64_rejected : let s := St (1 : rat^o) 0 (Some 1) 2 2 false in
  [/\ abrk (ex_arn2 (sx s)) = false,
   forall h, 0 < h <= 1 - tnow s -> 12%:R / 10%:R * h * (1 / 2%:R) <
     (estimate ex_nrm (fun x => x) ex_expm2 2 1 2 (ex_arn2 (sx s)) (ex_nrm (sx s)) h).1 &
   forall h, 0 < h <= 1 - tnow s -> combine ex_expm2 2 1 2 (ex_arn2 (sx s)) (ex_nrm (sx s)) h = 3%:R].
Proof.
split; [by []|move=> h /andP[h0 h1]|move=> h _].
  rewrite /estimate /Kcol /ex_expm2 /ex_nrm [aV _ _]/= [sx _]/= ?mulr1 ?normr1 ?mulr1 ?normr1 ?mulr1 ?normr1 ?mulr1 ?ltxx.
  have -> : (10%:R < 1 :> rat) = false by rewrite -[1]/(1%:R) ltr_nat.
  rewrite [fst _]/=; have -> : 12%:R / 10%:R * h * (1 / 2%:R) = 3%:R / 5%:R * h by field.
  apply: (@le_lt_trans _ _ (3%:R / 5%:R)).
    by rewrite -[leRHS]mulr1 ler_pmul2l; [move: h1; rewrite subr0|rewrite divr_gt0 // ltr0n].
  by rewrite ltr_pdivr_mulr ?ltr0n // mul1r ltr_nat.
by rewrite /combine /Kcol /ex_expm2 /ex_nrm [aV]/= [amb _]/= !big_nat_recr //= big_geq //= normr1 mulr1 scale1r add0r.
Qed.
