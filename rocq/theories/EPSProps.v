(** The interface of the eigensolver: the properties. *)
From mathcomp Require Import all_ssreflect all_algebra.
From mathcomp Require Import zify ring realalg.
From Verif Require Import Prelude EPSModel EPSSpec EPSProofs.
Set Implicit Arguments. Unset Strict Implicit. Unset Printing Implicit Defensive.
Import GRing.Theory Num.Theory Order.TTheory.
Local Open Scope ring_scope.

Section Real.
Variables (F : rcfType) (V : lmodType F).

(** After EPSSolve in real arithmetic, EPSGetEigenpair (and EPSGetLeftEigenvector) returns for index i the
    eigenvalue and vector of the solver for the block of place perm[i], or their complex conjugate: the first
    place of a block has the nonnegative imaginary part, the second one the negative one. *)
Theorem C56_eigenpair nconv eigr (a : arrays V) perm i (left : bool) :
  conjugate_pairs nconv eigr (eigi a) -> (i < nconv)%N -> (perm i < nconv)%N ->
  let k0 := block_of (eigi a) (perm i) in
  let X := if left then ww a else vv a in
  exists s : F, [/\ get_eigenpair nconv eigr perm (reorder false nconv eigr a) left i =
      Ok (eigr k0, s * eigi a k0, X k0, if eigi a k0 == 0 then 0 else s *: X k0.+1),
    s = 1 \/ s = -1 &
    if block_start (eigi a) (perm i) then 0 <= s * eigi a k0 else s * eigi a k0 < 0].
Proof. by move=> H1 H2 H3; have [s [E1 E2 E3]] := pair_ok left H1 H2 H3; exists s. Qed.

Variables (A B : V -> V).
Hypothesis HA : forall c x y, A (c *: x + y) = c *: A x + A y.
Hypothesis HB : forall c x y, B (c *: x + y) = c *: B x + B y.
Let A0 : A 0 = 0. Proof. by have := HA (-1) 0 0; rewrite !scaler0 addr0 scaleN1r addNr. Qed.
Let B0 : B 0 = 0. Proof. by have := HB (-1) 0 0; rewrite !scaler0 addr0 scaleN1r addNr. Qed.
Let AN x : A (- x) = - A x. Proof. by rewrite -scaleN1r -[_ *: x]addr0 HA A0 addr0 scaleN1r. Qed.
Let BN x : B (- x) = - B x. Proof. by rewrite -scaleN1r -[_ *: x]addr0 HB B0 addr0 scaleN1r. Qed.

(** So what is returned is an eigenpair of the problem whenever the solver has computed one. *)
Theorem C56_equations nconv eigr (a : arrays V) perm i :
  conjugate_pairs nconv eigr (eigi a) -> (i < nconv)%N -> (perm i < nconv)%N ->
  (forall k, (k < nconv)%N -> block_start (eigi a) k ->
     let xi := if eigi a k == 0 then 0 else vv a k.+1 in
     eigenpair A B (eigr k) (eigi a k) (vv a k) xi /\ nonzero (vv a k) xi) ->
  exists kr ki xr xi, [/\ get_eigenpair nconv eigr perm (reorder false nconv eigr a) false i = Ok (kr, ki, xr, xi),
    eigenpair A B kr ki xr xi & nonzero xr xi].
Proof.
move=> Hc Hi Hk Hs; have [s [E Es _]] := C56_eigenpair false Hc Hi Hk.
set k0 := block_of _ _ in E.
have Hb : block_start (eigi a) k0.
  by rewrite /k0 /block_of; case: ifP => // /not_start [k' -> []].
have Hk0 : (k0 < nconv)%N by rewrite /k0 /block_of; case: ifP => // _; apply: leq_ltn_trans (leq_pred _) Hk.
have [[S1 S2] S3] := Hs _ Hk0 Hb; rewrite /= in S1 S2 S3.
do 4 eexists; split; first exact: E.
- case: eqP S1 S2 {S3} => [->|_] S1 S2; first by rewrite mulr0; split=> //; rewrite ?S1.
  case: Es => ->; rewrite ?mul1r ?scale1r // mulN1r scaleN1r; split; rewrite ?AN ?BN.
    by rewrite S1 scalerN scaleNr opprK.
  by rewrite S2 scalerN scaleNr -opprD.
- case: eqP S3 => [//|_] [H|H]; [by left|right].
  by case: Es => ->; rewrite ?scale1r // scaleN1r oppr_eq0.
Qed.

(** * Errors *)
Variable dot : V -> V -> F.
Hypothesis dotL : forall c x y z, dot (c *: x + y) z = c * dot x z + dot y z.
Hypothesis dotC : forall x y, dot x y = dot y x.
Hypothesis dot_ge : forall x, 0 <= dot x x.
Let d0 x : dot 0 x = 0. Proof. by have := dotL (-1) 0 0 x; rewrite scaler0 addr0 mulN1r addNr. Qed.
Let dNl x y : dot (- x) y = - dot x y.
Proof. by rewrite -scaleN1r -[_ *: x]addr0 dotL d0 addr0 mulN1r. Qed.
Let dN x : dot (- x) (- x) = dot x x.
Proof. by rewrite dNl dotC dNl opprK. Qed.
Variable eps : F.
Hypothesis Heps : 0 <= eps.

Lemma resid2_conj kr ki xr xi : resid2 dot A B kr (- ki) xr (- xi) = resid2 dot A B kr ki xr xi.
Proof.
rewrite /resid2 !AN !BN !scalerN !scaleNr !opprK; congr (_ + _).
by rewrite -dN !opprD !opprK.
Qed.

(** The squares under the roots *)
Lemma abs2_vnorm x y : abs2 (vnorm dot x) (vnorm dot y) = Num.sqrt (dot x x + dot y y).
Proof. by rewrite /abs2 /vnorm !sqr_sqrtr. Qed.

Lemma residual_norm_ok (trans : bool) kr ki xr xi : (ki = 0 -> xi = 0) ->
  (ki == 0) || (eps * `|kr| <= `|ki|) -> eps < abs2 kr ki ->
  residual_norm dot eps trans true A B kr ki xr xi =
    Num.sqrt (resid2 dot A B kr (if trans then - ki else ki) xr xi).
Proof.
move=> Hx Hki Hb; rewrite /residual_norm /= normrM (ger0_norm Heps) mulrC.
case: (altP (ki =P 0)) Hki => [E0|N0] /= Hki.
  have -> : eps < `|kr| by move: Hb; rewrite /abs2 E0 expr0n addr0 sqrtr_sqr.
  rewrite /resid2 (Hx E0) E0 A0 B0 oppr0 if_same !scale0r !scaler0 !addr0 subr0 oppr0 addr0.
  by rewrite d0 addr0.
rewrite ltNge Hki /= Hb abs2_vnorm /resid2; congr (Num.sqrt (_ + _)).
by case: (trans); rewrite ?scaleNr ?opprK.
Qed.
End Real.

Section Errors.
Variables (F : rcfType) (V : lmodType F) (dot : V -> V -> F) (eps : F).
Hypothesis dotL : forall c x y z, dot (c *: x + y) z = c * dot x z + dot y z.
Hypothesis dotC : forall x y, dot x y = dot y x.
Hypothesis dot_ge : forall x, 0 <= dot x x.
Hypothesis Heps : 0 <= eps.
Variables (A B AT BT : V -> V).
Hypothesis HA : forall c x y, A (c *: x + y) = c *: A x + A y.
Hypothesis HB : forall c x y, B (c *: x + y) = c *: B x + B y.
Hypothesis HAT : forall c x y, AT (c *: x + y) = c *: AT x + AT y.
Hypothesis HBT : forall c x y, BT (c *: x + y) = c *: BT x + BT y.
(** What divides the residual *)
Definition divisor (type : errtype) (lam nrma nrmb vecnorm : F) : F :=
  match type with Absolute => 1 | Relative => lam * vecnorm | Backward => (nrma + lam * nrmb) * vecnorm end.

(** EPSComputeError in real arithmetic, standard and generalized problems: the norm of the residual of the complex eigenpair that the
    solver has computed for the block of place perm[i] (with two-sided solvers the maximum with the left one),
    divided as documented.  Domain: the eigenvalue is larger than the machine precision, its imaginary part is zero
    or not negligible. *)
Theorem C57_error nconv eigr (a : arrays V) perm (nmat2 ghep twosided : bool) nrma nrmb i type :
  conjugate_pairs nconv eigr (eigi a) -> (i < nconv)%N -> (perm i < nconv)%N ->
  let k := block_of (eigi a) (perm i) in
  let im (X : nat -> V) := if eigi a k == 0 then 0 else X k.+1 in
  let lam := Num.sqrt (eigr k ^+ 2 + eigi a k ^+ 2) in
  let d := divisor type lam nrma nrmb (if ghep then Num.sqrt (dot (vv a k) (vv a k)) else 1) in
  let sB (Q : V -> V) := if nmat2 then Q else id in
  let right := Num.sqrt (resid2 dot A (sB B) (eigr k) (eigi a k) (vv a k) (im (vv a))) in
  let left := Num.sqrt (resid2 dot AT (sB BT) (eigr k) (- eigi a k) (ww a k) (im (ww a))) in
  (eigi a k == 0) || (eps * `|eigr k| <= `|eigi a k|) -> eps < lam -> d != 0 ->
  compute_error dot eps nconv eigr perm (reorder false nconv eigr a) nmat2 ghep twosided A B AT BT nrma nrmb i type =
    Ok ((if twosided then Num.max right left else right) / d).
Proof.
move=> Hc Hi Hk k im lam d sB right left Him Hlam Hd.
have [s [E Es Hs]] := C56_eigenpair false Hc Hi Hk; rewrite -/k in E Hs.
have [s' [E' Es' Hs']] := C56_eigenpair true Hc Hi Hk; rewrite -/k in E' Hs'.
rewrite /compute_error E [bind _ _]/=.
have Elam : abs2 (eigr k) (s * eigi a k) = lam.
  by rewrite /abs2 exprMn (_ : s ^+ 2 = 1) ?mul1r //; case: Es => ->; rewrite ?sqrrN expr1n.
have R (tr : bool) (P Q : V -> V) (X : nat -> V) : (forall c x y, P (c *: x + y) = c *: P x + P y) ->
    (forall c x y, Q (c *: x + y) = c *: Q x + Q y) ->
  residual_norm dot eps tr nmat2 P Q (eigr k) (s * eigi a k) (X k) (if eigi a k == 0 then 0 else s *: X k.+1) =
  Num.sqrt (resid2 dot P (sB Q) (eigr k) (if tr then - eigi a k else eigi a k) (X k) (im X)).
  move=> HP HQ0.
  have HQ : forall c x y, sB Q (c *: x + y) = c *: sB Q x + sB Q y by rewrite /sB; case: (nmat2).
  rewrite (_ : residual_norm _ _ _ _ _ _ _ _ _ _ = residual_norm dot eps tr true P (sB Q) (eigr k) (s * eigi a k) (X k)
    (if eigi a k == 0 then 0 else s *: X k.+1)); last by rewrite /sB; case: (nmat2).
  rewrite (residual_norm_ok HP HQ dotL dotC dot_ge Heps tr) ?Elam //.
  - congr (Num.sqrt _); rewrite /im; case: (altP (_ =P 0)) => [->|_]; first by rewrite mulr0 oppr0 if_same.
    case: Es => ->; rewrite ?mul1r ?scale1r // mulN1r scaleN1r.
    by case: (tr); rewrite -(resid2_conj HP HQ dotL dotC) !opprK.
  - case: (altP (eigi a k =P 0)) => // N0 /eqP; rewrite mulf_eq0 (negbTE N0) orbF.
    by case: Es => ->; rewrite ?oppr_eq0 oner_eq0.
  - have -> : `|s * eigi a k| = `|eigi a k|.
      by rewrite normrM; case: Es => ->; rewrite ?normrN normr1 mul1r.
    rewrite mulf_eq0; case/orP: Him => ->; rewrite ?orbT //.
rewrite (R false A B (vv a) HA HB) -/right.
have Ess : (if eigi a k == 0 then 0 else s' *: ww a k.+1) = if eigi a k == 0 then 0 else s *: ww a k.+1.
  case: (altP (_ =P 0)) => // N0; congr (_ *: _); move: Hs Hs' N0; case: Es => ->; case: Es' => -> //.
    case: ifP => _; rewrite !mul1r !mulN1r ?oppr_ge0 ?oppr_lt0 => H1 H2 N0.
      by move: N0; rewrite eq_le H1 H2.
    by move: (lt_trans H1 H2); rewrite ltxx.
  case: ifP => _; rewrite !mul1r !mulN1r ?oppr_ge0 ?oppr_lt0 => H1 H2 N0.
    by move: N0; rewrite eq_le H1 H2.
  by move: (lt_trans H1 H2); rewrite ltxx.
have -> : (do e <- (if twosided then
      do ' (_, _, yr, yi) <- get_eigenpair nconv eigr perm (reorder false nconv eigr a) true i;
      Ok (Num.max right (residual_norm dot eps true nmat2 AT BT (eigr k) (s * eigi a k) yr yi))
    else Ok right);
  match type with
  | Absolute => Ok e
  | Relative => if abs2 (eigr k) (s * eigi a k) * (if ghep then vnorm dot (vv a k) else 1) == 0 then UB
                else Ok (e / (abs2 (eigr k) (s * eigi a k) * (if ghep then vnorm dot (vv a k) else 1)))
  | Backward => if (nrma + abs2 (eigr k) (s * eigi a k) * nrmb) * (if ghep then vnorm dot (vv a k) else 1) == 0 then UB
                else Ok (e / ((nrma + abs2 (eigr k) (s * eigi a k) * nrmb) * (if ghep then vnorm dot (vv a k) else 1)))
  end) =
  (do e <- Ok (if twosided then Num.max right left else right);
  match type with
  | Absolute => Ok e
  | Relative => if lam * (if ghep then vnorm dot (vv a k) else 1) == 0 then UB
                else Ok (e / (lam * (if ghep then vnorm dot (vv a k) else 1)))
  | Backward => if (nrma + lam * nrmb) * (if ghep then vnorm dot (vv a k) else 1) == 0 then UB
                else Ok (e / ((nrma + lam * nrmb) * (if ghep then vnorm dot (vv a k) else 1)))
  end).
  rewrite Elam; congr (bind _ _); case: (twosided) => //.
  by rewrite E' [bind _ _]/= Ess (R true AT BT (ww a) HAT HBT).
rewrite [bind _ _]/=; case: (type) @d Hd => /= Hd; rewrite -/(vnorm dot (vv a k)) in Hd *.
- by rewrite divr1.
- by rewrite (negbTE Hd).
- by rewrite (negbTE Hd).
Qed.
End Errors.
Print Assumptions C56_eigenpair.
Print Assumptions C56_equations.
Print Assumptions C57_error.

(** If the eigenvalue is not larger than the machine precision, lambda B x is left out of the residual: the error
    reported for an exact eigenpair is the norm of A x, which is not zero. *)
Theorem C57_small_refuted (F : rcfType) (eps : F) : 0 < eps ->
  exists (V : lmodType F) (dot : V -> V -> F) (A : V -> V) (eigr : nat -> F) (a : arrays V),
    [/\ eigenpair A id (eigr 0%N) (eigi a 0%N) (vv a 0%N) 0, vv a 0%N != 0 &
    exists e, compute_error dot eps 1 eigr id (reorder false 1 eigr a) false false false A id A id 1 1 0 Absolute = Ok e
      /\ 0 < e].
Proof.
move=> He.
exists [lmodType F of F^o], (fun x y => x * y), (fun x => eps * x), (fun _ => eps),
  (Arrays (fun _ => 0) (fun _ => 1) (fun _ => 0)).
split=> /=; [|exact: oner_neq0|].
  by split; rewrite /= ?scale0r ?scaler0 ?subr0 ?addr0 ?mulr0.
exists eps; split=> //.
rewrite /compute_error /get_eigenpair /reorder /= /bv_get_eigenvector /= ltxx /= /residual_norm eqxx /=.
by rewrite ger0_norm ?(ltW He) // ltxx /vnorm mulr1 -expr2 sqrtr_sqr gtr0_norm.
Qed.
Print Assumptions C57_small_refuted.

(** * Concrete case: the rotation by a right angle; the solver gives the eigenvalue -i first. *)
Notation R2 := (realalg^o * realalg^o)%type.
Definition rot (x : R2) : R2 := (- x.2, x.1).
Definition dotR (x y : R2) : realalg := (x.1 : realalg) * y.1 + (x.2 : realalg) * y.2.
Definition rot_arrays : arrays [lmodType realalg of R2] :=
  Arrays (fun k => if k == 0%N then -1 else 1) (fun k => if k == 0%N then (1, 0) else (0, 1)) (fun _ => 0).
Lemma rot_pairs : conjugate_pairs 2 (fun _ => 0 : realalg) (eigi rot_arrays).
Proof. by move=> [|[|]] //= _; rewrite oppr_eq0 oner_eq0 // opprK. Qed.
Lemma rot_linear c (x y : R2) : rot (c *: x + y) = c *: rot x + rot y.
Proof. by congr (_, _); rewrite /= opprD scalerN. Qed.
Lemma rot_eigenpair : eigenpair rot id 0 (-1) ((1, 0) : R2) ((0, 1) : R2).
Proof. by split; congr (_, _); rewrite /= ?scale0r ?scaleN1r ?add0r ?opprK ?oppr0. Qed.
Example ex_C56 i : (i < 2)%N -> exists kr ki xr xi,
  [/\ get_eigenpair 2 (fun _ => 0 : realalg) id (reorder false 2 (fun _ => 0) rot_arrays) false i = Ok (kr, ki, xr, xi),
    eigenpair rot id kr ki xr xi & nonzero xr xi].
Proof.
move=> Hi; apply: (C56_equations rot_linear _ rot_pairs Hi) => //.
move=> [|[|]] //= _; rewrite ?oppr_eq0 ?oner_eq0 // => _; split; first exact: rot_eigenpair.
by left; apply/eqP => -[/eqP]; rewrite oner_eq0.
Qed.
Example ex_C57 : compute_error dotR (1 / 2) 2 (fun _ => 0 : realalg) id (reorder false 2 (fun _ => 0) rot_arrays)
  false false false rot id rot id 1 1 0 Absolute = Ok 0.
Proof.
have Hl := rot_linear; have Hi c (x y : R2) : id (c *: x + y) = c *: id x + id y by [].
have dL c (x y z : R2) : dotR (c *: x + y) z = c * dotR x z + dotR y z.
  by rewrite /dotR /= !mulrDl -!mulrA mulrDr addrACA; congr (_ + _ + _); rewrite mulrA.
have dC (x y : R2) : dotR x y = dotR y x by rewrite /dotR mulrC [x.2 * _]mulrC.
have dG (x : R2) : 0 <= dotR x x by rewrite /dotR -!expr2 addr_ge0 ?sqr_ge0.
have e0 : (0 : realalg) <= 1 / 2 by rewrite divr_ge0 ?ler01 ?ler0n.
have L : abs2 (0 : realalg) (-1) = 1 by rewrite /abs2 expr0n add0r sqrrN expr1n sqrtr1.
have := @C57_error _ _ dotR (1 / 2) dL dC dG e0 rot id rot id Hl Hi Hl Hi 2 (fun _ => 0) rot_arrays id false false false
  1 1 0 Absolute rot_pairs isT isT.
move: (compute_error _ _ _ _ _ _ _ _ _ _ _ _ _ _ _ _ _) => c; rewrite /= oppr_eq0 oner_eq0 -/(abs2 0 (-1)) L => ->.
- rewrite /resid2 /dotR /= !scale0r !scaleN1r !subr0 !add0r !oppr0 !opprK !mulr0.
  by rewrite !addNr !subrr !mul0r !addr0 sqrtr0 mul0r.
- by rewrite normr0 mulr0 normr_ge0.
- by rewrite ltr_pdivr_mulr ?ltr0n // mul1r ltr1n.
- by [].
Qed.
