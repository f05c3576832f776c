(** The interface of the eigensolver: Hamiltonian problems in real arithmetic, discarded values, dimensions. *)
From mathcomp Require Import all_ssreflect all_algebra.
From mathcomp Require Import zify ring realalg.
From Verif Require Import Prelude EPSModel EPSSpec.
Set Implicit Arguments. Unset Strict Implicit. Unset Printing Implicit Defensive.
Import GRing.Theory Num.Theory Order.TTheory.
Local Open Scope ring_scope.

Section Hamilt.
Variables (F : rcfType) (V : lmodType F) (H : V -> V) (dot : V -> V -> F).
Hypothesis HL : forall c x y, H (c *: x + y) = c *: H x + H y.
Hypothesis dotL : forall c x y z, dot (c *: x + y) z = c * dot x z + dot y z.
Hypothesis dotC : forall x y, dot x y = dot y x.
Hypothesis dot_gt : forall x, x != 0 -> 0 < dot x x.
Let d0 x : dot 0 x = 0. Proof. by have := dotL (-1) 0 0 x; rewrite scaler0 addr0 mulN1r addNr. Qed.
Let H0 : H 0 = 0. Proof. by have := HL (-1) 0 0; rewrite !scaler0 addr0 scaleN1r addNr. Qed.
Let HZ c x : H (c *: x) = c *: H x. Proof. by rewrite -[c *: x]addr0 HL H0 addr0. Qed.
Let HD x y : H (x + y) = H x + H y. Proof. by rewrite -[x]scale1r HL !scale1r. Qed.
Let dot_ge x : 0 <= dot x x.
Proof. by case: (altP (x =P 0)) => [->|/dot_gt /ltW //]; rewrite d0. Qed.

(** What the solver leaves: u_k in column k and v_k = H u_k in column k+sh, with H v_k = lambda^2 u_k; real or
    purely imaginary lambda in one place, a quadruple in two consecutive ones (u and v complex).  [first j]: the
    sorted position j is the first one of a quadruple.  Positions of a quadruple are consecutive in the sorted order
    and a quadruple is not preceded by the conjugate of its first value. *)
Definition real_ok (eigr : nat -> F) sh (v : nat -> V) k : Prop :=
  [/\ H (v k) = v (k + sh)%N, H (v (k + sh)%N) = eigr k ^+ 2 *: v k & forall a, v (k + sh)%N != a *: v k].
Definition imag_ok (eigi : nat -> F) sh (v : nat -> V) k : Prop :=
  [/\ H (v k) = v (k + sh)%N, H (v (k + sh)%N) = - eigi k ^+ 2 *: v k & v (k + sh)%N != 0].
Definition quad_ok (eigr eigi : nat -> F) sh (v : nat -> V) k : Prop :=
  let re := eigr k ^+ 2 - eigi k ^+ 2 in
  let im := 2 * eigr k * eigi k in
  [/\ H (v k) = v (k + sh)%N, H (v k.+1) = v (k.+1 + sh)%N,
    H (v (k + sh)%N) = re *: v k - im *: v k.+1, H (v (k.+1 + sh)%N) = im *: v k + re *: v k.+1 &
    forall a b, v (k + sh)%N != a *: v k + b *: v k.+1].
Definition layout nconv (eigr eigi : nat -> F) (perm : nat -> nat) sh v (first : nat -> bool) : Prop :=
  forall j, (j < nconv)%N -> let k := perm j in
  if eigi k == 0 then real_ok eigr sh v k else
  if eigr k == 0 then imag_ok eigi sh v k else
  if first j then
    [/\ [/\ (j.+1 < nconv)%N, first j.+1 = false & perm j.+1 = k.+1], eigr k.+1 = eigr k /\ eigi k.+1 = - eigi k,
      quad_ok eigr eigi sh v k &
      forall j', j = j'.+1 -> ~ (eigr k = eigr (perm j') /\ eigi k = - eigi (perm j'))]
  else exists j', [/\ j = j'.+1, first j', eigi (perm j') != 0 & eigr (perm j') != 0].

(** c1 ur + c2 ui + c3 vr + c4 vi *)
Definition comb (v : nat -> V) k sh c1 c2 c3 c4 : V :=
  c1 *: v k + c2 *: v k.+1 + c3 *: v (k + sh)%N + c4 *: v (k.+1 + sh)%N.
Lemma combD v k sh a1 a2 a3 a4 b1 b2 b3 b4 : comb v k sh a1 a2 a3 a4 + comb v k sh b1 b2 b3 b4 =
  comb v k sh (a1 + b1) (a2 + b2) (a3 + b3) (a4 + b4).
Proof. rewrite /comb !scalerDl [LHS]addrACA; congr (_ + _); rewrite [LHS]addrACA; congr (_ + _).
by rewrite [LHS]addrACA. Qed.
Lemma combZ v k sh c a1 a2 a3 a4 : c *: comb v k sh a1 a2 a3 a4 = comb v k sh (c * a1) (c * a2) (c * a3) (c * a4).
Proof. by rewrite /comb !scalerDr !scalerA. Qed.
Lemma combN v k sh a1 a2 a3 a4 : - comb v k sh a1 a2 a3 a4 = comb v k sh (- a1) (- a2) (- a3) (- a4).
Proof. by rewrite /comb !scaleNr !opprD. Qed.
Lemma combH eigr eigi sh v k a1 a2 a3 a4 : quad_ok eigr eigi sh v k ->
  let re := eigr k ^+ 2 - eigi k ^+ 2 in let im := 2 * eigr k * eigi k in
  H (comb v k sh a1 a2 a3 a4) = comb v k sh (a3 * re + a4 * im) (a4 * re - a3 * im) a1 a2.
Proof.
move=> [E1 E2 E3 E4 _] re im; rewrite /comb !HD !HZ E1 E2 E3 E4 -/re -/im.
have Z (x y a b c d : V) : x + y + (a - b) + (c + d) = a + c + (d - b) + x + y.
  by rewrite -addrA [a - b + _]addrACA [- b + d]addrC addrC addrA.
by rewrite scalerBr scalerDr !scalerA Z !scalerDl !scaleNr.
Qed.

Lemma vnorm_sq x : vnorm dot x ^+ 2 = dot x x. Proof. by rewrite sqr_sqrtr. Qed.
(** Scaling to norm one keeps eigenpairs *)
Lemma normalized kr ki xr xi : eigenpair H id kr ki xr xi -> nonzero xr xi ->
  let nrm := Num.sqrt (dot xr xr + dot xi xi) in
  [/\ nrm != 0, eigenpair H id kr ki (nrm^-1 *: xr) (nrm^-1 *: xi) &
    dot (nrm^-1 *: xr) (nrm^-1 *: xr) + dot (nrm^-1 *: xi) (nrm^-1 *: xi) = 1].
Proof.
move=> [E1 E2] N nrm.
have P : 0 < dot xr xr + dot xi xi.
  by case: N => /dot_gt Hx; [apply: ltr_paddr | apply: ltr_paddl].
have N0 : nrm != 0 by rewrite /nrm sqrtr_eq0 -ltNge.
have dZ c x : dot (c *: x) (c *: x) = c ^+ 2 * dot x x.
  have l y z : dot (c *: y) z = c * dot y z by rewrite -[c *: y]addr0 dotL d0 addr0.
  by rewrite l dotC l mulrA.
split=> //.
- by split; rewrite HZ ?E1 ?E2 ?scalerBr ?scalerDr !scalerA ![nrm^-1 * _]mulrC.
- by rewrite !dZ -mulrDr exprVn sqr_sqrtr ?mulVf ?gt_eqF // ltW.
Qed.

(** EPSGetEigenvalue and EPSGetEigenvector with EPS_HAMILT give, for each of the 2 nconv indices, an eigenpair with
    vector of norm one; the values are lambda, -lambda, or the four of a quadruple. *)
Theorem C59_hamiltonian nconv eigr eigi perm sh v first i :
  layout nconv eigr eigi perm sh v first -> (i < 2 * nconv)%N ->
  exists kr ki xr xi, [/\ hamilt_eigenvalue nconv eigr eigi perm i = Ok (kr, ki),
    hamilt_eigenvector dot nconv eigr eigi perm sh v i = Ok (xr, xi),
    eigenpair H id kr ki xr xi, dot xr xr + dot xi xi = 1 &
    let a := eigr (perm (i %/ 2)%N) in let b := `|eigi (perm (i %/ 2)%N)| in
    kr \in [:: a; - a] /\ `|ki| = b].
Proof.
move=> HLay Hi.
have Hj : (i %/ 2 < nconv)%N by rewrite ltn_divLR // mulnC.
have := HLay _ Hj; rewrite /hamilt_eigenvalue /hamilt_eigenvector Hi [check _ _]/= [check true _]/=.
set j := (i %/ 2)%N in Hj *; set k := perm j; rewrite /=.
case: (altP (eigi k =P 0)) => [Ei|Ni].
  move=> [E1 E2 E3]; set s := if odd i then - eigr k else eigr k.
  have Es : s ^+ 2 = eigr k ^+ 2 by rewrite /s; case: ifP; rewrite ?sqrrN.
  set xr := v (k + sh)%N + s *: v k.
  have P : eigenpair H id s 0 xr 0.
    split; rewrite ?H0 ?scaler0 ?scale0r ?subr0 ?addr0 //.
    by rewrite /xr HD HZ E1 E2 scalerDr scalerA -expr2 Es addrC.
  have N : nonzero xr 0.
    by left; rewrite /xr -[s]opprK scaleNr subr_eq0 E3.
  have [N0 P' D] := normalized P N; rewrite d0 addr0 scaler0 in N0 P' D.
  rewrite /vnorm (negbTE N0) scaler0; do 4 eexists; split; [by []|by []|exact: P'|exact: D|].
  by rewrite normr0 Ei normr0 /s; split=> //; case: ifP; rewrite !inE eqxx ?orbT.
case: (altP (eigr k =P 0)) => [Er|Nr].
  move=> [E1 E2 E3]; set s := if odd i then - eigi k else eigi k.
  have Es : s ^+ 2 = eigi k ^+ 2 by rewrite /s; case: ifP; rewrite ?sqrrN.
  have P : eigenpair H id 0 s (v (k + sh)%N) (s *: v k).
    split; rewrite !scale0r ?add0r; first by rewrite E2 scalerA -expr2 Es scaleNr.
    by rewrite HZ E1.
  have N : nonzero (v (k + sh)%N) (s *: v k) by left.
  have [N0 P' D] := normalized P N.
  do 4 eexists; rewrite /abs2 !vnorm_sq (negbTE N0); split; [by []|by []|exact: P'|by []|].
  rewrite Er oppr0 !inE eqxx; split=> //.
  by rewrite /s; case: ifP; rewrite ?normrN.
(* a quadruple whose first place is k0: eigenpairs for the four values *)
have Q k0 (s s' s'' : F) kr ki : quad_ok eigr eigi sh v k0 -> kr = s * eigr k0 -> ki = s' * eigi k0 ->
    s = 1 \/ s = -1 -> s' = 1 \/ s' = -1 -> s'' = s * s' ->
    let xr := (s * eigr k0) *: v k0 - (s * eigi k0) *: v k0.+1 + v (k0 + sh)%N in
    let xi := (s' * eigi k0) *: v k0 + (s' * eigr k0) *: v k0.+1 + s'' *: v (k0.+1 + sh)%N in
    eigenpair H id kr ki xr xi /\ nonzero xr xi.
  move=> Hq Ekr Eki S S' S'' xr xi.
  have Exr : xr = comb v k0 sh (s * eigr k0) (- (s * eigi k0)) 1 0.
    by rewrite /comb scale0r addr0 scale1r scaleNr.
  have Exi : xi = comb v k0 sh (s' * eigi k0) (s' * eigr k0) 0 s''.
    by rewrite /comb scale0r addr0.
  split; last first.
    have [_ _ _ _ N] := Hq; left; rewrite /xr addrC.
    have := N (- (s * eigr k0)) (s * eigi k0); apply: contra => /eqP E.
    by rewrite -subr_eq0 scaleNr opprD opprK E.
  rewrite Exr Exi Ekr Eki S''.
  by split; rewrite (combH _ _ _ _ Hq) !combZ ?combN combD /=; case: S => ->; case: S' => ->;
    congr (comb _ _ _ _ _ _ _); ring.
have Fin q k0 : (q < 4)%N -> quad_ok eigr eigi sh v k0 -> eigr k = eigr k0 ->
    eigi k = (if (q < 2)%N then eigi k0 else - eigi k0) ->
    let sgn : F := if (q < 2)%N then -1 else 1 in
    let xr := (sgn * eigr k0) *: v k0 - (sgn * eigi k0) *: v k0.+1 + v (k0 + sh)%N in
    let sgn' : F := if odd q then -1 else 1 in
    let xi := (sgn' * eigi k0) *: v k0 + (sgn' * eigr k0) *: v k0.+1 +
      (if (q %% 3 == 0)%N then -1 else 1) *: v (k0.+1 + sh)%N in
    let kr := if (q < 2)%N then - eigr k else eigr k in
    let ki := if (q %% 3 == 0)%N then eigi k else - eigi k in
    [/\ eigenpair H id kr ki xr xi, nonzero xr xi, kr \in [:: eigr k; - eigr k] & `|ki| = `|eigi k|].
  move=> Hq4 Hq Er Ei sgn xr sgn' xi kr ki.
  have [||||//|P N] := Q k0 sgn sgn' (if (q %% 3 == 0)%N then -1 else 1) kr ki Hq.
  - by rewrite /kr /sgn Er; case: ifP; rewrite ?mulN1r ?mul1r.
  - rewrite /ki /sgn' Ei; case: q Hq4 @sgn @xr @sgn' @xi @kr @ki {Ei} => [|[|[|[|]]]] //= _;
      by rewrite ?mulN1r ?mul1r ?opprK.
  - by rewrite /sgn; case: ifP; [right|left].
  - by rewrite /sgn'; case: ifP; [right|left].
  - rewrite /sgn /sgn'; case: q Hq4 {Ei sgn xr sgn' xi kr ki} => [|[|[|[|]]]] //= _;
      by rewrite ?mulN1r ?mul1r ?opprK.
  - split=> //; first by rewrite /kr; case: ifP; rewrite !inE eqxx ?orbT.
    by rewrite /ki; case: ifP; rewrite ?normrN.
set q := quad_index _ _ _ _.
move=> HB.
have [Hq4 [Hk0 Er Ei]] : (q < 4)%N /\ let k0 := if (q < 2)%N then k else perm ((i - 2) %/ 2)%N in
    [/\ quad_ok eigr eigi sh v k0, eigr k = eigr k0 & eigi k = (if (q < 2)%N then eigi k0 else - eigi k0)].
  have L2 : (i %% 2 < 2)%N by rewrite ltn_pmod.
  have Ei2 : (1 < i)%N -> ((i - 2) %/ 2)%N = j.-1 by rewrite /j; lia.
  case Fj: (first j) HB.
    move=> [[_ _ _] _ Hq Sep].
    have -> : q = (i %% 2)%N.
      rewrite /q /quad_index -/j -/k; case: ifP => // Hi1; case: ifP => // /andP[/eqP S1 /eqP S2].
      rewrite (Ei2 Hi1) in S1 S2; have [j' Ej'] : exists j', j = j'.+1 by exists j.-1; rewrite /j; lia.
      by case: (Sep j' Ej'); rewrite Ej' /= in S1 S2.
    by rewrite L2 (leq_trans L2).
  move=> [j' [Ej Fj' Ni' Nr']].
  have Hj' : (j' < nconv)%N by rewrite Ej in Hj; apply: ltnW.
  have := HLay _ Hj'; rewrite /= (negbTE Ni') (negbTE Nr') Fj' -Ej => -[[_ _ Ep] [R1 R2] Hq _].
  have Hi1 : (1 < i)%N by move: Ej; rewrite /j; lia.
  have -> : q = (i %% 2 + 2)%N.
    by rewrite /q /quad_index -/j -/k Hi1 (Ei2 Hi1) Ej /= /k Ep R1 R2 !eqxx.
  have -> : (i %% 2 + 2 < 2)%N = false by lia.
  have -> : (i %% 2 + 2 < 4)%N by lia.
  by split=> //; rewrite (Ei2 Hi1) Ej /= /k Ep.
move: Hk0 Er Ei; set k0 := if _ then _ else _ => Hk0 Er Ei.
have [P N M1 M2] := Fin q k0 Hq4 Hk0 Er Ei.
have [N0 P' D] := normalized P N.
do 4 eexists; rewrite /abs2 !vnorm_sq (negbTE N0); split; [by []|by []|exact: P'|exact: D|by []].
Qed.
End Hamilt.
Print Assumptions C59_hamiltonian.

(** The values at the indices that belong to a sorted position *)
Theorem C59_values (F : rcfType) (V : lmodType F) (H : V -> V) nconv eigr eigi perm sh v first j :
  layout H nconv eigr eigi perm sh v first -> (j < nconv)%N ->
  let a := eigr (perm j) in let b := eigi (perm j) in
  let value i := hamilt_eigenvalue nconv eigr eigi perm i in
  if b == 0 then value (2 * j)%N = Ok (a, 0) /\ value (2 * j).+1 = Ok (- a, 0) else
  if a == 0 then value (2 * j)%N = Ok (0, b) /\ value (2 * j).+1 = Ok (0, - b) else
  first j -> [/\ value (2 * j)%N = Ok (- a, b), value (2 * j).+1 = Ok (- a, - b),
                 value (2 * j).+2 = Ok (a, b) & value (2 * j).+3 = Ok (a, - b)].
Proof.
move=> HLay Hj a b value; have := HLay _ Hj; rewrite /= -/a -/b.
have D0 : (2 * j %/ 2)%N = j by rewrite mulKn.
have D1 : ((2 * j).+1 %/ 2)%N = j by lia.
have D2 : ((2 * j).+2 %/ 2)%N = j.+1 by lia.
have D3 : ((2 * j).+3 %/ 2)%N = j.+1 by lia.
have O0 : odd (2 * j) = false by rewrite oddM.
have L0 : (2 * j < 2 * nconv)%N by lia.
have L1 : ((2 * j).+1 < 2 * nconv)%N by lia.
have M0 : (2 * j %% 2)%N = 0%N by rewrite modnMr.
have M1 : ((2 * j).+1 %% 2)%N = 1%N by lia.
case: (altP (b =P 0)) => [Eb|Nb].
  by move=> _; rewrite /value /hamilt_eigenvalue L0 L1 /= D0 D1 -/a -/b Eb eqxx O0.
case: (altP (a =P 0)) => [Ea|Na].
  by move=> _; rewrite /value /hamilt_eigenvalue L0 L1 /= D0 D1 -/a -/b (negbTE Nb) Ea eqxx O0.
move=> HB Fj; move: HB; rewrite Fj => -[[J1 _ Ep] [R1 R2] _ Sep].
have L2 : ((2 * j).+2 < 2 * nconv)%N by lia.
have L3 : ((2 * j).+3 < 2 * nconv)%N by lia.
have S i : (i %/ 2)%N = j -> quad_index eigr eigi perm i = (i %% 2)%N.
  move=> Ei; rewrite /quad_index Ei; case: ifP => // Hi; case: ifP => // /andP[/eqP S1 /eqP S2].
  have Ej : j = ((i - 2) %/ 2).+1 by lia.
  by case: (Sep _ Ej).
have S' i : (i %/ 2)%N = j.+1 -> quad_index eigr eigi perm i = (i %% 2 + 2)%N.
  move=> Ei; rewrite /quad_index Ei.
  have -> : (1 < i)%N by lia.
  have -> : ((i - 2) %/ 2)%N = j by lia.
  by rewrite Ep R1 R2 !eqxx.
have M2 : ((2 * j).+2 %% 2)%N = 0%N by lia.
have M3 : ((2 * j).+3 %% 2)%N = 1%N by lia.
split; rewrite /value /hamilt_eigenvalue ?L0 ?L1 ?L2 ?L3 /check ?D0 ?D1 ?D2 ?D3.
- by rewrite -/a -/b (negbTE Nb) (negbTE Na) (S _ D0) M0.
- by rewrite -/a -/b (negbTE Nb) (negbTE Na) (S _ D1) M1.
- by rewrite Ep R1 R2 -/a -/b oppr_eq0 (negbTE Nb) (negbTE Na) (S' _ D2) M2 /= opprK.
- by rewrite Ep R1 R2 -/a -/b oppr_eq0 (negbTE Nb) (negbTE Na) (S' _ D3) M3 /=.
Qed.
Print Assumptions C59_values.

(** Without the last condition of the layout it fails: for a quadruple computed twice the second copy is taken for
    the continuation of the first one, and -lambda and -conj(lambda) are reported once only. *)
Theorem C59_repeated_refuted (F : rcfType) (a b : F) : a != 0 -> b != 0 ->
  let eigr (_ : nat) := a in let eigi k := if odd k then - b else b in
  conjugate_pairs 4 eigr eigi /\
  forall i, (4 <= i < 8)%N -> exists ki, hamilt_eigenvalue 4 eigr eigi id i = Ok (a, ki).
Proof.
move=> Na Nb eigr eigi; split.
  move=> [|[|[|[|//]]]] _ //=; rewrite /eigi /= ?(negbTE Nb) ?oppr_eq0 ?(negbTE Nb) //.
move=> [|[|[|[|[|[|[|[|//]]]]]]]] // _; rewrite /hamilt_eigenvalue /eigi /= ?oppr_eq0 (negbTE Nb) (negbTE Na);
  by rewrite /quad_index /= /eigr ?opprK !eqxx /=; eexists.
Qed.
Print Assumptions C59_repeated_refuted.

(** Concrete case: H = [0 1; 4 0] has the eigenvalues 2 and -2; u = e1 in column 0, v = H u = e2 in column 3. *)
Notation R2 := (realalg^o * realalg^o)%type.
Definition ham (x : R2) : R2 := (4%:R *: x.2, x.1).
Definition dotR (x y : R2) : realalg := (x.1 : realalg) * y.1 + (x.2 : realalg) * y.2.
Definition hcols (k : nat) : R2 := if k == 0%N then (1, 0) else (0, 1).
Example ex_C59 i : (i < 2)%N -> exists kr ki xr xi,
  [/\ hamilt_eigenvalue 1 (fun _ => 2%:R : realalg) (fun _ => 0) id i = Ok (kr, ki),
    hamilt_eigenvector dotR 1 (fun _ => 2%:R) (fun _ => 0) id 3 hcols i = Ok (xr, xi) &
    eigenpair ham id kr ki xr xi /\ dotR xr xr + dotR xi xi = 1].
Proof.
move=> Hi.
have HL c (x y : R2) : ham (c *: x + y) = c *: ham x + ham y.
  by congr (_, _); rewrite /= scalerDr !scalerA mulrC.
have dL c (x y z : R2) : dotR (c *: x + y) z = c * dotR x z + dotR y z.
  by rewrite /dotR /= !mulrDl -!mulrA mulrDr addrACA; congr (_ + _ + _); rewrite mulrA.
have dC (x y : R2) : dotR x y = dotR y x by rewrite /dotR mulrC [x.2 * _]mulrC.
have dG (x : R2) : x != 0 -> 0 < dotR x x.
  move=> N; rewrite /dotR -!expr2 lt_def addr_ge0 ?sqr_ge0 // andbT paddr_eq0 ?sqr_ge0 // !sqrf_eq0.
  by apply: contra N => /andP[/eqP E1 /eqP E2]; apply/eqP; rewrite [x]surjective_pairing E1 E2.
have [|kr [ki [xr [xi [E1 E2 E3 E4 _]]]]] := @C59_hamiltonian _ _ ham dotR HL dL dC dG 1 (fun _ => 2%:R) (fun _ => 0) id 3
  hcols (fun _ => false) i _ Hi; last by exists kr, ki, xr, xi.
move=> [|//] _ /=; rewrite eqxx; split=> /=.
- by congr (_, _); rewrite /= scaler0.
- by rewrite /hcols /=; congr (_, _); rewrite /= ?scaler0 // -natrX.
- by move=> a; apply/eqP => -[_ /eqP]; rewrite scaler0 oner_eq0.
Qed.
