(** The operators of PEPLINEAR and the eigenpairs of the polynomial: proofs. *)
From mathcomp Require Import all_ssreflect all_algebra zify ring.
From Verif Require Import Prelude STModel STSpec PEPModel PEPSpec PEPProofs PEPProofs2 PEPProofs3.
Set Implicit Arguments. Unset Strict Implicit. Unset Printing Implicit Defensive.
Import GRing.Theory Num.Theory.
Local Open Scope ring_scope.

Section Algebra.
Variable F : numFieldType.
Variable n : nat.
Notation mat := 'M[F]_n.
Notation vec := 'cV[F]_n.
Variables (a b g : nat -> F).

Definition prev (X : nat -> vec) (i : nat) : vec := if i is i'.+1 then g i *: X i' else 0.

Lemma phiS z i : phi a b g z i.+1 = ((z - b i) * phi a b g z i - (if i is i'.+1 then g i * phi a b g z i' else 0)) / a i.
Proof. by case: i => [|i]; [rewrite phi0 phi1 mulr1 subr0 | rewrite phiSS]. Qed.

Lemma row_solve (ai bi z : F) (G X Y : vec) : ai != 0 ->
  (G + bi *: X + ai *: Y = z *: X) <-> (Y = ai^-1 *: ((z - bi) *: X - G)).
Proof.
move=> A; split=> [E|->].
  have -> : (z - bi) *: X - G = ai *: Y by rewrite scalerBl -E [X in X - _ - _]addrAC addrK addrAC subrr add0r.
  by rewrite scalerA mulVf // scale1r.
by rewrite scalerA divff // scale1r scalerBl addrC addrA !subrK.
Qed.

Lemma rec_phi (X : nat -> vec) z N : (forall i, (i < N)%N -> a i != 0) ->
  (forall i, (i < N)%N -> prev X i + b i *: X i + a i *: X i.+1 = z *: X i) <->
  (forall i, (i <= N)%N -> X i = phi a b g z i *: X 0%N).
Proof.
move=> A; split=> H.
  have H2 : forall i, (i <= N)%N -> X i = phi a b g z i *: X 0%N /\
     ((0 < i)%N -> X i.-1 = phi a b g z i.-1 *: X 0%N).
    elim=> [|i IH] Hi; first by rewrite phi0 scale1r.
    have [E1 E2] := IH (ltnW Hi); split=> //.
    have /row_solve -> := H i Hi; last exact: A.
    rewrite phiS E1 mulrC -scalerA; congr (_ *: _); rewrite [RHS]scalerBl scalerA; congr (_ - _).
    by case: i E2 {IH Hi E1} => [|i] E2 /=; rewrite ?scale0r // [X i](E2 isT) scalerA.
  by move=> i /H2 [].
move=> i Hi; apply/row_solve; first exact: A.
rewrite (H i.+1 Hi) (H i (ltnW Hi)) phiS mulrC -scalerA; congr (_ *: _).
rewrite [LHS]scalerBl scalerA; congr (_ - _); case: i Hi => [|i] Hi /=; rewrite ?scale0r // [X i]H ?scalerA //.
by lia.
Qed.

Variables (d : nat) (T : seq mat) (m : mat) (p : pep F n).
Hypothesis d2 : (1 < d)%N.
Hypothesis A0 : forall i, (i < d)%N -> a i != 0.
Let sf := c_scale (cfg p).
Hypothesis sf0 : sf != 0.
Hypothesis mU : m \in unitmx.

Definition pol (z : F) : mat := \sum_(i < d.+1) (sf ^+ i * phi a b g z i) *: nth 0 T i.

Lemma polE z (X : nat -> vec) x : (forall i, (i <= d)%N -> X i = phi a b g z i *: x) ->
  pol z *m x = \sum_(i < d.+1) sf ^+ i *: (nth 0 T i *m X i).
Proof.
move=> H; rewrite /pol mulmx_suml; apply: eq_bigr => i _; rewrite H; last by case: i => /= i; lia.
by rewrite -scalemxAl -scalemxAr scalerA.
Qed.

(** *** Shift *)
Lemma shift_eig (sigma th : F) (x : nat -> vec) : m = nth 0 T d ->
  (forall i, (i < d)%N -> row_ a b g d T m p sigma x i = th *: x i) <->
  (forall i, (i < d)%N -> x i = phi a b g (th + sigma) i *: x 0%N) /\ pol (th + sigma) *m x 0%N = 0.
Proof.
move=> Em.
pose X i := if (i < d)%N then x i else ghost d T m p x.
have X0 : X 0%N = x 0%N by rewrite /X; have -> : (0 < d)%N by lia.
have Xi i : (i < d)%N -> X i = x i by rewrite /X => ->.
have Hrow i : (i < d)%N -> (row_ a b g d T m p sigma x i = th *: x i) <->
    (prev X i + b i *: X i + a i *: X i.+1 = (th + sigma) *: X i).
  move=> Hi.
  have -> : prev X i = prev x i.
    by case: i Hi => [|i] Hi //=; rewrite Xi //; lia.
  have -> : X i.+1 = next d T m p x i.
    rewrite /next; case: eqP => [E|N]; first by rewrite /X E ltnn.
    by rewrite Xi //; lia.
  rewrite Xi // /row_ -/(prev x i) scalerBl scalerDl; set u := prev x i.
  set v := b i *: x i; set w := a i *: _; set s := sigma *: x i; set t := th *: x i.
  split=> [<-|E]; first by rewrite [RHS]addrAC -[u + (v - s) + s]addrA subrK.
  by rewrite -[t](addrK s) -E [RHS]addrAC addrA.
have Hd : (X d = phi a b g (th + sigma) d *: x 0%N) ->
   (forall i, (i < d)%N -> x i = phi a b g (th + sigma) i *: x 0%N) -> pol (th + sigma) *m x 0%N = 0.
  move=> E H; rewrite (@polE _ X); last first.
    by move=> i; rewrite leq_eqVlt => /orP [/eqP -> //|Hi]; rewrite Xi // H.
  rewrite big_ord_recr /= {2}/X ltnn /ghost -Em -scalemxAr mulmxA mulmxV // mul1mx scalerA mulrN divff ?expf_neq0 //.
  rewrite scaleN1r; apply/eqP; rewrite subr_eq0; apply/eqP; apply: eq_bigr => i _; rewrite Xi //.
split=> [H|[H P]].
  have H' : forall i, (i < d)%N -> prev X i + b i *: X i + a i *: X i.+1 = (th + sigma) *: X i.
    by move=> i Hi; apply/Hrow => //; apply: H.
  have {H'} /(_ _) H' := (iffLR (rec_phi X (th + sigma) A0)) H'.
  have H1 : forall i, (i < d)%N -> x i = phi a b g (th + sigma) i *: x 0%N.
    by move=> i Hi; rewrite -X0 -H' ?Xi // ltnW.
  by split=> //; apply: Hd => //; rewrite -X0; apply: H'.
move=> i Hi; apply/Hrow => //; move: i Hi; apply/rec_phi => // i.
rewrite leq_eqVlt => /orP [/eqP -> {i}|Hi]; last by rewrite X0 Xi // H.
rewrite X0 {1}/X ltnn /ghost.
have E : \sum_(i < d) sf ^+ i *: (nth 0 T i *m x i) = - (sf ^+ d * phi a b g (th + sigma) d) *: (m *m x 0%N).
  move/eqP: P; rewrite /pol big_ord_recr /= mulmxDl addrC addr_eq0 => /eqP P.
  rewrite scaleNr Em scalemxAl P opprK mulmx_suml; apply: eq_bigr => i _.
  by rewrite (H i (ltn_ord i)) -scalemxAl -scalemxAr scalerA.
rewrite -/sf E -scalemxAr mulmxA mulVmx // mul1mx scalerA mulrNN mulrA mulVf ?expf_neq0 // mul1r //.
Qed.

(** *** Shift-and-invert *)
Lemma hyE (sigma : F) (x : nat -> vec) (y0 : vec) i : a i != 0 ->
  let Y k := hy a b g sigma x k + phi a b g sigma k *: y0 in
  prev Y i + b i *: Y i + a i *: Y i.+1 - sigma *: Y i = x i.
Proof.
move=> Ai Y.
pose q := if i is i'.+1 then g i * phi a b g sigma i' else 0.
have -> : a i *: Y i.+1 = x i + (sigma - b i) *: hy a b g sigma x i - prev (hy a b g sigma x) i +
     ((sigma - b i) * phi a b g sigma i - q) *: y0.
  by rewrite /Y hyS phiS scalerDr scalerA divff // scale1r scalerA mulrCA divff // mulr1.
have -> : prev Y i = prev (hy a b g sigma x) i + q *: y0.
  by rewrite /q; case: i {Ai q} => [|i] /=; rewrite ?scale0r ?addr0 // scalerDr scalerA.
rewrite /Y; move: (prev _ _) (hy _ _ _ _ _ i) (phi _ _ _ _ i) q => h k f q.
apply/colP => r; rewrite !mxE.
move: (h r _) (k r _) (y0 r _) (x i r _) (b i) => h1 k1 y1 x1 b1; ring.
Qed.

Lemma sinvert_eig (sigma th : F) (x : nat -> vec) : th != 0 ->
  g d.-1 = 0 \/ d = 2%N -> m = pol sigma ->
  (forall i, (i < d)%N -> hy a b g sigma x i + phi a b g sigma i *: top a b g d T m p sigma x = th *: x i) <->
  (forall i, (i < d)%N -> x i = phi a b g (th^-1 + sigma) i *: x 0%N) /\ pol (th^-1 + sigma) *m x 0%N = 0.
Proof.
move=> th0 G Em; set y0 := top _ _ _ _ _ _ _ _ _.
pose Y k := hy a b g sigma x k + phi a b g sigma k *: y0.
have Y0 : Y 0%N = y0 by rewrite /Y phi0 scale1r add0r.
have d0 : (0 < d)%N by lia.
have Hr : rhs a b g d T p sigma x = \sum_(i < d.+1) sf ^+ i *: (nth 0 T i *m hy a b g sigma x i).
  rewrite big_ord_recr /= /rhs -(big_mkord predT (fun i => sf ^+ i *: (nth 0 T i *m hy a b g sigma x i))) (big_ltn d0).
  rewrite /= mulmx0 scaler0 add0r -/sf; congr (_ + _).
    apply/eqP; rewrite -subr_eq0 addrAC subrr add0r; apply/eqP.
    by case: G => G; [rewrite G mul0r mulr0 scale0r | rewrite G /= mulmx0 scaler0].
  have -> : hy a b g sigma x d = (a d.-1)^-1 *: (x d.-1 + (sigma - b d.-1) *: hy a b g sigma x d.-1).
    rewrite -[in LHS](prednK d0) hyS; case E: d.-1 => [|e]; first by rewrite subr0.
    rewrite -E; case: G => [G|G]; first by rewrite G scale0r subr0.
    have -> : e = 0%N by lia.
    by rewrite /= scaler0 subr0.
  by rewrite -[in RHS]scalemxAr scalerA.
have Pz : pol sigma *m y0 + rhs a b g d T p sigma x = 0.
  by rewrite -Em /y0 /top mulmxN mulmxA mulmxV // mul1mx addNr.
have Sy : \sum_(i < d.+1) sf ^+ i *: (nth 0 T i *m Y i) = 0.
  rewrite -[RHS]Pz Hr /pol mulmx_suml -big_split /=; apply: eq_bigr => i _.
  by rewrite /Y mulmxDr scalerDr addrC -scalemxAl -scalemxAr scalerA.
have Hrow i : (i < d)%N -> prev Y i + b i *: Y i + a i *: Y i.+1 = x i + sigma *: Y i.
  by move=> Hi; rewrite -(@hyE sigma x y0 i (A0 Hi)) subrK.
have th1 : (th^-1 + sigma) - sigma != 0 by rewrite addrK invr_eq0.
split=> [H|[H P]].
  have HY : forall i, (i < d)%N -> prev Y i + b i *: Y i + a i *: Y i.+1 = (th^-1 + sigma) *: Y i.
    by move=> i Hi; rewrite Hrow // scalerDl; congr (_ + _); rewrite /Y H // scalerA mulVf // scale1r.
  have {}HY := (iffLR (rec_phi Y (th^-1 + sigma) A0)) HY.
  have xY i : (i < d)%N -> x i = th^-1 *: Y i by move=> Hi; rewrite /Y H // scalerA mulVf // scale1r.
  split=> [i Hi|]; first by rewrite (xY i Hi) (xY 0%N d0) (HY i (ltnW Hi)) [LHS]scalerA mulrC -scalerA.
  rewrite (xY 0%N d0) -scalemxAr (@polE _ Y) ?Sy ?scaler0 // => i Hi; exact: HY.
pose Z i := phi a b g (th^-1 + sigma) i *: (th *: x 0%N).
have Z0 : Z 0%N = th *: x 0%N by rewrite /Z phi0 scale1r.
have HZ : forall i, (i < d)%N -> prev Z i + b i *: Z i + a i *: Z i.+1 = (th^-1 + sigma) *: Z i.
  by apply/rec_phi => // i Hi; rewrite Z0.
pose D i := Y i - Z i.
have HD : forall i, (i < d)%N -> prev D i + b i *: D i + a i *: D i.+1 = sigma *: D i.
  move=> i Hi.
  have -> : prev D i + b i *: D i + a i *: D i.+1 =
     (prev Y i + b i *: Y i + a i *: Y i.+1) - (prev Z i + b i *: Z i + a i *: Z i.+1).
    have -> : prev D i = prev Y i - prev Z i by case: i {Hi} => [|i] /=; rewrite ?subr0 // scalerBr.
    rewrite /D; move: (prev Y i) (prev Z i) (Y i) (Z i) (Y i.+1) (Z i.+1) => u1 u2 u3 u4 u5 u6.
    by apply/colP => r; rewrite !mxE; move: (u1 r _) (u2 r _) (u3 r _) (u4 r _) (u5 r _) (u6 r _) (a i) (b i) => *; ring.
  rewrite Hrow // HZ // scalerDl opprD addrACA scalerBr (H i Hi) /Z.
  have -> : th^-1 *: (phi a b g (th^-1 + sigma) i *: (th *: x 0%N)) = phi a b g (th^-1 + sigma) i *: x 0%N.
    by rewrite !scalerA mulrAC mulVf // mul1r.
  by rewrite subrr add0r.
have {}HD := (iffLR (rec_phi D sigma A0)) HD.
have D0 : D 0%N = 0.
  have : m *m D 0%N = 0.
    rewrite Em (@polE _ D) //.
    rewrite (eq_bigr (fun i : 'I_d.+1 => sf ^+ i *: (nth 0 T i *m Y i) - sf ^+ i *: (nth 0 T i *m Z i))); last first.
      by move=> i _; rewrite /D mulmxBr scalerBr.
    rewrite sumrB Sy sub0r; apply/eqP; rewrite oppr_eq0; apply/eqP.
    rewrite -(@polE (th^-1 + sigma) Z (th *: x 0%N)) //.
    by rewrite -scalemxAr P scaler0.
  by move/(congr1 (mulmx (invmx m))); rewrite mulmxA mulVmx // mul1mx mulmx0.
move=> i Hi; have /eqP := HD i (ltnW Hi); rewrite D0 scaler0 /D subr_eq0 => /eqP E.
by rewrite -/(Y i) E /Z (H i Hi) !scalerA mulrC.
Qed.
End Algebra.
