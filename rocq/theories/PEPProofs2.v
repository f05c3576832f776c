(** Real arithmetic, residuals, classical polynomials: proofs. *)
From mathcomp Require Import all_ssreflect all_algebra zify.
From mathcomp Require Import complex algebra_tactics.ring.
From Verif Require Import Prelude STModel STSpec PEPModel PEPSpec PEPProofs.
Set Implicit Arguments. Unset Strict Implicit. Unset Printing Implicit Defensive.
Import GRing.Theory Num.Theory.
Local Open Scope ring_scope.

Ltac bok := rewrite [bind (Ok _) _]/=.

(** ** Pairs of real numbers *)
Section Pairs.
Variable R : rcfType.
Local Open Scope complex_scope.
Variables (a b g : nat -> R) (s t : R).
Let ac k := (a k)%:C.
Let bc k := (b k)%:C.
Let gc k := (g k)%:C.
Notation cphi := (phi ac bc gc (s +i* t)).
Notation cdphi := (dphi ac bc gc (s +i* t)).
Definition re (z : R[i]) : R := let: x +i* _ := z in x.
Definition im (z : R[i]) : R := let: _ +i* y := z in y.

Lemma reK z : z = re z +i* im z. Proof. by case: z. Qed.

Lemma divC (z : R[i]) (c : R) : z / c%:C = (re z / c) +i* (im z / c).
Proof.
have -> : c%:C^-1 = (c^-1)%:C by rewrite fmorphV.
by case: z => x y; simpc.
Qed.

Lemma cphi1 : cphi 1 = ((s - b 0%N) / a 0%N) +i* (t / a 0%N).
Proof. by rewrite phi1 divC /bc; simpc. Qed.
Lemma cphiSS k : cphi k.+2 =
  (((s - b k.+1) * re (cphi k.+1) - g k.+1 * re (cphi k)) / a k.+1 - t * im (cphi k.+1) / a k.+1) +i*
  (((s - b k.+1) * im (cphi k.+1) + t * re (cphi k.+1) - g k.+1 * im (cphi k)) / a k.+1).
Proof.
rewrite phiSS divC /bc /gc; case: (cphi k.+1) (cphi k) => x y [x' y'] /=; simpc => /=.
by congr (_ +i* _); rewrite -?mulrBl; congr (_ / _); ring.
Qed.

Lemma eval_basis_riE nm v iv : (1 < nm)%N -> size v = nm -> size iv = nm ->
  eval_basis_ri nm (tri nm a b g) s t (v, iv) =
  Ok (mkseq (fun k => re (cphi k)) nm, mkseq (fun k => im (cphi k)) nm).
Proof.
move=> H S S'; rewrite (mk_nth 0 S) (mk_nth 0 S') /eval_basis_ri.
have -> : for_ 0 nm (fun k => (wr (T:=R))^~ k^~ 0) (mkseq (nth 0 iv) nm) = Ok (mkseq (fun _ => 0) nm).
  apply: (@forE' _ (fun i => mkseq (fun k => if (k < i)%N then 0 else nth 0 iv k) nm)) => //.
    by apply: eq_mk => i ->.
  move=> i Hi; rewrite wr_mk; last by lia.
  congr Ok; apply: eq_mk => k Hk; rewrite /upd1; case: eqP => [->|Hn]; first by rewrite ltnSn.
  by have -> : (k < i.+1)%N = (k < i)%N by lia.
bok; rewrite wr_mk; last by lia.
bok; rewrite -{2}[nm]addn0 rd_cb; last by lia.
bok; rewrite rd_ca; last by lia.
bok; rewrite wr_mk //; bok; rewrite wr_mk //; bok.
pose G (f : R[i] -> R) (h : nat -> R) i := mkseq (fun k => if (k < i)%N then f (cphi k) else h k) nm.
apply: (@forE' _ (fun i => (G re (nth 0 v) i, G im (fun => 0) i))) => //.
- by congr (_, _); apply: eq_mk => -[|[|i]] //= _; rewrite /upd1 ?phi0 ?cphi1.
- by congr (_, _); apply: eq_mk => i ->.
move=> [|[|i]] // Hi; rewrite !subSS !subn0 rd_cb; last by lia.
bok; rewrite rd_cg; last by lia.
bok; rewrite rd_ca; last by lia.
bok; rewrite rd_mk; last by lia.
bok; rewrite rd_mk; last by lia.
bok; rewrite rd_mk; last by lia.
bok; rewrite rd_mk; last by lia.
bok; rewrite wr_mk; last by lia.
bok; rewrite rd_mk; last by lia.
bok; rewrite wr_mk; last by lia.
bok; rewrite wr_mk; last by lia.
bok; rewrite ltnSn; have -> : (i < i.+2)%N by lia.
rewrite /upd1 eqxx; congr (Ok (_, _)); apply: eq_mk => k Hk.
  case: eqP => [->|Hn]; first by rewrite ltnSn cphiSS.
  by have -> : (k < i.+3)%N = (k < i.+2)%N by lia.
case: eqP => [->|Hn]; first by rewrite ltnSn cphiSS.
by have -> : (k < i.+3)%N = (k < i.+2)%N by lia.
Qed.

Lemma cdphiSS k : cdphi k.+2 =
  ((re (cphi k.+1) + ((s - b k.+1) * re (cdphi k.+1) - g k.+1 * re (cdphi k)) - t * im (cdphi k.+1)) / a k.+1) +i*
  ((im (cphi k.+1) + ((s - b k.+1) * im (cdphi k.+1) + t * re (cdphi k.+1) - g k.+1 * im (cdphi k))) / a k.+1).
Proof.
rewrite dphiSS divC /bc /gc; case: (cphi k.+1) (cdphi k.+1) (cdphi k) => x y [x1 y1] [x2 y2] /=; simpc => /=.
by congr (_ +i* _); congr (_ / _); ring.
Qed.

Lemma eval_derivative_riE nm v iv : (1 < nm)%N -> size v = nm -> size iv = nm ->
  eval_derivative_ri nm (tri nm a b g) s t (v, iv) =
  Ok (mkseq (fun k => re (cdphi k)) nm, mkseq (fun k => im (cdphi k)) nm).
Proof.
move=> H S S'; rewrite /eval_derivative_ri eval_basis_riE //; bok; rewrite shift_upE; last by lia.
bok; rewrite shift_upE; last by lia.
bok; rewrite wr_mk; last by lia.
bok; rewrite rd_ca; last by lia.
bok; rewrite rd_mk //; bok; rewrite wr_mk //; bok; rewrite rd_mk //; bok; rewrite wr_mk //; bok.
pose G (f : R[i] -> R) i := mkseq (fun k => if (k < i)%N then f (cdphi k) else f (cphi k.-1)) nm.
apply: (@forE' _ (fun i => (G re i, G im i))) => //.
- congr (_, _); apply: eq_mk => -[|[|i]] //= Hi; rewrite /upd1 /= ?dphi0 ?dphi1 ?phi0 //.
  + have -> : (1 <= nm - 1)%N by lia.
    by rewrite divC.
  + by have -> : (i.+2 <= nm - 1)%N by lia.
  + have -> : (1 <= nm - 1)%N by lia.
    by rewrite divC /= ?mul0r.
  + by have -> : (i.+2 <= nm - 1)%N by lia.
- by congr (_, _); apply: eq_mk => i ->.
move=> [|[|i]] // Hi; rewrite !subSS !subn0 rd_cb; last by lia.
bok; rewrite rd_cg; last by lia.
bok; rewrite rd_ca; last by lia.
bok; rewrite rd_mk; last by lia.
bok; rewrite rd_mk; last by lia.
bok; rewrite rd_mk; last by lia.
bok; rewrite rd_mk; last by lia.
bok; rewrite rd_mk; last by lia.
bok; rewrite wr_mk; last by lia.
bok; rewrite rd_mk; last by lia.
bok; rewrite wr_mk; last by lia.
bok; rewrite rd_mk; last by lia.
bok; rewrite wr_mk; last by lia.
bok; rewrite rd_mk; last by lia.
bok; rewrite wr_mk; last by lia.
bok; rewrite rd_mk; last by lia.
bok; rewrite wr_mk; last by lia.
bok; rewrite /upd1 !eqxx ltnn ltnSn; have -> : (i < i.+2)%N by lia.
congr (Ok (_, _)); apply: eq_mk => k Hk.
  case: eqP => [->|Hn]; first by rewrite ltnSn cdphiSS.
  by have -> : (k < i.+3)%N = (k < i.+2)%N by lia.
case: eqP => [->|Hn]; first by rewrite ltnSn cdphiSS.
by have -> : (k < i.+3)%N = (k < i.+2)%N by lia.
Qed.
End Pairs.

(** ** Residuals *)
Section Res.
Variable F : numFieldType.
Variable n : nat.
Notation mat := 'M[F]_n.
Notation vec := 'cV[F]_n.
Variables (a b g : nat -> F).

Lemma residualE nm (A : seq mat) z (x : vec) vals : (1 < nm)%N -> size A = nm -> size vals = nm ->
  residual nm A (tri nm a b g) z x vals = Ok ((\sum_(i < nm) phi a b g z i *: nth 0 A i) *m x).
Proof.
move=> H SA SV; rewrite /residual eval_basisE //; bok.
apply: (@forE' _ (fun k => \sum_(i < k) phi a b g z i *: (nth 0 A i *m x))) => //.
- by rewrite big_ord0.
- by rewrite mulmx_suml; apply: eq_bigr => i _; rewrite scalemxAl.
move=> i Hi; rewrite rd_mk; last by lia.
bok; rewrite big_ord_recr /=; case: eqP => [->|_] /=; first by rewrite scale0r addr0.
by rewrite (rdE 0) ?SA //=; lia.
Qed.
End Res.

Section ResRI.
Variable R : rcfType.
Variable n : nat.
Notation mat := 'M[R]_n.
Notation vec := 'cV[R]_n.
Local Open Scope complex_scope.
Variables (a b g : nat -> R).
Notation cphi z := (phi (fun k => (a k)%:C) (fun k => (b k)%:C) (fun k => (g k)%:C) z).
Definition cmx m (u v : 'M[R]_(n, m)) : 'M[R[i]]_(n, m) := \matrix_(i, j) (u i j +i* v i j).

Lemma residual_riE eps nm (A : seq mat) s t xr xi v iv w wi :
  (1 < nm)%N -> size A = nm -> size v = nm -> size iv = nm ->
  let z := s +i* t in
  let imag := ~~ ((t == 0) || (`|t| < `|s * eps|)) in
  residual_ri eps nm A (tri nm a b g) s t xr xi (v, iv) w wi = Ok
  (if imag then
     (\sum_(i < nm) (re (cphi z i) *: (nth 0 A i *m xr) - im (cphi z i) *: (nth 0 A i *m xi)),
      \sum_(i < nm) (im (cphi z i) *: (nth 0 A i *m xr) + re (cphi z i) *: (nth 0 A i *m xi)))
   else (\sum_(i < nm) re (cphi z i) *: (nth 0 A i *m xr), 0)).
Proof.
move=> H SA SV SI z imag; rewrite /residual_ri eval_basis_riE //; bok; rewrite -/z -/imag.
set B := fun i st => _.
pose U k := \sum_(i < k) (re (cphi z i) *: (nth 0 A i *m xr) -
  (if imag then im (cphi z i) *: (nth 0 A i *m xi) else 0)).
pose V k := \sum_(i < k) (if imag then
  (im (cphi z i) *: (nth 0 A i *m xr) + re (cphi z i) *: (nth 0 A i *m xi)) else 0).
have L k : (k <= nm)%N -> exists w' wi', for_ 0 k B (0, 0, w, wi) = Ok (U k, V k, w', wi').
  elim: k => [|k IH] Hk; first by exists w, wi; rewrite /for_ /= /U /V !big_ord0.
  have [w' [wi' E]] := IH (ltnW Hk).
  rewrite for_recr //.
  rewrite E; bok; rewrite /B rd_mk //; bok; rewrite rd_mk //; bok; rewrite (rdE 0) ?SA //; bok.
  rewrite /U /V !big_ord_recr /= -/(U k) -/(V k).
  case: (imag) => /=; last first.
    rewrite addr0 subr0; case: eqP => [->|_] /=; last by eexists; eexists.
    by rewrite scale0r addr0; eexists; eexists.
  case: (eqVneq (re _) 0) => [->|r0] /=; case: (eqVneq (im _) 0) => [->|i0] /=;
    eexists; eexists; rewrite ?scale0r ?subr0 ?add0r ?addr0 ?scaleNr -?addrA //.
have [w' [wi' ->]] := L nm (leqnn nm); bok; rewrite /U /V; case: (imag) => //.
by congr (Ok (_, _)); [apply: eq_bigr => i _; rewrite subr0|rewrite big1].
Qed.

(** The pair of real vectors is the complex residual. *)
Lemma residual_complex nm (A : seq mat) z (xr xi : vec) :
  (\sum_(i < nm) cphi z i *: cmx (nth 0 A i) 0) *m cmx xr xi =
  cmx (\sum_(i < nm) (re (cphi z i) *: (nth 0 A i *m xr) - im (cphi z i) *: (nth 0 A i *m xi)))
      (\sum_(i < nm) (im (cphi z i) *: (nth 0 A i *m xr) + re (cphi z i) *: (nth 0 A i *m xi))).
Proof.
have cD m (u v u' v' : 'M[R]_(n, m)) : cmx u v + cmx u' v' = cmx (u + u') (v + v').
  by apply/matrixP => i j; rewrite !mxE; simpc.
have c0 m : cmx (0 : 'M[R]_(n, m)) 0 = 0 by apply/matrixP => i j; rewrite !mxE.
have cS m k (f h : nat -> 'M[R]_(n, m)) : \sum_(i < k) cmx (f i) (h i) = cmx (\sum_(i < k) f i) (\sum_(i < k) h i).
  by elim: k => [|k IH]; rewrite ?big_ord0 ?c0 // !big_ord_recr /= IH cD.
rewrite mulmx_suml -(cS _ _ (fun i => re (cphi z i) *: (nth 0 A i *m xr) - im (cphi z i) *: (nth 0 A i *m xi))
  (fun i => im (cphi z i) *: (nth 0 A i *m xr) + re (cphi z i) *: (nth 0 A i *m xi))).
apply: eq_bigr => i _; set M := nth 0 A i; set c := cphi z i.
have cM : cmx M 0 *m cmx xr xi = cmx (M *m xr) (M *m xi).
  apply/matrixP => p q; rewrite !mxE.
  have E (f h : 'I_n -> R) : \sum_k (f k +i* h k) = (\sum_k f k) +i* (\sum_k h k).
    by elim/big_rec3: _ => // k x y z' _ ->; simpc.
  by rewrite -E; apply: eq_bigr => k _; rewrite !mxE; simpc; rewrite ?mul0r ?subr0 ?addr0 ?add0r.
rewrite -scalemxAl cM [c in LHS]reK; apply/matrixP => p q; rewrite !mxE; simpc.
by congr (_ +i* _); rewrite addrC.
Qed.
End ResRI.

(** ** Classical polynomials *)
Section Classical.
Variable F : numFieldType.
Notation Y := ('X^2 - 1 : {poly F}).
Definition even_ N k : {poly F} := \sum_(i < N) ('C(k, i.*2))%:R *: ('X^(k - i.*2) * Y ^+ i).
Definition odd_ N k : {poly F} := \sum_(i < N) ('C(k, i.*2.+1))%:R *: ('X^(k - i.*2.+1) * Y ^+ i).

Lemma even_ext N M k : (k < N)%N -> (N <= M)%N -> even_ M k = even_ N k.
Proof.
move=> H; elim: M => [|M IH] HM; first by have -> : N = 0%N by lia.
move: HM; rewrite leq_eqVlt => /orP [/eqP ->//|HM].
rewrite /even_ big_ord_recr /= -/(even_ M k) IH // bin_small ?scale0r ?addr0 //; lia.
Qed.
Lemma odd_ext N M k : (k <= N)%N -> (N <= M)%N -> odd_ M k = odd_ N k.
Proof.
move=> H; elim: M => [|M IH] HM; first by have -> : N = 0%N by lia.
move: HM; rewrite leq_eqVlt => /orP [/eqP ->//|HM].
rewrite /odd_ big_ord_recr /= -/(odd_ M k) IH // bin_small ?scale0r ?addr0 //; lia.
Qed.

Lemma binX m k l : ('C(k, l))%:R *: ('X^(k.+1 - l) * m) = ('C(k, l))%:R *: ('X * ('X^(k - l) * m)) :> {poly F}.
Proof.
case: (leqP l k) => H; last by rewrite bin_small // !scale0r.
by rewrite subSn // exprS mulrA.
Qed.

Lemma even_rec N k : (k < N)%N -> even_ N.+1 k.+1 = 'X * even_ N k + Y * odd_ N k.
Proof.
move=> H; rewrite /even_ /odd_ big_ord_recl /= bin0 scale1r subn0 expr0 mulr1.
rewrite !mulr_sumr.
have -> : \sum_(i < N) 'X * (('C(k, i.*2))%:R *: ('X^(k - i.*2) * Y ^+ i)) =
  \sum_(i < N.+1) 'X * (('C(k, i.*2))%:R *: ('X^(k - i.*2) * Y ^+ i)) :> {poly F}.
  by rewrite big_ord_recr /= bin_small ?scale0r ?mulr0 ?addr0 //; lia.
rewrite big_ord_recl /= bin0 subn0 expr0 mulr1 scale1r -exprS -addrA; congr (_ + _).
rewrite -big_split /=; apply: eq_bigr => i _.
rewrite /bump /= add1n doubleS binS natrD scalerDl subSS -!scalerAr; congr (_ + _).
  by rewrite -[in LHS]subSS binX.
by rewrite exprS mulrCA.
Qed.

Lemma odd_rec N k : odd_ N k.+1 = 'X * odd_ N k + even_ N k.
Proof.
rewrite /odd_ /even_ mulr_sumr -big_split /=; apply: eq_bigr => i _.
by rewrite binS natrD scalerDl subSS; congr (_ + _); rewrite -scalerAr -binX subSS.
Qed.

Lemma even_2 k : even_ k.+3 k.+2 = 2%:R * 'X * even_ k.+2 k.+1 - even_ k.+1 k.
Proof.
rewrite even_rec // odd_rec.
have E : even_ k.+2 k.+1 = 'X * even_ k.+1 k + Y * odd_ k.+1 k by rewrite even_rec.
rewrite (@odd_ext k.+1 k.+2 k) //.
rewrite (@even_ext k.+1 k.+2 k) // E; set e := even_ _ _; set o := odd_ _ _; ring.
Qed.

Lemma odd_2 N k : (k.+1 < N)%N -> odd_ N k.+2 = 2%:R * 'X * odd_ N k.+1 - odd_ N k.
Proof.
move=> H; have E : even_ N k.+1 = 'X * even_ N k + Y * odd_ N k.
  by rewrite -(even_ext (M := N.+1)) // even_rec //; lia.
rewrite odd_rec E odd_rec; set e := even_ _ _; set o := odd_ _ _; ring.
Qed.

Lemma cheb1E k : bpoly F Chebyshev1 k = even_ k.+1 k. Proof. by []. Qed.
Lemma cheb2E k : bpoly F Chebyshev2 k = odd_ k.+1 k.+1.
Proof. by rewrite /bpoly /odd_; apply: eq_bigr => i _; rewrite subSS. Qed.

Lemma two0 : (2%:R : F) != 0. Proof. by rewrite pnatr_eq0. Qed.

Lemma classical bs k : faithful bs -> pphi (ca_ F bs) (cb_ F bs) (cg_ F bs) k = bpoly F bs k.
Proof.
move=> Hb; elim/ltn_ind: k => -[|[|k]] IH.
- case: bs Hb IH => // _ _; rewrite /= ?expr0 // big_ord1 ?bin0 ?bin1 subn0 expr0 expr0 mulr1 scale1r //.
- case: bs Hb IH => // _ _; rewrite /= ?invr1 ?scale1r ?subr0 ?expr1 //.
    by rewrite !big_ord_recl big_ord0 /= bin0 bin_small // scale0r scale1r !addr0 expr0 mulr1 expr1.
  rewrite !big_ord_recl big_ord0 /= bin1 bin_small // scale0r !addr0 expr0 mulr1 expr1 invrK //.
have E a b g : pphi a b g k.+2 = (a k.+1)^-1 *: (('X - (b k.+1)%:P) * pphi a b g k.+1 - (g k.+1) *: pphi a b g k)
  :> {poly F} by [].
rewrite E !IH //.
case: bs Hb {IH E} => // _.
- by rewrite /= invr1 scale1r scale0r !subr0 -exprS.
- rewrite /cb_ /ca_ /cg_ subr0 invrK scalerBr scalerA mulfV ?two0 // scale1r !cheb1E even_2.
  by rewrite scaler_nat -mulrA mulr_natl.
- rewrite /cb_ /ca_ /cg_ subr0 invrK scalerBr scalerA mulfV ?two0 // scale1r !cheb2E [RHS]odd_2 //.
  rewrite (@odd_ext k.+2 k.+3 k.+2) // (@odd_ext k.+1 k.+3 k.+1) //; last by lia.
  by rewrite scaler_nat -mulrA mulr_natl.
Qed.
End Classical.
