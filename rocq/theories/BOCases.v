(** Block orthogonalization: SVQB with complex scalars, and concrete cases of C62 over the algebraic numbers. *)
From mathcomp Require Import all_ssreflect all_algebra.
From mathcomp Require Import algC zify ring.
From Verif Require Import Prelude GSModel GSSpec GSProofs GSProps.
From Verif Require Import BOModel BOSpec BOProofs BOProps.
Set Implicit Arguments. Unset Strict Implicit. Unset Printing Implicit Defensive.
Import GRing.Theory Num.Theory Order.TTheory.
Local Open Scope ring_scope.

Notation C := [numFieldType of algC].
Notation mat := (nat -> nat -> algC).

Lemma sum2 (W : zmodType) (f : nat -> W) : \sum_(0 <= p < 2) f p = f 0%N + f 1%N.
Proof. by rewrite big_nat_recr //= big_nat1. Qed.
Lemma dot2_gt (x : plane) : x != 0 -> 0 < dot2 x x.
Proof. exact: dot2_positive. Qed.
Lemma sqrt2_ok (x : algC) : 0 < x -> sqrt2 x ^+ 2 = x /\ conj2 (sqrt2 x) = sqrt2 x.
Proof.
move=> Hx; split; first by rewrite /sqrt2 sqrtCK.
by apply: CrealP; apply: ger0_real; rewrite sqrtC_ge0 ltW.
Qed.

Lemma f1 (x : algC) (p : plane) : (x *: p).1 = x * p.1. Proof. by []. Qed.
Lemma f2 (x : algC) (p : plane) : (x *: p).2 = x * p.2. Proof. by []. Qed.
Lemma p1 (p q : plane) : (p + q).1 = p.1 + q.1. Proof. by []. Qed.
Lemma p2 (p q : plane) : (p + q).2 = p.2 + q.2. Proof. by []. Qed.
Definition coord := (p1, p2, f1, f2).

(** Two columns with inner product 3i/5 *)
Definition wc (j : nat) : plane := if j is 0 then pt 1 0 else pt ('i * (3%:R / 5%:R)) (4%:R / 5%:R).
Lemma wc_independent : BOSpec.independent 2 wc.
Proof.
move=> x; rewrite sum2 => E; have := congr1 snd E; have := congr1 fst E; rewrite !coord /= !mulr0 add0r mulr1.
move=> E1 /eqP; rewrite mulf_eq0 (_ : (_ / _ == 0) = false) ?orbF; last by rewrite mulf_eq0 invr_eq0 !pnatr_eq0.
move=> /eqP E2; case=> [_|[_|//]] //; by move: E1; rewrite E2 mul0r addr0.
Qed.
Lemma nz5 : (5%:R : algC) != 0. Proof. by rewrite pnatr_eq0. Qed.

(** The matrix of BV_ORTHOG_BLOCK_SVQB is not the R of V = V' R with complex scalars, whatever the eigenvectors that
    LAPACK chooses. *)
Theorem C62_svqb_complex_refuted : exists v : nat -> plane, BOSpec.independent 2 v /\
  forall eps potrf trtri syev tsqr_r matrix buf R0, syev_spec conj2 0 2 syev ->
  exists v' R1, [/\ BOModel.orthogonalize dot2 eps sqrt2 potrf trtri syev tsqr_r Svqb matrix 0 2 buf v (Some (2%N, R0)) =
      Ok (v', Some R1), BOSpec.orthonormal dot2 2 v' & ~ qr_ok 0 2 v v' R0 R1].
Proof.
exists wc; split; first exact: wc_independent.
move=> eps potrf trtri syev tsqr_r matrix buf R0 Hs.
have [HL HC _ _] := dot2_hermitian.
have H0 : BOSpec.orthonormal dot2 0 wc by [].
have HR n R : Some (2%N, R0) = Some (n, R) -> (2 <= n)%N by case=> <-.
have [v' [[R1|] [E _ O X]]] := @C62_svqb _ conj2 _ dot2 HL HC dot2_gt eps sqrt2 sqrt2_ok potrf trtri syev tsqr_r
  matrix 0 2 buf wc (Some (2%N, R0)) Hs (leq0n 2) H0 wc_independent HR; last by [].
exists v', R1; split=> // -[Q _]; move: E {X O}; rewrite /BOModel.orthogonalize /= /svqb.
set M := gram _ _ _ _ _; case: ifP => [//|_]; set N := fun i j => M i j * _ * _.
have M00 : M 0%N 0%N = 1 by rewrite /M /gram /dot2 /= rmorph1 rmorph0; ring.
have ci : ('i * (3%:R / 5%:R) : algC)^* = - ('i * (3%:R / 5%:R)).
  by rewrite rmorphM conjCi rmorphM fmorphV !rmorph_nat mulNr.
have M01 : M 0%N 1%N = 'i * (3%:R / 5%:R) by rewrite /M /gram /dot2 /= rmorph1 rmorph0; ring.
have M10 : M 1%N 0%N = - ('i * (3%:R / 5%:R)) by rewrite /M /gram /dot2 /= ci; ring.
have M11 : M 1%N 1%N = 1.
  rewrite /M /gram /dot2 /= ci rmorphM fmorphV !rmorph_nat mulrN mulrACA -expr2 sqrCi.
  by field.
have D0 : 1 / sqrt2 (M 0%N 0%N) = 1 by rewrite M00 /sqrt2 sqrtC1 divr1.
have D1 : 1 / sqrt2 (M 1%N 1%N) = 1 by rewrite M11 /sqrt2 sqrtC1 divr1.
have AN : adj conj2 (blk 0 2 N) = blk 0 2 N.
  apply/matrixP => i j; rewrite !mxE /N !addn0.
  case: i => [[|[|//]]] Hi; case: j => [[|[|//]]] Hj; rewrite /= ?D0 ?D1 ?M00 ?M01 ?M10 ?M11 ?mulr1 ?rmorph1 //.
    by rewrite rmorphN /= ci opprK.
have [eig [U [-> UU NU _]]] := Hs _ AN; case: ifP => [//|Hne] [Ev ER].
have {Hne} sne c : (c < 2)%N -> sqrt2 (eig c) != 0.
  move=> Hc; rewrite sqrtC_eq0; apply/negP => Ez; move/hasP: Hne => []; exists c => //.
  by case: c Hc Ez => [|[|]].
have col c : (c < 2)%N -> U 1%N c ^+ 2 = - U 0%N c ^+ 2.
  move=> Hc; have := congr1 (fun A : 'M_2 => (A 0 (Ordinal Hc), A 1 (Ordinal Hc))) NU.
  case; rewrite !mxE !big_ord_recl !big_ord0 !mxE /= !addn0 !addr0 /N D0 D1 M00 M01 M10 M11 !mulr1 !mul1r (_ : bump 0 0 = 1%N) // => A B.
  have I0 : ('i * (3%:R / 5%:R) : algC) != 0.
    by rewrite !mulf_eq0 invr_eq0 !pnatr_eq0 (negbTE (neq0Ci _)).
  apply: (mulfI I0).
  have A' : 'i * (3%:R / 5%:R) * U 1%N c = (eig c - 1) * U 0%N c.
    case: c Hc A B => [|[|//]] Hc /= A B; move: A; rewrite ?mulr0 ?addr0 ?add0r => A; rewrite mulrBl mul1r [eig _ * _]mulrC -A; ring.
  have B' : - ('i * (3%:R / 5%:R)) * U 0%N c = (eig c - 1) * U 1%N c.
    case: c Hc A B {A'} => [|[|//]] Hc /= A B; move: B; rewrite ?mulr0 ?addr0 ?add0r => B; rewrite mulrBl mul1r [eig _ * _]mulrC -B; ring.
  by rewrite expr2 mulrA A' mulrN -mulNr expr2 mulrA B' mulrAC.
have q0 := Q 0%N isT; have q1 := Q 1%N isT; rewrite !sum2 -ER -Ev /store /mult_in_place /= !sum2 /= in q0 q1.
have F0 := congr1 fst q0; have S0 := congr1 snd q0; have S1 := congr1 snd q1.
move: F0 S0 S1 {q0 q1 Q Ev ER}; rewrite !coord /= D0 D1 !divr1 !mulr1 !mulr0 !add0r.
set a := 'i * _; set b := (4%:R / 5%:R : algC).
have b0 : b != 0 by rewrite mulf_eq0 invr_eq0 !pnatr_eq0.
have n0 := sne 0%N isT; have n1 := sne 1%N isT; move: (sqrt2 _) n0 => r0 n0; move: (sqrt2 _) n1 => r1 n1.
move=> F0 S0 S1.
have Z : U 0%N 0%N * U 1%N 0%N + U 0%N 1%N * U 1%N 1%N = 0.
  apply: (mulIf b0); rewrite mul0r [RHS]S0; by field; rewrite n0 n1.
have one1 : U 1%N 0%N ^+ 2 + U 1%N 1%N ^+ 2 = 1.
  apply: (mulIf b0); rewrite mul1r [RHS]S1; by field; rewrite n0 n1.
have one0 : U 0%N 0%N ^+ 2 + U 0%N 1%N ^+ 2 = 1.
  rewrite [RHS]F0; apply/esym; transitivity (U 0%N 0%N ^+ 2 + U 0%N 1%N ^+ 2 +
    a * (U 0%N 0%N * U 1%N 0%N + U 0%N 1%N * U 1%N 1%N)); last by rewrite Z mulr0 addr0.
  by field; rewrite n0 n1.
have : (2%:R : algC) = 0.
  transitivity (U 1%N 0%N ^+ 2 + U 1%N 1%N ^+ 2 + (U 0%N 0%N ^+ 2 + U 0%N 1%N ^+ 2)).
    by rewrite one0 one1 mulr2n.
  by rewrite !col //; ring.
by move/eqP; rewrite pnatr_eq0.
Qed.
Print Assumptions C62_svqb_complex_refuted.

(** * LAPACK for blocks of order two, and for one column *)
Definition chol2 (M : mat) : mat := fun i j =>
  match i, j with
  | 0, 0 => sqrt2 (M 0 0)%N
  | 0, 1 => M 0%N 1%N / sqrt2 (M 0 0)%N
  | 1, 1 => sqrt2 (M 1%N 1%N - M 0%N 1%N * M 1%N 0%N / M 0%N 0%N)
  | _, _ => 0
  end.
Definition potrf2 (l k : nat) (M : mat) : option mat :=
  if (0 < M 0%N 0%N) && (0 < M 1%N 1%N - M 0%N 1%N * M 1%N 0%N / M 0%N 0%N) then Some (chol2 M) else None.
Definition trtri2 (l k : nat) (R : mat) : option mat :=
  if (R 0%N 0%N != 0) && (R 1%N 1%N != 0) then
    Some (fun i j => match i, j with
                     | 0, 0 => (R 0%N 0%N)^-1
                     | 0, 1 => - R 0%N 1%N / R 0%N 0%N / R 1%N 1%N
                     | 1, 1 => (R 1%N 1%N)^-1
                     | _, _ => 0
                     end)
  else None.
Lemma blk2 (A B : mat) : A 0%N 0%N = B 0%N 0%N -> A 0%N 1%N = B 0%N 1%N -> A 1%N 0%N = B 1%N 0%N ->
  A 1%N 1%N = B 1%N 1%N -> blk 0 2 A = blk 0 2 B :> 'M[C]_2.
Proof.
move=> *; apply/matrixP => i j; rewrite !mxE !addn0.
by case: i => [[|[|//]]] Hi; case: j => [[|[|//]]] Hj.
Qed.
Lemma trtri2_ok : @trtri_spec C 0 2 trtri2.
Proof.
move=> R; split=> [H|T]; first by rewrite /trtri2 !H.
rewrite /trtri2; case: ifP => // /andP[H0 H1] [<-]; apply/matrixP => i j.
rewrite !mxE !big_ord_recl !big_ord0 !mxE /= /bump /= /up.
case: i => [[|[|//]]] Hi; case: j => [[|[|//]]] Hj; rewrite /= ?addn0 /= ?(mulr0, mul0r, addr0, add0r) ?mulVf //.
by field; rewrite H0 H1.
Qed.
Lemma herm2 (M : mat) : adj conj2 (blk 0 2 M : 'M[C]_(2 - 0)) = blk 0 2 M -> forall i j, (i < 2)%N -> (j < 2)%N ->
  conj2 (M j i) = M i j.
Proof.
move=> A i j Hi Hj; have := congr1 (fun B : 'M[C]_(2 - 0) => B (Ordinal (Hi : (i < 2 - 0)%N)) (Ordinal (Hj : (j < 2 - 0)%N))) A.
by rewrite !mxE /= !addn0.
Qed.
Definition vec2 (a b : algC) : 'cV[algC]_(2 - 0) := \col_i (if (i : nat) is 0 then a else b).
Lemma form2 (M : mat) a b : ((map_mx conj2 (vec2 a b))^T *m (blk 0 2 M : 'M[C]_(2 - 0)) *m vec2 a b) 0 0 =
  (conj2 a * M 0%N 0%N + conj2 b * M 1%N 0%N) * a + (conj2 a * M 0%N 1%N + conj2 b * M 1%N 1%N) * b.
Proof.
by rewrite !mxE !big_ord_recl !big_ord0 !mxE !big_ord_recl !big_ord0 !mxE /= /bump /= !addn0 !addr0.
Qed.
Lemma potrf2_ok : @potrf_spec C conj2 0 2 potrf2.
Proof.
move=> M; split=> [[A P]|K A].
  have h := herm2 A; have P0 : 0 < M 0%N 0%N.
    have /P : vec2 1 0 != 0 by apply/eqP => /matrixP /(_ 0 0) /eqP; rewrite !mxE oner_eq0.
    by rewrite form2 rmorph1 rmorph0 !(mulr1, mulr0, mul1r, mul0r, addr0).
  rewrite /potrf2 P0.
  have /P : vec2 (- (M 0%N 1%N / M 0%N 0%N)) 1 != 0 by apply/eqP => /matrixP /(_ 1 0) /eqP; rewrite !mxE oner_eq0.
  rewrite form2 rmorph1 rmorphN rmorphM fmorphV !h //.
  set p := (X in 0 < X -> _); suff -> : p = M 1%N 1%N - M 0%N 1%N * M 1%N 0%N / M 0%N 0%N by move=> ->.
  by rewrite /p; field; rewrite gt_eqF.
have h := herm2 A; rewrite /potrf2; case: ifP => // /andP[P0 P1] [<-].
have [s0 c0] := sqrt2_ok P0; have [s1 c1] := sqrt2_ok P1.
have n0 : sqrt2 (M 0%N 0%N) != 0 by rewrite sqrtC_eq0 gt_eqF.
have n1 : sqrt2 (M 1%N 1%N - M 0%N 1%N * M 1%N 0%N / M 0%N 0%N) != 0 by rewrite sqrtC_eq0 gt_eqF.
split; last by case=> [|[|]].
apply/matrixP => i j; rewrite !mxE !big_ord_recl !big_ord0 !mxE /= /bump /= /up.
case: i => [[|[|//]]] Hi; case: j => [[|[|//]]] Hj; rewrite /= ?addn0 /= ?(rmorph0, mulr0, mul0r, addr0, add0r) ?c0 ?c1.
- by rewrite -expr2 s0.
- by field.
- by rewrite rmorphM fmorphV c0 h //; field.
- rewrite rmorphM fmorphV c0 h // -expr2 s1; move: s0 n0; move: (sqrt2 (M 0%N 0%N)) => z <- nz.
  by field.
Qed.

(** The factor of a QR decomposition for two columns *)
Definition tsqr2 (l k : nat) (w : nat -> plane) : mat :=
  if w 0%N == 0 then (fun i j => if (i, j) == (1, 1)%N then sqrt2 (dot2 (w 1%N) (w 1%N)) else 0)
  else chol2 (fun i j => dot2 (w j) (w i)).
Lemma ge2 (x : plane) : 0 <= dot2 x x.
Proof. exact: (dot_ge0 dot2_hermitian dot2_positive). Qed.
Lemma sqrt2_ge (x : algC) : 0 <= x -> sqrt2 x ^+ 2 = x /\ conj2 (sqrt2 x) = sqrt2 x.
Proof.
rewrite le_eqVlt => /orP[/eqP <-|/sqrt2_ok //]; by rewrite /sqrt2 sqrtC0 expr0n rmorph0.
Qed.
Lemma schur_ge (x y : plane) : x != 0 -> 0 <= dot2 y y - dot2 y x * dot2 x y / dot2 x x.
Proof.
move=> Nx; have [HL HC _ _] := dot2_hermitian; have n0 : dot2 x x != 0 by rewrite gt_eqF ?dot2_gt.
have := ge2 (y - (dot2 y x / dot2 x x) *: x).
rewrite (dotB HL) (dotZ HL) HC (dotB HL) (dotZ HL) rmorphB rmorphM -!HC [dot2 x (_ - _)]HC (dotB HL) (dotZ HL).
rewrite !rmorphB !rmorphM fmorphV -!HC => H; congr (0 <= _): H.
by rewrite ?conjCK; field.
Qed.
Lemma tsqr2_ok : @tsqr_spec C plane conj2 dot2 0 2 tsqr2.
Proof.
have [HL HC _ _] := dot2_hermitian.
move=> w R; rewrite {}/R /tsqr2; case: eqP => [E0|/eqP N0].
  have [s1 c1] := sqrt2_ge (ge2 (w 1%N)).
  split.
  - by case=> [|[|i]] [|[|j]].
  - apply/matrixP => i j; rewrite !mxE !big_ord_recl !big_ord0 !mxE /= /bump /=.
    case: i => [[|[|//]]] Hi; case: j => [[|[|//]]] Hj; rewrite /= ?addn0 /= ?E0 ?(rmorph0, mulr0, mul0r, addr0, add0r).
    + by rewrite (dot0 HL).
    + by rewrite HC (dot0 HL) rmorph0.
    + by rewrite (dot0 HL).
    + by rewrite c1 -expr2 s1.
  - move=> [_ P]; have /P : vec2 1 0 != 0 by apply/eqP => /matrixP /(_ 0 0) /eqP; rewrite !mxE oner_eq0.
    by rewrite form2 rmorph1 rmorph0 !(mulr1, mulr0, mul1r, mul0r, addr0) E0 (dot0 HL) ltxx.
have P0 := dot2_gt N0; have [s0 c0] := sqrt2_ok P0; have [s1 c1] := sqrt2_ge (schur_ge (w 1%N) N0).
have n0 : sqrt2 (dot2 (w 0%N) (w 0%N)) != 0 by rewrite sqrtC_eq0 gt_eqF.
split.
- by case=> [|[|i]] [|[|j]].
- apply/matrixP => i j; rewrite !mxE !big_ord_recl !big_ord0 !mxE /= /bump /=.
  case: i => [[|[|//]]] Hi; case: j => [[|[|//]]] Hj; rewrite /= ?addn0 /= ?(rmorph0, mulr0, mul0r, addr0, add0r) ?c0 ?c1.
  + by rewrite -expr2 s0.
  + by field.
  + by rewrite rmorphM fmorphV c0 -HC; field.
  + rewrite rmorphM fmorphV c0 -HC -expr2 s1; move: s0 n0; move: (sqrt2 (dot2 (w 0%N) _)) => z <- nz.
    by field.
- move=> P; have [/(_ P) + _] := potrf2_ok (fun i j => dot2 (w j) (w i)); rewrite /potrf2.
  case: ifP => // /andP[_ Q1] _ [|[|i]] // _; by rewrite /= sqrtC_eq0 gt_eqF.
Qed.
(** One column *)
Definition syev1 (l k : nat) (N : mat) : option ((nat -> algC) * mat) := Some (fun i => N i i, fun i j => (i == j)%:R).
Lemma syev1_ok : @syev_spec C conj2 1 2 syev1.
Proof.
move=> N A; exists (fun i => N i i), (fun i j => (i == j)%:R); split=> //.
- apply/matrixP => i j; rewrite !mxE !big_ord_recl !big_ord0 !mxE /= !ord1 /= /bump /= rmorph1 mulr1 addr0 //.
- apply/matrixP => i j; rewrite !mxE !big_ord_recl !big_ord0 !mxE /= !ord1 /=; ring.
- move=> i Hi; have -> : i = 1%N by lia.
  by have := congr1 (fun B : 'M[C]_(2 - 1) => B 0 0) A; rewrite !mxE.
Qed.

Definition vx (j : nat) : plane := if j is 0 then pt 3%:R 4%:R else pt 0 1.
Lemma vx_independent : BOSpec.independent 2 vx.
Proof.
move=> x; rewrite sum2 => E; have := congr1 snd E; have := congr1 fst E; rewrite !coord /= mulr0 addr0 mulr1.
move=> /eqP; rewrite mulf_eq0 pnatr_eq0 orbF => /eqP E1; rewrite E1 mul0r add0r => E2.
by case=> [_|[_|//]].
Qed.
Definition vy (j : nat) : plane := if j is 0 then pt 1 0 else pt 1 2%:R.
Lemma vy_independent : BOSpec.independent 2 vy.
Proof.
move=> x; rewrite sum2 => E; have := congr1 snd E; have := congr1 fst E; rewrite !coord /= !mulr1 mulr0 add0r.
move=> E1 /eqP; rewrite mulf_eq0 pnatr_eq0 orbF => /eqP E2; rewrite E2 addr0 in E1.
by case=> [_|[_|//]].
Qed.
(** Both triangular methods on two columns, SVQB on one column after a leading one. *)
Example ex_C62 : (forall m, m <> Svqb -> exists v' R',
    BOModel.orthogonalize dot2 1 sqrt2 potrf2 trtri2 syev1 tsqr2 m false 0 2 (fun _ _ => 7%:R) vx (Some (2%N, fun _ _ => 7%:R)) =
      Ok (v', Some R') /\ [/\ BOSpec.orthonormal dot2 2 v', qr_ok 0 2 vx v' (fun _ _ => 7%:R) R' & upper 0 2 R']) /\
  exists v' R',
    BOModel.orthogonalize dot2 1 sqrt2 potrf2 trtri2 syev1 tsqr2 Svqb false 1 2 (fun _ _ => 7%:R) vy (Some (2%N, fun _ _ => 7%:R)) =
      Ok (v', Some R') /\ BOSpec.orthonormal dot2 2 v' /\ v' 0%N = vy 0%N.
Proof.
have [HL HC _ _] := dot2_hermitian.
have HR n (R : mat) : Some (2%N, fun _ _ => 7%:R : algC) = Some (n, R) -> (2 <= n)%N by case=> <-.
split.
  move=> m Hm.
  have [v' [[R1|] [E _ O X]]] := @C62_triangular _ conj2 _ dot2 HL HC dot2_gt 1 sqrt2 potrf2 trtri2 syev1 tsqr2
    m false 0 2 (fun _ _ => 7%:R) vx (Some (2%N, fun _ _ => 7%:R)) (fun _ => potrf2_ok) (fun _ => tsqr2_ok) trtri2_ok Hm
    (fun _ => erefl) (leq0n 2) (fun i j H => match notF H with end) vx_independent HR; last by [].
  by case: X => X1 X2; exists v', R1.
have H1 : BOSpec.orthonormal dot2 1 vy.
  by case=> // [] [] // _ _; rewrite /dot2 /= rmorph1 rmorph0 mulr1 mulr0 addr0.
have [v' [[R1|] [E Out O X]]] := @C62_svqb _ conj2 _ dot2 HL HC dot2_gt 1 sqrt2 sqrt2_ok potrf2 trtri2 syev1 tsqr2
  false 1 2 (fun _ _ => 7%:R) vy (Some (2%N, fun _ _ => 7%:R)) syev1_ok (leqnSn 1) H1 vy_independent HR; last by [].
exists v', R1; split=> //; split=> //; exact: Out.
Qed.
