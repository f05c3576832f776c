(** Functions of a matrix times a vector: the properties. *)
From mathcomp Require Import all_ssreflect all_algebra all_field.
From mathcomp Require Import zify ring.
From Verif Require Import Prelude GSModel GSSpec GSProofs GSProps KrylovModel KrylovSpec KrylovProofs KrylovProps KrylovCases SVDProofs SVDCases.
From Verif Require Import MFNModel MFNSpec MFNProofs MFNProofs2.
Set Implicit Arguments. Unset Strict Implicit. Unset Printing Implicit Defensive.
Import GRing.Theory Num.Theory Order.TTheory.
Local Open Scope ring_scope.

Section Krylov.
Variables (F : numFieldType) (V : lmodType F) (dot : V -> V -> F) (conj : {rmorphism F -> F}) (sqrt : F -> F).
Hypothesis HH : hermitian conj dot.
Hypothesis Hsqrt : square_root sqrt.
Hypothesis Hpd : positive_definite dot.
Variables (op : V -> V) (N : nat).
Hypothesis Hdim : dimension dot N.
Hypothesis Hop : forall a x y, op (a *: x + y) = a *: op x + op y.
Variables (g : config F).
Hypothesis Heta : 0 < eta g <= 1.
Hypothesis Htol : 0 < deftol g.
Hypothesis Hdef : indef g = false.
Hypothesis Hnc : nc g = 0%N.
Variables (ncv max_it : nat) (tol : F).
Hypothesis Hncv : (0 < ncv)%N.
Hypothesis Hmax : (0 < max_it)%N.
Hypothesis Hcols : ncols g = ncv.+1.
Variable fmv : nat -> (nat -> nat -> F) -> nat -> F.
Hypothesis fmv_ext : forall n H H', (forall i j, (i < n)%N -> (j < n)%N -> H i j = H' i j) ->
  forall k, (k < n)%N -> fmv n H k = fmv n H' k.

(** MFNSolve with the solver "krylov".  After t iterations there is a family W of n vectors, W_0 = b/||b||, that
    satisfies A W = W H + beta v e_n^T with H upper Hessenberg; the iterations used the leading blocks of H of
    orders sz 1 < ... < sz t = n.  If on these blocks f is the polynomial p, the solution is ||b|| W p(H) e_1; it
    is p(A) b when the degree of p is less than n or the iteration broke down, which is always the case when ncv
    is at least the dimension.  A solve that ends with MFN_CONVERGED_TOL did at least two iterations and either
    broke down or its last update is less than tol ||b|| in norm; otherwise max_it iterations were done and, with
    MFNSetErrorIfNotConverged, an error is raised. *)
Theorem C54_krylov err v0 b : b != 0 ->
  exists x t r n W H beta v sz bn,
  [/\ solve_krylov dot conj sqrt op N g ncv max_it tol fmv err v0 b =
        (if err && (if r is DivergedIts then true else false) then Err else Ok (x, t, r)),
      [/\ is_norm dot b bn, b = bn *: W 0%N, arnoldi op n W H beta v, (0 < n)%N & (N <= ncv)%N -> beta = 0],
      [/\ sz 0%N = 0%N, sz t = n & forall k, (k < t)%N -> (sz k < sz k.+1)%N],
      (forall p, (forall k, (0 < k <= t)%N -> represents fmv p (sz k) H) ->
         x = bn *: comb W n (polcol n H p) /\ ((size p <= n)%N || (beta == 0) -> x = polop op p b)) &
      match r with
      | Iterating => False
      | DivergedIts => t = max_it
      | ConvergedTol => (1 < t <= max_it)%N /\ (beta = 0 \/
          exists y d a, [/\ x = y + d, is_norm dot d a, a < tol * bn &
            forall p, (forall k, (0 < k < t)%N -> represents fmv p (sz k) H) ->
              y = bn *: comb W (sz t.-1) (polcol (sz t.-1) H p)])
      end].
Proof.
move=> Hb; set bn := sqrt (dot b b).
have [Hbn Hbn2] : 0 <= bn /\ bn ^+ 2 = dot b b by apply: Hsqrt; exact: dot_ge0 HH Hpd b.
have Hbn0 : bn != 0 by rewrite -sqrf_eq0 Hbn2 (dot_eq0 HH Hpd).
pose v1 := with_col v0 (upd (col v0) (nc g) ((1 / bn) *: b)).
have E1 : col v1 0%N = bn^-1 *: b by rewrite /v1 /= Hnc /upd /= div1r.
have Eb : b = bn *: col v1 0%N by rewrite E1 scalerA mulfV // scale1r.
have Hi : inv dot op ncv max_it b bn fmv (State v1 (fun _ _ => 0) 0 ncv (fun _ _ => 0) 0 0 0 0).
  split=> //=; last by rewrite leq_max.
    exists (fun _ => 0), (fun _ => 0%N); split=> //.
    by move=> p _; rewrite /comb big_geq // scaler0.
  left; split=> //; rewrite E1.
  have [dL dC _ cR] := HH.
  by rewrite (dotZl dL) (dotZr dL dC) cR ?ger0_real ?invr_ge0 // -Hbn2 mulrA -expr2 -exprMn mulVf ?expr1n.
have [|s [r [E [n [W [H [beta [v [sz [R Ht [Hn HN] Hr]]]]]]]]]] :=
  loop_ok HH Hsqrt Hpd Hdim Hop Heta Htol Hdef Hnc tol Hncv Hcols fmv_ext Hbn Hi (fuel := maxn 1 max_it).
  by rewrite leq_subr.
case: (R) => [R1 [R2 R3] R4 R5 R6].
exists (sx s), (its s), r, n, W, H, beta, v, sz, bn.
have Eb2 : b = bn *: W 0%N by rewrite R6 /cat Hn.
split=> //.
- rewrite /solve_krylov -/bn /check Hbn0 -/v1 E /=.
  by case: err; case: (r).
- by move=> p Hp; split; [exact: R5|move=> Hd; rewrite (R5 p Hp) (polop_exact Hop R1 Hn Eb2 Hd)].
- case: r Hr {E} => //.
  + case=> H1 H2; split; first by move: Ht; rewrite H1 => /andP [_]; rewrite (maxn_idPr Hmax).
    case: H2 => [->|[y [d [a [K1 K2 K3 K4]]]]]; [by left|right].
    exists y, d, (a * bn); split=> //.
    by rewrite ltr_pmul2r // lt_def Hbn0.
  + by move=> ->; apply/maxn_idPr.
Qed.

(** A solve with ncv at least the dimension applies the polynomial, whatever the outcome. *)
Theorem C54_exact p err v0 b : b != 0 -> (N <= ncv)%N ->
  (forall n H k, (k < n)%N -> fmv n H k = polcol n H p k) ->
  exists t r, solve_krylov dot conj sqrt op N g ncv max_it tol fmv err v0 b =
    (if err && (if r is DivergedIts then true else false) then Err else Ok (polop op p b, t, r)) /\
    match r with Iterating => False | DivergedIts => t = max_it | ConvergedTol => (1 < t <= max_it)%N end.
Proof.
move=> Hb HN Hp.
have [x [t [r [n [W [H [beta [v [sz [bn [E [_ _ _ _ /(_ HN) B] _ R M]]]]]]]]]]] := C54_krylov err v0 Hb.
have [|_ Ex] := R p; first by move=> k _ i Hi; apply: Hp.
rewrite E Ex; last by rewrite B eqxx orbT.
by exists t, r; split=> //; case: (r) M => // -[].
Qed.
End Krylov.
Print Assumptions C54_krylov.
Print Assumptions C54_exact.

(** * A case, and a limit of the convergence test *)
Definition fpol (p : {poly algC}) (n : nat) (H : nat -> nat -> algC) (k : nat) : algC := polcol n H p k.
Lemma fpol_ext p n H H' : (forall i j, (i < n)%N -> (j < n)%N -> H i j = H' i j) ->
  forall k, (k < n)%N -> fpol p n H k = fpol p n H' k.
Proof. exact: polcol_eq. Qed.
Definition cfgn (n : nat) : config [numFieldType of algC] := Config 0 n false false Always (2%:R^-1) 1.
Lemma cfgn_eta n : 0 < eta (cfgn n) <= 1.
Proof. by rewrite /= invr_gt0 ltr0n /= invf_le1 ?ltr0n // ler1n. Qed.
Notation mfn_solve ncv := (solve_krylov dot2 conj2 sqrt2 (SVDModel.mult A0) 2 (cfgn ncv.+1) ncv).
Notation f1 := SVDCases.e1.
Lemma A0e0 : SVDModel.mult A0 e0 = f1. Proof. by rewrite /= mulr0. Qed.
Lemma A0e1 : SVDModel.mult A0 f1 = 2%:R *: e0.
Proof. by congr (_, _); rewrite /= ?mulr1 ![_ *: _]/GRing.scale /= ?mulr1 ?mulr0. Qed.
Lemma square_A0 : polop (SVDModel.mult A0) 'X^2 e0 = 2%:R *: e0.
Proof.
rewrite /polop size_polyXn !big_ord_recl big_ord0 !coefXn /= !scale0r scale1r !add0r addr0.
by rewrite -[RHS]A0e1 -A0e0.
Qed.
Lemma e0_neq0 : e0 != 0 :> plane.
Proof. by apply/eqP => -[] /eqP; rewrite oner_eq0. Qed.

Example ex_C54 : exists t r, mfn_solve 2 3 1 (fpol 'X^2) false s0 e0 = Ok (2%:R *: e0, t, r).
Proof.
have [t [r [E _]]] := @C54_exact _ _ dot2 conj2 sqrt2 dot2_hermitian sqrt2_root dot2_positive _ 2 plane_dimension A0_lin (cfgn 3)
  (cfgn_eta 3) ltr01 erefl erefl 2 3 1 isT isT erefl (fpol 'X^2) (@fpol_ext 'X^2) 'X^2 false s0 e0 e0_neq0 isT (fun _ _ _ _ => erefl).
by exists t, r; rewrite E square_A0.
Qed.

Lemma polcol_sq n H k : polcol n H ('X^2 : {poly algC}) k = mulh n H (mulh n H (@MFNSpec.e1 _)) k.
Proof.
by rewrite /polcol size_polyXn !big_ord_recl big_ord0 !coefXn /= !mul0r mul1r !add0r addr0.
Qed.

Section Accepted.
Notation A := (SVDModel.mult A0).
Notation mem := (GSModel.mem [lmodType algC of plane]).
(** One step of Arnoldi from each of the two unit vectors *)
Lemma arnoldi_one (v : mem) M beta a x y : col v 0%N = x -> dot2 x x = 1 -> dot2 y y = 1 -> dot2 y x = 0 ->
  A x = a *: y -> 0 < a -> below M ->
  exists v' e', [/\ mat_arnoldi dot2 conj2 sqrt2 A 2 (cfgn 2) (Some (Dense 2 1 2 M)) 0 1 beta v =
      Ok (v', Some (Dense 2 1 2 e'), 1%N, a, false), col v' 0%N = x, col v' 1%N = y, e' 0%N 0%N = 0 & below e'].
Proof.
move=> Ex Hx Hy Hxy HA Ha Hb.
have Hf : first_ok dot2 1 v 1 by left; rewrite Ex.
have [v' [e' [m' [beta' [bd [E [/andP [Hm0 Hm] Hc Hb'] [R _] Hbd _]]]]]] :=
  arnoldi_step dot2_hermitian sqrt2_root dot2_positive plane_dimension A0_lin (cfgn_eta 2) ltr01 erefl erefl
    (isT : (0 < 1)%N) erefl beta Hf Hb.
have Em : m' = 1%N by lia.
subst m'; have := R 0%N isT; rewrite /comb big_nat1 eqxx Hc Ex HA => R0.
have [dL dC _ cR] := dot2_hermitian.
case: bd E Hbd => [E [B0 _]|E [_ B0 Ho _]].
  move: R0; rewrite B0 scale0r addr0 => R0.
  have : dot2 (a *: y) y = dot2 (e' 0%N 0%N *: x) y by rewrite R0.
  rewrite !(dotZl dL) Hy [dot2 x y]dC Hxy rmorph0 mulr0 mulr1 => E0.
  by move: Ha; rewrite E0 ltxx.
have O1 : dot2 (col v' 1%N) x = 0 by have := Ho 1%N 0%N isT isT; rewrite Hc Ex.
have E0 : e' 0%N 0%N = 0.
  have : dot2 (a *: y) x = dot2 (e' 0%N 0%N *: x + beta' *: col v' 1%N) x by rewrite -R0.
  by rewrite dL !(dotZl dL) Hxy Hx O1 !mulr0 addr0 mulr1.
move: R0; rewrite E0 scale0r add0r => R0.
have Ea : a = beta'.
  have : dot2 (a *: y) (a *: y) = dot2 (beta' *: col v' 1%N) (beta' *: col v' 1%N) by rewrite R0.
  rewrite !(dotZl dL) !(dotZr dL dC) Hy (Ho 1%N 1%N) // eqxx !cR ?gtr0_real // !mulr1 -!expr2 => /eqP.
  by rewrite eqr_expn2 ?ltW // => /eqP.
exists v', e'; split=> //; first by rewrite E Ea.
- by rewrite Hc.
- by move: R0; rewrite -Ea => /(scalerI (lt0r_neq0 Ha)).
Qed.
End Accepted.

(** MFN_CONVERGED_TOL says nothing about the error when no breakdown took place: the solution is zero, the
    second update is zero, the result should have norm 2. *)
Theorem C54_error_refuted : exists p b, forall tol max_it v0, 0 < tol -> (2 < max_it)%N ->
  mfn_solve 1 max_it tol (fpol p) true v0 b = Ok (0, 2%N, ConvergedTol) /\
  polop (SVDModel.mult A0) p b = 2%:R *: b /\ is_norm dot2 b 1.
Proof.
exists 'X^2, e0 => tol max_it v0 Ht Hm; split; last first.
  split; first exact: square_A0.
  by split; rewrite ?ler01 // expr1n e00.
have S1 : sqrt2 1 = 1 by apply: (sqrtE sqrt2_root); rewrite ?ler01 ?expr1n.
have S0 : sqrt2 0 = 0 by apply: (sqrtE sqrt2_root); rewrite ?lexx ?expr0n.
rewrite /solve_krylov /check e00 S1 oner_eq0 (_ : maxn 1 max_it = (max_it - 2).+2); last by lia.
set v := with_col _ _; set st := State v _ _ _ _ _ _ _ _.
have Ev : col v 0%N = e0 by rewrite /v /= divr1 scale1r.
have HB : below (marray st) by [].
have [v1 [m1 [E1 C0 C1 Z1 B1]]] := arnoldi_one (sbeta st) Ev e00 e11 e10 (etrans A0e0 (esym (scale1r _))) ltr01 HB.
have HA2 := @arnoldi_one.
set T := SVDModel.mult A0 in E1 HA2 *.
rewrite [krylov_loop _ _ _ _ _ _ _ _ _ _ _ _ _]/=.
rewrite {1}/krylov_step E1 /= leqNgt (ltn_trans (isT : 1 < 2)%N Hm) /= big_nat1.
set H1 := glue _ _ _ _ _ _; set x1 := 0 + _.
have Ex1 : x1 = 0.
  by rewrite /x1 /fpol polcol_sq !mulhE // !big_nat1 /H1 /glue /= Z1 !mul0r scale0r addr0.
clearbody x1; subst x1.
set st1 := State _ _ _ _ _ _ _ _ _.
have Ev1 : col (bv st1) 0%N = f1 by rewrite /= /upd.
have H2 : (0 : algC) < 2%:R by rewrite ltr0n.
have [v2 [m2 [E2 D0 D1 Z2 B2]]] := HA2 _ _ (sbeta st1) _ _ _ Ev1 e11 e00 e01 A0e1 H2 (B1 : below (marray st1)).
rewrite /krylov_step E2 /= big_nat1.
have Ef : fpol 'X^2 (0 + 1 + 1) (glue (2%N == 1%N) (0 + 1) 1 H1 m2 1) (0 + 1 + 0) = 0.
  rewrite /fpol polcol_sq {1}/mulh /= !big_nat_recr //= !big_geq // !mulhE // !big_nat_recr //= !big_geq //.
  have G00 : glue (2%N == 1%N) (0 + 1) 1 H1 m2 1 0 0 = 0 by rewrite /glue /H1 /glue /= Z1.
  have G01 : glue (2%N == 1%N) (0 + 1) 1 H1 m2 1 0 1 = 0 by [].
  have G11 : glue (2%N == 1%N) (0 + 1) 1 H1 m2 1 1 1 = 0 by rewrite /glue /= Z2.
  by rewrite [glue _ _ _ _ _ _ (0 + 1 + 0)%N 1%N]G11 G00 G01 !mul0r !addr0 mulr0 addr0.
rewrite (_ : nrm2 _ _ _ _ = 0) ?Ht ?orbT; last by rewrite /nrm2 big_nat1 Ef mul0r S0.
by rewrite /= Ef mul0r scale0r addr0.
Qed.
Print Assumptions C54_error_refuted.

(** * The operator of the object *)
Section Object.
Variables (Mat : Type) (transpose : Mat -> Mat).
Notation call := (call Mat).
(** The matrix given in the last MFNSetOperator of a history, if MFNReset was not called since *)
Definition last_set (l : seq call) : option Mat :=
  foldl (fun o c => match c with SetOperator a => Some a | Reset => None | _ => o end) None l.
(** No MFNSolveTranspose before the last MFNSetOperator *)
Definition no_old_transpose (l : seq call) : bool :=
  (foldl (fun st c => match c with
                      | SetOperator _ => (st.2, st.2)
                      | SolveTranspose => (st.1, true)
                      | _ => st end) (false, false) l).1 == false.

Lemma run_cat x l l' : run transpose x (l ++ l') = (do y <- run transpose x l; run transpose y l').
Proof. by elim: l x => //= c l IH x; case: step => //= -[y o] /=; rewrite IH. Qed.

(** After any sequence of calls that raised no error, MFNSolve multiplies with the matrix of the last
    MFNSetOperator; MFNSolveTranspose with its transpose, provided that no MFNSolveTranspose came before the last
    MFNSetOperator. *)
Theorem C55_operator l x : run transpose (create Mat) l = Ok x ->
  (forall y o, step transpose x (Solve Mat) = Ok (y, o) -> o = last_set l /\ o <> None) /\
  (no_old_transpose l -> forall y o, step transpose x (SolveTranspose Mat) = Ok (y, o) ->
     o = omap transpose (last_set l) /\ o <> None) /\
  (last_set l = None -> step transpose x (Solve Mat) = Err /\ step transpose x (SolveTranspose Mat) = Err).
Proof.
rewrite /no_old_transpose /last_set.
have I : run transpose (create Mat) l = Ok x ->
  let o := foldl (fun o c => match c with SetOperator a => Some a | Reset => None | _ => o end) None l in
  let st := foldl (fun st (c : call) => match c with SetOperator _ => (st.2, st.2) | SolveTranspose => (st.1, true) | _ => st end)
    (false, false) l in
  [/\ opA x = o, (st.1 = false -> o <> None -> opAT x = None \/ opAT x = omap transpose o) & (st.2 = false -> opAT x = None)].
  elim/last_ind: l x => [|l c IH] x /=; first by case=> <-.
  rewrite -cats1 run_cat !foldl_cat /=; case E : (run _ _ _) => [y|||] //=.
  have {IH E} := IH _ E; set o := foldl _ None l; set st := foldl _ (false, false) l => -[E1 E2 E3].
  case: c => [a||||] /=.
  - case=> <- /=; have -> : opAT (if setupcalled y then reset y else y) = opAT y by case: ifP.
    by split=> // Hs _; left; apply: E3.
  - by rewrite E1; case: o E2 {E1} => //= a E2 [<-].
  - rewrite E1; case: o E2 {E1} => //= a E2 [<-] /=; split=> // Hs _; right.
    by case: (E2 Hs) => // ->.
  - by case=> <-.
  - by case=> <- /=; split.
move=> /I /= [E1 E2 E3]; split; last split.
- by move=> y o; rewrite /= -E1; case: (opA x) => // a [_ <-].
- move=> /eqP Hs y o; move: (E2 Hs); rewrite -E1 /=; case: (opA x) => // a K.
  by case: K => // -> [_ <-].
- by move=> H; rewrite /= E1 H.
Qed.

(** MFNSolveTranspose after a change of the operator multiplies with the transpose of the former one. *)
Theorem C55_transpose_refuted (a b : Mat) : transpose a <> transpose b ->
  exists x y, run transpose (create Mat) [:: SetOperator a; SolveTranspose Mat; SetOperator b] = Ok x /\
    step transpose x (SolveTranspose Mat) = Ok (y, Some (transpose a)) /\
    last_set [:: SetOperator a; SolveTranspose Mat; SetOperator b] = Some b.
Proof. by move=> _; do 2 eexists. Qed.
End Object.
Print Assumptions C55_operator.
Print Assumptions C55_transpose_refuted.

Example ex_C55 : exists x, run negb (create bool) [:: SetOperator false; Solve bool; SetOperator true; SolveTranspose bool; SetDimensions bool] = Ok x /\
  no_old_transpose [:: SetOperator false; Solve bool; SetOperator true; SolveTranspose bool; SetDimensions bool] /\
  (exists y, step negb x (Solve bool) = Ok (y, Some true)) /\ exists y, step negb x (SolveTranspose bool) = Ok (y, Some false).
Proof. by eexists; split; first reflexivity; split=> //; split; eexists. Qed.
