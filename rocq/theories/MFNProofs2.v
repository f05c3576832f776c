(** Functions of a matrix times a vector: the iterations. *)
From mathcomp Require Import all_ssreflect all_algebra.
From mathcomp Require Import zify.
From Verif Require Import Prelude GSModel GSSpec GSProofs GSProps KrylovModel KrylovSpec KrylovProofs KrylovProps SVDProofs MFNModel MFNSpec MFNProofs.
Set Implicit Arguments. Unset Strict Implicit. Unset Printing Implicit Defensive.
Import GRing.Theory Num.Theory Order.TTheory.
Local Open Scope ring_scope.

Section Zero.
Variables (F : numFieldType) (V : lmodType F) (dot : V -> V -> F) (conj : {rmorphism F -> F}) (sqrt : F -> F).
Hypothesis HH : hermitian conj dot.
Hypothesis Hsqrt : square_root sqrt.
Variables (g : config F).
Hypothesis Htol : 0 < deftol g.
Hypothesis Hdef : indef g = false.
Hypothesis Hnc : nc g = 0%N.
Let dL : forall a x y z, dot (a *: x + y) z = a * dot x z + dot y z. Proof. by case: HH. Qed.
Let dC : forall x y, dot x y = conj (dot y x). Proof. by case: HH. Qed.
Let d0 x : dot 0 x = 0. Proof. exact: (dot0l dL). Qed.
Let s0 : sqrt 0 = 0.
Proof. by have [|_ /eqP] := Hsqrt (a := 0); rewrite // sqrf_eq0 => /eqP. Qed.

Notation mem := (GSModel.mem V).
Definition both_zero (s : mem) : Prop := col s 0%N = 0 /\ col s 1%N = 0.

Lemma safe0 : safe_sqrt sqrt g 0 = Ok 0.
Proof. by rewrite /safe_sqrt /check real0 Hdef oppr_lt0 Htol ltxx s0. Qed.
Lemma norm_zero (s : mem) : both_zero s -> norm_work dot sqrt g (Column 1) s = Ok 0.
Proof. by case=> _ Z1; rewrite /norm_work /= Hnc Z1 d0 safe0. Qed.
Lemma add_zero (s : mem) : both_zero s -> buf s 1 0%N = 0 -> buf s 0 0%N = 0 ->
  both_zero (add_coefficients g (Column 1) s) /\ buf (add_coefficients g (Column 1) s) 1 0%N = 0.
Proof.
move=> [Z0 Z1] B1 B0; rewrite /add_coefficients Hnc /loop /=; split=> //.
by rewrite /upd2 /upd /= B1 B0 addr0.
Qed.
Lemma mgs1_zero wo wn (s : mem) a b : both_zero s -> buf s 1 0%N = 0 ->
  exists s', [/\ mgs1 dot sqrt g (Column 1) None wo wn s a b =
     Ok (s', if wo then Some 0 else a, if wn then Some 0 else b), both_zero s' & buf s' 1 0%N = 0].
Proof.
move=> [Z0 Z1] B1; rewrite /mgs1 Hnc /= /loop /= Hdef.
have En : norm_work dot sqrt g (Column 1) s = Ok 0 by rewrite /norm_work /= Hnc Z1 d0 safe0.
rewrite En /= ?Hnc /=; set s1 := with_col _ _.
have [Y X0 X1] : [/\ both_zero s1, buf s1 1 0%N = 0 & buf s1 0 0%N = 0].
  by rewrite /s1 /both_zero /= ?Hnc /= /upd2 /upd /= Z0 Z1 d0 scaler0 subr0.
have En1 := norm_zero Y.
have [Ya Xa] := add_zero Y X0 X1; rewrite En1.
by exists (add_coefficients g (Column 1) s1); split=> //; case: (wo); case: (wn).
Qed.
Lemma cgs1_zero wo wn (s : mem) a b : both_zero s -> buf s 1 0%N = 0 ->
  exists s', [/\ cgs1 dot conj sqrt g (Column 1) wo wn s a b =
     Ok (s', if wo then Some 0 else a, if wn then Some 0 else b), both_zero s' & buf s' 1 0%N = 0].
Proof.
move=> [Z0 Z1] B1; rewrite /cgs1 Hnc Hdef add0n [upto _]/= /c_get.
have Dn n : (0 < n <= 2)%N -> let s1 := dots dot g (Column 1) n s in
    [/\ both_zero s1, buf s1 1 0%N = 0, buf s1 0 0%N = 0 & (n == 2)%N -> buf s1 0 1%N = 0].
  by case: n => [|[|[|n]]] // _; rewrite /dots /loop /both_zero /= Hnc /= /upd2 /upd /= Z0 ?Z1 ?d0.
have St (s1 : mem) : both_zero s1 -> buf s1 1 0%N = 0 -> buf s1 0 0%N = 0 -> let s2 := GSModel.mult g (Column 1) s1 in
    [/\ both_zero s2, buf s2 1 0%N = 0, buf s2 0 0%N = 0, norm_work dot sqrt g (Column 1) s2 = Ok 0 &
        square_sum conj g (Column 1) s2 = 0].
  move=> [Y0 Y1] X1 X0; rewrite /GSModel.mult /norm_work /square_sum /both_zero /= Hnc /= /upd /= X0 Y0 Y1.
  by rewrite scaler0 addr0 subr0 d0 safe0 mul0r addr0.
case Ew: (wo || wn).
  have [Y X1 X0 X2] := Dn 2%N isT; rewrite X2 // safe0 [bind (Ok _) _]/=.
  have [Y' X1' X0' N' Q'] := St _ Y X1 X0; rewrite Q' mulr0 subr0 lexx N' /=.
  have [Ya Xa] := add_zero Y' X1' X0'; eexists; split; last by [exact: Xa].
    by case: (wo); case: (wn).
  exact: Ya.
have [Y X1 X0 _] := Dn 1%N isT; have [Y' X1' X0' N' Q'] := St _ Y X1 X0.
have [Ya Xa] := add_zero Y' X1' X0'; move: Ew; case: (wo); case: (wn) => //= _.
by eexists; split; [by []|exact: Ya|exact: Xa].
Qed.
Lemma gs1_zero wo wn (s : mem) a b : both_zero s -> buf s 1 0%N = 0 ->
  exists s', [/\ gs1 dot conj sqrt g (Column 1) None wo wn s a b =
     Ok (s', if wo then Some 0 else a, if wn then Some 0 else b), both_zero s' & buf s' 1 0%N = 0].
Proof. by rewrite /gs1; case: (mgs g); [exact: mgs1_zero|exact: cgs1_zero]. Qed.
Lemma gs_zero wn (s : mem) : both_zero s ->
  exists s', [/\ gs dot conj sqrt g (Column 1) None wn wn s =
     Ok (s', if wn then Some 0 else None, if wn then Some true else None), both_zero s' & buf s' 1 0%N = 0].
Proof.
move=> Z; rewrite /gs Hdef /=.
have [Zc Bc] : both_zero (clean_coefficients g (Column 1) s) /\ buf (clean_coefficients g (Column 1) s) 1 0%N = 0.
  by rewrite /clean_coefficients Hnc /loop /=.
move: (clean_coefficients _ _ _) Zc Bc => {Z} s1 Zc Bc.
case: (ref g).
- have [s2 [-> Z2 B2]] := gs1_zero true true None None Zc Bc.
  rewrite /= eqxx /=; case: wn => /=; last by exists s2.
  by rewrite /dependent /= eqxx /= Hnc; eexists; split; first by [].
- have [s2 [-> Z2 B2]] := gs1_zero false false None None Zc Bc.
  case: wn => /=; last by exists s2.
  rewrite /norm_work /= Hnc; case: (Z2) => _ ->; rewrite d0 safe0 /= eqxx /=.
  by eexists; split; first by [].
- have [s2 [-> Z2 B2]] := gs1_zero false false None None Zc Bc.
  have [s3 [E3 Z3 B3]] := gs1_zero wn (wn || wn || false) None None Z2 B2.
  rewrite orbF orbb /= in E3 *; rewrite E3 {E3}; case: wn => /=; last by exists s3.
  by rewrite /dependent /= eqxx /= Hnc; eexists; split; first by [].
Qed.
End Zero.

Section Iterations.
Variables (F : numFieldType) (V : lmodType F) (dot : V -> V -> F) (conj : {rmorphism F -> F}) (sqrt : F -> F).
Hypothesis HH : hermitian conj dot.
Hypothesis Hsqrt : square_root sqrt.
Hypothesis Hpd : positive_definite dot.
Variables (op : V -> V) (N : nat).
Hypothesis Hdim : dimension dot N.
Hypothesis Hop : forall a x y, op (a *: x + y) = a *: op x + op y.
Variables (g : config F).
Hypothesis Heta : 0 < eta g <= 1.
Hypothesis Htol : 0 < deftol g.
Hypothesis Hdef : indef g = false.
Hypothesis Hnc : nc g = 0%N.
Let dL : forall a x y z, dot (a *: x + y) z = a * dot x z + dot y z. Proof. by case: HH. Qed.
Let dC : forall x y, dot x y = conj (dot y x). Proof. by case: HH. Qed.
Let d0 x : dot 0 x = 0. Proof. exact: (dot0l dL). Qed.
Let s0 : sqrt 0 = 0.
Proof. by have [|_ /eqP] := Hsqrt (a := 0); rewrite // sqrf_eq0 => /eqP. Qed.

Notation mem := (GSModel.mem V).

(** BVMatArnoldi from the zero vector: one column, zero. *)
Lemma arnoldi_zero m beta (H : dense F) (s : mem) : col s 0%N = 0 -> (0 < m < ncols g)%N ->
  (m <= rows H <= lda H)%N -> (m <= cols H)%N ->
  exists s' e', [/\ mat_arnoldi dot conj sqrt op N g (Some H) 0 m beta s =
      Ok (s', Some (Dense (rows H) (cols H) (lda H) e'), 1%N, 0, true), both_zero s', e' 0%N 0%N = 0 &
      forall p q, (q.+1 < p)%N -> e' p q = entry H p q].
Proof.
move=> Z /andP [Hm Hn] /andP [Hr Hl] Hc; rewrite /mat_arnoldi /check leq0n Hm ltnW // Hr Hc subn0 /=.
case: m Hm Hn Hr Hc => // m _ Hn Hr Hc; rewrite /= /mat_mult_column /check Hnc.
have H1 : (1 < ncols g)%N by apply: leq_ltn_trans Hn.
rewrite H1 /= Z (op0 Hop).
set s1 := with_col _ _.
have Z1 : both_zero s1 by rewrite /s1 /both_zero /= /upd /= Z.
have [s' [E Zs Bs]] : exists s', [/\ (if 1%N == N then orthogonalize_safe dot conj sqrt g 1 s1
    else orthonormalize_column dot conj sqrt g 1 false 0 0 s1) = Ok (s', 0, true), both_zero s' & buf s' 1 0%N = 0].
  case: ifP => _.
    rewrite /orthogonalize_safe /orthogonalize_column /check H1.
    have [s2 [-> Z2 B2]] := gs_zero HH Hsqrt (g := no_refinement g) Htol Hdef Hnc false Z1.
    by exists s2.
  rewrite /orthonormalize_column /check H1.
  have [s2 [-> Z2 B2]] := gs_zero HH Hsqrt Htol Hdef Hnc true Z1; rewrite /= eqxx /= andbF.
  by exists s2.
rewrite E /=.
have [|||e' [-> He]] := @store_h_ok _ _ g 0 1 s' H; try lia.
exists s', e'; split=> // [|p q Hpq]; rewrite He /= ?Hnc //.
by rewrite [(p <= q.+1)%N]leqNgt Hpq /= andbF.
Qed.

Variables (ncv max_it : nat) (tol : F).
Hypothesis Hncv : (0 < ncv)%N.
Hypothesis Hcols : ncols g = ncv.+1.

Definition below (M : nat -> nat -> F) : Prop := forall p q, (q.+1 < p)%N -> M p q = 0.
(** The first vector: a unit vector, or zero. *)
Definition first_ok (v : mem) (m : nat) : Prop :=
  (dot (col v 0%N) (col v 0%N) = 1 /\ m = ncv) \/ (col v 0%N = 0 /\ (0 < m <= ncv)%N).

Lemma matrix_arnoldi m' N' lda u e e' beta : (0 < m')%N -> below e ->
  arnoldi_matrix op 0 N' 0 m' lda u e e' beta -> arnoldi op m' u e' beta (u m') /\ below e'.
Proof.
move=> Hm Hb [A1 A2 A3 A4].
have Hb' : below e' by move=> p q Hpq; rewrite A4 ?Hb //; lia.
split=> //; split=> [j Hj|i j Hi Hij]; last exact: Hb'.
have [c] := A1 j Hj; rewrite !add0n => ->; rewrite {1}/comb big_geq // add0r.
case: (ltnP j.+1 m') => Hj1.
  rewrite ltn_eqF // addr0 /comb (@big_cat_nat _ _ _ j.+2 0 m') //= [in RHS]big_nat_recr //=.
  rewrite [X in _ = _ + X](_ : _ = 0) ?addr0 // big_nat_cond big1 // => i /andP [/andP [Hi _] _].
  by rewrite Hb' // scale0r.
have -> : m' = j.+1 by lia.
by rewrite eqxx.
Qed.

Lemma arnoldi_step (v : mem) (M : nat -> nat -> F) m beta : first_ok v m -> below M ->
  exists v' e' m' beta' b,
  [/\ mat_arnoldi dot conj sqrt op N g (Some (Dense ncv.+1 ncv ncv.+1 M)) 0 m beta v =
        Ok (v', Some (Dense ncv.+1 ncv ncv.+1 e'), m', beta', b),
      [/\ (0 < m' <= ncv)%N, col v' 0%N = col v 0%N & below e'],
      arnoldi op m' (col v') e' beta' (col v' m'),
      (if b then beta' = 0 /\ col v' m' = 0
       else [/\ m' = ncv, 0 < beta', orthonormal dot (col v') m'.+1 & (ncv < N)%N]) &
      beta' = 0 \/ orthonormal dot (col v') m'].
Proof.
move=> Hf Hb; case: (Hf) => [[H1 Em]|[H0 /andP [Hm0 Hm]]].
- subst m.
  have Ho : orthonormal dot (col v) (nc g + 1) by rewrite Hnc => -[|i] [|j].
  have Hn : (0 < ncv < ncols g)%N by rewrite Hcols Hncv /=.
  have Hr : (ncv <= rows (Dense ncv.+1 ncv ncv.+1 M) <= lda (Dense ncv.+1 ncv ncv.+1 M))%N by rewrite /= leqnSn leqnn.
  have Hc : (ncv <= cols (Dense ncv.+1 ncv ncv.+1 M))%N by [].
  have [v' [e' [m' [beta' [b [E [K1 K2 K3 K4 K5 K6] A]]]]]] :=
    C44_arnoldi HH Hsqrt Hpd op Hdim Heta Htol Hdef beta Ho Hn Hr Hc.
  rewrite Hnc in K2 K4 K5 K6 A; rewrite ?add0n in K2 K4 K5 K6.
  have Hm0 : (0 < m')%N by case/andP: K1.
  have [A' Hb'] := matrix_arnoldi Hm0 Hb A.
  exists v', e', m', beta', b; split=> //.
    by split=> //; apply: K2.
  - case: b K5 K6 {E} => [K5 _|_ /(_ isT) [Em Hbeta Ho1]]; first by case: (K5 isT).
    split=> //.
    by rewrite -Em; exact: Hdim Ho1.
  - by right.
- have Hn : (0 < m < ncols g)%N by rewrite Hcols Hm0 ltnS.
  have Hr : (m <= rows (Dense ncv.+1 ncv ncv.+1 M) <= lda (Dense ncv.+1 ncv ncv.+1 M))%N by rewrite /= leqnn andbT ltnW.
  have [v' [e' [E [Z0 Z1] He Hb']]] := arnoldi_zero beta H0 Hn Hr Hm.
  exists v', e', 1%N, 0, true; split=> //; last by left.
    by split; [rewrite Hncv|rewrite Z0 H0|move=> p q Hpq; rewrite Hb' //=; apply: Hb].
  split=> [j|i j]; last by lia.
  rewrite ltnS leqn0 => /eqP ->; rewrite eqxx Z0 (op0 Hop) Z1 scaler0 addr0 /comb big_nat1 Z0 scaler0 //.
Qed.

(** What the iterations have produced. *)
Variables (b : V) (bn : F) (fmv : nat -> (nat -> nat -> F) -> nat -> F).
Hypothesis fmv_ext : forall n H H', (forall i j, (i < n)%N -> (j < n)%N -> H i j = H' i j) ->
  forall k, (k < n)%N -> fmv n H k = fmv n H' k.
Record result (t : nat) (x : V) (n : nat) (W : nat -> V) (H : nat -> nat -> F) (beta : F) (v : V) (sz : nat -> nat) : Prop :=
  Result {
  r_arnoldi : arnoldi op n W H beta v;
  r_size : sz 0%N = 0%N /\ sz t = n;
  r_mono : forall k, (k < t)%N -> (sz k < sz k.+1)%N;
  r_value : forall p, (forall k, (0 < k <= t)%N -> represents fmv p (sz k) H) -> x = bn *: comb W n (polcol n H p);
  r_start : b = bn *: cat n W (fun _ => v) 0%N }.

Lemma represents_ext p n H H' : (forall i j, (i < n)%N -> (j < n)%N -> H i j = H' i j) ->
  represents fmv p n H -> represents fmv p n H'.
Proof. by move=> E R k Hk; rewrite -(fmv_ext E) // R //; apply: polcol_eq. Qed.

Lemma mono_le t (sz : nat -> nat) k : (forall k, (k < t)%N -> (sz k < sz k.+1)%N) -> (k <= t)%N -> (sz k <= sz t)%N.
Proof.
move=> Hm; elim: t Hm => [|t IH] Hm; first by rewrite leqn0 => /eqP ->.
rewrite leq_eqVlt => /orP [/eqP -> //|]; rewrite ltnS => Hk.
by apply: leq_trans (IH _ Hk) (ltnW (Hm t _)) => // i Hi; apply: Hm; apply: ltnW.
Qed.

Lemma result_step t x n W H beta (v' : mem) sz m e' beta' :
  result t x n W H beta (col v' 0%N) sz -> (0 < m)%N -> arnoldi op m (col v') e' beta' (col v' m) ->
  let H' := glue (t.+1 == 1)%N n m H e' beta in
  result t.+1 (x + \sum_(0 <= j < m) (fmv (n + m) H' (n + j)%N * bn) *: col v' j) (n + m)
    (cat n W (col v')) H' beta' (col v' m) (fun k => if (k <= t)%N then sz k else (n + m)%N).
Proof.
move=> [R1 [S0 S1] R3 R4 R5] Hm A H'.
have Hf : (t.+1 == 1)%N -> n = 0%N by rewrite eqSS => /eqP E; rewrite -S1 E.
have HE : forall i j, (i < n)%N -> (j < n)%N -> H' i j = H i j.
  move=> i j Hi Hj; apply: glue_upper => //; apply/negP => /Hf E; by rewrite E in Hi.
split.
- exact: glue_arnoldi.
- by rewrite leq0n ltnn.
- move=> k; rewrite ltnS => Hk; rewrite Hk; case: ifP => Hk1; first exact: R3.
  have -> : k = t by lia.
  by rewrite S1 -addn1 leq_add2l.
- move=> p Hp; rewrite (R4 p) => [|k /andP [Hk0 Hk]].
    rewrite cat_comb scalerDr; congr (_ + _).
      congr (_ *: _); apply: comb_eq => i Hi; rewrite (polcol_prefix _ (H := H')) //.
        by apply: polcol_eq => // k j Hk Hj; rewrite HE.
      by move=> k j Hk Hj; apply: glue_lower.
    rewrite /comb scaler_sumr; apply: eq_big_nat => j /andP [_ Hj].
    have := Hp t.+1; rewrite ltnn leqnn => /(_ isT (n + j)%N) ->; last by rewrite ltn_add2l.
    by rewrite mulrC scalerA.
  have Hle : (sz k <= n)%N by rewrite -S1; apply: mono_le.
  have := Hp k; rewrite Hk0 Hk (leq_trans Hk (leqnSn t)) => /(_ isT); apply: represents_ext => i j Hi Hj.
  by apply: HE; apply: leq_trans Hle.
- rewrite {1}R5 /cat; congr (_ *: _).
  rewrite addn_gt0 Hm orbT; by case: ifP.
Qed.

Lemma update_norm (u : nat -> V) m f : 0 <= bn -> orthonormal dot u m ->
  is_norm dot (\sum_(0 <= j < m) (f j * bn) *: u j) (nrm2 conj sqrt m f * bn).
Proof.
move=> Hbn Ho; have -> : \sum_(0 <= j < m) (f j * bn) *: u j = bn *: comb u m f.
  by rewrite -combZl; apply: eq_big_nat => j _; rewrite mulrC.
have Hs : \sum_(0 <= i < m) f i * conj (f i) = dot (comb u m f) (comb u m f).
  rewrite {2}/comb (dot_sumr dL dC); apply: eq_big_nat => i /andP [_ Hi].
  by rewrite (dotZr dL dC) (dot_comb HH) // mulrC.
have Hge := dot_ge0 HH Hpd (comb u m f).
have [A1 A2] := Hsqrt Hge.
split; first by rewrite /nrm2 Hs mulr_ge0.
rewrite /nrm2 Hs exprMn A2 (dotZl dL) (dotZr dL dC) (_ : conj bn = bn).
  by rewrite mulrA mulrC expr2.
by case: HH => _ _ _ cR; apply: cR; rewrite ger0_real.
Qed.

(** The state at the start of an iteration. *)
Definition inv (s : state V) : Prop :=
  [/\ exists W sz, result (its s) (sx s) (sn s) W (sH s) (betaold s) (col (bv s) 0%N) sz,
      first_ok (bv s) (sm s), below (marray s) & (its s < maxn 1 max_it)%N].
(** The result of the last iteration. *)
Definition ended (s : state V) (r : reason) : Prop :=
  exists n W H beta v sz, [/\ result (its s) (sx s) n W H beta v sz,
    (0 < its s <= maxn 1 max_it)%N, (0 < n)%N /\ ((N <= ncv)%N -> beta = 0) &
    match r with
    | Iterating => False
    | DivergedIts => its s = maxn 1 max_it
    | ConvergedTol => (1 < its s)%N /\ (beta = 0 \/
        exists y d a, [/\ sx s = y + d, is_norm dot d (a * bn), a < tol &
          forall p, (forall k, (0 < k < its s)%N -> represents fmv p (sz k) H) ->
            y = bn *: comb W (sz (its s).-1) (polcol (sz (its s).-1) H p)])
    end].

Lemma step_ok s : 0 <= bn -> inv s -> exists s' r,
  krylov_step dot conj sqrt op N g ncv max_it tol fmv bn s = Ok (s', r) /\ its s' = (its s).+1 /\
  (if r is Iterating then inv s' else ended s' r).
Proof.
move=> Hbn [[W [sz R]] Hf Hb Ht].
have [v' [e' [m' [beta' [bd [E [/andP [Hm0 Hm] Hc Hb'] A Hbd Ho]]]]]] := arnoldi_step (sbeta s) Hf Hb.
rewrite -Hc in R.
have := result_step R Hm0 A.
rewrite /krylov_step E /=; set H' := glue _ _ _ _ _ _; set x' := sx s + _.
move=> /= R'.
have -> : sx s + \sum_(0 <= j < m') (fmv (sn s + m') H' (sn s + j)%N * bn) *: col v' (nc g + j)%N = x' by rewrite Hnc.
set nrm := nrm2 _ _ _ _.
have HN : (N <= ncv)%N -> beta' = 0.
  by move=> HN; case: (bd) Hbd => [[]|[_ _ _]] //; rewrite ltnNge HN.
set T := (its s).+1 in R' *.
have Hn0 : (0 < sn s + m')%N by rewrite addn_gt0 Hm0 orbT.
case Ec : ((1 < T)%N && _).
  case/andP: Ec => HT Ec; eexists; exists ConvergedTol; split; first by []; split=> //.
  do 6 eexists; split; [exact: R'|by []|by split|split=> //].
  case/or4P: Ec => [Hlt|Hbt|/eqP ->|Hn]; [left|left|by left|].
  - by move: Hbd; case: (bd) => [[]|[]] //; lia.
  - by move: Hbd; rewrite Hbt => -[].
  - case: Ho => [->|Ho]; [by left|right].
    exists (sx s), (\sum_(0 <= j < m') (fmv (sn s + m') H' (sn s + j)%N * bn) *: col v' j), nrm; split=> //.
      exact: update_norm.
    move=> p Hp; rewrite /= leqnn.
    case: (R) => [_ [_ S1] R3 R4 _].
    have Hf0 : (T == 1)%N = false by rewrite gtn_eqF.
    have HE : forall i j, (i < sn s)%N -> (j < sn s)%N -> H' i j = sH s i j.
      by move=> i j Hi Hj; apply: glue_upper => //; rewrite Hf0.
    rewrite S1 (R4 p).
      congr (_ *: _); rewrite /comb; apply: eq_big_nat => i /andP [_ Hi]; rewrite /cat Hi; congr (_ *: _).
      by apply: polcol_eq => // k j Hk Hj; rewrite HE.
    move=> k /andP [Hk0 Hk]; have := Hp k; rewrite Hk0 /= ltnS Hk => /(_ isT); apply: represents_ext => i j Hi Hj.
    have Hle : (sz k <= sn s)%N by rewrite -S1; apply: mono_le.
    by apply: HE; apply: leq_trans Hle.
case: (leqP max_it T) => HT.
  eexists; exists DivergedIts; split; first by []; split=> //.
  do 6 eexists; split; [exact: R'|by []|by split|].
  by rewrite /=; apply/eqP; rewrite eqn_leq Ht geq_max HT andbT.
eexists; exists Iterating; split; first by []; split=> //.
split=> //=.
- by exists (cat (sn s) W (col v')), (fun k => if (k <= its s)%N then sz k else (sn s + m')%N);
     rewrite Hnc /upd /= add0n.
- rewrite /first_ok /= Hnc /upd /= add0n.
  case: (bd) Hbd => [[_ ->]|[-> _ Ho1 _]]; [right|left]; last by rewrite Ho1 // eqxx.
  by rewrite Hm0 Hm.
- by rewrite leq_max HT orbT.
Qed.

Lemma loop_ok fuel s : 0 <= bn -> inv s -> (maxn 1 max_it - its s <= fuel)%N ->
  exists s' r, krylov_loop dot conj sqrt op N g ncv max_it tol fmv fuel bn s = Ok (s', r) /\ ended s' r.
Proof.
move=> Hbn; elim: fuel s => [|fuel IH] s Hi Hfuel; first by case: Hi => _ _ _; lia.
have [s' [r [E [Ei H]]]] := step_ok Hbn Hi; rewrite /= E /=.
by case: r H {E} => H; [apply: IH => //; rewrite Ei; lia|exists s', ConvergedTol|exists s', DivergedIts].
Qed.
End Iterations.
