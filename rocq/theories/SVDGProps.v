(** Property theorems C52: the generalized singular value decomposition through an eigensolver. *)
From mathcomp Require Import all_ssreflect all_algebra all_field ring.
From Verif Require Import Prelude GSModel GSSpec GSProofs GSProps SVDModel SVDSpec SVDProofs SVDProps.
Set Implicit Arguments. Unset Strict Implicit. Unset Printing Implicit Defensive.
Import GRing.Theory Num.Theory Order.TTheory.
Local Open Scope ring_scope.

Section Props.
Variables (F : numFieldType) (W : lmodType F) (dot : W -> W -> F) (conj : {rmorphism F -> F}) (sqrt re : F -> F).
Hypothesis HH : hermitian conj dot.
Hypothesis Hpd : positive_definite dot.
Hypothesis Hsqrt : square_root sqrt.
Hypothesis Hre : real_part re.
Variables (cplx : bool) (tiny : F).
Hypothesis Htiny : 0 < tiny.
Variable inp : input W.
(** The matrices A, B and their Hermitian transposes. *)
Hypothesis HlinA : linop (mult (op inp)).
Hypothesis HlinAh : linop (multh (op inp)).
Hypothesis HadjA : adjoint dot (mult (op inp)) (multh (op inp)).
Hypothesis HlinB : linop (mult (opb inp)).
Hypothesis HlinBh : linop (multh (opb inp)).
Hypothesis HadjB : adjoint dot (mult (opb inp)) (multh (opb inp)).
Variable sort_perm : nat -> (nat -> F) -> nat -> nat.
Hypothesis Hsort : sorting sort_perm.
Variables (nrma nrmb : F).
Hypothesis Hgen : ptype inp = Generalized.
Hypothesis Hsize : (N inp <= M inp + P inp)%N.
Hypothesis HM : M inp != 0%N.
Hypothesis HN : N inp != 0%N.

Let dL : forall a x y z, dot (a *: x + y) z = a * dot x z + dot y z. Proof. by case: HH. Qed.
Let dC : forall x y, dot x y = conj (dot y x). Proof. by case: HH. Qed.
Let cR : forall a, a \is Num.real -> conj a = a. Proof. by case: HH. Qed.

Definition normalA (x : W) : W := multh (op inp) (mult (op inp) x).
Definition normalB (x : W) : W := multh (opb inp) (mult (opb inp) x).

Lemma is_gen : isgeneralized inp = true /\ ishyperbolic inp = false.
Proof. by rewrite /isgeneralized /ishyperbolic Hgen. Qed.

Lemma cosine s : 0 <= s -> let d := 1 / sqrt (1 + s * s) in
  [/\ 0 < d, (s * d) ^+ 2 + d ^+ 2 = 1 & s * d / d = s].
Proof.
move=> Hs d; have H1 : 0 < 1 + s * s by rewrite ltr_paddr ?mulr_ge0 ?ltr01.
have H2 := sqrt_gt0 Hsqrt H1; have d0 : 0 < d by rewrite /d divr_gt0 ?ltr01.
split=> //; last by rewrite mulfK ?gt_eqF.
rewrite exprMn /d expr_div_n (sqr_sqrt Hsqrt) ?ltW //; field.
by rewrite gt_eqF.
Qed.

Section Cross.
Hypothesis Hsupp : explicitmatrix inp -> expltrans inp || ~~ cplx.
Variable eps : (W -> W) -> option (W -> W) -> nat * (nat -> F) * (nat -> W).
(** What is used of the eigensolver: the eigenvalues are the Rayleigh quotients of the vectors, whose product
    with B is not zero. *)
Hypothesis Heps : forall c d, self_adjoint dot c -> self_adjoint dot d ->
  let '(n, la, x) := eps c (Some d) in
  forall k, (k < n)%N -> 0 < dot (d (x k)) (x k) /\ dot (c (x k)) (x k) = la k * dot (d (x k)) (x k).

Lemma product_gen : exists c d, [/\ cross_operators cplx inp = Ok (c, Some d),
  forall x, c x = normalA x & forall x, d x = normalB x].
Proof.
have [E1 E2] := is_gen.
rewrite /cross_operators /product_mat /mult_cross /mA /mAT /mB /mBT /swapped E1 E2 /=.
case: (explicitmatrix inp) Hsupp => /= Hs; last by do 2 eexists.
by case: (expltrans inp) Hs => /= [_|/(_ isT) /negbTE ->]; do 2 eexists.
Qed.

(** Solver cross for the GSVD: sigma = c/s with A x = c u, B x = s v, c^2+s^2 = 1 whatever the accuracy of the
    eigenpairs; the errors computed are multiples of the residual of A^*A x = sigma^2 B^*B x. *)
Theorem C52_gsvd_cross : exists r n la x p,
  [/\ solve_cross sqrt re cplx tiny inp eps sort_perm = Ok r,
      (forall k, (k < n)%N -> dot (normalA (x k)) (x k) = la k * dot (normalB (x k)) (x k) /\ 0 <= la k),
      [/\ renumbering n p, nconv r = n &
          exists c d, [/\ forall y, c y = normalA y, forall y, d y = normalB y & eps c (Some d) = (n, la, x)]],
      (forall i j, (i <= j < n)%N ->
         if which inp is Largest then sqrt (la (p j)) <= sqrt (la (p i)) else sqrt (la (p i)) <= sqrt (la (p j))) &
      forall i, (i < n)%N -> exists u v y c s,
      let sg := sqrt (la (p i)) in
      [/\ get_gtriplet r (gvectors_cross dot sqrt re inp r) i = Ok (sg, (u, v), y),
          [/\ 0 <= c, 0 < s, c ^+ 2 + s ^+ 2 = 1 & sg = c / s],
          [/\ mult (op inp) y = c *: u, mult (opb inp) y = s *: v, dot v v = 1,
              la (p i) = 0 -> u = 0 & 0 < la (p i) -> dot u u = 1],
          (exists2 a, 0 < a & y = a *: x (p i)) &
          0 < la (p i) -> forall a b, is_norm dot (normalA y - la (p i) *: normalB y) a -> is_norm dot y b ->
          let err t := compute_gerror dot sqrt inp nrma nrmb r (gvectors_cross dot sqrt re inp r) i t in
          [/\ err Absolute = Ok (a / sg),
              err Relative = Ok (pmax (a / la (p i)) a / sqrt (1 + b ^+ 2)) &
              err Norm = Ok (a / sg / (pmax nrma nrmb * sqrt (1 + b ^+ 2)))]]].
Proof.
have [E1 E2] := is_gen; have [c [d [Ec Hc Hd]]] := product_gen.
have cA x y : dot (normalA x) y = dot (mult (op inp) x) (mult (op inp) y) by rewrite (adjointC HH HadjA).
have cB x y : dot (normalB x) y = dot (mult (opb inp) x) (mult (opb inp) y) by rewrite (adjointC HH HadjB).
have := Heps (c := c) (d := d).
rewrite /solve_cross /check /sizes_ok E1 /= Hsize (negbTE HM) (negbTE HN) /= Ec /=.
have sc : self_adjoint dot c by move=> y z; rewrite !Hc cA HadjA.
have sd : self_adjoint dot d by move=> y z; rewrite !Hd cB HadjB.
case Ee: (eps c (Some d)) => [[n la] x] /(_ sc sd) R.
have B0 k : (k < n)%N -> 0 < dot (mult (opb inp) (x k)) (mult (opb inp) (x k)).
  by move=> Hk; have [+ _] := R k Hk; rewrite Hd cB.
have AB k : (k < n)%N -> dot (mult (op inp) (x k)) (mult (op inp) (x k)) =
                         la k * dot (mult (opb inp) (x k)) (mult (opb inp) (x k)).
  by move=> Hk; have [_] := R k Hk; rewrite Hd Hc cA cB.
have L0 k : (k < n)%N -> 0 <= la k.
  by move=> Hk; rewrite -(pmulr_lge0 _ (B0 k Hk)) -AB // (dot_ge0 HH Hpd).
have [|sg -> Hsg] := cross_values_ok sqrt Hre Htiny (n := n) (i := 0) (la := la) (fun _ => 0) E2.
  by move=> k; rewrite add0n; exact: L0.
have Sg k : (k < n)%N -> sg k = sqrt (la k) by move=> Hk; rewrite Hsg add0n Hk.
pose p := sorted_perm inp sort_perm n sg.
have [|[P1 P2] P3] := @sorted_perm_ok _ _ inp sort_perm Hsort n sg.
  by move=> i Hi; rewrite Sg // ger0_real // (sqrt_ge0 Hsqrt) ?L0.
exists (Solved n sg p la x), n, la, x, p; split; [by []| |by split=> //; exists c, d| |].
- by move=> k Hk; rewrite cA cB AB ?L0.
- move=> i j Hij.
  have Hi : (i < n)%N by case/andP: Hij; exact: leq_ltn_trans.
  have Hj : (j < n)%N by case/andP: Hij.
  by have := P3 i j Hij; rewrite -/p !Sg ?P1.
move=> i Hi; set k := p i; have Hk : (k < n)%N by exact: P1.
pose S := sqrt (la k); pose s := 1 / sqrt (1 + S * S).
have S0 : 0 <= S by rewrite (sqrt_ge0 Hsqrt) ?L0.
have SS : S * S = la k by rewrite -expr2 (sqr_sqrt Hsqrt) ?L0.
have [s0 cs1 csS] := cosine S0; rewrite -/s in s0 cs1 csS.
pose nB := norm2 dot sqrt (mult (opb inp) (x k)); pose nA := norm2 dot sqrt (mult (op inp) (x k)).
have nB0 : 0 < nB by rewrite /nB (sqrt_gt0 Hsqrt) ?B0.
have nAE : nA = S * nB.
  apply: (sqrtE Hsqrt); first by rewrite mulr_ge0 // ltW.
  by rewrite exprMn (sqr_norm2 HH Hpd Hsqrt) (sqr_sqrt Hsqrt) ?L0 // -AB.
pose u := normalize dot sqrt (mult (op inp) (x k)); pose v := normalize dot sqrt (mult (opb inp) (x k)).
pose y := (1 / (sqrt (1 + re (la k)) * nB)) *: x k.
have aE : 1 / (sqrt (1 + re (la k)) * nB) = s / nB.
  by rewrite Hre ?ger0_real ?L0 // -SS /s !mul1r invfM.
have Ax : mult (op inp) (x k) = nA *: u.
  rewrite /u /normalize -/nA; case: eqP => [H|/eqP H]; last by rewrite mul1r scalerA divff ?scale1r.
  by move/eqP: H; rewrite (norm2_eq0 HH Hpd Hsqrt) => /eqP ->; rewrite scaler0.
have Bx : mult (opb inp) (x k) = nB *: v.
  by rewrite /v /normalize -/nB gt_eqF // mul1r scalerA divff ?scale1r // gt_eqF.
have Ay : mult (op inp) y = (S * s) *: u.
  rewrite /y aE (linopZ _ _ HlinA) Ax scalerA nAE; congr (_ *: _).
  by rewrite [S * nB]mulrC mulrA divfK ?gt_eqF // mulrC.
have By : mult (opb inp) y = s *: v by rewrite /y aE (linopZ _ _ HlinB) Bx scalerA divfK // gt_eqF.
have T : get_gtriplet (Solved n sg p la x) (gvectors_cross dot sqrt re inp (Solved n sg p la x)) i = Ok (S, (u, v), y).
  by rewrite /get_gtriplet /check /= Hi -/k Sg // /u /v /mA E1.
have un z : norm2 dot sqrt z != 0 -> dot (normalize dot sqrt z) (normalize dot sqrt z) = 1.
  move=> Hz; rewrite /normalize (negbTE Hz) (dotZZ HH) mul1r cR; last first.
    by rewrite rpredV ger0_real // (norm2_ge0 HH Hpd Hsqrt).
  by rewrite -(sqr_norm2 HH Hpd Hsqrt) expr2 mulrACA mulVf ?mulr1.
exists u, v, y, (S * s), s; split.
- by rewrite T.
- by split; rewrite ?csS // mulr_ge0 // ltW.
- split=> //; first by apply: un; rewrite gt_eqF.
    move=> Lk; rewrite /u /normalize -/nA nAE /S Lk (sqrt0 Hsqrt) mul0r eqxx.
    by apply/eqP; rewrite -(norm2_eq0 HH Hpd Hsqrt) -/nA nAE /S Lk (sqrt0 Hsqrt) mul0r.
  by move=> Lk; apply: un; rewrite -/nA nAE mulf_neq0 ?gt_eqF // (sqrt_gt0 Hsqrt).
- by exists (s / nB); [rewrite divr_gt0|rewrite /y aE].
move=> Lk a b Na Nb.
have Sp : 0 < S by rewrite (sqrt_gt0 Hsqrt).
have a0 : 0 <= a by case: Na.
set e := normalA y - _ in Na.
have Ah : multh (op inp) u = (S * s)^-1 *: normalA y.
  by rewrite /normalA Ay (linopZ _ _ HlinAh) scalerA mulVf ?scale1r // mulf_neq0 ?gt_eqF.
have Bh : multh (opb inp) v = s^-1 *: normalB y.
  by rewrite /normalB By (linopZ _ _ HlinBh) scalerA mulVf ?scale1r // gt_eqF.
have Nr : gresidual_norms dot sqrt inp S (u, v) y = (s / S * a, s * a).
  rewrite /gresidual_norms -/s /= Ah Bh -/(normalB y) -/(normalA y) -(norm2_eq Hsqrt Na).
  have Sz : S != 0 by rewrite gt_eqF.
  have sz : s != 0 by rewrite gt_eqF.
  have t0 : 0 <= s / S by rewrite divr_ge0 // ltW.
  rewrite -(norm2Z HH Hpd Hsqrt e t0) -(norm2Z HH Hpd Hsqrt e (ltW s0)) /e !scalerBr !scalerA; congr (_, _).
    rewrite scaleNr; congr (norm2 _ _ (_ *: _ - _ *: _)); first by field; rewrite Sz sz.
    by rewrite -SS; field.
  rewrite -(norm2N sqrt HH) opprD scaleNr opprK addrC; congr (norm2 _ _ (_ - _ *: _)).
  by rewrite -SS; field.
have b1 : 0 < sqrt (1 + b ^+ 2).
  by rewrite (sqrt_gt0 Hsqrt) // ltr_paddr ?ltr01 // exprn_ge0 //; case: Nb.
set vn := sqrt (1 + b ^+ 2) in b1 *.
have Ea : slepc_abs sqrt (s / S * a) (s * a) = a / S.
  apply: (sqrtE Hsqrt); first by rewrite divr_ge0.
  have -> : (s / S * a) ^+ 2 + (s * a) ^+ 2 = (a / S) ^+ 2 * ((S * s) ^+ 2 + s ^+ 2) by field; rewrite gt_eqF.
  by rewrite cs1 mulr1.
have Er t : compute_gerror dot sqrt inp nrma nrmb (Solved n sg p la x)
              (gvectors_cross dot sqrt re inp (Solved n sg p la x)) i t =
  Ok (match t with
      | Absolute => a / S
      | Relative => pmax (s / S * a / (S * s * vn)) (s * a / (s * vn))
      | Norm => a / S / (pmax nrma nrmb * vn)
      end).
  move: Nr; rewrite /compute_gerror T; move: (gresidual_norms dot sqrt inp) => rn Nr; rewrite /bind Nr Ea.
  by rewrite (norm2_eq Hsqrt Nb).
have pm (e1 e2 : F) : pmax (e1 / vn) (e2 / vn) = pmax e1 e2 / vn.
  by rewrite /pmax ltr_pmul2r ?invr_gt0 //; case: ifP.
split; rewrite Er //; congr Ok; rewrite -pm; congr (pmax _ _).
  by rewrite -SS; field; rewrite !gt_eqF.
by field; rewrite !gt_eqF.
Qed.
End Cross.

(** The pencil H(A) - sigma diag(I,B^*B), or H(B) - 1/sigma diag(I,A^*A) for the smallest values *)
Section Cyclic.
Definition smallest : bool := if which inp is Smallest then true else false.
Definition k1 : mat W := if smallest then opb inp else op inp.
Definition k2 : mat W := if smallest then op inp else opb inp.
Definition pencilA (x : W * W) : W * W := (mult k1 x.2, multh k1 x.1).
Definition pencilB (x : W * W) : W * W := (x.1, multh k2 (mult k2 x.2)).
Variable epsc : (W * W -> W * W) -> option (W * W -> W * W) -> nat * (nat -> F) * (nat -> W * W).
Variables (ncv : nat) (z : vectors W (W * W)).
Hypothesis Hsupp : explicitmatrix inp -> expltrans inp.
(** Real eigenvalues; vectors of norm one in the inner product of the pencil *)
Hypothesis Heps : forall c d, self_adjoint (dotp dot) c -> self_adjoint (dotp dot) d ->
  let '(n, la, x) := epsc c (Some d) in
  forall k, (k < n)%N -> la k \is Num.real /\ dotp dot (d (x k)) (x k) = 1.

Lemma gvectors_place n i j la x (y : vectors W (W * W)) : let Q k := ~~ (re (la k) < 0) in
  colU (gvectors_loop sqrt re inp n i j la x y) =
    place Q (fun k => if smallest then (mult (op inp) (sqrt 2%:R *: (x k).2), sqrt 2%:R *: (x k).1)
                      else (sqrt 2%:R *: (x k).1, mult (opb inp) (sqrt 2%:R *: (x k).2))) n i j (colU y) /\
  colV (gvectors_loop sqrt re inp n i j la x y) =
    place Q (fun k => (1 / sqrt (1 + re (la k) * re (la k))) *: (sqrt 2%:R *: (x k).2)) n i j (colV y).
Proof.
move=> Q; have [E1 _] := is_gen; elim: n i j y => [|n IH] i j y //=.
rewrite /Q; case: ifP => H /=; first exact: IH.
have [-> ->] := IH i.+1 j.+1 (Vectors (upd (colU y) j
  match which inp with
  | Largest => (sqrt 2%:R *: (x i).1, mult (mB inp) (sqrt 2%:R *: (x i).2))
  | Smallest => (mult (mA inp) (sqrt 2%:R *: (x i).2), sqrt 2%:R *: (x i).1)
  end) (upd (colV y) j ((1 / sqrt (1 + re (la i) * re (la i))) *: (sqrt 2%:R *: (x i).2))) (sign y)).
by rewrite /= /smallest /mA /mB E1; case: (which inp).
Qed.

Theorem C52_gsvd_cyclic : exists r n la x q,
  [/\ solve_cyclic re inp sort_perm ncv epsc = Ok (r, n),
      (exists2 n', epsc pencilA (Some pencilB) = (n', la, x) & n = minn n' ncv) /\
      nconv r = count (fun k => 0 < la k) (iota 0 n),
      (forall i, (i < nconv r)%N -> [/\ (q i < n)%N, 0 < la (q i) &
         get_value r i = Ok (if which inp is Smallest then 1 / la (q i) else la (q i))]),
      (forall i j, (i < nconv r)%N -> (j < nconv r)%N -> q i = q j -> i = j) /\
      (forall i j, (i <= j < nconv r)%N -> la (q j) <= la (q i)) &
      (forall k l, (k < l < n)%N -> la k = 0 -> ~~ (0 < la l)) ->
      (forall k, (k < n)%N -> pencilA (x k) = la k *: pencilB (x k)) ->
      let vec := gvectors_cyclic sqrt re inp r n z in
      forall i, (i < nconv r)%N -> exists sg u v y c s,
      [/\ get_gtriplet r vec i = Ok (sg, (u, v), y),
          [/\ 0 <= c, 0 < s, c ^+ 2 + s ^+ 2 = 1 & sg = c / s],
          [/\ mult (op inp) y = c *: u, mult (opb inp) y = s *: v, dot u u = 1 & dot v v = 1],
          s ^+ 2 *: multh (op inp) u = c *: multh (opb inp) (mult (opb inp) y) &
          forall t, compute_gerror dot sqrt inp nrma nrmb r vec i t = Ok 0]].
Proof.
have [E1 E2] := is_gen.
have lin1 : linop (mult k1) by rewrite /k1; case: smallest.
have lin1h : linop (multh k1) by rewrite /k1; case: smallest.
have lin2 : linop (mult k2) by rewrite /k2; case: smallest.
have lin2h : linop (multh k2) by rewrite /k2; case: smallest.
have adj1 : adjoint dot (mult k1) (multh k1) by rewrite /k1; case: smallest.
have adj2 : adjoint dot (mult k2) (multh k2) by rewrite /k2; case: smallest.
have Ec : cyclic_operators inp = Ok (pencilA, Some pencilB).
  rewrite /cyclic_operators /check E1 /pencilA /pencilB /k1 /k2 /smallest /mA /mAT /mB /mBT E1.
  by case: (explicitmatrix inp) Hsupp => [/(_ isT) ->|_]; case: (which inp).
have sA : self_adjoint (dotp dot) pencilA.
  by move=> x y; rewrite /dotp /pencilA /= adj1 (adjointC HH adj1) addrC.
have sB : self_adjoint (dotp dot) pencilB.
  by move=> x y; rewrite /dotp /pencilB /= (adjointC HH adj2) adj2.
have := Heps sA sB.
rewrite /solve_cyclic /check /sizes_ok E1 /= Hsize (negbTE HM) (negbTE HN) /= Ec /=.
case Ee: (epsc pencilA (Some pencilB)) => [[n0 la] x] R0.
rewrite cyclic_values_place add0n; set n := minn n0 ncv.
have Hn : (n <= n0)%N by exact: geq_minl.
have Hr k : (k < n)%N -> la k \is Num.real by move=> Hk; have [] := R0 k (leq_trans Hk Hn).
have H1 k : (k < n)%N -> dotp dot (pencilB (x k)) (x k) = 1 by move=> Hk; have [] := R0 k (leq_trans Hk Hn).
pose P k := 0 < re (la k); set sg := place _ _ _ _ _ _.
have Er k : (k < n)%N -> re (la k) = la k by move=> Hk; rewrite Hre ?Hr.
have Cn : count P (iota 0 n) = count (fun k => 0 < la k) (iota 0 n).
  by apply: eq_in_count => k; rewrite mem_iota add0n => /andP [_ Hk]; rewrite /P Er.
set m := count _ _.
have Hm : m = count P (iota 0 n) by [].
pose t k := nth 0%N (filter P (iota 0 n)) k.
have T1 k : (k < m)%N -> (t k < n)%N /\ 0 < la (t k).
  by move=> Hk; have [Hx] := filter_iota_nth Hk; rewrite -/(t k) /P Er.
have T2 k l : (k < m)%N -> (l < m)%N -> t k = t l -> k = l by exact: filter_iota_inj.
have Sg k : (k < m)%N -> sg k = if smallest then 1 / la (t k) else la (t k).
  move=> Hk; rewrite /sg placeE leq0n add0n -/P -/m Hk E1 /= subn0 -/(t k) Er //.
  by have [] := T1 k Hk.
have [|[P1 P2] P3] := @sorted_perm_ok _ _ inp sort_perm Hsort m sg.
  move=> k Hk; have [Hk1 Hk2] := T1 k Hk; rewrite Sg //; case: ifP => _; last exact: Hr.
  by rewrite mul1r rpredV Hr.
pose p := sorted_perm inp sort_perm m sg; pose q i := t (p i).
exists (Solved m sg p la x), n, la, x, q; split; [by []|by split=> //; exists n0| | |].
- move=> i Hi; have [Hq1 Hq2] := T1 _ (P1 i Hi); split=> //.
  by rewrite /get_value /check /= Hi -/p Sg ?P1 // /smallest; case: (which inp).
- split=> [i j Hi Hj /(T2 _ _ (P1 i Hi) (P1 j Hj))|i j Hij]; first exact: P2.
  have Hi : (i < m)%N by case/andP: Hij; exact: leq_ltn_trans.
  have Hj : (j < m)%N by case/andP: Hij.
  have [_ Li] := T1 _ (P1 i Hi); have [_ Lj] := T1 _ (P1 j Hj).
  have := P3 i j Hij; rewrite -/p !Sg ?P1 // /smallest; case: (which inp) => //.
  by rewrite !mul1r lef_pinv.
move=> Hz Hex; set r := Solved _ _ _ _ _; set vec := gvectors_cyclic _ _ _ _ _ _ => i Hi.
pose s2 := sqrt 2%:R : F; have s20 : 0 < s2 by exact: (sqrt2_gt0 Hsqrt).
have s22 : s2 ^+ 2 = 2%:R by rewrite (sqr_sqrt Hsqrt) ?ler0n.
have Tq k : (k < m)%N -> t k = nth 0%N (filter (fun k => ~~ (re (la k) < 0)) (iota 0 n)) k.
  move=> Hk; apply: filter_prefix; rewrite ?size_filter //.
    by move=> a Ha; rewrite /P => Hp; rewrite (lt_gtF Hp).
  move=> a b /andP [_ Hab] Hb; rewrite add0n in Hb; rewrite /P !Er // ?(ltn_trans Hab Hb) // => Hx1 Hx2.
  apply: (Hz a); rewrite ?Hab //; apply/eqP.
  by have := Hr a (ltn_trans Hab Hb); rewrite realE !le_eqVlt (negbTE Hx1) (negbTE Hx2) !orbF eq_sym orbb.
have Mq : (m <= count (fun k => ~~ (re (la k) < 0)%R) (iota 0 n))%N.
  by apply: sub_count => k; rewrite /P /= => Hp; rewrite (lt_gtF Hp).
have [Hq Lq] := T1 _ (P1 i Hi); rewrite -/p -/(q i) in Hq Lq.
pose a := la (q i); pose X := x (q i); pose d := 1 / sqrt (1 + a * a).
have [X1 X2] : mult k1 X.2 = a *: X.1 /\ multh k1 X.1 = a *: multh k2 (mult k2 X.2).
  by have := Hex _ Hq; rewrite /pencilA /pencilB -/X -/a => -[].
pose w := s2 *: X.2; pose kk := s2 *: X.1; pose ll := mult k2 w; pose y := d *: w.
have [d0 d1 d2] := cosine (ltW Lq); rewrite -/a -/d in d0 d1 d2.
have ra := cR (gtr0_real Lq).
have ky : mult k1 y = (a * d) *: kk.
  by rewrite /y /w /kk !(linopZ _ _ lin1) X1 !scalerA; congr (_ *: _); ring.
have ly : mult k2 y = d *: ll by rewrite /y (linopZ _ _ lin2).
have kh : d *: multh k1 kk = a *: multh k2 (mult k2 y).
  rewrite /kk /y /w (linopZ _ _ lin1h) X2 !(linopZ _ _ lin2) !(linopZ _ _ lin2h) !scalerA.
  by congr (_ *: _); ring.
have nn : dot X.1 X.1 = dot (mult k2 X.2) (mult k2 X.2).
  apply: (mulfI (x := a)); first by rewrite gt_eqF.
  by rewrite -(dotZl dL) -X1 adj1 X2 (dotZr dL dC) ra -adj2.
have n1 : dot X.1 X.1 + dot (mult k2 X.2) (mult k2 X.2) = 1.
  by rewrite -(H1 _ Hq) /dotp /pencilB -/X /= (adjointC HH adj2).
have un b : b + b = 1 -> s2 * conj s2 * b = 1.
  by rewrite cR ?gtr0_real // -expr2 s22 mulr_natl mulr2n.
have ku : dot kk kk = 1 by rewrite /kk (dotZZ HH) un // {2}nn.
have lu : dot ll ll = 1 by rewrite /ll /w (linopZ _ _ lin2) (dotZZ HH) un // -{1}nn.
pose S := if smallest then 1 / a else a; pose c := if smallest then d else a * d; pose s := if smallest then a * d else d.
pose u := if smallest then ll else kk; pose v := if smallest then kk else ll.
have a0 : 0 < a := Lq.
have az : a != 0 by rewrite gt_eqF.
have dz : d != 0 by rewrite gt_eqF.
have s0 : 0 < s by rewrite /s; case: smallest => //; exact: mulr_gt0.
have c0 : 0 < c by rewrite /c; case: smallest => //; exact: mulr_gt0.
have cs1 : c ^+ 2 + s ^+ 2 = 1 by rewrite /c /s; case: smallest; rewrite // addrC.
have Sc : S = c / s by rewrite /S /c /s; case: smallest; field; rewrite ?az ?dz.
have Sp : 0 <= S by rewrite Sc divr_ge0 ?ltW.
have Au : mult (op inp) y = c *: u by move: ky ly; rewrite /k1 /k2 /c /u; case: smallest.
have Bv : mult (opb inp) y = s *: v by move: ky ly; rewrite /k1 /k2 /s /v; case: smallest.
have Rel : s ^+ 2 *: multh (op inp) u = c *: multh (opb inp) (mult (opb inp) y).
  move: ky ly kh lin1h lin2h; rewrite /k1 /k2 /c /s /u /v /k1 /k2; case: smallest => ky ly kh l1 l2.
    rewrite ky (linopZ _ _ l1) scalerA [d * (a * d)]mulrA -scalerA kh ly (linopZ _ _ l2) !scalerA.
    by congr (_ *: _); ring.
  by rewrite expr2 -scalerA kh !scalerA [d * a]mulrC.
have T : get_gtriplet r vec i = Ok (S, (u, v), y).
  have [EU EV] := gvectors_place n 0 0 la x z.
  have Mp : (p i < count (fun k => ~~ (re (la k) < 0)%R) (iota 0 n))%N by exact: leq_trans (P1 i Hi) Mq.
  rewrite /get_gtriplet /check /vec /gvectors_cyclic /= Hi EU EV !placeE leq0n add0n Mp /= subn0 -Tq ?P1 //.
  rewrite Sg ?P1 // -/(q i) Er // -/a -/X -/d -/s2 -/w -/kk -/y.
  by rewrite /S /u /v /ll /k2; case: smallest.
exists S, u, v, y, c, s; split=> //.
- by rewrite ltW.
- by split=> //; rewrite /u /v; case: smallest.
move=> e.
have sE : 1 / sqrt (1 + S * S) = s.
  have -> : sqrt (1 + S * S) = s^-1.
    apply: (sqrtE Hsqrt); first by rewrite invr_ge0 ltW.
    have sz : s != 0 by rewrite gt_eqF.
    have -> : s^-1 ^+ 2 = (c ^+ 2 + s ^+ 2) / s ^+ 2 by rewrite cs1 mul1r exprVn.
    by rewrite Sc; field.
  by rewrite mul1r invrK.
have Nr : gresidual_norms dot sqrt inp S (u, v) y = (0, 0).
  have cE : S * s = c by rewrite Sc divfK // gt_eqF.
  rewrite /gresidual_norms sE cE /= -expr2 Rel scaleNr subrr (norm20 HH Hsqrt); congr (_, _).
  have -> : (c * c) *: multh (opb inp) v = s *: multh (op inp) (mult (op inp) y).
    have Bl := linopZ _ _ HlinBh; have Al := linopZ _ _ HlinAh.
    rewrite Au Al scalerA.
    have H3 : s *: multh (op inp) u = c *: multh (opb inp) v.
      have : s *: (s *: multh (op inp) u - c *: multh (opb inp) v) = 0.
        rewrite scalerBr !scalerA -expr2 Rel Bv Bl scalerA [c * s]mulrC subrr //.
      by move/eqP; rewrite scaler_eq0 gt_eqF //= subr_eq0 => /eqP.
    by rewrite [s * c]mulrC -!scalerA H3.
  by rewrite scaleNr subrr (norm20 HH Hsqrt).
move: Nr; rewrite /compute_gerror T; move: (gresidual_norms dot sqrt inp) => rn Nr; rewrite /bind Nr.
have -> : slepc_abs sqrt 0 0 = 0 by rewrite /slepc_abs !expr0n addr0 (sqrt0 Hsqrt).
by case: e; rewrite ?mul0r // /pmax ltxx.
Qed.
End Cyclic.
End Props.
Print Assumptions C52_gsvd_cross.
Print Assumptions C52_gsvd_cyclic.
