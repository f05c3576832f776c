(** Krylov-Schur: concrete cases of C47-C49.  LAPACK for matrices of order two over the algebraic numbers. *)
From mathcomp Require Import all_ssreflect all_algebra.
From mathcomp Require Import algC zify ring.
From Verif Require Import Prelude GSModel GSSpec GSProofs GSProps KrylovModel KrylovSpec KrylovProofs KrylovProps KrylovCases.
From Verif Require Import KSModel KSSpec KSProofs KSLoop KSProps.
Set Implicit Arguments. Unset Strict Implicit. Unset Printing Implicit Defensive.
Import GRing.Theory Num.Theory Order.TTheory.
Local Open Scope ring_scope.

Notation C := [numFieldType of algC].
Notation mat := (matrix C).

Lemma sum2 (f : nat -> algC) : \sum_(0 <= p < 2) f p = f 0%N + f 1%N.
Proof. by rewrite big_nat_recr //= big_nat1. Qed.

(** An eigenvalue and a unit eigenvector of a matrix of order two. *)
Definition disc (B : mat) : algC := (B 0%N 0%N - B 1%N 1%N) ^+ 2 + (B 0%N 1%N * B 1%N 0%N) *+ 4.
Definition lam (B : mat) : algC := (B 0%N 0%N + B 1%N 1%N + sqrtC (disc B)) / 2%:R.
Definition wvec (B : mat) (a : algC) : algC * algC :=
  if (B 0%N 1%N, a - B 0%N 0%N) != (0, 0) then (B 0%N 1%N, a - B 0%N 0%N)
  else if (a - B 1%N 1%N, B 1%N 0%N) != (0, 0) then (a - B 1%N 1%N, B 1%N 0%N) else (1, 0).
Definition nvec (w : algC * algC) : algC * algC :=
  let s := sqrtC (w.1 * w.1^* + w.2 * w.2^*) in (w.1 / s, w.2 / s).
Definition qmat (w : algC * algC) : mat := fun i j =>
  match i, j with O, O => w.1 | S O, O => w.2 | O, S O => - w.2^* | S O, S O => w.1^* | _, _ => 0 end.
Definition tmat (B : mat) (a : algC) (w : algC * algC) (low : algC) : mat := fun i j =>
  let r0 := - B 0%N 0%N * w.2^* + B 0%N 1%N * w.1^* in
  let r1 := - B 1%N 0%N * w.2^* + B 1%N 1%N * w.1^* in
  match i, j with O, O => a | S O, O => low | O, S O => w.1^* * r0 + w.2^* * r1
                | S O, S O => - w.2 * r0 + w.1 * r1 | _, _ => 0 end.

Definition char_root (B : mat) (a : algC) : Prop := (a - B 0%N 0%N) * (a - B 1%N 1%N) = B 0%N 1%N * B 1%N 0%N.
Lemma lam_root B : char_root B (lam B).
Proof.
rewrite /char_root /lam; have := sqrtCK (disc B); set s := sqrtC _; rewrite /disc => E.
have H2 : 2%:R != 0 :> algC by rewrite pnatr_eq0.
have E4 : (B 0%N 1%N * B 1%N 0%N) *+ 4 = s ^+ 2 - (B 0%N 0%N - B 1%N 1%N) ^+ 2 by rewrite E addrC addKr.
have H4 : 4%:R != 0 :> algC by rewrite pnatr_eq0.
by apply: (mulIf H4); rewrite [RHS]mulr_natr E4; field.
Qed.

Lemma wvec_eigen B a : char_root B a -> let w := wvec B a in
  [/\ w != (0, 0), B 0%N 0%N * w.1 + B 0%N 1%N * w.2 = a * w.1 & B 1%N 0%N * w.1 + B 1%N 1%N * w.2 = a * w.2].
Proof.
rewrite /char_root /wvec => H; case: ifP => [H1|/negbFE /eqP [E1 E2]].
  split=> //=; first by ring.
  by rewrite [B 1%N 0%N * _]mulrC -H; ring.
case: ifP => [H1|/negbFE /eqP [E3 E4]].
  by split=> //=; [rewrite -H; ring|ring].
split=> /=; first by rewrite xpair_eqE oner_eq0.
  by rewrite mulr0 addr0 -[in RHS](subrK (B 0%N 0%N) a) E2 add0r.
by rewrite !mulr0 !addr0 mulr1 E4.
Qed.

Lemma nvec_unit w : w != (0, 0) -> (nvec w).1 * (nvec w).1^* + (nvec w).2 * (nvec w).2^* = 1.
Proof.
case: w => x y Hw; rewrite /nvec /=; set q := x * x^* + y * y^*.
have Hq : 0 < q.
  rewrite /q -!normCK lt_def addr_ge0 ?exprn_ge0 // andbT paddr_eq0 ?exprn_ge0 // !sqrf_eq0 !normr_eq0.
  by move: Hw; rewrite xpair_eqE.
have Hs : sqrtC q != 0 by rewrite sqrtC_eq0 gt_eqF.
have Es : (sqrtC q)^* = sqrtC q by apply: conj_Creal; rewrite ger0_real // sqrtC_ge0 ltW.
rewrite !rmorphM !fmorphV /= Es.
have -> : x / sqrtC q * (x^* / sqrtC q) + y / sqrtC q * (y^* / sqrtC q) = q / (sqrtC q) ^+ 2 by rewrite /q; field.
by rewrite sqrtCK divff // gt_eqF.
Qed.

Section Two.
Variables (B : mat) (a : algC) (x y : algC).
Hypothesis Hunit : x * x^* + y * y^* = 1.
Hypothesis H0 : B 0%N 0%N * x + B 0%N 1%N * y = a * x.
Hypothesis H1 : B 1%N 0%N * x + B 1%N 1%N * y = a * y.

Lemma qmat_unitary : unitary conj2 2 (qmat (x, y)).
Proof.
move=> [|[|//]] [|[|//]] _ _; rewrite sum2 /= /conj2 -?[conjC _]/(_^*) ?rmorphN /= ?conjCK.
- exact: Hunit.
- by rewrite mulrN [y * x]mulrC addNr.
- by rewrite mulNr [x^* * _]mulrC addNr.
- by rewrite mulrNN [x^* * _]mulrC [y^* * _]mulrC addrC.
Qed.
Lemma qmat_similar low : same 2 (prod 2 B (qmat (x, y))) (prod 2 (qmat (x, y)) (upper (tmat B a (x, y) low))).
Proof.
move=> [|[|//]] [|[|//]] _ _; rewrite /prod !sum2 /upper /=.
- by rewrite mulr0 addr0 H0 mulrC.
- set r0 := - _ * _ + _; set r1 := - _ * _ + _.
  have -> : x * (x^* * r0 + y^* * r1) + - y^* * (- y * r0 + x * r1) = (x * x^* + y * y^*) * r0 by ring.
  by rewrite Hunit mul1r /r0 mulrN mulNr.
- by rewrite mulr0 addr0 H1 mulrC.
- set r0 := - _ * _ + _; set r1 := - _ * _ + _.
  have -> : y * (x^* * r0 + y^* * r1) + x^* * (- y * r0 + x * r1) = (x * x^* + y * y^*) * r1 by ring.
  by rewrite Hunit mul1r /r1 mulrN mulNr.
Qed.
Lemma tmat_trace low : tmat B a (x, y) low 1%N 1%N = B 0%N 0%N + B 1%N 1%N - a.
Proof.
rewrite /tmat /=.
have -> : - y * (- B 0%N 0%N * y^* + B 0%N 1%N * x^*) + x * (- B 1%N 0%N * y^* + B 1%N 1%N * x^*) =
    (B 0%N 0%N + B 1%N 1%N) * (x * x^* + y * y^*) - x^* * (B 0%N 0%N * x + B 0%N 1%N * y) -
    y^* * (B 1%N 0%N * x + B 1%N 1%N * y) by ring.
rewrite H0 H1 Hunit mulr1.
have -> : B 0%N 0%N + B 1%N 1%N - x^* * (a * x) - y^* * (a * y) =
   B 0%N 0%N + B 1%N 1%N - a * (x * x^* + y * y^*) by ring.
by rewrite Hunit mulr1.
Qed.
End Two.

Definition eigvec (B : mat) (a : algC) : algC * algC := nvec (wvec B a).
Lemma eigvec_ok B a : char_root B a -> let w := eigvec B a in
  [/\ w.1 * w.1^* + w.2 * w.2^* = 1, B 0%N 0%N * w.1 + B 0%N 1%N * w.2 = a * w.1 &
      B 1%N 0%N * w.1 + B 1%N 1%N * w.2 = a * w.2].
Proof.
move=> /wvec_eigen [W1 W2 W3] /=; split; first exact: nvec_unit.
  by rewrite /eigvec /nvec /= !mulrA -mulrDl W2.
by rewrite /eigvec /nvec /= !mulrA -mulrDl W3.
Qed.

(** Schur decomposition, exchange, eigenvectors. *)
Definition schur2 (hess : bool) (l n : nat) (A : mat) : mat * mat :=
  if (l == 0%N) && (n == 2%N) then let w := eigvec A (lam A) in (qmat w, tmat A (lam A) w 0) else (@ident C, A).
Definition trexc2 (n pos i : nat) (QT : mat * mat) : mat * mat :=
  let B := upper QT.2 in let w := eigvec B (B 1%N 1%N) in
  (prod 2 QT.1 (qmat w), tmat B (B 1%N 1%N) w (QT.2 1%N 0%N)).
Fixpoint backsub (m k : nat) (T : mat) : nat -> algC :=
  match m with
  | 0 => fun i => (i == k)%:R
  | m'.+1 => let y := backsub m' k T in
      fun i => if i == (k - m'.+1)%N then (\sum_(i.+1 <= p < k.+1) T i p * y p) / (T k k - T i i) else y i
  end.
Definition trevc2 (k : nat) (T : mat) : nat -> algC := backsub k k T.

Lemma ident_form A l n : n = l.+1 -> schur_form conj2 l n A (@ident C) A.
Proof.
move=> ->; split=> //.
- move=> i j Hi Hj; rewrite /ident.
  transitivity (\sum_(0 <= p < l.+1) (p == i)%:R * ((p == j)%:R : algC)); last exact: sum_deltal.
  by apply: eq_bigr => p _; rewrite /conj2 -[conjC _]/(_^*) rmorph_nat.
- move=> i j Hi Hj; rewrite /prod /ident sum_deltar //.
  transitivity (upper A i j); last first.
    by rewrite -[LHS](sum_deltal (fun p => upper A p j) Hi); apply: eq_bigr => p _; rewrite eq_sym.
  rewrite /front /upper; case: (leqP i j) => Hij; first by rewrite andbF.
  by rewrite andbT ifT //; lia.
- by move=> i j Hj Hi; lia.
Qed.

Lemma schur2_contract : schur_contract conj2 2 schur2.
Proof.
move=> h l n A Hl Hn _; rewrite /schur2; case: ifP => [/andP [/eqP -> /eqP ->]|Hc]; last first.
  by apply: ident_form; lia.
have [] := eigvec_ok (lam_root A); case: (eigvec A (lam A)) => x y /= W1 W2 W3; split.
- exact: qmat_unitary.
- by move=> i j _ _; rewrite ltn0.
- move=> i j Hi Hj; rewrite -(qmat_similar W1 W2 W3) //.
- by case=> [|[|i]] [|j].
- by [].
Qed.

Lemma trexc2_contract : trexc_contract conj2 2 trexc2.
Proof.
move=> n pos i [Q T] Hi Hn; have [-> [-> ->]] : n = 2%N /\ pos = 1%N /\ i = 0%N by lia.
have Hr : char_root (upper T) (upper T 1%N 1%N) by rewrite /char_root subrr mulr0 /upper /= mulr0.
have [] := eigvec_ok Hr; rewrite /trexc2 [(Q, T).2]/= [(Q, T).1]/=; set w := eigvec _ _ => W1 W2 W3.
exists (qmat w); case: w W1 W2 W3 => x y W1 W2 W3; split=> //.
- exact: qmat_unitary.
- exact: qmat_similar.
- by case=> [|[|p]] [|q] //; rewrite andbF.
Qed.
Lemma trexc2_moves : trexc_moves 2 trexc2.
Proof.
move=> n pos i [Q T] Hi Hn; have [-> [-> ->]] : n = 2%N /\ pos = 1%N /\ i = 0%N by lia.
have Hr : char_root (upper T) (upper T 1%N 1%N) by rewrite /char_root subrr mulr0 /upper /= mulr0.
have [] := eigvec_ok Hr; rewrite /trexc2 [(Q, T).2]/= [(Q, T).1]/=; set w := eigvec _ _ => W1 W2 W3.
case: w W1 W2 W3 => x y W1 W2 W3 [|[|//]] _; first by rewrite /upper.
by rewrite [(_, _).2]/= (tmat_trace W1 W2 W3) /upper /= addrK.
Qed.

Lemma backsub_high m k T i : (k < i)%N -> backsub m k T i = 0.
Proof.
elim: m => [|m IH] Hi /=; first by rewrite gtn_eqF.
by rewrite gtn_eqF ?IH //; lia.
Qed.
Lemma backsub_keep m k T i : (m < k)%N -> (k - m <= i)%N -> backsub m.+1 k T i = backsub m k T i.
Proof. by move=> Hm Hi /=; rewrite gtn_eqF //; lia. Qed.
Lemma backsub_last m k T : (m <= k)%N -> backsub m k T k = 1.
Proof.
elim: m => [|m IH] Hm /=; first by rewrite eqxx.
by rewrite gtn_eqF ?IH //; lia.
Qed.
Lemma backsub_eq m k T : (m <= k)%N -> (forall j, (j < k)%N -> T j j != T k k) -> forall i, (k - m <= i < k)%N ->
  \sum_(i.+1 <= p < k.+1) T i p * backsub m k T p = (T k k - T i i) * backsub m k T i.
Proof.
move=> Hm Hd; elim: m Hm => [|m IH] Hm i Hi; first by lia.
have E : \sum_(i.+1 <= p < k.+1) T i p * backsub m.+1 k T p = \sum_(i.+1 <= p < k.+1) T i p * backsub m k T p.
  rewrite big_nat_cond [RHS]big_nat_cond; apply: eq_bigr => p /andP [/andP [Hp _] _].
  by rewrite backsub_keep //; lia.
rewrite E; case: (eqVneq i (k - m.+1)%N) => [Ei|Hne].
  rewrite [backsub m.+1 _ _ _]/= Ei eqxx mulrC divfK // subr_eq0 eq_sym Hd //; lia.
by rewrite IH ?backsub_keep //; lia.
Qed.
Lemma backsub_ext m k T T' : (m <= k)%N -> (forall p q, (p <= q <= k)%N -> T p q = T' p q) ->
  backsub m k T =1 backsub m k T'.
Proof.
move=> Hm H; elim: m Hm => [|m IH] Hm i //=; rewrite IH; last by lia.
case: ifP => [/eqP Ei|//]; rewrite !H; [|lia|lia]; congr (_ / _).
rewrite big_nat_cond [RHS]big_nat_cond; apply: eq_bigr => p /andP [/andP [Hp1 Hp2] _].
by rewrite IH ?H //; lia.
Qed.
Lemma trevc2_contract : trevc_contract trevc2.
Proof.
split.
- by move=> k T; rewrite /trevc2 backsub_last // oner_eq0.
- by move=> k T i Hi; exact: backsub_high.
- move=> k T i Hd Hi; have Hs : \sum_(0 <= j < k.+1) upper T i j * trevc2 k T j = \sum_(i <= j < k.+1) T i j * trevc2 k T j.
    rewrite (@sum_head C [lmodType C of C^o] i) /=; [|lia|by move=> j Hj; rewrite /upper leqNgt Hj /= mul0r].
    by rewrite big_nat_cond [RHS]big_nat_cond; apply: eq_bigr => j /andP [/andP [Hj _] _]; rewrite /upper Hj.
  rewrite Hs big_ltn ?ltnS //; case: (ltnP i k) => Hik; last first.
    have -> : i = k by lia.
    by rewrite big_geq // addr0.
  rewrite /trevc2 backsub_eq //; last by lia.
  by rewrite mulrBl addrC subrK.
- by move=> k T T' i H; exact: backsub_ext.
Qed.

(** * Concrete cases *)
Definition cfg3 (m : bool) (r : refinement) : config C := Config 0 3 false m r (2%:R^-1) 1.
Definition ks2 (nv : nat) (lk : bool) : kscfg := KSCfg nv 2 2 7 lk (fun m => m./2) false.
Definition kc2 : kconfig C := KConfig true false true false false false false (2%:R^-1).
Definition by_size (a b : algC) : bool := `|a| < `|b|.
Definition ds0 : ds C := DS (fun _ _ => 0) (@ident C) 0 0 0 0 Raw.
(** (x,y) |-> (x+2y, 3y) *)
Definition shear (x : plane) : plane := pt (x.1 + 2%:R * x.2) (3%:R * x.2).
Lemma shear_linear (a : algC) (x y : plane) : shear (a *: x + y) = a *: shear x + shear y.
Proof. by rewrite /shear /pt /=; congr (_, _); rewrite /= /GRing.scale /=; ring. Qed.

Example ex_C47 nv lk m r (random : nat -> plane) : (0 < nv <= 2)%N ->
  exists2 o, solve dot2 conj2 sqrt2 shear 2 (cfg3 m r) schur2 trexc2 trevc2 by_size (ks2 nv lk) kc2 id (fun _ => true)
    (fun _ x => x) (pt 1 1) random k0 ds0 (fun _ => 0) (fun _ => 0) = Ok o &
    (0 < nconv o)%N -> exists2 o', compute_vectors sqrt2 (cfg3 m r) trevc2 o = Ok o' &
      dot2 (col (basis o') 0%N) (col (basis o') 0%N) = 1 /\
      exists rho, is_norm dot2 (shear (col (basis o') 0%N) - eigr o 0%N *: col (basis o') 0%N) rho /\ rho < 2%:R^-1.
Proof.
move=> Hnv.
have He : 0 < eta (cfg3 m r) <= 1 by rewrite /= invr_gt0 ltr0n /= invf_le1 ?ltr0n // ler1n.
have Hc (b : algC) : b * conj2 b = `|b| ^+ 2 by rewrite normCK.
have Hk : forall p, (1 < p)%N -> (keep (ks2 nv lk) p < p)%N by move=> p /=; lia.
have Hn : (0 < nev (ks2 nv lk))%N /\
    ((nev (ks2 nv lk) < ncv (ks2 nv lk))%N \/ (nev (ks2 nv lk) <= ncv (ks2 nv lk))%N /\ ncv (ks2 nv lk) = 2%N).
  by split=> /=; [|right; split=> //]; lia.
have Hz (w : C * C) : ~~ (tol kc2 <= 0) by rewrite /= invr_le0 lern0.
have Ho : orthonormal dot2 (col k0) (nc (cfg3 m r)) by move=> i j; rewrite ltn0.
have Hs : ~ in_span (col k0) (nc (cfg3 m r)) (if inrange (ks2 nv lk) then shear (pt 1 1) else pt 1 1).
  by move=> [c]; rewrite /comb big_geq // => /(congr1 fst) /eqP; rewrite /= oner_eq0.
have [o Eo [_ _ [_ Hcon] Hest Hx]] := @C47_krylovschur _ _ _ _ _ dot2_hermitian sqrt2_root dot2_positive Hc shear 2 shear_linear
  plane_dimension (cfg3 m r) He ltr01 erefl schur2 trexc2 trevc2 by_size (ks2 nv lk) kc2 id (fun _ => true)
  (fun _ x => x) (pt 1 1) random schur2_contract trexc2_contract trevc2_contract erefl Hk
  (And4 erefl erefl erefl erefl) (leqnn 2) Hn Hz k0 ds0 (fun _ => 0) (fun _ => 0) Ho Hs (fun _ _ _ _ => erefl).
exists o => // Hp; have [o' Eo' [_ Ho']] := Hx Hp; exists o' => //.
have [Hu [lo [rho [Hlo _ Ee Hr]]]] := Ho' 0%N Hp; split=> //.
have [//|a [R [HR E]]] := Hr; exists rho; split.
  have Elo : lo = 0%N by lia.
  move: E; rewrite Elo big_geq // add0r /deflated big_geq // subr0 => E.
  by rewrite -E in HR.
have Hrho : errest o 0%N = rho := Ee.
rewrite -Hrho real_ltNge ?Hest // ?rpredV ?realn // Hrho.
by case: HR => H _; exact: ger0_real.
Qed.

(** A decomposition of order three truncated to two. *)
Example ex_C48 (a b c : algC) : exists2 d', truncate 2 false (DS (fun i j => if i == 3%N then [:: a; b; c]`_j else (i <= j)%:R) (@ident C) 3 1 3 3 Condensed) = Ok d' &
  [/\ dA d' 2%N 1%N = b, dA d' 2%N 0%N = 0, dA d' 3%N 0%N = a & dA d' 1%N 1%N = 1].
Proof. by eexists; first by []. Qed.

Lemma by_size_asym a b : by_size a b -> ~~ by_size b a.
Proof. by rewrite /by_size => H; rewrite lt_gtF. Qed.
Lemma by_size_trans a b c : ~~ by_size a b -> ~~ by_size b c -> ~~ by_size a c.
Proof. by rewrite /by_size -!real_leNgt ?normr_real // => H1 H2; exact: le_trans H2 H1. Qed.
(** The larger value comes first. *)
Example ex_C49 : let d := DS (fun i j => if i == j then [:: 1; - 3%:R]`_i else 5%:R) (@ident C) 2 0 0 2 Condensed in
  let (d', w') := ds_sort trexc2 by_size d (fun i => dA d i i) in w' 0%N = - 3%:R /\ w' 1%N = 1.
Proof.
move=> d; have := @C49_sort C by_size by_size_asym by_size_trans 2 trexc2 trexc2_moves d (fun i => dA d i i) erefl (fun _ _ => erefl).
case: (ds_sort _ _ _ _) => d' w' [S1 S2 S3 S4].
have H13 : 1 != - 3%:R :> algC by rewrite -subr_eq0 opprK -(natrD _ 1 3) pnatr_eq0.
have Cn (x : algC) : ((w' 0%N == x) + (w' 1%N == x) = (1%R == x) + ((- 3%:R)%R == x))%N.
  by have := S2 x; rewrite [dl _]/= [dn _]/= !big_nat_recr //= !big_geq.
have Hs := S1 0%N 1%N erefl erefl.
have H31 : (- 3%:R == 1 :> algC) = false by rewrite eq_sym (negbTE H13).
have C1 := Cn 1; have C3 := Cn (- 3%:R); rewrite eqxx H31 in C1; rewrite eqxx (negbTE H13) in C3.
case: (eqVneq (w' 0%N) (- 3%:R)) => [E0|N0].
  by move: C1; rewrite E0 H31; case: eqP.
move: C3; rewrite (negbTE N0); case: eqP => // E1 _; move: C1; rewrite E1 H31; case: eqP => // E0 _.
by move: Hs; rewrite E0 E1 /by_size normrN normr1 normr_nat ltr1n.
Qed.
