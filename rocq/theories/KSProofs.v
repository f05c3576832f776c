(** Lemmas on the model of Krylov-Schur: dense matrices, DSSolve and DSSort. *)
From mathcomp Require Import all_ssreflect all_algebra.
From mathcomp Require Import zify.
From Verif Require Import Prelude GSModel GSSpec GSProofs GSProps KrylovModel KrylovSpec KSModel KSSpec.
Set Implicit Arguments. Unset Strict Implicit. Unset Printing Implicit Defensive.
Import GRing.Theory Num.Theory Order.TTheory.
Local Open Scope ring_scope.

(** * Sums *)
Section Sums.
Variables (F : numFieldType) (V : lmodType F).
Lemma sum_delta n i (f : nat -> V) : (i < n)%N -> \sum_(0 <= p < n) (p == i)%:R *: f p = f i.
Proof.
move=> Hi; rewrite (bigD1_seq i) ?iota_uniq ?mem_index_iota //= eqxx scale1r big1 ?addr0 // => p /negbTE ->.
by rewrite scale0r.
Qed.
Lemma sum_deltal n i (f : nat -> F) : (i < n)%N -> \sum_(0 <= p < n) (p == i)%:R * f p = f i.
Proof.
move=> Hi; rewrite (bigD1_seq i) ?iota_uniq ?mem_index_iota //= eqxx mul1r big1 ?addr0 // => p /negbTE ->.
by rewrite mul0r.
Qed.
Lemma sum_deltar n i (f : nat -> F) : (i < n)%N -> \sum_(0 <= p < n) f p * (p == i)%:R = f i.
Proof. by move=> Hi; rewrite -(sum_deltal f Hi); apply: eq_bigr => p _; rewrite mulrC. Qed.
Lemma sum0 m n (f : nat -> V) : (forall i, (m <= i < n)%N -> f i = 0) -> \sum_(m <= p < n) f p = 0.
Proof.
by move=> H; rewrite big_nat_cond big1 // => i /andP [Hi _]; apply: H.
Qed.
Lemma sum_tail m n (f : nat -> V) : (m <= n)%N -> (forall i, (m <= i < n)%N -> f i = 0) ->
  \sum_(0 <= p < n) f p = \sum_(0 <= p < m) f p.
Proof. by move=> Hm H; rewrite (@big_cat_nat _ _ _ m) //= (sum0 H) addr0. Qed.
Lemma sum_head m n (f : nat -> V) : (m <= n)%N -> (forall i, (i < m)%N -> f i = 0) ->
  \sum_(0 <= p < n) f p = \sum_(m <= p < n) f p.
Proof. by move=> Hm H; rewrite (@big_cat_nat _ _ _ m) //= (@sum0 0 m) ?add0r. Qed.
End Sums.

Section Matrices.
Variables (F : numFieldType) (conj : {rmorphism F -> F}).
Implicit Types (A B C Q T Z : nat -> nat -> F).

Lemma prodA n A B C i j : prod n (prod n A B) C i j = prod n A (prod n B C) i j.
Proof.
rewrite /prod; under eq_bigr do rewrite mulr_suml.
rewrite exchange_big_nat; apply: eq_bigr => p _; rewrite mulr_sumr.
by apply: eq_bigr => q _; rewrite mulrA.
Qed.
Lemma same_refl n A : same n A A. Proof. by []. Qed.
Lemma same_trans n A B C : same n A B -> same n B C -> same n A C.
Proof. by move=> H1 H2 i j Hi Hj; rewrite H1 ?H2. Qed.
Lemma same_sym n A B : same n A B -> same n B A.
Proof. by move=> H i j Hi Hj; rewrite H. Qed.
Lemma prod_same n A A' B B' : same n A A' -> same n B B' -> same n (prod n A B) (prod n A' B').
Proof.
move=> HA HB i j Hi Hj; rewrite /prod big_nat_cond [RHS]big_nat_cond.
by apply: eq_bigr => p /andP [/andP [_ Hp] _]; rewrite HA ?HB.
Qed.
Lemma prodA_same n A B C : same n (prod n (prod n A B) C) (prod n A (prod n B C)).
Proof. by move=> i j _ _; exact: prodA. Qed.

Lemma unitary_prod n Q Z : unitary conj n Q -> unitary conj n Z -> unitary conj n (prod n Q Z).
Proof.
move=> HQ HZ i j Hi Hj; rewrite /prod.
under eq_bigr do rewrite rmorph_sum /= mulr_suml.
rewrite exchange_big_nat -(HZ i j Hi Hj).
rewrite big_nat_cond [RHS]big_nat_cond; apply: eq_bigr => a /andP [/andP [_ Ha] _].
under eq_bigr do rewrite mulr_sumr.
rewrite exchange_big_nat /=.
transitivity (\sum_(0 <= b < n) (a == b)%:R * (Z a i * conj (Z b j))).
  rewrite big_nat_cond [RHS]big_nat_cond; apply: eq_bigr => b /andP [/andP [_ Hb] _].
  rewrite -(HQ a b Ha Hb) mulr_suml; apply: eq_bigr => p _.
  by rewrite rmorphM /= mulrACA [X in _ * X]mulrC.
under eq_bigr do rewrite eq_sym.
by rewrite (sum_deltal (fun b => Z a i * conj (Z b j))).
Qed.
Lemma unitary_same n Q Q' : same n Q Q' -> unitary conj n Q' -> unitary conj n Q.
Proof.
move=> H HQ i j Hi Hj; rewrite -HQ // big_nat_cond [RHS]big_nat_cond.
by apply: eq_bigr => p /andP [/andP [_ Hp] _]; rewrite !H.
Qed.
Lemma prod_rowl n l Q B i j : fixes l n Q -> (i < l)%N -> (i < n)%N -> prod n Q B i j = B i j.
Proof.
move=> HQ Hl Hi; rewrite /prod -[RHS](sum_deltal (fun p => B p j) Hi) big_nat_cond [RHS]big_nat_cond.
by apply: eq_bigr => p /andP [/andP [_ Hp] _]; rewrite HQ ?Hl // eq_sym.
Qed.
Lemma prod_colr n l A Q i j : fixes l n Q -> (j < l)%N -> (j < n)%N -> prod n A Q i j = A i j.
Proof.
move=> HQ Hl Hj; rewrite /prod -[RHS](sum_deltar (fun p => A i p) Hj) big_nat_cond [RHS]big_nat_cond.
by apply: eq_bigr => p /andP [/andP [_ Hp] _]; rewrite HQ ?Hl ?orbT.
Qed.
Lemma fixes_prod n l Q Z : fixes l n Q -> fixes l n Z -> fixes l n (prod n Q Z).
Proof.
move=> HQ HZ i j Hi Hj /orP [Hl|Hl].
  by rewrite (prod_rowl _ _ HQ Hl Hi) HZ ?Hl.
by rewrite (prod_colr _ _ HZ Hl Hj) HQ ?Hl ?orbT.
Qed.
Lemma fixes_same n l Q Q' : same n Q Q' -> fixes l n Q' -> fixes l n Q.
Proof. by move=> H HQ i j Hi Hj Hl; rewrite H ?HQ. Qed.
Lemma fixes_le n l l' Q : (l <= l')%N -> fixes l' n Q -> fixes l n Q.
Proof. by move=> H HQ i j Hi Hj Hl; apply: HQ => //; lia. Qed.

Lemma upper_locked n l Z T T' i j : fixes l n Z ->
  same n (prod n (upper T) Z) (prod n Z (upper T')) -> (j < l)%N -> (i <= j < n)%N -> T' i j = T i j.
Proof.
move=> HZ H Hl /andP [Hi Hj]; have := H i j (leq_ltn_trans Hi Hj) Hj.
rewrite (prod_colr _ _ HZ Hl Hj) (prod_rowl _ _ HZ) ?(leq_ltn_trans Hi) // /upper Hi => ->.
by [].
Qed.

Lemma schur_trexc l n A Q T Q' T' Z i : schur_form conj l n A Q T -> (l <= i)%N ->
  unitary conj n Z -> fixes i n Z -> same n Q' (prod n Q Z) ->
  same n (prod n (upper T) Z) (prod n Z (upper T')) -> (forall p q, (q < p < n)%N -> T' p q = T p q) ->
  schur_form conj l n A Q' T'.
Proof.
move=> [S1 S2 S3 S4 S5] Hl Z1 Z2 EQ ET EL; have Z3 := fixes_le Hl Z2; split.
- by apply: (unitary_same EQ); exact: unitary_prod.
- by apply: (fixes_same EQ); exact: fixes_prod.
- move=> p q Hp Hq.
  have -> : prod n (front l A) Q' p q = prod n (front l A) (prod n Q Z) p q by exact: prod_same.
  rewrite -prodA.
  have -> : prod n (prod n (front l A) Q) Z p q = prod n (prod n Q (upper T)) Z p q by exact: prod_same.
  rewrite prodA.
  have -> : prod n Q (prod n (upper T) Z) p q = prod n Q (prod n Z (upper T')) p q by exact: prod_same.
  rewrite -prodA.
  by apply: prod_same => //; exact: same_sym.
- by move=> p q /andP [Hq Hqp] Hp; rewrite EL ?Hqp // S4 ?Hq.
- move=> p q Hp Hqn Hq; case: (leqP p q) => Hpq; last by rewrite EL ?Hpq // S5.
  by rewrite (upper_locked Z3 ET Hq) ?Hpq ?S5.
Qed.
End Matrices.

(** * DSSolve and DSSort *)
Section Dense.
Variables (F : numFieldType) (conj : {rmorphism F -> F}).
Variables (lapack_schur : bool -> nat -> nat -> matrix F -> matrix F * matrix F)
  (lapack_trexc : nat -> nat -> nat -> matrix F * matrix F -> matrix F * matrix F) (worse : F -> F -> bool).
Variable mx : nat.
Hypothesis Hschur : schur_contract conj mx lapack_schur.
Hypothesis Htrexc : trexc_contract conj mx lapack_trexc.
Implicit Types (d : ds F) (A Q T : matrix F) (wr : nat -> F).

Lemma find_best_range m : forall j re pos wr n, (j + m = n)%N ->
  let p := find_best worse m j re pos wr in p = pos \/ (j <= p < n)%N.
Proof.
elim: m => [|m IH] j re pos wr n Hn /=; first by left.
by case: ifP => _; [have [->|] := IH j.+1 (wr j) j wr n ltac:(lia)|
  have [->|] := IH j.+1 re pos wr n ltac:(lia)]; [right; lia|right; lia|left|right; lia].
Qed.

Lemma sort_loop_ok m : forall i l n A Q T wr, (n <= mx)%N -> (i + m = n.-1)%N -> (l <= i)%N -> schur_form conj l n A Q T ->
  (forall j, (j < n)%N -> wr j = T j j) ->
  let r := sort_loop lapack_trexc worse m i n (Q, T) wr in
  schur_form conj l n A r.1.1 r.1.2 /\ (forall j, (j < n)%N -> r.2 j = r.1.2 j j).
Proof.
elim: m => [|m IH] i l n A Q T wr Hx Hm Hl S Hwr; first by [].
rewrite [sort_loop _ _ _ _ _ _ _]/=.
set pos := find_best _ _ _ _ _ _.
have Hpos : pos = 0%N \/ (i.+1 <= pos < n)%N by apply: find_best_range; lia.
case: eqVneq => [_|Hp]; first by apply: IH => //; lia.
have {}Hpos : (i < pos < n)%N by case: Hpos => [E|//]; rewrite E eqxx in Hp.
have [Z [Z1 Z2 Z3 Z4 Z5]]  := Htrexc (Q, T) Hpos Hx.
case E : (lapack_trexc n pos i (Q, T)) => [Q' T']; rewrite E /= in Z3 Z4 Z5.
have S' := schur_trexc S Hl Z1 Z2 Z3 Z4 Z5.
apply: (IH i.+1 l n A Q' T') => //; [by lia|by lia|].
move=> j Hj /=; rewrite Hj andbT; case: leqP => // Hji.
by rewrite Hwr // (upper_locked Z2 Z4 Hji) // leqnn.
Qed.

(** The dense problem after DSSolve and DSSort. *)
Definition solved d : ds F * (nat -> F) :=
  let '(d, wr) := ds_solve lapack_schur d in ds_sort lapack_trexc worse d wr.

Lemma clear_front l A i j : front l (clear_locked l A) i j = front l A i j.
Proof.
rewrite /front /clear_locked; case: (ltnP j l) => //= Hj; case: (ltnP j i) => //= Hji.
by rewrite ifF //; lia.
Qed.

(** The matrix given to hseqr. *)
Definition solver_matrix d : matrix F := if state d is Raw then clear_locked (dl d) (dA d) else dA d.
Lemma solver_front d i j : front (dl d) (solver_matrix d) i j = front (dl d) (dA d) i j.
Proof. by rewrite /solver_matrix; case: (state d) => //; exact: clear_front. Qed.
Lemma solver_lower d i j : dA d i j = 0 -> solver_matrix d i j = 0.
Proof. by rewrite /solver_matrix; case: (state d) => // E; rewrite /clear_locked; case: ifP. Qed.
Lemma solver_upper d i j : (i <= j.+1)%N -> solver_matrix d i j = dA d i j.
Proof. by move=> H; rewrite /solver_matrix; case: (state d) => //; rewrite /clear_locked ifF //; lia. Qed.

Record solved_as d d' wr : Prop := SolvedAs {
  sa_n : dn d' = dn d; sa_l : dl d' = dl d; sa_state : state d' = Condensed;
  sa_form : schur_form conj (dl d) (dn d) (solver_matrix d) (dQ d') (dA d');
  sa_eig : forall i, (i < dn d)%N -> wr i = dA d' i i;
  sa_other : forall i j, ~~ ((i < dn d)%N && (j < dn d)%N) -> dA d' i j = dA d i j }.

Lemma schur_ext l n A Q T T' : same n T T' -> schur_form conj l n A Q T -> schur_form conj l n A Q T'.
Proof.
move=> E [S1 S2 S3 S4 S5]; split=> //.
- move=> i j Hi Hj; rewrite S3 //; apply: prod_same => // p q Hp Hq; rewrite /upper E //.
- by move=> i j Hij Hi; rewrite -E ?S4 //; lia.
- by move=> i j Hi Hj Hl; rewrite -E // S5.
Qed.

Lemma schur_one A : schur_form conj 0 1 A (@ident F) A.
Proof.
split=> //.
- by move=> [|i] [|j] // _ _; rewrite big_nat1 /ident eqxx mul1r rmorph1.
- by move=> [|i] [|j] // _ _; rewrite /prod !big_nat1 /ident eqxx mul1r mulr1 /front /upper /=.
- by move=> [|i] [|j].
Qed.

Lemma ds_solve_ok d : state d = Raw \/ state d = Intermediate -> (dl d < dn d <= mx)%N ->
  (state d = Intermediate -> forall i j, (dl d <= j)%N -> (j.+1 < i < dn d)%N -> dA d i j = 0) ->
  solved_as d (ds_solve lapack_schur d).1 (ds_solve lapack_schur d).2.
Proof.
move=> Hst /andP [Hl Hx] Hh.
case: (eqVneq (dn d) 1%N) => Hn.
  have E : ds_solve lapack_schur d =
      (DS (dA d) (@ident F) (dn d) (dl d) (dk d) (dt d) Condensed, fun i => dA d i i).
    by rewrite /ds_solve Hn /=; case: Hst => ->.
  rewrite E /=; split=> //=; have -> : dl d = 0%N by lia.
  rewrite Hn; apply: schur_ext (schur_one _) => i j Hi Hj; rewrite solver_upper //; lia.
pose h := if state d is Raw then false else true.
have E : ds_solve lapack_schur d =
    let '(Q, T) := lapack_schur h (dl d) (dn d) (solver_matrix d) in
    let A' := fun i j => if (i < dn d)%N && (j < dn d)%N then T i j else dA d i j in
    (DS A' Q (dn d) (dl d) (dk d) (dt d) Condensed, fun i => A' i i).
  by rewrite /ds_solve /solver_matrix /h (negbTE Hn); case: Hst => ->.
have S : h -> forall i j, (dl d <= j)%N -> (j.+1 < i < dn d)%N -> solver_matrix d i j = 0.
  move=> Hr i j Hj Hi; apply: solver_lower; apply: Hh => //.
  by move: Hr; rewrite /h; case: Hst => ->.
move: E (Hschur Hl Hx S); case: (lapack_schur _ _ _ _) => Q T -> /= SF; split=> //=.
- by apply: schur_ext SF => i j -> ->.
- by move=> i j /negbTE ->.
Qed.

Lemma ds_sort_ok d d' wr : (dl d < dn d <= mx)%N -> solved_as d d' wr ->
  solved_as d (ds_sort lapack_trexc worse d' wr).1 (ds_sort lapack_trexc worse d' wr).2.
Proof.
move=> /andP [Hl Hx] [S1 S2 S3 S4 S5 S6]; rewrite /ds_sort S1 S2.
have := @sort_loop_ok ((dn d).-1 - dl d) (dl d) (dl d) (dn d) (solver_matrix d) (dQ d') (dA d') wr
  Hx ltac:(lia) (leqnn _) S4 S5.
case: (sort_loop _ _ _ _ _ _ _) => [[Q T] w] /= [SF Hw]; split=> //=.
- by apply: schur_ext SF => i j -> ->.
- by move=> i Hi; rewrite Hi /= Hw.
- by move=> i j Hij; rewrite (negbTE Hij) S6.
Qed.

Lemma solved_ok d : state d = Raw \/ state d = Intermediate -> (dl d < dn d <= mx)%N ->
  (state d = Intermediate -> forall i j, (dl d <= j)%N -> (j.+1 < i < dn d)%N -> dA d i j = 0) ->
  solved_as d (solved d).1 (solved d).2.
Proof.
move=> Hst Hl Hh; have := ds_solve_ok Hst Hl Hh; rewrite /solved.
by case: (ds_solve _ _) => d' wr /= H; exact: ds_sort_ok.
Qed.
End Dense.

(** * Vectors *)
Section Vectors.
Variables (F : numFieldType) (V : lmodType F) (dot : V -> V -> F) (conj : {rmorphism F -> F}) (op : V -> V).
Hypothesis HH : hermitian conj dot.
Hypothesis Hlin : forall a x y, op (a *: x + y) = a *: op x + op y.
Let dL : forall a x y z, dot (a *: x + y) z = a * dot x z + dot y z. Proof. by case: HH. Qed.
Let dC : forall x y, dot x y = conj (dot y x). Proof. by case: HH. Qed.
Implicit Types (u v : nat -> V) (A Q T : nat -> nat -> F).
Notation deflated := (deflated dot op).
Notation schur_residual := (schur_residual dot op).

Lemma opD x y : op (x + y) = op x + op y. Proof. by rewrite -[x]scale1r Hlin !scale1r. Qed.
Lemma op0 : op 0 = 0. Proof. by apply: (addrI (op 0)); rewrite -opD !addr0. Qed.
Lemma opZ a x : op (a *: x) = a *: op x. Proof. by rewrite -[a *: x]addr0 Hlin op0 addr0. Qed.

Lemma deflatedD u nc x y : deflated u nc (x + y) = deflated u nc x + deflated u nc y.
Proof.
rewrite /KSSpec.deflated opD addrACA -opprD -big_split /=; congr (_ - _).
by apply: eq_bigr => i _; rewrite (dotDl dL) scalerDl.
Qed.
Lemma deflatedZ u nc a x : deflated u nc (a *: x) = a *: deflated u nc x.
Proof.
rewrite /KSSpec.deflated opZ scalerBr; congr (_ - _); rewrite scaler_sumr.
by apply: eq_bigr => i _; rewrite (dotZl dL) scalerA.
Qed.
Lemma deflated0 u nc : deflated u nc 0 = 0.
Proof. by rewrite -[X in deflated _ _ X](scale0r 0) deflatedZ scale0r. Qed.
Lemma deflated_sum u nc a b (f : nat -> V) : deflated u nc (\sum_(a <= i < b) f i) = \sum_(a <= i < b) deflated u nc (f i).
Proof. by apply: (big_morph (deflated u nc)) => [x y|]; rewrite ?deflatedD ?deflated0. Qed.
Lemma deflated_ext u u' nc x : (forall i, (i < nc)%N -> u' i = u i) -> deflated u' nc x = deflated u nc x.
Proof.
move=> E; rewrite /KSSpec.deflated; congr (_ - _); rewrite big_nat_cond [RHS]big_nat_cond.
by apply: eq_bigr => i /andP [/andP [_ Hi] _]; rewrite E.
Qed.

(** Removing the constraints from the Arnoldi relation. *)
Lemma deflated_relation u nc m j h b : orthonormal dot u (nc + m) -> (j < m)%N ->
  (forall i, (i < nc)%N -> dot (u (nc + j.+1)%N) (u i) = 0) ->
  column_relation op nc u j h b ->
  deflated u nc (u (nc + j)%N) = \sum_(0 <= i < j.+1) h i *: u (nc + i)%N + b *: u (nc + j.+1)%N.
Proof.
move=> Ho Hj Hlast [c Ec]; rewrite /KSSpec.deflated.
have Hc i : (i < nc)%N -> dot (op (u (nc + j)%N)) (u i) = c i.
  move=> Hi; rewrite Ec !(dotDl dL) (dotZl dL) Hlast // mulr0 addr0.
  rewrite [X in _ + X](_ : _ = 0) ?addr0; last first.
    rewrite (dot_suml dL) big_nat_cond big1 // => p /andP [/andP [_ Hp] _].
    rewrite (dotZl dL) Ho; [|lia|lia].
    by rewrite (_ : _ == _ = false) ?mulr0 //; lia.
  rewrite /comb (dot_suml dL) -[RHS](sum_deltar c Hi) big_nat_cond [RHS]big_nat_cond.
  by apply: eq_bigr => p /andP [/andP [_ Hp] _]; rewrite (dotZl dL) Ho //; lia.
have -> : \sum_(0 <= i < nc) dot (op (u (nc + j)%N)) (u i) *: u i = comb u nc c.
  rewrite /comb big_nat_cond [RHS]big_nat_cond.
  by apply: eq_bigr => i /andP [/andP [_ Hi] _]; rewrite Hc.
by rewrite Ec -[X in X - _]addrA addrC addKr.
Qed.

(** The vectors w_p = sum_j Q(j,p) v_j. *)
Definition rotate nc n Q u : nat -> V := fun p => \sum_(0 <= j < n) Q j p *: u (nc + j)%N.

Lemma rotate_dot nc n Q u x i : rotate nc n Q u i = \sum_(0 <= j < n) Q j i *: u (nc + j)%N ->
  dot (rotate nc n Q u i) x = \sum_(0 <= j < n) Q j i * dot (u (nc + j)%N) x.
Proof. by move=> _; rewrite /rotate (dot_suml dL); apply: eq_bigr => j _; rewrite (dotZl dL). Qed.
Lemma rotate_orth nc n Q u x i : (forall j, (j < n)%N -> dot (u (nc + j)%N) x = 0) -> dot (rotate nc n Q u i) x = 0.
Proof.
move=> H; rewrite rotate_dot // big_nat_cond big1 // => j /andP [/andP [_ Hj] _]; by rewrite H // mulr0.
Qed.
Lemma rotate_orthonormal nc n Q u i j : orthonormal dot u (nc + n) -> unitary conj n Q -> (i < n)%N -> (j < n)%N ->
  dot (rotate nc n Q u i) (rotate nc n Q u j) = (i == j)%:R.
Proof.
move=> Ho HQ Hi Hj; rewrite -(HQ i j Hi Hj) rotate_dot //.
rewrite big_nat_cond [RHS]big_nat_cond; apply: eq_bigr => p /andP [/andP [_ Hp] _]; congr (_ * _).
rewrite /rotate (dot_sumr dL dC) -[RHS](sum_deltal (fun q => conj (Q q j)) Hp).
rewrite big_nat_cond [RHS]big_nat_cond; apply: eq_bigr => q /andP [/andP [_ Hq] _].
by rewrite (dotZr dL dC) Ho ?ltn_add2l // eqn_add2l mulrC eq_sym.
Qed.
Lemma rotate_fixed nc n l Q u p : fixes l n Q -> (p < l)%N -> (p < n)%N -> rotate nc n Q u p = u (nc + p)%N.
Proof.
move=> HQ Hl Hp; rewrite /rotate -[RHS](sum_delta (fun j => u (nc + j)%N) Hp) big_nat_cond [RHS]big_nat_cond.
by apply: eq_bigr => j /andP [/andP [_ Hj] _]; rewrite HQ ?Hl ?orbT.
Qed.
(** BVMultInPlace uses the rows from l on. *)
Lemma rotate_tail nc n l Q u p : fixes l n Q -> (l <= p < n)%N ->
  \sum_(l <= j < n) Q j p *: u (nc + j)%N = rotate nc n Q u p.
Proof.
move=> HQ /andP [Hl Hp]; rewrite /rotate [RHS](@sum_head _ _ l) //; first by lia.
by move=> j Hj; rewrite HQ ?Hj //; [rewrite (_ : _ == _ = false) ?scale0r //; lia|lia].
Qed.

Lemma rotate_relation nc n l A Q T u (e : nat -> V) p : schur_form conj l n A Q T ->
  (forall j, (j < n)%N -> deflated u nc (u (nc + j)%N) =
     \sum_(0 <= i < n) front l A i j *: u (nc + i)%N + e j) -> (p < n)%N ->
  deflated u nc (rotate nc n Q u p) =
    \sum_(0 <= q < p.+1) T q p *: rotate nc n Q u q + \sum_(0 <= j < n) Q j p *: e j.
Proof.
move=> [S1 S2 S3 S4 S5] He Hp; rewrite /rotate deflated_sum.
transitivity (\sum_(0 <= j < n) (\sum_(0 <= i < n) (front l A i j * Q j p) *: u (nc + i)%N + Q j p *: e j)).
  rewrite big_nat_cond [RHS]big_nat_cond; apply: eq_bigr => j /andP [/andP [_ Hj] _].
  rewrite deflatedZ He // scalerDr scaler_sumr; congr (_ + _).
  by apply: eq_bigr => i _; rewrite scalerA mulrC.
rewrite big_split /=; congr (_ + _); rewrite exchange_big_nat /=.
transitivity (\sum_(0 <= i < n) prod n Q (upper T) i p *: u (nc + i)%N).
  rewrite big_nat_cond [RHS]big_nat_cond; apply: eq_bigr => i /andP [/andP [_ Hi] _].
  by rewrite -S3 // /prod scaler_suml.
rewrite /prod; under eq_bigr do rewrite scaler_suml.
rewrite exchange_big_nat /= (@sum_tail _ _ p.+1) //; last first.
  move=> i /andP [Hi Hin]; rewrite big1 // => j _; rewrite /upper leqNgt Hi /=.
  by rewrite mulr0 scale0r.
rewrite big_nat_cond [RHS]big_nat_cond; apply: eq_bigr => q /andP [/andP [_ Hq] _].
rewrite scaler_sumr; apply: eq_bigr => j _; rewrite scalerA; congr (_ *: _).
by rewrite /upper -ltnS Hq mulrC.
Qed.

Lemma schur_residual_ext u u' nc T T' p : (forall i, (i <= nc + p)%N -> u' i = u i) ->
  (forall q, (q <= p)%N -> T' q p = T q p) -> schur_residual u' nc T' p = schur_residual u nc T p.
Proof.
move=> Eu ET; rewrite /KSSpec.schur_residual Eu //; congr (_ - _).
  by apply: deflated_ext => i Hi; apply: Eu; lia.
rewrite big_nat_cond [RHS]big_nat_cond; apply: eq_bigr => q /andP [/andP [_ Hq] _].
by rewrite Eu ?ET //; lia.
Qed.

(** The residual of an eigenpair of T. *)
Lemma eigen_residual u nc T k y : (forall i, (i <= k)%N -> \sum_(0 <= j < k.+1) upper T i j * y j = T k k * y i) ->
  let x := \sum_(0 <= p < k.+1) y p *: u (nc + p)%N in
  deflated u nc x - T k k *: x = \sum_(0 <= p < k.+1) y p *: schur_residual u nc T p.
Proof.
move=> Hy x; rewrite /x deflated_sum.
have -> : \sum_(0 <= p < k.+1) deflated u nc (y p *: u (nc + p)%N) =
    \sum_(0 <= p < k.+1) (y p *: schur_residual u nc T p + \sum_(0 <= q < k.+1) (upper T q p * y p) *: u (nc + q)%N).
  rewrite big_nat_cond [RHS]big_nat_cond; apply: eq_bigr => p /andP [/andP [_ Hp] _].
  rewrite deflatedZ /KSSpec.schur_residual.
  rewrite -[in LHS](@subrK _ (\sum_(0 <= q < p.+1) T q p *: u (nc + q)%N) (deflated u nc (u (nc + p)%N))).
  rewrite scalerDr; congr (_ + _); apply/esym; rewrite scaler_sumr (@sum_tail _ _ p.+1) //; last first.
    by move=> i /andP [Hi _]; rewrite /upper leqNgt Hi /= mul0r scale0r.
  rewrite big_nat_cond [RHS]big_nat_cond; apply: eq_bigr => q /andP [/andP [_ Hq] _].
  by rewrite /upper -ltnS Hq scalerA mulrC.
rewrite big_split /= -addrA; rewrite [X in _ + X](_ : _ = 0) ?addr0 //.
apply/eqP; rewrite subr_eq0; apply/eqP; rewrite exchange_big_nat scaler_sumr /=.
rewrite big_nat_cond [RHS]big_nat_cond; apply: eq_bigr => q /andP [/andP [_ Hq] _].
by rewrite -scaler_suml Hy // scalerA.
Qed.
End Vectors.
