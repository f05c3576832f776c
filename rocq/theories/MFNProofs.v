(** Functions of a matrix times a vector: proofs. *)
From mathcomp Require Import all_ssreflect all_algebra.
From mathcomp Require Import zify.
From Verif Require Import Prelude GSModel GSSpec GSProofs GSProps KrylovModel KrylovSpec KrylovProofs KrylovProps MFNModel MFNSpec.
Set Implicit Arguments. Unset Strict Implicit. Unset Printing Implicit Defensive.
Import GRing.Theory Num.Theory Order.TTheory.
Local Open Scope ring_scope.

Section Algebra.
Variables (F : numFieldType) (V : lmodType F).
Implicit Types (H : nat -> nat -> F) (W : nat -> V) (c : nat -> F) (p : {poly F}).

Lemma comb_eq W n c c' : (forall i, (i < n)%N -> c i = c' i) -> comb W n c = comb W n c'.
Proof. by move=> E; rewrite /comb; apply: eq_big_nat => i Hi; rewrite E. Qed.
Lemma comb_sum W n (I : Type) (r : seq I) (f : I -> nat -> F) :
  comb W n (fun k => \sum_(i <- r) f i k) = \sum_(i <- r) comb W n (f i).
Proof. by rewrite /comb exchange_big /=; apply: eq_bigr => k _; rewrite scaler_suml. Qed.
Lemma combZl W n a c : comb W n (fun k => a * c k) = a *: comb W n c.
Proof. by rewrite /comb scaler_sumr; apply: eq_bigr => k _; rewrite scalerA. Qed.

Lemma mulhE n H c k : (k < n)%N -> mulh n H c k = \sum_(0 <= j < n) H k j * c j.
Proof. by rewrite /mulh => ->. Qed.
Lemma mulh_eq n H H' c c' : (forall i j, (i < n)%N -> (j < n)%N -> H i j = H' i j) -> (forall k, (k < n)%N -> c k = c' k) ->
  forall k, mulh n H c k = mulh n H' c' k.
Proof.
move=> EH Ec k; rewrite /mulh; case: ifP => // Hk; apply: eq_big_nat => j Hj; rewrite EH ?Ec //.
Qed.
Lemma polcol_eq n H H' p : (forall i j, (i < n)%N -> (j < n)%N -> H i j = H' i j) ->
  forall k, (k < n)%N -> polcol n H p k = polcol n H' p k.
Proof.
move=> EH k Hk; rewrite /polcol; apply: eq_bigr => i _; congr (_ * _); case: i => i _ /=.
by elim: i k Hk => [|i IH] k Hk //=; apply: mulh_eq.
Qed.
(** The leading entries of f(H) for a block lower triangular H *)
Lemma polcol_prefix n m H p : (forall i j, (i < n)%N -> (n <= j)%N -> H i j = 0) ->
  forall k, (k < n)%N -> polcol (n + m) H p k = polcol n H p k.
Proof.
move=> Z k Hk; rewrite /polcol; apply: eq_bigr => i _; congr (_ * _); case: i => i _ /=.
elim: i k Hk => [|i IH] k Hk //=; rewrite !mulhE ?ltn_addr //.
rewrite (@big_cat_nat _ _ _ n) ?leq_addr //= [X in _ + X](_ : _ = 0) ?addr0.
  by apply: eq_big_nat => j Hj; rewrite IH.
by rewrite big_nat_cond big1 // => j /andP [/andP [Hj _] _]; rewrite Z // mul0r.
Qed.

Variable op : V -> V.
Hypothesis Hop : forall a x y, op (a *: x + y) = a *: op x + op y.
Lemma op0 : op 0 = 0.
Proof. by have := Hop (-1) 0 0; rewrite !scaler0 addr0 scaleN1r addNr. Qed.
Lemma opZ a x : op (a *: x) = a *: op x.
Proof. by rewrite -[a *: x]addr0 Hop op0 addr0. Qed.
Lemma opD x y : op (x + y) = op x + op y.
Proof. by rewrite -[x]scale1r Hop !scale1r. Qed.
Lemma op_sum n (f : nat -> V) : op (\sum_(0 <= j < n) f j) = \sum_(0 <= j < n) op (f j).
Proof. by elim: n => [|n IH]; [rewrite !big_geq ?op0|rewrite !big_nat_recr //= opD IH]. Qed.

Lemma op_comb n W H beta v c : arnoldi op n W H beta v -> (0 < n)%N ->
  op (comb W n c) = comb W n (mulh n H c) + (c n.-1 * beta) *: v.
Proof.
case=> R _ Hn; rewrite {1}/comb op_sum.
have -> : \sum_(0 <= j < n) op (c j *: W j) =
    \sum_(0 <= j < n) (comb W n (fun i => c j * H i j) + (if j.+1 == n then (c j * beta) *: v else 0)).
  apply: eq_big_nat => j Hj; rewrite opZ R // scalerDr combZl; congr (_ + _).
  by case: ifP => _; rewrite ?scalerA ?scaler0.
rewrite big_split /=; congr (_ + _).
  rewrite -comb_sum; apply: comb_eq => i Hi; rewrite /mulh Hi; apply: eq_bigr => j _; exact: mulrC.
case: n Hn {R} => // n _; rewrite big_nat_recr //= eqxx big_nat_cond big1 ?add0r // => j /andP [/andP [_ Hj] _].
by rewrite eqSS ltn_eqF.
Qed.
Lemma iter_hess n H i : (forall i j, (i < n)%N -> (j.+1 < i)%N -> H i j = 0) ->
  forall k, (i < k)%N -> iter i (mulh n H) (@e1 F) k = 0.
Proof.
move=> Z; elim: i => [|i IH] k Hk; first by rewrite /= /e1 gtn_eqF.
rewrite /= {1}/mulh; case: ifP => // Hkn; rewrite big_nat_cond big1 // => j /andP [/andP [_ Hj] _].
case: (ltnP j.+1 k) => Hjk; first by rewrite Z // mul0r.
by rewrite IH ?mulr0 //; lia.
Qed.
Lemma iter_comb n W H beta v i : arnoldi op n W H beta v -> (0 < n)%N -> (i < n)%N || (beta == 0) ->
  iter i op (W 0%N) = comb W n (iter i (mulh n H) (@e1 F)).
Proof.
move=> R Hn; elim: i => [|i IH] Hi /=.
  rewrite /comb (@big_ltn _ _ _ 0) // /e1 eqxx scale1r big_nat_cond big1 ?addr0 //.
  by move=> j /andP [/andP [Hj _] _]; rewrite gtn_eqF // scale0r.
rewrite IH; last by case/orP: Hi => [Hi|->]; rewrite ?orbT // ltnW.
rewrite (op_comb _ R) //; case/orP: Hi => [Hi|/eqP ->]; last by rewrite mulr0 scale0r addr0.
by rewrite (iter_hess (proj2 R)) ?mul0r ?scale0r ?addr0 //; lia.
Qed.
Lemma iterZ i a x : iter i op (a *: x) = a *: iter i op x.
Proof. by elim: i => [|i IH] //=; rewrite IH opZ. Qed.
(** Exactness *)
Lemma polop_exact n W H beta v p bn b : arnoldi op n W H beta v -> (0 < n)%N -> b = bn *: W 0%N ->
  (size p <= n)%N || (beta == 0) -> polop op p b = bn *: comb W n (polcol n H p).
Proof.
move=> R Hn -> Hp; rewrite /polop /polcol comb_sum scaler_sumr; apply: eq_bigr => i _.
rewrite iterZ (iter_comb (beta := beta) (v := v) R) //.
  by rewrite combZl scalerA mulrC -scalerA.
by case/orP: Hp => [Hp|->]; rewrite ?orbT // (leq_trans (ltn_ord i) Hp).
Qed.

(** Gluing two decompositions *)
Definition cat (n : nat) W (u : nat -> V) (i : nat) : V := if (i < n)%N then W i else u (i - n)%N.
Lemma cat_comb n m W u c : comb (cat n W u) (n + m) c = comb W n c + comb u m (fun i => c (n + i)%N).
Proof.
rewrite comb_split; congr (_ + _); first by rewrite /comb; apply: eq_big_nat => i /andP [_ Hi]; rewrite /cat Hi.
by apply: eq_bigr => i _; rewrite /cat ltnNge leq_addr /= addKn.
Qed.
Lemma glue_arnoldi n m W u G M b beta v (first : bool) : arnoldi op n W G b (u 0%N) -> arnoldi op m u M beta v ->
  (0 < m)%N -> (first -> n = 0%N) ->
  arnoldi op (n + m) (cat n W u) (glue first n m G M b) beta v.
Proof.
move=> [R1 Z1] [R2 Z2] Hm Hf; split=> [j Hj|i j Hi Hij].
- rewrite cat_comb; case: (ltnP j n) => Hjn.
    have Hjn' : (n <= j)%N = false by rewrite leqNgt Hjn.
    have Ff : first = false by case: first Hf => // /(_ isT) E; rewrite E in Hjn.
    rewrite {1}/cat Hjn R1 // Ff.
    have -> : (j.+1 == n + m)%N = false by lia.
    rewrite addr0; congr (_ + _).
      by apply: comb_eq => i Hi; rewrite /glue Hjn' /= Hi.
    rewrite /comb (@big_ltn _ _ _ 0) // addn0 /glue Hjn' /= ltnn eqxx /=.
    rewrite big_nat_cond big1 ?addr0; first by case: ifP => _; rewrite ?scale0r.
    move=> i /andP [/andP [Hi _] _]; rewrite ltnNge leq_addr /=.
    by rewrite (_ : (n + i == n)%N = false) ?scale0r //; lia.
  rewrite {1}/cat ltnNge Hjn /= R2; last by lia.
  have -> : (j.+1 == n + m)%N = ((j - n).+1 == m) by lia.
  congr (_ + _); rewrite [X in _ = X + _](_ : _ = 0) ?add0r.
    by apply: comb_eq => i Hi; rewrite /glue Hjn leq_addr addKn.
  rewrite /comb big_nat_cond big1 // => i /andP [/andP [_ Hi] _].
  by rewrite /glue Hjn leqNgt Hi scale0r.
- rewrite /glue; case: (leqP n j) => Hjn.
    by case: ifP => // Hni; apply: Z2; lia.
  case: first {Hf} => //; case: ltnP => Hin; first exact: Z1.
  by rewrite (_ : (i == n) && (j.+1 == n) = false) //; lia.
Qed.
Lemma glue_lower first n m (G M : nat -> nat -> F) b i j : (i < n)%N -> (n <= j)%N -> glue first n m G M b i j = 0.
Proof. by move=> Hi Hj; rewrite /glue Hj leqNgt Hi. Qed.
Lemma glue_upper first n m (G M : nat -> nat -> F) b i j : ~~ first -> (i < n)%N -> (j < n)%N ->
  glue first n m G M b i j = G i j.
Proof. by move=> /negbTE -> Hi Hj; rewrite /glue leqNgt Hj /= Hi. Qed.
End Algebra.
