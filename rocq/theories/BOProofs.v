(** Block orthogonalization: proofs. *)
From mathcomp Require Import all_ssreflect all_algebra.
From mathcomp Require Import zify.
From Verif Require Import Prelude BOModel BOSpec.
Set Implicit Arguments. Unset Strict Implicit. Unset Printing Implicit Defensive.
Import GRing.Theory Num.Theory Order.TTheory.
Local Open Scope ring_scope.

Section Proofs.
Variables (F : numFieldType) (conj : {rmorphism F -> F}) (V : lmodType F) (dot : V -> V -> F).
Hypothesis conjK : involutive conj.
Hypothesis dotL : forall c x y z, dot (c *: x + y) z = c * dot x z + dot y z.
Hypothesis dotC : forall x y, dot x y = conj (dot y x).
Hypothesis dot_gt : forall x, x != 0 -> 0 < dot x x.
Lemma dot0 x : dot 0 x = 0. Proof. by have := dotL (-1) 0 0 x; rewrite scaler0 addr0 mulN1r addNr. Qed.
Lemma dotD x y z : dot (x + y) z = dot x z + dot y z. Proof. by rewrite -[x]scale1r dotL mul1r scale1r. Qed.
Lemma dotZ c x y : dot (c *: x) y = c * dot x y. Proof. by rewrite -[c *: x]addr0 dotL dot0 addr0. Qed.
Lemma dotB x y z : dot (x - y) z = dot x z - dot y z.
Proof. by rewrite dotD -scaleN1r dotZ mulN1r. Qed.
Lemma dotZr c x y : dot x (c *: y) = conj c * dot x y. Proof. by rewrite dotC dotZ rmorphM -dotC. Qed.
Lemma dotDr x y z : dot z (x + y) = dot z x + dot z y. Proof. by rewrite dotC dotD rmorphD -!dotC. Qed.
Lemma dotr0 x : dot x 0 = 0. Proof. by rewrite dotC dot0 rmorph0. Qed.
Lemma dot_suml I (r : seq I) P (f : I -> V) y : dot (\sum_(i <- r | P i) f i) y = \sum_(i <- r | P i) dot (f i) y.
Proof. by apply: (big_morph (fun x => dot x y)) => [a b|]; [exact: dotD | exact: dot0]. Qed.
Lemma dot_sumr I (r : seq I) P (f : I -> V) y : dot y (\sum_(i <- r | P i) f i) = \sum_(i <- r | P i) dot y (f i).
Proof. by apply: (big_morph (dot y)) => [a b|]; [exact: dotDr | exact: dotr0]. Qed.
Lemma sumb (W : zmodType) (f : nat -> W) l k : \sum_(l <= i < k) f i = \sum_(i < k - l) f (i + l)%N.
Proof. by rewrite -{1}[l]add0n big_addn big_mkord. Qed.

Variables (l k : nat).
Notation inb := (inb l k).
Definition G (w : nat -> V) : 'M[F]_(k - l) := blk l k (fun i j => dot (w j) (w i)).
Lemma inbP (i : 'I_(k - l)) : inb (i + l).
Proof. by have H := ltn_ord i; rewrite /BOModel.inb leq_addl addnC -ltn_subRL. Qed.
Lemma inbE i : inb i -> exists i' : 'I_(k - l), i = (i' + l)%N.
Proof.
rewrite /BOModel.inb => /andP[Hl Hk]; have H : (i - l < k - l)%N by rewrite ltn_sub2r // (leq_ltn_trans Hl).
by exists (Ordinal H); rewrite /= subnK.
Qed.
Lemma G_adj w : adj conj (G w) = G w.
Proof. by apply/matrixP => i j; rewrite !mxE -dotC. Qed.

(** After the leading columns have been removed *)
Lemma leading_ok buf v : orthonormal dot l v -> (l <= k)%N ->
  let (R, w) := leading dot l k buf v in
  [/\ (forall j, inb j -> v j = \sum_(0 <= i < l) R i j *: v i + w j), (forall j, ~~ inb j -> w j = v j) &
    forall i j, (i < l)%N -> inb j -> dot (w j) (v i) = 0].
Proof.
move=> Ho Hlk; rewrite /leading; case: eqP => [E0|N0].
  by split=> [j Hj||i j] //; rewrite E0 // big_geq // add0r.
rewrite /block_gs; split.
- by move=> j Hj; rewrite Hj addrC subrK.
- by move=> j /negbTE ->.
- move=> i j Hi Hj; rewrite Hj dotB dot_suml big_nat_cond.
  rewrite (eq_bigr (fun m => if m == i then dot (v j) (v i) else 0)); last first.
    move=> m /andP[/andP[_ Hm] _]; rewrite Hm dotZ (Ho m i) //=.
    by case: (altP (m =P i)) => [->|_]; rewrite /= ?mulr1 ?mulr0.
  rewrite -big_nat_cond big_mkord (bigD1 (Ordinal Hi)) //= eqxx big1 ?addr0 ?subrr // => m Hm.
  by case: eqP => // E; case/eqP: Hm; apply: val_inj.
Qed.

Variables (w : nat -> V) (T : nat -> nat -> F).
Notation Q := (mult_in_place l k T w).
Notation BT := (blk l k T).
Lemma QE (j : 'I_(k - l)) : Q (j + l)%N = \sum_(i < k - l) BT i j *: w (i + l)%N.
Proof. by rewrite /mult_in_place inbP sumb; apply: eq_bigr => i _; rewrite mxE. Qed.
Lemma Q_gram (i j : 'I_(k - l)) : dot (Q (j + l)%N) (Q (i + l)%N) = (adj conj BT *m G w *m BT) i j.
Proof.
rewrite !QE dot_suml mxE; apply: eq_bigr => a _; rewrite dotZ dot_sumr mulrC; congr (_ * _).
by rewrite mxE; apply: eq_bigr => b _; rewrite dotZr !mxE.
Qed.
Lemma Q_inv (B : nat -> nat -> F) (j : 'I_(k - l)) : BT *m blk l k B = 1%:M ->
  \sum_(l <= i < k) B i (j + l)%N *: Q i = w (j + l)%N.
Proof.
move=> E; rewrite sumb (eq_bigr (fun i : 'I_(k - l) => \sum_(a < k - l) (BT a i * blk l k B i j) *: w (a + l)%N)).
  rewrite exchange_big /= (eq_bigr (fun a : 'I_(k - l) => (1%:M : 'M[F]_(k - l)) a j *: w (a + l)%N)).
    rewrite (bigD1 j) //= mxE eqxx scale1r big1 ?addr0 // => a /negbTE N; by rewrite mxE N scale0r.
  by move=> a _; rewrite -E mxE scaler_suml.
by move=> i _; rewrite QE scaler_sumr; apply: eq_bigr => a _; rewrite scalerA mulrC [blk l k B i j]mxE.
Qed.
Lemma Q_lead (v : nat -> V) i j : inb j -> (forall j, inb j -> dot (w j) (v i) = 0) -> dot (Q j) (v i) = 0.
Proof.
move=> /inbE[j' ->] H; rewrite QE dot_suml big1 // => a _; by rewrite dotZ H ?mulr0 // inbP.
Qed.
Lemma Q_out j : ~~ inb j -> Q j = w j.
Proof. by rewrite /mult_in_place => /negbTE ->. Qed.

(** Orthonormality of all columns *)
Lemma all_orthonormal v : (l <= k)%N -> orthonormal dot l v -> (forall j, ~~ inb j -> w j = v j) ->
  (forall i j, (i < l)%N -> inb j -> dot (w j) (v i) = 0) -> adj conj BT *m G w *m BT = 1%:M -> orthonormal dot k Q.
Proof.
move=> Hlk Ho Hw Hp HG i j Hi Hj.
have out a : (a < l)%N -> Q a = v a.
  by move=> Ha; rewrite Q_out ?Hw // /BOModel.inb leqNgt Ha.
have inn a : (l <= a)%N -> (a < k)%N -> inb a by rewrite /BOModel.inb => -> ->.
have lead a b : (a < l)%N -> (l <= b)%N -> (b < k)%N -> dot (Q b) (v a) = 0.
  by move=> Ha Hb Hk; apply: Q_lead; [exact: inn | move=> m Hm; apply: Hp].
case: (ltnP i l) => Hil; case: (ltnP j l) => Hjl.
- by rewrite !out // Ho.
- by rewrite (out i) // dotC lead // rmorph0; case: eqP => // E; move: Hjl; rewrite -E leqNgt Hil.
- by rewrite (out j) // lead //; case: eqP => // E; move: Hil; rewrite E leqNgt Hjl.
- have [i' ->] := inbE (inn _ Hil Hi); have [j' ->] := inbE (inn _ Hjl Hj).
  by rewrite Q_gram HG mxE eqn_add2r eq_sym.
Qed.
End Proofs.

Section Posdef.
Variables (F : numFieldType) (conj : {rmorphism F -> F}) (V : lmodType F) (dot : V -> V -> F).
Hypothesis dotL : forall c x y z, dot (c *: x + y) z = c * dot x z + dot y z.
Hypothesis dotC : forall x y, dot x y = conj (dot y x).
Hypothesis dot_gt : forall x, x != 0 -> 0 < dot x x.
Lemma G_posdef l k (R : nat -> nat -> F) v w : (l <= k)%N -> independent k v ->
  (forall j, inb l k j -> v j = \sum_(0 <= i < l) R i j *: v i + w j) -> posdef conj (G dot l k w).
Proof.
move=> Hlk Hi Hv; split; first exact: G_adj.
move=> x Nx; set y := \sum_(j < k - l) x j 0 *: w (j + l)%N.
have -> : ((map_mx conj x)^T *m G dot l k w *m x) 0 0 = dot y y.
  rewrite mxE {1}/y (dot_suml dotL); apply: eq_bigr => j _.
  rewrite (dotZ dotL) mulrC; congr (_ * _); rewrite mxE /y (dot_sumr dotL dotC); apply: eq_bigr => i _.
  by rewrite (dotZr dotL dotC) !mxE.
apply: dot_gt; apply: contra_neq Nx => y0.
pose c i := if (i < l)%N then - \sum_(j < k - l) x j 0 * R i (j + l)%N else
  if insub (i - l)%N is Some j then x j 0 else 0.
have cj (j : 'I_(k - l)) : c (j + l)%N = x j 0.
  rewrite /c ltnNge leq_addl /= addnK; case: insubP => [u _ E|]; last by rewrite ltn_ord.
  by congr (x _ 0); apply: val_inj.
have C0 : \sum_(0 <= i < k) c i *: v i = 0.
  rewrite (@big_cat_nat _ _ _ l) //= [X in _ + X]sumb.
  rewrite (eq_bigr (fun j : 'I_(k - l) => \sum_(0 <= i < l) (x j 0 * R i (j + l)%N) *: v i + x j 0 *: w (j + l)%N));
    last first.
    move=> j _; rewrite cj Hv ?inbP // scalerDr scaler_sumr; congr (_ + _).
    by apply: eq_bigr => i _; rewrite scalerA.
  rewrite big_split /= -/y y0 addr0 exchange_big /= -big_split /= big_nat big1 // => i /andP[_ Hil].
  by rewrite /c Hil scaleNr scaler_suml addNr.
apply/colP => j; rewrite mxE -cj; apply: Hi C0 _ _.
by have /andP[] := inbP j.
Qed.
End Posdef.
