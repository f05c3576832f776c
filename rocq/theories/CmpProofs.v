From mathcomp Require Import all_ssreflect all_algebra.
From Coq Require Import ZArith Lia.
From Verif Require Import SortSpec CmpModel.
Set Implicit Arguments.
Unset Strict Implicit.
Unset Printing Implicit Defensive.
Import Order.TTheory GRing.Theory Num.Theory.
Local Open Scope ring_scope.

(** Lexicographic combination of two criteria. *)
Definition lex (V : Type) (c1 c2 : V -> V -> Z) (a b : V) : Z :=
  if Z.eqb (c1 a b) 0 then c2 a b else c1 a b.

Lemma lex_tp (V : Type) (c1 c2 : V -> V -> Z) :
  total_preorder c1 -> total_preorder c2 -> total_preorder (lex c1 c2).
Proof.
move=> [T1 [A1 R1]] [T2 [A2 R2]]; rewrite /lex; split; [|split].
- move=> x y; move: (T1 x y) (A1 x y) (A1 y x) (T2 x y).
  case: (Z.eqb_spec (c1 x y) 0); case: (Z.eqb_spec (c1 y x) 0); lia.
- move=> x y; move: (T1 x y) (A1 x y) (A1 y x) (A2 x y).
  case: (Z.eqb_spec (c1 x y) 0); case: (Z.eqb_spec (c1 y x) 0); lia.
- move=> x y z; move: (R1 x y z) (R2 x y z) (A1 x y) (A1 y x) (A1 y z) (A1 z y) (A1 x z) (A1 z x) (R1 z x y) (R1 y z x) (R1 z y x) (R1 y x z) (R1 x z y).
  case: (Z.eqb_spec (c1 x y) 0); case: (Z.eqb_spec (c1 y z) 0); case: (Z.eqb_spec (c1 x z) 0); lia.
Qed.

Lemma tp_ext (V : Type) (c1 c2 : V -> V -> Z) :
  (forall a b, c1 a b = c2 a b) -> total_preorder c1 -> total_preorder c2.
Proof.
move=> E [T [A Tr]]; split; [|split].
- by move=> x y; rewrite -!E; apply: T.
- by move=> x y; rewrite -!E; apply: A.
- by move=> x y z; rewrite -!E; apply: Tr.
Qed.

Section Cmp.
Variable R : rcfType.
Implicit Types (x y : R).

Lemma slepc_absE x y : slepc_abs x y = Num.sqrt (x ^+ 2 + y ^+ 2).
Proof.
rewrite /slepc_abs; set w := Num.max _ _; set z := Num.min _ _.
have Hs : x ^+ 2 + y ^+ 2 = w ^+ 2 + z ^+ 2.
  rewrite /w /z -[x ^+ 2]real_normK ?num_real // -[y ^+ 2]real_normK ?num_real //.
  by case: (leP `|x| `|y|) => _ //; rewrite addrC.
have w0 : 0 <= w by rewrite /w le_maxr normr_ge0.
rewrite Hs; case: eqP => [->|/eqP zn0].
  by rewrite expr0n /= addr0 sqrtr_sqr ger0_norm.
have zp : 0 < z.
  by rewrite lt_def zn0 /z le_minr !normr_ge0.
have wp : 0 < w.
  apply: lt_le_trans zp _; rewrite /w /z.
  by case: (leP `|x| `|y|) => // /ltW.
rewrite -{1}(ger0_norm w0) -sqrtr_sqr -sqrtrM ?sqr_ge0 //.
congr (Num.sqrt _); rewrite mulrDr mulr1 -expr2 expr_div_n mulrCA divff ?mulr1 //.
by rewrite expf_neq0 // gt_eqF.
Qed.

Lemma abs_eigenvalueE cplx (a : R * R) : abs_eigenvalue cplx a = Num.sqrt (a.1 ^+ 2 + a.2 ^+ 2).
Proof. by rewrite /abs_eigenvalue; case: cplx => //; rewrite slepc_absE. Qed.

(** Three-way comparisons by a key. *)
Lemma smaller_tp (V : Type) (f : V -> R) : total_preorder (fun a b => prefer_smaller (f a) (f b)).
Proof.
rewrite /prefer_smaller; split; [|split].
- by move=> x y; case: (ltgtP (f x) (f y)); lia.
- by move=> x y; case: (ltgtP (f x) (f y)); lia.
- move=> x y z.
  have E u v : Z.le (if f v < f u then 1%Z else if f u < f v then (-1)%Z else 0%Z) 0%Z <-> (f u <= f v).
    by case: (ltgtP (f u) (f v)) => //; split => //; lia.
  by rewrite !E; apply: le_trans.
Qed.

Lemma larger_smaller x y : prefer_larger x y = prefer_smaller (- x) (- y).
Proof. by rewrite /prefer_larger /prefer_smaller !ltr_opp2. Qed.

Lemma larger_tp (V : Type) (f : V -> R) : total_preorder (fun a b => prefer_larger (f a) (f b)).
Proof.
by apply: (tp_ext _ (smaller_tp (fun a => - f a))) => a b; rewrite larger_smaller.
Qed.

Variable cplx : bool.

Lemma largest_magnitude_tp : total_preorder (@cmp_largest_magnitude R cplx).
Proof. exact: larger_tp. Qed.
Lemma smallest_magnitude_tp : total_preorder (@cmp_smallest_magnitude R cplx).
Proof. exact: smaller_tp. Qed.
Lemma largest_real_tp : total_preorder (@cmp_largest_real R).
Proof. exact: larger_tp. Qed.
Lemma smallest_real_tp : total_preorder (@cmp_smallest_real R).
Proof. exact: smaller_tp. Qed.
Lemma largest_imaginary_tp : total_preorder (@cmp_largest_imaginary R cplx).
Proof.
apply: (tp_ext _ (lex_tp (larger_tp (@im_part R cplx)) (larger_tp (@abs_eigenvalue R cplx)))) => a b.
rewrite /lex /cmp_largest_imaginary /prefer_larger.
by case: (ltgtP (im_part cplx a) (im_part cplx b)).
Qed.
Lemma smallest_imaginary_tp : total_preorder (@cmp_smallest_imaginary R cplx).
Proof.
apply: (tp_ext _ (lex_tp (smaller_tp (@im_part R cplx)) (larger_tp (@abs_eigenvalue R cplx)))) => a b.
rewrite /lex /cmp_smallest_imaginary /prefer_smaller /prefer_larger.
by case: (ltgtP (im_part cplx a) (im_part cplx b)).
Qed.
Lemma target_magnitude_tp t : total_preorder (@cmp_target_magnitude R cplx t).
Proof. exact: smaller_tp. Qed.
Lemma target_real_tp t : total_preorder (@cmp_target_real R t).
Proof. exact: smaller_tp. Qed.
Lemma target_imaginary_tp t : total_preorder (@cmp_target_imaginary R cplx t).
Proof.
rewrite /cmp_target_imaginary; case: cplx; first exact: smaller_tp.
by split; [|split]; move=> *; lia.
Qed.
Lemma smallest_pos_real_tp : total_preorder (@cmp_smallest_pos_real R cplx).
Proof.
pose f (a : R * R) : R := if 0 < a.1 then 0 else 1.
apply: (tp_ext _ (lex_tp (smaller_tp f) (smaller_tp (@abs_eigenvalue R cplx)))) => a b.
rewrite /lex /cmp_smallest_pos_real /prefer_smaller /f.
by case: (0 < a.1); case: (0 < b.1); rewrite ?ltxx ?ltr01 ?ltr10.
Qed.
End Cmp.
