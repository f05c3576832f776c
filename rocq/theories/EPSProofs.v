(** The interface of the eigensolver: lemmas. *)
From mathcomp Require Import all_ssreflect all_algebra.
From mathcomp Require Import zify.
From Verif Require Import Prelude EPSModel EPSSpec.
Set Implicit Arguments. Unset Strict Implicit. Unset Printing Implicit Defensive.
Import GRing.Theory Num.Theory Order.TTheory.
Local Open Scope ring_scope.

Section Real.
Variables (F : rcfType) (V : lmodType F).
Notation arrays := (arrays V).

Lemma start_next (e : nat -> F) k : block_start e k -> e k != 0 -> block_start e k.+1 = false.
Proof. by move=> /= -> /negbTE ->. Qed.
Lemma start_zero (e : nat -> F) k : block_start e k -> e k = 0 -> block_start e k.+1.
Proof. by move=> /= -> ->; rewrite eqxx. Qed.
Lemma start_after (e : nat -> F) k : block_start e k = false -> block_start e k.+1.
Proof. by move=> /= ->. Qed.
Lemma not_start (e : nat -> F) k : block_start e k = false -> exists2 k', k = k'.+1 & block_start e k' /\ e k' != 0.
Proof. by case: k => [|k] //=; case E : (block_start e k) => // /negbT H; exists k. Qed.

(** What the loop does to the places before i *)
Definition sg (e : nat -> F) (k : nat) : F := if e (block_of e k) < 0 then -1 else 1.
Definition done_upto (i : nat) (a a' : arrays) : Prop :=
  (forall k, eigi a' k = if (k < i)%N then sg (eigi a) k * eigi a k else eigi a k) /\
  (forall k, vv a' k = if (k < i)%N && ~~ block_start (eigi a) k then sg (eigi a) k *: vv a k else vv a k) /\
  (forall k, ww a' k = if (k < i)%N && ~~ block_start (eigi a) k then sg (eigi a) k *: ww a k else ww a k).

Lemma loop_done fuel nconv eigr a i b : conjugate_pairs nconv eigr (eigi a) -> (nconv <= i + fuel)%N ->
  block_start (eigi a) i -> done_upto i a b ->
  exists i', (nconv <= i')%N /\ done_upto i' a (reorder_loop fuel false nconv eigr i b).
Proof.
move=> Hc; elim: fuel i b => [|fuel IH] i b Hf Hs Hd /=; first by exists i; rewrite addn0 in Hf.
have Lt1 k : (k < i.+1)%N = (k == i) || (k < i)%N by rewrite ltnS leq_eqVlt.
case: ifP => Hi; last first.
  case: (leqP nconv i) => Hni; first by exists i.
  have Ei : nconv = i.+1 by lia.
  have E0 : eigi a i = 0.
    by apply/eqP; case: eqP => // /eqP /(Hc i Hni Hs) []; rewrite Ei ltnn.
  exists i.+1; split; first by rewrite Ei.
  case: Hd => [D1 [D2 D3]]; split; [|split] => k; rewrite ?D1 ?D2 ?D3 Lt1;
    case: eqP => [->|_] //=; rewrite ?ltnn ?E0 ?mulr0 ?Hs //.
have Ebi : eigi b i = eigi a i by case: Hd => -> _; rewrite ltnn.
rewrite Ebi /= andbT; case: eqP => [E0|/eqP N0] /=.
  apply: IH; [by lia|exact: start_zero|].
  case: Hd => [D1 [D2 D3]]; split; [|split] => k; rewrite ?D1 ?D2 ?D3 Lt1;
    case: eqP => [->|_] //=; rewrite ?ltnn ?E0 ?mulr0 ?Hs //.
have S1 := start_next Hs N0.
apply: IH; [by lia|exact: start_after|].
have [_ _ E1] := Hc i (ltnW Hi) Hs N0.
have Bi : block_of (eigi a) i = i by rewrite /block_of Hs.
have B1 : block_of (eigi a) i.+1 = i by rewrite /block_of S1.
case: Hd => [D1 [D2 D3]].
have Lt k : (k < i.+2)%N = [|| k == i, k == i.+1 | (k < i)%N] by lia.
rewrite /reorder_at Ebi; case: ifP => Hneg.
  split; [|split] => k /=; rewrite Lt /upd.
  - case: (k =P i.+1) => [->|N1] /=.
      by rewrite orbT D1 ltnNge leqnSn /sg B1 Hneg mulN1r.
    case: (k =P i) => [->|N2] /=; first by rewrite ?D1 ?ltnn /sg Bi Hneg mulN1r.
    by rewrite D1.
  - case: (k =P i.+1) => [->|N1] /=.
      by rewrite orbT D2 ltnNge leqnSn /= -/(block_start _ i.+1) S1 /sg B1 Hneg scaleN1r.
    by case: (k =P i) => [->|N2] /=; rewrite D2 ?ltnn ?Hs.
  - case: (k =P i.+1) => [->|N1] /=.
      by rewrite orbT D3 ltnNge leqnSn /= -/(block_start _ i.+1) S1 /sg B1 Hneg scaleN1r.
    by case: (k =P i) => [->|N2] /=; rewrite D3 ?ltnn ?Hs.
split; [|split] => k /=; rewrite Lt.
- case: (k =P i.+1) => [->|N1] /=.
    by rewrite orbT D1 ltnNge leqnSn /sg B1 Hneg mul1r.
  case: (k =P i) => [->|N2] /=; first by rewrite D1 ltnn /sg Bi Hneg mul1r.
  by rewrite D1.
- case: (k =P i.+1) => [->|N1] /=.
    by rewrite orbT D2 ltnNge leqnSn /= -/(block_start _ i.+1) S1 /sg B1 Hneg scale1r.
  by case: (k =P i) => [->|N2] /=; rewrite D2 ?ltnn ?Hs.
- case: (k =P i.+1) => [->|N1] /=.
    by rewrite orbT D3 ltnNge leqnSn /= -/(block_start _ i.+1) S1 /sg B1 Hneg scale1r.
  by case: (k =P i) => [->|N2] /=; rewrite D3 ?ltnn ?Hs.
Qed.

Lemma reorder_done nconv eigr a : conjugate_pairs nconv eigr (eigi a) ->
  exists i', (nconv <= i')%N /\ done_upto i' a (reorder false nconv eigr a).
Proof.
by move=> Hc; apply: loop_done.
Qed.

Lemma sg_cases (e : nat -> F) k : sg e k = 1 \/ sg e k = -1.
Proof. by rewrite /sg; case: ifP; [right|left]. Qed.
Lemma sg_abs (e : nat -> F) k : sg e k * e (block_of e k) = `|e (block_of e k)|.
Proof. by rewrite /sg; case: ltP => H; [rewrite mulN1r ltr0_norm|rewrite mul1r ger0_norm]. Qed.

Lemma pair_ok nconv eigr (a : arrays) perm i (left : bool) : conjugate_pairs nconv eigr (eigi a) -> (i < nconv)%N -> (perm i < nconv)%N ->
  let k := perm i in let k0 := block_of (eigi a) k in let X := if left then ww a else vv a in
  exists sgn : F, [/\ get_eigenpair nconv eigr perm (reorder false nconv eigr a) left i =
      Ok (eigr k0, sgn * eigi a k0, X k0, if eigi a k0 == 0 then 0 else sgn *: X k0.+1),
    sgn = 1 \/ sgn = -1 &
    if block_start (eigi a) k then 0 <= sgn * eigi a k0 else sgn * eigi a k0 < 0].
Proof.
move=> Hc Hi Hk k k0 X.
have [i' [Hi' [D1 [D2 D3]]]] := reorder_done Hc.
rewrite /get_eigenpair /check Hi -/k.
have DX j : (if left then ww (reorder false nconv eigr a) else vv (reorder false nconv eigr a)) j =
    if (j < i')%N && ~~ block_start (eigi a) j then sg (eigi a) j *: X j else X j.
  by rewrite /X; case: (left); rewrite ?D2 ?D3.
rewrite D1 (leq_trans Hk Hi').
case Es : (block_start (eigi a) k).
  have E0 : k0 = k by rewrite /k0 /block_of Es.
  rewrite E0; exists (sg (eigi a) k); split; [|exact: sg_cases|]; last by rewrite -{2}E0 sg_abs normr_ge0.
  case: eqP => [Ez|/eqP Nz].
    by rewrite Ez mulr0 /bv_get_eigenvector ltxx DX Es andbF.
  have [H1 _ E1] := Hc k Hk Es Nz.
  have Hpos : 0 < sg (eigi a) k * eigi a k by rewrite -{2}E0 sg_abs -/k0 E0 normr_gt0.
  rewrite /bv_get_eigenvector Hpos /= !DX Es andbF (leq_trans H1 Hi') /= -/(block_start _ k.+1) (start_next Es Nz) /=.
  have -> : sg (eigi a) k.+1 = sg (eigi a) k by rewrite /sg /block_of (start_next Es Nz) Es.
  by [].
have [k' Ek [Es' Nz]] := not_start Es.
have E0 : k0 = k' by rewrite /k0 /block_of Es Ek.
have Hk' : (k' < nconv)%N by rewrite -/k Ek in Hk; apply: ltnW.
have [H1 Er E1] := Hc k' Hk' Es' Nz.
have Hsg : sg (eigi a) k = sg (eigi a) k' by rewrite /sg -/k0 E0 /block_of Es'.
have Hab : sg (eigi a) k' * eigi a k' = `|eigi a k'| by have := sg_abs (eigi a) k; rewrite -/k0 E0 Hsg.
rewrite E0; exists (- sg (eigi a) k'); split.
- rewrite Hsg Ek E1 mulrN mulNr /bv_get_eigenvector oppr_gt0 oppr_lt0 Hab normr_lt0 normr_gt0 (negbTE Nz) !DX Es' andbF.
  rewrite -Ek (leq_trans Hk Hi') Es /= Hsg Ek scaleNr Er //.
- by case: (sg_cases (eigi a) k') => ->; rewrite ?opprK; [right|left].
- by rewrite mulNr Hab oppr_lt0 normr_gt0.
Qed.
End Real.
