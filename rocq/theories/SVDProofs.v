(** Lemmas about the model of the singular value solvers. *)
From mathcomp Require Import all_ssreflect all_algebra.
From Verif Require Import Prelude GSModel GSSpec GSProofs GSProps SVDModel SVDSpec.
Set Implicit Arguments. Unset Strict Implicit. Unset Printing Implicit Defensive.
Import GRing.Theory Num.Theory Order.TTheory.
Local Open Scope ring_scope.

Section Root.
Variables (F : numFieldType) (sqrt : F -> F).
Hypothesis Hsqrt : square_root sqrt.
Lemma sqrtE a b : 0 <= b -> b ^+ 2 = a -> sqrt a = b.
Proof.
move=> Hb E; have Ha : 0 <= a by rewrite -E exprn_ge0.
have [H1 H2] := Hsqrt Ha.
by apply/eqP; rewrite -(@eqr_expn2 _ 2) // H2 E.
Qed.
Lemma sqrt_ge0 a : 0 <= a -> 0 <= sqrt a. Proof. by move=> /Hsqrt []. Qed.
Lemma sqr_sqrt a : 0 <= a -> sqrt a ^+ 2 = a. Proof. by move=> /Hsqrt []. Qed.
Lemma sqrt_gt0 a : 0 < a -> 0 < sqrt a.
Proof.
move=> Ha; rewrite lt_neqAle sqrt_ge0 ?ltW // andbT eq_sym.
by rewrite -sqrf_eq0 sqr_sqrt ?ltW // gt_eqF.
Qed.
Lemma sqrt_eq0 a : 0 <= a -> (sqrt a == 0) = (a == 0).
Proof. by move=> Ha; rewrite -sqrf_eq0 sqr_sqrt. Qed.
Lemma sqrt0 : sqrt 0 = 0. Proof. by apply: sqrtE; rewrite ?expr0n. Qed.
Lemma sqrt1 : sqrt 1 = 1. Proof. by apply: sqrtE; rewrite ?expr1n ?ler01. Qed.
Lemma sqrt2_gt0 : 0 < sqrt 2%:R. Proof. by apply: sqrt_gt0; rewrite ltr0n. Qed.
Lemma sqrtM a b : 0 <= a -> 0 <= b -> sqrt (a * b) = sqrt a * sqrt b.
Proof. by move=> Ha Hb; apply: sqrtE; rewrite ?mulr_ge0 ?sqrt_ge0 // exprMn !sqr_sqrt. Qed.
Lemma sqrt_sqr a : 0 <= a -> sqrt (a ^+ 2) = a. Proof. by move=> Ha; apply: sqrtE. Qed.
Lemma sqrt_le a b : 0 <= a -> a <= b -> sqrt a <= sqrt b.
Proof.
move=> Ha Hab; have Hb := le_trans Ha Hab.
by rewrite -(@ler_pexpn2r _ 2) ?nnegrE ?sqrt_ge0 // !sqr_sqrt.
Qed.
End Root.

Section Space.
Variables (F : numFieldType) (W : lmodType F) (dot : W -> W -> F) (conj : {rmorphism F -> F}) (sqrt : F -> F).
Hypothesis HH : hermitian conj dot.
Hypothesis Hpd : positive_definite dot.
Hypothesis Hsqrt : square_root sqrt.
Let dL : forall a x y z, dot (a *: x + y) z = a * dot x z + dot y z. Proof. by case: HH. Qed.
Let dC : forall x y, dot x y = conj (dot y x). Proof. by case: HH. Qed.
Let dR : forall x, dot x x \is Num.real. Proof. by case: HH. Qed.
Let cR : forall a, a \is Num.real -> conj a = a. Proof. by case: HH. Qed.

Lemma linop0 (a : W -> W) : linop a -> a 0 = 0.
Proof. by move=> H; have := H (-1) 0 0; rewrite !scaler0 addr0 scaleN1r addNr. Qed.
Lemma linopZ (a : W -> W) c x : linop a -> a (c *: x) = c *: a x.
Proof. by move=> H; rewrite -[c *: x]addr0 H linop0 // addr0. Qed.
Lemma linopD (a : W -> W) x y : linop a -> a (x + y) = a x + a y.
Proof. by move=> H; rewrite -[x]scale1r H !scale1r. Qed.
Lemma linopN (a : W -> W) x : linop a -> a (- x) = - a x.
Proof. by move=> H; rewrite -scaleN1r linopZ // scaleN1r. Qed.

Lemma adjointC (a b : W -> W) : adjoint dot a b -> adjoint dot b a.
Proof. by move=> H x y; rewrite dC -H -dC. Qed.
Lemma gram_adj (a b : W -> W) : adjoint dot a b -> self_adjoint dot (fun x => b (a x)).
Proof. by move=> H x y; rewrite (adjointC H) H. Qed.
Lemma gram_dot (a b : W -> W) x y : adjoint dot a b -> dot (b (a x)) y = dot (a x) (a y).
Proof. by move=> H; rewrite (adjointC H). Qed.

Lemma dotZZ a b x y : dot (a *: x) (b *: y) = a * conj b * dot x y.
Proof. by rewrite (dotZl dL) (dotZr dL dC) mulrA. Qed.

Lemma norm2_ge0 x : 0 <= norm2 dot sqrt x.
Proof. by apply: (sqrt_ge0 Hsqrt); exact: (dot_ge0 HH Hpd). Qed.
Lemma sqr_norm2 x : norm2 dot sqrt x ^+ 2 = dot x x.
Proof. by apply: (sqr_sqrt Hsqrt); exact: (dot_ge0 HH Hpd). Qed.
Lemma norm2_eq x a : is_norm dot x a -> norm2 dot sqrt x = a.
Proof. by case=> H1 H2; exact: (sqrtE Hsqrt). Qed.
Lemma norm20 : norm2 dot sqrt 0 = 0.
Proof. by rewrite /norm2 (dot0l dL) (sqrt0 Hsqrt). Qed.
Lemma norm2_eq0 x : (norm2 dot sqrt x == 0) = (x == 0).
Proof. by rewrite -sqrf_eq0 sqr_norm2 (dot_eq0 HH Hpd). Qed.
Lemma norm2Z a x : 0 <= a -> norm2 dot sqrt (a *: x) = a * norm2 dot sqrt x.
Proof.
move=> Ha; apply: norm2_eq; split; first by rewrite mulr_ge0 // norm2_ge0.
by rewrite exprMn sqr_norm2 dotZZ cR ?ger0_real // expr2.
Qed.
Lemma norm2N x : norm2 dot sqrt (- x) = norm2 dot sqrt x.
Proof. by rewrite /norm2 -scaleN1r dotZZ rmorphN1 mulrN1 opprK mul1r. Qed.

(** Gram-Schmidt on an orthogonal family: each vector is divided by its norm. *)
Variable g : config F.
Hypothesis Heta : 0 < eta g <= 1.
Hypothesis Htol : 0 < deftol g.
Hypothesis Hdef : indef g = false.
Hypothesis Hnc : nc g = 0%N.

Lemma comb_zero (u : nat -> W) n (c : nat -> F) : (forall i, (i < n)%N -> c i = 0) -> comb u n c = 0.
Proof.
move=> H; rewrite /comb big_nat_cond big1 // => i /andP [/andP [_ Hi] _].
by rewrite H // scale0r.
Qed.
Lemma comb_last (u : nat -> W) n (c : nat -> F) : comb u n.+1 c = comb u n c + c n *: u n.
Proof. by rewrite /comb big_nat_recr. Qed.
Lemma dot_comb (u : nat -> W) n (c : nat -> F) j : orthonormal dot u n -> (j < n)%N -> dot (comb u n c) (u j) = c j.
Proof.
move=> Ho Hj; rewrite /comb (dot_suml dL) (bigD1_seq j) ?iota_uniq ?mem_index_iota //=.
rewrite (dotZl dL) Ho // eqxx mulr1 big_seq_cond big1 ?addr0 // => p.
by rewrite mem_index_iota => /andP [/andP [_ Hp] /negbTE Ep]; rewrite (dotZl dL) Ho // Ep mulr0.
Qed.

Lemma orthogonalize_orthogonal n (s : mem W) : (n <= ncols g)%N ->
  (forall i j, (i < n)%N -> (j < n)%N -> i != j -> dot (col s i) (col s j) = 0) ->
  (forall i, (i < n)%N -> col s i != 0) ->
  exists s', orthogonalize dot conj sqrt g 0 n s None = Ok (s', None) /\
    forall i, (i < n)%N -> col s' i = (norm2 dot sqrt (col s i))^-1 *: col s i.
Proof.
move=> Hn Ho Hz.
have Ho0 : orthonormal dot (col s) 0 by []; have Hn' : (0 <= n <= ncols g)%N by [].
have [[[i Hi [c Ec]] _]|[_ [s' [R' [T [-> O _ HT ->]]]]]] := C35_orthogonalize HH Hsqrt Heta Htol Hpd Hdef None Hnc Hn' Ho0.
  have /andP [_ Hin] := Hi.
  have : dot (col s i) (col s i) = 0.
    rewrite {1}Ec /comb (dot_suml dL) big_nat_cond big1 // => p /andP [/andP [_ Hp] _].
    by rewrite (dotZl dL) Ho ?mulr0 ?ltn_eqF // (ltn_trans Hp).
  by move/eqP; rewrite (dot_eq0 HH Hpd) (negbTE (Hz i Hin)).
exists s'; split=> //; elim/ltn_ind => q IH Hq.
have [Tq Eq] := HT q Hq.
have T0 p : (p < q)%N -> T p q = 0.
  move=> Hp; have Hpn := ltn_trans Hp Hq.
  have Oq : orthonormal dot (col s') q.+1 by move=> i j Hi Hj; apply: O; [apply: leq_trans Hi _|apply: leq_trans Hj _].
  have : dot (col s q) (col s' p) = T p q by rewrite Eq dot_comb // ltnS ltnW.
  by rewrite IH // (dotZr dL dC) Ho ?mulr0 ?gtn_eqF // => <-.
rewrite comb_last comb_zero // add0r in Eq.
have En : norm2 dot sqrt (col s q) = T q q.
  apply: norm2_eq; split; first exact: ltW.
  by rewrite {2}Eq Eq dotZZ O // eqxx mulr1 cR ?gtr0_real // expr2.
by rewrite En {1}Eq scalerA mulVf ?gt_eqF // scale1r.
Qed.

Lemma orthogonalize_dependent n k (s : mem W) : (k < n <= ncols g)%N -> col s k = 0 ->
  orthogonalize dot conj sqrt g 0 n s None = Err.
Proof.
move=> /andP [Hk Hn] E0; have Ho0 : orthonormal dot (col s) 0 by []; have Hn' : (0 <= n <= ncols g)%N by [].
have [[_ ->] //|[H _]] := C35_orthogonalize HH Hsqrt Heta Htol Hpd Hdef None Hnc Hn' Ho0.
by case: (H k Hk); exists (fun _ => 0); rewrite E0 comb_zero.
Qed.
End Space.

(** * Storing the selected ones of a sequence one after the other *)
Section Place.
Variables (T : Type) (P : nat -> bool) (f : nat -> T).
Fixpoint place (n i j : nat) (z : nat -> T) : nat -> T :=
  match n with
  | 0 => z
  | n'.+1 => if P i then place n' i.+1 j.+1 (upd z j (f i)) else place n' i.+1 j z
  end.
Lemma placeE n i j z k : place n i j z k =
  if (j <= k < j + count P (iota i n))%N then f (nth 0%N (filter P (iota i n)) (k - j)) else z k.
Proof.
elim: n i j z => [|n IH] i j z /=; first by rewrite addn0 ltnNge andbN.
case: (P i); rewrite IH ?add0n // /upd add1n addnS addSn.
case: (ltngtP j k) => //= [Hj|<-].
  by case: ifP => // Hk; rewrite subnS; case: (k - j)%N (subn_gt0 j k) => [|m] //; rewrite Hj.
by rewrite ltnS leq_addr subnn.
Qed.
End Place.

(** Two selections agree as long as nothing selected only by the second comes before. *)
Lemma filter_prefix (P Q : nat -> bool) n i k :
  (forall a, (i <= a < i + n)%N -> P a -> Q a) ->
  (forall a b, (i <= a < b)%N -> (b < i + n)%N -> ~~ P a -> Q a -> ~~ P b) ->
  (k < size (filter P (iota i n)))%N -> nth 0%N (filter P (iota i n)) k = nth 0%N (filter Q (iota i n)) k.
Proof.
elim: n i k => [|n IH] i k //= HPQ Hz.
have H1 a : (i.+1 <= a < i.+1 + n)%N -> P a -> Q a.
  by move=> /andP [Ha Hb]; apply: HPQ; rewrite (ltnW Ha) addnS -addSn.
have H2 a b : (i.+1 <= a < b)%N -> (b < i.+1 + n)%N -> ~~ P a -> Q a -> ~~ P b.
  by move=> /andP [Ha Hb] Hc; apply: Hz; rewrite ?Hb ?(ltnW Ha) // addnS -addSn.
have H3 : (i <= i < i + n.+1)%N by rewrite leqnn addnS ltnS leq_addr.
case HP: (P i); first by rewrite (HPQ i H3 HP) /=; case: k => // k; rewrite ltnS; exact: IH.
case HQ: (Q i); last exact: IH.
suff -> : filter P (iota i.+1 n) = [::] by [].
rewrite -(filter_pred0 (iota i.+1 n)); apply: eq_in_filter => b; rewrite mem_iota => /andP [Hb1 Hb2] /=.
by apply/negbTE; apply: (Hz i); rewrite ?HP ?leqnn ?Hb1 // addnS -addSn.
Qed.
Lemma filter_iota_nth (P : nat -> bool) n k : (k < count P (iota 0 n))%N ->
  (nth 0%N (filter P (iota 0 n)) k < n)%N /\ P (nth 0%N (filter P (iota 0 n)) k).
Proof.
rewrite -size_filter => /(mem_nth 0%N); rewrite mem_filter mem_iota add0n => /andP [-> /andP [_ ->]] //.
Qed.
Lemma filter_iota_inj (P : nat -> bool) n k l : (k < count P (iota 0 n))%N -> (l < count P (iota 0 n))%N ->
  nth 0%N (filter P (iota 0 n)) k = nth 0%N (filter P (iota 0 n)) l -> k = l.
Proof.
rewrite -!size_filter => Hk Hl /eqP; rewrite nth_uniq ?filter_uniq ?iota_uniq // => /eqP //.
Qed.
