(** Property theorems C23-C25, C35, C36: Gram-Schmidt orthogonalization. *)
From mathcomp Require Import all_ssreflect all_algebra all_field.
From Verif Require Import Prelude GSModel GSSpec GSProofs.
Set Implicit Arguments. Unset Strict Implicit. Unset Printing Implicit Defensive.
Import GRing.Theory Num.Theory Order.TTheory.
Local Open Scope ring_scope.

Section Props.
Variables (F : numFieldType) (V : lmodType F) (dot : V -> V -> F) (conj : {rmorphism F -> F}) (sqrt : F -> F).
Hypothesis HH : hermitian conj dot.
Hypothesis Hsqrt : square_root sqrt.
Variable g : config F.
Hypothesis Heta : 0 < eta g <= 1.
Hypothesis Htol : 0 < deftol g.
Notation mem := (GSModel.mem V).
Implicit Types (s : mem) (j l k n : nat).
Notation num t := (nc g + upto t)%N.

Let dL : forall a x y z, dot (a *: x + y) z = a * dot x z + dot y z. Proof. by case: HH. Qed.
Let dC : forall x y, dot x y = conj (dot y x). Proof. by case: HH. Qed.
Let dR : forall x, dot x x \is Num.real. Proof. by case: HH. Qed.
Let cR : forall a, a \is Num.real -> conj a = a. Proof. by case: HH. Qed.

Section Definite.
Hypothesis Hpd : positive_definite dot.
Hypothesis Hdef : indef g = false.

Lemma dot_ge0 x : 0 <= dot x x.
Proof.
case: (eqVneq x 0) => [->|H]; last by rewrite ltW // Hpd.
by rewrite (dot0l dL).
Qed.
Lemma dot_eq0 x : (dot x x == 0) = (x == 0).
Proof.
case: (eqVneq x 0) => [->|H]; first by rewrite (dot0l dL) eqxx.
by rewrite gt_eqF // Hpd.
Qed.
Lemma Hpos : indef g = false -> forall x, 0 <= dot x x.
Proof. by move=> _; exact: dot_ge0. Qed.
Lemma nval_norm x : is_norm dot x (nval sqrt (dot x x)).
Proof. by rewrite /nval (le_gtF (dot_ge0 x)); split; case: (Hsqrt (dot_ge0 x)). Qed.

Lemma sg1 s i : sg g s i = 1. Proof. by rewrite /sg Hdef. Qed.
Lemma ortho_of s n : orthonormal dot (col s) n -> ortho dot g s n.
Proof.
move=> H; split=> i *; last by rewrite sg1 oner_neq0.
by rewrite H // sg1; case: (_ == _).
Qed.
Lemma residE sel s t : resid dot g sel s t =
  work g s t - \sum_(0 <= i < num t | sel i) dot (work g s t) (col s i) *: col s i.
Proof. by congr (_ - _); apply: eq_bigr => i _; rewrite sg1 divr1. Qed.

(** A vector in the span whose projection vanishes. *)
Lemma resid0_span s t : orthonormal dot (col s) (num t) ->
  let r := resid dot g (fun _ => true) s t in
  (dot r r == 0) <-> in_span (col s) (num t) (work g s t).
Proof.
move=> Ho r; rewrite dot_eq0; split.
- by rewrite /r residE subr_eq0 => /eqP E; exists (fun i => dot (work g s t) (col s i)).
- case=> c E; rewrite /r residE subr_eq0; apply/eqP; rewrite {1}E /comb big_nat_cond [RHS]big_nat_cond.
  apply: eq_bigr => i /andP [/andP [_ Hi] _]; congr (_ *: _).
  rewrite E /comb (dot_suml dL) (bigD1_seq i) ?iota_uniq ?mem_index_iota //=.
  rewrite (dotZl dL) Ho // eqxx mulr1 big_seq_cond big1 ?addr0 // => p.
  rewrite mem_index_iota => /andP [/andP [_ Hp] /negbTE Ep].
  by rewrite (dotZl dL) Ho // Ep mulr0.
Qed.

(** What orthogonalizing the target means: [v] the vector before, [w] afterwards. *)
Definition orthogonalized (u : nat -> V) (n : nat) (v w : V) (c : nat -> F) : Prop :=
  (forall i, (i < n)%N -> dot w (u i) = 0) /\ v = w + comb u n c.

Lemma all_sel : mgs g = false \/ mgs g = true -> forall i, seln g None i = true.
Proof. by move=> _ i; rewrite /seln /=; case: (mgs g). Qed.

Lemma store_coefficientsE t l s (H0 : nat -> F) p :
  store_coefficients g t l s H0 p = if (p < upto t - l)%N then h_get s t (nc g + (l + p)) else H0 p.
Proof.
rewrite /store_coefficients; elim: (upto t - l)%N => [|n IH]; first by [].
by rewrite foldl_iotaS /upd IH addKn [(p < n.+1)%N]ltnS [(p <= n)%N]leq_eqVlt; case: eqVneq => [->|].
Qed.

Lemma gs_definite t wnorm wlin s : orthonormal dot (col s) (num t) ->
  exists s' w c, [/\ gs dot conj sqrt g t None wnorm wlin s =
      Ok (s', (if wnorm then Some (nval sqrt (dot w w)) else None), (if wlin then Some (w == 0) else None)),
    work g s' t = w /\ frame g t s s',
    orthogonalized (col s) (num t) (work g s t) w c,
    (nalias t -> forall i, (i < num t)%N -> h_get s' t i = c i) &
    (w == 0) <-> in_span (col s) (num t) (work g s t)].
Proof.
move=> Ho.
have [s' [E Ew Fr _ Hh]] := gs_ok dL dC dR Hsqrt Hpos Htol Heta None wnorm wlin (ortho_of Ho).
have Er : resid dot g (seln g None) s t = resid dot g (fun _ => true) s t.
  by apply: resid_ext => i _; rewrite /seln /=; case: (mgs g).
rewrite Er in E Ew Hh; set w := resid dot g (fun _ => true) s t in Er E Ew Hh.
exists s', w, (fun i => dot (work g s t) (col s i)); split=> //.
- by rewrite E Hdef /= dot_eq0.
- split; last by rewrite /w residE subrK.
  by move=> i Hi; apply: (resid_orth dL) => //; exact: ortho_of.
- by move=> na i Hi; have [H1 _] := Hh na; rewrite H1 // /seln /=; case: (mgs g).
- by rewrite -dot_eq0; exact: resid0_span.
Qed.

(** C23.  BVOrthogonalizeColumn: every variant and refinement policy. *)
Theorem C23_orthogonalize_column : forall s l j (H : option (nat -> F)) wnorm wlin,
  (j < ncols g)%N -> orthonormal dot (col s) (nc g + j) ->
  exists o c, let v := col s (nc g + j) in let w := col (after o) (nc g + j) in
  [/\ orthogonalize_column dot conj sqrt g l j H wnorm wlin s = Ok o,
      orthogonalized (col s) (nc g + j) v w c /\ (forall i, i != (nc g + j)%N -> col (after o) i = col s i),
      (if H is Some H0 then exists2 d, coefs o = Some d &
         (forall i, (l <= i < j)%N -> d (i - l)%N = c (nc g + i)%N) /\ (forall p, (j - l <= p)%N -> d p = H0 p)
       else coefs o = None),
      (if wnorm then exists2 a, onorm o = Some a & is_norm dot w a else onorm o = None) &
      (if wlin then exists2 b, olindep o = Some b & b <-> in_span (col s) (nc g + j) v else olindep o = None)].
Proof.
move=> s l j H wnorm wlin Hj Ho.
have [s' [w [c [E [Ew Fr] Or Hh Hl]]]] := gs_definite (t := Column j) wnorm wlin Ho.
exists (Outcome s' (omap (store_coefficients g (Column j) l s') H)
  (if wnorm then Some (nval sqrt (dot w w)) else None) (if wlin then Some (w == 0) else None)), c.
rewrite /orthogonalize_column /check Hj E /=; split=> //.
- by rewrite -/(work g s' (Column j)) Ew; split=> // i Hi; apply: (proj1 Fr).
- case: H => //= H0; eexists; [by []|split=> [i /andP [H1 H2]|p Hp]]; rewrite store_coefficientsE /=.
    rewrite ltn_sub2r ?(leq_ltn_trans H1 H2) //.
    rewrite -[buf _ _ _]/(h_get s' (Column j) _) Hh ?subnKC // ?ltn_add2l //.
    by case: (j) H2.
  by rewrite ltnNge Hp.
- case: wnorm {E} => //=; eexists; first by [].
  by rewrite -/(work g s' (Column j)) Ew; exact: nval_norm.
- by case: wlin {E} => //=; eexists.
Qed.

(** C23.  BVOrthogonalizeVec. *)
Theorem C23_orthogonalize_vec : forall s l k (H : option (nat -> F)) wnorm wlin,
  orthonormal dot (col s) (nc g + k) ->
  exists o c, let v := vec s in let w := vec (after o) in
  [/\ orthogonalize_vec dot conj sqrt g l k H wnorm wlin s = Ok o,
      orthogonalized (col s) (nc g + k) v w c /\ (forall i, col (after o) i = col s i),
      (if H is Some H0 then exists2 d, coefs o = Some d &
         (forall i, (l <= i < k)%N -> d (i - l)%N = c (nc g + i)%N) /\ (forall p, (k - l <= p)%N -> d p = H0 p)
       else coefs o = None),
      (if wnorm then exists2 a, onorm o = Some a & is_norm dot w a else onorm o = None) &
      (if wlin then exists2 b, olindep o = Some b & b <-> in_span (col s) (nc g + k) v else olindep o = None)].
Proof.
move=> s l k H wnorm wlin Ho.
have [s' [w [c [E [Ew Fr] Or Hh Hl]]]] := gs_definite (t := Vector k) wnorm wlin Ho.
exists (Outcome s' (omap (store_coefficients g (Vector k) l s') H)
  (if wnorm then Some (nval sqrt (dot w w)) else None) (if wlin then Some (w == 0) else None)), c.
rewrite /orthogonalize_vec E /=; split=> //.
- by rewrite -/(work g s' (Vector k)) Ew; split=> // i; apply: (proj1 Fr).
- case: H => //= H0; eexists; [by []|split=> [i /andP [H1 H2]|p Hp]]; rewrite store_coefficientsE /=.
    rewrite ltn_sub2r ?(leq_ltn_trans H1 H2) //.
    by rewrite -[hv _ _]/(h_get s' (Vector k) _) Hh ?subnKC // ?ltn_add2l.
  by rewrite ltnNge Hp.
- case: wnorm {E} => //=; eexists; first by [].
  by rewrite -/(work g s' (Vector k)) Ew; exact: nval_norm.
- by case: wlin {E} => //=; eexists.
Qed.

(** C23: the manual page says that the entry of H after the coefficients receives the norm; it is
    never written. *)
Theorem C23_norm_in_H_refuted : forall s l j wlin,
  (l <= j)%N -> (j < ncols g)%N -> orthonormal dot (col s) (nc g + j) ->
  exists H0 o d a, orthogonalize_column dot conj sqrt g l j (Some H0) true wlin s = Ok o /\
    coefs o = Some d /\ onorm o = Some a /\ d (j - l)%N <> a.
Proof.
move=> s l j wlin Hl Hj Ho.
have [o [c [E _ _ [a Ea _] _]]] := C23_orthogonalize_column l (Some (fun _ => 0)) true wlin Hj Ho.
have [o' [c' [E' _ [d Ed [_ Hd]] [a' Ea' _] _]]] :=
  C23_orthogonalize_column l (Some (fun _ => a + 1)) true wlin Hj Ho.
have Eaa : a' = a.
  move: E E'; rewrite /orthogonalize_column /check Hj.
  case: (gs _ _ _ _ _ _ _ _ _) => [[[s1 n1] l1]| | |] //= [Eo] [Eo'].
  by move: Ea Ea'; rewrite -Eo -Eo' /= => -> [].
exists (fun _ => a + 1), o', d, a'; split=> //; split=> //; split=> //.
rewrite Hd // Eaa => /eqP; rewrite -subr_eq0 addrC addKr.
by rewrite (oner_eq0 F).
Qed.

(** * Several columns *)
Lemma comb_ext u u' n (c : nat -> F) : (forall i, (i < n)%N -> u' i = u i) -> comb u' n c = comb u n c :> V.
Proof.
move=> E; rewrite /comb big_nat_cond [RHS]big_nat_cond; apply: eq_bigr => i /andP [/andP [_ Hi] _].
by rewrite E.
Qed.
Lemma in_span_ext (u u' : nat -> V) n v : (forall i, (i < n)%N -> u' i = u i) -> in_span u' n v <-> in_span u n v.
Proof. by move=> E; split=> [] [c ->]; exists c; rewrite (comb_ext _ E). Qed.
Lemma combD u n (a b : nat -> F) : comb u n a + comb u n b = comb u n (fun i => a i + b i) :> V.
Proof. by rewrite /comb -big_split; apply: eq_bigr => i _; rewrite scalerDl. Qed.
Lemma combZ u n x (a : nat -> F) : x *: comb u n a = comb u n (fun i => x * a i) :> V.
Proof. by rewrite /comb scaler_sumr; apply: eq_bigr => i _; rewrite scalerA. Qed.
Lemma comb_recr u n (a : nat -> F) : comb u n.+1 a = comb u n a + a n *: u n :> V.
Proof. by rewrite /comb big_nat_recr. Qed.
Lemma comb_recl u n (a : nat -> F) : comb u n.+1 a = a 0%N *: u 0%N + comb (fun i => u i.+1) n (fun i => a i.+1) :> V.
Proof. by rewrite /comb big_nat_recl. Qed.

(** Combinations of the first n vectors of a family and the vectors of a list. *)
Definition in_span_with (u : nat -> V) (n : nat) (ws : seq V) (v : V) : Prop :=
  exists a b, v = comb u n a + comb (nth 0 ws) (size ws) b.

Lemma span_with_nil u n v : in_span_with u n [::] v <-> in_span u n v.
Proof.
split=> [[a [b ->]]|[a ->]].
- by exists a; rewrite /comb [X in _ + X]big_geq // addr0.
- by exists a, (fun _ => 0); rewrite /comb [X in _ + X]big_geq // addr0.
Qed.
Lemma span_with_dep u n w ws v : in_span u n w -> in_span_with u n (w :: ws) v <-> in_span_with u n ws v.
Proof.
case=> c Ew; split=> [[a [b ->]]|[a [b ->]]].
- exists (fun i => a i + b 0%N * c i), (fun i => b i.+1).
  by rewrite -combD -combZ -Ew -addrA; congr (_ + _); exact: comb_recl.
- exists a, (fun i => if i is i'.+1 then b i' else 0); rewrite [X in _ = _ + X]comb_recl scale0r add0r.
  by [].
Qed.
Lemma span_with_new u u' n w w' (x : F) c ws v : x != 0 -> (forall i, (i < n)%N -> u' i = u i) ->
  w = w' + comb u n c -> u' n = x *: w' ->
  in_span_with u' n.+1 ws v <-> in_span_with u n (w :: ws) v.
Proof.
move=> Hx Eu Ew Eu'; split=> [[a [b ->]]|[a [b ->]]].
- exists (fun i => a i - a n * x * c i), (fun i => if i is i'.+1 then b i' else a n * x).
  rewrite [X in _ = _ + X]comb_recl addrA; congr (_ + _); rewrite comb_recr (comb_ext _ Eu) Eu' scalerA /= Ew scalerDr.
  have -> : comb u n (fun i => a i - a n * x * c i) = comb u n a - (a n * x) *: comb u n c.
    by rewrite -scaleNr combZ combD; apply: eq_bigr => i _; rewrite mulNr.
  by rewrite -addrA; congr (_ + _); rewrite addrCA addNr addr0.
- exists (fun i => if (i < n)%N then a i + b 0%N * c i else b 0%N / x), (fun i => b i.+1).
  rewrite [X in _ + X]comb_recl addrA; congr (_ + _); rewrite comb_recr (comb_ext _ Eu) ltnn Eu' scalerA divfK //.
  have -> : comb u n (fun i => if (i < n)%N then a i + b 0%N * c i else b 0%N / x) = comb u n a + b 0%N *: comb u n c.
    rewrite combZ combD /comb big_nat_cond [RHS]big_nat_cond; apply: eq_bigr => i /andP [/andP [_ Hi] _].
    by rewrite Hi.
  by rewrite /= Ew scalerDr -addrA [_ *: comb _ _ _ + _]addrC addrA.
Qed.

(** One column of a basis whose previous columns are those of [s]. *)
Lemma gs_column s s1 j wlin : orthonormal dot (col s) (nc g + j) ->
  (forall i, (i < nc g + j)%N -> col s1 i = col s i) ->
  let n := (nc g + j)%N in
  exists s' w c, [/\ gs dot conj sqrt g (Column j) None true wlin s1 =
      Ok (s', Some (nval sqrt (dot w w)), (if wlin then Some (w == 0) else None)),
    col s' n = w /\ (forall i, i != n -> col s' i = col s1 i),
    orthogonalized (col s) n (col s1 n) w c,
    (forall i, (i < n)%N -> j != 0%N -> buf s' j i = c i) &
    (w == 0) <-> in_span (col s) n (col s1 n)].
Proof.
move=> Ho E n.
have Ho1 : orthonormal dot (col s1) n by move=> i k Hi Hk; rewrite !E // Ho.
have [s' [w [c [Eg [Ew Fr] [O1 O2] Hh Hl]]]] := gs_definite (t := Column j) true wlin Ho1.
exists s', w, c; split=> //.
- by split=> // i Hi; apply: (proj1 Fr).
- by split=> [i Hi|]; [rewrite -E // O1|rewrite -(comb_ext _ E)].
- by move=> i Hi Hj; rewrite -[buf _ _ _]/(h_get s' (Column j) i) Hh //; case: (j) Hj.
- by rewrite Hl; apply: in_span_ext.
Qed.

Lemma nrm_flag (w : V) : flagged (nval sqrt (dot w w)) (Some (w == 0)) = (w == 0).
Proof. by rewrite /flagged (nval_eq0 Hsqrt (dR w)) dot_eq0; case: (w == 0). Qed.
Lemma nrm_neq0 (w : V) : (nval sqrt (dot w w) != 0) = (w != 0).
Proof. by rewrite (nval_eq0 Hsqrt (dR w)) dot_eq0. Qed.

(** Appending the normalized vector to an orthonormal family. *)
Lemma orthonormal_append u u' n w a : orthonormal dot u n -> (forall i, (i < n)%N -> u' i = u i) ->
  u' n = a^-1 *: w -> (forall i, (i < n)%N -> dot w (u i) = 0) -> w != 0 ->
  is_norm dot w a -> orthonormal dot u' n.+1.
Proof.
move=> Ho Eu En Hw Hn [Ha Ea].
have Hz : a != 0 by rewrite -sqrf_eq0 Ea dot_eq0.
have Hc : conj a^-1 = a^-1 by apply: cR; rewrite ger0_real // invr_ge0.
have Hu i : (i < n)%N -> dot (u i) w = 0 by move=> Hi; rewrite dC Hw // rmorph0.
move=> i k; rewrite [(i < n.+1)%N]ltnS [(i <= n)%N]leq_eqVlt [(k < n.+1)%N]ltnS [(k <= n)%N]leq_eqVlt => /orP [/eqP ->|Hi] /orP [/eqP ->|Hk].
- by rewrite En (dotZl dL) (dotZr dL dC) Hc eqxx -Ea mulrA -expr2 -exprMn mulVf // expr1n.
- by rewrite En (dotZl dL) Eu // Hw // mulr0 gtn_eqF.
- by rewrite En (dotZr dL dC) Eu // Hu // mulr0 ltn_eqF.
- by rewrite !Eu // Ho.
Qed.

(** * C24 *)
Lemma insert_loop_ok ws : forall st i ndep s, (ndep <= i)%N -> (st + i + size ws <= ncols g)%N ->
  let p := (nc g + (st + i - ndep))%N in
  orthonormal dot (col s) p ->
  exists s' n, [/\ insert_loop dot conj sqrt g st i ndep ws s = Ok (s', n),
    (i - ndep <= n <= i - ndep + size ws)%N,
    orthonormal dot (col s') (nc g + (st + n)),
    (forall q, (q < p)%N -> col s' q = col s q) &
    (forall v, in_span (col s') (nc g + (st + n)) v <-> in_span_with (col s) p ws v)].
Proof.
elim: ws => [|w ws IH] st i ndep s Hd Hm p Ho.
- exists s, (i - ndep)%N; rewrite addnBA //; split=> //; first by rewrite leqnn leq_addr.
  by move=> v; rewrite span_with_nil.
- pose j := (st + i - ndep)%N.
  have Hj : (j < ncols g)%N.
    by apply: leq_trans Hm; rewrite /= addnS ltnS (leq_trans (leq_subr _ _)) // leq_addr.
  rewrite [insert_loop _ _ _ _ _ _ _ _ _]/=.
  set s1 := with_col s _.
  have E1 q : (q < p)%N -> col s1 q = col s q by move=> Hq; rewrite /= /upd ltn_eqF.
  have Ew1 : col s1 p = w by rewrite /= /upd eqxx.
  have [s' [w' [c [Eg [Ew Fr] [O1 O2] _ Hl]]]] := gs_column true Ho E1.
  rewrite -/p Ew1 in O2 Hl *; rewrite -/p in Ew Fr O1.
  rewrite /orthogonalize_column /check -/j Hj Eg; cbn [bind onorm value after olindep].
  have E' q : (q < p)%N -> col s' q = col s q by move=> Hq; rewrite Fr ?ltn_eqF // E1.
  rewrite nrm_flag; case: (eqVneq w' 0) => [Hz|Hz].
  + have Ep : (st + i.+1 - ndep.+1 = j)%N by rewrite addnS subSS.
    have Ho' : orthonormal dot (col s') (nc g + (st + i.+1 - ndep.+1)).
      by rewrite Ep => a b Ha Hb; rewrite !E' // Ho.
    have Hm' : (st + i.+1 + size ws <= ncols g)%N by rewrite addnS addSn -addnS.
    have [s2 [n [E2 H1 H2 H3 H4]]] := IH st i.+1 ndep.+1 s' (Hd : (ndep < i.+1)%N) Hm' Ho'.
    rewrite Ep -/p subSS in H1 H3 H4.
    exists s2, n; split=> //.
    * by case/andP: H1 => -> /= H1; rewrite (leq_trans H1) // addnS leqnSn.
    * by move=> q Hq; rewrite H3 // E'.
    * move=> v; rewrite H4.
      have Hs : in_span (col s) p w by apply/Hl; rewrite Hz.
      rewrite span_with_dep //.
      by split=> [] [a [b ->]]; exists a, b; rewrite (comb_ext _ E').
  + have Ep : (st + i.+1 - ndep = j.+1)%N by rewrite addnS subSn // (leq_trans Hd) // leq_addl.
    set s2 := scale_column _ _ _ _.
    have E2 q : (q < p)%N -> col s2 q = col s q by move=> Hq; rewrite /= /upd ltn_eqF // E'.
    have Ew2 : col s2 p = (nval sqrt (dot w' w'))^-1 *: w' by rewrite /= /upd eqxx -/p Ew div1r.
    have Ho' : orthonormal dot (col s2) (nc g + (st + i.+1 - ndep)).
      by rewrite Ep addnS; apply: (orthonormal_append Ho E2 Ew2 O1 Hz); exact: nval_norm.
    have Hm' : (st + i.+1 + size ws <= ncols g)%N by rewrite addnS addSn -addnS.
    have [s3 [n [E3 H1 H2 H3 H4]]] := IH st i.+1 ndep s2 (leqW Hd) Hm' Ho'.
    rewrite Ep addnS -/p in H3 H4; rewrite subSn // in H1.
    exists s3, n; split=> //.
    * by case/andP: H1 => H1 H1'; rewrite (leq_trans _ H1) //= (leq_trans H1') // addSnnS.
    * by move=> q Hq; rewrite H3 ?E2 // ltnS ltnW.
    * move=> v; rewrite H4; apply: (span_with_new _ _ _ E2 O2 Ew2).
      by rewrite invr_neq0 // nrm_neq0.
Qed.

(** BVInsertVecs with orthogonalization: the columns from [st] on receive an orthonormal basis of what
    the vectors add to the columns (and constraints) before; the number returned is its dimension. *)
Theorem C24_insert_vecs : forall s st ws,
  (st < ncols g)%N -> (st + size ws <= ncols g)%N -> orthonormal dot (col s) (nc g + st) ->
  exists s' n, [/\ insert_vecs dot conj sqrt g st ws s = Ok (s', n),
    (n <= size ws)%N,
    orthonormal dot (col s') (nc g + (st + n)),
    (forall q, (q < nc g + st)%N -> col s' q = col s q) &
    (forall v, in_span (col s') (nc g + (st + n)) v <-> in_span_with (col s) (nc g + st) ws v)].
Proof.
move=> s st ws H1 H2 Ho; rewrite /insert_vecs; case: (@nilP _ ws) H2 => [->|_] H2.
- exists s, 0%N; rewrite addn0; split=> // v; by rewrite span_with_nil.
- have E0 : (st + 0 - 0 = st)%N by rewrite addn0 subn0.
  have Ho0 : orthonormal dot (col s) (nc g + (st + 0 - 0)) by rewrite E0.
  have Hm : (st + 0 + size ws <= ncols g)%N by rewrite addn0.
  have [s' [n [E3 H3 H4 H5 H6]]] := insert_loop_ok (leq0n 0) Hm Ho0.
  by exists s', n; rewrite /check H1 H2; rewrite E0 in H5 H6; split.
Qed.

(** Too many vectors: an error. *)
Theorem C24_insert_vecs_room : forall s st ws, ws != [::] -> (ncols g < st + size ws)%N ->
  insert_vecs dot conj sqrt g st ws s = Err.
Proof.
move=> s st ws Hw H; rewrite /insert_vecs /check /nilp size_eq0 (negbTE Hw).
by case: ifP => // _; rewrite leqNgt H.
Qed.

(** * C36 *)
(** BVOrthonormalizeColumn.  [x] is the column afterwards, [a] the norm, [b] the flag returned; [v] is the
    vector that was orthogonalized last: the column, or one of the random vectors. *)
Theorem C36_orthonormalize_column : forall s j replace r1 r2,
  (j < ncols g)%N -> orthonormal dot (col s) (nc g + j) ->
  let n := (nc g + j)%N in
  exists s' a b v c,
  [/\ orthonormalize_column dot conj sqrt g j replace r1 r2 s = Ok (s', a, b),
      forall i, i != n -> col s' i = col s i,
      [\/ v = col s n /\ (replace -> ~ in_span (col s) n v),
          [/\ replace, in_span (col s) n (col s n), v = r1 & ~ in_span (col s) n r1] |
          [/\ replace, in_span (col s) n (col s n), in_span (col s) n r1 & v = r2]],
      v = a *: col s' n + comb (col s) n c &
      if b then [/\ in_span (col s) n v, a = 0 & col s' n = 0]
      else [/\ ~ in_span (col s) n v, 0 < a & orthonormal dot (col s') n.+1]].
Proof.
move=> s j replace r1 r2 Hj Ho n; rewrite /orthonormalize_column /check Hj.
(* the end of the function, from the result of one orthogonalization *)
have fin s1 s2 w c : (forall i, i != n -> col s1 i = col s i) ->
    col s2 n = w -> (forall i, i != n -> col s2 i = col s1 i) ->
    orthogonalized (col s) n (col s1 n) w c -> ((w == 0) <-> in_span (col s) n (col s1 n)) ->
    let a := nval sqrt (dot w w) in
    let s' := if (a != 1) && (a != 0) then scale_column g j (1 / a) s2 else s2 in
    [/\ forall i, i != n -> col s' i = col s i, col s1 n = a *: col s' n + comb (col s) n c &
      if w == 0 then [/\ in_span (col s) n (col s1 n), a = 0 & col s' n = 0]
      else [/\ ~ in_span (col s) n (col s1 n), 0 < a & orthonormal dot (col s') n.+1]].
  move=> E1 Ew Fr [O1 O2] Hl a s'.
  have Ha : is_norm dot w a by exact: nval_norm.
  have Hfr i : i != n -> col s' i = col s i.
    by rewrite /s' => Hi; case: ifP => _; rewrite /= ?/upd -/n ?(negbTE Hi) Fr // E1.
  have Hfr' i : (i < n)%N -> col s' i = col s i by move=> Hi; apply: Hfr; rewrite ltn_eqF.
  have Haw : (a == 0) = (w == 0) by rewrite (nval_eq0 Hsqrt (dR w)) dot_eq0.
  case: (eqVneq w 0) => Hz.
  - have Ea : a = 0 by apply/eqP; rewrite Haw Hz.
    have Es : s' = s2 by rewrite /s' Ea eqxx andbF.
    split=> //; last by split=> //; [apply/Hl; rewrite Hz|rewrite Es Ew].
    by rewrite Es Ew Ea scale0r add0r O2 Hz add0r.
  - have Ea : a != 0 by rewrite Haw.
    have Es : col s' n = a^-1 *: w.
      rewrite /s' Ea andbT; case: eqP => [->|_] /=; first by rewrite Ew invr1 scale1r.
      by rewrite /upd eqxx -/n Ew div1r.
    split=> //; first by rewrite Es scalerA mulfV // scale1r.
    split; first by move=> /Hl; rewrite (negbTE Hz).
      by rewrite lt_neqAle eq_sym Ea; case: Ha.
    exact: (orthonormal_append Ho Hfr' Es O1 Hz Ha).
have [s1 [w [c [Eg [Ew Fr] Or _ Hl]]]] := gs_column true Ho (fun i _ => erefl (col s i)).
rewrite Eg; cbn [bind value]; rewrite nrm_flag.
have F1 := fin s s1 w c (fun i _ => erefl) Ew Fr Or Hl.
case: (boolP (replace && (w == 0))) => [/andP [Hr Hw]|Hno]; last first.
  cbn [bind]; have [A1 A2 A3] := F1.
  exists (if (nval sqrt (dot w w) != 1) && (nval sqrt (dot w w) != 0)
          then scale_column g j (1 / nval sqrt (dot w w)) s1 else s1), (nval sqrt (dot w w)), (w == 0), (col s n), c.
  split=> //; first by case: (w == 0).
  by apply: Or31; split=> // Hr Hs; move: Hno; rewrite Hr (proj2 Hl Hs).
have Hs0 : in_span (col s) n (col s n) by apply/Hl.
(* the first random vector *)
set t1 := set_work g s1 (Column j) r1.
have T1 i : i != n -> col t1 i = col s i by move=> Hi; rewrite /= /upd -/n (negbTE Hi) Fr.
have T1' i : (i < n)%N -> col t1 i = col s i by move=> Hi; rewrite T1 // ltn_eqF.
have Tn1 : col t1 n = r1 by rewrite /= /upd eqxx.
have [s2 [w2 [c2 [Eg2 [Ew2 Fr2] Or2 _ Hl2]]]] := gs_column true Ho T1'.
rewrite Eg2; cbn [bind value]; rewrite nrm_flag.
have F2 := fin t1 s2 w2 c2 T1 Ew2 Fr2 Or2 Hl2.
rewrite -/n Tn1 in Hl2 F2.
case: (boolP (w2 == 0)) => [Hw2|Hw2]; last first.
  cbn [bind]; have [A1 A2 A3] := F2; rewrite (negbTE Hw2) in A3.
  exists (if (nval sqrt (dot w2 w2) != 1) && (nval sqrt (dot w2 w2) != 0)
          then scale_column g j (1 / nval sqrt (dot w2 w2)) s2 else s2), (nval sqrt (dot w2 w2)), false, r1, c2.
  split=> //.
  by apply: Or32; split=> // Hs; move: Hw2; rewrite (proj2 Hl2 Hs).
(* the second random vector *)
set t2 := set_work g s2 (Column j) r2.
have T2 i : i != n -> col t2 i = col s i by move=> Hi; rewrite /= /upd -/n (negbTE Hi) Fr2 // T1.
have T2' i : (i < n)%N -> col t2 i = col s i by move=> Hi; rewrite T2 // ltn_eqF.
have Tn2 : col t2 n = r2 by rewrite /= /upd eqxx.
have [s3 [w3 [c3 [Eg3 [Ew3 Fr3] Or3 _ Hl3]]]] := gs_column true Ho T2'.
rewrite Eg3; cbn [bind value].
have [A1 A2 A3] := fin t2 s3 w3 c3 T2 Ew3 Fr3 Or3 Hl3.
rewrite Tn2 in A2 A3.
exists (if (nval sqrt (dot w3 w3) != 1) && (nval sqrt (dot w3 w3) != 0)
        then scale_column g j (1 / nval sqrt (dot w3 w3)) s3 else s3), (nval sqrt (dot w3 w3)), (w3 == 0), r2, c3.
split=> //; first by case: (w3 == 0).
by apply: Or33; split=> //; apply/Hl2.
Qed.

(** * C35 *)
Lemma orthogonalize_gs_ok n : forall j s (R : option (nat -> nat -> F)), nc g = 0%N -> (j + n <= ncols g)%N ->
  orthonormal dot (col s) j ->
  ((exists2 i, (j <= i < j + n)%N & in_span (col s) i (col s i)) /\
   orthogonalize_gs dot conj sqrt g n j s R = Err) \/
  ((forall i, (j <= i < j + n)%N -> ~ in_span (col s) i (col s i)) /\
   exists s' R' T,
   [/\ orthogonalize_gs dot conj sqrt g n j s R = Ok (s', R'),
       orthonormal dot (col s') (j + n),
       (forall i, ~~ (j <= i < j + n)%N -> col s' i = col s i),
       (forall q, (j <= q < j + n)%N -> 0 < T q q /\ col s q = comb (col s') q.+1 (fun p => T p q)) &
       if R is Some r then exists2 r', R' = Some r' &
         (forall p q, r' p q = if (j <= q < j + n)%N && (p <= q)%N then T p q else r p q)
       else R' = None]).
Proof.
elim: n => [|n IH] j s R Hnc Hm Ho.
- right; rewrite addn0; split; first by move=> i /andP [H1 H2]; move: (leq_ltn_trans H1 H2); rewrite ltnn.
  exists s, R, (fun _ _ => 0); split=> //; first by move=> q /andP [H1 H2]; move: (leq_ltn_trans H1 H2); rewrite ltnn.
  case: R => // r; exists r => // p q; case: andP => // [[/andP [H1 H2] _]]; by move: (leq_ltn_trans H1 H2); rewrite ltnn.
have Hj : (j < ncols g)%N by apply: leq_trans Hm; rewrite addnS ltnS leq_addr.
have Ho' : orthonormal dot (col s) (nc g + j) by rewrite Hnc.
have [s1 [w [c [Eg [Ew Fr] [O1 O2] Hh Hl]]]] := gs_column false Ho' (fun i _ => erefl (col s i)).
rewrite Hnc add0n in Ew Fr O1 O2 Hh Hl; pose a := nval sqrt (dot w w).
pose s2 := scale_column g j (1 / a) s1.
pose R1 := omap (fun (r : nat -> nat -> F) p q =>
  if q == j then (if p == j then a else store_coefficients g (Column j) 0 s1 (fun i => r i j) p) else r p q) R.
have -> : orthogonalize_gs dot conj sqrt g n.+1 j s R =
    if w != 0 then orthogonalize_gs dot conj sqrt g n j.+1 s2 R1 else Err.
  rewrite [LHS]/= /orthogonalize_column {1}/check Hj Eg; cbn [bind onorm value after].
  by rewrite /check nrm_neq0.
case: (eqVneq w 0) => Hz /=.
  left; split=> //; exists j; first by rewrite leqnn addnS ltnS leq_addr.
  by apply/Hl; rewrite Hz.
have Ha : is_norm dot w a by exact: nval_norm.
have Ea : a != 0 by rewrite nrm_neq0.
have Ej : ~ in_span (col s) j (col s j) by move=> /Hl; rewrite (negbTE Hz).
have E2 i : i != j -> col s2 i = col s i by move=> Hi; rewrite /= /upd Hnc add0n (negbTE Hi) Fr.
have E2' i : (i < j)%N -> col s2 i = col s i by move=> Hi; rewrite E2 // ltn_eqF.
have En : col s2 j = a^-1 *: w by rewrite /= /upd Hnc add0n eqxx Ew div1r.
have Ho2 : orthonormal dot (col s2) j.+1 by exact: (orthonormal_append Ho E2' En O1 Hz Ha).
(* the columns of s2 span what those of s do *)
have Sp v : in_span (col s2) j.+1 v <-> in_span (col s) j.+1 v.
  rewrite -!span_with_nil (span_with_new (u := col s) [::] v _ E2' O2 En) ?invr_neq0 //.
  by rewrite (span_with_new (u := col s) (u' := col s) (w := col s j) (w' := col s j) (x := 1) (c := fun _ => 0)
                [::] v _ (fun i _ => erefl)) ?oner_neq0 ?scale1r // /comb big1 ?addr0 // => i _; rewrite scale0r.
have Spn i : (j < i)%N -> in_span (col s2) i (col s2 i) <-> in_span (col s) i (col s i).
  move=> Hi; rewrite E2 ?gtn_eqF //; move: (col s i) => v.
  elim: i Hi v => // i IHi; rewrite ltnS leq_eqVlt => /orP [/eqP <- //|Hi] v.
  split=> [] [d ->]; rewrite comb_recr.
  - have [d' Ed'] := proj1 (IHi Hi (comb (col s2) i d)) (ex_intro _ d erefl).
    exists (fun k => if (k < i)%N then d' k else d i); rewrite comb_recr ltnn E2 ?gtn_eqF // Ed'; congr (_ + _).
    by rewrite /comb big_nat_cond [RHS]big_nat_cond; apply: eq_bigr => k /andP [/andP [_ ->]].
  - have [d' Ed'] := proj2 (IHi Hi (comb (col s) i d)) (ex_intro _ d erefl).
    exists (fun k => if (k < i)%N then d' k else d i); rewrite comb_recr ltnn E2 ?gtn_eqF // Ed'; congr (_ + _).
    by rewrite /comb big_nat_cond [RHS]big_nat_cond; apply: eq_bigr => k /andP [/andP [_ ->]].
have Hm2 : (j.+1 + n <= ncols g)%N by rewrite addSn -addnS.
have := IH j.+1 s2 R1 Hnc Hm2 Ho2.
case=> [[[i Hi1 Hi2] E]|[Hi [s' [R' [T [E Os Fs Ts RR]]]]]].
  left; split=> //; case/andP: Hi1 => Hi1 Hi1'; exists i; first by rewrite (ltnW Hi1) addnS -addSn.
  by apply/Spn.
right; split.
  move=> i; rewrite leq_eqVlt => /andP [/orP [/eqP <- _ //|H1] H2].
  by move/(Spn i H1); apply: Hi; rewrite H1 addSn -addnS.
exists s', R', (fun p q => if q == j then (if p == j then a else c p) else T p q).
have Fs' i : (i <= j)%N -> col s' i = col s2 i by move=> H; rewrite Fs // negb_and -leqNgt H.
split=> //; first by rewrite addnS -addSn.
- move=> i Hn; rewrite Fs.
    by rewrite E2 //; apply: contra Hn => /eqP ->; rewrite leqnn addnS ltnS leq_addr.
  by apply: contra Hn => /andP [H1 H2]; rewrite (ltnW H1) addnS -addSn.
- move=> q; rewrite leq_eqVlt => /andP [/orP [/eqP <-|H1] H2].
    rewrite eqxx; split; first by rewrite lt_neqAle eq_sym Ea; case: Ha.
    rewrite comb_recr eqxx Fs' // En scalerA mulfV // scale1r {1}O2 addrC; congr (_ + _).
    rewrite /comb big_nat_cond [RHS]big_nat_cond; apply: eq_bigr => k /andP [/andP [_ Hk] _].
    by rewrite ltn_eqF // Fs' ?(ltnW Hk) // E2'.
  rewrite gtn_eqF // -E2 ?gtn_eqF //; apply: Ts; by rewrite H1 addSn -addnS.
- move: RR; rewrite /R1; case: (R) => [r|] //= [r' -> RR]; exists r' => // p q; rewrite RR.
  rewrite addSn -addnS; case: (ltngtP j q) => //= <-.
  rewrite addnS ltnS leq_addr /= store_coefficientsE /= subn0 Hnc !add0n.
  rewrite [(p <= j)%N]leq_eqVlt; case: (eqVneq p j) => //= Hp; case: ltnP => // Hpj.
  by rewrite Hh // -lt0n (leq_ltn_trans _ Hpj).
Qed.

(** BVOrthogonalize, Gram-Schmidt method, leading columns [l] and active columns [k]: succeeds exactly
    when no column depends on the previous ones, and then gives the QR factorization. *)
Theorem C35_orthogonalize : forall s l k (R : option (nat -> nat -> F)),
  nc g = 0%N -> (l <= k <= ncols g)%N -> orthonormal dot (col s) l ->
  ((exists2 i, (l <= i < k)%N & in_span (col s) i (col s i)) /\
   orthogonalize dot conj sqrt g l k s R = Err) \/
  ((forall i, (l <= i < k)%N -> ~ in_span (col s) i (col s i)) /\
   exists s' R' T,
   [/\ orthogonalize dot conj sqrt g l k s R = Ok (s', R'),
       orthonormal dot (col s') k,
       (forall i, ~~ (l <= i < k)%N -> col s' i = col s i),
       (forall q, (l <= q < k)%N -> 0 < T q q /\ col s q = comb (col s') q.+1 (fun p => T p q)) &
       if R is Some r then exists2 r', R' = Some r' &
         (forall p q, r' p q = if (l <= q < k)%N && (p <= q)%N then T p q else r p q)
       else R' = None]).
Proof.
move=> s l k R Hnc /andP [Hl Hk] Ho; rewrite /orthogonalize /check Hnc eqxx.
have := orthogonalize_gs_ok (n := k - l) (j := l) R Hnc; rewrite subnKC //; exact.
Qed.

(** * C25 *)
(** BVOrthogonalizeSomeColumn: the constraints and the selected columns. *)
Theorem C25_some_column : forall s l j which (H : option (nat -> F)) wnorm wlin,
  mgs g -> (j < ncols g)%N -> orthonormal dot (col s) (nc g + j) ->
  let n := (nc g + j)%N in
  let sel i := (i < nc g)%N || which (i - nc g)%N in
  exists o c, let v := col s n in let w := col (after o) n in
  [/\ orthogonalize_some dot conj sqrt g l j which H wnorm wlin s = Ok o,
      [/\ forall i, (i < n)%N -> sel i -> dot w (col s i) = 0,
          v = w + \sum_(0 <= i < n | sel i) c i *: col s i &
          forall i, i != n -> col (after o) i = col s i],
      (if H is Some H0 then exists2 d, coefs o = Some d &
         [/\ forall i, (l <= i < j)%N -> which i -> d (i - l)%N = c (nc g + i)%N,
             forall i, (l <= i < j)%N -> ~~ which i -> buf s 0 (nc g + i)%N = 0 -> d (i - l)%N = 0 &
             forall p, (j - l <= p)%N -> d p = H0 p]
       else coefs o = None),
      (if wnorm then exists2 a, onorm o = Some a & is_norm dot w a else onorm o = None) &
      (if wlin then exists2 b, olindep o = Some b &
         b <-> exists c', v = \sum_(0 <= i < n | sel i) c' i *: col s i
       else olindep o = None)].
Proof.
move=> s l j which H wnorm wlin Hm Hj Ho n sel.
have [s' [E Ew Fr _ Hh]] := gs_ok (t := Column j) dL dC dR Hsqrt Hpos Htol Heta (Some which) wnorm wlin (ortho_of Ho).
have Es i : seln g (Some which) i = sel i by rewrite /seln Hm.
set w := resid _ _ _ _ _ in E Ew Hh.
have Ew' : w = col s n - \sum_(0 <= i < n | sel i) dot (col s n) (col s i) *: col s i.
  by rewrite /w residE; congr (_ - _); apply: eq_bigl => i; rewrite Es.
exists (Outcome s' (omap (store_coefficients g (Column j) l s') H)
  (if wnorm then Some (nval sqrt (dot w w)) else None) (if wlin then Some (w == 0) else None)),
  (fun i => dot (col s n) (col s i)).
rewrite /orthogonalize_some /check Hj Hm E Hdef /= dot_eq0 -/n; rewrite [work _ _ _]/= -/n in Ew.
split=> //.
- rewrite Ew; split.
  + by move=> i Hi Hs; apply: (resid_orth dL (t := Column j)) => //; [exact: ortho_of|rewrite Es].
  + by rewrite Ew' subrK.
  + by move=> i Hi; apply: (proj1 Fr).
- case: H => //= H0; eexists; [by []|split=> [i /andP [H1 H2] Hw|i /andP [H1 H2] Hw Hb|p Hp]];
    rewrite store_coefficientsE /=; last by rewrite ltnNge Hp.
  + rewrite ltn_sub2r ?(leq_ltn_trans H1 H2) // subnKC //.
    have na : nalias (Column j) by case: (j) H2.
    have [A _] := Hh na.
    rewrite -[buf _ _ _]/(h_get s' (Column j) _) A //; first by rewrite /= ltn_add2l.
    by rewrite Es /sel addKn Hw orbT.
  + rewrite ltn_sub2r ?(leq_ltn_trans H1 H2) // subnKC //.
    have na : nalias (Column j) by case: (j) H2.
    have [_ [[m _ A] _]] := Hh na.
    rewrite -[buf _ _ _]/(h_get s' (Column j) _) A; first by rewrite /= Hb mul0rn.
      by rewrite /= ltn_add2l.
    by rewrite Es /sel addKn (negbTE Hw) orbF -leqNgt leq_addr.
- case: wnorm {E Hh} => //=; eexists; first by [].
  by rewrite Ew; exact: nval_norm.
- case: wlin {E} => //=; eexists; first by [].
  split=> [|[c' Ec]].
  + by rewrite Ew' subr_eq0 => /eqP Ev; eexists; exact: Ev.
  + rewrite Ew' subr_eq0; apply/eqP; rewrite {1}Ec big_mkcond [RHS]big_mkcond big_nat_cond [RHS]big_nat_cond.
    apply: eq_bigr => i /andP [/andP [_ Hi] _]; case: ifP => // Hs; congr (_ *: _).
    rewrite Ec (dot_suml dL) big_mkcond (bigD1_seq i) ?iota_uniq ?mem_index_iota //= Hs.
    rewrite (dotZl dL) Ho // eqxx mulr1 big_seq_cond big1 ?addr0 // => p.
    rewrite mem_index_iota => /andP [/andP [_ Hp] /negbTE Ep].
    by case: ifP => // _; rewrite (dotZl dL) Ho // Ep mulr0.
Qed.
End Definite.

(** * Indefinite inner products *)
(** C23.  BVOrthogonalizeColumn with an indefinite inner product: the coefficients returned are the inner
    products, the norm carries the sign of the product of the vector with itself, and the signature
    receives that sign. *)
Theorem C23_indefinite_column : forall s l j (H : option (nat -> F)) wnorm wlin,
  indef g -> (j < ncols g)%N -> sig_orthogonal dot (col s) (omega s) (nc g + j) ->
  let n := (nc g + j)%N in
  exists o, let v := col s n in let w := col (after o) n in
  [/\ orthogonalize_column dot conj sqrt g l j H wnorm wlin s = Ok o,
      [/\ forall i, (i < n)%N -> dot w (col s i) = 0,
          v = w + comb (col s) n (fun i => omega s i * dot v (col s i)) &
          forall i, i != n -> col (after o) i = col s i],
      (if H is Some H0 then exists2 d, coefs o = Some d &
         (forall i, (l <= i < j)%N -> d (i - l)%N = dot v (col s (nc g + i))) /\ (forall p, (j - l <= p)%N -> d p = H0 p)
       else coefs o = None),
      (if wnorm then exists2 a, onorm o = Some a &
         if dot w w < 0 then a < 0 /\ a ^+ 2 = - dot w w else 0 <= a /\ a ^+ 2 = dot w w
       else onorm o = None) /\ olindep o = (if wlin then Some false else None) &
      omega (after o) n = (if dot w w < 0 then -1 else 1) /\ forall i, i != n -> omega (after o) i = omega s i].
Proof.
move=> s l j H wnorm wlin Hi Hj [Ho Hw] n.
have Esg i : sg g s i = omega s i by rewrite /sg Hi.
have Hw0 i : (i < n)%N -> omega s i != 0.
  by move=> Hin; case: (Hw i Hin) => ->; rewrite ?oppr_eq0 oner_neq0.
have Oo : ortho dot g s (num (Column j)).
  by split=> [i k Hi1 Hk|i Hi1]; rewrite Esg ?Ho // Hw0.
have Hpos' : indef g = false -> forall x, 0 <= dot x x by rewrite Hi.
have [s' [E Ew Fr Om Hh]] := gs_ok (t := Column j) dL dC dR Hsqrt Hpos' Htol Heta None wnorm wlin Oo.
have Er : resid dot g (seln g None) s (Column j) = resid dot g (fun _ => true) s (Column j).
  by apply: resid_ext => i _; rewrite /seln /=; case: (mgs g).
rewrite Er in E Ew Hh Om; set w := resid dot g (fun _ => true) s _ in Er E Ew Hh Om.
exists (Outcome s' (omap (store_coefficients g (Column j) l s') H)
  (if wnorm then Some (nval sqrt (dot w w)) else None) (if wlin then Some false else None)).
rewrite [work _ _ _]/= -/n in Ew.
rewrite /orthogonalize_column /check Hj E Hi /= -/n Ew; split=> //.
- split.
  + by move=> i Hi1; apply: (resid_orth dL (t := Column j)).
  + rewrite {1}(_ : w = col s n - comb (col s) n (fun i => omega s i * dot (col s n) (col s i))) ?subrK //.
    rewrite /w /resid; congr (_ - _); rewrite big_nat_cond /comb [RHS]big_nat_cond.
    apply: eq_bigr => i /andP [/andP [_ Hi1] _]; congr (_ *: _); rewrite Esg mulrC /= -/n.
    by case: (Hw i Hi1) => ->; rewrite ?invrN invr1.
  + by move=> i Hn; apply: (proj1 Fr).
- case: H => //= H0; eexists; [by []|split=> [i /andP [H1 H2]|p Hp]]; rewrite store_coefficientsE /=.
    rewrite ltn_sub2r ?(leq_ltn_trans H1 H2) // subnKC //.
    have na : nalias (Column j) by case: (j) H2.
    have [A _] := Hh na.
    rewrite -[buf _ _ _]/(h_get s' (Column j) _) A //; first by rewrite /= ltn_add2l.
    by rewrite /seln; case: (mgs g).
  by rewrite ltnNge Hp.
- split=> //; case: wnorm {E Hh} => //=; eexists; first by [].
  rewrite /nval; case: ifP => Hlt; rewrite ?Hlt.
  + have Hn : 0 <= - dot w w by rewrite oppr_ge0 ltW.
    have [A B] := Hsqrt Hn; rewrite sqrrN B; split=> //.
    by rewrite oppr_lt0 lt_neqAle A andbT eq_sym -[_ == 0]sqrf_eq0 B oppr_eq0 (lt_eqF Hlt).
  + by have Hn : 0 <= dot w w by [rewrite real_leNgt ?Hlt ?real0 ?dR|]; case: (Hsqrt Hn).
- rewrite Om Hi /= /upd -/n eqxx; split=> // i /negbTE ->.
  by [].
Qed.
End Props.

(** C24.  BVInsertConstraints on a basis without constraints: afterwards the constraints are an
    orthonormal basis of the span of the vectors given. *)
Theorem C24_insert_constraints : forall (F : numFieldType) (V : lmodType F) (dot : V -> V -> F)
    (conj : {rmorphism F -> F}) sqrt (g : config F) (s : mem V) (cs : seq V),
  hermitian conj dot -> square_root sqrt -> 0 < eta g <= 1 -> 0 < deftol g ->
  positive_definite dot -> indef g = false -> nc g = 0%N -> cs != [::] ->
  exists g' s' n, [/\ insert_constraints dot conj sqrt g cs s = Ok (g', s', n),
    [/\ (n <= size cs)%N, nc g' = n & ncols g' = ncols g],
    orthonormal dot (col s') n &
    (forall v, in_span (col s') n v <-> in_span (nth 0 cs) (size cs) v)].
Proof.
move=> F V dot conj sqrt g s cs HH Hsqrt Heta Htol Hpd Hdef Hnc Hcs.
pose g0 := Config 0 (size cs + ncols g) (indef g) (mgs g) (ref g) (eta g) (deftol g).
have Hsz : (0 < size cs)%N by rewrite lt0n size_eq0.
have H1 : (0 < ncols g0)%N by rewrite /= (leq_trans Hsz) // leq_addr.
have H2 : (0 + size cs <= ncols g0)%N by rewrite /= leq_addr.
have Ho : orthonormal dot (col s) (nc g0 + 0) by [].
have [s' [n [E A B _ C]]] := C24_insert_vecs (g := g0) HH Hsqrt Heta Htol Hpd Hdef H1 H2 Ho.
exists (Config n (ncols g) (indef g) (mgs g) (ref g) (eta g) (deftol g)), s', n.
split=> //.
- by rewrite /insert_constraints /nilp size_eq0 (negbTE Hcs) /check Hnc eqxx -/g0 E.
- move=> v; rewrite (C v : in_span (col s') n v <-> _); split=> [[a [b ->]]|[b ->]].
  + by exists b; rewrite {1}/comb big_geq // add0r.
  + by exists (fun _ => 0), b; rewrite {2}/comb big_geq // add0r.
Qed.

(** * Concrete cases: the plane over the algebraic numbers *)
Section Plane.
Definition plane : lmodType algC := [lmodType algC of (algC^o * algC^o)%type].
Definition conj2 : {rmorphism algC -> algC} := @conjC Algebraics.Implementation.numClosedFieldType.
Definition sqrt2 (a : algC) : algC := sqrtC a.
(** The Euclidean product and the one of the matrix diag(1,-1). *)
Definition dot2 (x y : plane) : algC := x.1 * (y.1)^* + x.2 * (y.2)^*.
Definition idot2 (x y : plane) : algC := x.1 * (y.1)^* - x.2 * (y.2)^*.
Definition pt (a b : algC) : plane := (a, b).

Lemma dot2_hermitian : hermitian conj2 dot2.
Proof.
split.
- by move=> a x y z; rewrite /dot2 /= !mulrDl mulrDr !mulrA addrACA.
- by move=> x y; rewrite /dot2 /= rmorphD !rmorphM !conjCK ![_^* * _]mulrC.
- by move=> x; rewrite /dot2 -!normCK rpredD // rpredX // normr_real.
- by move=> a Ha; rewrite /= conj_Creal.
Qed.
Lemma idot2_hermitian : hermitian conj2 idot2.
Proof.
split.
- by move=> a x y z; rewrite /idot2 /= !mulrDl mulrBr !mulrA opprD addrACA.
- by move=> x y; rewrite /idot2 /= rmorphB !rmorphM !conjCK ![_^* * _]mulrC.
- by move=> x; rewrite /idot2 -!normCK rpredB // rpredX // normr_real.
- by move=> a Ha; rewrite /= conj_Creal.
Qed.
Lemma dot2_positive : positive_definite dot2.
Proof.
move=> [a b] Hx; rewrite /dot2 /= -!normCK lt_neqAle addr_ge0 ?exprn_ge0 ?normr_ge0 // andbT eq_sym.
rewrite paddr_eq0 ?exprn_ge0 ?normr_ge0 // !expf_eq0 /= !normr_eq0.
by apply: contra Hx => /andP [/eqP -> /eqP ->].
Qed.
Lemma sqrt2_root : square_root sqrt2.
Proof. by move=> a Ha; rewrite /sqrt2 sqrtC_ge0 Ha sqrtCK. Qed.

Definition cfg (indef mgs : bool) (r : refinement) : config [numFieldType of algC] := Config 0 4 indef mgs r (2%:R^-1) 1.
Lemma cfg_eta i m r : 0 < eta (cfg i m r) <= 1.
Proof. by rewrite /= invr_gt0 ltr0n /= invf_le1 ?ltr0n // ler1n. Qed.
Lemma cfg_tol i m r : 0 < deftol (cfg i m r). Proof. exact: ltr01. Qed.

Definition mem_of (c : nat -> plane) : mem plane :=
  Mem c 0 (fun _ => 1) (fun _ _ => 0) (fun _ => 0) (fun _ => 0).
(** Columns (1,0), (1,1), (0,1), (0,1)... *)
Definition s0 : mem plane := mem_of (fun i => match i with 0 => pt 1 0 | 1 => pt 1 1 | _ => pt 0 1 end).
Lemma s0_orthonormal : orthonormal dot2 (col s0) 1.
Proof. by case=> // [] [] // _ _; rewrite /dot2 /= rmorph1 rmorph0 mulr1 mulr0 addr0. Qed.

(** Both variants and all refinement policies turn (1,1) into (0,1), with coefficient 1 and norm 1. *)
Example ex_C23 : forall m r, exists o d,
  [/\ orthogonalize_column dot2 conj2 sqrt2 (cfg false m r) 0 1 (Some (fun _ => 0)) true true s0 = Ok o,
      col (after o) 1 = pt 0 1, coefs o = Some d, d 0%N = 1 & onorm o = Some 1 /\ olindep o = Some false].
Proof.
move=> m r.
have [o [c [E [[O1 O2] Fr] [d Ed [Hd _]] [a Ea [Ha Ha']] [b Eb Hb]]]] :=
  C23_orthogonalize_column dot2_hermitian sqrt2_root (cfg_eta false m r) (cfg_tol false m r)
    dot2_positive erefl 0 (Some (fun _ => 0)) true true (erefl : (1 < ncols (cfg false m r))%N) s0_orthonormal.
have Hx := O1 0%N erefl; rewrite /dot2 /= rmorph1 rmorph0 mulr1 mulr0 addr0 in Hx.
rewrite /comb big_nat1 in O2; change (nc (cfg false m r) + 1)%N with 1%N in *.
have E1 : c 0%N = 1.
  by have := congr1 fst O2; rewrite /= Hx add0r [X in _ = X]mulr1 => <-.
have E2 : (col (after o) 1).2 = 1.
  by have := congr1 snd O2; rewrite /= [_ *: _]mulr0 addr0 => <-.
have Ew : col (after o) 1 = pt 0 1 by case: (col _ 1) Hx E2 => x y /= -> ->.
exists o, d; split=> //; first by rewrite -E1 -(Hd 0%N).
split.
  rewrite Ea; congr Some; apply/eqP; rewrite -(@eqr_expn2 _ 2) ?ler01 // expr1n Ha' Ew /dot2 /=.
  by rewrite mul0r add0r rmorph1 mulr1.
rewrite Eb; congr Some; apply/negbTE/negP => /Hb [x]; rewrite /comb big_nat1 => H.
have := congr1 snd H; rewrite /= [_ *: _]mulr0 => /eqP; by rewrite oner_eq0.
Qed.

(** C25: what the array of coefficients holds for a column that is not selected.  After
    BVOrthogonalizeColumn on column 1, BVOrthogonalizeSomeColumn on column 2 selecting only column 1
    returns a nonzero coefficient for column 0, although the vector (0,1) is exactly column 1. *)
Theorem C25_unselected_refuted : exists o1 o2 d,
  [/\ orthogonalize_column dot2 conj2 sqrt2 (cfg false true Never) 0 1 None false false s0 = Ok o1,
      orthogonalize_some dot2 conj2 sqrt2 (cfg false true Never) 0 2 (fun i => i == 1%N) (Some (fun _ => 0))
        false false (after o1) = Ok o2,
      coefs o2 = Some d & d 0%N != 0].
Proof.
set g := cfg false true Never.
have [HL HC HR _] := dot2_hermitian.
have Hp : indef g = false -> forall x, 0 <= dot2 x x by move=> _ x; exact: (dot_ge0 dot2_hermitian dot2_positive).
have Oo := ortho_of (g := g) erefl (s0_orthonormal : orthonormal dot2 (col s0) (nc g + upto (Column 1))).
have [s1 [E1 Ew1 Fr1 _ Hh1]] := gs_ok HL HC HR sqrt2_root Hp (cfg_tol _ _ _) (cfg_eta _ _ _) None false false Oo.
have [_ [_ [_ Hc1]]] := Hh1 erefl.
have C1 : buf s1 0 0 = 1.
  by have := Hc1 erefl 0%N erefl; rewrite /= => ->; rewrite /dot2 /= rmorph1 rmorph0 mulr1 mulr0 addr0.
(* the columns now *)
have [o [c [E [[O1 O2] Fr] _ _ _]]] :=
  C23_orthogonalize_column dot2_hermitian sqrt2_root (cfg_eta false true Never) (cfg_tol false true Never)
    dot2_positive erefl 0 None false false (erefl : (1 < ncols g)%N) s0_orthonormal.
have Eo : after o = s1.
  by move: E; rewrite /orthogonalize_column /check E1 => [] [<-].
change (nc g + 1)%N with 1%N in *; change (nc g + 1)%N with 1%N in *.
rewrite Eo in O1 O2 Fr.
have Hx := O1 0%N erefl; rewrite /dot2 /= rmorph1 rmorph0 mulr1 mulr0 addr0 in Hx.
rewrite /comb big_nat1 in O2.
have Hy : (col s1 1).2 = 1.
  by have := congr1 snd O2; rewrite /= [_ *: _]mulr0 addr0 => <-.
have W1 : col s1 1 = pt 0 1 by case: (col _ 1) Hx Hy => x y /= -> ->.
have W0 : col s1 0 = pt 1 0 by rewrite Fr.
have Os1 : orthonormal dot2 (col s1) (nc g + upto (Column 2)).
  by case=> [|[|?]] // [|[|?]] // _ _; rewrite ?W0 ?W1 /dot2 /= ?rmorph1 ?rmorph0 ?mulr1 ?mulr0 ?addr0 ?add0r.
have [s2 [E2 _ _ _ Hh2]] :=
  gs_ok HL HC HR sqrt2_root Hp (cfg_tol _ _ _) (cfg_eta _ _ _) (Some (fun i => i == 1%N)) false false
    (ortho_of (g := g) erefl Os1).
have [_ [[n Hn Hu] _]] := Hh2 erefl.
exists (Outcome s1 None None None),
  (Outcome s2 (Some (store_coefficients g (Column 2) 0 s2 (fun _ => 0))) None None),
  (store_coefficients g (Column 2) 0 s2 (fun _ => 0)).
split=> //.
- by rewrite /orthogonalize_column /check E1.
- by rewrite /orthogonalize_some /check E2.
- rewrite store_coefficientsE; have := Hu 0%N erefl erefl; rewrite /= => ->.
  by rewrite C1 pnatr_eq0 -lt0n.
Qed.

(** C35: entries of R below the diagonal keep what the caller's matrix had. *)
Theorem C35_lower_triangle_refuted : forall m r, exists s' r',
  orthogonalize dot2 conj2 sqrt2 (cfg false m r) 0 2 s0 (Some (fun _ _ => 1)) = Ok (s', Some r') /\ r' 1%N 0%N <> 0.
Proof.
move=> m r.
have H0 : orthonormal dot2 (col s0) 0 by [].
case: (C35_orthogonalize dot2_hermitian sqrt2_root (cfg_eta false m r) (cfg_tol false m r) dot2_positive erefl
         (s := s0) (l := 0) (k := 2) (Some (fun _ _ => 1)) erefl erefl H0) => [[[i /andP [_ Hi] [c Hc]] _]|].
- move: Hi Hc; case: i => [|[|i]] // _; rewrite /comb ?big_nat1 ?big_geq // => Hc.
    by have := congr1 fst Hc => /eqP /=; rewrite oner_eq0.
  by have := congr1 snd Hc => /eqP /=; rewrite [_ *: _]mulr0 oner_eq0.
- case=> _ [s' [R' [T [E _ _ _ [r' Er Hr]]]]]; exists s', r'; rewrite E Er; split=> //.
  by rewrite Hr /=; apply/eqP; exact: oner_neq0.
Qed.

(** C35: with an indefinite inner product the columns are not those of the factor times R.  Columns
    (0,1) and (1,1), product of diag(1,-1). *)
Definition s1 : mem plane := mem_of (fun i => match i with 0 => pt 0 1 | 1 => pt 1 1 | _ => pt 0 0 end).
Theorem C35_indefinite_refuted : forall m r, exists s' R,
  orthogonalize idot2 conj2 sqrt2 (cfg true m r) 0 2 s1 (Some (fun _ _ => 0)) = Ok (s', Some R) /\
  col s1 1 <> comb (col s') 2 (fun p => R p 1%N).
Proof.
move=> m r; set g := cfg true m r.
have [HL HC HR _] := idot2_hermitian.
have Hp : indef g = false -> forall x, 0 <= idot2 x x by [].
have Op : ortho idot2 g s1 (nc g + upto (Column 0)) by split.
have [t1 [E1 Ew1 Fr1 Om1 Hh1]] := gs_ok HL HC HR sqrt2_root Hp (cfg_tol _ _ _) (cfg_eta _ _ _) None true false Op.
have sq1 : sqrt2 1 = 1 by rewrite /sqrt2 sqrtC1.
set w1 := resid _ _ _ _ _ in E1 Ew1 Om1 Hh1.
have Ew : w1 = pt 0 1 by rewrite /w1 /resid big_geq // subr0.
have D1 : idot2 w1 w1 = -1 by rewrite Ew /idot2 /= rmorph0 mulr0 rmorph1 mulr1 sub0r.
have N1 : nval sqrt2 (idot2 w1 w1) = -1 by rewrite D1 /nval ltrN10 opprK sq1.
rewrite N1 in E1; change (col t1 0 = w1) in Ew1.
(* the second column *)
set u1 := scale_column g 0 (1 / -1) t1.
have U0 : col u1 0 = pt 0 (-1).
  rewrite /= /upd /= Ew1 Ew div1r invrN1; congr (_, _); first by rewrite /= [_ *: _]mulr0.
  by rewrite /= [_ *: _]mulr1.
have U1 : col u1 1 = pt 1 1 by rewrite /= /upd /= (proj1 Fr1).
have Um : omega u1 0 = -1 by rewrite /= Om1 /= /upd /= D1 ltrN10.
have O2 : ortho idot2 g u1 (nc g + upto (Column 1)).
  split; last by case=> // _; rewrite /sg /= -/u1 -[omega t1 0]/(omega u1 0) Um oppr_eq0 oner_neq0.
  case=> // [] [] // _ _; rewrite U0 /sg -[omega u1 0]/(omega u1 0) Um /idot2 /= rmorph0 mulr0 rmorphN1 mulrNN mulr1.
  by rewrite sub0r.
have [t2 [E2 Ew2 Fr2 Om2 Hh2]] := gs_ok HL HC HR sqrt2_root Hp (cfg_tol _ _ _) (cfg_eta _ _ _) None true false O2.
set w2 := resid _ _ _ _ _ in E2 Ew2 Om2 Hh2.
have Sel i : seln g None i by rewrite /seln /=; case: (m).
have Dv : idot2 (col u1 1) (col u1 0) = 1.
  by rewrite U0 U1 /idot2 /= rmorph0 mulr0 rmorphN1 sub0r mulrN opprK mulr1.
have Ev : w2 = pt 1 0.
  rewrite /w2 /resid big_mkcond big_nat1 Sel [work _ _ _]/= -[upd _ _ _]/(col u1) Dv /sg Um U0 U1.
  rewrite div1r invrN1; congr (_, _); first by rewrite /= [_ *: _]mulr0 subr0.
  by rewrite /= [_ *: _]mulrNN mulr1 subrr.
have D2 : idot2 w2 w2 = 1 by rewrite Ev /idot2 /= rmorph0 mulr0 rmorph1 mulr1 subr0.
have N2 : nval sqrt2 (idot2 w2 w2) = 1 by rewrite D2 /nval ltr10 sq1.
rewrite N2 in E2; change (col t2 1 = w2) in Ew2.
have [A _] := Hh2 erefl.
have H01 : buf t2 1 0 = 1.
  by have := A 0%N erefl (Sel 0%N); rewrite [h_get _ _ _]/= [work _ _ _]/= -[upd _ _ _]/(col u1) Dv.
have M1 : (-1 : algC) != 0 by rewrite oppr_eq0 oner_neq0.
pose R1 (p q : nat) : algC :=
  if q == 1%N then if p == 1%N then 1 else store_coefficients g (Column 1) 0 t2 (fun=> 0) p
  else if q == 0%N then if p == 0%N then -1 else store_coefficients g (Column 0) 0 t1 (fun=> 0) p else 0.
exists (scale_column g 1 (1 / 1) t2), R1; split.
- rewrite /orthogonalize /check [orthogonalize_gs _ _ _ _ _ _ _ _]/= /orthogonalize_column /check E1.
  change (0 < ncols g)%N with true; change (nc g == 0%N) with true; cbn [bind onorm value after].
  rewrite M1 E2; change (1 < ncols g)%N with true; cbn [bind onorm value after].
  by rewrite oner_neq0.
- rewrite comb_recr /comb big_nat1.
  have -> : R1 0%N 1%N = 1 by rewrite /R1 /= store_coefficientsE /= H01.
  have -> : col (scale_column g 1 (1 / 1) t2) 0 = pt 0 (-1) by rewrite /= /upd /= (proj1 Fr2).
  have -> : col (scale_column g 1 (1 / 1) t2) 1 = pt 1 0 by rewrite /= /upd /= Ew2 Ev divr1 scale1r.
  move=> /(congr1 snd) /eqP; rewrite /= [_ *: 0]mulr0 addr0 [_ *: _]mul1r -subr_eq0 opprK.
  by rewrite -(natrD _ 1 1) pnatr_eq0.
Qed.

(** BVInsertVecs: (2,0) depends on column 0 and is skipped, (1,1) is orthonormalized. *)
Example ex_C24 : forall m r, exists s' n,
  [/\ insert_vecs dot2 conj2 sqrt2 (cfg false m r) 1 [:: pt 2%:R 0; pt 1 1] s0 = Ok (s', n),
      orthonormal dot2 (col s') (1 + n), col s' 0 = pt 1 0 & in_span (col s') (1 + n) (pt 0 1)].
Proof.
move=> m r.
have [s' [n [E _ A B C]]] :=
  C24_insert_vecs dot2_hermitian sqrt2_root (cfg_eta false m r) (cfg_tol false m r) dot2_positive erefl
    (s := s0) (st := 1) (ws := [:: pt 2%:R 0; pt 1 1]) erefl erefl s0_orthonormal.
exists s', n; split=> //; first by rewrite B.
apply/(C (pt 0 1)); exists (fun _ => -1), (fun i => (i == 1%N)%:R).
rewrite /comb big_nat1 big_nat_recl // big_nat1 /= scale0r add0r scale1r scaleN1r.
by congr (_, _); rewrite /= ?addNr // oppr0 add0r.
Qed.

Example ex_C36 : forall m r, exists s' a,
  orthonormalize_column dot2 conj2 sqrt2 (cfg false m r) 1 false 0 0 s0 = Ok (s', a, false) /\
  orthonormal dot2 (col s') 2.
Proof.
move=> m r.
have [s' [a [b [v [c [E _ Hv _ Hb]]]]]] :=
  C36_orthonormalize_column dot2_hermitian sqrt2_root (cfg_eta false m r) (cfg_tol false m r) dot2_positive erefl
    false 0 0 (erefl : (1 < ncols (cfg false m r))%N) s0_orthonormal.
case: Hv => [[Ev _]|[]//|[]//].
exists s', a; case: b E Hb => E; last by case.
case=> [[x]]; rewrite Ev /comb big_nat1 => H.
by have := congr1 snd H => /eqP /=; rewrite [_ *: _]mulr0 oner_eq0.
Qed.

Example ex_C35 : forall m r, exists s' r',
  [/\ orthogonalize dot2 conj2 sqrt2 (cfg false m r) 0 2 s0 (Some (fun _ _ => 0)) = Ok (s', Some r'),
      orthonormal dot2 (col s') 2 & col s0 1 = comb (col s') 2 (fun p => r' p 1%N)].
Proof.
move=> m r.
have H0 : orthonormal dot2 (col s0) 0 by [].
case: (C35_orthogonalize dot2_hermitian sqrt2_root (cfg_eta false m r) (cfg_tol false m r) dot2_positive erefl
         (s := s0) (l := 0) (k := 2) (Some (fun _ _ => 0)) erefl erefl H0) => [[[i /andP [_ Hi] [c Hc]] _]|].
- move: Hi Hc; case: i => [|[|i]] // _; rewrite /comb ?big_nat1 ?big_geq // => Hc.
    by have := congr1 fst Hc => /eqP /=; rewrite oner_eq0.
  by have := congr1 snd Hc => /eqP /=; rewrite [_ *: _]mulr0 oner_eq0.
- case=> _ [s' [R' [T [E O _ HT [r' Er Hr]]]]]; exists s', r'; rewrite E Er; split=> //.
  have [_ ->] := HT 1%N erefl; rewrite /comb big_nat_cond [RHS]big_nat_cond.
  by apply: eq_bigr => i /andP [/andP [_ Hi] _]; rewrite Hr /= -ltnS Hi.
Qed.

(** A column (1,1) and the indefinite product: the premise of C23_indefinite_column is met. *)
Example ex_C23_indefinite : forall m r, exists o,
  [/\ orthogonalize_column idot2 conj2 sqrt2 (cfg true m r) 0 1 None true true s0 = Ok o,
      col (after o) 1 = pt 0 1 & omega (after o) 1%N = -1].
Proof.
move=> m r.
have Hs : sig_orthogonal idot2 (col s0) (omega s0) (nc (cfg true m r) + 1).
  split; last by move=> i _; left.
  by case=> // [] [] // _ _; rewrite /idot2 /= rmorph1 rmorph0 mulr1 mulr0 subr0.
have [o [E [O1 O2 _] _ _ [Om _]]] :=
  C23_indefinite_column idot2_hermitian sqrt2_root (cfg_eta true m r) (cfg_tol true m r) 0 None true true
    erefl (erefl : (1 < ncols (cfg true m r))%N) Hs.
change (nc (cfg true m r) + 1)%N with 1%N in *.
have Hx := O1 0%N erefl; rewrite /idot2 /= rmorph1 rmorph0 mulr1 mulr0 subr0 in Hx.
rewrite /comb big_nat1 in O2.
have Hy : (col (after o) 1).2 = 1.
  by have := congr1 snd O2; rewrite /= [_ *: 0]mulr0 addr0 => <-.
have Ew : col (after o) 1 = pt 0 1 by case: (col _ 1) Hx Hy => x y /= -> ->.
exists o; split=> //.
by rewrite Om Ew /idot2 /= rmorph0 mulr0 rmorph1 mulr1 sub0r ltrN10.
Qed.
End Plane.

Print Assumptions C23_orthogonalize_column.
Print Assumptions C23_orthogonalize_vec.
Print Assumptions C23_norm_in_H_refuted.
Print Assumptions C23_indefinite_column.
Print Assumptions C24_insert_vecs.
Print Assumptions C24_insert_vecs_room.
Print Assumptions C24_insert_constraints.
Print Assumptions C25_some_column.
Print Assumptions C25_unselected_refuted.
Print Assumptions C35_orthogonalize.
Print Assumptions C35_lower_triangle_refuted.
Print Assumptions C35_indefinite_refuted.
Print Assumptions C36_orthonormalize_column.
