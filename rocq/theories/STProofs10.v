(** Polynomial problems: set-up and changes of the shift; the transformed polynomial. *)
From mathcomp Require Import all_ssreflect all_algebra zify.
From Verif Require Import Prelude STModel STSpec STProofs STProofs2 STProofs3 STProofs8 STProofs9.
Set Implicit Arguments. Unset Strict Implicit. Unset Printing Implicit Defensive.
Import GRing.Theory.
Local Open Scope ring_scope.

Section P.
Variable K : fieldType.
Variable conj : {rmorphism K -> K}.
Variable n : nat.
Notation mat := 'M[K]_n.
Notation vec := 'cV[K]_n.
Notation heap := (heap K n).
Implicit Types (h : heap) (L : seq ptr) (p q : ptr).

Arguments hdense : simpl never.
Arguments hobj : simpl never.
Arguments hdestroy : simpl never.
Arguments halloc : simpl never.
Arguments hset : simpl never.
Arguments href : simpl never.
Arguments tri : simpl never.

(** ** The polynomial *)

Lemma peval_sum (A : seq mat) z : peval A z = \sum_(0 <= m < size A) z ^+ m *: nth 0 A m.
Proof. by rewrite /peval big_mkord. Qed.

Lemma target_sum (A : seq mat) k s : (k <= size A)%N ->
  target A k s = \sum_(k <= m < size A) (('C(m, k))%:R * s ^+ (m - k)) *: nth 0 A m.
Proof.
move=> H; rewrite /target -[X in \sum_(X <= _ < _) _]add0n big_addn big_mkord; apply: eq_bigr => i _.
by have := bin_sub (leq_addl i k); rewrite addnK (addnC k i) => ->.
Qed.

Lemma shifted_poly (A : seq mat) s z :
  \sum_(0 <= k < size A) z ^+ k *: target A k s = peval A (z + s).
Proof.
rewrite peval_sum.
transitivity (\sum_(0 <= k < size A) \sum_(0 <= m < size A | (k <= m)%N)
   (z ^+ k * (('C(m, k))%:R * s ^+ (m - k))) *: nth 0 A m).
  apply: eq_big_nat => k /= Hk; rewrite target_sum ?scaler_sumr; last by lia.
  rewrite (big_nat_widenl k 0%N) //=; apply: eq_bigr => m _; by rewrite scalerA.
rewrite (exchange_big_dep predT) //=; apply: eq_big_nat => m Hm.
rewrite -scaler_suml; congr (_ *: _).
rewrite addrC exprDn -(big_mkord xpredT (fun i => s ^+ (m - i) * z ^+ i *+ 'C(m, i))).
have Hm' : (m.+1 <= size A)%N by case/andP: Hm.
rewrite (big_nat_widen _ _ _ _ _ Hm') /=.
by apply: eq_bigr => k _; rewrite mulrC -mulrA mulr_natl.
Qed.

(** The coefficients in reverse order. *)
Lemma reversed_poly (A : seq mat) s z : z != 0 -> (0 < size A)%N ->
  \sum_(0 <= k < size A) z ^+ k *: target A (size A - k - 1) s =
  z ^+ (size A - 1) *: peval A (z^-1 + s).
Proof.
move=> z0 H; rewrite -shifted_poly scaler_sumr big_nat_rev /=; apply: eq_big_nat => k /= Hk.
rewrite scalerA add0n; have -> : (size A - (size A - k.+1) - 1 = k)%N by lia.
congr (_ *: _); have -> : (size A - 1 = size A - k.+1 + k)%N by lia.
by rewrite exprD exprVn mulfK // expf_neq0.
Qed.

(** ** The matrices of the user *)

Lemma poly_new_ok h L (A : seq mat) : own h L -> clean h -> exists h' As,
  [/\ poly_new h A = Ok (h', As), own h' (As ++ As ++ L) /\ clean h', size As = size A,
    (forall i, (i < size A)%N -> hdense h' (nth None As i) = Ok (nth 0 A i)) &
    forall q, q \in L -> hobj h' q = hobj h q].
Proof.
elim: A h L => [|m A IH] h L O C; first by exists h, [::].
cbn [poly_new]; have [h1 [i [[-> O1] C1 N1 E1 F1]]] := halloc_ok (Dense m) O C.
have [|h2 [-> O2 C2 F2]] := @href_ok _ _ h1 (Some i :: L) (Some i) O1 C1; first by right; rewrite mem_head.
cbn [bind].
have [h3 [As [E3 [O3 C3] S3 D3 F3]]] := IH h2 _ O2 C2.
rewrite E3; cbn [bind]; exists h3, (Some i :: As); split=> //.
- split=> //; apply: own_perm O3 _ => j; rewrite /= !count_cat /= !count_cat /=.
  by set u := nat_of_bool _; rewrite -!plusE; lia.
- by rewrite /= S3.
- case=> [_|j Hj] /=; last exact: D3.
  rewrite (hdense_ext (h:=h2)); last by rewrite F3 // mem_head.
  by apply: obj_hdense; rewrite F2.
- by move=> q Hq; rewrite F3 ?F2 ?F1 // !inE Hq !orbT.
Qed.

(** ** Set-up and changes of the shift *)

Section Run.
Variables (Av : seq mat) (As : seq ptr) (L0 : seq ptr) (md : matmode) (t : sttype).
Let nm := size Av.
Hypothesis sA : size As = nm.
Hypothesis A0 : forall i, (i < nm)%N -> nth None As i \in L0.
Hypothesis Hn : (2 < nm)%N.
Hypothesis Hmd : md <> Inplace.
Hypothesis Ht : t <> Cayley.

Definition firstt : nat -> nat := if t is Shift then first_shift nm else first_sinvert nm.
Definition offt : nat -> nat := if t is Shift then off_shift nm else off_sinvert nm.
Definition klist : seq nat := if t is Shift then iota 0 (nm - 1) else iota 1 (nm - 1).
Definition klast : nat := if t is Shift then (nm - 1)%N else 0%N.

Lemma klist_ok k : k \in klist -> (k < nm)%N /\ ((firstt k).+1 < nm)%N.
Proof. by rewrite /klist /firstt; case: t => //; rewrite mem_iota /first_shift /first_sinvert; lia. Qed.
Lemma klist_out k : (k < nm)%N -> k \notin klist -> k = klast.
Proof. by rewrite /klist /klast; case: t => //; rewrite mem_iota; lia. Qed.
Lemma klast_first : firstt klast = (nm - 1)%N.
Proof. by rewrite /firstt /klast; case: t => //; rewrite /first_shift /first_sinvert; lia. Qed.
Lemma offt_tri k : (k < nm)%N -> offt k = tri (nm - firstt k).
Proof.
move=> Hk; rewrite /offt /firstt /tri; case: t; rewrite /off_shift /off_sinvert /first_shift /first_sinvert //.
- have -> : (nm - (nm - k - 1) = k.+1)%N by lia.
  by rewrite subn1 /= addn1 mulnC.
- have -> : (nm - (nm - k - 1) = k.+1)%N by lia.
  by rewrite subn1 /= addn1 mulnC.
Qed.
Lemma klist_uniq : uniq klist.
Proof. by rewrite /klist; case: t; exact: iota_uniq. Qed.

Lemma row_brow (c : seq K) k : good nm 1 c -> (k < nm)%N -> (firstt k < nm)%N ->
  brow Av (drop (offt k) c) (firstt k) /\ (nm - firstt k <= size (drop (offt k) c))%N.
Proof.
move=> G Hk Hf; rewrite offt_tri //; split; last exact: row_size.
by move=> i Hi; apply: row_ok => //; lia.
Qed.

Definition built s h T : Prop := inv As Av L0 h T /\
  forall k, (k < nm)%N -> pslot As Av md h (nth None T k) (firstt k) s.

Lemma poly_setup_ok s junk h : own h L0 -> clean h -> user_ok As Av h -> size junk = ((nm * (nm + 1)) %/ 2)%N ->
  exists h' T, poly_setup t md As nm s junk h = Ok (h', T) /\ built s h' T.
Proof.
move=> O C U Hj; rewrite /poly_setup.
have Hj' : size junk = tri nm.+1 by rewrite Hj /tri subn1 addn1 mulnC.
have [|c [-> G]] := @coeffs_ok K nm junk _ Hj'; [by lia|cbn [bind]].
rewrite pget_ok; last by lia.
cbn [bind]; set x := nth None As (nm - 1).
have Hx : x \in L0 by apply: A0; lia.
have [h1 [-> O1 C1 F1]] := href_ok O C (or_intror Hx); cbn [bind].
pose T0 := set_nth None (nseq nm None) klast x.
have Hkl : (klast < nm)%N by rewrite /klast; case: (t); lia.
have nT k : nth None T0 k = if k == klast then x else None.
  by rewrite nth_set_nth /= nth_nseq; case: ifP => // _; case: ifP.
have xA : x \in As by apply: mem_nth; rewrite sA; lia.
have I0 : inv As Av L0 h1 T0.
  constructor=> //.
  - have Z : set_nth None (nseq nm None) klast None = nseq nm (None : ptr).
      apply: (@eq_from_nth _ None) => [|i _]; first by rewrite size_set_nth size_nseq; lia.
      by rewrite nth_set_nth /= nth_nseq; case: eqP => // _; case: ifP.
    by apply: own_perm O1 _ => i; rewrite count_cat /T0 count_in ?size_nseq // Z count_nseq /= mul0n addn0.
  - by move=> i Hi; rewrite -(U i Hi); apply: hdense_ext; rewrite F1.
  - by rewrite size_set_nth size_nseq; lia.
  - move=> j k _ _; rewrite !nT; case: (k =P klast) => [_ _|_ _]; [by constructor 3|by constructor 2].
have Pl : pslot As Av md h1 x (nm - 1) s.
  rewrite /pslot; case: (md) Hmd => // _; last by right.
  split; last by left.
  rewrite target_last; last by lia.
  by rewrite (hdense_ext (h:=h)) ?F1 //; apply: U; lia.
have [|||h2 [T [E2 I2 P2]]] := @build_ok K n As Av sA L0 md A0 Hn Hmd firstt s 0 true offt (Some c) klist h1 T0 I0
  klist_uniq klist_ok.
- move=> k Hk _; have [Hk1 Hk2] := klist_ok Hk.
  by exists (drop (offt k) c) => //; apply: row_brow => //; lia.
- move=> k; rewrite nT; case: (k =P klast) => // -> Hk.
  by have [_] := klist_ok Hk; rewrite klast_first; lia.
- by move=> k Hk Nk; rewrite nT (klist_out Hk Nk) eqxx klast_first.
exists h2, T; split=> //.
by move: E2; rewrite /firstt /offt /klist /T0 /klast; case: (t) Ht.
Qed.

Lemma poly_setshift_ok s old junk h T : built old h T -> size junk = ((nm * (nm + 1)) %/ 2)%N ->
  exists h' T', poly_setshift t md As nm s old junk h T = Ok (h', T') /\ built s h' T'.
Proof.
move=> [I P] Hj; rewrite /poly_setshift.
have Hj' : size junk = tri nm.+1 by rewrite Hj /tri subn1 addn1 mulnC.
have [|c [Ec G]] := @coeffs_ok K nm junk _ Hj'; first by lia.
have -> : (if md is Copy then do cs <- coeffs_monomial nm junk; Ok (Some cs) else Ok None) =
  Ok (if md is Copy then Some c else None) by case: (md); rewrite ?Ec.
cbn [bind].
have [|||h2 [T2 [E2 I2 P2]]] := @build_ok K n As Av sA L0 md A0 Hn Hmd firstt s old false offt
  (if md is Copy then Some c else None) klist h T I klist_uniq klist_ok.
- move=> k Hk [->|//]; have [Hk1 Hk2] := klist_ok Hk.
  by exists (drop (offt k) c) => //; apply: row_brow => //; lia.
- by move=> k Hk; exists old; apply: P; have [] := klist_ok Hk.
- move=> k Hk Nk; have := P k Hk; rewrite (klist_out Hk Nk) klast_first /pslot.
  case: (md) => //; first by rewrite !target_last //; lia.
  by case=> [[cs [_ [_ Q]]]|Q]; [exfalso; lia|right].
exists h2, T2; split=> //.
by move: E2; rewrite /firstt /offt /klist; case: (t) Ht.
Qed.

Lemma poly_shifts_ok l s h T : built s h T -> all (fun j => size j.2 == ((nm * (nm + 1)) %/ 2)%N) l ->
  exists h' T', poly_shifts t md As nm s l h T = Ok (last s (map fst l), h', T') /\
    built (last s (map fst l)) h' T'.
Proof.
elim: l s h T => [|[s' junk] l IH] s h T B /=; first by exists h, T.
case/andP=> /eqP Hj Hl; have [<-|Ns] := eqVneq s s'; first by rewrite /=; exact: IH.
by have [h1 [T1 [-> B1]]] := poly_setshift_ok s' B Hj; cbn [bind negb]; exact: IH.
Qed.

(** What the matrices do. *)
Lemma shell_loop_ok (mul : mat -> vec -> vec) (cj : K -> K) cs al x (Ms : seq mat) i c y :
  shell_loop mul cj (Some cs) al x Ms i c y =
  y + \sum_(0 <= j < size Ms) cj (c * al ^+ j.+1 * nth 0 cs (i + j)) *: mul (nth 0 Ms j) x.
Proof.
elim: Ms i c y => [|m Ms IH] i c y /=; first by rewrite big_geq // addr0.
rewrite IH big_nat_recl //= addn0 expr1 addrA; congr (_ + _ + _).
by apply: eq_bigr => j _; rewrite addnS addSn (exprS _ j.+1) mulrA.
Qed.

Lemma mats_ok h : user_ok As Av h -> forall l, all (fun i => (i < nm)%N) l ->
  mats h As l = Ok [seq nth 0 Av i | i <- l].
Proof.
move=> U; elim=> //= i l IH /andP[Hi Hl]; rewrite pget_ok ?sA //; cbn [bind].
by rewrite (U i Hi) /= IH.
Qed.

Lemma slot_value s h p k : user_ok As Av h -> pslot As Av md h p k s -> (k < nm)%N ->
  exists l, pderef conj As h p = Ok l /\ actsA conj l (target Av k s).
Proof.
move=> U; rewrite /pslot /pderef; case: (md) Hmd => // _.
  by case=> /hdense_obj -> _ _; exists (dense_lin conj (target Av k s)).
case=> [[cs [-> [B Hk']]] Hk|[-> -> Hk]]; last first.
  rewrite (hdense_obj (U _ Hk)) /=; exists (dense_lin conj (nth 0 Av (nm - 1))); split=> //.
  by rewrite target_last //; lia.
cbn [bind]; rewrite (mats_ok U); last by apply/allP=> i; rewrite mem_iota; lia.
cbn [bind]; eexists; split; first by reflexivity.
rewrite -(lincomb_target s B).
have C0 : nth 0 cs 0 = 1 by rewrite B ?addn0 ?bin0 //; lia.
set Ms := map _ _.
have HM j : (j < nm - k)%N -> nth 0 Ms j = nth 0 Av (k + j).
  by move=> Hj; rewrite (nth_map 0%N) ?size_iota // nth_iota.
have SM : size Ms = (nm - k)%N by rewrite size_map size_iota.
have main (mul : mat -> vec -> vec) (cj : {rmorphism K -> K}) x (f : mat -> mat) :
   (forall m, mul m x = f m *m x) -> {morph f : u v / u + v} -> f 0 = 0 ->
   (forall c m, f (c *: m) = cj c *: f m) ->
   shell_product mul cj (Some cs) s Ms x = f (lincomb Av cs k s) *m x.
  move=> Hm fD f0 fZ; rewrite /shell_product C0 eqxx /=.
  rewrite /lincomb (big_morph f fD f0) mulmx_suml.
  have -> : (size Av - k = (nm - k.+1).+1)%N by rewrite -/nm; lia.
  rewrite big_ord_recl /= expr0 mul1r C0 scale1r addn0.
  have -> : head 0 Ms = nth 0 Av k by rewrite -nth0 HM ?addn0 //; lia.
  rewrite shell_loop_ok SM.
  have -> : size (behead Ms) = (nm - k.+1)%N by rewrite size_behead SM; lia.
  have -> : (nm - k == 1)%N = false by lia.
  have [->|s0] := eqVneq s 0; rewrite /=.
    rewrite big1 ?addr0 // => j _.
    by rewrite /bump /= add1n expr0n /= mul0r scale0r f0 mul0mx.
  rewrite Hm big_mkord; congr (_ + _); apply: eq_bigr => j _.
  rewrite mul1r nth_behead HM; last by move: (ltn_ord j); lia.
  by rewrite Hm /bump /= !add1n fZ scalemxAl.
split=> x; rewrite /=.
- exact: (main (fun m x => m *m x) [rmorphism of idfun] x id).
- apply: (main (fun m x => m^T *m x) [rmorphism of idfun] x trmx) => // [u v||c m].
  + by rewrite linearD.
  + by rewrite trmx0.
  + by rewrite linearZ.
- apply: (main (fun m x => (conjm conj m)^T *m x) conj x (fun m => (conjm conj m)^T)) => // [u v||c m].
  + by rewrite /conjm /= map_mxD linearD.
  + by rewrite /conjm map_mx0 trmx0.
  + by rewrite /conjm map_mxZ linearZ.
Qed.
End Run.
End P.
