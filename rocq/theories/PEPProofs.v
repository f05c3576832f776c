(** Arrays, loops, polynomial bases: proofs. *)
From mathcomp Require Import all_ssreflect all_algebra zify.
From Verif Require Import Prelude STModel STSpec PEPModel PEPSpec.
Set Implicit Arguments. Unset Strict Implicit. Unset Printing Implicit Defensive.
Import GRing.Theory Num.Theory.
Local Open Scope ring_scope.

(** ** Arrays *)
Lemma rdE T (x0 : T) (a : seq T) i : (i < size a)%N -> rd a i = Ok (nth x0 a i).
Proof.
move=> H; rewrite /rd; have : (size (drop i a) > 0)%N by rewrite size_drop subn_gt0.
by case E: (drop i a) => [//|y r] _; rewrite -[i]addn0 -nth_drop E.
Qed.

Lemma rd_mk T (f : nat -> T) N i : (i < N)%N -> rd (mkseq f N) i = Ok (f i).
Proof. by move=> H; rewrite (rdE (f i)) ?size_mkseq // nth_mkseq. Qed.

Definition upd1 T (f : nat -> T) i v := fun k => if k == i then v else f k.

Lemma eq_mk T (f g : nat -> T) N : (forall i, (i < N)%N -> f i = g i) -> mkseq f N = mkseq g N.
Proof. by move=> H; apply/eq_in_map => i; rewrite mem_iota /= add0n => /H. Qed.

Lemma wr_mk T (f : nat -> T) N i v : (i < N)%N -> wr (mkseq f N) i v = Ok (mkseq (upd1 f i v) N).
Proof.
move=> H; rewrite /wr size_mkseq H; congr Ok.
apply: (@eq_from_nth _ v); first by rewrite size_set_nth !size_mkseq; apply/maxn_idPr.
move=> j; rewrite size_set_nth size_mkseq (maxn_idPr H) => Hj.
by rewrite nth_set_nth /= !nth_mkseq.
Qed.

Lemma mk_nth T (x0 : T) (a : seq T) N : size a = N -> a = mkseq (nth x0 a) N.
Proof. by move=> <-; rewrite mkseq_nth. Qed.

Lemma isubE i j : (j <= i)%N -> isub i j = Ok (i - j)%N.
Proof. by rewrite /isub => ->. Qed.

(** ** Loops *)
Lemma forE S (g : nat -> S) lo hi body : (lo <= hi)%N ->
  (forall i, (lo <= i < hi)%N -> body i (g i) = Ok (g i.+1)) -> for_ lo hi body (g lo) = Ok (g hi).
Proof.
move=> H; rewrite /for_; move E: (hi - lo)%N => k.
elim: k lo E H => [|k IH] lo E H Hb; first by congr (Ok (g _)); lia.
by rewrite /= Hb ?[bind _ _]/=; [apply: IH; [lia|lia|move=> i Hi; apply: Hb; lia]|lia].
Qed.

Lemma forE' S (g : nat -> S) lo hi body s t : (lo <= hi)%N -> s = g lo -> t = g hi ->
  (forall i, (lo <= i < hi)%N -> body i (g i) = Ok (g i.+1)) -> for_ lo hi body s = Ok t.
Proof. by move=> H -> ->; apply: forE. Qed.

Lemma for_recr S lo k body (s : S) : (lo <= k)%N ->
  for_ lo k.+1 body s = bind (for_ lo k body s) (body k).
Proof.
move=> H; rewrite /for_ subSn //; move E: (k - lo)%N => j.
elim: j lo s E H => [|j IH] lo s E H /=.
  by have -> : lo = k by [lia]; case: (body k s).
by case: (body lo s) => //= s'; apply: IH; lia.
Qed.

Lemma forI S (P : nat -> S -> Prop) lo hi body s : (lo <= hi)%N -> P lo s ->
  (forall i s, (lo <= i < hi)%N -> P i s -> exists s', body i s = Ok s' /\ P i.+1 s') ->
  exists s', for_ lo hi body s = Ok s' /\ P hi s'.
Proof.
move=> H P0 St; elim: hi H St => [|hi IH] H St.
  by exists s; rewrite /for_ sub0n; split=> //; have <- : lo = 0%N by lia.
move: H; rewrite leq_eqVlt => /orP [/eqP <-|H]; first by exists s; rewrite /for_ subnn.
have [s1 [E1 P1]] : exists s', for_ lo hi body s = Ok s' /\ P hi s'.
  by apply: IH => // i t Hi; apply: St; lia.
have [|s2 [E2 P2]] := St hi s1 _ P1; first by lia.
by exists s2; split=> //; rewrite for_recr // E1.
Qed.

(** ** Coefficients of the bases *)
Section Coefs.
Variable F : fieldType.

(** The three-term recurrence z phi_k = ca_k phi_{k+1} + cb_k phi_k + cg_k phi_{k-1}. *)
Definition ca_ (b : basis) (k : nat) : F :=
  match b with
  | Monomial => 1
  | Chebyshev1 => if k is 0%N then 1 else 2%:R^-1
  | Chebyshev2 => 2%:R^-1
  | Legendre => if k is 0%N then 1 else (k + 1)%:R
  | Laguerre => if k is 0%N then -1 else - (k + 1)%:R
  | Hermite => 2%:R^-1
  end.
Definition cb_ (b : basis) (k : nat) : F :=
  match b with
  | Legendre => if k is 0%N then 0 else - (2 * k)%:R
  | Laguerre => if k is 0%N then 0 else (2 * k + 1)%:R
  | _ => 0
  end.
Definition cg_ (b : basis) (k : nat) : F :=
  match b with
  | Monomial => 0
  | Chebyshev1 | Chebyshev2 => if k is 0%N then 0 else 2%:R^-1
  | Legendre => if k is 0%N then 0 else k%:R
  | Laguerre | Hermite => if k is 0%N then 0 else - k%:R
  end.

(** The array pbc made of three arrays. *)
Definition tri (nm : nat) (a b g : nat -> F) : seq F := mkseq a nm ++ mkseq b nm ++ mkseq g nm.
Definition trif (nm : nat) (a b g : nat -> F) : nat -> F :=
  fun k => if (k < nm)%N then a k else if (k < 2 * nm)%N then b (k - nm)%N else g (k - 2 * nm)%N.

Lemma triE nm a b g : tri nm a b g = mkseq (trif nm a b g) (3 * nm).
Proof.
apply: (@eq_from_nth _ 0); first by rewrite !size_cat !size_mkseq; lia.
move=> i; rewrite !size_cat !size_mkseq => Hi; rewrite nth_mkseq; last by lia.
rewrite /tri /trif !nth_cat !size_mkseq.
case: ltnP => H1; first by rewrite nth_mkseq.
case: ltnP => H2.
  by rewrite nth_mkseq //; have -> : (i < 2 * nm)%N by lia.
have -> : (i < 2 * nm)%N = false by apply/negbTE; lia.
by rewrite nth_mkseq; [congr g; lia|lia].
Qed.

Lemma rd_ca nm a b g k : (k < nm)%N -> rd (tri nm a b g) k = Ok (a k).
Proof. by move=> H; rewrite triE rd_mk /trif ?H //; lia. Qed.
Lemma rd_cb nm a b g k : (k < nm)%N -> rd (tri nm a b g) (nm + k) = Ok (b k).
Proof.
move=> H; rewrite triE rd_mk /trif; last by lia.
have -> : (nm + k < nm)%N = false by apply/negbTE; lia.
have -> : (nm + k < 2 * nm)%N by lia.
by rewrite addKn.
Qed.
Lemma rd_cg nm a b g k : (k < nm)%N -> rd (tri nm a b g) (2 * nm + k) = Ok (g k).
Proof.
move=> H; rewrite triE rd_mk /trif; last by lia.
have -> : (2 * nm + k < nm)%N = false by apply/negbTE; lia.
have -> : (2 * nm + k < 2 * nm)%N = false by apply/negbTE; lia.
by rewrite addKn.
Qed.

Lemma wr_ca nm a b g k v : (k < nm)%N -> wr (tri nm a b g) k v = Ok (tri nm (upd1 a k v) b g).
Proof.
move=> H; rewrite !triE wr_mk; last by lia.
congr Ok; apply: eq_mk => i _; rewrite /trif /upd1; by case: eqP => [->|//]; rewrite H.
Qed.
Lemma wr_cb nm a b g k v : (k < nm)%N -> wr (tri nm a b g) (nm + k) v = Ok (tri nm a (upd1 b k v) g).
Proof.
move=> H; rewrite !triE wr_mk; last by lia.
congr Ok; apply: eq_mk => i _; rewrite /trif /upd1; case: eqP => [->|Hi].
  have -> : (nm + k < nm)%N = false by apply/negbTE; lia.
  have -> : (nm + k < 2 * nm)%N by lia.
  by rewrite addKn eqxx.
case: ltnP => // H1; case: ltnP => // H2; case: eqP => // E; lia.
Qed.
Lemma wr_cg nm a b g k v : (k < nm)%N -> wr (tri nm a b g) (2 * nm + k) v = Ok (tri nm a b (upd1 g k v)).
Proof.
move=> H; rewrite !triE wr_mk; last by lia.
congr Ok; apply: eq_mk => i Hi'; rewrite /trif /upd1; case: eqP => [->|Hi].
  have -> : (2 * nm + k < nm)%N = false by apply/negbTE; lia.
  have -> : (2 * nm + k < 2 * nm)%N = false by apply/negbTE; lia.
  by rewrite addKn eqxx.
case: ltnP => // H1; case: ltnP => // H2; case: eqP => // E; lia.
Qed.

Lemma eq_tri nm a b g a' b' g' : (forall i, (i < nm)%N -> [/\ a i = a' i, b i = b' i & g i = g' i]) ->
  tri nm a b g = tri nm a' b' g'.
Proof. by move=> H; rewrite /tri; congr (_ ++ (_ ++ _)); apply: eq_mk => i /H []. Qed.

Lemma tri_split nm (q : seq F) : size q = (3 * nm)%N ->
  exists a b g, q = tri nm a b g.
Proof.
move=> S; exists (nth 0 q), (fun k => nth 0 q (nm + k)), (fun k => nth 0 q (2 * nm + k)).
rewrite triE [LHS](mk_nth 0 S); apply: eq_mk => i Hi; rewrite /trif.
case: ltnP => H1 //; case: ltnP => H2; congr nth; lia.
Qed.

Lemma set3E nm a b g k x y z : (k < nm)%N ->
  set3 nm (tri nm a b g) k x y z = Ok (tri nm (upd1 a k x) (upd1 b k y) (upd1 g k z)).
Proof. by move=> H; rewrite /set3 wr_ca //= wr_cb //= wr_cg. Qed.

(** Overwriting entries lo..hi of three arrays. *)
Definition mix (f h : nat -> F) i := fun k => if (k < i)%N then f k else h k.

Lemma fill_loop nm a b g fa fb fg lo : (lo <= nm)%N ->
  for_ lo nm (fun k p => set3 nm p k (fa k) (fb k) (fg k)) (tri nm a b g) =
  Ok (tri nm (fun k => if (lo <= k)%N then fa k else a k) (fun k => if (lo <= k)%N then fb k else b k)
        (fun k => if (lo <= k)%N then fg k else g k)).
Proof.
move=> H; pose m (f h : nat -> F) (i k : nat) := if (lo <= k < i)%N then f k else h k.
apply: (@forE' _ (fun i => tri nm (m fa a i) (m fb b i) (m fg g i))) => //.
- by apply: eq_tri => i Hi; rewrite /m; have -> : (lo <= i < lo)%N = false by apply/negbTE; lia.
- by apply: eq_tri => i Hi; rewrite /m Hi !andbT.
move=> i Hi; rewrite set3E; last by lia.
congr Ok; apply: eq_tri => k Hk; rewrite /m /upd1; case: eqP => [->|Hn].
  by have -> : (lo <= i < i.+1)%N by lia.
by have -> : (lo <= k < i.+1)%N = (lo <= k < i)%N by lia.
Qed.

Lemma basis_coefficientsE bs nm q : (0 < nm)%N -> size q = (3 * nm)%N ->
  basis_coefficients bs nm q = Ok (tri nm (ca_ bs) (cb_ bs) (cg_ bs)).
Proof.
move=> H /tri_split [a [b [g ->]]]; rewrite /basis_coefficients.
case: bs; rewrite ?set3E // ?[bind (Ok _) _]/= fill_loop //; congr Ok; apply: eq_tri => -[|k] Hk //=.
Qed.

(** ** Evaluation *)
Section Eval.
Variables (a b g : nat -> F).

(** The polynomials of the recurrence. *)
Fixpoint pphi (k : nat) : {poly F} :=
  match k with
  | 0 => 1
  | k1.+1 => match k1 with
    | 0 => (a 0%N)^-1 *: ('X - (b 0%N)%:P)
    | k2.+1 => (a k1)^-1 *: (('X - (b k1)%:P) * pphi k1 - (g k1) *: pphi k2)
    end
  end.
Definition phi (z : F) (k : nat) : F := (pphi k).[z].

Lemma phi0 z : phi z 0 = 1. Proof. by rewrite /phi /= hornerC. Qed.
Lemma phi1 z : phi z 1 = (z - b 0%N) / a 0%N.
Proof. by rewrite /phi /= !hornerE mulrC. Qed.
Lemma phiSS z k : phi z k.+2 = ((z - b k.+1) * phi z k.+1 - g k.+1 * phi z k) / a k.+1.
Proof.
rewrite /phi -[pphi k.+2]/((a k.+1)^-1 *: (('X - (b k.+1)%:P) * pphi k.+1 - (g k.+1) *: pphi k)).
by rewrite hornerZ hornerD hornerN hornerM hornerZ hornerXsubC [LHS]mulrC.
Qed.

(** Entries below i as in f. *)
Lemma eval_basisE nm z vals : (1 < nm)%N -> size vals = nm ->
  eval_basis nm (tri nm a b g) z vals = Ok (mkseq (phi z) nm).
Proof.
move=> H S; rewrite (mk_nth 0 S) /eval_basis wr_mk; last by lia.
rewrite [bind (Ok _) _]/= -{2}[nm]addn0 rd_cb; last by lia.
rewrite [bind (Ok _) _]/= rd_ca; last by lia.
rewrite [bind (Ok _) _]/= wr_mk // [bind (Ok _) _]/=.
apply: (@forE' _ (fun i => mkseq (fun k => if (k < i)%N then phi z k else nth 0 vals k) nm)) => //.
- by apply: eq_mk => -[|[|i]] //= _; rewrite /upd1 ?phi0 ?phi1.
- by apply: eq_mk => i ->.
move=> [|[|i]] // Hi; rewrite !subSS !subn0 rd_cb; last by lia.
rewrite [bind (Ok _) _]/= rd_cg; last by lia.
rewrite [bind (Ok _) _]/= rd_ca; last by lia.
rewrite [bind (Ok _) _]/= rd_mk; last by lia.
rewrite [bind (Ok _) _]/= rd_mk; last by lia.
rewrite [bind (Ok _) _]/= wr_mk; last by lia.
rewrite ltnSn ltnW ?ltnSn // -phiSS; congr Ok; apply: eq_mk => k Hk; rewrite /upd1.
case: eqP => [->|Hn]; first by rewrite ltnSn.
by have -> : (k < i.+3)%N = (k < i.+2)%N by lia.
Qed.

Lemma shift_upE (f : nat -> F) nm k : (k < nm)%N ->
  shift_up k (mkseq f nm) = Ok (mkseq (fun i => if (0 < i <= k)%N then f i.-1 else f i) nm).
Proof.
elim: k f => [|k IH] f H /=.
  by congr Ok; apply: eq_mk => i _; case: ifP => // E; exfalso; lia.
rewrite rd_mk; last by lia.
rewrite [bind (Ok _) _]/= wr_mk // [bind (Ok _) _]/= IH; last by lia.
congr Ok; apply: eq_mk => i Hi; rewrite /upd1.
case: (ltnP 0 i) => /= Hi0; last by case: eqP => // E; exfalso; lia.
case: (leqP i k) => Hik.
  have -> : (i <= k.+1)%N by lia.
  by case: eqP => // E; exfalso; lia.
case: eqP => [->|Hn]; first by rewrite leqnn.
by have -> : (i <= k.+1)%N = false by apply/negbTE; lia.
Qed.

(** Derivatives *)
Definition dphi (z : F) (k : nat) : F := (pphi k)^`().[z].
Lemma dphi0 z : dphi z 0 = 0. Proof. by rewrite /dphi /= derivC hornerC. Qed.
Lemma dphi1 z : dphi z 1 = 1 / a 0%N.
Proof. by rewrite /dphi /= derivZ derivXsubC hornerZ hornerC mulr1 div1r. Qed.
Lemma dphiSS z k :
  dphi z k.+2 = (phi z k.+1 + ((z - b k.+1) * dphi z k.+1 - g k.+1 * dphi z k)) / a k.+1.
Proof.
rewrite /dphi -[pphi k.+2]/((a k.+1)^-1 *: (('X - (b k.+1)%:P) * pphi k.+1 - (g k.+1) *: pphi k)).
rewrite derivZ derivB derivM derivXsubC mul1r derivZ hornerZ hornerD hornerN hornerD hornerM hornerZ hornerXsubC.
by rewrite [RHS]mulrC /phi -!addrA.
Qed.

Lemma eval_derivativeE nm z vals : (1 < nm)%N -> size vals = nm ->
  eval_derivative nm (tri nm a b g) z vals = Ok (mkseq (dphi z) nm).
Proof.
move=> H S; rewrite /eval_derivative eval_basisE // [bind (Ok _) _]/= shift_upE; last by lia.
rewrite [bind (Ok _) _]/= wr_mk; last by lia.
rewrite [bind (Ok _) _]/= rd_ca; last by lia.
rewrite [bind (Ok _) _]/= rd_mk // [bind (Ok _) _]/= wr_mk // [bind (Ok _) _]/=.
apply: (@forE' _ (fun i => mkseq (fun k => if (k < i)%N then dphi z k else phi z k.-1) nm)) => //.
- apply: eq_mk => -[|[|i]] //= Hi; rewrite /upd1 /= ?dphi0 ?dphi1 ?phi0 //.
    by have -> : (1 <= nm - 1)%N by lia.
  by have -> : (i.+2 <= nm - 1)%N by lia.
- by apply: eq_mk => i ->.
move=> [|[|i]] // Hi; rewrite !subSS !subn0 rd_cb; last by lia.
rewrite [bind (Ok _) _]/= rd_cg; last by lia.
rewrite [bind (Ok _) _]/= rd_ca; last by lia.
rewrite [bind (Ok _) _]/= rd_mk; last by lia.
rewrite [bind (Ok _) _]/= rd_mk; last by lia.
rewrite [bind (Ok _) _]/= rd_mk; last by lia.
rewrite [bind (Ok _) _]/= wr_mk; last by lia.
rewrite [bind (Ok _) _]/= rd_mk; last by lia.
rewrite [bind (Ok _) _]/= wr_mk; last by lia.
rewrite ltnn ltnSn; have -> : (i < i.+2)%N by lia.
rewrite /upd1 eqxx -dphiSS; congr Ok; apply: eq_mk => k Hk.
case: eqP => [->|Hn]; first by rewrite ltnSn.
by have -> : (k < i.+3)%N = (k < i.+2)%N by lia.
Qed.

(** Degrees *)
Lemma size_pphi k : (forall i, (i < k)%N -> a i != 0) -> size (pphi k) = k.+1.
Proof.
elim/ltn_ind: k => -[|[|k]] IH Ha; first by rewrite /= size_poly1.
  by rewrite /= size_scale ?invr_eq0 ?Ha // size_XsubC.
rewrite -[pphi k.+2]/((a k.+1)^-1 *: (('X - (b k.+1)%:P) * pphi k.+1 - (g k.+1) *: pphi k)).
have S1 : size (pphi k.+1) = k.+2 by apply: IH => // i Hi; apply: Ha; lia.
have S0 : size (pphi k) = k.+1 by apply: IH => // i Hi; apply: Ha; lia.
have SM : size (('X - (b k.+1)%:P) * pphi k.+1) = k.+3.
  by rewrite size_mul ?polyXsubC_eq0 -?size_poly_gt0 ?size_XsubC ?S1.
rewrite size_scale ?invr_eq0 ?Ha // size_addl SM // size_opp.
by apply: leq_ltn_trans (size_scale_leq _ _) _; rewrite S0; lia.
Qed.
End Eval.
End Coefs.
