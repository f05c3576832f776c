(** The operators of PEPLINEAR in closed form: proofs. *)
From mathcomp Require Import all_ssreflect all_algebra zify.
From Verif Require Import Prelude STModel STSpec PEPModel PEPSpec PEPProofs PEPProofs2.
Set Implicit Arguments. Unset Strict Implicit. Unset Printing Implicit Defensive.
Import GRing.Theory Num.Theory.
Local Open Scope ring_scope.

Lemma nseq_mk T (x : T) N : nseq N x = mkseq (fun => x) N.
Proof. by apply: (@eq_from_nth _ x); rewrite ?size_mkseq ?size_nseq // => i Hi; rewrite nth_nseq Hi nth_mkseq. Qed.

Section Ops.
Variable F : numFieldType.
Variable n : nat.
Notation mat := 'M[F]_n.
Notation vec := 'cV[F]_n.

Lemma axpyE (f : nat -> vec) N i c v : (i < N)%N ->
  axpy (mkseq f N) i c v = Ok (mkseq (upd1 f i (f i + c *: v)) N).
Proof. by move=> H; rewrite /axpy rd_mk //= wr_mk. Qed.
Lemma scalE (f : nat -> vec) N i c : (i < N)%N ->
  scal (mkseq f N) i c = Ok (mkseq (upd1 f i (c *: f i)) N).
Proof. by move=> H; rewrite /scal rd_mk //= wr_mk. Qed.

Variables (a b g : nat -> F) (d : nat) (T : seq mat) (m : mat) (p : pep F n).
Hypothesis d2 : (1 < d)%N.
Hypothesis sT : (d < size T)%N.
Hypothesis pN : nmat (cfg p) = d.+1.
Hypothesis pP : pbc p = tri d.+1 a b g.
Hypothesis pT : tmats p = T.
Hypothesis pM : pmat p = Some m.
Let sf := c_scale (cfg p).

Lemma st_multE k v : (k <= d)%N -> st_mult p k v = Ok (nth 0 T k *m v).
Proof. by move=> H; rewrite /st_mult pT (rdE 0) //=; lia. Qed.

(** *** Shift *)
(** The block after the last one. *)
Definition ghost (x : nat -> vec) : vec := - (sf ^+ d)^-1 *: (invmx m *m \sum_(i < d) sf ^+ i *: (nth 0 T i *m x i)).
Definition next (x : nat -> vec) (i : nat) : vec := if i.+1 == d then ghost x else x i.+1.
Definition row_ (sigma : F) (x : nat -> vec) (i : nat) : vec :=
  (if i is i'.+1 then g i *: x i' else 0) + (b i - sigma) *: x i + a i *: next x i.

Lemma mult_shiftE (x : nat -> vec) :
  let sigma := if c_transform (cfg p) then 0 else st_sigma p in
  mult_shift p (mkseq x d) = check (m \in unitmx) (Ok (mkseq (row_ sigma x) d)).
Proof.
move=> sigma; rewrite /mult_shift -/sigma pN pP isubE //; bok; rewrite subn1 [d.+1.-1]/=.
rewrite size_mkseq nseq_mk rd_mk; last by lia.
bok; rewrite rd_mk //; bok; rewrite rd_cb //; bok.
rewrite axpyE; last by lia.
bok; rewrite axpyE; last by lia.
bok; rewrite isubE; last by lia.
bok; rewrite subn1.
set y0 := (X in for_ 1 _ _ X).
set B1 := fun (i : nat) (py : seq vec) => _.
have -> : for_ 1 d.-1 B1 y0 = Ok (mkseq (fun k => if (k < d.-1)%N then row_ sigma x k else 0) d).
  apply: (@forE' _ (fun i => mkseq (fun k => if (k < i)%N then row_ sigma x k else 0) d)) => //.
  - by lia.
  - apply: eq_mk => -[|k] Hk; rewrite /upd1 //= /row_ /next !add0r.
    by have -> : (1%N == d) = false by apply/negbTE; lia.
  move=> [|i] // Hi; rewrite /B1 subn1 [i.+1.-1]/= rd_mk; last by lia.
  bok; rewrite rd_mk; last by lia.
  bok; rewrite rd_mk; last by lia.
  bok; rewrite rd_cg; last by lia.
  bok; rewrite rd_cb; last by lia.
  bok; rewrite rd_ca; last by lia.
  bok; rewrite axpyE; last by lia.
  bok; rewrite axpyE; last by lia.
  bok; rewrite axpyE; last by lia.
  congr Ok; apply: eq_mk => k Hk; rewrite /upd1 ltnn !eqxx add0r.
  case: eqP => [->|Hn].
    rewrite ltnSn /row_ /next; have -> : (i.+2 == d) = false by apply/negbTE; lia.
    by [].
  by have -> : (k < i.+2)%N = (k < i.+1)%N by lia.
bok; pose Y k := if (k < d.-1)%N then row_ sigma x k else 0; rewrite -/Y.
set B := (X in for_ _ _ X _).
have -> : for_ 0 d B (mkseq Y d, 1) =
  Ok (mkseq (upd1 Y d.-1 (\sum_(j < d) sf ^+ j *: (nth 0 T j *m x j))) d, sf ^+ d).
  apply: (@forE' _ (fun i => (mkseq (upd1 Y d.-1 (\sum_(j < i) sf ^+ j *: (nth 0 T j *m x j))) d, sf ^+ i))) => //.
    rewrite expr0 big_ord0; congr (_, _); apply: eq_mk => k Hk; rewrite /upd1 /Y; case: eqP => // ->.
    by rewrite ltnn.
  move=> i Hi; rewrite /B rd_mk; last by lia.
  bok; rewrite st_multE; last by lia.
  bok; rewrite axpyE; last by lia.
  bok; congr (Ok (_, _)); last by rewrite exprSr.
  by apply: eq_mk => k Hk; rewrite /upd1 eqxx big_ord_recr /=; case: eqP.
bok; rewrite rd_mk; last by lia.
bok; rewrite /st_solve pM; case: (m \in unitmx) => //; rewrite ![check _ _]/=; bok.
rewrite wr_mk; last by lia.
bok; rewrite rd_ca; last by lia.
bok; rewrite scalE; last by lia.
bok; rewrite isubE //; bok.
rewrite rd_mk; last by lia.
bok; rewrite rd_mk; last by lia.
bok; rewrite rd_cg; last by lia.
bok; rewrite rd_cb; last by lia.
bok; rewrite axpyE; last by lia.
bok; rewrite axpyE; last by lia.
congr Ok; apply: eq_mk => k Hk; rewrite /upd1 !eqxx; case: eqP => [->|Hn]; last first.
  by rewrite /Y; have -> : (k < d.-1)%N by lia.
rewrite /row_ /next prednK ?eqxx; last by lia.
have -> : d.-1 = (d - 2).+1 by lia.
rewrite -addrA addrC; congr (_ + _).
by rewrite /ghost scalerA mulNr mulrN.
Qed.

(** *** Shift-and-invert *)
Variable sigma : F.
(** The solution of the first d-1 rows of the system that starts with zero. *)
Fixpoint hy (x : nat -> vec) (k : nat) : vec :=
  match k with
  | 0 => 0
  | k1.+1 => (a k1)^-1 *: (x k1 + (sigma - b k1) *: hy x k1 - (if k1 is k2.+1 then g k1 *: hy x k2 else 0))
  end.
Lemma hyS x k : hy x k.+1 =
  (a k)^-1 *: (x k + (sigma - b k) *: hy x k - (if k is k2.+1 then g k *: hy x k2 else 0)).
Proof. by []. Qed.

Definition rhs (x : nat -> vec) : vec :=
  \sum_(1 <= i < d) sf ^+ i *: (nth 0 T i *m hy x i) +
  (sf ^+ d.-1 * (g d.-1 / a d.-1)) *: (nth 0 T d.-1 *m hy x d.-2) +
  (sf ^+ d / a d.-1) *: (nth 0 T d *m (x d.-1 + (sigma - b d.-1) *: hy x d.-1)).
Definition top (x : nat -> vec) : vec := - (invmx m *m rhs x).

Hypothesis pE : eps_target p = sigma.

Lemma mult_sinvertE (x : nat -> vec) :
  mult_sinvert p (mkseq x d) =
  check (m \in unitmx) (Ok (mkseq (fun i => hy x i + phi a b g sigma i *: top x) d)).
Proof.
rewrite /mult_sinvert pE pN pP isubE //; bok; rewrite subn1 [d.+1.-1]/= -/sf.
rewrite size_mkseq nseq_mk rd_mk; last by lia.
bok; rewrite wr_mk //; bok; rewrite scalE //; bok.
set y1 := mkseq (upd1 _ _ _) _.
pose H i k := if (k < i)%N then hy x k else 0.
have E1 : y1 = mkseq (H 2%N) d.
  by apply: eq_mk => -[|[|k]] Hk; rewrite /upd1 /H /= ?eqxx ?scaler0 ?addr0 ?subr0 ?div1r.
rewrite {}E1.
set E2 := (X in bind X _).
have {E2} -> : E2 = Ok (mkseq (H (minn 3 d)) d).
  rewrite /E2; case: ltnP => H2; last by have -> : minn 3 d = 2%N by lia.
  have -> : minn 3 d = 3%N by lia.
  rewrite rd_mk //; bok; rewrite rd_mk //; bok; rewrite rd_cb; last by lia.
  bok; rewrite rd_ca; last by lia.
  bok; rewrite wr_mk //; bok; rewrite axpyE //; bok; rewrite scalE //.
  congr Ok; apply: eq_mk => -[|[|[|k]]] Hk; rewrite /upd1 /H /= ?eqxx ?scaler0 ?subr0 ?div1r //.

bok; rewrite isubE; last by lia.
bok; rewrite subn1.
set B1 := (X in for_ 2 _ X _).
have -> : for_ 2 d.-1 B1 (mkseq (H (minn 3 d)) d) = Ok (mkseq (hy x) d).
  case: (ltnP 2 d) => H2; last first.
    have D : d = 2%N by lia.
    by rewrite /B1 D /for_ /=.
  apply: (@forE' _ (fun i => mkseq (H i.+1) d)); first by lia.
  - by have -> : minn 3 d = 3%N by lia.
  - by apply: eq_mk => k Hk; rewrite /H prednK ?Hk //; lia.
  move=> [|[|i]] // Hi; rewrite /B1 subn1 [i.+2.-1]/= rd_mk; last by lia.
  bok; rewrite rd_mk; last by lia.
  bok; rewrite rd_mk; last by lia.
  bok; rewrite rd_ca; last by lia.
  bok; rewrite rd_cb; last by lia.
  bok; rewrite rd_cg; last by lia.
  bok; rewrite wr_mk; last by lia.
  bok; rewrite axpyE; last by lia.
  bok; rewrite axpyE; last by lia.
  bok; rewrite scalE; last by lia.
  congr Ok; apply: eq_mk => k Hk; rewrite /upd1 !eqxx /H.
  have -> : (i.+2 < i.+3)%N by lia.
  have -> : (i.+1 < i.+3)%N by lia.
  case: eqP => [->|Hn]; last by have -> : (k < i.+4)%N = (k < i.+3)%N by lia.
  by rewrite ltnSn hyS div1r scaleNr.
bok; rewrite isubE //; bok.
set B2 := (X in for_ 0 _ X _).
pose S i := \sum_(1 <= j < i) sf ^+ j *: (nth 0 T j *m hy x j).
have -> : for_ 0 (d - 2)%N B2 (mkseq (hy x) d, sf) = Ok (mkseq (upd1 (hy x) 0%N (S d.-1)) d, sf ^+ d.-1).
  apply: (@forE' _ (fun i => (mkseq (upd1 (hy x) 0%N (S i.+1)) d, sf ^+ i.+1))) => //.
  - rewrite expr1; congr (_, _); apply: eq_mk => -[|k] Hk //=.
    by rewrite /S big_geq.
  - by have -> : (d - 2).+1 = d.-1 by lia.
  move=> i Hi; rewrite /B2 rd_mk; last by lia.
  bok; rewrite st_multE; last by lia.
  bok; rewrite axpyE; last by lia.
  bok; congr (Ok (_, _)); last by rewrite -exprSr.
  by apply: eq_mk => -[|k] Hk //=; rewrite /upd1 /= /S [in RHS]big_nat_recr.
bok; rewrite rd_mk; last by lia.
bok; rewrite rd_mk; last by lia.
bok; rewrite rd_cg; last by lia.
bok; rewrite rd_ca; last by lia.
bok; rewrite st_multE; last by lia.
bok; rewrite axpyE; last by lia.
bok; rewrite rd_mk; last by lia.
bok; rewrite rd_mk; last by lia.
bok; rewrite rd_cb; last by lia.
bok; rewrite st_multE; last by lia.
bok; rewrite axpyE; last by lia.
bok; rewrite rd_mk; last by lia.
bok.
set R := (X in st_solve p X).
have ER : R = rhs x.
  rewrite /R /upd1 /=; have -> : (d.-1 == 0%N) = false by apply/negbTE; lia.
  rewrite /rhs.
  have -> : \sum_(1 <= i < d) sf ^+ i *: (nth 0 T i *m hy x i) = S d.-1 + sf ^+ d.-1 *: (nth 0 T d.-1 *m hy x d.-1).
    by rewrite /S -{1}(prednK (n := d)) ?big_nat_recr //=; lia.
  rewrite -!addrA; congr (_ + _); rewrite mulmxDr scalerDr -addrA; congr (_ + (_ + _)); last first.
    rewrite -exprSr prednK; last by lia.
    by rewrite -scalemxAr scalerA div1r.
  rewrite -scalemxAr scalerA; congr (_ *: (_ *m _)).
  case: eqP => [E|_]; last by congr (hy x _); lia.
  by have -> : d.-2 = 0%N; [lia | have -> : d.-1 = 1%N; [lia | rewrite /S big_geq]].
rewrite ER /st_solve pM; case: (m \in unitmx) => //; rewrite ![check _ _]/=; bok.
rewrite wr_mk; last by lia.
bok; rewrite scaleN1r -/(top x).
set B3 := (X in for_ 1 _ X _).
set Y := mkseq _ _.
have -> : for_ 1 d B3 (Y, 1, 0) =
  Ok (mkseq (fun k => hy x k + phi a b g sigma k *: top x) d, phi a b g sigma d.-1, phi a b g sigma d.-2).
  have EY : Y = mkseq (fun k => if (k < 1)%N then hy x k + phi a b g sigma k *: top x else hy x k) d.
    by apply: eq_mk => -[|k] Hk; rewrite /upd1 //= phi0 scale1r add0r.
  apply: (@forE' _ (fun i => (mkseq (fun k => if (k < i)%N then hy x k + phi a b g sigma k *: top x else hy x k) d,
           phi a b g sigma i.-1, if i is i'.+2 then phi a b g sigma i' else 0))).
  - by lia.
  - by rewrite EY phi0.
  - have -> : d = (d - 2).+2 by lia.
    by congr (_, _, _); apply: eq_mk => k ->.
  move=> [|i] // Hi; rewrite /B3 subn1 [i.+1.-1]/= rd_cb; last by lia.
  bok; rewrite rd_cg; last by lia.
  bok; rewrite rd_ca; last by lia.
  bok; rewrite rd_mk; last by lia.
  bok; rewrite axpyE; last by lia.
  bok.
  have Et : ((sigma - b i) * phi a b g sigma i - g i * match i with 0 => 0 | i'.+1 => phi a b g sigma i' end) / a i
     = phi a b g sigma i.+1.
    case: i Hi => [|i] Hi; first by rewrite phi0 phi1 mulr1 mulr0 subr0.
    by rewrite phiSS.
  rewrite Et; congr (Ok (_, _, _)); apply: eq_mk => k Hk; rewrite /upd1 ltnn phi0 scale1r add0r.
  case: eqP => [->|Hn]; first by rewrite ltnSn.
  by have -> : (k < i.+2)%N = (k < i.+1)%N by lia.
by bok.
Qed.
End Ops.
