(** C34: the first column of a phi function of a matrix. *)
From mathcomp Require Import all_ssreflect all_algebra.
From mathcomp Require Import zify.
From Verif Require Import FNPhiModel.
Set Implicit Arguments. Unset Strict Implicit. Unset Printing Implicit Defensive.
Import GRing.Theory.
Local Open Scope ring_scope.

Section P.
Variable K : fieldType.
Variables (m' k : nat).
Notation m := m'.+1.
Notation n := (m' + k).+1.
Variables (alpha : K) (A : 'M[K]_m).
Notation H := (phi_H k alpha A).

Definition emb (u : 'cV[K]_m) : 'cV[K]_n := \col_i (if (i < m)%N then u (inord i) 0 else 0).
Definition ebas (q : nat) : 'cV[K]_n := \col_i (if (i == q :> nat)%N then 1 else 0).

Lemma top_inord (i : 'I_m) : (inord i : 'I_n) = i :> nat.
Proof. by rewrite inordK //; have := ltn_ord i; lia. Qed.

Lemma H_emb u : H *m emb u = emb (A *m u).
Proof.
apply/matrixP=> i j; rewrite !mxE.
rewrite (bigID (fun j : 'I_n => (j < m)%N)) /= [X in _ + X]big1 ?addr0; last first.
  by move=> l /negbTE hl; rewrite !mxE hl mulr0.
case: (ltnP i m) => hi; last first.
  by rewrite big1 // => l hl; rewrite !mxE hl ltnNge hi /= mul0r.
pose toN (x : 'I_m) : 'I_n := inord x. pose toM (x : 'I_n) : 'I_m := inord x.
have tK : cancel toN toM.
  by move=> x; apply: val_inj; rewrite /toM /toN /= top_inord inordK.
rewrite (reindex_onto toN toM); last first.
  by move=> x hx; apply: val_inj; rewrite /toN /toM /= inordK ?inordK //.
apply: eq_big => [x|x _]; first by rewrite /toN top_inord ltn_ord -/(toN x) tK eqxx.
rewrite !mxE /toN top_inord ltn_ord hi.
by rewrite inord_val.
Qed.

Lemma H_bas q : (m < q)%N -> (q < n)%N -> H *m ebas q = alpha *: ebas q.-1.
Proof.
move=> h1 h2; apply/matrixP=> i j; rewrite !mxE.
rewrite (bigD1 (inord q)) //= big1 ?addr0; last first.
  move=> l hl; rewrite [ebas q l j]mxE ifN ?mulr0 //; apply: contra hl => /eqP e.
  by apply/eqP/val_inj; rewrite /= inordK.
rewrite !mxE inordK // eqxx mulr1 ltnNge (ltnW h1) /=.
case: (q =P m) => [|_]; first by lia.
case: (i.+1 =P q) => [<-|ne] /=; first by rewrite eqxx mulr1.
by case: eqP => [e|]; [lia|rewrite mulr0].
Qed.

Lemma H_bas0 : (0 < k)%N -> H *m ebas m = alpha *: emb (delta_mx 0 0).
Proof.
move=> h2; apply/matrixP=> i j; rewrite !mxE.
rewrite (bigD1 (inord m)) //= big1 ?addr0; last first.
  move=> l hl; rewrite [ebas m l j]mxE ifN ?mulr0 //; apply: contra hl => /eqP e.
  by apply/eqP/val_inj; rewrite /= inordK //; lia.
rewrite !mxE inordK; [|lia]. rewrite ltnn eqxx mulr1 eqxx andbT.
case: (i =P 0%N :> nat) => [->|ne] /=.
  by rewrite -[inord 0]/(inord (0 : 'I_m)) inord_val eqxx mulr1.
case: ifP => hi; last by rewrite mulr0.
case: eqP => [e|]; last by rewrite mulr0.
by case: ne; rewrite -(inordK hi) e.
Qed.

(** Powers of H applied to the last basis vector. *)
Lemma pow_low l : (l < k)%N -> H ^+ l *m ebas (m + k).-1 = alpha ^+ l *: ebas (m + k - l).-1.
Proof.
elim: l => [|l IH] hl; first by rewrite !expr0 mul1mx scale1r subn0.
rewrite exprS -mulmxE -mulmxA IH; [|lia]. rewrite -scalemxAr H_bas; [|lia|lia].
rewrite scalerA -exprSr; congr (_ *: ebas _); lia.
Qed.

Lemma pow_k : (0 < k)%N -> H ^+ k *m ebas (m + k).-1 = alpha ^+ k *: emb (delta_mx 0 0).
Proof.
move=> hk. have -> : H ^+ k = H *m H ^+ k.-1 by rewrite mulmxE -exprS; congr (_ ^+ _); lia.
rewrite -mulmxA pow_low; [|lia].
have -> : ((m + k - k.-1).-1 = m)%N by lia.
rewrite -scalemxAr H_bas0 // scalerA -exprSr; congr (_ ^+ _ *: _); lia.
Qed.

Lemma pow_high j : (0 < k)%N ->
  H ^+ (k + j) *m ebas (m + k).-1 = alpha ^+ k *: emb (A ^+ j *m delta_mx 0 0).
Proof.
move=> hk; elim: j => [|j IH]; first by rewrite addn0 pow_k // expr0 mul1mx.
by rewrite addnS exprS -mulmxE -mulmxA IH -scalemxAr H_emb mulmxA mulmxE -exprS.
Qed.

Lemma horner_mx_sum q (B : 'M[K]_q.+1) (p : {poly K}) : horner_mx B p = \sum_(i < size p) p`_i *: B ^+ i.
Proof.
rewrite -[p in LHS]coefK poly_def rmorph_sum /=; apply: eq_bigr => i _.
by rewrite linearZ /= rmorphX /= horner_mx_X.
Qed.

Lemma F_col (F : 'M[K]_n) (i : 'I_m) (q : nat) : (q < n)%N ->
  F (inord i) (inord q) = (F *m ebas q) (inord i) 0.
Proof.
move=> hq; rewrite mxE (bigD1 (inord q)) //= big1 ?addr0.
  by rewrite mxE inordK // eqxx mulr1.
move=> l /eqP hl; rewrite mxE; case: eqP => [e|]; last by rewrite mulr0.
by case: hl; apply: val_inj; rewrite /= inordK.
Qed.
End P.

(** For every polynomial p in place of the exponential, the code returns the first column of
    q(A), where q has the coefficients of p from k on; with the truncated exponential
    series this is the truncated series of phi_k. *)
Theorem C34_phi_first_column (K : fieldType) (m' k : nat) (alpha : K) (A : 'M[K]_m'.+1) (p : {poly K}) :
  alpha != 0 ->
  phi_vec (fun H : 'M[K]_((m' + k).+1) => horner_mx H p) alpha A
    = col 0 (\sum_(j < size p - k) p`_(k + j) *: A ^+ j).
Proof.
move=> a0; rewrite /phi_vec colE. case: (k =P 0%N) => [k0|/eqP k0].
  subst k. apply/matrixP=> i j; rewrite mxE mul1r ord1.
  rewrite (F_col _ _ (q := 0)) // horner_mx_sum subn0 !mulmx_suml !summxE; apply: eq_bigr => l _.
  rewrite -!scalemxAl [LHS]mxE [RHS]mxE add0n; congr (_ * _).
  have -> : ebas K m' 0 0 = emb 0 (delta_mx 0 0 : 'cV[K]_m'.+1).
    apply/matrixP=> x y; rewrite !mxE eqxx andbT.
    have hx : (x < m'.+1)%N by have := ltn_ord x; lia.
    rewrite hx. case: (x =P 0%N :> nat) => [->|ne].
      by rewrite -[inord 0]/(inord (0 : 'I_m'.+1)) inord_val eqxx.
    case: eqP => // e; case: ne; by rewrite -(inordK hx) e.
  have -> : phi_H 0 alpha A ^+ l *m emb 0 (delta_mx 0 0 : 'cV[K]_m'.+1) = emb 0 (A ^+ l *m delta_mx 0 0).
    elim: (l : nat) => [|q IH]; first by rewrite !expr0 !mul1mx.
    by rewrite exprS -mulmxE -mulmxA IH H_emb mulmxA mulmxE -exprS.
  rewrite [LHS]mxE top_inord ltn_ord inord_val.
  by rewrite [j]ord1.
have hk : (0 < k)%N by rewrite lt0n.
apply/matrixP=> i j; rewrite mxE [j]ord1 (F_col _ _ (q := (m'.+1 + k).-1)); [|lia].
rewrite horner_mx_sum !mulmx_suml !summxE.
rewrite -(big_mkord xpredT (fun l => ((p`_l *: phi_H k alpha A ^+ l) *m ebas K m' k (m'.+1 + k).-1) (inord i) 0)).
case: (leqP k (size p)) => hs; last first.
  have -> : (size p - k = 0)%N by lia.
  rewrite big_ord0 big_nat big1 ?mulr0 // => l hl.
  rewrite -scalemxAl mxE pow_low; [|lia]. rewrite !mxE top_inord.
  case: eqP => [e|]; last by rewrite !mulr0. have := ltn_ord i; lia.
rewrite (big_cat_nat _ _ (n := k)) //= [X in X + _]big_nat big1 ?add0r; last first.
  move=> l hl; rewrite -scalemxAl mxE pow_low; [|lia]. rewrite !mxE top_inord.
  case: eqP => [e|]; last by rewrite !mulr0. have := ltn_ord i; lia.
rewrite -{2}[k]add0n big_addn big_mkord mulr_sumr; apply: eq_bigr => l _.
rewrite -!scalemxAl [RHS]mxE [X in _ * X]mxE [(l + k)%N]addnC pow_high // 2!mxE top_inord ltn_ord inord_val.
by rewrite mulrCA mulKf ?expf_neq0.
Qed.
Print Assumptions C34_phi_first_column.

(** The series of phi_k is sum_j x^j/(j+k)!.  Evaluating the exponential by its series
    truncated after N terms gives the series of phi_k truncated after N-k terms. *)
Theorem C34_phi_truncated_series (K : fieldType) (m' k N : nat) (alpha : K) (A : 'M[K]_m'.+1) :
  alpha != 0 ->
  phi_vec (fun H : 'M[K]_((m' + k).+1) => \sum_(i < N) (i`!%:R)^-1 *: H ^+ i) alpha A
    = col 0 (\sum_(j < N - k) ((j + k)`!%:R)^-1 *: A ^+ j).
Proof.
move=> a0; pose c i : K := (i`!%:R)^-1; pose p := \poly_(i < N) c i.
have E q (B : 'M[K]_q.+1) : horner_mx B p = \sum_(i < N) c i *: B ^+ i.
  rewrite /p poly_def rmorph_sum /=; apply: eq_bigr => i _.
  by rewrite linearZ /= rmorphX /= horner_mx_X.
have -> : phi_vec (fun H : 'M[K]_((m' + k).+1) => \sum_(i < N) (i`!%:R)^-1 *: H ^+ i) alpha A
        = phi_vec (fun H : 'M[K]_((m' + k).+1) => horner_mx H p) alpha A by rewrite /phi_vec E.
rewrite C34_phi_first_column //; congr col.
have sp : (size p <= N)%N by apply: size_poly.
rewrite -(big_mkord xpredT (fun j => p`_(k + j) *: A ^+ j)) -(big_mkord xpredT (fun j => c (j + k)%N *: A ^+ j)).
rewrite [RHS](big_cat_nat _ _ (n := (size p - k)%N)) //=; last by apply: leq_sub2r.
rewrite [X in _ + X]big_nat_cond [X in _ + X]big1 ?addr0.
  rewrite !big_nat; apply: eq_bigr => j hj; rewrite [(k + j)%N]addnC coef_poly ifT //.
  by rewrite addnC; apply: leq_trans sp; rewrite -ltn_subRL.
move=> j /andP[/andP[h1 h2] _].
have : p`_(j + k) = 0 by apply: nth_default; rewrite addnC -leq_subLR.
by rewrite coef_poly ifT; [move=> ->; rewrite scale0r|rewrite addnC -ltn_subRL].
Qed.
Print Assumptions C34_phi_truncated_series.

(** phi_1 of a 1x1 matrix over the rationals: 1 + 3/2. *)
Example ex_C34 : (2%:R : rat) != 0 /\
  phi_vec (fun H : 'M[rat]_((0 + 1).+1) => \sum_(i < 3) (i`!%:R)^-1 *: H ^+ i) 2%:R
    (3%:R%:M : 'M[rat]_1) = (5%:R / 2%:R)%:M.
Proof.
split=> //. rewrite C34_phi_truncated_series // !big_ord_recl big_ord0.
by apply/matrixP=> i j; rewrite !ord1 !mxE /=; apply/eqP.
Qed.
