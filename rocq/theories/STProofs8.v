(** Polynomial problems: the coefficients, and the matrices of the transformed polynomial. *)
From mathcomp Require Import all_ssreflect all_algebra zify.
From Verif Require Import Prelude STModel STSpec STProofs STProofs2.
Set Implicit Arguments. Unset Strict Implicit. Unset Printing Implicit Defensive.
Import GRing.Theory.
Local Open Scope ring_scope.

Section Coeffs.
Variable K : fieldType.
Implicit Types (c : seq K).

Definition tri (m : nat) : nat := ((m * (m - 1)) %/ 2)%N.
Lemma triS m : tri m.+1 = (tri m + m)%N.
Proof.
have E k : tri k = 'C(k, 2) by rewrite /tri subn1 divn2 bin2.
by rewrite !E binS bin1.
Qed.
Lemma tri_mono m k : (m <= k)%N -> (tri m <= tri k)%N.
Proof. by elim: k => [|k IH]; rewrite leq_eqVlt => /orP[/eqP->|] //; rewrite ltnS triS => /IH; lia. Qed.

Lemma cget_ok c i : (i < size c)%N -> cget c i = Ok (nth 0 c i).
Proof. by rewrite /cget => ->. Qed.
Lemma seti_ok c i v : (i < size c)%N -> exists c', [/\ seti c i v = Ok c', size c' = size c &
  forall j, nth 0 c' j = if j == i then v else nth 0 c j].
Proof.
move=> H; rewrite /seti H; exists (set_nth 0 c i v); split=> // [|j]; first by rewrite size_set_nth; lia.
by rewrite nth_set_nth.
Qed.
Lemma fill_ok m c i : (i + m <= size c)%N -> exists c', [/\ fill c i m = Ok c', size c' = size c &
  forall j, nth 0 c' j = if (i <= j < i + m)%N then 1 else nth 0 c j].
Proof.
elim: m c i => [|m IH] c i H /=.
  by exists c; split=> // j; case: ifP => //; lia.
have [|c1 [-> S1 E1]] := @seti_ok c i 1; first by lia.
have [|c2 [E S2 E2]] := IH c1 i.+1; first by rewrite S1; lia.
exists c2; split=> /=; [by []|by rewrite S2|] => j; rewrite E2 E1.
case: (j =P i) => [->|]; first by case: ifP; case: ifP => //; lia.
by case: ifP; case: ifP => //; lia.
Qed.

Variable nm : nat.
Definition good (m : nat) c : Prop := size c = tri nm.+1 /\
  forall m' i, (m <= m' <= nm)%N -> (i < m')%N -> nth 0 c (tri m' + i) = ('C(nm - m' + i, i))%:R.

Lemma inside c m' i : size c = tri nm.+1 -> (m' <= nm)%N -> (i < m')%N -> (tri m' + i < size c)%N.
Proof. by move=> -> H1 H2; have := @tri_mono m'.+1 nm.+1; rewrite triS; lia. Qed.

Lemma pascal_ok m k c i : (i + m = k)%N -> (0 < i)%N -> (k < nm)%N -> good k.+1 c ->
  (forall j, (j < i)%N -> nth 0 c (tri k + j) = ('C(nm - k + j, j))%:R) ->
  exists c', pascal c (tri k) (tri k.+1).+1 i m = Ok c' /\ good k c'.
Proof.
elim: m c i => [|m IH] c i Hi Hp Hk [S G] Hc /=.
  exists c; split=> //; split=> // m' j Hm Hj.
  have [Em|Nm] := eqVneq m' k; first by rewrite Em; apply: Hc; lia.
  by apply: G => //; lia.
have I1 : (tri k + (i - 1) < size c)%N by apply: inside; lia.
have I2 : (tri k.+1 + i < size c)%N by apply: inside; lia.
have I3 : (tri k + i < size c)%N by apply: inside; lia.
have -> : (tri k + i - 1 = tri k + (i - 1))%N by lia.
have -> : ((tri k.+1).+1 + i - 1 = tri k.+1 + i)%N by lia.
rewrite !cget_ok //=.
have [c1 [-> S1 E1]] := seti_ok (nth 0 c (tri k + (i - 1)) + nth 0 c (tri k.+1 + i)) I3 => /=.
have T := triS k.
apply: IH => //; first by lia.
- split=> [|m' j Hm Hj]; first by rewrite S1.
  rewrite E1; case: eqP => [Q|_]; last exact: G.
  by have := @tri_mono k.+1 m'; lia.
- move=> j Hj; rewrite E1; case: eqP => [Q|Q]; last by apply: Hc; lia.
  have -> : j = i by lia.
  rewrite Hc; last by lia.
  rewrite G; [|by lia|by lia].
  rewrite -natrD; congr _%:R; case: (i) Hp => // i' _.
  have -> : (nm - k + (i'.+1 - 1) = nm - k + i')%N by lia.
  have -> : (nm - k.+1 + i'.+1 = nm - k + i')%N by lia.
  by rewrite addnS binS subn1 /= addnC.
Qed.

Lemma rows_ok k c : (k < nm)%N -> good k.+1 c -> exists c', rows c (tri k.+1) k = Ok c' /\ good 1 c'.
Proof.
elim: k c => [|k IH] c Hk G; first by exists c.
have [S G'] := G.
rewrite [rows _ _ _]/= -/(tri k.+1).
have I : (tri k.+1 < size c)%N by have := @inside c k.+1 0 S; rewrite addn0; apply; lia.
have [c1 [-> S1 E1]] := seti_ok 1 I; cbn [bind].
have -> : (k.+1 - 1 = k)%N by lia.
have T := triS k.+1.
have [|||||c2 [-> G2]] := @pascal_ok k k.+1 c1 1; [by lia|by []|by []| | |cbn [bind]].
- split=> [|m' j Hm Hj]; first by rewrite S1.
  rewrite E1; case: eqP => [Q|_]; last exact: G'.
  by have := @tri_mono k.+2 m'; lia.
- by case=> // _; rewrite addn0 E1 eqxx addn0 bin0.
- by apply: IH => //; lia.
Qed.

Lemma coeffs_ok c : (0 < nm)%N -> size c = tri nm.+1 -> exists c', coeffs_monomial nm c = Ok c' /\ good 1 c'.
Proof.
move=> Hn S; rewrite /coeffs_monomial -/(tri nm).
have T := triS nm.
have [|c1 [-> S1 E1]] := @fill_ok nm c (tri nm); [by lia|cbn [bind]].
have E : nm = (nm - 1).+1 by lia.
rewrite [X in tri X]E; apply: rows_ok; first by lia.
split=> [|m' i Hm Hi]; first by rewrite S1.
have -> : m' = nm by lia.
have L : (i < nm)%N by lia.
rewrite E1; case: ifP => [_|/negP[]]; last by lia.
by rewrite subnn add0n binn.
Qed.

(** Row k as used by the loops: the coefficients of A[k], A[k+1], ... *)
Lemma row_ok c k i : good 1 c -> (k + i < nm)%N ->
  nth 0 (drop (tri (nm - k)) c) i = ('C(k + i, i))%:R.
Proof.
move=> [S G] H; rewrite nth_drop G; [|by lia|by lia].
by congr ('C(_, _))%:R; lia.
Qed.
Lemma row_size c k : good 1 c -> (k < nm)%N -> (nm - k <= size (drop (tri (nm - k)) c))%N.
Proof.
move=> [S G] H; rewrite size_drop S; have := @tri_mono (nm - k).+1 nm.+1; rewrite triS; lia.
Qed.
End Coeffs.
