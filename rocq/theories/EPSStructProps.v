(** The interface of the eigensolver: structured problems, left eigenvectors. *)
From mathcomp Require Import all_ssreflect all_algebra.
From mathcomp Require Import zify ring realalg.
From Verif Require Import Prelude EPSModel EPSSpec.
Set Implicit Arguments. Unset Strict Implicit. Unset Printing Implicit Defensive.
Import GRing.Theory Num.Theory Order.TTheory.
Local Open Scope ring_scope.

Section Structured.
Variables (F : numFieldType) (conj : {rmorphism F -> F}) (U : lmodType F) (cj : U -> U) (dot : U -> U -> F).
(** Complex conjugation of vectors, inner product *)
Hypothesis cjD : forall c x y, cj (c *: x + y) = conj c *: cj x + cj y.
Hypothesis cjK : involutive cj.
Hypothesis dotL : forall c x y z, dot (c *: x + y) z = c * dot x z + dot y z.
Hypothesis dotC : forall x y, dot x y = conj (dot y x).
Hypothesis dotJ : forall x y, dot (cj x) (cj y) = conj (dot x y).
Notation vec := (U * U)%type.
(** The two blocks of the user: R, C for EPS_BSE; A, B (or K, M) for EPS_LREP *)
Variables (P Q : U -> U).
Hypothesis PL : forall c x y, P (c *: x + y) = c *: P x + P y.
Definition bar (T : U -> U) (x : U) : U := cj (T (cj x)).

(** [R C; -C^* -R^T], [A B; -B -A], [0 K; M 0] *)
Definition matrix (t : ptype) (x : vec) : vec :=
  match t with
  | BSE => (P x.1 + Q x.2, - bar Q x.1 - bar P x.2)
  | LREP false => (P x.1 + Q x.2, - Q x.1 - P x.2)
  | _ => (P x.2, Q x.1)
  end.
(** R Hermitian and C complex symmetric; A, B, K, M real symmetric. *)
Definition structure (t : ptype) : Prop :=
  match t with
  | BSE => (forall x y, dot (P x) y = dot x (P y)) /\ (forall x y, dot (Q x) y = dot x (bar Q y))
  | LREP _ => [/\ (forall x y, dot (P x) y = dot x (P y)), (forall x y, dot (Q x) y = dot x (Q y)),
                  (forall x, cj (P x) = P (cj x)) & (forall x, cj (Q x) = Q (cj x))]
  | _ => False
  end.
Definition dotv (x y : vec) : F := dot x.1 y.1 + dot x.2 y.2.
Definition left_vector (H : vec -> vec) (lam : F) (y : vec) : Prop := forall z, dotv (H z) y = lam * dotv z y.

Let cj0 : cj 0 = 0.
Proof. by have := cjD (-1) 0 0; rewrite rmorphN1 !scaler0 addr0 scaleN1r addNr. Qed.
Let cjDD x y : cj (x + y) = cj x + cj y. Proof. by rewrite -[x]scale1r cjD rmorph1 !scale1r. Qed.
Let cjZ c x : cj (c *: x) = conj c *: cj x. Proof. by rewrite -[c *: x]addr0 cjD cj0 addr0. Qed.
Let cjN x : cj (- x) = - cj x. Proof. by rewrite -scaleN1r cjZ rmorphN1 scaleN1r. Qed.
Let lin0 (T : U -> U) : (forall c x y, T (c *: x + y) = c *: T x + T y) -> T 0 = 0.
Proof. by move=> L; have := L (-1) 0 0; rewrite !scaler0 addr0 scaleN1r addNr. Qed.
Let linN (T : U -> U) (x : U) : (forall c x y, T (c *: x + y) = c *: T x + T y) -> T (- x) = - T x.
Proof. by move=> L; rewrite -scaleN1r -[_ *: x]addr0 L lin0 // addr0 scaleN1r. Qed.
Let d0 x : dot 0 x = 0. Proof. by have := dotL (-1) 0 0 x; rewrite scaler0 addr0 mulN1r addNr. Qed.
Let dD x y z : dot (x + y) z = dot x z + dot y z. Proof. by rewrite -[x]scale1r dotL mul1r scale1r. Qed.
Let dN x y : dot (- x) y = - dot x y.
Proof. by rewrite -scaleN1r -[_ *: x]addr0 dotL d0 addr0 mulN1r. Qed.
Let dDr x y z : dot z (x + y) = dot z x + dot z y. Proof. by rewrite dotC dD rmorphD -!dotC. Qed.
Let dNr x y : dot y (- x) = - dot y x. Proof. by rewrite dotC dN rmorphN -dotC. Qed.
Let dZr c x y : dot y (c *: x) = conj c * dot y x.
Proof. by rewrite dotC -[c *: x]addr0 dotL d0 addr0 rmorphM -dotC. Qed.
Let conjK a : conj (conj (dot a a)) = dot a a. Proof. by rewrite -!dotC. Qed.

Lemma bse_minus lam x : conj lam = lam -> matrix BSE x = lam *: x ->
  matrix BSE (cj x.2, cj x.1) = (- lam) *: (cj x.2, cj x.1).
Proof.
move=> Hl [E1 E2]; rewrite /= /bar !cjK; congr (_, _).
- by rewrite scaleNr -{1}Hl -cjZ -E2 /bar cjDD !cjN opprD !opprK !cjK addrC.
- by rewrite scaleNr -{1}Hl -cjZ -E1 cjDD opprD addrC.
Qed.
Lemma lrep_minus lam x : structure (LREP false) -> conj lam = lam -> matrix (LREP false) x = lam *: x ->
  matrix (LREP false) (cj x.2, cj x.1) = (- lam) *: (cj x.2, cj x.1).
Proof.
move=> [_ _ SP SQ] Hl [E1 E2]; rewrite /= -!SP -!SQ; congr (_, _).
- by rewrite scaleNr -{1}Hl -cjZ -E2 cjDD !cjN opprD !opprK addrC.
- by rewrite scaleNr -{1}Hl -cjZ -E1 cjDD opprD addrC.
Qed.
Lemma red_minus lam x : matrix (LREP true) x = lam *: x -> matrix (LREP true) (x.1, - x.2) = (- lam) *: (x.1, - x.2).
Proof.
move=> [E1 E2]; rewrite /= linN // E1 E2; congr (_, _); first by rewrite scaleNr.
by rewrite scaleNr scalerN opprK.
Qed.
(** Left vectors from right ones *)
Lemma bse_left lam x : structure BSE -> conj lam = lam -> matrix BSE x = lam *: x ->
  left_vector (matrix BSE) lam (x.1, - x.2).
Proof.
move=> [SP SQ] Hl [E1 E2] z; rewrite /dotv /= !dD !dN !dNr !opprK.
have cc a b : conj (conj (dot a b)) = dot a b by rewrite -!dotC.
have -> : dot (bar Q z.1) x.2 = dot z.1 (Q x.2) by rewrite /bar -{1}[x.2]cjK dotJ SQ /bar cjK dotJ cc.
have -> : dot (bar P z.2) x.2 = dot z.2 (bar P x.2) by rewrite /bar -{1}[x.2]cjK dotJ SP -{1}[P (cj x.2)]cjK dotJ cc.
rewrite SP SQ.
have e1 := congr1 (dot z.1) E1; have e2 := congr1 (dot z.2) E2.
rewrite /= !dDr !dNr !dZr Hl in e1 e2.
rewrite mulrDr mulrN -e1 -e2; ring.
Qed.
Lemma lrep_left lam x : structure (LREP false) -> conj lam = lam -> matrix (LREP false) x = lam *: x ->
  left_vector (matrix (LREP false)) lam (x.1, - x.2).
Proof.
move=> [SP SQ _ _] Hl [E1 E2] z; rewrite /dotv /= !dD !dN !dNr !opprK !SP !SQ.
have e1 := congr1 (dot z.1) E1; have e2 := congr1 (dot z.2) E2.
rewrite /= !dDr !dNr !dZr Hl in e1 e2.
rewrite mulrDr mulrN -e1 -e2; ring.
Qed.
Lemma red_left lam x : structure (LREP true) -> conj lam = lam -> matrix (LREP true) x = lam *: x ->
  left_vector (matrix (LREP true)) lam (x.2, x.1).
Proof.
move=> [SP SQ _ _] Hl [E1 E2] z; rewrite /dotv /= SP SQ E1 E2 !dZr Hl; ring.
Qed.

(** Structured problems with the magnitude criteria: 2 nconv eigenpairs are offered; number i is an eigenpair of
    the matrix with eigenvalue +lambda (even i) or -lambda (odd i), and EPSGetLeftEigenvector gives a left
    eigenvector of the same eigenvalue. *)
Theorem C58_structured t nconv eigr perm v i :
  structure t -> (forall j, (j < nconv)%N -> (perm j < nconv)%N) ->
  (forall k, (k < nconv)%N -> [/\ matrix t (v k) = eigr k *: v k, v k != 0 & conj (eigr k) = eigr k]) ->
  (i < 2 * nconv)%N ->
  exists lam y, [/\ struct_eigenvalue t nconv eigr perm i = Ok lam,
    lam = if odd i then - eigr (perm (i %/ 2)%N) else eigr (perm (i %/ 2)%N),
    matrix t (struct_eigenvector cj t perm v i) = lam *: struct_eigenvector cj t perm v i /\
      struct_eigenvector cj t perm v i != 0,
    left_eigenvector cj t true nconv perm v i = Ok y &
    left_vector (matrix t) lam y /\ y != 0].
Proof.
move=> St Hp Hs Hi.
have Hj : (i %/ 2 < nconv)%N by rewrite ltn_divLR // mulnC.
have [E N0 Hl] := Hs _ (Hp _ Hj).
set lam := if odd i then - eigr (perm (i %/ 2)%N) else eigr (perm (i %/ 2)%N).
have Hlam : conj lam = lam by rewrite /lam; case: ifP; rewrite ?rmorphN Hl.
have nz (a b : U) : ((a, b) != 0) = (a != 0) || (b != 0) by rewrite -negb_and.
have cjz a : (cj a == 0) = (a == 0) by rewrite -{1}cj0 (can_eq cjK).
have Hx : matrix t (struct_eigenvector cj t perm v i) = lam *: struct_eigenvector cj t perm v i /\
    struct_eigenvector cj t perm v i != 0.
  rewrite /lam; case: t St {Hs Hlam lam} E => [||| []] // St E; rewrite /struct_eigenvector; case: ifP => _ //.
  - by split; [exact: bse_minus | rewrite nz !cjz orbC -nz -surjective_pairing].
  - by split; [exact: red_minus | rewrite nz oppr_eq0 -nz -surjective_pairing].
  - by split; [exact: lrep_minus | rewrite nz !cjz orbC -nz -surjective_pairing].
exists lam; rewrite /struct_eigenvalue /left_eigenvector.
set x := struct_eigenvector cj t perm v i in Hx *; have [Ex Nx] := Hx.
have Na : (x.1, - x.2) != 0 by rewrite nz oppr_eq0 -nz -surjective_pairing.
have Nb : (x.2, x.1) != 0 by rewrite nz orbC -nz -surjective_pairing.
clearbody x.
have -> : actual_converged t nconv = (2 * nconv)%N by case: (t) St.
have -> : isstructured t by case: (t) St.
rewrite Hi /=; case: (t) St Ex => [||| []] //= St Ex; eexists; (split; [by []|by []|by []|by []|split=> //]).
- exact: bse_left.
- exact: red_left.
- exact: lrep_left.
Qed.

(** Hermitian problems: EPSGetLeftEigenvector should give the right eigenvector (the matrix is its own adjoint), but
    it fails unless the matrix is a MATNEST. *)
Theorem C58_left_hermitian_refuted t nconv perm (v : nat -> vec) i : t = HEP \/ t = GHEP -> (i < nconv)%N ->
  left_eigenvector cj t false nconv perm v i = Err.
Proof. by move=> [] -> Hi; rewrite /left_eigenvector /actual_converged /= Hi. Qed.
End Structured.
Print Assumptions C58_structured.
Print Assumptions C58_left_hermitian_refuted.

(** ... and if it is a MATNEST of two blocks the result need not be a left eigenvector: [0 1; 1 0] *)
Definition swap2 (x : rat^o * rat^o) : rat^o * rat^o := (x.2, x.1).
Definition mul2 (x y : rat^o) : rat := x * y.
Theorem C58_left_nest_refuted :
  exists (nconv : nat) (v : nat -> rat^o * rat^o) (lam : rat), [/\ (0 < nconv)%N,
    (forall x y, dotv mul2 (swap2 x) y = dotv mul2 x (swap2 y)),
    swap2 (v 0%N) = lam *: v 0%N /\ v 0%N != 0 &
    exists y, left_eigenvector id HEP true nconv id v 0 = Ok y /\ ~ left_vector mul2 swap2 lam y].
Proof.
exists 1%N, (fun _ => (1, 1)), 1; split=> //.
- by move=> x y; rewrite /dotv /mul2 /=; ring.
- by exists (1, -1); split=> // H; have := H (1, 0); rewrite /dotv /mul2 /=.
Qed.
Print Assumptions C58_left_nest_refuted.

(** A concrete case: R = 5, C = 3 has the eigenvalues 4 and -4. *)
Definition R5 (x : rat^o) : rat^o := 5 * x.
Definition C3 (x : rat^o) : rat^o := 3 * x.
Example ex_C58 :
  struct_eigenvector id BSE id (fun _ => (-3, 1) : rat^o * rat^o) 1 = (1, -3) /\
  exists lam y, [/\ struct_eigenvalue BSE 1 (fun _ => 4 : rat) id 1 = Ok lam, lam = -4,
   matrix id R5 C3 BSE (1, -3) = lam *: ((1, -3) : rat^o * rat^o) /\ ((1, -3) : rat^o * rat^o) != 0,
   left_eigenvector id BSE true 1 id (fun _ => (-3, 1) : rat^o * rat^o) 1 = Ok y &
   left_vector mul2 (matrix id R5 C3 BSE) lam y /\ y != 0].
Proof.
split=> //.
have H1 (c : rat) (x y : rat^o) : id (c *: x + y) = idfun c *: id x + id y by [].
have H2 (c : rat) (x y z : rat^o) : mul2 (c *: x + y) z = c * mul2 x z + mul2 y z.
  by rewrite /mul2 mulrDl mulrA.
have H3 (x y : rat^o) : mul2 x y = idfun (mul2 y x) by rewrite /mul2 mulrC.
have H4 (x y : rat^o) : mul2 (id x) (id y) = idfun (mul2 x y) by [].
have H5 (c : rat) (x y : rat^o) : R5 (c *: x + y) = c *: R5 x + R5 y.
  by rewrite /R5 mulrDr; congr (_ + _); apply: mulrCA.
apply: (@C58_structured _ [rmorphism of idfun] _ id mul2 H1 _ H2 H3 H4 R5 C3 H5 BSE 1%N (fun _ => 4) id
  (fun _ => (-3, 1)) 1%N) => //.
by split=> x y; rewrite /mul2 /bar /R5 /C3 mulrCA mulrA.
Qed.
