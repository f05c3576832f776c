(** PEPLINEAR with explicit matrices: proofs. *)
From mathcomp Require Import all_ssreflect all_algebra zify ring.
From Verif Require Import Prelude STModel STSpec PEPModel PEPSpec PEPProofs PEPProofs2.
Set Implicit Arguments. Unset Strict Implicit. Unset Printing Implicit Defensive.
Import Order.TTheory GRing.Theory Num.Theory.
Local Open Scope ring_scope.

Section Explicit.
Variable F : numFieldType.
Variable n : nat.
Notation mat := 'M[F]_n.
Notation vec := 'cV[F]_n.
Variables (a b s ds : F) (K C M : mat).
Hypothesis s0 : s != 0.
Hypothesis ds0 : ds != 0.
Let K' := ds *: K.
Let C' := (ds * s) *: C.
Let M' := (ds * s ^+ 2) *: M.


(** The branches of the code agree with the general formula. *)
Lemma NA_E : explicit_NA a b s ds K C M = block_mx ((- b) *: K') a%:M ((- a) *: K') ((- a) *: C' + b%:M).
Proof.
rewrite /explicit_NA.
case: (eqVneq a 0) => [->|_]; case: (eqVneq b 0) => [->|_] /=;
  rewrite /tile /K' /C' /M'; congr block_mx; apply/matrixP => i j; rewrite !mxE;
  case: (i == j); rewrite ?mulr1n ?mulr0n; move: (K i j) (C i j) (M i j) => k1 c1 m1; ring.
Qed.
Lemma NB_E : explicit_NB a b s ds K C M = block_mx (b *: C' + a%:M) (b *: M') b%:M (a *: M').
Proof.
rewrite /explicit_NB.
case: (eqVneq a 0) => [->|_]; case: (eqVneq b 0) => [->|_] /=;
  rewrite /tile /K' /C' /M'; congr block_mx; apply/matrixP => i j; rewrite !mxE;
  case: (i == j); rewrite ?mulr1n ?mulr0n; move: (K i j) (C i j) (M i j) => k1 c1 m1; ring.
Qed.
Lemma SA_E : explicit_SA a b s ds K C M = block_mx (b *: K') (a *: K') (a *: K') (a *: C' - b *: M').
Proof.
rewrite /explicit_SA.
case: (eqVneq a 0) => [->|_]; case: (eqVneq b 0) => [->|_] /=;
  rewrite /tile /K' /C' /M'; congr block_mx; apply/matrixP => i j; rewrite !mxE;
  case: (i == j); rewrite ?mulr1n ?mulr0n; move: (K i j) (C i j) (M i j) => k1 c1 m1; ring.
Qed.
Lemma SB_E : explicit_SB a b s ds K C M = block_mx (a *: K' - b *: C') ((- b) *: M') ((- b) *: M') ((- a) *: M').
Proof.
rewrite /explicit_SB.
case: (eqVneq a 0) => [->|_]; case: (eqVneq b 0) => [->|_] /=;
  rewrite /tile /K' /C' /M'; congr block_mx; apply/matrixP => i j; rewrite !mxE;
  case: (i == j); rewrite ?mulr1n ?mulr0n; move: (K i j) (C i j) (M i j) => k1 c1 m1; ring.
Qed.
Lemma HA_E : explicit_HA a b s ds K C M = block_mx (a *: K') ((- b) *: K') (a *: C' + b *: M') (a *: K').
Proof.
rewrite /explicit_HA.
case: (eqVneq a 0) => [->|_]; case: (eqVneq b 0) => [->|_] /=;
  rewrite /tile /K' /C' /M'; congr block_mx; apply/matrixP => i j; rewrite !mxE;
  case: (i == j); rewrite ?mulr1n ?mulr0n; move: (K i j) (C i j) (M i j) => k1 c1 m1; ring.
Qed.
Lemma HB_E : explicit_HB a b s ds K C M = block_mx (b *: M') (a *: K' + b *: C') ((- a) *: M') (b *: M').
Proof.
rewrite /explicit_HB.
case: (eqVneq a 0) => [->|_]; case: (eqVneq b 0) => [->|_] /=;
  rewrite /tile /K' /C' /M'; congr block_mx; apply/matrixP => i j; rewrite !mxE;
  case: (i == j); rewrite ?mulr1n ?mulr0n; move: (K i j) (C i j) (M i j) => k1 c1 m1; ring.
Qed.

Lemma quadE th (x : vec) : quad K C M (th * s) *m x = ds^-1 *: (K' *m x + th *: (C' *m x) + th ^+ 2 *: (M' *m x)).
Proof.
rewrite /quad /K' /C' /M' !mulmxDl -!scalemxAl !scalerDr !scalerA mulVf // scale1r.
by congr (_ + _ *: _ + _ *: _); field.
Qed.

(** The blocks of the eigenvector: z=[x;th*x], for H z=[th*x;x]. *)
Definition pair_ (t : ptype) (th : F) (x : vec) : 'cV[F]_(n + n) :=
  match t with Gyroscopic => col_mx (th *: x) x | _ => col_mx x (th *: x) end.
Definition head (t : ptype) (z : 'cV[F]_(n + n)) : vec :=
  match t with Gyroscopic => dsubmx z | _ => usubmx z end.
Definition tail (t : ptype) (z : 'cV[F]_(n + n)) : vec :=
  match t with Gyroscopic => usubmx z | _ => dsubmx z end.

Lemma two_rows m1 (X Y X' Y' : 'M[F]_(n, m1)) : (col_mx X Y = col_mx X' Y') <-> (X = X' /\ Y = Y').
Proof. by split=> [/eq_col_mx|[-> ->]]. Qed.

Lemma forward t th (x : vec) : quad K C M (th * s) *m x = 0 ->
  explicit_A t a b s ds K C M *m pair_ t th x = th *: (explicit_B t a b s ds K C M *m pair_ t th x).
Proof.
rewrite quadE => /eqP; rewrite scaler_eq0 invr_eq0 (negbTE ds0) /= => /eqP E.
have {E} E : K' *m x = - (th *: (C' *m x)) - th ^+ 2 *: (M' *m x).
  by apply/eqP; rewrite -subr_eq0 opprD !opprK addrA E.
have [cx Ec] : exists v, C' *m x = v by eexists.
have [mx Em] : exists v, M' *m x = v by eexists.
case: t; rewrite /explicit_A /explicit_B /pair_ ?NA_E ?NB_E ?SA_E ?SB_E ?HA_E ?HB_E !mul_block_col scale_col_mx;
  clearbody K' C' M'; apply/two_rows; split; rewrite ?mulmxDl ?mulNmx -?scalemxAl -?scalemxAr ?mul_scalar_mx -?scalemxAl ?E ?Ec ?Em;
  apply/colP => i; rewrite !mxE; try (set c1 := cx i _); try (set m1 := mx i _); try (set x1 := x i _); ring.
Qed.

Lemma combine t th (z : 'cV[F]_(n + n)) :
  let A := explicit_A t a b s ds K C M in let B := explicit_B t a b s ds K C M in
  let w := tail t z - th *: head t z in
  let D := A *m z - th *: (B *m z) in
  let Q := K' *m head t z + th *: (C' *m head t z) + th *: (M' *m tail t z) in
  match t with
  | General => (a ^+ 2 - b ^+ 2) *: w + (a * b) *: (C' *m w) = a *: usubmx D - b *: dsubmx D /\
      usubmx D = a *: w - b *: Q /\ dsubmx D = b *: w - a *: Q - a *: (C' *m w)
  | Hermitian | Hyperbolic => a ^+ 2 *: (K' *m w) - (a * b) *: (C' *m w) + b ^+ 2 *: (M' *m w) = a *: usubmx D - b *: dsubmx D /\
      usubmx D = a *: (K' *m w) + b *: Q /\ dsubmx D = a *: Q + a *: (C' *m w) - b *: (M' *m w)
  | Gyroscopic => a ^+ 2 *: (K' *m w) + (a * b) *: (C' *m w) + b ^+ 2 *: (M' *m w) = a *: usubmx D + b *: dsubmx D /\
      usubmx D = a *: (K' *m w) - b *: Q /\ dsubmx D = a *: Q + a *: (C' *m w) + b *: (M' *m w)
  end.
Proof.
rewrite /= -[z]vsubmxK; move: (usubmx z) (dsubmx z) => u v {z}.
have [ku E1] : exists x, K' *m u = x by eexists.
have [kv E2] : exists x, K' *m v = x by eexists.
have [cu E3] : exists x, C' *m u = x by eexists.
have [cv E4] : exists x, C' *m v = x by eexists.
have [mu E5] : exists x, M' *m u = x by eexists.
have [mv E6] : exists x, M' *m v = x by eexists.
case: t; rewrite /explicit_A /explicit_B /head /tail ?NA_E ?NB_E ?SA_E ?SB_E ?HA_E ?HB_E !mul_block_col;
  rewrite scale_col_mx opp_col_mx add_col_mx !col_mxKu !col_mxKd;
  clearbody K' C' M'; rewrite ?mulmxBr ?mulmxDl ?mulNmx -?scalemxAl -?scalemxAr ?mul_scalar_mx -?scalemxAl ?E1 ?E2 ?E3 ?E4 ?E5 ?E6;
  (split; last split); apply/colP => i; rewrite !mxE;
  try (set k1 := ku i _); try (set k2 := kv i _); try (set c1 := cu i _); try (set c2 := cv i _); try (set m1 := mu i _); try (set m2 := mv i _);
  try (set u1 := u i _); try (set v1 := v i _); ring.
Qed.

Lemma unit_zero (W : mat) (w : vec) : W \in unitmx -> W *m w = 0 -> w = 0.
Proof. by move=> U /(congr1 (mulmx (invmx W))); rewrite mulmxA mulVmx // mul1mx mulmx0. Qed.

Lemma pairE t th z : tail t z = th *: head t z -> z = pair_ t th (head t z).
Proof. by case: t; rewrite /tail /head /pair_ => <-; rewrite vsubmxK. Qed.

Lemma backward t th (z : 'cV[F]_(n + n)) : regular t a b s ds K C M -> (a != 0) || (b != 0) ->
  explicit_A t a b s ds K C M *m z = th *: (explicit_B t a b s ds K C M *m z) ->
  z = pair_ t th (head t z) /\ quad K C M (th * s) *m head t z = 0.
Proof.
move=> R ab E; have := combine t th z.
have U0 : usubmx (0 : 'cV[F]_(n + n)) = 0 by exact: linear0.
have D0 : dsubmx (0 : 'cV[F]_(n + n)) = 0 by exact: linear0.
rewrite /= E subrr U0 D0 !scaler0 subr0 addr0.
set w := tail t z - th *: head t z; set Q := _ + th *: (M' *m _) => H.
have w0 : w = 0.
  case: t R E @w @Q H => R E w Q [H _]; rewrite /regular in R.
  - apply: unit_zero R _; rewrite mulmxDl mul_scalar_mx -scalemxAl -[RHS]H; congr (_ + _).
    by rewrite /C' -scalemxAl scalerA.
  - apply: unit_zero R _; apply: (scalerI ds0); rewrite scaler0 -[RHS]H /K' /C' /M' !mulmxDl mulNmx -!scalemxAl !scalerDr scalerN !scalerA.
    by congr (_ *: _ - _ *: _ + _ *: _); ring.
  - apply: unit_zero R _; apply: (scalerI ds0); rewrite scaler0 -[RHS]H /K' /C' /M' !mulmxDl mulNmx -!scalemxAl !scalerDr scalerN !scalerA.
    by congr (_ *: _ - _ *: _ + _ *: _); ring.
  - apply: unit_zero R _; apply: (scalerI ds0); rewrite scaler0 -[RHS]H /K' /C' /M' !mulmxDl -!scalemxAl !scalerDr !scalerA.
    by congr (_ *: _ + _ *: _ + _ *: _); ring.
have Ev : tail t z = th *: head t z by apply/eqP; rewrite -subr_eq0 -/w w0.
split; first exact: pairE.
have Q0 : Q = 0.
  have [A1 A2] : b *: Q = 0 /\ a *: Q = 0.
    move: H; rewrite w0 !mulmx0 !scaler0; case: t {R E w0 Ev} @w @Q => w Q [_ [H1 H2]];
      move: H1 H2; rewrite ?sub0r ?subr0 ?add0r ?addr0 => H1 H2; split=> //;
      by apply/eqP; rewrite -oppr_eq0 -?H1 -?H2.
  case/orP: ab => Z; [apply: (scalerI Z) | apply: (scalerI Z)]; by rewrite scaler0.
have EM : th ^+ 2 *: (M' *m head t z) = th *: (M' *m tail t z) by rewrite Ev -scalemxAr scalerA.
by rewrite quadE EM -/Q Q0 scaler0.
Qed.
End Explicit.

Section ExplicitWhole.
Variable F : numFieldType.
Variable n : nat.
Notation mat := 'M[F]_n.
Notation vec := 'cV[F]_n.
Variables (c : config F n) (ds : F) (K C M : mat) (p0 : pep F n) (ts : seq mat) (junk : seq F).
Hypothesis S : explicit_supported c ds K C M.
Hypothesis E0 : cfg p0 = c.
Let A := explicit_A (c_ptype c) (c_alpha c) (c_beta c) (c_scale c) ds K C M.
Let B := explicit_B (c_ptype c) (c_alpha c) (c_beta c) (c_scale c) ds K C M.

Lemma explicit_setup : exists p, [/\ setup p0 ts junk ds = Ok p, cfg p = c & ab p = Some (A, B)].
Proof.
case: S => Em Eb s0 ds0 Et Ee El Etr Ex.
rewrite /setup E0 Ee Eb Etr /nmat Em /=.
have -> : is_cayley (c_type c) = false by case: (c_type c) Et.
by eexists.
Qed.

Variable p : pep F n.
Hypothesis Ep : setup p0 ts junk ds = Ok p.

Lemma cfg_p : cfg p = c. Proof. by have [q [E1 E2 _]] := explicit_setup; move: Ep; rewrite E1 => -[<-]. Qed.
Lemma ab_p : ab p = Some (A, B). Proof. by have [q [E1 _ E2]] := explicit_setup; move: Ep; rewrite E1 => -[<-]. Qed.
Lemma value_p th : pep_value p th = th * c_scale c.
Proof. by rewrite /pep_value /eps_value cfg_p (e_explicit S) (e_transform S). Qed.
Lemma mpoly_quad z : mpoly (c_basis c) (c_mats c) z = quad K C M z.
Proof.
rewrite (e_basis S) (e_mats S) /mpoly /quad [size _]/= !big_ord_recr big_ord0 /= add0r.
by rewrite expr0 hornerC scale1r !hornerXn expr1.
Qed.

Lemma explicit_sound rn th (z : 'cV[F]_(n + n)) : z != 0 -> A *m z = th *: (B *m z) ->
  regular (c_ptype c) (c_alpha c) (c_beta c) (c_scale c) ds K C M ->
  (c_ptype c = Gyroscopic -> th != 0) ->
  (forall y, 0 <= rn y) -> (forall y, quad K C M (pep_value p th) *m y = 0 -> rn y = 0) ->
  exists y, extract p rn (pep_value p th) [:: usubmx z; dsubmx z] = Ok y /\
    y != 0 /\ quad K C M (pep_value p th) *m y = 0.
Proof.
move=> z0 Ez R G R1; rewrite value_p => R2.
have s0 := e_scale S; have ds0 := e_dscale S; have El := e_linear S; have Ex := e_extract S.
have [Ez2 Q] := backward ds0 R El Ez.
have x0 : head (c_ptype c) z != 0.
  apply: contraNneq z0 => x0; rewrite Ez2 x0 /pair_; case: (c_ptype c); rewrite scaler0 col_mx0 //.
have Ok1 y : y = head (c_ptype c) z \/ (th != 0 /\ y = th *: head (c_ptype c) z) ->
    y != 0 /\ quad K C M (th * c_scale c) *m y = 0.
  case=> [->|[t0 ->]] //; split; last by rewrite -scalemxAr Q scaler0.
  by rewrite scaler_eq0 negb_or t0.
have U1 : usubmx z = head (c_ptype c) z \/ (th != 0 /\ usubmx z = th *: head (c_ptype c) z).
  rewrite {1 3}Ez2 /pair_; case Ty: (c_ptype c); rewrite col_mxKu; try by left.
  by right; split=> //; apply: G.
have D1 : 1 < `|th * c_scale c| -> dsubmx z = head (c_ptype c) z \/ (th != 0 /\ dsubmx z = th *: head (c_ptype c) z).
  move=> H; have t0 : th != 0.
    by apply: contraTneq H => ->; rewrite mul0r normr0 ltr10.
  by rewrite {1 3}Ez2 /pair_; case Ty: (c_ptype c); rewrite col_mxKd; try (by right); left.
rewrite /extract cfg_p /nmat (e_mats S) /=.
case: (c_extract c) Ex => // _.
- by exists (usubmx z); split=> //; apply: Ok1.
- case: ifP => H.
    by exists (dsubmx z); split=> //; apply: Ok1; apply: D1.
  by exists (usubmx z); split=> //; apply: Ok1.
- rewrite /for_ /=.
  have [_ /R2 ->] := Ok1 _ U1; case: ifP => [/(le_lt_trans (R1 _))|_]; first by rewrite ltxx.
  by exists (usubmx z); split=> //; apply: Ok1.
Qed.

Lemma explicit_complete lam (x : vec) : x != 0 -> quad K C M lam *m x = 0 ->
  exists th (z : 'cV[F]_(n + n)), [/\ z != 0, A *m z = th *: (B *m z) & pep_value p th = lam].
Proof.
move=> x0 Q; have s0 := e_scale S; exists (lam / c_scale c), (pair_ (c_ptype c) (lam / c_scale c) x); split.
- rewrite /pair_; case: (c_ptype c); apply: contraNneq x0 => E;
    by have := congr1 usubmx E; have := congr1 dsubmx E; rewrite col_mxKu col_mxKd !linear0 => E1 E2; rewrite ?E1 ?E2.
- by apply: forward; rewrite ?(e_dscale S) // divfK.
- by rewrite value_p divfK.
Qed.
End ExplicitWhole.

(** Structure of the linearizations. *)
Section Structure.
Variable F : numFieldType.
Variable n : nat.
Variable conj : {rmorphism F -> F}.
Definition adj m1 m2 (X : 'M[F]_(m1, m2)) : 'M[F]_(m2, m1) := (map_mx conj X)^T.
Variables (a b s ds : F) (K C M : 'M[F]_n).
Hypothesis Ra : conj a = a.
Hypothesis Rb : conj b = b.
Hypothesis Rs : conj s = s.
Hypothesis Rd : conj ds = ds.
Hypothesis HK : adj K = K.
Hypothesis HM : adj M = M.

Lemma adjD m1 m2 (X Y : 'M[F]_(m1, m2)) : adj (X + Y) = adj X + adj Y.
Proof. by rewrite /adj map_mxD linearD. Qed.
Lemma adjN m1 m2 (X : 'M[F]_(m1, m2)) : adj (- X) = - adj X.
Proof. by rewrite /adj map_mxN linearN. Qed.
Lemma adjZ m1 m2 e (X : 'M[F]_(m1, m2)) : adj (e *: X) = conj e *: adj X.
Proof. by rewrite /adj map_mxZ linearZ. Qed.
Lemma adj_block (X Y Z W : 'M[F]_n) : adj (block_mx X Y Z W) = block_mx (adj X) (adj Z) (adj Y) (adj W).
Proof. by rewrite /adj map_block_mx tr_block_mx. Qed.

Lemma S_hermitian : adj C = C ->
  adj (explicit_SA a b s ds K C M) = explicit_SA a b s ds K C M /\
  adj (explicit_SB a b s ds K C M) = explicit_SB a b s ds K C M.
Proof.
move=> HC; rewrite SA_E SB_E !adj_block; split; congr block_mx;
  by rewrite ?adjD ?adjN !adjZ ?rmorphM ?rmorphN /= ?Ra ?Rb ?Rs ?Rd ?HK ?HC ?HM ?rmorphX /= ?Rs.
Qed.

(** J=[0 I;-I 0] *)
Definition J : 'M[F]_(n + n) := block_mx 0 1%:M (- 1%:M) 0.
Lemma H_hamiltonian : adj C = - C -> a * b = 0 ->
  let e := if b == 0 then 1 else -1 in
  adj (J *m explicit_HA a b s ds K C M) = - e *: (J *m explicit_HA a b s ds K C M) /\
  adj (J *m explicit_HB a b s ds K C M) = e *: (J *m explicit_HB a b s ds K C M).
Proof.
move=> HC ab0 e; rewrite HA_E HB_E /J !mulmx_block !mul0mx !mul1mx !mulNmx !mul1mx !add0r !addr0 !adj_block !scale_block_mx.
have HE : (b = 0 /\ e = 1) \/ (a = 0 /\ e = -1).
  rewrite /e; case: (eqVneq b 0) => b0; [by left | right; split=> //].
  by move/eqP: ab0; rewrite mulf_eq0 (negbTE b0) orbF => /eqP.
split; congr block_mx;
  rewrite ?adjD ?adjN ?adjD !adjZ ?rmorphM ?rmorphN /= ?Ra ?Rb ?Rs ?Rd ?HK ?HC ?HM ?rmorphX /= ?Rs;
  case: HE => -[v1 v2]; rewrite ?v1 ?v2; apply/matrixP => i j; rewrite !mxE;
  move: (K i j) (C i j) (M i j) => k1 c1 m1; ring.
Qed.
End Structure.
