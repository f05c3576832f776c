(** Polynomial eigenproblems: property theorems. *)
From mathcomp Require Import all_ssreflect all_algebra zify ring.
From mathcomp Require Import complex.
From Verif Require Import Prelude STModel STSpec STProps PEPModel PEPSpec PEPProofs PEPProofs2 PEPProofs3 PEPProofs4 PEPProofs5 PEPProofs6.
Set Implicit Arguments. Unset Strict Implicit. Unset Printing Implicit Defensive.
Import Order.TTheory GRing.Theory Num.Theory.
Local Open Scope ring_scope.

(** ** C41: polynomial bases *)
Section C41.
Variable F : numFieldType.

(** The values and the derivatives computed with the coefficients of the basis are those of the polynomials of
    that name. *)
Theorem C41_basis_values bs nm (q junk : seq F) z : faithful bs -> (1 < nm)%N -> size q = (3 * nm)%N -> size junk = nm ->
  exists q', [/\ basis_coefficients bs nm q = Ok q',
    eval_basis nm q' z junk = Ok (mkseq (fun k => (bpoly F bs k).[z]) nm) &
    eval_derivative nm q' z junk = Ok (mkseq (fun k => ((bpoly F bs k)^`()).[z]) nm)].
Proof.
move=> B H Sq Sj; exists (tri nm (ca_ F bs) (cb_ F bs) (cg_ F bs)).
rewrite basis_coefficientsE ?eval_basisE ?eval_derivativeE //; last by lia.
by split=> //; congr Ok; apply: eq_mk => k Hk; rewrite /phi /dphi classical.
Qed.

(** For every basis, also the three whose name does not fit, the functions are polynomials of degrees 0, 1, 2, ...,
    the derivatives are those of the same polynomials, and the residual vector is that of the polynomial built on them. *)
Theorem C41_every_basis bs nm (q junk : seq F) : (1 < nm)%N -> size q = (3 * nm)%N -> size junk = nm ->
  exists q' (P : nat -> {poly F}), [/\ basis_coefficients bs nm q = Ok q', forall k, size (P k) = k.+1,
    forall z, eval_basis nm q' z junk = Ok (mkseq (fun k => (P k).[z]) nm),
    forall z, eval_derivative nm q' z junk = Ok (mkseq (fun k => ((P k)^`()).[z]) nm) &
    forall n (A : seq 'M[F]_n) z x, size A = nm ->
      residual nm A q' z x junk = Ok ((\sum_(i < nm) (P i).[z] *: nth 0 A i) *m x)].
Proof.
move=> H Sq Sj; exists (tri nm (ca_ F bs) (cb_ F bs) (cg_ F bs)), (pphi (ca_ F bs) (cb_ F bs) (cg_ F bs)).
rewrite basis_coefficientsE //; last by lia.
split=> //; last by move=> n A z x SA; rewrite residualE.
- move=> k; apply: size_pphi => i _; case: bs => /=; rewrite ?oner_neq0 ?invr_eq0 ?pnatr_eq0 //.
  + by case: i => [|i]; rewrite ?oner_neq0 ?invr_eq0 ?pnatr_eq0.
  + by case: i => [|i]; rewrite ?oner_neq0 ?pnatr_eq0 ?addn1.
  + by case: i => [|i]; rewrite ?oppr_eq0 ?oner_neq0 ?pnatr_eq0 ?addn1.
- by move=> z; rewrite eval_basisE.
- by move=> z; rewrite eval_derivativeE.
Qed.

(** The vector whose norm is the residual norm is P(z)x. *)
Theorem C41_residual bs nm (q junk : seq F) n (A : seq 'M[F]_n) z x :
  faithful bs -> (1 < nm)%N -> size q = (3 * nm)%N -> size junk = nm -> size A = nm ->
  exists q', basis_coefficients bs nm q = Ok q' /\ residual nm A q' z x junk = Ok (mpoly bs A z *m x).
Proof.
move=> B H Sq Sj SA; exists (tri nm (ca_ F bs) (cb_ F bs) (cg_ F bs)).
rewrite basis_coefficientsE ?residualE //; last by lia.
split=> //; congr (Ok (_ *m _)); rewrite /mpoly SA; apply: eq_bigr => i _; by rewrite /phi classical.
Qed.
End C41.

Section C41real.
Variable R : rcfType.
Local Open Scope complex_scope.
Notation Cx := [numFieldType of R[i]].

Lemma ca_C bs k : (ca_ R bs k)%:C = ca_ Cx bs k.
Proof. by case: bs => //=; rewrite ?fmorphV ?rmorph_nat //; case: k => [|k]; rewrite ?rmorphN ?fmorphV ?rmorph_nat ?rmorph1. Qed.
Lemma cb_C bs k : (cb_ R bs k)%:C = cb_ Cx bs k.
Proof. by case: bs => //=; case: k => [|k]; rewrite ?rmorphN ?rmorph_nat. Qed.
Lemma cg_C bs k : (cg_ R bs k)%:C = cg_ Cx bs k.
Proof. by case: bs => //=; case: k => [|k]; rewrite ?rmorphN ?fmorphV ?rmorph_nat. Qed.
Lemma pphi_ext (F : fieldType) (a b g a' b' g' : nat -> F) : a =1 a' -> b =1 b' -> g =1 g' ->
  pphi a b g =1 pphi a' b' g'.
Proof.
move=> Ha Hb Hg k.
suff : pphi a b g k = pphi a' b' g' k /\ pphi a b g k.+1 = pphi a' b' g' k.+1 by case.
elim: k => [|k [I1 I2]]; first by rewrite /= Ha Hb.
split=> //; change ((a k.+1)^-1 *: (('X - (b k.+1)%:P) * pphi a b g k.+1 - (g k.+1) *: pphi a b g k) =
  (a' k.+1)^-1 *: (('X - (b' k.+1)%:P) * pphi a' b' g' k.+1 - (g' k.+1) *: pphi a' b' g' k)).
by rewrite I1 I2 Ha Hb Hg.
Qed.
Lemma cpphi bs k : faithful bs ->
  pphi (fun k => (ca_ R bs k)%:C) (fun k => (cb_ R bs k)%:C) (fun k => (cg_ R bs k)%:C) k = bpoly Cx bs k.
Proof.
move=> B; rewrite -(@classical Cx bs k B); apply: pphi_ext => i; by rewrite ?ca_C ?cb_C ?cg_C.
Qed.

(** With real scalars the two arrays hold the real and imaginary parts of the values at the complex number s+ti. *)
Theorem C41_real_arithmetic bs nm (q v w : seq R) (s t : R) :
  faithful bs -> (1 < nm)%N -> size q = (3 * nm)%N -> size v = nm -> size w = nm ->
  exists q', [/\ basis_coefficients bs nm q = Ok q',
    eval_basis_ri nm q' s t (v, w) = Ok (mkseq (fun k => re (bpoly Cx bs k).[s +i* t]) nm,
                                         mkseq (fun k => im (bpoly Cx bs k).[s +i* t]) nm) &
    eval_derivative_ri nm q' s t (v, w) = Ok (mkseq (fun k => re ((bpoly Cx bs k)^`()).[s +i* t]) nm,
                                              mkseq (fun k => im ((bpoly Cx bs k)^`()).[s +i* t]) nm)].
Proof.
move=> B H Sq Sv Sw; exists (tri nm (ca_ R bs) (cb_ R bs) (cg_ R bs)).
rewrite basis_coefficientsE ?eval_basis_riE ?eval_derivative_riE //; last by lia.
by split=> //; congr (Ok (_, _)); apply: eq_mk => k Hk; rewrite /phi /dphi cpphi.
Qed.

(** The two real vectors are the real and imaginary parts of P(s+ti)(xr+i xi), if the imaginary part of the
    eigenvalue is not negligible; for a real eigenvalue the first one is P(s)xr. *)
Theorem C41_real_residual bs nm (q v w : seq R) n (A : seq 'M[R]_n) (s t eps : R) (xr xi w0 wi0 : 'cV[R]_n) :
  faithful bs -> (1 < nm)%N -> size q = (3 * nm)%N -> size v = nm -> size w = nm -> size A = nm ->
  exists q', basis_coefficients bs nm q = Ok q' /\
  ((t != 0) && (`|s * eps| <= `|t|) -> exists u ui, residual_ri eps nm A q' s t xr xi (v, w) w0 wi0 = Ok (u, ui) /\
      mpoly bs [seq cmx X 0 | X <- A] (s +i* t) *m cmx xr xi = cmx u ui) /\
  (t = 0 -> residual_ri eps nm A q' s t xr xi (v, w) w0 wi0 = Ok (mpoly bs A s *m xr, 0)).
Proof.
move=> B H Sq Sv Sw SA; exists (tri nm (ca_ R bs) (cb_ R bs) (cg_ R bs)).
rewrite basis_coefficientsE ?residual_riE //; last by lia.
split=> //; split=> [/andP [t0 Ht]|->].
  rewrite (negbTE t0) -leNgt Ht /=; do 2 eexists; split; first by reflexivity.
  rewrite -residual_complex; congr (_ *m _); rewrite /mpoly size_map SA; apply: eq_bigr => i _.
  by rewrite /phi cpphi // (nth_map 0) // SA.
rewrite eqxx /=; congr (Ok (_, _)); rewrite /mpoly SA mulmx_suml; apply: eq_bigr => i _.
rewrite /phi cpphi // -scalemxAl; congr (_ *: _).
have -> : bpoly Cx bs i = map_poly (real_complex R) (bpoly R bs i); last by rewrite -[s +i* 0]/(s%:C) horner_map.
rewrite -(classical R i B) -cpphi //.
have Hk : forall k, pphi (fun k => (ca_ R bs k)%:C) (fun k => (cb_ R bs k)%:C) (fun k => (cg_ R bs k)%:C) k =
   map_poly (real_complex R) (pphi (ca_ R bs) (cb_ R bs) (cg_ R bs) k) /\
   pphi (fun k => (ca_ R bs k)%:C) (fun k => (cb_ R bs k)%:C) (fun k => (cg_ R bs k)%:C) k.+1 =
   map_poly (real_complex R) (pphi (ca_ R bs) (cb_ R bs) (cg_ R bs) k.+1); last by have [] := Hk i.
elim=> [|k [I1 I2]].
  by rewrite /= rmorph1 map_polyZ rmorphB /= map_polyX map_polyC /= fmorphV.
split=> //.
change (((ca_ R bs k.+1)%:C)^-1 *: (('X - ((cb_ R bs k.+1)%:C)%:P) *
   pphi (fun k => (ca_ R bs k)%:C) (fun k => (cb_ R bs k)%:C) (fun k => (cg_ R bs k)%:C) k.+1 - ((cg_ R bs k.+1)%:C) *:
   pphi (fun k => (ca_ R bs k)%:C) (fun k => (cb_ R bs k)%:C) (fun k => (cg_ R bs k)%:C) k) =
   map_poly (real_complex R) ((ca_ R bs k.+1)^-1 *: (('X - (cb_ R bs k.+1)%:P) * pphi (ca_ R bs) (cb_ R bs) (cg_ R bs) k.+1 -
     (cg_ R bs k.+1) *: pphi (ca_ R bs) (cb_ R bs) (cg_ R bs) k))).
by rewrite I1 I2 map_polyZ rmorphB rmorphM rmorphB /= !map_polyZ map_polyX map_polyC /= fmorphV.
Qed.
End C41real.

(** Legendre, Laguerre and Hermite: the coefficients are not those of the polynomials of that name. *)
Definition basis_value (bs : basis) (nm : nat) (z : rat) (k : nat) : res rat :=
  do q <- basis_coefficients bs nm (nseq (3 * nm) 0); do v <- eval_basis nm q z (nseq nm 0); rd v k.
Lemma Ok_neq (x y : rat) : x != y -> Ok x <> Ok y. Proof. by move=> /eqP N [] /N. Qed.
Lemma basis_valueE bs nm z k : (1 < nm)%N -> (k < nm)%N ->
  basis_value bs nm z k = Ok (phi (ca_ _ bs) (cb_ _ bs) (cg_ _ bs) z k).
Proof.
move=> H Hk; rewrite /basis_value basis_coefficientsE ?size_nseq //; last by lia.
by bok; rewrite eval_basisE ?size_nseq //; bok; rewrite rd_mk.
Qed.
Theorem C41_legendre_refuted : exists z k, basis_value Legendre 3 z k <> Ok (bpoly _ Legendre k).[z].
Proof.
exists (-1), 2%N; rewrite basis_valueE // phiSS phi1 phi0.
have -> : (bpoly [fieldType of rat] Legendre 2).[-1] = 1.
  rewrite /bpoly; have -> : ('X^2 - 1) ^+ 2 = 'X^4 - 2%:R *: 'X^2 + 1%:P :> {poly rat}.
    by rewrite scaler_nat polyC1; ring.
  rewrite derivnS derivn1 derivD derivB derivZ !derivXn derivC addr0 derivB derivZ !derivMn !derivXn /=.
  rewrite hornerZ hornerD hornerN hornerZ !hornerMn hornerXn.
  by rewrite expr0 hornerC; apply/eqP.
by apply: Ok_neq.
Qed.
Theorem C41_laguerre_refuted : exists z k, basis_value Laguerre 3 z k <> Ok (bpoly _ Laguerre k).[z].
Proof.
exists 0, 1%N; rewrite basis_valueE // phi1.
have -> : (bpoly [fieldType of rat] Laguerre 1).[0] = 1.
  by rewrite /bpoly !big_ord_recr big_ord0 /= !hornerE ?hornerXn; apply/eqP.
by apply: Ok_neq.
Qed.
(** Neither the physicists' nor the probabilists' polynomials. *)
Theorem C41_hermite_refuted : exists z k, basis_value Hermite 3 z k <> Ok (bpoly _ Hermite k).[z] /\
  basis_value Hermite 3 z k <> Ok (hermite_prob _ k).[z].
Proof.
exists 0, 2%N; rewrite basis_valueE // phiSS phi1 phi0.
have -> : (bpoly [fieldType of rat] Hermite 2).[0] = - 2%:R.
  rewrite /= derivC subr0 mulr1 derivZ derivX hornerD hornerN !hornerZ hornerM !hornerX mul0r hornerC.
  by apply/eqP.
have -> : (hermite_prob [fieldType of rat] 2).[0] = - 1.
  rewrite /= derivC subr0 mulr1 derivX hornerD hornerN hornerM !hornerX mul0r hornerC.
  by apply/eqP.
by split; apply: Ok_neq.
Qed.

Example ex_C41 : faithful Chebyshev1 /\ (1 < 4)%N /\ size (nseq 12 (0 : rat)) = (3 * 4)%N /\
  basis_value Chebyshev1 4 2%:R 3 = Ok 26%:R.
Proof. by split=> //; split=> //; split=> //; rewrite basis_valueE // !phiSS phi1 phi0; congr Ok; apply/eqP. Qed.

(** ** C42: the implicit linearization *)
(** The object after PEPSetUp: [junk] is what the fresh array contains, [ds] the scaling of the matrices. *)
Definition prepared (F : numFieldType) n (c : config F n) ts p : Prop :=
  exists p0 junk ds, [/\ create c = Ok p0, size junk = nmat c & setup p0 ts junk ds = Ok p].

Section C42.
Variable F : numFieldType.
Variable n : nat.
Notation mat := 'M[F]_n.
Notation vec := 'cV[F]_n.
Variables (c : config F n) (ts : seq mat).

Lemma created p0 : create c = Ok p0 ->
  [/\ (2 < size (c_mats c))%N, cfg p0 = c, size (pbc p0) = (3 * nmat c)%N & st_sigma p0 = c_shift c].
Proof.
rewrite /create; case: ltnP => //= H [<-]; split=> //=.
by rewrite size_cat !size_nseq; lia.
Qed.
Lemma preparedE p : supported c ts -> prepared c ts p ->
  exists p0, [/\ create c = Ok p0, st_sigma p0 = c_shift c & p = set_up_state c ts p0].
Proof.
move=> S [p0 [junk [ds [E1 Sj E2]]]]; have [H1 H2 H3 H4] := created E1.
exists p0; split=> //; move: E2; rewrite (@setupE _ _ c) //; first by case.
- exact: s_basis S.
- exact: s_type S.
- exact: s_implicit S.
- by move=> T; have [] := s_transform S T.
Qed.

(** PEPSetUp succeeds for every supported configuration. *)
Theorem C42_setup (junk : seq F) ds : supported c ts -> size junk = nmat c ->
  exists p0 p, create c = Ok p0 /\ setup p0 ts junk ds = Ok p.
Proof.
move=> S Sj.
have [p0 E] : exists p0, create c = Ok p0 by rewrite /create (s_size S); eexists.
have [H1 H2 H3 H4] := created E.
exists p0, (set_up_state c ts p0); split=> //; apply: setupE => //.
- exact: s_basis S.
- exact: s_type S.
- exact: s_implicit S.
- by move=> T; have [] := s_transform S T.
Qed.

(** Every eigenpair of the operator given to the EPS, but for the infinite eigenvalues, gives an eigenpair of the
    polynomial: the value and the vector reported. [rn] is the residual norm used by PEP_EXTRACT_RESIDUAL. *)
Theorem C42_sound p (rn : vec -> F) th z : supported c ts -> prepared c ts p ->
  size z = (size (c_mats c)).-1 -> has (fun v => v != 0) z -> (c_type c = Sinvert -> th != 0) ->
  (forall y, 0 <= rn y) -> (forall y, mpoly (c_basis c) (c_mats c) (pep_value p th) *m y = 0 -> rn y = 0) ->
  apply p z = Ok (map (fun v => th *: v) z) ->
  exists x, extract p rn (pep_value p th) z = Ok x /\ eigenpair (c_basis c) (c_mats c) (pep_value p th) x.
Proof. by move=> S /(preparedE S) [p0 [E1 E2 ->]]; apply: pep_sound. Qed.

(** Every eigenpair of the polynomial comes from an eigenpair of the operator. *)
Theorem C42_complete p lam (x : vec) : supported c ts -> prepared c ts p ->
  eigenpair (c_basis c) (c_mats c) lam x -> solve_matrix c ts \in unitmx ->
  (c_type c = Sinvert -> lam != c_shift c) ->
  exists th z, [/\ size z = (size (c_mats c)).-1, nth 0 z 0 = x, apply p z = Ok (map (fun v => th *: v) z),
    pep_value p th = lam & c_type c = Sinvert -> th != 0].
Proof. by move=> S /(preparedE S) [p0 [E1 E2 ->]]; apply: pep_complete. Qed.

(** After the solve the shift and the target are those the user gave, the basis is evaluated as before (this is
    used for the errors), and a new PEPSetUp gives the same object. *)
Theorem C42_again p : supported c ts -> prepared c ts p ->
  exists p', [/\ solved p = Ok p', st_sigma p' = c_shift c,
    ~~ c_transform c -> eps_target p' = odflt (c_target c) (c_user c),
    forall z junk, size junk = nmat c -> eval_basis (nmat c) (pbc p') z junk =
      Ok (mkseq (fun k => (bpoly F (c_basis c) k).[z]) (nmat c)) &
    forall junk ds, size junk = nmat c -> setup p' ts junk ds = Ok p].
Proof.
move=> S /(preparedE S) [p0 [E1 E2 ->]].
have [p' [[S1 S2 S3 S4 S5] S6]] := set_up_again S E2; exists p'; split=> //.
- move=> T; rewrite S5 /target_of T /=; move: E1; rewrite /create; case: ltnP => //= _ [<-] /=.
  by case: (c_user c).
- move=> z junk Sj; have n1 : (1 < nmat c)%N by apply: ltnW (s_size S).
  have [q [Q1 Q2 _]] := C41_basis_values z (s_basis S) n1 (size_nseq (3 * nmat c) (0 : F)) Sj.
  by rewrite S3; move: Q1; rewrite basis_coefficientsE ?size_nseq //; [case=> -> | exact: ltnW].
move=> junk ds Sj; rewrite (@setupE _ _ c) ?S6 //.
- exact: s_size S.
- exact: s_basis S.
- exact: s_type S.
- exact: s_implicit S.
- by move=> T; have [] := s_transform S T.
by rewrite S3 /tri !size_cat !size_mkseq; lia.
Qed.
End C42.

Section Initial.
Variable F : numFieldType.
Variable n : nat.
Definition initial (c : config F n) : pep F n :=
  Pep c (nseq (nmat c) 1 ++ nseq (2 * nmat c) 0) None (c_shift c) (c_mats c) None (odflt 0 (c_user c)) None.
Lemma prepared_initial (c : config F n) ts : (2 < size (c_mats c))%N -> faithful (c_basis c) -> c_type c <> Cayley ->
  [/\ c_explicit c = false, c_ptype c = General, c_alpha c = 1 & c_beta c = 0] ->
  (c_transform c -> c_basis c = Monomial /\ size ts = size (c_mats c)) ->
  prepared c ts (set_up_state c ts (initial c)).
Proof.
move=> H1 H2 H3 H4 H5; exists (initial c), (nseq (nmat c) 0), 1; split.
- by rewrite /create H1.
- by rewrite size_nseq.
by apply: setupE => //=; rewrite ?size_nseq // size_cat !size_nseq; lia.
Qed.
Lemma apply_sinvert (c : config F n) d T m x : (1 < d)%N -> size T = d.+1 -> c_mats c = T -> c_type c = Sinvert ->
  c_transform c = false -> c_target c = 0 -> solve_matrix c [::] = m -> m \in unitmx -> c_user c = None -> c_scale c = 1 ->
  apply (set_up_state c [::] (initial c)) (mkseq x d) = Ok (mkseq (fun i =>
    hy (ca_ F (c_basis c)) (cb_ F (c_basis c)) (cg_ F (c_basis c)) 0 x i +
    phi (ca_ F (c_basis c)) (cb_ F (c_basis c)) (cg_ F (c_basis c)) 0 i *:
      top (ca_ F (c_basis c)) (cb_ F (c_basis c)) (cg_ F (c_basis c)) d T m (set_up_state c [::] (initial c)) 0 x) d).
Proof.
move=> d2 sT EM Et Ef Eg Em U Eu Es; rewrite /apply /= Et Ef /=.
have dN : nmat c = d.+1 by rewrite /nmat EM.
have {}sT : (d < size T)%N by rewrite sT.
rewrite (@mult_sinvertE _ _ (ca_ F (c_basis c)) (cb_ F (c_basis c)) (cg_ F (c_basis c)) d T m _ d2 sT _ _ _ _ 0) ?U //=.
- rewrite dN; apply: eq_tri => i Hi; by rewrite Es ?mulr1 ?divr1.
- by rewrite Ef.
- by rewrite Em.
by rewrite /target_of Ef Eu /= Eg mul0r.
Qed.
End Initial.

(** A cubic problem in the Chebyshev basis with scaling and a shift; a quadratic one with shift-and-invert. *)
Example ex_C42 : let A : seq 'M[rat]_2 := [:: 1%:M; 2%:R%:M; 0; 3%:R%:M] in
  let c := Config A Chebyshev1 Shift false 1 0 2%:R General false 1 0 XNorm None in
  supported c [::] /\ size (nseq 4 (7%:R : rat)) = nmat c.
Proof. by move=> A c; split=> //; apply: Supported. Qed.
Example ex_C42_sinvert : let A : seq 'M[rat]_2 := [:: 1%:M; 2%:R%:M; 3%:R%:M] in
  let c := Config A Chebyshev2 Sinvert false (-1) (-1) 2%:R General false 1 0 XResidual None in
  supported c [::].
Proof. by move=> A c; apply: Supported=> //; split=> //; right. Qed.
Example ex_C42_transform : let A : seq 'M[rat]_1 := [:: 2%:R%:M; (- 3%:R)%:M; 1%:M] in
  let c := Config A Monomial Shift true 2%:R 0 1 General false 1 0 XNone None in
  supported c [:: 0; 1%:M; 1%:M].
Proof.
move=> A c; apply: Supported => //= _; split=> // z.
rewrite /peval /= !big_ord_recr !big_ord0 /=; apply/matrixP => i j; rewrite !mxE !ord1 /= !mulr1n.
ring.
Qed.

(** *** Counterexamples outside the supported options *)
Notation sc x := (x%:M : 'M[rat]_1).
Notation vc x := (const_mx x : 'cV[rat]_1).
Lemma sc_mul (x y : rat) : sc x *m vc y = vc (x * y).
Proof. by apply/colP => i; rewrite mul_scalar_mx !mxE. Qed.
Lemma vc_Z (x y : rat) : x *: vc y = vc (x * y).
Proof. by apply/colP => i; rewrite !mxE. Qed.
Lemma vc_D (x y : rat) : vc x + vc y = vc (x + y).
Proof. by apply/colP => i; rewrite !mxE. Qed.
Lemma vc_N (x : rat) : - vc x = vc (- x).
Proof. by apply/colP => i; rewrite !mxE. Qed.
Lemma vc_0 : (0 : 'cV[rat]_1) = vc 0. Proof. by apply/colP => i; rewrite !mxE. Qed.
Lemma sc_Z (x y : rat) : x *: sc y = sc (x * y).
Proof. by rewrite scale_scalar_mx. Qed.
Lemma sc_D (x y : rat) : sc x + sc y = sc (x + y).
Proof. by rewrite raddfD. Qed.

Notation ca c := (ca_ rat (c_basis c)).
Notation sb c := (fun i => cb_ rat (c_basis c) i / c_scale c).
Notation sg c := (fun i => cg_ rat (c_basis c) i / (c_scale c * c_scale c)).

(** Shift-and-invert, not the monomial basis, degree 3: MatMult_Linear_Sinvert uses the wrong matrix in the last
    block (linear.c:165-172). *)
Definition c_cheb3 : config [numFieldType of rat] 1 :=
  Config [:: sc 2%:R; sc 2%:R; sc 1; sc 0] Chebyshev1 Sinvert false 0 0 1 General false 1 0 XNone None.
Theorem C42_sinvert_degree3_refuted : exists p th z, [/\ prepared c_cheb3 [::] p, has (fun v => v != 0) z, th != 0,
  apply p z = Ok (map (fun v => th *: v) z) &
  forall x : 'cV[rat]_1, x != 0 -> mpoly (c_basis c_cheb3) (c_mats c_cheb3) (pep_value p th) *m x != 0].
Proof.
have Em : solve_matrix c_cheb3 [::] = 1%:M.
  rewrite /solve_matrix [LHS](@mpolyE _ _ c_cheb3 0) // /nmat [size _]/= !big_ord_recr big_ord0 /= !phiSS phi1 phi0 /ca_ /cb_ /cg_ /=.
  by rewrite !sc_Z add0r !sc_D; congr scalar_mx; apply/eqP.
pose x (i : nat) : 'cV[rat]_1 := vc (nth 0 [:: -1; 1; -1] i).
exists (set_up_state c_cheb3 [::] (initial c_cheb3)), (-1), (mkseq x 3); split.
- exact: prepared_initial.
- by apply/hasP; exists (vc 1); [apply/mapP; exists 1%N | apply/eqP => /colP /(_ 0) /eqP; rewrite !mxE].
- by [].
- rewrite (@apply_sinvert _ _ c_cheb3 3 (c_mats c_cheb3) 1%:M _ _ _ _ _ _ _ Em) ?unitmx1 //.
  set sg := cg_ _ _; set sa := ca_ _ _; set sb := cb_ _ _.
  have h1 : hy sa sb sg 0 x 1 = vc (-1).
    by rewrite hyS /= vc_0 !vc_Z !vc_N !vc_D vc_Z /x /sa /sb /=; congr const_mx; apply/eqP.
  have h2 : hy sa sb sg 0 x 2 = vc 2%:R.
    by rewrite hyS h1 /= vc_0 !vc_Z !vc_N !vc_D vc_Z /x /sa /sb /sg /=; congr const_mx; apply/eqP.
  have Et : top sa sb sg 3 (c_mats c_cheb3) 1%:M (set_up_state c_cheb3 [::] (initial c_cheb3)) 0 x = vc 1.
    rewrite /top /rhs invmx1 mul1mx big_nat_recr // big_nat1 [3.-1]/= [3.-2]/= h1 h2 !expr1n ?expr1 /x /sa /sb /sg /=.
    by rewrite !vc_Z !vc_D ?sc_mul !vc_Z !vc_D vc_N; congr const_mx; apply/eqP.
  rewrite Et; congr Ok.
  rewrite -[RHS]/(mkseq (fun i => -1 *: x i) 3); apply: eq_mk => [[|[|[|i]]]] // _.
  - by rewrite phi0 [hy _ _ _ _ _ _]/= vc_0 !vc_Z vc_D; congr const_mx; apply/eqP.
  - by rewrite h1 phi1 !vc_Z vc_D; congr const_mx; apply/eqP.
  - by rewrite h2 phiSS phi1 phi0 !vc_Z vc_D; congr const_mx; apply/eqP.
move=> y y0.
have -> : pep_value (set_up_state c_cheb3 [::] (initial c_cheb3)) (-1) = -1 by apply/eqP.
rewrite (@mpolyE _ _ c_cheb3) // /nmat [size _]/= !big_ord_recr big_ord0 /= !phiSS phi1 phi0 /ca_ /cb_ /cg_ /=.
rewrite !sc_Z add0r !sc_D mul_scalar_mx scaler_eq0 negb_or y0 andbT.
by [].
Qed.

(** Shift-and-invert with the shift given by the user and different from the target: the operator is built for the
    target and the eigenvalues are transformed with the shift. *)
Definition c_target_shift : config [numFieldType of rat] 1 :=
  Config [:: sc 1; sc (- 3%:R); sc 2%:R] Monomial Sinvert false 1 0 1 General false 1 0 XNone None.
Theorem C42_shift_target_refuted : exists p th z, [/\ prepared c_target_shift [::] p, has (fun v => v != 0) z, th != 0,
  apply p z = Ok (map (fun v => th *: v) z) &
  forall x : 'cV[rat]_1, x != 0 -> mpoly Monomial (c_mats c_target_shift) (pep_value p th) *m x != 0].
Proof.
set c := c_target_shift.
have Em : solve_matrix c [::] = 1%:M.
  rewrite /solve_matrix [LHS](@mpolyE _ _ c 0) // /nmat [size _]/= !big_ord_recr big_ord0 /= !phiSS phi1 phi0 /ca_ /cb_ /cg_ /=.
  by rewrite !sc_Z add0r !sc_D; congr scalar_mx; apply/eqP.
pose x (i : nat) : 'cV[rat]_1 := vc 1.
exists (set_up_state c [::] (initial c)), 1, (mkseq x 2); split.
- exact: prepared_initial.
- by apply/hasP; exists (vc 1); [apply/mapP; exists 1%N | apply/eqP => /colP /(_ 0) /eqP; rewrite !mxE].
- by [].
- rewrite (@apply_sinvert _ _ c 2 (c_mats c) 1%:M _ _ _ _ _ _ _ Em) ?unitmx1 //.
  set sg := cg_ _ _; set sa := ca_ _ _; set sb := cb_ _ _.
  have h1 : hy sa sb sg 0 x 1 = vc 1.
    by rewrite hyS /= vc_0 !vc_Z !vc_N !vc_D vc_Z /x /sa /sb /=; congr const_mx; apply/eqP.
  have Et : top sa sb sg 2 (c_mats c) 1%:M (set_up_state c [::] (initial c)) 0 x = vc 1.
    rewrite /top /rhs invmx1 mul1mx big_nat1 [2.-1]/= [2.-2]/= h1 /= !expr1n ?expr1 /x /sa /sb /sg /= vc_0.
    by rewrite !vc_Z !vc_D ?sc_mul !vc_Z !vc_D vc_N; congr const_mx; apply/eqP.
  rewrite Et; congr Ok.
  rewrite -[RHS]/(mkseq (fun i => 1 *: x i) 2); apply: eq_mk => [[|[|i]]] // _.
  - by rewrite phi0 [hy _ _ _ _ _ _]/= vc_0 !vc_Z vc_D; congr const_mx; apply/eqP.
  - by rewrite h1 phi1 !vc_Z vc_D; congr const_mx; apply/eqP.
move=> y y0.
have -> : pep_value (set_up_state c [::] (initial c)) 1 = 2%:R by apply/eqP.
rewrite (@mpolyE _ _ c) // /nmat [size _]/= !big_ord_recr big_ord0 /= !phiSS phi1 phi0 /ca_ /cb_ /cg_ /=.
rewrite !sc_Z add0r !sc_D mul_scalar_mx scaler_eq0 negb_or y0 andbT.
by [].
Qed.

(** PEP_EXTRACT_NORM looks at the size of the eigenvalue of the polynomial; with STSetTransform the blocks of the
    eigenvector are powers of the eigenvalue of the transformed polynomial, which may be zero: the vector reported
    for a correct eigenvalue is zero. *)
Definition c_norm : config [numFieldType of rat] 1 :=
  Config [:: sc 2%:R; sc (- 3%:R); sc 1] Monomial Shift true 2%:R 0 1 General false 1 0 XNorm None.
Theorem C42_norm_transform_refuted (rn : 'cV[rat]_1 -> rat) : exists p th z,
  [/\ transformed Shift (c_shift c_norm) (c_mats c_norm) [:: sc 0; sc 1; sc 1],
      prepared c_norm [:: sc 0; sc 1; sc 1] p, has (fun v => v != 0) z,
      apply p z = Ok (map (fun v => th *: v) z) & extract p rn (pep_value p th) z = Ok 0].
Proof.
set c := c_norm; set ts := [:: _; _; _].
pose x (i : nat) : 'cV[rat]_1 := if i is 0 then vc 1 else 0.
exists (set_up_state c ts (initial c)), 0, (mkseq x 2); split.
- move=> z; rewrite /peval /= !big_ord_recr !big_ord0 /=; apply/matrixP => i j; rewrite !mxE !ord1 /= !mulr1n.
  ring.
- exact: prepared_initial.
- by apply/hasP; exists (vc 1); [apply/mapP; exists 0%N | apply/eqP => /colP /(_ 0) /eqP; rewrite !mxE].
- rewrite /apply [is_sinvert _ && _]/=.
  rewrite (@mult_shiftE _ _ (ca_ _ Monomial) (cb_ _ Monomial) (cg_ _ Monomial) 2 ts (sc 1) _ _ _ _ _ _) ?unitmx1 //.
  + congr Ok; rewrite -[RHS]/(mkseq (fun i => 0 *: x i) 2); apply: eq_mk => [[|[|i]]] // _.
      by rewrite /row_ /next /= /cb_ /ca_ subr0 !scale0r scaler0 !add0r.
    rewrite /row_ /next /= /ghost invmx1 mul1mx !big_ord_recr big_ord0 /= mulmx0 !scaler0 !add0r !addr0.
    by rewrite raddf0 mul0mx !scaler0 scale0r add0r.
have -> : pep_value (set_up_state c ts (initial c)) 0 = 2%:R by apply/eqP.
by [].
Qed.

(** ** C43: the explicit linearizations of quadratic problems *)
Section C43.
Variable F : numFieldType.
Variable n : nat.
Variables (c : config F n) (ds : F) (K C M : 'M[F]_n) (p0 p : pep F n) (ts : seq 'M[F]_n) (junk : seq F).

Theorem C43_setup : explicit_supported c ds K C M ->
  exists q0 q A B, [/\ create c = Ok q0, setup q0 ts junk ds = Ok q & ab q = Some (A, B)].
Proof.
move=> S; have [q0 [E1 E2]] : exists q0, create c = Ok q0 /\ cfg q0 = c.
  by rewrite /create (e_mats S); eexists; split.
have [q [Q1 Q2 Q3]] := explicit_setup ts junk S E2; exists q0, q; eexists; eexists; split; eauto.
Qed.

Lemma create_cfg : create c = Ok p0 -> cfg p0 = c.
Proof. by rewrite /create; case: ltnP => //= _ [<-]. Qed.

(** Every eigenpair of the pencil (A,B) gives an eigenpair of K+lam*C+lam^2*M. *)
Theorem C43_sound (A B : 'M[F]_(n + n)) (rn : 'cV[F]_n -> F) th (z : 'cV[F]_(n + n)) :
  explicit_supported c ds K C M -> create c = Ok p0 -> setup p0 ts junk ds = Ok p -> ab p = Some (A, B) ->
  regular (c_ptype c) (c_alpha c) (c_beta c) (c_scale c) ds K C M ->
  z != 0 -> A *m z = th *: (B *m z) -> (c_ptype c = Gyroscopic -> th != 0) ->
  (forall y, 0 <= rn y) -> (forall y, quad K C M (pep_value p th) *m y = 0 -> rn y = 0) ->
  exists y, extract p rn (pep_value p th) [:: usubmx z; dsubmx z] = Ok y /\
    y != 0 /\ quad K C M (pep_value p th) *m y = 0.
Proof.
move=> S /create_cfg E0 Ep; rewrite (ab_p S E0 Ep) => -[<- <-] R z0 Ez G R1 R2.
exact: (explicit_sound S E0 Ep z0 Ez R G R1 R2).
Qed.

(** Every eigenpair of the quadratic problem comes from one of the pencil. *)
Theorem C43_complete (A B : 'M[F]_(n + n)) lam (x : 'cV[F]_n) :
  explicit_supported c ds K C M -> create c = Ok p0 -> setup p0 ts junk ds = Ok p -> ab p = Some (A, B) ->
  x != 0 -> quad K C M lam *m x = 0 ->
  exists th (z : 'cV[F]_(n + n)), [/\ z != 0, A *m z = th *: (B *m z) & pep_value p th = lam].
Proof.
move=> S /create_cfg E0 Ep; rewrite (ab_p S E0 Ep) => -[<- <-] x0 Q.
exact: (explicit_complete S E0 Ep x0 Q).
Qed.

(** The structure of the problem is kept. *)
Theorem C43_symmetric (conj : {rmorphism F -> F}) A B :
  explicit_supported c ds K C M -> create c = Ok p0 -> setup p0 ts junk ds = Ok p -> ab p = Some (A, B) ->
  c_ptype c = Hermitian \/ c_ptype c = Hyperbolic ->
  conj (c_alpha c) = c_alpha c -> conj (c_beta c) = c_beta c -> conj (c_scale c) = c_scale c -> conj ds = ds ->
  (map_mx conj K)^T = K -> (map_mx conj C)^T = C -> (map_mx conj M)^T = M ->
  (map_mx conj A)^T = A /\ (map_mx conj B)^T = B.
Proof.
move=> S /create_cfg E0 Ep; rewrite (ab_p S E0 Ep) => -[<- <-] T Ra Rb Rs Rd HK HC HM.
have E : explicit_A (n := n) (c_ptype c) = @explicit_SA F n /\ explicit_B (n := n) (c_ptype c) = @explicit_SB F n.
  by case: T => ->.
by case: E => -> ->; apply: S_hermitian.
Qed.

(** Gyroscopic problems, one of alpha and beta zero: with J=[0 I; -I 0], one of J*A and J*B is Hermitian and the
    other one skew-Hermitian. *)
Theorem C43_hamiltonian (conj : {rmorphism F -> F}) A B :
  explicit_supported c ds K C M -> create c = Ok p0 -> setup p0 ts junk ds = Ok p -> ab p = Some (A, B) ->
  c_ptype c = Gyroscopic -> c_alpha c * c_beta c = 0 ->
  conj (c_alpha c) = c_alpha c -> conj (c_beta c) = c_beta c -> conj (c_scale c) = c_scale c -> conj ds = ds ->
  (map_mx conj K)^T = K -> (map_mx conj C)^T = - C -> (map_mx conj M)^T = M ->
  let J : 'M[F]_(n + n) := block_mx 0 1%:M (- 1%:M) 0 in
  let e := if c_beta c == 0 then 1 else -1 in
  (map_mx conj (J *m A))^T = - e *: (J *m A) /\ (map_mx conj (J *m B))^T = e *: (J *m B).
Proof.
move=> S /create_cfg E0 Ep; rewrite (ab_p S E0 Ep) => -[<- <-] -> Z Ra Rb Rs Rd HK HC HM.
exact: H_hamiltonian.
Qed.
End C43.

Example ex_C43 : let K : 'M[rat]_2 := 2%:R%:M in
  let c := Config [:: K; 1%:M; 1%:M] Monomial Shift false 0 0 2%:R Hermitian true 1 0 XNorm None in
  explicit_supported c 3%:R K 1%:M 1%:M /\ regular Hermitian 1 0 2%:R 3%:R K 1%:M 1%:M.
Proof.
move=> K c; split; first exact: ExplicitSupported.
rewrite /regular mulr0 ?expr0n !mul0r !scale0r subr0 addr0 expr1n scale1r /K unitmxE det_scalar unitfE.
by [].
Qed.

(** alpha and beta both nonzero: the pencil may be singular, and eigenvalues that are not those of the problem are
    reported. *)
Definition c_singular : config [numFieldType of rat] 1 :=
  Config [:: sc 1; sc 0; sc 1] Monomial Shift false 0 0 1 General true 1 1 XNone None.
Lemma col2 (u v u' v' : rat) : u = u' -> v = v' -> col_mx (vc u) (vc v) = col_mx (vc u') (vc v').
Proof. by move=> -> ->. Qed.
Theorem C43_singular_refuted : exists p0 p A B th (z : 'cV[rat]_(1 + 1)),
  [/\ create c_singular = Ok p0, setup p0 [::] [::] 1 = Ok p & ab p = Some (A, B)] /\
  [/\ z != 0, A *m z = th *: (B *m z) &
      forall x : 'cV[rat]_1, x != 0 -> quad (sc 1) (sc 0) (sc 1) (pep_value p th) *m x != 0].
Proof.
set c := c_singular.
have S : explicit_supported c 1 (sc 1) (sc 0) (sc 1) by apply: ExplicitSupported.
have [q [Q1 Q2 Q3]] := explicit_setup [::] [::] S (erefl c : cfg (initial c) = c).
exists (initial c), q; eexists; eexists; exists 2%:R, (col_mx (vc (-1)) (vc 3%:R)); split.
  by split; eauto.
split.
- by apply/eqP => /colP /(_ (lshift 1 0)) /eqP; rewrite (@col_mxEu _ 1 1 1) !mxE.
- have -> : explicit_A (c_ptype c) = @explicit_NA [numFieldType of rat] 1 by [].
  have -> : explicit_B (c_ptype c) = @explicit_NB [numFieldType of rat] 1 by [].
  rewrite NA_E NB_E (@mul_block_col _ 1 1 1 1 1) (@mul_block_col _ 1 1 1 1 1) (@scale_col_mx _ 1 1 1) /=.
  rewrite -!scalemxAl ?scalerDl; apply: (congr2 (fun a b => @col_mx _ 1 1 1 a b));
    apply/colP => i; rewrite !mxE ?big_ord_recr ?big_ord0 /= !mxE !ord1 /=; apply/eqP.
    by [].
  by [].
move=> x x0; rewrite (@value_p _ _ c 1 (sc 1) (sc 0) (sc 1) (initial c) [::] [::]) // /quad.
by rewrite !sc_Z !sc_D mul_scalar_mx scaler_eq0 negb_or x0 andbT.
Qed.

Lemma regular_gyro (F : numFieldType) : regular Gyroscopic (0 : F) 1 1 1 0%:M 0%:M (1%:M : 'M_1).
Proof. by rewrite /regular (raddf0 (scalar_mx_additive _ _)) ?scaler0 ?add0r !expr1n mulr1 scale1r unitmx1. Qed.

(** Gyroscopic problems, the eigenvalue zero: the first block of the eigenvector is lam*x, and the vector reported is
    zero. *)
Definition c_gyro : config [numFieldType of rat] 1 :=
  Config [:: sc 0; sc 0; sc 1] Monomial Shift false 0 0 1 Gyroscopic true 0 1 XNone None.
Theorem C43_gyroscopic_zero_refuted (rn : 'cV[rat]_1 -> rat) : exists p0 p A B th (z : 'cV[rat]_(1 + 1)),
  [/\ create c_gyro = Ok p0, setup p0 [::] [::] 1 = Ok p, ab p = Some (A, B) &
      regular Gyroscopic 0 1 1 1 (sc 0) (sc 0) (sc 1)] /\
  [/\ z != 0, A *m z = th *: (B *m z) & extract p rn (pep_value p th) [:: usubmx z; dsubmx z] = Ok 0].
Proof.
set c := c_gyro.
have S : explicit_supported c 1 (sc 0) (sc 0) (sc 1) by apply: ExplicitSupported.
have [q [Q1 Q2 Q3]] := explicit_setup [::] [::] S (erefl c : cfg (initial c) = c).
exists (initial c), q; eexists; eexists; exists 0, (col_mx 0 (vc 1)); split.
  split; eauto.
  exact: regular_gyro.
split.
- by apply/eqP => /colP /(_ (rshift 1 0)) /eqP; rewrite (@col_mxEd _ 1 1 1) !mxE.
- have -> : explicit_A (c_ptype c) = @explicit_HA [numFieldType of rat] 1 by [].
  rewrite HA_E (@mul_block_col _ 1 1 1 1 1) scale0r !mulmx0 !add0r !scale0r mul0mx raddf0 !scaler0 mul0mx.
  by rewrite (@col_mx0 _ 1 1 1).
by rewrite /extract Q2 /= (@col_mxKu _ 1 1 1).
Qed.

Print Assumptions C41_basis_values. Print Assumptions C41_every_basis. Print Assumptions C41_residual.
Print Assumptions C41_real_arithmetic. Print Assumptions C41_real_residual. Print Assumptions C41_legendre_refuted.
Print Assumptions C41_laguerre_refuted. Print Assumptions C41_hermite_refuted.
Print Assumptions C42_setup. Print Assumptions C42_sound. Print Assumptions C42_complete. Print Assumptions C42_again.
Print Assumptions C42_sinvert_degree3_refuted. Print Assumptions C42_shift_target_refuted.
Print Assumptions C42_norm_transform_refuted.
Print Assumptions C43_setup. Print Assumptions C43_sound. Print Assumptions C43_complete.
Print Assumptions C43_symmetric. Print Assumptions C43_hamiltonian.
Print Assumptions C43_singular_refuted. Print Assumptions C43_gyroscopic_zero_refuted.
