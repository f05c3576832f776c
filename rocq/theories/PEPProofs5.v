(** PEPLINEAR with implicit matrices, from set-up to extraction: proofs. *)
From mathcomp Require Import all_ssreflect all_algebra zify ring.
From Verif Require Import Prelude STModel STSpec STProps PEPModel PEPSpec PEPProofs PEPProofs2 PEPProofs3 PEPProofs4.
Set Implicit Arguments. Unset Strict Implicit. Unset Printing Implicit Defensive.
Import Order.TTheory GRing.Theory Num.Theory.
Local Open Scope ring_scope.

Section Whole.
Variable F : numFieldType.
Variable n : nat.
Notation mat := 'M[F]_n.
Notation vec := 'cV[F]_n.

Lemma scale_pbcE nm s (a b g : nat -> F) :
  scale_pbc nm s (tri nm a b g) = Ok (tri nm a (fun i => b i / s) (fun i => g i / (s * s))).
Proof.
rewrite /scale_pbc.
apply: (@forE' _ (fun i => tri nm a (fun k => if (k < i)%N then b k / s else b k)
   (fun k => if (k < i)%N then g k / (s * s) else g k))) => //.
  by apply: eq_tri => i ->.
move=> i Hi; rewrite rd_cb; last by lia.
bok; rewrite wr_cb; last by lia.
bok; rewrite rd_cg; last by lia.
bok; rewrite wr_cg; last by lia.
congr Ok; apply: eq_tri => k Hk; split=> //; rewrite /upd1; case: eqP => [->|N]; rewrite ?ltnn ?ltnSn //;
  by have -> : (k < i.+1)%N = (k < i)%N by lia.
Qed.
Lemma unscale_pbcE nm s (a b g : nat -> F) :
  unscale_pbc nm s (tri nm a b g) = Ok (tri nm a (fun i => b i * s) (fun i => g i * (s * s))).
Proof.
rewrite /unscale_pbc.
apply: (@forE' _ (fun i => tri nm a (fun k => if (k < i)%N then b k * s else b k)
   (fun k => if (k < i)%N then g k * (s * s) else g k))) => //.
  by apply: eq_tri => i ->.
move=> i Hi; rewrite rd_cb; last by lia.
bok; rewrite wr_cb; last by lia.
bok; rewrite rd_cg; last by lia.
bok; rewrite wr_cg; last by lia.
congr Ok; apply: eq_tri => k Hk; split=> //; rewrite /upd1; case: eqP => [->|N]; rewrite ?ltnn ?ltnSn //;
  by have -> : (k < i.+1)%N = (k < i)%N by lia.
Qed.

Section Scaled.
Variables (a b g : nat -> F) (s : F).
Hypothesis s0 : s != 0.
Notation sb := (fun i => b i / s).
Notation sg := (fun i => g i / (s * s)).
Lemma scaled_phi z i : s ^+ i * phi a sb sg z i = phi a b g (s * z) i.
Proof.
have H : forall i, s ^+ i * phi a sb sg z i = phi a b g (s * z) i /\
   s ^+ i.+1 * phi a sb sg z i.+1 = phi a b g (s * z) i.+1; last by have [] := H i.
elim=> [|k [H1 H2]].
  rewrite !phi0 !phi1 expr0 mulr1 expr1 mulrA mulrBr; split=> //; congr ((_ - _) / _).
  by rewrite mulrCA divff // mulr1.
split=> //; rewrite !phiSS -H1 -H2 !exprS.
move: (phi _ _ _ _ k) (phi _ _ _ _ _) (s ^+ k) (a k.+1)^-1 (b k.+1) (g k.+1) => p0 p1 e ia bk gk.
by field.
Qed.
End Scaled.

(** *** Set-up *)
Notation ca c := (ca_ F (c_basis c)).
Notation cb c := (cb_ F (c_basis c)).
Notation cg c := (cg_ F (c_basis c)).
Notation sb c := (fun i => cb c i / c_scale c).
Notation sg c := (fun i => cg c i / (c_scale c * c_scale c)).

Definition coeffs_of (c : config F n) (old : option (seq F)) : option (seq F) :=
  if c_transform c then old
  else Some (if is_sinvert (c_type c) then mkseq (phi (ca c) (cb c) (cg c) (c_target c)) (nmat c)
             else mkseq (fun i => (i == (nmat c).-1)%:R) (nmat c)).
Definition target_of (c : config F n) (old : F) : F :=
  if ~~ c_transform c && ~~ (c_user c : bool) then c_target c else old.
Definition set_up_state (c : config F n) ts (p : pep F n) : pep F n :=
  Pep c (tri (nmat c) (ca c) (sb c) (sg c)) (coeffs_of c (coeffs p))
    (if c_transform c then st_sigma p else st_sigma p / c_scale c)
    (if c_transform c then ts else c_mats c) (Some (solve_matrix c ts))
    (target_of c (eps_target p) / c_scale c) None.

Lemma mpolyE c z : faithful (c_basis c) ->
  mpoly (c_basis c) (c_mats c) z = \sum_(i < nmat c) phi (ca c) (cb c) (cg c) z i *: nth 0 (c_mats c) i :> mat.
Proof. by move=> H; rewrite /mpoly; apply: eq_bigr => i _; rewrite /phi classical. Qed.

Lemma setupE c ts p junk ds : (2 < size (c_mats c))%N -> faithful (c_basis c) -> c_type c <> Cayley ->
  [/\ c_explicit c = false, c_ptype c = General, c_alpha c = 1 & c_beta c = 0] ->
  (c_transform c -> c_basis c = Monomial /\ size ts = size (c_mats c)) -> cfg p = c -> size (pbc p) = (3 * nmat c)%N -> size junk = nmat c ->
  setup p ts junk ds = Ok (set_up_state c ts p).
Proof.
move=> S1 S2 S4 [X1 X2 X3 X4] S5 Ec Sp Sj; rewrite /setup Ec X1 X2 X3 X4 !eqxx.
have nm2 : (2 < nmat c)%N by [].
have -> : is_cayley (c_type c) = false by case: (c_type c) S4.
rewrite [check (~~ false) _]/=.
rewrite basis_coefficientsE //; last by lia.
bok.
set Q := (if ~~ c_transform c then _ else _).
have {Q} -> : Q = Ok (coeffs_of c (coeffs p), if c_transform c then st_sigma p else st_sigma p / c_scale c).
  rewrite /Q /coeffs_of; case: (c_transform c) => //=; rewrite div1r.
  case: (is_sinvert _).
    by rewrite eval_basisE //; lia.
  rewrite (mk_nth 0 Sj); set f := nth 0 junk.
  rewrite (@forE' _ (fun i => mkseq (fun k => if (k < i)%N then 0 else f k) (nmat c)) 0 (nmat c - 1) _ _ _ _ _ erefl) //.
  - bok; rewrite wr_mk; last by lia.
    bok; congr (Ok (Some _, _)); apply: eq_mk => k Hk; rewrite /upd1 subn1; case: eqP => // N.
    by have -> : (k < (nmat c).-1)%N by lia.
  - move=> i Hi; rewrite wr_mk; last by lia.
    congr Ok; apply: eq_mk => k Hk; rewrite /upd1; case: eqP => [->|N]; first by rewrite ltnSn.
    by have -> : (k < i.+1)%N = (k < i)%N by lia.
bok.
have -> : (if c_scale c != 1 then scale_pbc (nmat c) (c_scale c) (tri (nmat c) (ca c) (cb c) (cg c))
           else Ok (tri (nmat c) (ca c) (cb c) (cg c))) = Ok (tri (nmat c) (ca c) (sb c) (sg c)).
  case: eqP => [->|_] /=; last exact: scale_pbcE.
  by congr Ok; apply: eq_tri => i Hi; rewrite mulr1 !divr1.
bok.
have -> : (if c_scale c != 1 then target_of c (eps_target p) / c_scale c else target_of c (eps_target p)) =
   target_of c (eps_target p) / c_scale c.
  by case: eqP => [->|_] //=; rewrite divr1.
set Q := (if ~~ c_transform c then _ else _).
have {Q} -> : Q = Ok (Some (solve_matrix c ts)).
  rewrite /Q /solve_matrix /coeffs_of.
  case T: (c_transform c) S5 => S5 /=.
    have [-> E] := S5 isT; rewrite /= subn1 (rdE 0) //.
    by rewrite E -/(nmat c); lia.
  congr (Ok (Some _)); rewrite /lincomb.
  case: (c_type c) S4 => //= _; rewrite size_mkseq.
    rewrite -/(nmat c) -(prednK (n := nmat c)) ?big_ord_recr //=; last by lia.
    rewrite big1 ?add0r => [|i _]; last first.
      by rewrite prednK ?nth_mkseq; [case: i => /= i; rewrite ltn_neqAle => /andP [/negbTE -> _]; rewrite scale0r | case: i => /= i; lia | lia].
    by rewrite prednK ?nth_mkseq ?eqxx ?scale1r //; lia.
  rewrite mpolyE //; apply: eq_bigr => i _; rewrite nth_mkseq //.
by bok.
Qed.

(** *** The operator *)
Lemma mk_inj T (x0 : T) (f h : nat -> T) N : mkseq f N = mkseq h N <-> (forall i, (i < N)%N -> f i = h i).
Proof.
split=> [E i Hi|]; last exact: eq_mk.
by have := congr1 (fun q => nth x0 q i) E; rewrite !nth_mkseq.
Qed.
Lemma ca_neq0 bs i : faithful bs -> ca_ F bs i != 0.
Proof. by case: bs => //= _; [exact: oner_neq0 | case: i => [|_]; rewrite ?oner_neq0 // | ]; rewrite invr_eq0 pnatr_eq0. Qed.

Section Prepared.
Variables (c : config F n) (ts : seq mat) (p0 : pep F n).
Hypothesis S : supported c ts.
Hypothesis E0 : st_sigma p0 = c_shift c.
Let p := set_up_state c ts p0.
Let d := (nmat c).-1.
Let m := solve_matrix c ts.
Let T := if c_transform c then ts else c_mats c.

Lemma dN : nmat c = d.+1. Proof. by have := s_size S; rewrite /d -/(nmat c); lia. Qed.
Lemma d2 : (1 < d)%N. Proof. by have := s_size S; rewrite /d -/(nmat c); lia. Qed.
Lemma sizeT : size T = d.+1.
Proof. by rewrite /T; case E: (c_transform c); rewrite -dN //; have [_ -> _] := s_transform S E. Qed.

Lemma pol_scaled z : pol (ca c) (sb c) (sg c) d T p z =
  \sum_(i < d.+1) phi (ca c) (cb c) (cg c) (c_scale c * z) i *: nth 0 T i.
Proof. by rewrite /pol; apply: eq_bigr => i _; rewrite -scaled_phi //; exact: s_scale S. Qed.

Lemma pol_mpoly z : ~~ c_transform c -> pol (ca c) (sb c) (sg c) d T p z = mpoly (c_basis c) (c_mats c) (c_scale c * z).
Proof. by move=> /negbTE E; rewrite pol_scaled mpolyE ?dN /T ?E //; exact: s_basis S. Qed.

Lemma pol_peval z : c_transform c -> pol (ca c) (sb c) (sg c) d T p z = peval ts (c_scale c * z).
Proof.
move=> E; rewrite pol_scaled /T E /peval; have [-> -> _] := s_transform S E; rewrite -/(nmat c) dN.
by apply: eq_bigr => i _; rewrite /phi classical //= hornerXn.
Qed.
Lemma peval_mpoly z : c_transform c -> peval (c_mats c) z = mpoly (c_basis c) (c_mats c) z.
Proof.
move=> E; rewrite /peval /mpoly; have [-> _ _] := s_transform S E.
by apply: eq_bigr => i _; rewrite hornerXn.
Qed.

Lemma pol_value th : (c_type c = Sinvert -> th != 0) -> forall x : vec,
  pol (ca c) (sb c) (sg c) d T p (eps_value p th) *m x = 0 <-> mpoly (c_basis c) (c_mats c) (pep_value p th) *m x = 0.
Proof.
move=> H x; rewrite /pep_value; have [X _ _ _] := s_implicit S; case E: (c_transform c); last first.
  by rewrite pol_mpoly ?E //= ?E mulrC.
rewrite pol_peval //= ?E -peval_mpoly // /eps_value /= X E [th * _]mulrC E0.
have [_ _ HT] := s_transform S E.
apply: C39_eigenpairs HT _; first exact: s_type S.
case Ty: (c_type c) => //=; last by have := s_type S; rewrite Ty.
by rewrite mulf_neq0 ?(s_scale S) // H.
Qed.

Lemma apply_eig th (x : nat -> vec) : (c_type c = Sinvert -> th != 0) ->
  apply p (mkseq x d) = Ok (map (fun v => th *: v) (mkseq x d)) <->
  [/\ m \in unitmx, forall i, (i < d)%N -> x i = phi (ca c) (sb c) (sg c) (eps_value p th) i *: x 0%N &
      mpoly (c_basis c) (c_mats c) (pep_value p th) *m x 0%N = 0].
Proof.
move=> H.
have -> : map (fun v => th *: v) (mkseq x d) = mkseq (fun i => th *: x i) d by rewrite /mkseq -map_comp.
have A0 : forall i, (i < d)%N -> ca c i != 0 by move=> i _; apply: ca_neq0; exact: s_basis S.
have [X _ _ _] := s_implicit S.
have sT : (d < size T)%N by rewrite sizeT.
rewrite /apply /=.
case B: (is_sinvert (c_type c) && ~~ c_transform c).
  have {B} [B1 B2] := andP B.
  have Ty : c_type c = Sinvert by case: (c_type c) B1.
  have [Y1 Y2 Y3] := s_sinvert S Ty B2.
  have Es : eps_target p = c_shift c / c_scale c by rewrite /= /target_of B2 Y2 /= Y1.
  have Ev : eps_value p th = th^-1 + c_shift c / c_scale c.
    by rewrite /eps_value /= X (negbTE B2) Ty /= /back_sinvert div1r E0.
  rewrite (@mult_sinvertE _ _ (ca c) (sb c) (sg c) d T m p d2 sT dN _ erefl erefl _ Es); last by rewrite /= dN.
  have Em : m = pol (ca c) (sb c) (sg c) d T p (c_shift c / c_scale c).
    rewrite pol_mpoly // mulrCA divff ?(s_scale S) // mulr1 Y1 /m /solve_matrix (negbTE B2) Ty //.
  have G : sg c d.-1 = 0 \/ d = 2%N.
    by case: Y3 => [->|Y3]; [left; rewrite /= mul0r | right; rewrite /d /nmat Y3].
  case U: (m \in unitmx); last by split=> [|[]].
  have Q := @sinvert_eig _ _ (ca c) (sb c) (sg c) d T m p d2 A0 (s_scale S) U (c_shift c / c_scale c) th x (H Ty) G Em.
  rewrite /=; split=> [[/(mk_inj (0 : vec)) /Q [Q1 Q2]]|[_ Q1 Q2]].
    by split=> //; rewrite ?Ev //; apply/pol_value => //; rewrite Ev.
  by congr Ok; apply/(mk_inj (0 : vec))/Q; split; rewrite -?Ev //; apply/pol_value.
have Sh : (if c_transform (cfg p) then 0 else st_sigma p) + th = eps_value p th.
  rewrite /eps_value /= X; move: B; case: (c_transform c); rewrite ?add0r // andbT.
  by case Ty: (c_type c) => //= _; [rewrite /back_shift addrC E0 | have := s_type S; rewrite Ty].
rewrite (@mult_shiftE _ _ (ca c) (sb c) (sg c) d T m p d2 sT dN _ erefl erefl); last by rewrite /= dN.
have Em : m = nth 0 T d.
  rewrite /m /solve_matrix /T -/(nmat c) -/d; case: (c_transform c) B; rewrite ?andbT //.
  by case Ty: (c_type c).
case U: (m \in unitmx); last by split=> [|[]].
set s := (if _ then _ else _) in Sh *.
have Q := @shift_eig _ _ (ca c) (sb c) (sg c) d T m p d2 A0 (s_scale S) U s th x Em.
rewrite addrC Sh in Q.
rewrite /=; split=> [[/(mk_inj (0 : vec)) /Q [Q1 Q2]]|[_ Q1 Q2]].
  by split=> //; apply/pol_value.
by congr Ok; apply/(mk_inj (0 : vec))/Q; split=> //; apply/pol_value.
Qed.

(** *** Extraction *)
Lemma growth bs z : faithful bs -> 1 < `|z| -> forall k, phi (ca_ F bs) (cb_ F bs) (cg_ F bs) z k != 0.
Proof.
move=> B Hz k.
have z0 : z != 0 by rewrite -normr_gt0; apply: lt_trans Hz; rewrite ltr01.
case: (boolP (is_monomial bs)) => [|M].
  by case: bs B => // _ _; rewrite /phi classical //= hornerXn expf_neq0.
have St j : phi (ca_ F bs) (cb_ F bs) (cg_ F bs) z j.+2 =
    2%:R * z * phi (ca_ F bs) (cb_ F bs) (cg_ F bs) z j.+1 - phi (ca_ F bs) (cb_ F bs) (cg_ F bs) z j.
  rewrite phiSS; have -> : ca_ F bs j.+1 = 2%:R^-1 by case: bs B M.
  have -> : cb_ F bs j.+1 = 0 by case: bs B M.
  have -> : cg_ F bs j.+1 = 2%:R^-1 by case: bs B M.
  rewrite subr0 invrK mulrBl; congr (_ - _); first by rewrite mulrAC [z * _]mulrC.
  by rewrite mulrAC mulVf ?mul1r // pnatr_eq0.
have b0 : cb_ F bs 0 = 0 by case: bs B M {St}.
have a0 : ca_ F bs 0 = 1 \/ ca_ F bs 0 = 2%:R^-1 by case: bs B M {St b0} => //= _ _; [left | right].
set f := phi _ _ _ z in St *.
suff H : 0 < `|f k| /\ `|f k| <= `|f k.+1| by rewrite -normr_gt0; case: H.
elim: k => [|k [I1 I2]].
  rewrite /f phi0 phi1 normr1; split; first exact: ltr01.
  rewrite b0; case: a0 => ->.
    by rewrite subr0 divr1 ltW.
  rewrite subr0 invrK normrM; apply: le_trans (ltW Hz) _; rewrite ler_pmulr ?normr_nat ?ler1n //.
  by rewrite normr_gt0.
have P : 0 < `|f k.+1| by apply: lt_le_trans I2.
split=> //; rewrite St; apply: le_trans (ler_sub_dist _ _).
rewrite !normrM normr_nat.
have E1 : `|f k.+1| <= 2%:R * `|z| * `|f k.+1| - `|f k.+1|.
  have -> : 2%:R * `|z| * `|f k.+1| - `|f k.+1| = `|f k.+1| + 2%:R * ((`|z| - 1) * `|f k.+1|) by ring.
  rewrite ler_addl !mulr_ge0 ?ler0n ?normr_ge0 // subr_ge0 ltW //.
by apply: le_trans E1 _; rewrite ler_add2l ler_opp2.
Qed.

Lemma extractE rn th (x : nat -> vec) : (c_type c = Sinvert -> th != 0) -> x 0%N != 0 ->
  (forall y, 0 <= rn y) -> (forall y, mpoly (c_basis c) (c_mats c) (pep_value p th) *m y = 0 -> rn y = 0) ->
  (forall i, (i < d)%N -> x i = phi (ca c) (sb c) (sg c) (eps_value p th) i *: x 0%N) ->
  mpoly (c_basis c) (c_mats c) (pep_value p th) *m x 0%N = 0 ->
  exists y, extract p rn (pep_value p th) (mkseq x d) = Ok y /\ eigenpair (c_basis c) (c_mats c) (pep_value p th) y.
Proof.
move=> H x0 R1 R2 Hx P; rewrite /extract /=.
have d2' := d2; have [N1 N2] := s_extract S; have [X _ _ _] := s_implicit S.
case Ex: (c_extract c) => //.
- by exists (x 0%N); split=> //; rewrite rd_mk //; lia.
- rewrite dN isubE; last by lia.
  bok; rewrite subSS subn1.
  case: ifP => L; last by exists (x 0%N); split=> //; rewrite rd_mk //; lia.
  exists (x d.-1); split; first by rewrite rd_mk //; lia.
  have Q := Hx d.-1; rewrite {}Q; last by lia.
  split; last by rewrite -scalemxAr P scaler0.
  rewrite scaler_eq0 negb_or x0 andbT.
  have /negP Z : ~~ (c_scale c ^+ d.-1 * phi (ca c) (sb c) (sg c) (eps_value p th) d.-1 == 0).
    rewrite scaled_phi ?(s_scale S) //; case E: (c_transform c).
      have [-> _ _] := s_transform S E; have Ty := N2 Ex E.
      rewrite /phi classical //= hornerXn expf_neq0 // mulf_neq0 ?(s_scale S) //.
      by rewrite /eps_value /= X E H.
    apply: growth; first exact: s_basis S.
    by move: L; rewrite /pep_value /= E mulrC.
  by apply/negP => Y; apply: Z; rewrite mulf_eq0 Y orbT.
- rewrite rd_mk; last by lia.
  bok; rewrite dN isubE //; bok; rewrite subn1 [d.+1.-1]/=.
  exists (x 0%N); split=> //.
  rewrite (@forE' _ (fun=> (x 0%N, rn (x 0%N))) 1 d _ _ _ _ erefl erefl) //; first by lia.
  move=> i Hi; rewrite rd_mk; last by lia.
  bok; rewrite [rn (x 0%N)]R2 //; case: ifP => // /(le_lt_trans (R1 _)).
  by rewrite ltxx.
Qed.

Lemma pep_sound rn th z : size z = d -> has (fun v => v != 0) z -> (c_type c = Sinvert -> th != 0) ->
  (forall y, 0 <= rn y) -> (forall y, mpoly (c_basis c) (c_mats c) (pep_value p th) *m y = 0 -> rn y = 0) ->
  apply p z = Ok (map (fun v => th *: v) z) ->
  exists y, extract p rn (pep_value p th) z = Ok y /\ eigenpair (c_basis c) (c_mats c) (pep_value p th) y.
Proof.
move=> Sz; rewrite (mk_nth 0 Sz); move: (nth 0 z) => x {z Sz} Z H R1 R2 /(apply_eig _ H) [U E P].
apply: extractE => //; apply/eqP => x0; move: Z; apply/negP; rewrite -all_predC; apply/allP => v.
by case/mapP => i; rewrite mem_iota => Hi -> /=; rewrite E // x0 scaler0 eqxx.
Qed.

Lemma pep_complete lam (x : vec) : eigenpair (c_basis c) (c_mats c) lam x ->
  m \in unitmx -> (c_type c = Sinvert -> lam != c_shift c) ->
  exists th z, [/\ size z = d, nth 0 z 0 = x, apply p z = Ok (map (fun v => th *: v) z), pep_value p th = lam &
    c_type c = Sinvert -> th != 0].
Proof.
move=> [x0 P] U L; have s0 := s_scale S; have [X _ _ _] := s_implicit S; have d2' := d2.
have [th [Ev T0]] : exists th, pep_value p th = lam /\ (c_type c = Sinvert -> th != 0).
  exists (match c_type c with Sinvert => if c_transform c then ((lam - c_shift c) * c_scale c)^-1
     else c_scale c / (lam - c_shift c) | _ => (lam - c_shift c) / c_scale c end).
  rewrite /pep_value /eps_value /= X E0; case: (c_transform c); case Ty: (c_type c) L => L /=;
    rewrite ?/back_shift ?/back_sinvert; try (by have := s_type S; rewrite Ty); split=> //.
  - by rewrite divfK // subrK.
  - by rewrite [((_ - _) * _)^-1]invfM divfK // div1r invrK subrK.
  - by move=> _; rewrite invr_eq0 mulf_neq0 // subr_eq0 L.
  - by rewrite mulrDl !divfK // subrK.
  - by rewrite div1r mulrDl invf_div !divfK // subrK.
  - by move=> _; rewrite mulf_neq0 // invr_eq0 subr_eq0 L.
exists th, (mkseq (fun i => phi (ca c) (sb c) (sg c) (eps_value p th) i *: x) d); split=> //.
- by rewrite size_mkseq.
- by rewrite nth_mkseq ?phi0 ?scale1r //; lia.
apply/apply_eig => //; split=> //; rewrite ?Ev phi0 scale1r //.
Qed.
End Prepared.

(** *** Again *)
Lemma set_up_again c ts p0 : supported c ts -> st_sigma p0 = c_shift c ->
  exists p', [/\ solved (set_up_state c ts p0) = Ok p', cfg p' = c,
    pbc p' = tri (nmat c) (ca c) (cb c) (cg c), st_sigma p' = c_shift c & eps_target p' = target_of c (eps_target p0)] /\
    set_up_state c ts p' = set_up_state c ts p0.
Proof.
move=> S E0; have s0 := s_scale S; have [X _ _ _] := s_implicit S.
rewrite /solved [cfg _]/= [pbc _]/= [st_sigma _]/= [eps_target _]/= [coeffs _]/= [tmats _]/= [pmat _]/= [ab _]/= X andbT.
rewrite divfK //.
set Q := (if c_scale c != 1 then _ else _).
have {Q} -> : Q = Ok (tri (nmat c) (ca c) (cb c) (cg c), c_shift c).
  rewrite /Q; case: eqP => [->|_] /=.
    congr (Ok (_, _)); last by rewrite divr1 E0; case: (c_transform c).
    by apply: eq_tri => i Hi; rewrite mulr1 !divr1.
  rewrite unscale_pbcE; bok; congr (Ok (_, _)); last by rewrite E0; case: (c_transform c) => //=; rewrite divfK.
  by apply: eq_tri => i Hi; rewrite !divfK // mulf_neq0.
bok; eexists; split; first by split.
rewrite /set_up_state /= E0; congr (Pep _ _ _ _ _ _ _ _).
  by rewrite /coeffs_of; case: (c_transform c).
by rewrite /target_of; case: (~~ _ && ~~ _).
Qed.
End Whole.
