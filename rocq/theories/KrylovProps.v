(** Krylov decompositions: property theorems C44-C46. *)
From mathcomp Require Import all_ssreflect all_algebra.
From mathcomp Require Import algC zify.
From Verif Require Import Prelude GSModel GSSpec GSProofs GSProps KrylovModel KrylovSpec KrylovProofs.
Set Implicit Arguments. Unset Strict Implicit. Unset Printing Implicit Defensive.
Import GRing.Theory Num.Theory Order.TTheory.
Local Open Scope ring_scope.

Section Decompositions.
Variables (F : numFieldType) (V : lmodType F) (dot : V -> V -> F) (conj : {rmorphism F -> F}) (sqrt re : F -> F).
Hypothesis HH : hermitian conj dot.
Hypothesis Hsqrt : square_root sqrt.
Hypothesis Hpd : positive_definite dot.
Variables (op : V -> V) (N : nat).
Hypothesis Hdim : dimension dot N.
Variables (cplx : bool) (g : config F).
Hypothesis Heta : 0 < eta g <= 1.
Hypothesis Htol : 0 < deftol g.
Hypothesis Hdef : indef g = false.
Notation mem := (GSModel.mem V).
Implicit Types (s : mem) (H : dense F) (T : tridiag F).

Lemma comb_split (u : nat -> V) (n p : nat) (c : nat -> F) :
  comb u (n + p) c = comb u n c + \sum_(0 <= i < p) c (n + i)%N *: u (n + i)%N.
Proof.
rewrite /comb (@big_cat_nat _ _ _ n) ?leq_addr //=; congr (_ + _).
rewrite -[X in \sum_(X <= _ < _) _]add0n big_addn addKn; apply: eq_big_nat => i _.
by rewrite addnC.
Qed.

Lemma run_basis k m s s' m' beta b : (k < m)%N -> arnoldi_run dot op N g k m' s s' beta b ->
  (if b then (m' <= m)%N else m' == m) -> krylov_basis dot (nc g) k m m' (col s) (col s') beta b.
Proof.
move=> Hk [R1 R2 R3 R4 R5 R6 R7 R8] Hm; split.
- by move: Hm R8; case: (b) => [Hm [H1 _ _]|/eqP ->]; rewrite ?H1 ?Hk /=.
- by move=> i Hi; apply: R2; apply/orP; left; lia.
- by move=> i Hi; apply: R2; apply/orP; right.
- by move=> i j Hi Hj; apply: R7; lia.
- by move=> Hb; move: R8; rewrite Hb => [] [].
- move=> Hb; move: Hm R8 R7; rewrite (negbTE Hb) => /eqP Em Hpos; rewrite /= addn1 Em => Ho.
  by split=> //; apply: Hpos; rewrite Em.
Qed.

(** C44 *)
Lemma arnoldi_all k m H beta s :
  orthonormal dot (col s) (nc g + k.+1) -> (k < m < ncols g)%N ->
  (m <= rows H <= lda H)%N -> (m <= cols H)%N ->
  exists s' e' m' beta' b,
  [/\ mat_arnoldi dot conj sqrt op N g (Some H) k m beta s =
        Ok (s', Some (Dense (rows H) (cols H) (lda H) e'), m', beta', b),
      krylov_basis dot (nc g) k m m' (col s) (col s') beta' b,
      arnoldi_matrix op (nc g) N k m' (lda H) (col s') (entry H) e' beta' &
      m' = N -> (m' < lda H)%N -> e' m' m'.-1 = buf s m' (nc g + m')].
Proof.
move=> Ho /andP [Hk Hm] /andP [Hr Hl] Hc; rewrite /mat_arnoldi.
have -> : (k <= ncols g)%N by lia.
have -> : (0 < m <= ncols g)%N by lia.
rewrite Hk Hr Hc /=.
have Hn : (k + (m - k) < ncols g)%N by lia.
have [s' [m' [beta' [b [-> R Hm' _]]]]] := run_ok HH Hsqrt Hpd op Hdim Heta Htol Hdef beta Hn Ho.
have Hm2 : if b then (m' <= m)%N else m' == m by move: Hm'; rewrite subnKC // ltnW.
have B := run_basis Hk R Hm2; case: (B) => /andP [Hkm Hmm] _ _ _ _ _.
rewrite /=; have [|||e' [-> He]] := @store_h_ok _ _ g k m' s' H; try lia.
exists s', e', m', beta', b; case: R => R1 R2 R3 R4 R5 R6 R7 R8; split=> //; last first.
  move=> EN Hlda; rewrite He ifT; last by lia.
  have -> : m'.-1.+1 = m' by lia.
  by rewrite R6 // EN eqxx.
split.
- move=> j Hj; exists (buf s' j.+1); rewrite R4 // comb_split; congr (_ + _ + _).
    apply: eq_big_nat => i Hi; rewrite He ifT //; lia.
  congr (_ *: _); case: (ltnP j.+1 m') => Hj1.
    by rewrite ltn_eqF // He ifT //; lia.
  by rewrite ifT //; lia.
- by move=> j Hkj Hjm; rewrite He ifT ?R5 //; lia.
- move=> Hlda HN; rewrite He ifT; last by lia.
  have -> : m'.-1.+1 = m' by lia.
  by rewrite R6 // (negbTE HN).
- by move=> p q Hpq; rewrite He ifF //; apply/negP => /and3P [E1 E2 _]; rewrite E1 E2 in Hpq.
Qed.

Theorem C44_arnoldi k m H beta s :
  orthonormal dot (col s) (nc g + k.+1) -> (k < m < ncols g)%N ->
  (m <= rows H <= lda H)%N -> (m <= cols H)%N ->
  exists s' e' m' beta' b,
  [/\ mat_arnoldi dot conj sqrt op N g (Some H) k m beta s =
        Ok (s', Some (Dense (rows H) (cols H) (lda H) e'), m', beta', b),
      krylov_basis dot (nc g) k m m' (col s) (col s') beta' b &
      arnoldi_matrix op (nc g) N k m' (lda H) (col s') (entry H) e' beta'].
Proof.
move=> H1 H2 H3 H4; have [s' [e' [m' [beta' [b [E B A _]]]]]] := arnoldi_all beta H1 H2 H3 H4.
by exists s', e', m', beta', b.
Qed.

(** Without H the same columns, m, beta and flag. *)
Theorem C44_without_H k m H beta s s' H' m' beta' b :
  mat_arnoldi dot conj sqrt op N g (Some H) k m beta s = Ok (s', Some H', m', beta', b) ->
  mat_arnoldi dot conj sqrt op N g None k m beta s = Ok (s', None, m', beta', b).
Proof.
rewrite /mat_arnoldi /check; case: ifP => // _; case: ifP => // _; case: ifP => // _; case: ifP => // _.
case: (krylov_loop _ _ _ _ _ _ _ _ _ _) => //= [] [[[s1 m1] b1] l1].
by case: (store_h _ _ _ _ _) => //= h [-> _ -> -> ->].
Qed.

(** The largest value accepted by the argument check needs a column that does not exist. *)
Lemma no_room n : forall j s beta, (j + n.+1 = ncols g)%N -> orthonormal dot (col s) (nc g + j.+1) ->
  krylov_loop dot conj sqrt op N g n.+1 j s beta = Err \/
  exists s' m' beta', krylov_loop dot conj sqrt op N g n.+1 j s beta = Ok (s', m', beta', true) /\
    (j < m' < ncols g)%N.
Proof.
elim: n => [|n IH] j s beta Hj Ho.
  by left; rewrite /= /mat_mult_column /check ifF //; lia.
have Hj' : (j.+1 < ncols g)%N by lia.
have [s1 [a [b [E [_ _ _ _ S5] _]]]] := step_ok HH Hsqrt Hpd op Hdim Heta Htol Hdef Hj' Ho.
have EE : krylov_loop dot conj sqrt op N g n.+2 j s beta =
    if b then Ok (s1, j.+1, a, true) else krylov_loop dot conj sqrt op N g n.+1 j.+1 s1 a.
  rewrite [LHS]/=; move: E; rewrite /step_of; case: (mat_mult_column _ _ _ _) => //= x.
  by move=> -> /=.
rewrite EE; case: b S5 {E EE} => [_|[_ Ho1]].
  by right; exists s1, j.+1, a; split=> //; lia.
have [||->|[s' [m' [beta' [-> Hm]]]]] := IH j.+1 s1 a; [lia|by rewrite addnS|by left|right].
by exists s', m', beta'; split=> //; lia.
Qed.
Theorem C44_last_column (H : option (dense F)) k beta s : orthonormal dot (col s) (nc g + k.+1) -> (k < ncols g)%N ->
  match mat_arnoldi dot conj sqrt op N g H k (ncols g) beta s with
  | Err => True
  | Ok (_, _, m', _, b) => b /\ (m' < ncols g)%N
  | _ => (if H is Some h then (lda h < rows h)%N else false : Prop)
  end.
Proof.
move=> Ho Hk; rewrite /mat_arnoldi (ltnW Hk) leqnn Hk /=.
have -> : (0 < ncols g)%N by lia.
rewrite /=; case: H => [h|]; rewrite /check.
  case: ifP => // /andP [Hr Hc].
  case E : (ncols g - k)%N => [|n]; first by lia.
  have [|->|[s' [m' [beta' [-> /andP [Hm Hm2]]]]]] := @no_room n k s beta _ Ho; [lia|by []|rewrite /=].
  case: (ltnP (lda h) (rows h)) => Hl.
    by case: (store_h _ _ _ _ _).
  by have [|||e' [-> _]] := @store_h_ok _ _ g k m' s' h; try lia.
case E : (ncols g - k)%N => [|n]; first by lia.
by have [|->|[s' [m' [beta' [-> /andP [Hm Hm2]]]]]] := @no_room n k s beta _ Ho; first lia.
Qed.

(** C45 *)
Lemma lanczos_all k m T beta s :
  real_part conj re -> self_adjoint dot op ->
  (forall i, (i < k)%N -> in_span (col s) (nc g + k.+1) (op (col s (nc g + i)))) ->
  orthonormal dot (col s) (nc g + k.+1) -> (k < m < ncols g)%N ->
  (m <= trows T <= tlda T)%N -> ((if cplx then 1 else 2) <= tcols T)%N ->
  exists s' a' b' m' beta' b,
  [/\ mat_lanczos dot conj sqrt re op N cplx g (Some T) k m beta s =
        Ok (s', Some (Tri (trows T) (tcols T) (tlda T) a' b'), m', beta', b),
      krylov_basis dot (nc g) k m m' (col s) (col s') beta' b,
      lanczos_matrix dot conj op (nc g) N k m' (col s') (alpha T) a' (betat T) b' beta' &
      m' = N -> b' m'.-1 = re (buf s m' (nc g + m'))].
Proof.
move=> Hre Hsa Hlock Ho /andP [Hk Hm] /andP [Hr Hl] Hc; rewrite /mat_lanczos.
rewrite Hk Hr Hc /=.
have Hn : (k + (m - k) < ncols g)%N by lia.
have [s' [m' [beta' [b [-> R Hm' _]]]]] := run_ok HH Hsqrt Hpd op Hdim Heta Htol Hdef beta Hn Ho.
have Hm2 : if b then (m' <= m)%N else m' == m by move: Hm'; rewrite subnKC // ltnW.
have B := run_basis Hk R Hm2; case: (B) => /andP [Hkm Hmm] Hlk _ Ho' Hbr Hco.
rewrite /=; have [||a' [b' [-> Hab]]] := @store_t_ok _ _ re cplx g (m' - k) k s' T => //; first by lia.
exists s', a', b', m', beta', b; case: R => R1 R2 R3 R4 R5 R6 R7 R8; split=> //; last first.
  move=> EN; have [_ ->] := Hab m'.-1; rewrite ifT; last by lia.
  by rewrite prednK ?R6 ?EN ?eqxx //; lia.
have [HL HC HR HRe] := HH.
set u := col s' in Ho' Hlk Hbr Hco R2 R4 R7 *.
set cf := fun p => if p.+1 == m' then beta' else buf s' p.+1 (nc g + p.+1).
(* inner products with images of earlier vectors *)
have Hlast : forall i p, (k <= p < m')%N -> (i < nc g + p.+1)%N ->
    cf p * dot (u (nc g + p.+1)%N) (u i) = 0.
  move=> i p Hp Hi; rewrite /cf; case: eqP => Ep.
    case: (boolP b) => Hb; first by have [-> _] := Hbr Hb; rewrite mul0r.
    have [_ _ Hof] := Hco Hb; rewrite Ep Hof ?gtn_eqF ?mulr0 //; lia.
  by rewrite Ho' ?gtn_eqF ?mulr0 //; lia.
have Hbuf : forall p i, (k <= p < m')%N -> (i < nc g + p.+1)%N ->
    dot (op (u (nc g + p)%N)) (u i) = buf s' p.+1 i.
  move=> p i Hp Hi; rewrite R4 // (dotDl HL) (dotZl HL) (Hlast i p Hp Hi) addr0.
  rewrite /comb (dot_suml HL) (big_cat_nat _ _ _ (leq0n i) (ltnW Hi)) /=.
  rewrite big1_seq ?add0r; last first.
    move=> q; rewrite mem_index_iota => Hq; rewrite (dotZl HL) Ho' ?ltn_eqF ?mulr0 //; lia.
  rewrite big_ltn // big1_seq ?addr0; last first.
    move=> q; rewrite mem_index_iota => Hq; rewrite (dotZl HL) Ho' ?gtn_eqF ?mulr0 //; lia.
  rewrite (dotZl HL) Ho' ?eqxx ?mulr1 //; lia.
have Hprev : forall p i, (k <= i)%N -> (i < p < m')%N -> buf s' p.+1 (nc g + i) =
    if i.+1 == p then buf s' p (nc g + p) else 0.
  move=> p i Hki Hip; rewrite -Hbuf; try lia.
  rewrite Hsa HC R4; last by lia.
  rewrite (dotDl HL) (dotZl HL) /comb (dot_suml HL) big1_seq ?add0r; last first.
    move=> q; rewrite mem_index_iota => Hq; rewrite (dotZl HL) Ho' ?ltn_eqF ?mulr0 //; lia.
  have -> : (i.+1 == m') = false by lia.
  rewrite Ho'; try lia.
  rewrite eqn_add2l; case: eqP => Ei; last by rewrite mulr0 rmorph0.
  rewrite mulr1 HRe; first by rewrite Ei.
  apply: gtr0_real; apply: R5 => //; lia.
have Hlck : forall p i, (i < k)%N -> (k < p < m')%N -> buf s' p.+1 (nc g + i) = 0.
  move=> p i Hik Hp; rewrite -Hbuf; try lia.
  have Ei : u (nc g + i)%N = col s (nc g + i) by apply: Hlk; lia.
  have [c Hci] := Hlock i Hik.
  rewrite Hsa HC Ei Hci /comb (dot_suml HL) big1_seq ?rmorph0 // => q.
  rewrite mem_index_iota => Hq; rewrite (dotZl HL) -Hlk; last by lia.
  rewrite Ho' ?ltn_eqF ?mulr0 //; lia.
have Hdiag : forall p, (k <= p < m')%N -> conj (buf s' p.+1 (nc g + p)) = buf s' p.+1 (nc g + p).
  move=> p Hp; rewrite -Hbuf; try lia.
  by rewrite -HC Hsa.
have Hal : forall p, (k <= p < m')%N -> a' p = buf s' p.+1 (nc g + p).
  move=> p Hp; have [-> _] := Hab p; rewrite ifT ?Hre ?Hdiag //; lia.
have Hbt : forall p, (k <= p < m')%N -> conj (buf s' p.+1 (nc g + p.+1)) = buf s' p.+1 (nc g + p.+1) ->
    b' p = buf s' p.+1 (nc g + p.+1).
  move=> p Hp E; have [_ ->] := Hab p; rewrite ifT ?Hre //; lia.
have Hbp : forall p, (k <= p)%N -> (p.+1 < m')%N -> b' p = buf s' p.+1 (nc g + p.+1).
  move=> p Hp Hpm; apply: Hbt; first by lia.
  by apply: HRe; apply: gtr0_real; exact: R5.
have Hcf : forall p, (k <= p < m')%N -> cf p = if (p.+1 < m')%N then b' p else beta'.
  move=> p Hp; rewrite /cf; case: (ltnP p.+1 m') => Hpm; first by rewrite ltn_eqF // Hbp //; lia.
  by rewrite ifT //; lia.
split.
- move=> j Hj; exists (buf s' j.+1); rewrite R4; last by lia.
  rewrite comb_split -/(cf j) -Hcf; last by lia.
  congr (_ + _ + _); apply: eq_big_nat => i Hi; congr (_ *: _).
  case: (i =P j) => [->|Hij]; first by rewrite Hal //; lia.
  case: (ltnP i k) => Hik; first by rewrite Hlck; [rewrite ifF //|..]; lia.
  rewrite Hprev; try lia.
  have -> : (i.+1 == j) = (i == j.-1) by lia.
  case: eqP => // Ei; rewrite Hbp; try lia.
  by rewrite prednK //; lia.
- exists (buf s' k.+1); rewrite R4; last by lia.
  rewrite comb_split -/(cf k) -Hcf; last by lia.
  congr (_ + _ + _); apply: eq_big_nat => i Hi; congr (_ *: _).
  case: (i =P k) => [->|Hik]; first by rewrite Hal //; lia.
  by rewrite -Hsa Hbuf //; lia.
- by move=> j Hj; rewrite Hal // Hdiag.
- by move=> j Hj Hjm; rewrite Hbp // R5.
- move=> HN; have Em : m'.-1.+1 = m' by lia.
  have Eb : buf s' m'.-1.+1 (nc g + m'.-1.+1) = beta' by rewrite Em R6 // (negbTE HN).
  rewrite Hbt ?Eb //; first by lia.
  apply: HRe; case: (boolP b) => Hb; first by have [-> _] := Hbr Hb; rewrite rpred0.
  by have [_ Hp _] := Hco Hb; exact: gtr0_real.
- by move=> j Hj; have [-> ->] := Hab j; rewrite subnKC ?(ltnW Hkm) // (negbTE Hj).
Qed.
Theorem C45_lanczos k m T beta s :
  real_part conj re -> self_adjoint dot op ->
  (forall i, (i < k)%N -> in_span (col s) (nc g + k.+1) (op (col s (nc g + i)))) ->
  orthonormal dot (col s) (nc g + k.+1) -> (k < m < ncols g)%N ->
  (m <= trows T <= tlda T)%N -> ((if cplx then 1 else 2) <= tcols T)%N ->
  exists s' a' b' m' beta' b,
  [/\ mat_lanczos dot conj sqrt re op N cplx g (Some T) k m beta s =
        Ok (s', Some (Tri (trows T) (tcols T) (tlda T) a' b'), m', beta', b),
      krylov_basis dot (nc g) k m m' (col s) (col s') beta' b &
      lanczos_matrix dot conj op (nc g) N k m' (col s') (alpha T) a' (betat T) b' beta'].
Proof.
move=> H1 H2 H3 H4 H5 H6 H7.
have [s' [a' [b' [m' [beta' [b [E B A _]]]]]]] := lanczos_all beta H1 H2 H3 H4 H5 H6 H7.
by exists s', a', b', m', beta', b.
Qed.
End Decompositions.

(** * C46 *)
Section Convergence.
Variable F : numFieldType.
Variable c : kconfig F.
Variables (eig : nat -> F * F) (back : F * F -> F * F) (inside : F * F -> bool) (converged : F * F -> F -> F).
Variables (xvec : nat -> nat * F) (yvec : nat -> F) (residual : nat -> F * F -> F).
Variables (kini nits : nat) (beta betat corrf : F).

(** Position k begins a conjugate pair. *)
Definition pair_at k : bool := (xvec k).1 == k.+1.
(** The eigenvalue given to the convergence test and its residual norm. *)
Definition tested_value k : F * F := if trueres c || isshift c || convnorm c then back (eig k) else eig k.
Definition tested_norm k : F :=
  if trueres c then residual k (tested_value k)
  else if refined c then (xvec k).2 else (xvec k).2 * (beta * corrf).
Definition right_error k : F := converged (tested_value k) (tested_norm k).
Definition left_error k : F := converged (tested_value k) (yvec k * betat).
Definition accepted k : bool :=
  [&& istrivial c || inside (back (eig k)), ~~ (tol c <= right_error k) &
      twosided c ==> ~~ (tol c <= left_error k)].
Definition estimate k : F :=
  if twosided c && (right_error k <= left_error k) then left_error k else right_error k.

Notation kend := (kini + nits)%N.
Notation starts := (starts pair_at kini).
(** The first eigenvalue of a pair is not the last position. *)
Hypothesis Hpair : forall k, starts k -> (k < kend)%N -> pair_at k -> (k.+1 < kend)%N.

Definition next k : nat := if pair_at k then k.+2 else k.+1.
Lemma next_gt k : (k < next k)%N. Proof. by rewrite /next; case: ifP; lia. Qed.
Lemma starts_next k : starts k -> starts (next k).
Proof. by rewrite /next; case E : (pair_at k) => H; [apply: starts2|apply: starts1; rewrite ?E]. Qed.
Lemma starts_iter k : starts k -> exists n, k = iter n next kini.
Proof.
elim=> [|p _ [n Hn] Hp|p _ [n Hn] Hp]; first by exists 0%N.
  by exists n.+1; rewrite iterS -Hn /next (negbTE Hp).
by exists n.+1; rewrite iterS -Hn /next Hp.
Qed.
Lemma iter_ge n k : (k <= iter n next k)%N.
Proof. by elim: n => //= n IH; have := next_gt (iter n next k); lia. Qed.
(** Nothing starts strictly between a start and the next one. *)
Lemma starts_gap k p : starts k -> starts p -> (k < p)%N -> (next k <= p)%N.
Proof.
move=> /starts_iter [a ->] /starts_iter [b ->] Hab.
case: (ltnP a b) => Hlt; last first.
  by move: Hab; rewrite -(subnK Hlt) iterD; have := iter_ge (a - b) (iter b next kini); lia.
have -> : b = (b - a.+1 + a.+1)%N by lia.
by rewrite iterD iterS iter_ge.
Qed.
Lemma starts_ge k : starts k -> (kini <= k)%N.
Proof. by move=> /starts_iter [n ->]; exact: iter_ge. Qed.

(** What is known when the loop arrives at [k]. *)
Record conv_inv (ga : bool) (k : nat) (marker : option nat) (e0 e : nat -> F) : Prop := ConvInv {
  ci_start : starts k;
  ci_end : (k <= kend)%N;
  ci_marker : if marker is Some p then [/\ starts p, (p < k)%N, ~~ accepted p & ga || (k == next p)]
              else True;
  ci_accepted : forall p, starts p -> (p < if marker is Some q then q else k)%N -> accepted p;
  ci_errest : forall p, starts p -> (p < k)%N -> e p = estimate p /\ (pair_at p -> e p.+1 = estimate p);
  ci_other : forall i, ~~ (kini <= i < k)%N -> e i = e0 i }.

Notation cl := (conv_loop c eig back inside converged xvec yvec residual).
Lemma conv_loopS n ga k marker e : (k < kend)%N ->
  exists e', (forall i, e' i = if (i == k) || pair_at k && (i == k.+1) then estimate k else e i) /\
  let marker' := if marker is None then (if accepted k then None else Some k) else marker in
  cl n.+1 ga kend beta betat corrf k marker e =
    if (if marker' is None then false else true) && ~~ ga then Ok ((next k).-1, marker', e')
    else cl n ga kend beta betat corrf (next k) marker' e'.
Proof.
move=> Hk.
have Ew : forall b, (if ~~ b || uses_back c then back (eig k) else eig k) =
    if b then tested_value k else back (eig k).
  by move=> b; rewrite /tested_value -/(uses_back c); case: b; case: (uses_back c).
have Ew2 : (if ~~ uses_back c then eig k else back (eig k)) = tested_value k.
  by rewrite /tested_value -/(uses_back c); case: (uses_back c).
have Er : (if trueres c then residual k (tested_value k)
           else if ~~ refined c then (xvec k).2 * (beta * corrf) else (xvec k).2) = tested_norm k.
  by rewrite /tested_norm; case: (refined c).
set e1 := upd e k (right_error k).
set e2 := if twosided c then upd e1 k (if e1 k <= left_error k then left_error k else e1 k) else e1.
set e3 := if pair_at k then upd e2 k.+1 (e2 k) else e2.
have E1 : e1 k = right_error k by rewrite /e1 /upd eqxx.
have E2 : forall i, e2 i = if i == k then estimate k else e i.
  move=> i; rewrite /e2 /estimate E1; case: (twosided c) => /=; rewrite /upd /e1 /upd //.
  by case: eqP.
exists e3; split.
  move=> i; rewrite /e3; case: (pair_at k) => /=; last by rewrite orbF E2.
  by rewrite /upd; case: (i =P k.+1) => [->|_]; rewrite ?orbT ?orbF !E2 ?eqxx.
move=> mk; rewrite [LHS]/= leqNgt Hk /= !Ew.
have -> : xvec k = ((xvec k).1, (xvec k).2) by case: (xvec k).
rewrite -/(pair_at k) /mk {mk}.
case Et: (istrivial c) => /=.
  rewrite Er -/(right_error k) -/e1 -/(left_error k) /accepted Et /=.
  case Ets: (twosided c) => /=.
    have <- : e2 = upd e1 k (if e1 k <= left_error k then left_error k else e1 k) by rewrite /e2 Ets.
    rewrite /e3 /next; case: (pair_at k) => /=; case: (marker) => [q|] //=;
    by case: (tol c <= right_error k) => //=; case: (tol c <= left_error k) => /=.
  have <- : e2 = e1 by rewrite /e2 Ets.
  rewrite /e3 /next; case: (pair_at k) => /=; case: (marker) => [q|] //=;
  by case: (tol c <= right_error k).
rewrite Ew2 Er -/(right_error k) -/e1 -/(left_error k) /accepted Et /=.
case Ets: (twosided c) => /=.
  have <- : e2 = upd e1 k (if e1 k <= left_error k then left_error k else e1 k) by rewrite /e2 Ets.
  rewrite /e3 /next; case: (pair_at k) => /=; case: (marker) => [q|] //=; case: (inside _) => //=;
  by case: (tol c <= right_error k) => //=; case: (tol c <= left_error k) => /=.
have <- : e2 = e1 by rewrite /e2 Ets.
rewrite /e3 /next; case: (pair_at k) => /=; case: (marker) => [q|] //=; case: (inside _) => //=;
by case: (tol c <= right_error k).
Qed.

Lemma conv_loop_ok n : forall ga k marker e0 e, (kend <= k + n)%N -> conv_inv ga k marker e0 e ->
  (marker <> None -> ga) ->
  exists k' marker' e', cl n ga kend beta betat corrf k marker e = Ok (k', marker', e') /\
    (exists k2, [/\ conv_inv ga k2 marker' e0 e', marker' = None \/ ga -> k2 = kend & marker' = None -> k' = kend]).
Proof.
elim: n => [|n IH] ga k marker e0 e Hn I Hga.
  rewrite /=; have Hk : (kend <= k)%N by lia.
  rewrite Hk; exists k, marker, e; split=> //; exists k; case: (I) => *; split=> //; lia.
case: (leqP kend k) => Hk.
  rewrite /= Hk; exists k, marker, e; split=> //; exists k; case: (I) => *; split=> //; lia.
have [e' [He' ->]] := conv_loopS n ga marker e Hk.
set mk' := match marker with Some _ => _ | None => _ end.
have I' : conv_inv ga (next k) mk' e0 e'.
  case: I => I1 I2 I3 I4 I5 I6; split.
  - exact: starts_next.
  - by rewrite /next; case: ifP => // Hp; apply: Hpair.
  - rewrite /mk'; case: (marker) I3 Hga => [q [Q1 Q2 Q3 Q4] Hga|_ _].
      by split=> //; [have := next_gt k; lia|rewrite Hga].
    case: ifP => // Ha; split=> //; rewrite ?Ha ?eqxx ?orbT //; exact: next_gt.
  - move=> p Hp; rewrite /mk'; case: (marker) I4 => [q|] I4; first exact: I4.
    case: ifP => Ha; last exact: I4.
    move=> Hpn; case: (ltngtP p k) => [Hlt|Hgt|->] //; first exact: I4.
    by have := starts_gap I1 Hp Hgt; lia.
  - move=> p Hp Hpn; case: (ltngtP p k) => [Hlt|Hgt|->].
    + have [Q1 Q2] := I5 p Hp Hlt; have Hg := starts_gap Hp I1 Hlt.
      have Hpk := next_gt p; rewrite !He'; split.
        by rewrite ifF //; lia.
      move=> Hpp; move: Hg; rewrite /next Hpp => Hg; rewrite ifF ?Q2 //; lia.
    + by have := starts_gap I1 Hp Hgt; lia.
    + rewrite !He' eqxx; split=> // Hpp.
      by rewrite Hpp eqxx orbT.
  - move=> i Hi; rewrite He'.
    have Hik : (kini <= k)%N by exact: starts_ge.
    have Hi2 : ~~ ((i == k) || pair_at k && (i == k.+1)).
      by move: Hi; rewrite /next; case: ifP => Hp; lia.
    rewrite (negbTE Hi2); apply: I6; have := next_gt k; lia.
rewrite /=; case: ifP => [/andP [Hm Hng]|Hm].
  exists (next k).-1, mk', e'; split=> //; exists (next k); split=> //.
    by case=> [E|E]; [rewrite E in Hm|rewrite E in Hng].
  by move=> E; rewrite E in Hm.
apply: IH => //; first by have := next_gt k; lia.
by move: Hm; case: (mk') => // q /= /negbFE.
Qed.

Theorem C46_convergence getall errest :
  exists kout errest',
  krylov_convergence c eig back inside converged xvec yvec residual getall kini nits beta betat corrf errest =
    Ok (kout, errest') /\
  [/\ [/\ (kini <= kout <= kend)%N, starts kout & (kout < kend)%N -> ~~ accepted kout],
      (forall k, starts k -> (k < kout)%N -> accepted k),
      (forall k, starts k -> (k < kend)%N -> (k <= kout)%N || getall || trackall c ->
         errest' k = estimate k /\ (pair_at k -> errest' k.+1 = estimate k)),
      (forall i, ~~ (kini <= i < kend)%N -> errest' i = errest i) &
      (forall k i, starts k -> (kout < k <= i)%N -> ~~ (getall || trackall c) -> errest' i = errest i)].
Proof.
have I0 : conv_inv (getall || trackall c) kini None errest errest.
  split=> //; try exact: starts0; try exact: leq_addr.
  - by move=> p /starts_ge Hp Hlt; lia.
  - by move=> p /starts_ge Hp Hlt; lia.
have [k' [mk [e' [E [k2 [[I1 I2 I3 I4 I5 I6] Hk2 Hk']]]]]] :=
  @conv_loop_ok nits (getall || trackall c) kini None errest errest (leqnn _) I0 (fun H => False_ind _ (H erefl)).
rewrite /krylov_convergence E /=; eexists; exists e'; split; first by [].
case: mk E I3 I4 Hk2 Hk' => [p|] E I3 I4 Hk2 Hk'.
  case: I3 => P1 P2 P3 P4; split.
  - split=> //; rewrite (starts_ge P1) /=; lia.
  - exact: I4.
  - move=> k Hk Hke; rewrite -orbA => /orP [Hkp|Hga].
      apply: I5 => //; case: (ltngtP k p) Hkp => // [Hlt|->] _; lia.
    by apply: I5 => //; rewrite Hk2 //; right.
  - by move=> i Hi; apply: I6; lia.
  - move=> k i Hk Hki Hga; apply: I6; rewrite (negbTE Hga) /= in P4.
    have Hkp : (p < k)%N by lia.
    by have := starts_gap P1 Hk Hkp; lia.
rewrite Hk' //; move: Hk2 => /(_ (or_introl erefl)) Hk2; rewrite Hk2 in I1 I4 I5 I6.
split=> //.
- by split=> //; lia.
- by move=> k Hk Hke _; apply: I5.
- by move=> k i _ Hi _; apply: I6; lia.
Qed.
End Convergence.

Print Assumptions C44_arnoldi.
Print Assumptions C44_without_H.
Print Assumptions C44_last_column.
Print Assumptions C45_lanczos.
Print Assumptions C46_convergence.
