(** Krylov-Schur: property theorems C47-C49. *)
From mathcomp Require Import all_ssreflect all_algebra.
From mathcomp Require Import zify.
From Verif Require Import Prelude GSModel GSSpec GSProofs GSProps KrylovModel KrylovSpec KSModel KSSpec KSProofs KSLoop.
Set Implicit Arguments. Unset Strict Implicit. Unset Printing Implicit Defensive.
Import GRing.Theory Num.Theory Order.TTheory.
Local Open Scope ring_scope.

Section C47.
(** Scalars, vectors, inner product; a linear operator on a space of dimension N. *)
Variables (F : numFieldType) (V : lmodType F) (dot : V -> V -> F) (conj : {rmorphism F -> F}) (sqrt : F -> F).
Hypothesis HH : hermitian conj dot.
Hypothesis Hsqrt : square_root sqrt.
Hypothesis Hpd : positive_definite dot.
Hypothesis Hconj : forall a, a * conj a = `|a| ^+ 2.
Variables (op : V -> V) (N : nat).
Hypothesis Hlin : forall a x y, op (a *: x + y) = a *: op x + op y.
Hypothesis Hdim : dimension dot N.
(** The orthogonalization. *)
Variable g : config F.
Hypothesis Heta : 0 < eta g <= 1.
Hypothesis Htol : 0 < deftol g.
Hypothesis Hdef : indef g = false.
(** LAPACK; the selection criterion is arbitrary. *)
Variables (lapack_schur : bool -> nat -> nat -> matrix F -> matrix F * matrix F)
  (lapack_trexc : nat -> nat -> nat -> matrix F * matrix F -> matrix F * matrix F)
  (lapack_trevc : nat -> matrix F -> nat -> F) (worse : F -> F -> bool).
Variables (ks : kscfg) (kc : kconfig F) (back : F * F -> F * F) (inside : F * F -> bool)
  (converged : F * F -> F -> F) (start : V) (random : nat -> V).
Hypothesis Hschur : schur_contract conj (ncv ks) lapack_schur.
Hypothesis Htrexc : trexc_contract conj (ncv ks) lapack_trexc.
Hypothesis Htrevc : trevc_contract lapack_trevc.
(** The user's options: trivial region, no true residual, no refined vectors, mpd not below ncv (the default up
    to nev = 500), 0 < nev < ncv or nev <= ncv = N, a fraction of vectors is kept; the convergence test accepts
    residual zero. *)
Hypothesis Hncols : ncols g = (ncv ks).+1.
Hypothesis Hkeep : forall m, (1 < m)%N -> (keep ks m < m)%N.
Hypothesis Hkc : [/\ istrivial kc, trueres kc = false, refined kc = false & twosided kc = false].
Hypothesis Hmpd : (ncv ks <= mpd ks)%N.
Hypothesis Hnev : (0 < nev ks)%N /\ ((nev ks < ncv ks)%N \/ (nev ks <= ncv ks)%N /\ ncv ks = N).
Hypothesis Hzero : forall w, ~~ (tol kc <= converged w 0).

Notation solve := (solve dot conj sqrt op N g lapack_schur lapack_trexc lapack_trevc worse ks kc back inside
  converged start random).
Notation compute_vectors := (compute_vectors sqrt g lapack_trevc).

(** The eigenvalue given to the convergence test: back-transformed if so configured. *)
Definition tested (w : F) : F * F := if uses_back kc then back (w, 0) else (w, 0).

(** EPSSolve with Krylov-Schur ends, without an error, after at most max(1,max_it) iterations, with orthonormal
    Schur vectors (and constraints, which are not changed); the reason is the true one; the error estimate of
    each converged pair is below the tolerance, and it is the one of the exact norm of the residual of the
    computed eigenvector, up to the residuals of Schur vectors locked in earlier restarts. *)
Theorem C47_krylovschur (v : GSModel.mem V) (d : ds F) (eig err : nat -> F) : orthonormal dot (col v) (nc g) ->
  ~ in_span (col v) (nc g) (if inrange ks then op start else start) ->
  (forall i j, (i <= ncv ks)%N -> (j.+1 < i)%N -> dA d i j = 0) ->
  exists2 r, solve v d eig err = Ok r &
    [/\ (its r <= maxn 1 (max_it ks))%N /\ (nconv r <= ncv ks)%N,
        exists2 w, why r = Some w &
          match w with Tol => (nev ks <= nconv r)%N | Its => (max_it ks <= its r)%N | Breakdown => True end,
        orthonormal dot (col (basis r)) (nc g + nconv r) /\ (forall i, (i < nc g)%N -> col (basis r) i = col v i),
        forall i, (i < nconv r)%N -> ~~ (tol kc <= errest r i) &
        (0 < nconv r)%N -> exists2 r', compute_vectors r = Ok r' &
          (nconv r' = nconv r /\ eigr r' = eigr r /\ errest r' = errest r) /\
          forall i, (i < nconv r)%N ->
          let x := col (basis r') (nc g + i) in
          dot x x = 1 /\ exists lo rho, [/\ (lo <= i)%N, ~~ lock ks -> lo = 0%N,
            errest r i = converged (tested (eigr r i)) rho &
            (forall j, (j < i)%N -> eigr r j != eigr r i) -> exists a R,
              is_norm dot R rho /\
              deflated dot op (col v) (nc g) x - eigr r i *: x =
              \sum_(0 <= p < lo) a p *: schur_residual dot op (col (basis r)) (nc g) (dA (dense_solver r)) p + R]].
Proof.
move=> Ho Hs Hz.
have [r Er [Fn Ed Hits]] := solve_ok HH Hsqrt Hpd Hconj Hlin Hdim Heta Htol Hdef worse Htrevc back inside random
  Hschur Htrexc Hncols Hkeep Hkc Hmpd Hnev Hzero eig err Ho Hs Hz.
exists r => //; have [F1 F2 F3 F4 F5 F6] := Fn; split=> //.
- by move=> i Hi; have [lo [] ] := F4 i Hi.
move=> Hn; have [r' E' [X1 X2 [X3 _] [X4 X5] _]] := vectors_ok Heta Htol Hdef Htrevc Hncols Hmpd Fn Ed Hn.
exists r' => //; split=> // i Hi x; rewrite /x X1 //; split.
  exact: (ritz_unit HH Hsqrt Hconj Heta Htol Hdef Htrevc Hncols Hmpd _ F2 Hi).
have [lo [P1 P2 P3 [rho P4 P5]] Hlo] := F4 i Hi; exists lo, rho; split=> //; first by rewrite P2.
move=> Hd; set T := dA (dense_solver r) in P2 P4 P5 *.
have Ej j : (j < i)%N -> eigr r j = T j j by move=> Hj; have [? []] := F4 j (ltn_trans Hj Hi).
have HdT j : (j < i)%N -> T j j != T i i by move=> Hj; rewrite -Ej // -P2 Hd.
exists (coeff sqrt lapack_trevc T i), (\sum_(lo <= p < i.+1) coeff sqrt lapack_trevc T i p *: schur_residual dot op (col (basis r)) (nc g) T p).
split; first exact: P5.
rewrite P2 -(@deflated_ext _ _ dot op _ _ _ _ F3).
rewrite (ritz_residual sqrt HH Hlin g Htrevc (col (basis r)) HdT).
by rewrite (@big_cat_nat _ _ _ lo) //=; exact: leq_trans P1 _.
Qed.

(** Without locking the estimate is the one of the exact norm of the residual. *)
Theorem C47_unlocked (v : GSModel.mem V) (d : ds F) (eig err : nat -> F) : ~~ lock ks ->
  orthonormal dot (col v) (nc g) -> ~ in_span (col v) (nc g) (if inrange ks then op start else start) ->
  (forall i j, (i <= ncv ks)%N -> (j.+1 < i)%N -> dA d i j = 0) ->
  exists2 r, solve v d eig err = Ok r &
    (0 < nconv r)%N -> exists2 r', compute_vectors r = Ok r' & forall i, (i < nconv r)%N ->
      let x := col (basis r') (nc g + i) in
      (forall j, (j < i)%N -> eigr r' j != eigr r' i) -> dot x x = 1 /\ exists rho,
        [/\ is_norm dot (deflated dot op (col v) (nc g) x - eigr r' i *: x) rho,
            errest r' i = converged (tested (eigr r' i)) rho & ~~ (tol kc <= errest r' i)].
Proof.
move=> Hlk Ho Hs Hz; have [r Er [_ _ _ Hest Hvec]] := C47_krylovschur eig err Ho Hs Hz.
exists r => // Hn; have [r' E' [[_ [Ee Er']] Hx]] := Hvec Hn; exists r' => // i Hi x; rewrite Ee Er' => Hd.
have [Hunit [lo [rho [_ Hlo Eest Hres]]]] := Hx i Hi; split=> //; exists rho.
have [a [R [HR E]]] := Hres Hd; move: E; rewrite (Hlo Hlk) big_geq // add0r => E.
by split=> //; [rewrite E|exact: Hest].
Qed.
End C47.
Print Assumptions C47_krylovschur.
Print Assumptions C47_unlocked.

(** * Restart *)
Section C48.
Variables (F : numFieldType) (V : lmodType F).
(** Truncating to n' < n columns keeps a Krylov decomposition: if the columns l .. n'-1 of the matrix with its
    extra row give f_j as a combination of w_0 .. w_(n-1) and x, and are zero in the rows n' .. n-1, then those of
    the truncated matrix with the new extra row give f_j as a combination of w_0 .. w_(n'-1) and x. *)
Theorem C48_truncate (d : ds F) n' (f w : nat -> V) x : dk d = dn d -> (dl d <= n' < dn d)%N ->
  (forall i j, (n' <= i < dn d)%N -> (dl d <= j < n')%N -> dA d i j = 0) ->
  (forall j, (dl d <= j < n')%N -> f j = \sum_(0 <= i < dn d) dA d i j *: w i + dA d (dn d) j *: x) ->
  exists2 d', truncate n' false d = Ok d' &
    [/\ [/\ dn d' = n', dl d' = dl d, dk d' = n', dQ d' = dQ d & get_mat_Q d' = check (n' != 0)%N (Ok (dn d, n'))],
        forall i j, (i < n')%N -> dA d' i j = dA d i j,
        forall j, (dl d <= j < dn d)%N -> dA d' (dn d) j = 0 &
        forall j, (dl d <= j < n')%N -> f j = \sum_(0 <= i < n') dA d' i j *: w i + dA d' n' j *: x].
Proof.
move=> Hk /andP [Hl Hn] Hz Hf; rewrite /truncate /check Hl (ltnW Hn) Hk eqxx /=.
have Hn0 : (dn d != 0)%N by lia.
eexists; first by []; split=> /=.
- by split=> //; rewrite /get_mat_Q /= Hn0.
- by move=> i j Hi; rewrite ltn_eqF ?(ltn_trans Hi) // ltn_eqF.
- by move=> j ->; rewrite eqxx.
move=> j Hj; rewrite Hf // ltn_eqF // eqxx Hj /=; congr (_ + _).
rewrite (@sum_tail _ _ n') ?(ltnW Hn) //; last by move=> i Hi; rewrite Hz ?scale0r.
rewrite big_nat_cond [RHS]big_nat_cond; apply: eq_bigr => i /andP [/andP [_ Hi] _].
by rewrite ltn_eqF ?(ltn_trans Hi) // ltn_eqF.
Qed.

(** Not so for n' = n, which DSTruncate admits: the extra row is lost.  Krylov-Schur gets there with mpd < ncv,
    when all but one of the values of a restart converge. *)
Theorem C48_truncate_full_refuted : exists (d : ds F) (f w : nat -> F^o) (x : F^o),
  [/\ dk d = dn d /\ (dl d < dn d)%N,
      forall i j, (j < i < dn d)%N -> (dl d <= j)%N -> dA d i j = 0,
      forall j, (dl d <= j < dn d)%N -> f j = \sum_(0 <= i < dn d) dA d i j *: w i + dA d (dn d) j *: x &
      exists2 d', truncate (dn d) false d = Ok d' & exists2 j, (dl d <= j < dn d)%N &
        f j != \sum_(0 <= i < dn d) dA d' i j *: w i + dA d' (dn d) j *: x].
Proof.
exists (DS (fun i j => (i == 2%N)%:R) (@ident F) 2 0 2 2 Condensed), (fun _ => 1), (fun _ => 1), 1.
split=> //= [i j|j|].
- by case: i => [|[|[|?]]] //; rewrite andbF.
- by move=> _; rewrite big_nat_recr //= big_nat1 !scale0r !add0r /= /GRing.scale /= mulr1.
eexists; first by []; exists 0%N => //=.
by rewrite big_nat_recr //= big_nat1 !scale0r !addr0 oner_eq0.
Qed.
End C48.
Print Assumptions C48_truncate.
Print Assumptions C48_truncate_full_refuted.

(** * Sorting *)
Section C49.
Variables (F : numFieldType) (worse : F -> F -> bool).
Hypothesis worse_asym : forall a b, worse a b -> ~~ worse b a.
Hypothesis worse_trans : forall a b c, ~~ worse a b -> ~~ worse b c -> ~~ worse a c.
Implicit Types (w : nat -> F).

Lemma find_best_ok m : forall j re pos w, exists val,
  let p := find_best worse m j re pos w in
  [/\ (p = pos /\ val = re) \/ ((j <= p < j + m)%N /\ val = w p),
      forall q, (j <= q < j + m)%N -> ~~ worse val (w q) & ~~ worse val re].
Proof.
have irr a : ~~ worse a a by apply/negP => H; move: (worse_asym H); rewrite H.
elim: m => [|m IH] j re pos w /=; first by exists re; split=> //; [left|move=> q; lia].
case: ifP => Hw.
  have [val /= [H1 H2 H3]] := IH j.+1 (w j) j w; exists val; split.
  - by right; case: H1 => [[-> ->]|[H ->]]; split=> //; lia.
  - move=> q Hq; case: (eqVneq q j) => [->//|Hqj]; apply: H2; lia.
  - exact: worse_trans H3 (worse_asym Hw).
have [val /= [H1 H2 H3]] := IH j.+1 re pos w; exists val; split=> //.
- by case: H1 => [|[H ->]]; [left|right; split=> //; lia].
- move=> q Hq; case: (eqVneq q j) => [->|Hqj]; last by apply: H2; lia.
  by apply: worse_trans H3 _; rewrite Hw.
Qed.

Lemma move_count pos i l n w x : (l <= i)%N -> (i < pos < n)%N ->
  (\sum_(l <= j < n) (move pos i w j == x) = \sum_(l <= j < n) (w j == x))%N.
Proof.
move=> Hl /andP [Hi Hp].
have Hin : (i <= n)%N by lia.
have Hin1 : (i < n)%N by lia.
have Hip : (i.+1 <= pos.+1)%N by lia.
rewrite [LHS](@big_cat_nat _ _ _ i) //= [RHS](@big_cat_nat _ _ _ i) //=; congr (_ + _)%N.
  rewrite big_nat_cond [RHS]big_nat_cond; apply: eq_bigr => j /andP [/andP [_ Hj] _].
  by rewrite /move (ltn_eqF Hj) ifF //; lia.
rewrite [LHS](@big_cat_nat _ _ _ pos.+1) ?(leqW (ltnW Hi)) //= [RHS](@big_cat_nat _ _ _ pos.+1) ?(leqW (ltnW Hi)) //=.
congr (_ + _)%N; last first.
  rewrite big_nat_cond [RHS]big_nat_cond; apply: eq_bigr => j /andP [/andP [Hj _] _].
  by rewrite /move gtn_eqF ?ifF //; lia.
rewrite big_ltn ?ltnS ?(ltnW Hi) // [RHS]big_nat_recr ?(ltnW Hi) //= addnC; congr (_ + _)%N; last by rewrite /move eqxx.
rewrite big_add1 /= big_nat_cond [RHS]big_nat_cond; apply: eq_bigr => j /andP [Hj _].
by rewrite /move gtn_eqF /= ?ifT //; lia.
Qed.

Variables (m : nat) (lapack_trexc : nat -> nat -> nat -> matrix F * matrix F -> matrix F * matrix F).
Hypothesis Hmoves : trexc_moves m lapack_trexc.

Lemma sort_loop_sorted k : forall i l n QT w, (n <= m)%N -> (i + k = n.-1)%N -> (l <= i)%N ->
  (forall j, (j < n)%N -> w j = QT.2 j j) ->
  (forall a b, (l <= a < i)%N -> (a < b < n)%N -> ~~ worse (w a) (w b)) ->
  let r := sort_loop lapack_trexc worse k i n QT w in
  [/\ forall j, (j < n)%N -> r.2 j = r.1.2 j j,
      forall a b, (l <= a)%N -> (a < b < n)%N -> ~~ worse (r.2 a) (r.2 b),
      forall x, (\sum_(l <= j < n) (r.2 j == x) = \sum_(l <= j < n) (w j == x))%N &
      forall j, (j < i)%N || (n <= j)%N -> r.2 j = w j].
Proof.
elim: k => [|k IH] i l n QT w Hm Hk Hl Hw Hs; first by split=> //= a b Ha Hb; apply: Hs; lia.
rewrite [sort_loop _ _ _ _ _ _ _]/=.
set pos := find_best _ _ _ _ _ _.
have [val [H1 H2 H3]] := find_best_ok (n - i.+1) i.+1 (w i) 0 w; rewrite -/pos in H1.
have En : (i.+1 + (n - i.+1) = n)%N by lia.
rewrite En in H1 H2.
case: eqVneq => [E0|Hp].
  have Ev : val = w i by case: H1 => [[]|[]] //; lia.
  have Hk1 : (i.+1 + k = n.-1)%N by lia.
  have Hs1 a b : (l <= a < i.+1)%N -> (a < b < n)%N -> ~~ worse (w a) (w b).
    move=> Ha Hb; case: (eqVneq a i) => [Ea|Hai]; last by apply: Hs; lia.
    by rewrite Ea -Ev H2 //; lia.
  have [R1 R2 R3 R4] := IH i.+1 l n QT w Hm Hk1 (leqW Hl) Hw Hs1.
  by split=> // j Hj; apply: R4; lia.
have [Hpos Ev] : (i < pos < n)%N /\ val = w pos by case: H1 => [[H _]|[]] //; move: Hp; rewrite H.
set QT' := lapack_trexc _ _ _ _; set w' := fun j => _.
have Ew j : (j < n)%N -> w' j = move pos i w j.
  move=> Hj; rewrite /w' Hj andbT; case: leqP => Hij.
    by rewrite Hmoves // /move; case: ifP => _; [|case: ifP => Hc]; rewrite Hw //; lia.
  by rewrite /move ltn_eqF // ifF //; lia.
have Ho j : (n <= j)%N -> w' j = w j by move=> Hj; rewrite /w' ifF //; lia.
have Hlow j : (j < i)%N -> w' j = w j by move=> Hj; rewrite /w' ifF //; lia.
have Hval b : (i <= b < n)%N -> exists2 q, (i <= q < n)%N & w' b = w q.
  move=> Hb; rewrite Ew; last by lia.
  rewrite /move; case: ifP => _; first by exists pos => //; lia.
  by case: ifP => Hc; [exists b.-1 => //; lia|exists b => //; lia].
have Hk1 : (i.+1 + k = n.-1)%N by lia.
have Hw1 j : (j < n)%N -> w' j = QT'.2 j j.
  move=> Hj; rewrite /w' Hj andbT; case: leqP => // Hji.
  by rewrite Hw // Hmoves // /move ltn_eqF // ifF //; lia.
have Hs1 a b : (l <= a < i.+1)%N -> (a < b < n)%N -> ~~ worse (w' a) (w' b).
  move=> Ha Hb; case: (ltnP b i) => Hbi; first by rewrite !Hlow ?Hs //; lia.
  have Hb2 : (i <= b < n)%N by lia.
  have [q Hq ->] := Hval b Hb2.
  case: (ltnP a i) => Hai; first by rewrite Hlow // Hs //; lia.
  rewrite Ew; last by lia.
  rewrite /move (_ : a == i); last by lia.
  rewrite -Ev; case: (eqVneq q i) => [->//|Hqi]; apply: H2; lia.
have [R1 R2 R3 R4] := IH i.+1 l n QT' w' Hm Hk1 (leqW Hl) Hw1 Hs1.
split=> //.
- move=> x; rewrite R3 -[RHS](@move_count pos i) //.
  by rewrite big_nat_cond [RHS]big_nat_cond; apply: eq_bigr => j /andP [/andP [_ Hj] _]; rewrite Ew.
- move=> j Hj; rewrite R4; last by lia.
  by case/orP: Hj => Hj; [exact: Hlow|exact: Ho].
Qed.

(** DSSort: the values from position l on are a permutation of what they were, no value is better than one
    before it, and they are the diagonal of the matrix; the others are not changed. *)
Theorem C49_sort (d : ds F) w : (dl d < dn d <= m)%N -> (forall j, (j < dn d)%N -> w j = dA d j j) ->
  let (d', w') := ds_sort lapack_trexc worse d w in
  [/\ forall a b, (dl d <= a)%N -> (a < b < dn d)%N -> ~~ worse (w' a) (w' b),
      forall x, (\sum_(dl d <= j < dn d) (w' j == x) = \sum_(dl d <= j < dn d) (w j == x))%N,
      forall j, (j < dn d)%N -> w' j = dA d' j j &
      forall j, (j < dl d)%N || (dn d <= j)%N -> w' j = w j].
Proof.
move=> /andP [Hl Hm] Hw; rewrite /ds_sort.
have Hk1 : (dl d + ((dn d).-1 - dl d) = (dn d).-1)%N by lia.
have Hs1 a b : (dl d <= a < dl d)%N -> (a < b < dn d)%N -> ~~ worse (w a) (w b) by lia.
have := @sort_loop_sorted ((dn d).-1 - dl d) (dl d) (dl d) (dn d) (dQ d, dA d) w Hm Hk1 (leqnn _) Hw Hs1.
case: (sort_loop _ _ _ _ _ _ _) => [[Q T] w'] /= [R1 R2 R3 R4]; split=> //.
by move=> j Hj; rewrite Hj R1.
Qed.
End C49.
Print Assumptions C49_sort.
