(** Krylov-Schur: the invariant of the restart loop. *)
From mathcomp Require Import all_ssreflect all_algebra.
From mathcomp Require Import zify.
From Verif Require Import Prelude GSModel GSSpec GSProofs GSProps KrylovModel KrylovSpec KrylovProofs KrylovProps.
From Verif Require Import KSModel KSSpec KSProofs.
Set Implicit Arguments. Unset Strict Implicit. Unset Printing Implicit Defensive.
Import GRing.Theory Num.Theory Order.TTheory.
Local Open Scope ring_scope.

(** lia without the hypotheses that are not about natural numbers. *)
Ltac nl := repeat match goal with [H : ?P |- _] =>
  lazymatch P with
  | is_true _ => fail | nat => fail | bool => fail
  | @eq ?T _ _ => tryif (first [unify T nat|unify T bool]) then fail else clear H
  | _ => clear H
  end end; lia.

Section Loop.
Variables (F : numFieldType) (V : lmodType F) (dot : V -> V -> F) (conj : {rmorphism F -> F}) (sqrt : F -> F).
Hypothesis HH : hermitian conj dot.
Hypothesis Hsqrt : square_root sqrt.
Hypothesis Hpd : positive_definite dot.
Hypothesis Hconj : forall a, a * conj a = `|a| ^+ 2.
Variables (op : V -> V) (N : nat).
Hypothesis Hlin : forall a x y, op (a *: x + y) = a *: op x + op y.
Hypothesis Hdim : dimension dot N.
Variable g : config F.
Hypothesis Heta : 0 < eta g <= 1.
Hypothesis Htol : 0 < deftol g.
Hypothesis Hdef : indef g = false.
Variables (lapack_schur : bool -> nat -> nat -> matrix F -> matrix F * matrix F)
  (lapack_trexc : nat -> nat -> nat -> matrix F * matrix F -> matrix F * matrix F)
  (lapack_trevc : nat -> matrix F -> nat -> F) (worse : F -> F -> bool).
Hypothesis Htrevc : trevc_contract lapack_trevc.
Variables (ks : kscfg) (kc : kconfig F) (back : F * F -> F * F) (inside : F * F -> bool)
  (converged : F * F -> F -> F) (start : V) (random : nat -> V).
Hypothesis Hschur : schur_contract conj (ncv ks) lapack_schur.
Hypothesis Htrexc : trexc_contract conj (ncv ks) lapack_trexc.
Hypothesis Hncols : ncols g = (ncv ks).+1.
Hypothesis Hkeep : forall m, (1 < m)%N -> (keep ks m < m)%N.
Hypothesis Hkc : [/\ istrivial kc, trueres kc = false, refined kc = false & twosided kc = false].
Hypothesis Hmpd : (ncv ks <= mpd ks)%N.
Hypothesis Hnev : (0 < nev ks)%N /\ ((nev ks < ncv ks)%N \/ (nev ks <= ncv ks)%N /\ ncv ks = N).
(** A pair with residual zero is accepted. *)
Hypothesis Hzero : forall w, ~~ (tol kc <= converged w 0).
Notation mem := (GSModel.mem V).
Notation run := (KSModel.run V).
Notation iteration := (iteration dot conj sqrt op N g lapack_schur lapack_trexc lapack_trevc worse ks kc back inside
  converged random).
Notation start_vector := (start_vector dot conj sqrt op g ks).
Notation deflated := (deflated dot op).
Notation schur_residual := (schur_residual dot op).
Implicit Types (u : nat -> V) (S Q T : matrix F) (r : run).

(** The value given to the convergence test. *)
Definition value_of (w : F) : F * F := if uses_back kc then back (w, 0) else (w, 0).
(** Eigenvector i of T, normalized. *)
Definition coeff T i p : F := (nrm2 sqrt i.+1 (lapack_trevc i T))^-1 * lapack_trevc i T p.
(** Pair i of T: accepted with the error estimate of the part of its residual that comes from the Schur
    vectors from [lo] on. *)
Definition pair_ok u T (eigr errest : nat -> F) (i lo : nat) : Prop :=
  [/\ (lo <= i)%N, eigr i = T i i, ~~ (tol kc <= errest i) & exists2 x,
      errest i = converged (value_of (T i i)) x &
      (forall j, (j < i)%N -> T j j != T i i) ->
      is_norm dot (\sum_(lo <= p < i.+1) coeff T i p *: schur_residual u (nc g) T p) x].
Definition pairs_ok u T eigr errest n : Prop :=
  forall i, (i < n)%N -> exists2 lo, pair_ok u T eigr errest i lo & ~~ lock ks -> lo = 0%N.

Let dL : forall a x y z, dot (a *: x + y) z = a * dot x z + dot y z. Proof. by case: HH. Qed.
Let dC : forall x y, dot x y = conj (dot y x). Proof. by case: HH. Qed.

Lemma coeff_ext T T' i p : (forall a b, (a <= b <= i)%N -> T a b = T' a b) -> coeff T i p = coeff T' i p.
Proof.
case: Htrevc => _ _ _ Hext H; rewrite /coeff (Hext i T T' p H) /nrm2; congr ((sqrt _)^-1 * _).
by apply: eq_bigr => q _; rewrite (Hext i T T' q H).
Qed.

Lemma pair_ext u u' T T' eigr eigr' errest errest' i lo : (forall j, (j <= nc g + i)%N -> u' j = u j) ->
  (forall a b, (a <= b <= i)%N -> T' a b = T a b) -> eigr' i = eigr i -> errest' i = errest i ->
  pair_ok u T eigr errest i lo -> pair_ok u' T' eigr' errest' i lo.
Proof.
move=> Eu ET Ee Er [P1 P2 P3 [x P4 P5]]; split; rewrite ?Ee ?Er ?ET ?leqnn //.
exists x => // Hs; rewrite (_ : \sum_(lo <= p < i.+1) _ =
    \sum_(lo <= p < i.+1) coeff T i p *: schur_residual u (nc g) T p).
  by apply: P5 => j Hj; rewrite -(ET j j) ?leqnn ?(ltnW Hj) // Hs.
rewrite big_nat_cond [RHS]big_nat_cond; apply: eq_bigr => p /andP [/andP [_ Hp] _].
rewrite (coeff_ext p ET); congr (_ *: _); apply: schur_residual_ext => [j Hj|q Hq].
  by apply: Eu; lia.
by apply: ET; lia.
Qed.

(** State at the beginning of an iteration. *)
Record inv (u0 : nat -> V) r : Prop := Inv {
  i_why : why r = None;
  i_room : (nconv r + nkeep r < ncv ks)%N;
  i_orth : orthonormal dot (col (basis r)) (nc g + (nconv r + nkeep r).+1);
  i_con : forall i, (i < nc g)%N -> col (basis r) i = u0 i;
  i_rel : forall j, (nconv r <= j < nconv r + nkeep r)%N ->
    deflated (col (basis r)) (nc g) (col (basis r) (nc g + j)) =
    \sum_(0 <= i < (nconv r + nkeep r).+1) dA (dense_solver r) i j *: col (basis r) (nc g + i);
  i_zero : forall i j, (i <= ncv ks)%N -> (nconv r <= j)%N ->
    (if (j < nconv r + nkeep r)%N then (nconv r + nkeep r < i)%N else (j.+1 < i)%N) ->
    dA (dense_solver r) i j = 0;
  i_pairs : pairs_ok (col (basis r)) (dA (dense_solver r)) (eigr r) (errest r) (nconv r);
  i_nolock : ~~ lock ks -> forall j, (j < nconv r)%N ->
    schur_residual (col (basis r)) (nc g) (dA (dense_solver r)) j = 0 /\
    forall i, (j < i <= ncv ks)%N -> dA (dense_solver r) i j = 0 }.

(** State at the end. *)
Record fin (u0 : nat -> V) r : Prop := Fin {
  f_why : exists2 w, why r = Some w &
    match w with Tol => (nev ks <= nconv r)%N | Its => (max_it ks <= its r)%N | Breakdown => True end;
  f_orth : orthonormal dot (col (basis r)) (nc g + nconv r);
  f_con : forall i, (i < nc g)%N -> col (basis r) i = u0 i;
  f_pairs : pairs_ok (col (basis r)) (dA (dense_solver r)) (eigr r) (errest r) (nconv r);
  f_size : (dl (dense_solver r) <= nconv r <= dn (dense_solver r))%N;
  f_room : (nconv r <= ncv ks)%N }.

(** The part of an iteration up to DSSort. *)
Record half r (v : mem) (n : nat) (beta : F) (b : bool) (d : ds F) (wr : nat -> F) : Prop := Half {
  h_n : (nconv r + nkeep r < n <= ncv ks)%N;
  h_con : forall i, (i < nc g + (nconv r + nkeep r).+1)%N -> col v i = col (basis r) i;
  h_orth : orthonormal dot (col v) (nc g + n);
  h_break : b -> beta = 0;
  h_full : ~~ b -> [/\ n = ncv ks, 0 < beta & orthonormal dot (col v) (nc g + n).+1];
  h_dim : [/\ dn d = n, dl d = nconv r & state d = Condensed];
  h_unitary : unitary conj n (dQ d);
  h_fixes : fixes (nconv r) n (dQ d);
  h_rel : forall p, (p < n)%N -> deflated (col v) (nc g) (rotate (nc g) n (dQ d) (col v) p) =
    \sum_(0 <= q < p.+1) dA d q p *: rotate (nc g) n (dQ d) (col v) q +
    (if (p < nconv r)%N then schur_residual (col (basis r)) (nc g) (dA (dense_solver r)) p
     else (beta * dQ d n.-1 p) *: col v (nc g + n));
  h_eig : forall i, (i < n)%N -> wr i = dA d i i;
  h_lower : forall i j, (nconv r <= j < i)%N -> (i < n)%N -> dA d i j = 0;
  h_locked : forall i j, (i <= j)%N -> (j < nconv r)%N -> dA d i j = dA (dense_solver r) i j;
  h_clear : forall i j, (i < n)%N -> (j < nconv r)%N -> dA (dense_solver r) i j = 0 -> dA d i j = 0;
  h_outside : forall i j, (n <= j)%N || (n < i)%N -> (i <= ncv ks)%N -> (nconv r <= j)%N -> (j.+1 < i)%N -> dA d i j = 0;
  h_beyond : forall i j, (j < nconv r)%N -> (n <= i)%N -> dA d i j = dA (dense_solver r) i j;
  h_row : n != N -> forall j, (nconv r <= j < n)%N -> dA d n j = if j == n.-1 then beta else 0 }.

(** The rest of the iteration. *)
Definition finish r (v : mem) (nv : nat) (beta : F) (breakdown : bool) (d : ds F) (wr : nat -> F) : res run :=
  let c := nconv r in
  let it := (its r).+1 in
  let d := update_extra_row d in
  let wr := fun i => if (i < nv)%N then wr i else eigr r i in
  do ' (k, err) <- krylov_convergence kc (fun i => (wr i, 0)) back inside converged
    (fun i => (i, ds_residual sqrt lapack_trevc d i)) (fun _ => 0) (fun _ _ => 0) false c (nv - c) beta 0 1 (errest r);
  let why := stopping ks it k in
  let iterating := if why is None then true else false in
  let l := if ~~ iterating || breakdown || (k == nv) then 0%N else maxn 1 (keep ks (nv - k)) in
  let '(k, l) := if ~~ lock ks && (0 < l)%N then (0%N, l + k)%N else (k, l) in
  do ' (v, d, breakdown, why) <-
    (if iterating then
       if breakdown || (k == nv) then
         if (k < nev ks)%N then
           do ' (v, b) <- start_vector false (random it) k v;
           Ok (v, d, b, if b then Some Breakdown else why)
         else Ok (v, d, breakdown, why)
       else do d <- truncate (k + l) false d; Ok (v, d, breakdown, why)
     else Ok (v, d, breakdown, why));
  do ' (rows, cols) <- get_mat_Q d;
  do v <- mult_in_place g c nv rows cols (dQ d) c (k + l) v;
  do v <- (if (if why is None then true else false) && ~~ breakdown then copy_col g nv (k + l) v else Ok v);
  Ok (Run v d k l it wr err why).

Lemma half_ok u0 r : inv u0 r -> exists v n beta b d wr,
  iteration r = finish r v n beta b d wr /\ half r v n beta b d wr.
Proof.
move=> I; have [I1 I2 I3 I4 I5 I6 I7 I8] := I.
set c := nconv r in I2 I3 I5 I6 I7 I8 *; set l := nkeep r in I2 I3 I5 I6 *.
set S := dA (dense_solver r) in I5 I6 I7 I8 *; set u := col (basis r) in I3 I4 I5 I7 I8 *.
pose H := Dense (ncv ks).+1 (ncv ks) (ncv ks).+1 S.
have Hkm : (c + l < ncv ks < ncols g)%N by rewrite Hncols; nl.
have Hr : (ncv ks <= KrylovModel.rows H <= lda H)%N by rewrite /=; nl.
have [v [e [n [beta [b [E KB AM]]]]]] := C44_arnoldi HH Hsqrt Hpd op Hdim Heta Htol Hdef 0 I3 Hkm Hr (leqnn (ncv ks)).
have Hn : (c + l < n <= ncv ks)%N by case: KB.
pose d2 := DS e (dQ (dense_solver r)) n c (c + l) n (if l == 0%N then Intermediate else Raw).
have Est : state d2 = Raw \/ state d2 = Intermediate by rewrite /=; case: eqP; [right|left].
have [A1 A2 A3 A4'] := AM.
have A4 p q : ~~ ((c + l <= q < n)%N && (p <= q.+1)%N) -> e p q = S p q := A4' p q.
have Hcn : (dl d2 < dn d2 <= ncv ks)%N by rewrite /=; nl.
have Hess : state d2 = Intermediate -> forall i j, (dl d2 <= j)%N -> (j.+1 < i < dn d2)%N -> dA d2 i j = 0.
  rewrite /=; case: eqP => // El _ i j Hj Hi; rewrite A4; last by nl.
  by apply: I6; [nl|nl|case: ifP; nl].
have := @solved_ok F conj lapack_schur lapack_trexc worse (ncv ks) Hschur Htrexc d2 Est Hcn Hess.
case Es : (solved lapack_schur lapack_trexc worse d2) => [d wr] /= [S1 S2 S3 S4 S5 S6].
exists v, n, beta, b, d, wr; split.
  rewrite /iteration -/c -/l -/S.
  have -> : minn (c + mpd ks) (ncv ks) = ncv ks by nl.
  rewrite /set_dimensions /check leqnSn ltnSn.
  have -> : (c <= ncv ks)%N by nl.
  rewrite /get_mat_A /check /=.
  have -> : (ncv ks != 0)%N by nl.
  rewrite /= -/S -/H E /=.
  have -> : (n <= (ncv ks).+1)%N by nl.
  have -> : (n < (ncv ks).+1)%N by nl.
  have -> : (c <= n)%N by nl.
  rewrite /= -/d2; move: Es; rewrite /solved; case: (ds_solve _ _) => d3 w3 Es.
  by rewrite Es.
have [B1 B2 B3 B4 B5 B6] := KB.
have Hdown : forall i, (i < nc g)%N -> dot (col v (nc g + n)) (col v i) = 0.
  move=> i Hi; case Eb : b.
    by have [|_ ->] := B5; [rewrite Eb|exact: (dot0l dL)].
  have [|_ _ Ho] := B6; first by rewrite Eb.
  have Hi2 : (i < nc g + n)%N by exact: ltn_addr.
  by rewrite Ho ?ltnS ?(ltnW Hi2) // gtn_eqF.
have [F1 F2 F3 F4 F5] := S4.
have EA i j : (j < c + l)%N -> e i j = S i j by move=> Hj; rewrite A4 //; nl.
have Ev i : (i <= c + l)%N -> col v (nc g + i) = u (nc g + i)%N by move=> Hi; rewrite B2 //; nl.
have Eres j : (j < c)%N -> schur_residual (col v) (nc g) e j = schur_residual u (nc g) S j.
  by move=> Hj; apply: schur_residual_ext => [i Hi|q Hq]; [rewrite B2 //; nl|rewrite EA //; nl].
pose ee j := if (j < c)%N then schur_residual u (nc g) S j
             else if j == n.-1 then beta *: col v (nc g + n) else 0.
have Hrel j : (j < n)%N -> deflated (col v) (nc g) (col v (nc g + j)) =
    \sum_(0 <= i < n) front (dl d2) (solver_matrix d2) i j *: col v (nc g + i) + ee j.
  move=> Hj; under eq_bigr do rewrite solver_front /=.
  rewrite /ee; case: (ltnP j c) => Hjc.
    rewrite -Eres // /KSSpec.schur_residual addrC -addrA [X in _ = _ + X](_ : _ = 0) ?addr0 //.
    apply/eqP; rewrite addrC subr_eq0; apply/eqP; rewrite (@sum_tail _ _ j.+1) //; last first.
      by move=> i /andP [Hi _]; rewrite /front Hjc Hi scale0r.
    rewrite big_nat_cond [RHS]big_nat_cond; apply: eq_bigr => i /andP [/andP [_ Hi] _].
    by rewrite /front Hjc /= ltnNge -ltnS Hi.
  have Ef i : front c e i j = e i j by rewrite /front ltnNge Hjc.
  under eq_bigr do rewrite Ef.
  case: (ltnP j (c + l)) => Hjl.
    rewrite ifF; last by nl.
    rewrite addr0 Ev; last by nl.
    rewrite (deflated_ext _ _ _ (u := u)); last by move=> i Hi; rewrite B2 //; nl.
    rewrite I5 ?Hjc // [RHS](@sum_tail _ _ (c + l).+1); [|by nl|]; last first.
      by move=> i Hi; rewrite EA // I6 ?scale0r ?Hjl //; nl.
    rewrite big_nat_cond [RHS]big_nat_cond; apply: eq_bigr => i /andP [/andP [_ Hi] _].
    by rewrite EA // Ev.
  have Hlast i : (i < nc g)%N -> dot (col v (nc g + j.+1)) (col v i) = 0.
    move=> Hi; case: (ltnP j.+1 n) => Hj1; last by rewrite (_ : j.+1 = n) ?Hdown //; nl.
    by rewrite B4 ?ltn_add2l ?ltn_addr // gtn_eqF // ltn_addr.
  rewrite (deflated_relation HH B4 Hj Hlast (A1 j _)) ?Hjl //.
  case: (ltnP j.+1 n) => Hj1.
    rewrite ifF; last by nl.
    rewrite addr0 [RHS](@sum_tail _ _ j.+2) //; last first.
      by move=> i Hi; rewrite A4; [rewrite I6 ?scale0r //; [nl|rewrite ifF; nl]|nl].
    by rewrite [RHS]big_nat_recr.
  have -> : j = n.-1 by nl.
  have -> : n.-1.+1 = n by nl.
  by rewrite eqxx.
have Htail p : (p < n)%N -> \sum_(0 <= j < n) dQ d j p *: ee j =
    if (p < c)%N then schur_residual u (nc g) S p else (beta * dQ d n.-1 p) *: col v (nc g + n).
  move=> Hp; case: (ltnP p c) => Hpc.
    rewrite -[RHS](_ : ee p = _); last by rewrite /ee Hpc.
    rewrite -[RHS](sum_delta ee Hp) big_nat_cond [RHS]big_nat_cond.
    by apply: eq_bigr => j /andP [/andP [_ Hj] _]; rewrite F2 ?Hpc ?orbT.
  have Hn1 : (n.-1 < n)%N by nl.
  rewrite (bigD1_seq n.-1) ?iota_uniq ?mem_index_iota //= {1}/ee.
  rewrite [(n.-1 < c)%N](_ : _ = false) ?eqxx; last by nl.
  rewrite scalerA mulrC big_nat_cond big1 ?addr0 // => j /andP [/andP [_ Hj] Hjn].
  rewrite /ee (negbTE Hjn); case: ifP => Hjc; last by rewrite scaler0.
  by rewrite F2 ?Hjc // (_ : j == p = false) ?scale0r //; nl.
split=> //.
- by move=> Hb; case: (B5 Hb).
- by move=> p Hp; rewrite (rotate_relation HH Hlin S4 Hrel Hp) Htail.
- move=> i j Hij Hj; rewrite F5 /=; [|nl|nl|nl].
  by rewrite solver_upper /= ?EA //; nl.
- move=> i j Hi Hj E0; rewrite F5 /=; [|nl|nl|nl].
  by apply: solver_lower; rewrite /= EA //; nl.
- move=> i j Ho Hi Hj Hij; rewrite S6 /=; last by nl.
  rewrite A4; last by nl.
  apply: I6 => //; case: ifP => //; nl.
- by move=> i j Hj Hi; rewrite S6 /= ?EA //; nl.
- move=> HN j Hj; rewrite S6 /=; last by nl.
  case: eqVneq => [->|Hjn]; first by apply: A3; [rewrite /=; nl|].
  rewrite A4; last by nl.
  by apply: I6; [nl|nl|case: ifP; nl].
Qed.

Lemma conv_ok r v n beta b d wr : half r v n beta b d wr ->
  let d' := update_extra_row d in
  let wr' := fun i => if (i < n)%N then wr i else eigr r i in
  exists k err,
  krylov_convergence kc (fun i => (wr' i, 0)) back inside converged
    (fun i => (i, ds_residual sqrt lapack_trevc d' i)) (fun _ => 0) (fun _ _ => 0) false (nconv r) (n - nconv r)
    beta 0 1 (errest r) = Ok (k, err) /\
  [/\ (nconv r <= k <= n)%N, (b -> k = n), (forall i, (i < nconv r)%N -> err i = errest r i) &
      forall i, (nconv r <= i < k)%N ->
        err i = converged (value_of (dA d i i)) (ds_residual sqrt lapack_trevc d' i * beta) /\ ~~ (tol kc <= err i)].
Proof.
move=> Hf d' wr'; have Hn := h_n Hf; case: Hkc => K1 K2 K3 K4.
pose xv := fun i => (i, ds_residual sqrt lapack_trevc d' i).
have Np k : pair_at xv k = false by rewrite /pair_at /= eqn_leq ltnn andbF.
have St k : (nconv r <= k)%N -> starts (pair_at xv) (nconv r) k.
  elim: k => [|k IH] Hk; first by move: Hk; rewrite leqn0 => /eqP E; rewrite E; apply: starts0.
  case: (ltngtP (nconv r) k.+1) Hk => // [Hk _|<- _]; last exact: starts0.
  by apply: starts1; [apply: IH|rewrite Np].
have [|k [err [E [[Hk1 Hk2 Hk3] Hk4 Hk5 Hk6 _]]]] := @C46_convergence F kc (fun i => (wr' i, 0)) back inside converged
  xv (fun _ => 0) (fun _ _ => 0) (nconv r) (n - nconv r) beta 0 1 _ false (errest r).
  by move=> k _ _; rewrite Np.
have En : (nconv r + (n - nconv r) = n)%N by nl.
rewrite En in Hk1 Hk3 Hk5 Hk6.
have Ew i : (nconv r <= i < n)%N -> right_error kc (fun i => (wr' i, 0)) back converged xv (fun _ _ => 0) beta 1 i =
    converged (value_of (dA d i i)) (ds_residual sqrt lapack_trevc d' i * beta).
  move=> Hi; rewrite /right_error /tested_value /tested_norm K2 K3 /= mulr1 /wr' -/(uses_back kc).
  rewrite (_ : (i < n)%N); last by nl.
  by rewrite (h_eig Hf) /value_of /uses_back ?K2; [|nl].
exists k, err; split=> //; split=> //.
- move=> Hb; apply/eqP; rewrite eqn_leq; case/andP: Hk1 => Hk1 -> /=; rewrite leqNgt; apply/negP => Hkn.
  have := Hk3 Hkn; rewrite /accepted K1 K4 /= Ew; last by rewrite Hk1.
  by rewrite (h_break Hf Hb) mulr0 Hzero.
- by move=> i Hi; apply: Hk6; nl.
- move=> i /andP [Hi Hik]; case/andP: Hk1 => _ Hkn; have Hin := leq_trans Hik Hkn.
  have [||-> _] := Hk5 i (St i Hi); [by []|by rewrite (ltnW Hik)|].
  have := Hk4 i (St i Hi) Hik; rewrite /accepted /estimate K1 K4 /= andbT Ew ?Hi //.
Qed.

(** The extra row does not enter the residuals. *)
Lemma extra_row_upper (d : ds F) i a b : (a <= b <= i)%N -> (i < dn d)%N -> dA (update_extra_row d) a b = dA d a b.
Proof. by move=> H1 H2; rewrite /= ifF //; nl. Qed.

Lemma sum_unitary n Q (y : nat -> F) : unitary conj n Q ->
  \sum_(0 <= a < n) `|\sum_(0 <= j < n) Q a j * y j| ^+ 2 = \sum_(0 <= j < n) `|y j| ^+ 2.
Proof.
move=> HQ; under eq_bigr do rewrite -Hconj rmorph_sum /= mulr_suml.
rewrite exchange_big_nat big_nat_cond [RHS]big_nat_cond; apply: eq_bigr => j /andP [/andP [_ Hj] _].
under eq_bigr do rewrite mulr_sumr.
rewrite exchange_big_nat /=.
transitivity (\sum_(0 <= k < n) (k == j)%:R * (y j * conj (y k))).
  rewrite big_nat_cond [RHS]big_nat_cond; apply: eq_bigr => k /andP [/andP [_ Hk] _].
  rewrite eq_sym -(HQ j k Hj Hk) mulr_suml; apply: eq_bigr => a _.
  by rewrite rmorphM /= mulrACA.
by rewrite (sum_deltal (fun k => y j * conj (y k)) Hj) Hconj.
Qed.

(** What DSVectors returns times beta is the norm of the combination of the residuals of Schur vectors. *)
Lemma residual_norm r v n beta b d wr i : half r v n beta b d wr -> (nconv r <= i < n)%N ->
  is_norm dot (\sum_(nconv r <= p < i.+1) coeff (dA d) i p *: ((beta * dQ d n.-1 p) *: col v (nc g + n)))
    (ds_residual sqrt lapack_trevc (update_extra_row d) i * beta).
Proof.
move=> Hf Hi; have [Ed1 _ _] := h_dim Hf; have Hn := h_n Hf; case: Htrevc => T1 T2 _ T4.
set y := lapack_trevc i (dA d).
have Ey j : lapack_trevc i (dA (update_extra_row d)) j = y j.
  by apply: T4 => a q Haq; apply: (extra_row_upper Haq); rewrite Ed1; nl.
pose x a := \sum_(0 <= j < n) dQ d a j * y j.
pose nu := nrm2 sqrt i.+1 y.
have Enu : nrm2 sqrt n x = nu.
  rewrite /nu /nrm2 (sum_unitary _ (h_unitary Hf)); congr (sqrt _).
  rewrite (@sum_tail F [lmodType F of F^o] i.+1) //; first by nl.
  by move=> j Hj; rewrite /y T2 ?normr0 ?expr0n //; nl.
have Er : ds_residual sqrt lapack_trevc (update_extra_row d) i = `|nu^-1 * x n.-1|.
  have Exx a : \sum_(0 <= j < n) dQ d a j * lapack_trevc i (dA (update_extra_row d)) j = x a.
    by apply: eq_bigr => j _; rewrite Ey.
  rewrite /ds_residual -[dn (update_extra_row d)]/(dn d) -[dQ (update_extra_row d)]/(dQ d) Ed1 Exx -Enu /nrm2.
  by under eq_bigr do rewrite Exx.
have Hb0 : 0 <= beta.
  by case Eb : b; [rewrite (h_break Hf)|have [|_ /ltW] := h_full Hf; rewrite ?Eb].
have Ez : \sum_(nconv r <= p < i.+1) coeff (dA d) i p *: ((beta * dQ d n.-1 p) *: col v (nc g + n)) =
    (nu^-1 * x n.-1 * beta) *: col v (nc g + n).
  under eq_bigr do rewrite scalerA.
  rewrite -scaler_suml; congr (_ *: _); rewrite /x.
  rewrite (@sum_head F [lmodType F of F^o] (nconv r)); first last.
  - move=> j Hj; rewrite (h_fixes Hf) ?Hj ?orbT //; [|nl|nl].
    by rewrite gtn_eqF ?mul0r //; nl.
  - by nl.
  rewrite (@big_cat_nat _ _ _ i.+1 (nconv r) n) /=; [|nl|nl].
  rewrite [X in _ * (_ + X) * _](@sum0 F [lmodType F of F^o]) ?addr0; last first.
    by move=> j Hj; rewrite /y T2 ?mulr0 //; nl.
  rewrite -mulrA mulr_suml mulr_sumr; apply: eq_bigr => p _.
  by rewrite /coeff -/nu -/y -mulrA; congr (_ * _); rewrite mulrC -mulrA mulrC.
rewrite Er Ez; split; first by rewrite mulr_ge0 ?normr_ge0.
rewrite (dotZl dL) (dotZr dL dC) mulrA Hconj [`|_ * beta|]normrM (ger0_norm Hb0).
case Eb : b; first by rewrite (h_break Hf) // !mulr0 expr0n /= mul0r.
have [|_ _ Ho] := h_full Hf; first by rewrite Eb.
by rewrite Ho // eqxx mulr1.
Qed.

(** The new basis: the constraints, the rotated vectors, possibly one more vector. *)
Lemma rotated_orthonormal u u' n t Q : orthonormal dot u (nc g + n) -> unitary conj n Q -> (t <= n)%N ->
  (forall i, (i < nc g)%N -> u' i = u i) ->
  (forall p, (p < t)%N -> u' (nc g + p)%N = rotate (nc g) n Q u p) -> orthonormal dot u' (nc g + t).
Proof.
move=> Ho HQ Ht E1 E2 i j Hi Hj.
have Hsplit p : (nc g <= p)%N -> p = (nc g + (p - nc g))%N by move=> Hp; rewrite subnKC.
case: (ltnP i (nc g)) => Hi0; case: (ltnP j (nc g)) => Hj0.
- by rewrite !E1 // Ho //; nl.
- rewrite E1 // [in LHS](Hsplit j Hj0) E2; last by nl.
  rewrite ltn_eqF; last by nl.
  apply: (dotC0 dC); apply: (rotate_orth HH) => p Hp.
  by rewrite Ho ?gtn_eqF //; nl.
- rewrite [u' j]E1 // [in LHS](Hsplit i Hi0) E2; last by nl.
  rewrite gtn_eqF; last by nl.
  apply: (rotate_orth HH) => p Hp.
  by rewrite Ho ?gtn_eqF //; nl.
- rewrite [in LHS](Hsplit i Hi0) [in LHS](Hsplit j Hj0) !E2; [|nl|nl].
  rewrite (rotate_orthonormal HH Ho HQ); [|nl|nl].
  by congr (_ %:R); apply: congr1; apply/eqP/eqP; nl.
Qed.
Lemma rotated_orthonormal1 u u' n t Q : orthonormal dot u (nc g + n).+1 -> unitary conj n Q -> (t <= n)%N ->
  (forall i, (i < nc g)%N -> u' i = u i) ->
  (forall p, (p < t)%N -> u' (nc g + p)%N = rotate (nc g) n Q u p) -> u' (nc g + t)%N = u (nc g + n)%N ->
  orthonormal dot u' (nc g + t).+1.
Proof.
move=> Ho HQ Ht E1 E2 E3.
have Ho' : orthonormal dot u (nc g + n) by move=> i j Hi Hj; apply: Ho; exact: ltnW.
have Hot := rotated_orthonormal Ho' HQ Ht E1 E2.
have Hx i : (i < nc g + t)%N -> dot (u' i) (u' (nc g + t)%N) = 0.
  move=> Hi; rewrite E3; case: (ltnP i (nc g)) => Hi0.
    by rewrite E1 // Ho ?ltn_eqF //; nl.
  rewrite (_ : i = nc g + (i - nc g))%N; last by nl.
  rewrite E2; last by nl.
  by apply: (rotate_orth HH) => p Hp; rewrite Ho ?ltn_eqF //; nl.
move=> i j; rewrite !ltnS [(i <= _)%N]leq_eqVlt [(j <= _)%N]leq_eqVlt.
move=> /orP [/eqP ->|Hi] /orP [/eqP ->|Hj].
- by rewrite E3 Ho ?eqxx.
- by rewrite (dotC0 dC (Hx j Hj)) gtn_eqF.
- by rewrite Hx // ltn_eqF.
- exact: Hot.
Qed.

(** EPSGetStartVector *)
Lemma start_vector_ok (first : bool) x i (s : mem) : (i <= ncv ks)%N -> orthonormal dot (col s) (nc g + i) ->
  (first -> ~ in_span (col s) (nc g + i) (if inrange ks then op x else x)) ->
  exists s' b, [/\ start_vector first x i s = Ok (s', b),
    forall p, p != (nc g + i)%N -> col s' p = col s p,
    ~~ b -> orthonormal dot (col s') (nc g + i).+1 & first -> ~~ b].
Proof.
move=> Hi Ho Hfirst; rewrite /start_vector.
set s1 := if inrange ks then _ else _.
have Es1 p : p != (nc g + i)%N -> col s1 p = col s p.
  by move=> Hp; rewrite /s1; case: ifP => _ /=; rewrite /upd (negbTE Hp).
have Ex : col s1 (nc g + i) = if inrange ks then op x else x.
  by rewrite /s1; case: ifP => _ /=; rewrite /upd eqxx.
have Ho1 : orthonormal dot (col s1) (nc g + i) by move=> p q Hp Hq; rewrite (Es1 p) ?(ltn_eqF Hp) // (Es1 q) ?(ltn_eqF Hq) // Ho.
have Hc : (i < ncols g)%N by rewrite Hncols ltnS.
have [o [c [Eo [[O1 O2] O3] _ [a Ea Ha] [b Eb Hb]]]] := C23_orthogonalize_column HH Hsqrt Heta Htol Hpd Hdef 0 None true true Hc Ho1.
rewrite Eo /= Ea Eb /check.
have Hsp : in_span (col s1) (nc g + i) (col s1 (nc g + i)) <-> in_span (col s) (nc g + i) (if inrange ks then op x else x).
  by rewrite Ex; apply: in_span_ext => p Hp; rewrite Es1 // ltn_eqF.
have Hfb : first -> ~~ b by move=> Hf; apply/negP => /Hb /Hsp; exact: Hfirst.
have Hw : ~~ b -> col (after o) (nc g + i) != 0.
  move=> Hnb; apply: contra Hnb => /eqP E0; apply/Hb; exists c.
  by rewrite [LHS]O2 E0 add0r.
have Ha0 : ~~ b -> a != 0.
  move=> Hnb; case: Ha => _ Ha; rewrite -sqrf_eq0 Ha (dot_eq0 HH Hpd); exact: Hw.
rewrite ifT; last first.
  apply/negP => /andP [Hf]; rewrite (negbTE (Hfb Hf)) /= => H0.
  by move: (Ha0 (Hfb Hf)); rewrite H0.
exists (scale_column g i a^-1 (after o)), b; split=> //.
- by move=> p Hp; rewrite /= /upd (negbTE Hp) O3 // Es1.
- move=> Hnb; apply: (orthonormal_append HH Hpd (w := col (after o) (nc g + i)) Ho1 _ _ O1 (Hw Hnb) Ha).
    by move=> p Hp; rewrite /= /upd ltn_eqF // O3 // ltn_eqF.
  by rewrite /= /upd eqxx.
Qed.

Lemma rotate_ext n Q u u' p : (forall j, (j < n)%N -> u' (nc g + j)%N = u (nc g + j)%N) ->
  rotate (nc g) n Q u' p = rotate (nc g) n Q u p.
Proof.
move=> E; rewrite /rotate big_nat_cond [RHS]big_nat_cond.
by apply: eq_bigr => j /andP [/andP [_ Hj] _]; rewrite E.
Qed.

Lemma mult_ok c n rws cls Q t (v : mem) : fixes c n Q -> (c <= t <= n)%N -> (n <= ncv ks)%N -> (n <= rws)%N ->
  (t <= cls)%N -> exists2 v', mult_in_place g c n rws cls Q c t v = Ok v' &
    (forall p, (p < t)%N -> col v' (nc g + p) = rotate (nc g) n Q (col v) p) /\
    (forall i, (i < nc g)%N || (nc g + t <= i)%N -> col v' i = col v i).
Proof.
move=> HQ /andP [Hc Ht] Hn Hr Hcl; rewrite /mult_in_place /check leqnn Hncols.
have -> : (c <= (ncv ks).+1)%N by nl.
have -> : (t <= (ncv ks).+1)%N by nl.
rewrite Hc Hr Hcl /=; eexists; [by []|split=> /= [p Hp|i Hi]]; last first.
  by rewrite ifF //; nl.
case: (ltnP p c) => Hpc.
  rewrite ifF; last by nl.
  by rewrite (rotate_fixed (nc g) (col v) HQ Hpc) //; nl.
rewrite ifT; last by nl.
rewrite addKn (rotate_tail _ _ HQ) //; nl.
Qed.

Lemma new_residual r v n beta b d wr u' T' t p : half r v n beta b d wr -> (t <= n)%N ->
  (forall i, (i < nc g)%N -> u' i = col v i) ->
  (forall p, (p < t)%N -> u' (nc g + p)%N = rotate (nc g) n (dQ d) (col v) p) ->
  (forall a b, (a <= b < t)%N -> T' a b = dA d a b) -> (p < t)%N ->
  schur_residual u' (nc g) T' p =
  if (p < nconv r)%N then schur_residual (col (basis r)) (nc g) (dA (dense_solver r)) p
  else (beta * dQ d n.-1 p) *: col v (nc g + n).
Proof.
move=> Hf Ht E1 E2 E3 Hp; rewrite [LHS]/KSSpec.schur_residual E2 // (deflated_ext _ _ _ E1).
rewrite (h_rel Hf); last by nl.
rewrite (_ : \sum_(0 <= q < p.+1) T' q p *: u' (nc g + q)%N =
  \sum_(0 <= q < p.+1) dA d q p *: rotate (nc g) n (dQ d) (col v) q); first by rewrite addrC addKr.
rewrite big_nat_cond [RHS]big_nat_cond; apply: eq_bigr => q /andP [/andP [_ Hq] _].
by rewrite E2 ?E3 //; nl.
Qed.

Lemma new_pairs u0 r v n beta b d wr u' T' t k err eig' : inv u0 r -> half r v n beta b d wr -> (t <= n)%N ->
  (forall i, (i < nc g)%N -> u' i = col v i) ->
  (forall p, (p < t)%N -> u' (nc g + p)%N = rotate (nc g) n (dQ d) (col v) p) ->
  (forall a b, (a <= b < t)%N -> T' a b = dA d a b) ->
  (nconv r <= k <= t)%N -> (forall i, (i < n)%N -> eig' i = wr i) ->
  (forall i, (i < nconv r)%N -> err i = errest r i) ->
  (forall i, (nconv r <= i < k)%N ->
     err i = converged (value_of (dA d i i)) (ds_residual sqrt lapack_trevc (update_extra_row d) i * beta) /\
     ~~ (tol kc <= err i)) ->
  pairs_ok u' T' eig' err k.
Proof.
move=> I Hf Ht E1 E2 E3 Hk Ee Hold Hnew i Hi; have Hn := h_n Hf.
case: (ltnP i (nconv r)) => Hic.
  have [lo P Hlo] := i_pairs I Hic; exists lo => //; apply: (pair_ext _ _ _ _ P).
  - move=> j Hj; case: (ltnP j (nc g)) => Hj0.
      by rewrite E1 // (h_con Hf) //; nl.
    rewrite (_ : j = nc g + (j - nc g))%N; last by nl.
    rewrite E2; last by nl.
    rewrite (rotate_fixed _ _ (h_fixes Hf)); [|nl|nl].
    by rewrite (h_con Hf) //; nl.
  - move=> a q Haq; rewrite E3; last by nl.
    by rewrite (h_locked Hf) //; nl.
  - rewrite Ee; last by nl.
    case: P => _ -> _ _; rewrite (h_eig Hf); last by nl.
    by rewrite (h_locked Hf) //; nl.
  - exact: Hold.
have Hik : (nconv r <= i < k)%N by rewrite Hic.
have [Er Hacc] := Hnew i Hik; have Hii : T' i i = dA d i i by apply: E3; nl.
exists (if lock ks then nconv r else 0%N); last by move/negbTE ->.
split.
- by case: (lock ks).
- by rewrite Ee ?(h_eig Hf) //; nl.
- exact: Hacc.
exists (ds_residual sqrt lapack_trevc (update_extra_row d) i * beta); first by rewrite Hii.
move=> _; have Hin : (nconv r <= i < n)%N by nl.
have := residual_norm Hf Hin; rewrite (_ : \sum_(nconv r <= p < i.+1) _ =
    \sum_((if lock ks then nconv r else 0%N) <= p < i.+1) coeff T' i p *: schur_residual u' (nc g) T' p) //.
have Es p : (p < i.+1)%N -> coeff T' i p *: schur_residual u' (nc g) T' p =
    coeff (dA d) i p *: (if (p < nconv r)%N then schur_residual (col (basis r)) (nc g) (dA (dense_solver r)) p
       else (beta * dQ d n.-1 p) *: col v (nc g + n)).
  move=> Hp; rewrite (@new_residual _ _ _ _ _ _ _ _ _ _ p Hf Ht E1 E2 E3); last by nl.
  by congr (_ *: _); apply: coeff_ext => a q Haq; apply: E3; nl.
case El : (lock ks).
  rewrite big_nat_cond [RHS]big_nat_cond; apply: eq_bigr => p /andP [/andP [Hcp Hp] _].
  by rewrite Es // ltnNge Hcp.
rewrite [RHS](@big_cat_nat _ _ _ (nconv r)) //=; last by nl.
rewrite [X in X + _]sum0 ?add0r.
  rewrite big_nat_cond [RHS]big_nat_cond; apply: eq_bigr => p /andP [/andP [Hcp Hp] _].
  by rewrite Es // ltnNge Hcp.
move=> p Hp; rewrite Es; last by nl.
rewrite ifT; last by nl.
have [|-> _] := i_nolock I _ Hp; first by rewrite El.
by rewrite scaler0.
Qed.

Lemma extra_row_new r v n beta b d wr j : half r v n beta b d wr -> n != N -> (nconv r <= j < n)%N ->
  dA (update_extra_row d) n j = beta * dQ d n.-1 j.
Proof.
move=> Hf HN Hj; have [Ed1 _ _] := h_dim Hf; have Hn := h_n Hf.
rewrite /= Ed1 eqxx (_ : (j < n)%N) //=; last by nl.
rewrite (@sum_head F [lmodType F of F^o] (nconv r)); first last.
- by move=> q Hq; rewrite (h_fixes Hf) ?Hq // ?ltn_eqF ?mulr0 //; nl.
- by nl.
rewrite (bigD1_seq n.-1) ?iota_uniq ?mem_index_iota //=; last by nl.
rewrite (h_row Hf) ?eqxx //; last by nl.
rewrite big_nat_cond big1 ?addr0 // => q /andP [Hq /negbTE Hqn].
by rewrite (h_row Hf) // Hqn mul0r.
Qed.
Lemma extra_row_locked r v n beta b d wr j : half r v n beta b d wr -> (j < nconv r)%N ->
  dA (update_extra_row d) n j = dA (dense_solver r) n j.
Proof.
move=> Hf Hj; have [Ed1 _ _] := h_dim Hf; have Hn := h_n Hf.
rewrite /= Ed1 eqxx (_ : (j < n)%N) //=; last by nl.
rewrite -[RHS](h_beyond Hf Hj (leqnn n)).
have Hjn : (j < n)%N by nl.
rewrite -[RHS](sum_deltar (fun q => dA d n q) Hjn) big_nat_cond [RHS]big_nat_cond.
by apply: eq_bigr => q /andP [/andP [_ Hq] _]; rewrite (h_fixes Hf) // Hj orbT.
Qed.

Lemma iteration_ok u0 r : inv u0 r -> exists r', iteration r = Ok r' /\
  (its r' = (its r).+1 /\ (inv u0 r' /\ (its r' < max_it ks)%N \/ fin u0 r')).
Proof.
move=> I; have [v [n [beta [b [d [wr [-> Hf]]]]]]] := half_ok I.
have [k [err [Ec [Hk Hkb Hold Hnew]]]] := conv_ok Hf.
have Hn := h_n Hf; have [Ed1 Ed2 Ed3] := h_dim Hf; have HQ := h_fixes Hf; have HU := h_unitary Hf.
rewrite /finish; cbv zeta; rewrite Ec; cbn [bind].
set d' := update_extra_row d; set wr' := fun i => if (i < n)%N then wr i else eigr r i.
have Edn : dn d' = n by rewrite -Ed1.
have Edl : dl d' = nconv r by rewrite -Ed2.
have Edk : dk d' = n by rewrite -Ed1.
have Est : state d' = Condensed by rewrite -Ed3.
have Eup a q : (a <= q < n)%N -> dA d' a q = dA d a q.
  by move=> H; apply: (@extra_row_upper d q); rewrite ?Ed1; nl.
have Eget : get_mat_Q d' = Ok (n, n).
  by rewrite /get_mat_Q /check Est Edn (_ : (n != 0)%N) //; nl.
have Ewr i : (i < n)%N -> wr' i = wr i by rewrite /wr' => ->.
have Hcon i : (i < nc g)%N -> col v i = u0 i.
  by move=> Hi; rewrite (h_con Hf) ?(i_con I) //; nl.
case Estop : (stopping ks (its r).+1 k) => [w|].
  rewrite /= ltnn andbF /= Eget addn0 /=.
  have [||||v' -> [V1 V2]] := @mult_ok (nconv r) n n n (dQ d) k v HQ _ _ _ _; [by []|by nl|by []|by nl|].
  have Hk2 : (k <= n)%N by nl.
  have V3 i : (i < nc g)%N -> col v' i = col v i by move=> Hi; rewrite V2 ?Hi.
  eexists; split; first by []; split=> //; right; split=> /=.
  - exists w => //; move: Estop; rewrite /stopping; case: ifP => [H [<-]|_] //.
    by case: ifP => // H [<-].
  - exact: (rotated_orthonormal (h_orth Hf) HU Hk2 V3 V1).
  - by move=> i Hi; rewrite V3 ?Hcon.
  - apply: (new_pairs I Hf Hk2 V3 V1 _ _ Ewr Hold Hnew) => [a q Haq|]; last by nl.
    by apply: Eup; nl.
  - by rewrite Ed1 Ed2; nl.
  - by nl.
have [Hkn Hit] : (k < nev ks)%N /\ ((its r).+1 < max_it ks)%N.
  by move: Estop; rewrite /stopping; case: leqP => // ?; case: leqP.
have Hnev2 : (nev ks <= ncv ks)%N by case: Hnev => _ [/ltnW|[]].
have Hk2 : (k <= n)%N by nl.
case Eb : (b || (k == n)).
  have Ekn : k = n by case/orP: Eb => [/Hkb|/eqP].
  rewrite /= ltnn andbF /= Eb Hkn; subst k.
  have [|||v1 [b1 [-> W1 W2 _]]] := @start_vector_ok false (random (its r).+1) n v; [by nl|exact: h_orth Hf|by []|].
  rewrite /= Eget addn0 /=.
  have [||||v' -> [V1 V2]] := @mult_ok (nconv r) n n n (dQ d) n v1 HQ _ _ _ _; [by nl|by nl|by []|by []|].
  have V3 i : (i < nc g)%N -> col v' i = col v i.
    by move=> Hi; rewrite V2 ?Hi // W1 // ltn_eqF //; nl.
  have V4 p : (p < n)%N -> col v' (nc g + p) = rotate (nc g) n (dQ d) (col v) p.
    move=> Hp; rewrite V1 //; apply: rotate_ext => j Hj.
    by rewrite W1 // ltn_eqF // ltn_add2l.
  have NP : pairs_ok (col v') (dA d') wr' err n.
    apply: (new_pairs I Hf (leqnn n) V3 V4 _ _ Ewr Hold Hnew) => [a q Haq|]; first exact: Eup.
    by nl.
  case: b1 W2 => W2 /=.
    eexists; split; first by []; split=> //; right; split=> //=.
    - by exists Breakdown.
    - exact: (rotated_orthonormal (h_orth Hf) HU (leqnn n) V3 V4).
    - by move=> i Hi; rewrite V3 ?Hcon.
    - by rewrite Ed1 Ed2; nl.
    - by nl.
  rewrite /copy_col /check Hncols (_ : (n < (ncv ks).+1)%N) /=; last by nl.
  have Hnn : (n < ncv ks)%N by nl.
  have Ho1 := W2 isT.
  have HN : n != N by have := Hdim Ho1; nl.
  have Ecol i : upd (col v') (nc g + n) (col v' (nc g + n)) i = col v' i by rewrite /upd; case: eqP => // ->.
  have Eres j : (j < n)%N -> schur_residual (col v') (nc g) (dA d') j =
    if (j < nconv r)%N then schur_residual (col (basis r)) (nc g) (dA (dense_solver r)) j
    else (beta * dQ d n.-1 j) *: col v (nc g + n).
    by apply: (new_residual Hf (leqnn n) V3 V4) => a q; exact: Eup.
  eexists; split; first by []; split=> //; left; split=> //; split; rewrite -?[basis _]/(with_col v' _) -?[dense_solver _]/d' -?[nconv _]/n -?[nkeep _]/0%N ?addn0 //.
  - rewrite addnS => i j Hi Hj; rewrite [col _]/= !Ecol.
    apply: (rotated_orthonormal1 (u := col v1) (n := n) Ho1 HU (leqnn n)) => // [p Hp|].
    + by rewrite V2 ?Hp.
    + by rewrite V2 // leqnn orbT.
  - by move=> i Hi; rewrite [col _]/= Ecol V3 ?Hcon.
  - by move=> j; nl.
  - move=> i j Hi Hj; rewrite ltnNge Hj /= => Hij.
    rewrite /= Ed1 [(j < n)%N]ltnNge Hj andbF.
    by apply: (h_outside Hf); rewrite ?Hj //; nl.
  - move=> i Hi; have [lo P Hlo] := NP i Hi; exists lo => //.
    by apply: (pair_ext _ _ _ _ P) => // j _; rewrite [col _]/= Ecol.
  - move=> Hl j Hj; split.
      transitivity (schur_residual (col v') (nc g) (dA d') j).
        by apply: schur_residual_ext => // i _; rewrite [col _]/= Ecol.
      rewrite Eres //; case: ifP => Hjc; first by case: (i_nolock I Hl Hjc).
      case Eb2 : b; first by rewrite (h_break Hf) // mul0r scale0r.
      by have [|E _ _] := h_full Hf; [rewrite Eb2|nl].
    move=> i Hi; case: (ltnP i n) => Hin.
      rewrite /= Ed1 (ltn_eqF Hin) /=; case: (ltnP j (nconv r)) => Hjc.
        by apply: (h_clear Hf) => //; apply: (proj2 (i_nolock I Hl Hjc)); nl.
      by apply: (h_lower Hf) => //; nl.
    case: (ltngtP i n) Hin => // [Hin|Ein] _.
      rewrite /= Ed1 (gtn_eqF Hin) /=; case: (ltnP j (nconv r)) => Hjc.
        by rewrite (h_beyond Hf) ?(proj2 (i_nolock I Hl Hjc)) //; nl.
      by apply: (h_outside Hf); rewrite ?Hin ?orbT //; nl.
    rewrite Ein; case: (ltnP j (nconv r)) => Hjc.
      by rewrite (extra_row_locked Hf Hjc) (proj2 (i_nolock I Hl Hjc)) //; nl.
    rewrite (extra_row_new Hf HN); last by nl.
    case Eb2 : b; first by rewrite (h_break Hf) // mul0r.
    by have [|E _ _] := h_full Hf; [rewrite Eb2|nl].
move/negbT: Eb; rewrite negb_or => /andP [Hb Hkn2].
have [Encv Hbeta Ho1] := h_full Hf Hb.
have HN : n != N by have := Hdim Ho1; nl.
have Hk3 : (k.+1 < n)%N by case: Hnev => _ [H|[H1 H2]]; [nl|nl].
have Hkp : (keep ks (n - k) < n - k)%N by apply: Hkeep; nl.
set l0 := maxn 1 (keep ks (n - k)).
pose t := (k + l0)%N; have Htn : (k < t < n)%N by rewrite /t /l0; nl.
pose k0 := if lock ks then k else 0%N; pose l1 := if lock ks then l0 else (l0 + k)%N.
have Et : (k0 + l1 = t)%N by rewrite /k0 /l1 /t; case: (lock ks) => //; rewrite add0n addnC.
have Ekl : (if ~~ lock ks && (0 < l0)%N then (0%N, (l0 + k)%N) else (k, l0)) = (k0, l1).
  by rewrite /k0 /l1; case: (lock ks) => //=; rewrite ifT // /l0; nl.
have Hk0 : (k0 <= k)%N by rewrite /k0; case: (lock ks).
rewrite (negbTE Hb) Ekl.
rewrite (_ : false || (k0 == n) = false) /=; last by nl.
rewrite Et {1}/truncate /check Edl Edn Edk eqxx (_ : (nconv r <= t)%N && (t <= n)%N) /=; last by nl.
rewrite /get_mat_Q /check /= (_ : (n != 0)%N) /=; last by nl.
rewrite (_ : (t != 0)%N) /=; last by nl.
have [||||v' -> [V1 V2]] := @mult_ok (nconv r) n n t (dQ d) t v HQ _ _ _ _; [by nl|by nl|by []|by []|].
rewrite /= /copy_col /check Hncols (_ : (n < (ncv ks).+1)%N) /=; last by nl.
rewrite (_ : (t < (ncv ks).+1)%N) /=; last by nl.
pose S2 : matrix F := fun i j => if (i == n) && (nconv r <= j < n)%N then 0
  else if (i == t) && (nconv r <= j < t)%N then dA d' n j else dA d' i j.
set u2 := upd _ _ _.
have Et2 : (t <= n)%N by nl.
have U1 i : (i < nc g)%N -> u2 i = col v i.
  by move=> Hi; rewrite /u2 /upd ltn_eqF ?V2 ?Hi //; nl.
have U2 p : (p < t)%N -> u2 (nc g + p)%N = rotate (nc g) n (dQ d) (col v) p.
  by move=> Hp; rewrite /u2 /upd ltn_eqF ?V1 // ltn_add2l.
have U3 : u2 (nc g + t)%N = col v (nc g + n).
  by rewrite /u2 /upd eqxx V2 // leq_add2l Et2 orbT.
have Elow i j : (j < i < n)%N -> ((j < nconv r)%N -> ~~ lock ks) -> dA d i j = 0.
  move=> Hij Hl; case: (ltnP j (nconv r)) => Hjc; last by apply: (h_lower Hf) => //; nl.
  by apply: (h_clear Hf) => //; [nl|apply: (proj2 (i_nolock I (Hl Hjc) Hjc)); nl].
have ES i j : (i < n)%N -> i != t -> S2 i j = dA d i j.
  by move=> Hi Hit2; rewrite /S2 (ltn_eqF Hi) (negbTE Hit2) /= Ed1 (ltn_eqF Hi).
have EU a q : (a <= q < t)%N -> S2 a q = dA d a q by move=> H; apply: ES; nl.
have ESt j : (nconv r <= j < t)%N -> S2 t j = beta * dQ d n.-1 j.
  move=> Hj; rewrite -(extra_row_new Hf HN); last by nl.
  by rewrite /S2 eqxx Hj ltn_eqF //; nl.
have ESl j : (j < nconv r)%N -> S2 t j = dA d t j.
  move=> Hj; rewrite /S2 [(nconv r <= j)%N]leqNgt Hj !andbF /= Ed1 ltn_eqF //; nl.
have ESn j : (nconv r <= j < n)%N -> S2 n j = 0 by move=> Hj; rewrite /S2 eqxx Hj.
have ESm j : (j < nconv r)%N -> S2 n j = dA (dense_solver r) n j.
  by move=> Hj; rewrite -(extra_row_locked Hf Hj) /S2 [(nconv r <= j)%N]leqNgt Hj !andbF.
have Hlk j : (k0 <= j)%N -> (j < nconv r)%N -> ~~ lock ks.
  by rewrite /k0; case: (lock ks) => //; nl.
eexists; split; first by []; split=> //; left; split=> //.
split; rewrite -?[basis _]/(with_col v' u2) -?[col (with_col _ _)]/u2 -?[dA (dense_solver _)]/S2 -?[nconv _]/k0 -?[nkeep _]/l1 ?Et //.
- by nl.
- rewrite addnS; exact: (rotated_orthonormal1 Ho1 HU Et2 U1 U2 U3).
- by move=> i Hi; rewrite U1 ?Hcon.
- move=> j Hj; rewrite U2 ?(deflated_ext _ _ _ U1) ?(h_rel Hf); [|nl|nl].
  rewrite [RHS]big_nat_recr // [LHS]/= U3 [X in _ = X + _](@sum_tail _ _ j.+1); [|nl|]; last first.
    by move=> i Hi; rewrite ES ?Elow ?scale0r //; [nl|move=> Hjc; apply: (Hlk j) => //; nl|nl|nl].
  congr (_ + _).
    rewrite big_nat_cond [RHS]big_nat_cond; apply: eq_bigr => q /andP [/andP [_ Hq] _].
    by rewrite U2 ?EU //; nl.
  case: (ltnP j (nconv r)) => Hjc.
    have Hl : ~~ lock ks by apply: (Hlk j) => //; nl.
    have [-> Hz] := i_nolock I Hl Hjc; rewrite (ESl j Hjc) Elow ?scale0r //; nl.
  by rewrite ESt //; nl.
- move=> i j Hi Hj Hij.
  have Hji : (j < i)%N && (t < i)%N by move: Hij; case: ifP; nl.
  case: (eqVneq i n) => [Ein|Hin].
    rewrite Ein; case: (ltnP j (nconv r)) => Hjc.
      by rewrite (ESm j Hjc) (proj2 (i_nolock I (Hlk j Hj Hjc) Hjc)) //; nl.
    by rewrite ESn //; nl.
  by rewrite ES ?Elow //; [nl|move=> Hjc; exact: (Hlk j)|nl|nl].
- rewrite /k0; case: (lock ks) => //.
  by apply: (new_pairs I Hf Et2 U1 U2 EU _ Ewr Hold Hnew); nl.
- by move=> Hl; rewrite /k0 (negbTE Hl).
Qed.

Notation iterate := (iterate dot conj sqrt op N g lapack_schur lapack_trexc lapack_trevc worse ks kc back inside
  converged random).
Notation solve := (solve dot conj sqrt op N g lapack_schur lapack_trexc lapack_trevc worse ks kc back inside
  converged start random).

Lemma iterate_done fuel r w : why r = Some w -> iterate fuel r = Ok r.
Proof. by case: fuel => [|f] /= ->. Qed.

Lemma iterate_ok u0 : forall fuel r, inv u0 r -> (0 < fuel)%N -> (max_it ks - its r <= fuel)%N ->
  its r = 0%N \/ (its r < max_it ks)%N ->
  exists2 r', iterate fuel r = Ok r' & fin u0 r' /\ (its r' <= maxn 1 (max_it ks))%N.
Proof.
elim=> [|f IH] r I Hf Hm Hi //.
rewrite [iterate _ _]/= (i_why I); have [r' [-> [Hi' [[I' Hlt]|Fn]]]] := iteration_ok I.
  by apply: IH => //; [nl|nl|right].
have [w Ew _] := f_why Fn; rewrite [bind _ _]/= (iterate_done f Ew).
exists r' => //; split=> //; rewrite Hi'; clear -Hi; case: Hi => Hi; lia.
Qed.

Lemma solve_ok (v : mem) (d : ds F) (eig err : nat -> F) : orthonormal dot (col v) (nc g) ->
  ~ in_span (col v) (nc g) (if inrange ks then op start else start) ->
  (forall i j, (i <= ncv ks)%N -> (j.+1 < i)%N -> dA d i j = 0) ->
  exists2 r, solve v d eig err = Ok r &
    [/\ fin (col v) r, dn (dense_solver r) = nconv r & (its r <= maxn 1 (max_it ks))%N].
Proof.
move=> Ho Hs Hz; have [Hn1 Hn2] := Hnev.
have Hcv : (0 < ncv ks)%N by case: Hn2 => [?|[? _]]; nl.
have Ho' : orthonormal dot (col v) (nc g + 0) by rewrite addn0.
have Hs' : true -> ~ in_span (col v) (nc g + 0) (if inrange ks then op start else start) by rewrite addn0.
have [v1 [b [Es Ev Hor Hb]]] := start_vector_ok (leq0n _) Ho' Hs'.
have I : inv (col v) (Run v1 d 0 0 0 eig err None).
  split=> //=.
  - by rewrite addnS; exact: Hor (Hb isT).
  - by move=> i Hi; apply: Ev; rewrite addn0 ltn_eqF.
  - by move=> i j Hi _ Hij; apply: Hz.
have Hm : (0 < maxn 1 (max_it ks))%N by nl.
have Hm2 : (max_it ks - 0 <= maxn 1 (max_it ks))%N by nl.
have [r Er [[F1 F2 F3 F4 F5 F6] Hits]] := iterate_ok I Hm Hm2 (or_introl erefl).
rewrite /KSModel.solve Es [bind _ _]/= Er [bind _ _]/= /truncate /check F5 [bind _ _]/=.
eexists; first by []; split=> //; split=> //= i Hi.
have [lo P Hlo] := F4 i Hi; exists lo => //; apply: (pair_ext _ _ _ _ P) => // a q Haq.
by rewrite ifF // ltn_eqF //; nl.
Qed.

(** Eigenvector i, a combination of the Schur vectors. *)
Definition ritz u T i : V := \sum_(0 <= p < i.+1) coeff T i p *: u (nc g + p)%N.

Lemma norm_coeff T i : \sum_(0 <= p < i.+1) `|coeff T i p| ^+ 2 = 1.
Proof.
case: Htrevc => T1 _ _ _; rewrite /coeff.
set y := lapack_trevc i T; set nu := nrm2 sqrt i.+1 y.
have Hge : 0 <= \sum_(0 <= p < i.+1) `|y p| ^+ 2 by apply: sumr_ge0 => p _; rewrite exprn_ge0.
have Hgt : 0 < \sum_(0 <= p < i.+1) `|y p| ^+ 2.
  rewrite big_nat_recr //= ltr_spaddr ?exprn_gt0 ?normr_gt0 ?T1 //.
  by apply: sumr_ge0 => p _; rewrite exprn_ge0.
have [Hnu0 Hnu] := Hsqrt Hge; rewrite -/nu in Hnu0 Hnu *.
under eq_bigr do rewrite normrM exprMn.
by rewrite -mulr_sumr ger0_norm ?invr_ge0 // -Hnu exprVn mulVf // Hnu gt_eqF.
Qed.

Lemma ritz_unit u T i n : orthonormal dot u (nc g + n) -> (i < n)%N -> dot (ritz u T i) (ritz u T i) = 1.
Proof.
move=> Ho Hi; rewrite -(norm_coeff T i) /ritz (dot_suml dL) big_nat_cond [RHS]big_nat_cond.
apply: eq_bigr => p /andP [/andP [_ Hp] _]; rewrite (dotZl dL) (dot_sumr dL dC) -Hconj; congr (_ * _).
rewrite -[RHS](sum_deltal (fun q => conj (coeff T i q)) Hp).
rewrite big_nat_cond [RHS]big_nat_cond; apply: eq_bigr => q /andP [/andP [_ Hq] _].
by rewrite (dotZr dL dC) Ho ?eqn_add2l ?ltn_add2l; [rewrite eq_sym mulrC|nl|nl].
Qed.

Lemma ritz_residual u T i : (forall j, (j < i)%N -> T j j != T i i) ->
  deflated u (nc g) (ritz u T i) - T i i *: ritz u T i =
  \sum_(0 <= p < i.+1) coeff T i p *: schur_residual u (nc g) T p.
Proof.
move=> Hd; apply: (eigen_residual HH Hlin) => q Hq; case: Htrevc => _ _ T3 _.
rewrite /coeff mulrCA -(T3 i T q Hd Hq) mulr_sumr; apply: eq_bigr => p _.
by rewrite mulrCA.
Qed.

Lemma vectors_ok u0 r : fin u0 r -> dn (dense_solver r) = nconv r -> (0 < nconv r)%N ->
  exists2 r', compute_vectors sqrt g lapack_trevc r = Ok r' &
    [/\ forall i, (i < nconv r)%N -> col (basis r') (nc g + i) = ritz (col (basis r)) (dA (dense_solver r)) i,
        forall i, (i < nc g)%N -> col (basis r') i = u0 i,
        (nconv r' = nconv r /\ its r' = its r), (eigr r' = eigr r /\ errest r' = errest r) & why r' = why r].
Proof.
move=> [F1 F2 F3 F4 F5 F6] Ed Hn; rewrite /compute_vectors /check Ed (_ : (nconv r != 0)%N) /=; last by nl.
rewrite /mult_in_place /check Hncols !leqnn /= (_ : (nconv r <= (ncv ks).+1)%N) /=; last by nl.
eexists; first by []; split=> //= i Hi; last by rewrite ifF ?F3 //; nl.
rewrite ifT; last by nl.
rewrite /ritz (@sum_tail _ _ i.+1); first last.
- case: Htrevc => _ T2 _ _ p Hp; rewrite /ds_vectors addKn T2 ?mulr0 ?scale0r //; nl.
- by [].
apply: eq_bigr => p _; rewrite /ds_vectors addKn /coeff Ed; congr ((sqrt _)^-1 * _ *: _).
case: Htrevc => _ T2 _ _; rewrite (@sum_tail F [lmodType F of F^o] i.+1) // => q Hq.
by rewrite T2 ?normr0 ?expr0n //; nl.
Qed.
End Loop.
