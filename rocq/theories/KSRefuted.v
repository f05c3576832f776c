(** Krylov-Schur: what happens when the Krylov space is exhausted and not all of its values are wanted. *)
From mathcomp Require Import all_ssreflect all_algebra.
From mathcomp Require Import algC zify.
From Verif Require Import Prelude GSModel GSSpec GSProofs GSProps KrylovModel KrylovSpec KrylovProofs KrylovProps KrylovCases.
From Verif Require Import KSModel KSSpec KSProofs KSLoop KSProps KSCases.
Set Implicit Arguments. Unset Strict Implicit. Unset Printing Implicit Defensive.
Import GRing.Theory Num.Theory Order.TTheory.
Local Open Scope ring_scope.

Section Region.
Variables (F : numFieldType) (V : lmodType F) (dot : V -> V -> F) (conj : {rmorphism F -> F}) (sqrt : F -> F).
Hypothesis HH : hermitian conj dot.
Hypothesis Hsqrt : square_root sqrt.
Variables (op : V -> V) (N : nat).
Hypothesis Hop0 : op 0 = 0.
Hypothesis HN : N != 1%N.
Variables (et dt : F).
Hypothesis Hdt : 0 < dt.
Definition g1 : config F := Config 0 3 false true Never et dt.
Variables (schur : bool -> nat -> nat -> matrix F -> matrix F * matrix F)
  (trexc : nat -> nat -> nat -> matrix F * matrix F -> matrix F * matrix F)
  (trevc : nat -> matrix F -> nat -> F) (worse : F -> F -> bool).
Variables (kc : kconfig F) (back : F * F -> F * F) (inside : F * F -> bool) (converged : F * F -> F -> F)
  (random : nat -> V) (mi : nat) (lk : bool) (kp : nat -> nat).
Definition ks1 : kscfg := KSCfg 1 2 2 mi lk kp false.
Notation mem := (GSModel.mem V).

Let dL : forall a x y z, dot (a *: x + y) z = a * dot x z + dot y z. Proof. by case: HH. Qed.

Lemma sqrt01 : sqrt 0 = 0 /\ sqrt 1 = 1.
Proof.
have [_ H0] := Hsqrt (lexx 0); have [H1 H1'] := Hsqrt ler01; split.
  by apply/eqP; rewrite -sqrf_eq0 H0.
by apply/eqP; rewrite -(@eqr_expn2 _ 2) ?ler01 // H1' expr1n.
Qed.

(** A vector of norm one, nothing to orthogonalize against. *)
Lemma start_one (first : bool) x (s : mem) : dot x x = 1 ->
  exists2 s', start_vector dot conj sqrt op g1 ks1 first x 0 s = Ok (s', false) & col s' =1 upd (col s) 0 x.
Proof.
move=> Hx; rewrite /start_vector /= /orthogonalize_column /check /= /gs /= /mgs1 /= /norm_work /safe_sqrt /check /=.
have H1 : - dt < 1 by apply: lt_le_trans ler01; rewrite oppr_lt0.
rewrite /upd /= Hx real1 H1 ltr10 (proj2 sqrt01) /= oner_eq0 /= andbF.
eexists; first by [].
by move=> i /=; rewrite /upd /=; case: eqP => // _; rewrite invr1 scale1r.
Qed.

Lemma gs_one (s : mem) : col s 1%N = dot (col s 1%N) (col s 0%N) *: col s 0%N ->
  exists2 s', gs dot conj sqrt g1 (Column 1) None true true s = Ok (s', Some 0, Some true) &
    col s' =1 upd (col s) 1 0 /\ buf s' 1%N 0%N = dot (col s 1%N) (col s 0%N).
Proof.
move=> He; have H1 : - dt < 0 by rewrite oppr_lt0.
rewrite /gs /clean_coefficients /loop /= /gs1 /= /mgs1 /add_coefficients /loop /= /norm_work /safe_sqrt /check.
rewrite /work /= /upd /= -He subrr (dot0l dL) real0 H1 ltxx (proj1 sqrt01) /= eqxx /=.
eexists; first by []; split; first by [].
by rewrite /= /upd2 /= /upd /= add0r.
Qed.

(** One Arnoldi step from a vector that the operator multiplies by a number. *)
Lemma arnoldi_one (s : mem) A : let e := col s 0%N in op e = dot (op e) e *: e ->
  exists s' h, [/\ mat_arnoldi dot conj sqrt op N g1 (Some (Dense 3 2 3 A)) 0 2 0 s = Ok (s', Some h, 1%N, 0, true),
    col s' 0%N = e, col s' 1%N = 0 & entry h 0%N 0%N = dot (op e) e].
Proof.
move=> e He; rewrite /mat_arnoldi /check /= /mat_mult_column /check /= eq_sym (negbTE HN).
have [|s' E [C1 C2]] := @gs_one (with_col s (upd (col s) 1 (op e))); first by [].
rewrite /orthonormalize_column /check /= E /= eqxx andbF /=.
eexists; eexists; split; first by [].
- by rewrite C1 /upd.
- by rewrite C1.
by rewrite /= /upd2 /= /upd /= C2.
Qed.

Definition solver1 := solve dot conj sqrt op N g1 schur trexc trevc worse ks1 kc back inside converged.
Notation iteration := (iteration dot conj sqrt op N g1 schur trexc trevc worse ks1 kc back inside converged random).
Hypothesis Hkc : [/\ istrivial kc = false, trueres kc = false, refined kc = false, twosided kc = false & trackall kc = false].
Hypothesis Hback : uses_back kc = false.
Hypothesis Hmi : (1 < mi)%N.

Lemma conv_one eig q beta yv res err : krylov_convergence kc eig back inside converged (fun i => (i, q i)) yv res
    false 0 1 beta 0 1 err =
  Ok (if inside (back (eig 0%N)) && ~~ (tol kc <= converged (eig 0%N) (q 0%N * beta)) then 1%N else 0%N,
      upd err 0 (converged (eig 0%N) (q 0%N * beta))).
Proof.
case: Hkc => K1 K2 K3 K4 K5; rewrite /krylov_convergence K5 /= K1 Hback K2 K3 K4 /= mulr1.
by case: (inside _) => //=; case: (tol kc <= _).
Qed.

(** The value is not wanted: the new start vector is replaced by zero. *)
Lemma iteration_lost (r : run V) : nconv r = 0%N -> nkeep r = 0%N -> its r = 0%N ->
  let e := col (basis r) 0%N in let a := dot (op e) e in op e = a *: e -> inside (back (a, 0)) = false ->
  dot (random 1) (random 1) = 1 ->
  exists2 r', iteration r = Ok r' &
    [/\ nconv r' = 0%N, nkeep r' = 0%N, its r' = 1%N, why r' = None & col (basis r') 0%N = 0].
Proof.
move=> H1 H2 H3 e a He Hi Hr.
rewrite /KSModel.iteration H1 H2 H3 /= /set_dimensions /check /=.
have [s' [h [-> S1 S2 S3]]] := @arnoldi_one (basis r) (dA (dense_solver r)) He.
rewrite /= /ds_solve /= /ds_sort /= conv_one /= S3 -/e -/a Hi /=.
rewrite /stopping /= [(mi <= 1)%N]leqNgt Hmi /= andbF /=.
have [s2 -> S4] := @start_one false (random 1) s' Hr.
rewrite /= /mult_in_place /check /= /copy_col /check /=.
by eexists; first by []; split=> //=; rewrite /upd /= S4.
Qed.

(** Continuing with the vector zero: the value zero is accepted. *)
Lemma iteration_zero (r : run V) : nconv r = 0%N -> nkeep r = 0%N -> col (basis r) 0%N = 0 ->
  inside (back (0, 0)) -> ~~ (tol kc <= converged (0, 0) 0) ->
  exists2 r', iteration r = Ok r' & [/\ nconv r' = 1%N, why r' = Some Tol, eigr r' 0%N = 0 &
     errest r' 0%N = converged (0, 0) 0] /\ [/\ col (basis r') 0%N = 0, dl (dense_solver r') = 0%N & dn (dense_solver r') = 1%N].
Proof.
move=> H1 H2 E0 Hi Ht.
rewrite /KSModel.iteration H1 H2 /= /set_dimensions /check /=.
have He : op (col (basis r) 0%N) = dot (op (col (basis r) 0%N)) (col (basis r) 0%N) *: col (basis r) 0%N.
  by rewrite E0 Hop0 scaler0.
have [s' [h [-> S1 S2 S3]]] := @arnoldi_one (basis r) (dA (dense_solver r)) He.
rewrite E0 Hop0 (dot0l dL) in S3; rewrite E0 in S1.
rewrite /= /ds_solve /= /ds_sort /= conv_one /= S3 mulr0 Hi Ht /=.
rewrite /stopping /= andbF /= /mult_in_place /check /=.
by eexists; first by []; split; split=> //=; rewrite big_nat1 S1 scaler0.
Qed.

(** A start vector that is an eigenvector with an unwanted eigenvalue: the solver reports convergence to the
    value zero, with the vector zero. *)
Lemma solver1_zero x v d eig err : dot x x = 1 -> let a := dot (op x) x in op x = a *: x ->
  inside (back (a, 0)) = false -> inside (back (0, 0)) -> dot (random 1) (random 1) = 1 ->
  ~~ (tol kc <= converged (0, 0) 0) ->
  exists2 r, solver1 x random v d eig err = Ok r & [/\ why r = Some Tol, nconv r = 1%N, eigr r 0%N = 0,
    errest r 0%N = converged (0, 0) 0 &
    exists2 r', compute_vectors sqrt g1 trevc r = Ok r' & col (basis r') 0%N = 0].
Proof.
move=> Hx a He Hi Hi0 Hr Ht; rewrite /solver1 /solve.
have [s -> S] := @start_one true x v Hx.
have Es : col s 0%N = x by rewrite S.
have -> : maxn 1 (max_it ks1) = (mi.-2).+2 by rewrite /=; lia.
rewrite /=.
have He' : op (col s 0%N) = dot (op (col s 0%N)) (col s 0%N) *: col s 0%N by rewrite Es.
have Hi' : inside (back (dot (op (col s 0%N)) (col s 0%N), 0)) = false by rewrite Es.
have [r1 -> [R1 R2 R3 R4 R5]] := @iteration_lost (Run s d 0 0 0 eig err None) erefl erefl erefl He' Hi' Hr.
rewrite /= R4.
have [r2 -> [[Q1 Q2 Q3 Q4] [Q5 Q6 Q7]]] := @iteration_zero r1 R1 R2 R5 Hi0 Ht.
rewrite [bind _ _]/=.
have -> : iterate dot conj sqrt op N g1 schur trexc trevc worse ks1 kc back inside converged random mi.-2 r2 = Ok r2.
  by case: mi.-2 => [|f] /=; rewrite Q2.
rewrite /= /truncate /check Q1 Q6 Q7 /=.
eexists; first by []; split=> //.
rewrite /compute_vectors /check /= /mult_in_place /check /=.
by eexists; first by []; rewrite /= big_nat1 Q5 scaler0.
Qed.
End Region.

(** diag(1,2) *)
Definition diag12 (x : plane) : plane := pt x.1 (2%:R * x.2).
Definition kc3 : kconfig C := KConfig false false false false false false false (2%:R^-1).

(** C47 does not hold with a region (RGSetComplement etc.): for the operator diag(1,2), the region of values
    different from 1, the initial vector (1,0) and the random vectors (0,1), EPSSolve reports the converged
    value 0, with error estimate 0 and the vector zero.  EPSGetStartVector overwrites column k of the basis, which
    is then overwritten again by BVCopyColumn from column nv. *)
Theorem C47_region_refuted : exists (inside : C * C -> bool) (random : nat -> plane),
  [/\ inside (1, 0) = false /\ (forall a, a != 1 -> inside (a, 0)),
      (forall i, dot2 (random i) (random i) = 1),
      (forall x, diag12 x = 0 -> x = 0) &
  exists2 r, solve dot2 conj2 sqrt2 diag12 2 (g1 (2%:R^-1 : C) 1) schur2 trexc2 trevc2 by_size (ks1 7 true (fun m => m./2))
      kc3 id inside (fun _ e => e) (pt 1 0) random k0 ds0 (fun _ => 0) (fun _ => 0) = Ok r &
    [/\ why r = Some Tol, nconv r = 1%N, eigr r 0%N = 0, errest r 0%N = 0 &
      exists2 r', compute_vectors sqrt2 (g1 (2%:R^-1 : C) 1) trevc2 r = Ok r' & col (basis r') 0%N = 0]].
Proof.
exists (fun w => w.1 != 1), (fun _ => pt 0 1).
have E1 : dot2 (pt 1 0) (pt 1 0) = 1 by rewrite /dot2 /= rmorph1 rmorph0 mulr1 mulr0 addr0.
have E2 : dot2 (pt 0 1) (pt 0 1) = 1 by rewrite /dot2 /= rmorph1 rmorph0 mulr1 mulr0 add0r.
have E3 : diag12 (pt 1 0) = pt 1 0 by rewrite /diag12 /pt /= mulr0.
have H2 : 2%:R != 0 :> algC by rewrite pnatr_eq0.
split=> //.
- by split=> //=; rewrite eqxx.
- case=> a b; rewrite /diag12 /pt /= => -[Ea /eqP]; rewrite mulf_eq0 (negbTE H2) /= => /eqP Eb.
  by congr (_, _).
have D0 : diag12 0 = 0 by rewrite /diag12 /pt /= mulr0.
apply: (@solver1_zero _ _ dot2 conj2 sqrt2 dot2_hermitian sqrt2_root diag12 2 D0 erefl _ _ ltr01 schur2 trexc2 trevc2 by_size
  kc3 id _ (fun _ e => e) (fun _ => pt 0 1) 7 true _ (And5 erefl erefl erefl erefl erefl) erefl erefl (pt 1 0)) => //.
- by rewrite E3 E1 scale1r.
- by rewrite E3 E1 /= eqxx.
- by rewrite /= eq_sym oner_eq0.
- by rewrite /= invr_le0 lern0.
Qed.
Print Assumptions C47_region_refuted.
