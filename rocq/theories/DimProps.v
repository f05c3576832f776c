(** Dimensions: the properties. *)
From mathcomp Require Import all_ssreflect all_algebra.
From mathcomp Require Import zify.
From Verif Require Import Prelude DimModel.
Set Implicit Arguments. Unset Strict Implicit. Unset Printing Implicit Defensive.

(** SVD: the number of values is limited by the problem size (at least one unless a threshold is used), ncv given by the
    user is only reduced to the size, mpd kept; the result has room for all requested values and is not larger than
    the problem.  Never rejected unless a given ncv is too small. *)
Theorem C65_svd thres maxnsol nsv ncv mpd : 0 < maxnsol ->
  let wanted := minn maxnsol (if (nsv == 0) && ~~ thres then 1 else nsv) in
  (svd_setup thres maxnsol nsv ncv mpd = Err <-> exists c, ncv = Some c /\ minn maxnsol c < wanted) /\
  forall nsv' ncv' mpd', svd_setup thres maxnsol nsv ncv mpd = Ok (nsv', ncv', mpd') ->
  [/\ nsv' = wanted, wanted <= ncv' <= maxnsol, forall c, ncv = Some c -> ncv' = minn maxnsol c,
      forall m, mpd = Some m -> mpd' = m &
      mpd = None -> mpd' = ncv' \/ [/\ ncv = None, 500 <= wanted & mpd' = 500]].
Proof.
move=> Hs wanted; rewrite /svd_setup /check.
set nv := if (minn nsv maxnsol == 0) && _ then 1 else _.
have Env : nv = wanted by rewrite /nv /wanted; case: (thres) => /=; rewrite ?andbF ?andbT; (try by rewrite minnC); do 2 case: ifP; lia.
have Hw : wanted <= maxnsol by rewrite /wanted geq_minl.
have Hnw : minn nsv maxnsol <= wanted by rewrite /wanted; case: ifP; lia.
rewrite Env; move: wanted Hw Hnw {Env} => w Hw Hnw.
case: ncv => [c|] /=.
  split; last first.
    move=> nsv' ncv' mpd'; case: ifP => // _; case: ifP => // H2 [<- <- <-]; split=> //.
    + by rewrite H2 geq_minl.
    + by move=> c' [<-].
    + by move=> m' ->.
    + by move=> ->; left.
  split.
    move=> H; exists c; split=> //; move: H; case: ifP => H1; last lia.
    by case: ifP => // H2; lia.
  by move=> [_ [[<-] H]]; case: ifP => // H1; case: ifP => // H2; lia.
split; first by split; [case: mpd => [m|] //; case: ifP|case=> c []].
move=> nsv' ncv' mpd'; case: mpd => [m|]; last case: ifP => H; case=> <- <- <-; split=> //.
- by rewrite geq_minl leq_min Hw leq_addr.
- by move=> m' [].
- by rewrite geq_minl leq_min Hw; lia.
- by left.
- by rewrite geq_minl leq_min Hw leq_addr.
- by right; split=> //; lia.
Qed.
(** PEP: the same with the dimension of the linearization; Krylov solvers get one more vector unless the subspace is the
    whole space. *)
Theorem C65_pep krylov dim nev ncv mpd : mpd <> Some 0 ->
  let wanted := minn nev dim in
  (pep_setup krylov dim nev ncv mpd = Err <-> exists c, ncv = Some c /\
     (minn dim c < wanted \/ [/\ krylov, minn dim c = wanted & wanted < dim])) /\
  forall nev' ncv' mpd', pep_setup krylov dim nev ncv mpd = Ok (nev', ncv', mpd') ->
  [/\ nev' = wanted, wanted <= ncv' <= dim, krylov -> wanted < ncv' \/ ncv' = dim,
      forall c, ncv = Some c -> ncv' = minn dim c &
      (forall m, mpd = Some m -> mpd' = m) /\
      (mpd = None -> mpd' = ncv' \/ [/\ ncv = None, 500 <= wanted & mpd' = 500])].
Proof.
move=> Hm wanted; rewrite /pep_setup /check -/wanted.
have : wanted <= dim by rewrite geq_minr.
move: wanted => w Hw; case: ncv => [c|] /=.
  split; last first.
    move=> nev' ncv' mpd'; case: ifP => // H [<- <- <-]; split=> //.
    + by rewrite geq_minl andbT; case: krylov H; lia.
    + by move=> Hk; move: H; rewrite Hk; lia.
    + by move=> c' [<-].
    + by split; [move=> m' ->|move=> ->; left].
  split.
    move=> H; exists c; split=> //; move: H; case: krylov; case: ifP => // H _; last by left; lia.
    by case: (ltngtP (minn dim c) w) => E1; [left|lia|right; split=> //; lia].
  by move=> [_ [[<-] [H|[-> H1 H2]]]]; case: ifP => //; [case: krylov; lia|lia].
split; first by split; [case: mpd Hm => [m|] //; case: ifP|case=> c []].
move=> nev' ncv' mpd'; case: mpd Hm => [m|] Hm; last case: ifP => H; case=> <- <- <-; split=> //.
- by rewrite geq_minl leq_min Hw leq_addr.
- move=> _; have : m <> 0 by move=> E1; apply: Hm; rewrite E1.
  by lia.
- by split=> // m' [].
- by rewrite geq_minl leq_min Hw; lia.
- by move=> _; lia.
- by split=> // _; left.
- by rewrite geq_minl leq_min Hw leq_addr.
- by move=> _; lia.
- by split=> // _; right; split=> //; lia.
Qed.
(** NEP: the same for at most n values. *)
Theorem C65_nep n nev ncv mpd :
  (nep_setup n nev ncv mpd = Err <-> exists c, ncv = Some c /\ c < nev) /\
  forall nev' ncv' mpd', nep_setup n nev ncv mpd = Ok (nev', ncv', mpd') ->
  [/\ nev' = nev, (ncv <> None \/ nev <= n) -> nev <= ncv', ncv = None -> ncv' <= n, forall c, ncv = Some c -> ncv' = c &
      (forall m, mpd = Some m -> mpd' = m) /\
      (mpd = None -> mpd' = ncv' \/ [/\ ncv = None, 500 <= nev & mpd' = 500])].
Proof.
rewrite /nep_setup /check; case: ncv => [c|].
  split; last first.
    move=> nev' ncv' mpd'; case: ifP => // H [<- <- <-]; split=> //.
    + by move=> c' [].
    + by split; [move=> m' ->|move=> ->; left].
  split; first by case: ifP => // H _; exists c; split=> //; lia.
  by move=> [_ [[<-] H]]; case: ifP => //; lia.
split; first by split; [case: mpd => [m|] //; case: ifP|case=> c []].
move=> nev' ncv' mpd'; case: mpd => [m|]; last case: ifP => H; case=> <- <- <-; split=> //.
- by case=> // Hn; rewrite leq_min Hn leq_addr.
- by rewrite geq_minl.
- by split=> // m' [].
- by case=> // Hn; rewrite leq_min Hn; lia.
- by rewrite geq_minl.
- by split=> // _; left.
- by case=> // Hn; rewrite leq_min Hn leq_addr.
- by rewrite geq_minl.
- by split=> // _; right; split=> //; lia.
Qed.
(** Refuted: a nonlinear problem may have more than n eigenvalues, but a request for them gives a subspace without room
    for them, accepted without an error. *)
Theorem C65_nep_many_refuted n nev mpd : n < nev ->
  exists ncv' mpd', nep_setup n nev None mpd = Ok (nev, ncv', mpd') /\ ncv' < nev.
Proof.
move=> H; rewrite /nep_setup; case: mpd => [m|]; last case: ifP => _; do 2 eexists; (split; first reflexivity); lia.
Qed.
(** Refuted: an object whose dimensions were never given by the user can be set up for other (larger) matrices.
    The default of the first setup counts as given in the second. *)
Theorem C65_reuse_refuted dim dim2 : 0 < dim < dim2 -> dim < 500 ->
  exists ncv mpd, pep_setup true dim dim None None = Ok (dim, ncv, mpd) /\
    pep_setup true dim2 dim (Some ncv) (Some mpd) = Err.
Proof.
move=> Hd H5; exists dim, dim; rewrite /pep_setup minnn H5; split.
  by congr (Ok (_, _, _)); lia.
rewrite /cap /check /=.
have -> : (minn dim dim2 < minn dim2 dim) || (minn dim2 dim == minn dim dim2) && (minn dim2 dim == dim2) = false by lia.
by [].
Qed.
Print Assumptions C65_svd.
Print Assumptions C65_pep.
Print Assumptions C65_nep.
Print Assumptions C65_nep_many_refuted.
Print Assumptions C65_reuse_refuted.
Example ex_C65 : [/\ svd_setup false 8 3 None None = Ok (3, 8, 8), pep_setup true 40 4 None (Some 6) = Ok (4, 10, 6),
  pep_setup true 40 4 (Some 4) None = Err & nep_setup 30 2 None None = Ok (2, 17, 17)].
Proof. by []. Qed.

Import GRing.Theory Num.Theory Order.TTheory. Local Open Scope ring_scope.
(** DSSetDimensions over any sequence of calls after allocation: the current size stays between 0 and ld and the
    truncated size equals it; l is between 0 and n after every call that sets it. *)
Inductive reach (issvd extrarow : bool) (ld : int) : dims -> Prop :=
  | reach0 : reach issvd extrarow ld (Dims 0 0 0 0)
  | reach_step d d' n l k : reach issvd extrarow ld d -> ds_set_dimensions issvd extrarow ld n l k d = Ok d' ->
      reach issvd extrarow ld d'.
Lemma checkOk A b (r : res A) x : check b r = Ok x -> b /\ r = Ok x.
Proof. by case: b. Qed.
Theorem C66_reach issvd extrarow ld d : 0 < ld -> reach issvd extrarow ld d ->
  [/\ 0 <= n_ d <= ld, t_ d = n_ d, (extrarow && ~~ issvd -> n_ d < ld) & 0 <= l_ d <= ld].
Proof.
move=> Hld; elim=> [|{}d d' n l k _ [I1 I2 I3 I4]]; first by split=> //=; lia.
rewrite /ds_set_dimensions; set rn := match n with Determine => _ | _ => _ end.
case En: rn => [n'| | |] //=.
have [J1 J3] : 0 <= n' <= ld /\ (extrarow && ~~ issvd -> n' < ld).
  move: En; rewrite /rn; case: n {rn} => [||v].
  - by case=> <-; case: extrarow I3 => /= _; split=> //; lia.
  - by case=> <-.
  move=> H; have [H1 {}H] := checkOk H; have [H2 [<-]] := checkOk H; split=> //.
  by case: extrarow {I3 H} H2 => //=; case: issvd => //=; rewrite orbF.
set rl := match l with Determine => _ | _ => _ end; case El: rl => [l'| | |] //=.
have J4 : 0 <= l' <= ld.
  move: El; rewrite /rl; case: l {rl} => [||v].
  - by case=> <-; lia.
  - by case=> <-.
  by move=> H; have [H1 [<-]] := checkOk H; lia.
by set rk := match k with Determine => _ | _ => _ end; case: rk => [k'| | |] //= [<-].
Qed.
(** What one call guarantees, and when it is rejected. *)
Theorem C66_call issvd extrarow ld n l k d : 0 <= n_ d <= ld -> 0 < ld ->
  (forall d', ds_set_dimensions issvd extrarow ld (Value n) (Value l) k d = Ok d' ->
     [/\ n_ d' = n, l_ d' = l, t_ d' = n & 0 <= l <= n]) /\
  (ds_set_dimensions issvd extrarow ld (Value n) (Value l) Determine d = Err <->
     ~~ (0 <= n <= ld) \/ [/\ extrarow, ~~ issvd & n = ld] \/ ~~ (0 <= l <= n)).
Proof.
move=> Hn Hld; split.
  move=> d'; rewrite /ds_set_dimensions /check; case: ifP => //= H1; case: ifP => //= H2; case: ifP => //= H3.
  by set rk := match k with Determine => _ | _ => _ end; case: rk => [k'| | |] //= [<-].
rewrite /ds_set_dimensions /check; case: ifP => //= H1; last by split=> // _; left.
case: ifP => //= H2; last first.
  split=> // _; right; left; move: H2; case: extrarow issvd => [] [] //=; try (move=> ?; split=> //; lia).
case: ifP => //= H3; split=> //; last by move=> _; right; right.
case=> [//|[[E1 E2 E3]|//]]; by move: H2; rewrite E1 (negbTE E2) /= orbF E3 ltxx.
Qed.
(** Refuted: k is between 0 and n after a call that sets it: every value is accepted if n is not negative. *)
Theorem C66_k_refuted issvd extrarow ld v d : 0 <= n_ d ->
  exists d', ds_set_dimensions issvd extrarow ld Current Current (Value v) d = Ok d' /\ k_ d' = v.
Proof.
move=> Hn; rewrite /ds_set_dimensions /= /check.
have -> : ((0 <= v) || (v <= n_ d)) = true by lia.
by eexists; split; first reflexivity.
Qed.
(** Refuted: the number of locked values is at most the size: reducing n with PETSC_CURRENT for l keeps l. *)
Theorem C66_locked_refuted issvd ld : 1 < ld ->
  exists d, reach issvd false ld d /\ n_ d < l_ d.
Proof.
move=> Hld; exists (Dims 0 1 0 0); split=> //.
apply: (@reach_step _ _ _ (Dims ld 1 0 ld) _ (Value 0) Current Determine).
  apply: (reach_step (n := Determine) (l := Value 1) (k := Value 0) (reach0 _ _ _)).
  by rewrite /ds_set_dimensions /= /check /=; have -> : (1 <= ld) = true by lia.
by rewrite /ds_set_dimensions /= /check /=; have -> : (0 <= ld) = true by lia.
Qed.
Print Assumptions C66_reach.
Print Assumptions C66_call.
Print Assumptions C66_k_refuted.
Print Assumptions C66_locked_refuted.
Example ex_C66 : ds_set_dimensions false true 10 (Value 9) (Value 2) Determine (Dims 0 0 0 0) = Ok (Dims 9 2 4 9).
Proof. by []. Qed.
