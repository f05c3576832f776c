(** Krylov decompositions: concrete cases of C44-C46 and the refuted parts. *)
From mathcomp Require Import all_ssreflect all_algebra.
From mathcomp Require Import algC zify.
From Verif Require Import Prelude GSModel GSSpec GSProofs GSProps KrylovModel KrylovSpec KrylovProofs KrylovProps.
Set Implicit Arguments. Unset Strict Implicit. Unset Printing Implicit Defensive.
Import GRing.Theory Num.Theory Order.TTheory.
Local Open Scope ring_scope.

(** * Concrete cases *)
Lemma plane_dimension : dimension dot2 2.
Proof.
move=> u n Ho.
pose A := \matrix_(i < n, j < 2) (if j == 0 then (u i).1 else (u i).2 : algC).
pose B := \matrix_(j < 2, i < n) (if j == 0 then ((u i).1)^* else ((u i).2)^* : algC).
apply: (@mulmx1_min _ n 2 A B); apply/matrixP => i j; rewrite !mxE big_ord_recl big_ord1 !mxE /=.
by have := Ho i j (ltn_ord i) (ltn_ord j); rewrite /dot2 => ->.
Qed.

Definition swap (x : plane) : plane := pt x.2 x.1.
Lemma swap_self_adjoint : self_adjoint dot2 swap.
Proof. by move=> x y; rewrite /dot2 /swap /= addrC. Qed.
Lemma real_part_C : real_part conj2 (fun a => a : algC). Proof. by []. Qed.
(** First column e0; the buffer holds 7 everywhere. *)
Definition k0 : GSModel.mem plane := Mem (fun _ => pt 1 0) (pt 0 0) (fun _ => 0) (fun _ _ => 7%:R) (fun _ => 0) (fun _ => 0).
Lemma k0_orthonormal : orthonormal dot2 (col k0) 1.
Proof. by case=> // [] [] // _ _; rewrite /dot2 /= rmorph1 rmorph0 mulr1 mulr0 addr0. Qed.
Definition H0 : dense [numFieldType of algC] := Dense 3 3 3 (fun _ _ => 9%:R).
Definition T0 : tridiag [numFieldType of algC] := Tri 3 3 3 (fun _ => 9%:R) (fun _ => 9%:R).

Lemma swap_two m r H' s' e' m' beta' b u :
  krylov_basis dot2 0 0 2 m' u s' beta' b -> u 0%N = pt 1 0 ->
  arnoldi_matrix swap 0 2 0 m' H' s' (fun _ _ => 9%:R) e' beta' -> (m : bool) = m -> (r : refinement) = r ->
  [/\ m' = 2%N, b & beta' = 0].
Proof.
case=> /andP [K1 K2] K3 K4 K5 K6 K7 U0 [A1 A2 A3 A4] _ _.
have S0 : s' 0%N = pt 1 0 by rewrite K3.
have Hm : m' = 2%N.
  case: m' K1 K2 K3 K4 K5 K6 K7 A1 A2 A3 A4 => [|[|[|?]]] // _ _ _ _ K5 K6 K7 A1 A2 A3 A4.
  case: b K6 K7 => [/(_ erefl) [Eb _] _|_ /(_ erefl) [] //].
  have [c] := A1 0%N erefl; rewrite /comb big_geq // big_nat1 Eb !addn0 add0r scale0r addr0 S0 /swap /=.
  by case=> _ /eqP; rewrite scaler0 oner_eq0.
have Hb : b.
  case: (boolP b) => // /K7 [_ _ Ho]; rewrite Hm in Ho.
  by have := plane_dimension Ho.
by split=> //; have [] := K6 Hb.
Qed.

Example ex_C44 m r : exists s' H' beta' b,
  [/\ mat_arnoldi dot2 conj2 sqrt2 swap 2 (cfg false m r) (Some H0) 0 2 0 k0 = Ok (s', Some H', 2%N, beta', b),
      beta' = 0, b & swap (col s' 0%N) = entry H' 0%N 0%N *: col s' 0%N + entry H' 1%N 0%N *: col s' 1%N].
Proof.
have [s' [e' [m' [beta' [b [E K A]]]]]] :=
  @C44_arnoldi _ _ _ _ _ dot2_hermitian sqrt2_root dot2_positive swap 2 plane_dimension (cfg false m r)
   (cfg_eta false m r) (cfg_tol false m r) erefl 0 2 H0 0 k0 k0_orthonormal erefl erefl erefl.
have [Em Hb Eb] := swap_two K erefl A (erefl m) (erefl r).
rewrite Em in E A; exists s', (Dense 3 3 3 e'), beta', b; split=> //.
have [c] := am_relation A (j := 0) erefl.
by rewrite /comb big_geq // big_nat1 add0r.
Qed.

(** With the basis filling the space, the entry below the last column is what the buffer contained. *)
Theorem C44_full_refuted m r : exists s' H',
  mat_arnoldi dot2 conj2 sqrt2 swap 2 (cfg false m r) (Some H0) 0 2 0 k0 = Ok (s', Some H', 2%N, 0, true) /\
  (2 < lda H')%N /\ entry H' 2%N 1%N = 7%:R.
Proof.
have [s' [e' [m' [beta' [b [E K A L]]]]]] :=
  @arnoldi_all _ _ _ _ _ dot2_hermitian sqrt2_root dot2_positive swap 2 plane_dimension (cfg false m r)
   (cfg_eta false m r) (cfg_tol false m r) erefl 0 2 H0 0 k0 k0_orthonormal erefl erefl erefl.
have [Em Hb Eb] := swap_two K erefl A (erefl m) (erefl r).
rewrite Em Eb in E L; exists s', (Dense 3 3 3 e'); split; first by rewrite E Hb.
by split=> //; apply: L.
Qed.

(** m equal to the number of columns. *)
Example ex_C44_last m r :
  match mat_arnoldi dot2 conj2 sqrt2 swap 2 (cfg false m r) (Some (Dense 4 4 4 (fun _ _ => 0))) 0 4 0 k0 with
  | Err => True | Ok (_, _, m', _, b) => b /\ (m' < 4)%N | _ => False end.
Proof.
by have := @C44_last_column _ _ _ _ _ dot2_hermitian sqrt2_root dot2_positive swap 2 plane_dimension (cfg false m r)
   (cfg_eta false m r) (cfg_tol false m r) erefl (Some (Dense 4 4 4 (fun _ _ => 0))) 0 0 k0 k0_orthonormal erefl;
  case: (mat_arnoldi _ _ _ _ _ _ _ _ _ _ _).
Qed.

Lemma swap_two_T s' m' u a' b' beta' b :
  krylov_basis dot2 0 0 2 m' u s' beta' b -> u 0%N = pt 1 0 ->
  lanczos_matrix dot2 conj2 swap 0 2 0 m' s' (fun _ => 9%:R) a' (fun _ => 9%:R) b' beta' ->
  [/\ m' = 2%N, b & beta' = 0].
Proof.
case=> /andP [K1 K2] K3 K4 K5 K6 K7 U0 [A1 A2 A3 A4 A5 A6].
have S0 : s' 0%N = pt 1 0 by rewrite K3.
have Hm : m' = 2%N.
  case: m' K1 K2 K3 K4 K5 K6 K7 A1 A2 A3 A4 A5 A6 => [|[|[|?]]] // _ _ _ _ K5 K6 K7 A1 A2 A3 A4 A5 A6.
  case: b K6 K7 => [/(_ erefl) [Eb _] _|_ /(_ erefl) [] //].
  have [c] := A2; rewrite /comb big_geq // big_nat1 Eb /= !addn0 add0r scale0r addr0 S0 /swap /=.
  by case=> _ /eqP; rewrite scaler0 oner_eq0.
have Hb : b.
  case: (boolP b) => // /K7 [_ _ Ho]; rewrite Hm in Ho.
  by have := plane_dimension Ho.
by split=> //; have [] := K6 Hb.
Qed.

Example ex_C45 m r : exists s' T' m' beta' b,
  [/\ mat_lanczos dot2 conj2 sqrt2 (fun a => a) swap 2 true (cfg false m r) (Some T0) 0 2 0 k0 =
        Ok (s', Some T', m', beta', b), m' = 2%N &
      swap (col s' 1%N) = betat T' 0%N *: col s' 0%N + alpha T' 1%N *: col s' 1%N].
Proof.
have [s' [a' [b' [m' [beta' [b [E K A]]]]]]] :=
  @C45_lanczos _ _ _ _ _ (fun a => a) dot2_hermitian sqrt2_root dot2_positive swap 2 plane_dimension true (cfg false m r)
   (cfg_eta false m r) (cfg_tol false m r) erefl 0 2 T0 0 k0 real_part_C swap_self_adjoint
   (fun i (H : (i < 0)%N) => match Bool.diff_false_true H with end) k0_orthonormal erefl erefl erefl.
have [Hm Hb Eb] := swap_two_T K erefl A.
case: A => A1 A2 A3 A4 A5 A6.
exists s', (Tri 3 3 3 a' b'), m', beta', b; split=> //.
have [|c] := A1 1%N; first by rewrite Hm.
rewrite /comb big_geq // big_nat_recr // big_nat1 Eb Hm [X in X *: col s' (0 + 2)%N]/= scale0r addr0 add0r => E1.
exact: E1.
Qed.

Theorem C45_full_refuted m r : exists s' T',
  mat_lanczos dot2 conj2 sqrt2 (fun a => a) swap 2 true (cfg false m r) (Some T0) 0 2 0 k0 =
    Ok (s', Some T', 2%N, 0, true) /\ betat T' 1%N = 7%:R.
Proof.
have [s' [a' [b' [m' [beta' [b [E K A L]]]]]]] :=
  @lanczos_all _ _ _ _ _ (fun a => a) dot2_hermitian sqrt2_root dot2_positive swap 2 plane_dimension true (cfg false m r)
   (cfg_eta false m r) (cfg_tol false m r) erefl 0 2 T0 0 k0 real_part_C swap_self_adjoint
   (fun i (H : (i < 0)%N) => match Bool.diff_false_true H with end) k0_orthonormal erefl erefl erefl.
have [Hm Hb Eb] := swap_two_T K erefl A.
rewrite Hm Eb in E L; exists s', (Tri 3 3 3 a' b'); split; first by rewrite E Hb.
exact: L.
Qed.

(** Four positions: a real eigenvalue, a pair that is accepted, an eigenvalue that fails. *)
Definition kc0 : kconfig [numFieldType of algC] := KConfig true false true false false false false 1.
Definition cx (k : nat) : nat * algC := if k == 1%N then (2%N, 0) else (k, if (k < 3)%N then 0 else 1).
Example ex_C46 : exists e, krylov_convergence kc0 (fun _ => (0, 0)) id (fun _ => true) (fun _ r => r) cx (fun _ => 0)
   (fun _ _ => 0) false 0 4 1 1 1 (fun _ => 5%:R) = Ok (3%N, e) /\ e 2%N = 0.
Proof.
have Hp : forall k, starts (pair_at cx) 0 k -> (k < 0 + 4)%N -> pair_at cx k -> (k.+1 < 0 + 4)%N.
  by move=> [|[|[|[|k]]]] // _ _; rewrite /pair_at /cx /=.
have [kout [e [E [[K1 K2 K3] K4 K5 K6 K7]]]] :=
  @C46_convergence _ kc0 (fun _ => (0, 0)) id (fun _ => true) (fun _ r => r) cx (fun _ => 0)
   (fun _ _ => 0) 0 4 1 1 1 Hp false (fun _ => 5%:R).
have P0 : pair_at cx 0 = false by [].
have P1 : pair_at cx 1 by [].
have s0 : starts (pair_at cx) 0 0 by exact: starts0.
have s1 : starts (pair_at cx) 0 1 by apply: starts1.
have s3 : starts (pair_at cx) 0 3 by apply: starts2.
have er k : right_error kc0 (fun _ => (0, 0)) id (fun _ r => r) cx (fun _ _ => 0) 1 1 k = (cx k).2.
  by rewrite /right_error /tested_norm /= !mulr1.
have ac k : accepted kc0 (fun _ => (0, 0)) id (fun _ => true) (fun _ r => r) cx (fun _ => 0) (fun _ _ => 0) 1 1 1 k
   = ~~ (1 <= (cx k).2) by rewrite /accepted /= andbT er.
have Hk : kout = 3%N.
  case: (ltngtP kout 3) => // Hk.
    have := K3 (leq_trans Hk (isT : (3 <= 0 + 4)%N)); rewrite ac negbK /cx.
    case: (kout == 1%N); rewrite /= ?Hk ler10 //.
  by have := K4 3%N s3 Hk; rewrite ac /cx /= lexx.
exists e; rewrite E Hk; split=> //.
have [//|//|_ /(_ P1) ->] := K5 1%N s1; first by rewrite Hk.
by rewrite /estimate /= er.
Qed.

Print Assumptions C44_full_refuted.
Print Assumptions C45_full_refuted.
