(** Property theorem C05 (predefined comparison criteria) and C29 (SlepcAbs). *)
From mathcomp Require Import all_ssreflect all_algebra.
From Coq Require Import ZArith Lia.
From Verif Require Import SortSpec CmpModel CmpProofs.
Set Implicit Arguments.
Unset Strict Implicit.
Unset Printing Implicit Defensive.
Import Order.TTheory GRing.Theory Num.Theory.
Local Open Scope ring_scope.

(** The modulus of re + i*im. *)
Definition modulus (R : rcfType) (a : R * R) : R := Num.sqrt (a.1 ^+ 2 + a.2 ^+ 2).

(** C05 (consistency).  Every predefined criterion is a total preorder, in real and
    complex scalars, for every target. *)
Theorem C05_criteria_total_preorders (R : rcfType) (cplx : bool) (t : R * R) :
  [/\ total_preorder (@cmp_largest_magnitude R cplx)
    , total_preorder (@cmp_smallest_magnitude R cplx)
    , total_preorder (@cmp_largest_real R)
    , total_preorder (@cmp_smallest_real R)
    & [/\ total_preorder (@cmp_largest_imaginary R cplx)
        , total_preorder (@cmp_smallest_imaginary R cplx)
        , total_preorder (cmp_target_magnitude cplx t)
        , total_preorder (cmp_target_real t)
        & total_preorder (cmp_target_imaginary cplx t) /\ total_preorder (@cmp_smallest_pos_real R cplx)]].
Proof.
split; [exact: largest_magnitude_tp|exact: smallest_magnitude_tp|exact: largest_real_tp|exact: smallest_real_tp|].
split; [exact: largest_imaginary_tp|exact: smallest_imaginary_tp|exact: target_magnitude_tp|exact: target_real_tp|].
split; [exact: target_imaginary_tp|exact: smallest_pos_real_tp].
Qed.
Print Assumptions C05_criteria_total_preorders.

(** [strict c r]: the first argument is strictly preferred exactly when [r] holds. *)
Definition prefers (V : Type) (c : V -> V -> Z) (r : V -> V -> Prop) : Prop :=
  forall a b, Z.lt (c a b) 0 <-> r a b.

Lemma prefers_larger (V : Type) (R : realDomainType) (f : V -> R) :
  prefers (fun a b => if f a < f b then 1%Z else if f b < f a then (-1)%Z else 0%Z) (fun a b => f b < f a).
Proof. by move=> a b; case: (ltgtP (f a) (f b)) => _; split=> //; lia. Qed.
Lemma prefers_smaller (V : Type) (R : realDomainType) (f : V -> R) :
  prefers (fun a b => if f b < f a then 1%Z else if f a < f b then (-1)%Z else 0%Z) (fun a b => f a < f b).
Proof. by move=> a b; case: (ltgtP (f a) (f b)) => _; split=> //; lia. Qed.

(** C05 (meaning).  Strict preference is what the name of each criterion says. *)
Theorem C05_criteria_meaning (R : rcfType) (cplx : bool) (t : R * R) :
  [/\ prefers (@cmp_largest_magnitude R cplx) (fun a b => modulus b < modulus a)
    , prefers (@cmp_smallest_magnitude R cplx) (fun a b => modulus a < modulus b)
    , prefers (@cmp_largest_real R) (fun a b => b.1 < a.1)
    , prefers (@cmp_smallest_real R) (fun a b => a.1 < b.1)
    & [/\ prefers (cmp_target_magnitude true t)
            (fun a b => modulus (a.1 - t.1, a.2 - t.2) < modulus (b.1 - t.1, b.2 - t.2))
        , prefers (cmp_target_magnitude false t)
            (fun a b => modulus (a.1 - t.1, a.2) < modulus (b.1 - t.1, b.2))
        , prefers (cmp_target_real t) (fun a b => `|a.1 - t.1| < `|b.1 - t.1|)
        , prefers (cmp_target_imaginary true t) (fun a b => `|a.2 - t.2| < `|b.2 - t.2|)
        & prefers (@cmp_smallest_pos_real R cplx)
            (fun a b => if (0 < a.1) == (0 < b.1) then modulus a < modulus b else 0 < a.1)]].
Proof.
split; [ | | exact: prefers_larger | exact: prefers_smaller |].
- move=> a b; rewrite /cmp_largest_magnitude !abs_eigenvalueE; exact: (prefers_larger (@modulus R) a b).
- move=> a b; rewrite /cmp_smallest_magnitude !abs_eigenvalueE; exact: (prefers_smaller (@modulus R) a b).
split.
- move=> a b; rewrite /cmp_target_magnitude !abs_eigenvalueE.
  exact: (prefers_smaller (fun a => modulus (a.1 - t.1, a.2 - t.2)) a b).
- move=> a b; rewrite /cmp_target_magnitude !abs_eigenvalueE.
  exact: (prefers_smaller (fun a => modulus (a.1 - t.1, a.2)) a b).
- exact: (prefers_smaller (fun a : R * R => `|a.1 - t.1|)).
- exact: (prefers_smaller (fun a : R * R => `|a.2 - t.2|)).
- move=> a b; rewrite /cmp_smallest_pos_real !abs_eigenvalueE.
  case: ifP => [_|]; first exact: (prefers_smaller (@modulus R) a b).
  by case: (0 < a.1); case: (0 < b.1) => //= _; split=> //; lia.
Qed.
Print Assumptions C05_criteria_meaning.

(** C05 (imaginary criteria).  First by imaginary part (absolute value in real scalars),
    ties in favour of the larger modulus. *)
Theorem C05_criteria_imaginary (R : rcfType) (cplx : bool) :
  let im (a : R * R) := if cplx then a.2 else `|a.2| in
  prefers (@cmp_largest_imaginary R cplx)
    (fun a b => im b < im a \/ (im a = im b /\ modulus b < modulus a)) /\
  prefers (@cmp_smallest_imaginary R cplx)
    (fun a b => im a < im b \/ (im a = im b /\ modulus b < modulus a)).
Proof.
move=> im; split=> a b.
- rewrite /cmp_largest_imaginary /im_part -/(im a) -/(im b) !abs_eigenvalueE -!/(modulus _).
  case: (ltgtP (im a) (im b)) => h; rewrite /prefer_larger.
  + by split=> [h2|[|[e]] //]; [exfalso; lia|rewrite e ltxx in h].
  + by split=> // _; left.
  + case: (ltgtP (modulus a) (modulus b)) => h2; split=> h3; try (by right); try (exfalso; lia); try lia.
    * by case: h3 => [|[]].
    * by case: h3 => [|[]].
- rewrite /cmp_smallest_imaginary /im_part -/(im a) -/(im b) !abs_eigenvalueE -!/(modulus _).
  case: (ltgtP (im b) (im a)) => h; rewrite /prefer_larger.
  + by split=> [h2|[|[e]] //]; [exfalso; lia|rewrite e ltxx in h].
  + by split=> // _; left.
  + case: (ltgtP (modulus a) (modulus b)) => h2; split=> h3; try (by right); try (exfalso; lia); try lia.
    * by case: h3 => [|[]].
    * by case: h3 => [|[]].
Qed.
Print Assumptions C05_criteria_imaginary.

(** C05 (conjugates).  In real scalars (where a target is real) no criterion
    distinguishes a value from its conjugate. *)
Theorem C05_criteria_conjugate (R : rcfType) (t a b : R * R) :
  let conj (a : R * R) := (a.1, - a.2) in
  [/\ cmp_largest_magnitude false (conj a) b = cmp_largest_magnitude false a b
    , cmp_smallest_magnitude false (conj a) b = cmp_smallest_magnitude false a b
    , cmp_largest_real (conj a) b = cmp_largest_real a b
    , cmp_smallest_real (conj a) b = cmp_smallest_real a b
    & [/\ cmp_largest_imaginary false (conj a) b = cmp_largest_imaginary false a b
        , cmp_smallest_imaginary false (conj a) b = cmp_smallest_imaginary false a b
        , cmp_target_magnitude false t (conj a) b = cmp_target_magnitude false t a b
        , cmp_target_real t (conj a) b = cmp_target_real t a b
        & cmp_smallest_pos_real false (conj a) b = cmp_smallest_pos_real false a b]].
Proof.
have E (x : R * R) : abs_eigenvalue false (x.1, - x.2) = abs_eigenvalue false x.
  by rewrite !abs_eigenvalueE /= sqrrN.
split=> //; try by rewrite /cmp_largest_magnitude /cmp_smallest_magnitude E.
split=> //.
- by rewrite /cmp_largest_imaginary /im_part E /= normrN.
- by rewrite /cmp_smallest_imaginary /im_part E /= normrN.
- by rewrite /cmp_target_magnitude !abs_eigenvalueE /= sqrrN.
- by rewrite /cmp_smallest_pos_real E.
Qed.
Print Assumptions C05_criteria_conjugate.

(** C29.  SlepcAbs(x,y) is the exact modulus sqrt(x^2+y^2), and never divides by zero
    (its quotient is only formed when the larger magnitude is positive). *)
Theorem C29_slepc_abs_modulus (R : rcfType) (x y : R) :
  slepc_abs x y = Num.sqrt (x ^+ 2 + y ^+ 2) /\
  (Num.min `|x| `|y| != 0 -> Num.max `|x| `|y| != 0).
Proof.
split; first exact: slepc_absE.
move=> h; apply: lt0r_neq0; apply: (@lt_le_trans _ _ (Num.min `|x| `|y|)).
  by rewrite lt_def h le_minr !normr_ge0.
by case: (leP `|x| `|y|) => // /ltW.
Qed.
Print Assumptions C29_slepc_abs_modulus.

(** In every real closed field |3-4i| = 5 is preferred to 4. *)
Example C05_example (R : rcfType) : cmp_largest_magnitude false (3%:R : R, - 4%:R) (4%:R, 0) = (-1)%Z.
Proof.
rewrite /cmp_largest_magnitude !abs_eigenvalueE /= expr0n addr0 sqrrN.
have -> : (3%:R : R) ^+ 2 + 4%:R ^+ 2 = 5%:R ^+ 2 by rewrite -!natrX -natrD.
by rewrite !sqrtr_sqr !ger0_norm ?ler0n // /prefer_larger !ltr_nat.
Qed.
