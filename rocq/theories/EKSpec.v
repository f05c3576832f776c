(** Vocabulary for Expokit: contracts of the operations used and the exact flow. *)
From mathcomp Require Import all_ssreflect all_algebra.
Set Implicit Arguments. Unset Strict Implicit. Unset Printing Implicit Defensive.
Import GRing.Theory Num.Theory. Local Open Scope ring_scope.

(** Roots of positive numbers *)
Definition root_spec (R : realFieldType) (pw : R -> nat -> R) : Prop :=
  forall z d, (0 < d)%N -> 0 < z -> 0 < pw z d /\ (z <= 1 -> pw z d <= 1).
(** A power of ten such that y has two digits before the point *)
Definition decade_spec (R : realFieldType) (decade : R -> R) : Prop :=
  forall y, 0 < y -> 0 < decade y /\ 10%:R * decade y <= y.
Definition ceil_spec (R : realFieldType) (ceil : R -> R) : Prop := forall z, z <= ceil z /\ ceil z < z + 1.
Definition norm_spec (R : realFieldType) (X : lmodType R) (nrm : X -> R) : Prop :=
  [/\ nrm 0 = 0, forall x y, nrm (x + y) <= nrm x + nrm y & forall c x, nrm (c *: x) = `|c| * nrm x].
(** [E h x] is exp(sgn h A) x: the flow of a dissipative operator does not increase distances *)
Definition contractive_flow (R : realFieldType) (X : lmodType R) (nrm : X -> R) (E : R -> X -> X) : Prop :=
  [/\ forall x, E 0 x = x, forall s t x, 0 <= s -> 0 <= t -> E (s + t) x = E t (E s x) &
      forall h x y, 0 <= h -> nrm (E h x - E h y) <= nrm (x - y)].
