(** Vocabulary for DSSort. *)
From mathcomp Require Import all_ssreflect.
Set Implicit Arguments. Unset Strict Implicit. Unset Printing Implicit Defensive.

(** [s] permutes the positions l..n-1 *)
Definition permutes (l n : nat) (s : nat -> nat) : Prop :=
  (forall i, l <= i < n -> l <= s i < n) /\ forall i j, l <= i < n -> l <= j < n -> s i = s j -> i = j.
(** [g] is [f] in the order [s] in positions l..n-1, and [f0] elsewhere *)
Definition reordered T (l n : nat) (s : nat -> nat) (f f0 g : nat -> T) : Prop :=
  (forall i, l <= i < n -> g i = f (s i)) /\ forall i, ~~ (l <= i < n) -> g i = f0 i.
(** The keys are in order in the positions l..t-1, equal ones in the original order *)
Definition in_order V (lt : V -> V -> bool) (l t : nat) (key : nat -> V) (s : nat -> nat) : Prop :=
  forall i j, l <= i < j -> j < t -> lt (key (s j)) (key (s i)) = false /\
    (lt (key (s i)) (key (s j)) = false -> s i < s j).
(** Strict weak order *)
Definition weak_order V (lt : V -> V -> bool) : Prop :=
  (forall a b, lt a b -> lt b a = false) /\ forall a b c, lt b a = false -> lt c b = false -> lt c a = false.
