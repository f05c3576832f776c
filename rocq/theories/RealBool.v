(** Boolean tests on the reals and checked division. *)
From Coq Require Import Reals ZArith Bool Lra.
From Verif Require Import Prelude.
Open Scope R_scope.

Definition Rltb (a b : R) : bool := if Rlt_dec a b then true else false.
Definition Rleb (a b : R) : bool := if Rle_dec a b then true else false.
Definition Reqb (a b : R) : bool := if Req_EM_T a b then true else false.

Lemma RltbP a b : reflect (a < b) (Rltb a b).
Proof. unfold Rltb. destruct (Rlt_dec a b); constructor; assumption. Qed.
Lemma RlebP a b : reflect (a <= b) (Rleb a b).
Proof. unfold Rleb. destruct (Rle_dec a b); constructor; assumption. Qed.
Lemma ReqbP a b : reflect (a = b) (Reqb a b).
Proof. unfold Reqb. destruct (Req_EM_T a b); constructor; assumption. Qed.

(** Floating-point division; a zero divisor is outside the model. *)
Definition rdiv (a b : R) : res R := if Reqb b 0 then UB else Ok (a / b).

Lemma rdiv_ok a b : b <> 0 -> rdiv a b = Ok (a / b).
Proof. intros H. unfold rdiv. destruct (ReqbP b 0); [contradiction|reflexivity]. Qed.

(** PetscSign *)
Definition rsign (a : R) : Z := if Rleb 0 a then (if Reqb a 0 then 0%Z else 1%Z) else (-1)%Z.

Lemma rsign_pos a : rsign a = 1%Z <-> 0 < a.
Proof. unfold rsign. destruct (RlebP 0 a), (ReqbP a 0); split; intros; try discriminate; auto; lra. Qed.
Lemma rsign_zero a : rsign a = 0%Z <-> a = 0.
Proof. unfold rsign. destruct (RlebP 0 a), (ReqbP a 0); split; intros; try discriminate; auto; lra. Qed.
Lemma rsign_neg a : rsign a = (-1)%Z <-> a < 0.
Proof. unfold rsign. destruct (RlebP 0 a), (ReqbP a 0); split; intros; try discriminate; auto; lra. Qed.
Lemma rsign_cases a : (rsign a = 1%Z /\ 0 < a) \/ (rsign a = 0%Z /\ a = 0) \/ (rsign a = (-1)%Z /\ a < 0).
Proof. unfold rsign. destruct (RlebP 0 a), (ReqbP a 0); intuition lra. Qed.

(** Case analysis on a boolean real test in the goal or hypotheses. *)
Ltac rb :=
  match goal with
  | |- context [Rltb ?a ?b] => destruct (RltbP a b)
  | |- context [Rleb ?a ?b] => destruct (RlebP a b)
  | |- context [Reqb ?a ?b] => destruct (ReqbP a b)
  | H : context [Rltb ?a ?b] |- _ => destruct (RltbP a b)
  | H : context [Rleb ?a ?b] |- _ => destruct (RlebP a b)
  | H : context [Reqb ?a ?b] |- _ => destruct (ReqbP a b)
  end.

(** Case analysis on the test at the head of the left-hand side. *)
Ltac rbh :=
  match goal with
  | |- (if Rltb ?a ?b then _ else _) = _ => destruct (RltbP a b)
  | |- (if Rleb ?a ?b then _ else _) = _ => destruct (RlebP a b)
  | |- (if Reqb ?a ?b then _ else _) = _ => destruct (ReqbP a b)
  | |- Ok (if Rltb ?a ?b then _ else _) = _ => destruct (RltbP a b)
  | |- Ok (if Rleb ?a ?b then _ else _) = _ => destruct (RlebP a b)
  | |- Ok (if Reqb ?a ?b then _ else _) = _ => destruct (ReqbP a b)
  end.
