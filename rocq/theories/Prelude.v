(** Common vocabulary of the models: outcome of a C function, and C arrays
    with bounds-checked access. *)
From Coq Require Import ZArith List Lia.
Import ListNotations.
Open Scope Z_scope.

(** Outcome of a C function call.
    [Ok]   normal return; [Err] an error code was returned (failed PetscCheck);
    [UB]   undefined behaviour (out-of-range access, use of dead storage, ...);
    [Loop] the fuel given to a loop was exhausted (never an acceptable outcome). *)
Inductive res (A : Type) : Type :=
| Ok (a : A)
| Err
| UB
| Loop.
Arguments Ok {A} a.
Arguments Err {A}.
Arguments UB {A}.
Arguments Loop {A}.

Definition bind {A B} (r : res A) (f : A -> res B) : res B :=
  match r with Ok a => f a | Err => Err | UB => UB | Loop => Loop end.

Notation "'do' x <- r ; k" := (bind r (fun x => k))
  (at level 200, x name, r at level 100, k at level 200, right associativity).
Notation "'do' ' p <- r ; k" := (bind r (fun x => let 'p := x in k))
  (at level 200, p pattern, r at level 100, k at level 200, right associativity).

(** PetscCheck(c,...): error return unless [c] holds. *)
Definition check {A} (c : bool) (k : res A) : res A := if c then k else Err.

(** Reading a[i] of a C array of known length. *)
Definition aget {A} (l : list A) (i : Z) : res A :=
  if i <? 0 then UB
  else match nth_error l (Z.to_nat i) with Some a => Ok a | None => UB end.

Fixpoint lset {A} (l : list A) (i : nat) (v : A) : option (list A) :=
  match l, i with
  | [], _ => None
  | _ :: t, O => Some (v :: t)
  | h :: t, S i' => match lset t i' v with Some t' => Some (h :: t') | None => None end
  end.

(** Writing a[i] = v. *)
Definition aset {A} (l : list A) (i : Z) (v : A) : res (list A) :=
  if i <? 0 then UB
  else match lset l (Z.to_nat i) v with Some l' => Ok l' | None => UB end.

Definition zlen {A} (l : list A) : Z := Z.of_nat (length l).

Lemma aget_app_mid {A} (p q : list A) (a : A) (i : Z) :
  i = zlen p -> aget (p ++ a :: q) i = Ok a.
Proof.
  intros ->. unfold aget, zlen.
  destruct (Z.ltb_spec (Z.of_nat (length p)) 0); [lia|].
  rewrite Nat2Z.id, nth_error_app2, Nat.sub_diag by lia. reflexivity.
Qed.

Lemma lset_app_mid {A} (p q : list A) (a b : A) :
  lset (p ++ a :: q) (length p) b = Some (p ++ b :: q).
Proof. induction p; simpl; [reflexivity|]. now rewrite IHp. Qed.

Lemma aset_app_mid {A} (p q : list A) (a b : A) (i : Z) :
  i = zlen p -> aset (p ++ a :: q) i b = Ok (p ++ b :: q).
Proof.
  intros ->. unfold aset, zlen.
  destruct (Z.ltb_spec (Z.of_nat (length p)) 0); [lia|].
  rewrite Nat2Z.id, lset_app_mid. reflexivity.
Qed.

Lemma zlen_app {A} (p q : list A) : zlen (p ++ q) = zlen p + zlen q.
Proof. unfold zlen. rewrite app_length. lia. Qed.

Lemma zlen_cons {A} (a : A) (q : list A) : zlen (a :: q) = 1 + zlen q.
Proof. unfold zlen. simpl length. lia. Qed.

Lemma zlen_nil (A : Type) : zlen (@nil A) = 0.
Proof. reflexivity. Qed.

Lemma zlen_nonneg {A} (l : list A) : 0 <= zlen l.
Proof. unfold zlen; lia. Qed.

Lemma aget_ok_iff {A} (l : list A) i : (exists a, aget l i = Ok a) <-> 0 <= i < zlen l.
Proof.
  unfold aget, zlen. destruct (Z.ltb_spec i 0).
  - split; [intros [? ?]; discriminate | lia].
  - split.
    + intros [a Ha]. destruct (nth_error l (Z.to_nat i)) eqn:E; [|discriminate].
      assert (Z.to_nat i < length l)%nat by (apply nth_error_Some; congruence). lia.
    + intros Hi. destruct (nth_error l (Z.to_nat i)) eqn:E; [eauto|].
      apply nth_error_None in E. lia.
Qed.

Lemma lset_length {A} (l : list A) i v l' : lset l i v = Some l' -> length l' = length l.
Proof.
  revert i l'; induction l; intros [|i] l' H; simpl in *; try discriminate.
  - injection H as <-. reflexivity.
  - destruct (lset l i v) eqn:E; [|discriminate]. injection H as <-. simpl.
    f_equal. eauto.
Qed.

Lemma lset_nth_error {A} (l : list A) i v l' j :
  lset l i v = Some l' ->
  nth_error l' j = if Nat.eqb j i then Some v else nth_error l j.
Proof.
  revert i l' j; induction l; intros [|i] l' j H; simpl in *; try discriminate.
  - injection H as <-. destruct j; reflexivity.
  - destruct (lset l i v) eqn:E; [|discriminate]. injection H as <-.
    destruct j; simpl; [reflexivity|]. eauto.
Qed.

Lemma lset_some {A} (l : list A) i v : (i < length l)%nat -> exists l', lset l i v = Some l'.
Proof.
  revert i; induction l; intros [|i] H; simpl in *; try lia.
  - eauto.
  - destruct (IHl i) as [l' E]; [lia|]. rewrite E. eauto.
Qed.

Lemma aset_ok_iff {A} (l : list A) i v : (exists l', aset l i v = Ok l') <-> 0 <= i < zlen l.
Proof.
  unfold aset, zlen. destruct (Z.ltb_spec i 0).
  - split; [intros [? ?]; discriminate | lia].
  - split.
    + intros [a Ha]. destruct (lset l (Z.to_nat i) v) eqn:E; [|discriminate].
      clear Ha. assert (Z.to_nat i < length l)%nat; [|lia].
      revert E. generalize (Z.to_nat i) as k. revert l0. induction l as [|h t IH]; intros l0 [|k] E; simpl in *; try discriminate; try lia.
      destruct (lset t k v) eqn:E2; [|discriminate]. apply IH in E2. lia.
    + intros Hi. destruct (lset_some l (Z.to_nat i) v) as [l' E]; [lia|]. rewrite E. eauto.
Qed.

Lemma aset_len {A} (l l' : list A) i v : aset l i v = Ok l' -> zlen l' = zlen l.
Proof.
  unfold aset, zlen. destruct (i <? 0); [discriminate|].
  destruct (lset l (Z.to_nat i) v) eqn:E; [|discriminate]. intros [= <-].
  now rewrite (lset_length _ _ _ _ E).
Qed.

Lemma aget_aset {A} (l l' : list A) i v j :
  aset l i v = Ok l' -> aget l' j = if j =? i then Ok v else aget l j.
Proof.
  unfold aset, aget. destruct (Z.ltb_spec i 0); [discriminate|].
  destruct (lset l (Z.to_nat i) v) eqn:E; [|discriminate]. intros [= <-].
  destruct (Z.ltb_spec j 0).
  - destruct (Z.eqb_spec j i); [lia|reflexivity].
  - rewrite (lset_nth_error _ _ _ _ (Z.to_nat j) E).
    destruct (Z.eqb_spec j i).
    + subst. now rewrite Nat.eqb_refl.
    + destruct (Nat.eqb_spec (Z.to_nat j) (Z.to_nat i)); [lia|reflexivity].
Qed.

(** C loop [for (i=lo;i<hi;i++) body], threading a state. *)
Fixpoint for_nat {A} (k : nat) (i : Z) (body : Z -> A -> res A) (a : A) : res A :=
  match k with
  | O => Ok a
  | Datatypes.S k' => do a' <- body i a; for_nat k' (i+1) body a'
  end.
Definition forz {A} (lo hi : Z) (body : Z -> A -> res A) (a : A) : res A :=
  for_nat (Z.to_nat (hi - lo)) lo body a.

(** Loop rule: an invariant indexed by the loop counter. *)
Lemma forz_inv {A} (P : Z -> A -> Prop) lo hi body a :
  lo <= hi -> P lo a ->
  (forall i x, lo <= i < hi -> P i x -> exists y, body i x = Ok y /\ P (i+1) y) ->
  exists b, forz lo hi body a = Ok b /\ P hi b.
Proof.
  intros Hle H0 Hs. unfold forz.
  assert (G : forall k i x, i = hi - Z.of_nat k -> lo <= i -> P i x ->
     exists b, for_nat k i body x = Ok b /\ P hi b).
  { induction k as [|k IH]; intros i x Hi Hl Hp.
    - exists x. split; [reflexivity|]. replace hi with i by lia. exact Hp.
    - simpl. destruct (Hs i x) as (y & Ey & Py); [lia|exact Hp|].
      rewrite Ey. simpl. apply IH; [lia|lia|exact Py]. }
  apply (G _ lo a); [lia|lia|exact H0].
Qed.

(** Loop rule for a property preserved by every iteration of a terminated loop. *)
Lemma forz_pres {A} (P : A -> Prop) lo hi body a b :
  forz lo hi body a = Ok b -> P a ->
  (forall i x y, lo <= i < hi -> P x -> body i x = Ok y -> P y) -> P b.
Proof.
  unfold forz. intros E Pa Hs.
  assert (G : forall k i x, (k <= Z.to_nat (hi - lo))%nat -> lo <= i -> i + Z.of_nat k <= hi ->
     P x -> for_nat k i body x = Ok b -> P b).
  { induction k as [|k IH]; intros i x Hk Hl Hh Px Ex.
    - simpl in Ex. injection Ex as <-. exact Px.
    - cbn [for_nat] in Ex. destruct (body i x) as [y| | |] eqn:Ey; try discriminate.
      cbn [bind] in Ex. apply (IH (i + 1) y); try lia; auto. apply (Hs i x y); auto. lia. }
  destruct (Z.le_gt_cases lo hi).
  - apply (G (Z.to_nat (hi - lo)) lo a); auto; lia.
  - replace (Z.to_nat (hi - lo)) with 0%nat in E by lia. simpl in E. injection E as <-. exact Pa.
Qed.
