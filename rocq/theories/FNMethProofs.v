(** Method numbers and liveness of children: no undefined behaviour in matrix functions. *)
From mathcomp Require Import all_ssreflect all_algebra.
From mathcomp Require Import zify.
From Verif Require Import Prelude FNModel FNSpec FNMatModel FNMatProofs.
Set Implicit Arguments. Unset Strict Implicit. Unset Printing Implicit Defensive.
Import GRing.Theory.
Local Open Scope ring_scope.

Lemma bind_nub A B (r : res A) (k : A -> res B) : r <> UB -> (forall x, k x <> UB) -> bind r k <> UB.
Proof. by case: r => //= a _; apply. Qed.
Lemma check_nub A c (k : res A) : k <> UB -> check c k <> UB.
Proof. by rewrite /check; case: c. Qed.

Section Good.
Variable K : Type.
Variable o : sops K.

Definition olive (h : heap K) (f : option nat) : Prop := match f with Some i => h_obj K h i <> None | None => True end.
Definition good_type (h : heap K) (t : option (fntype K)) : Prop :=
  match t with Some (TCombine _ f1 f2) => olive h f1 /\ olive h f2 | _ => True end.
Definition good (h : heap K) : Prop := forall i ob, h_obj K h i = Some ob ->
  (f_meth K ob < FN_MAX_SOLVE)%N /\ good_type h (f_type K ob).

Lemma empty_good : good (empty_heap K).
Proof. by []. Qed.

Lemma good_mono h h' t : (forall i, h_obj K h i <> None -> h_obj K h' i <> None) -> good_type h t -> good_type h' t.
Proof.
move=> H; case: t => [[| |c f1 f2]|] //= [H1 H2].
split; first by case: f1 H1 => [j|] //=; apply: H.
by case: f2 H2 => [j|] //=; apply: H.
Qed.

Lemma on_obj_good h f k h' : good h -> on_obj K h f k = Ok h' ->
  (forall ob ob', k ob = Ok ob' -> (f_meth K ob < FN_MAX_SOLVE)%N -> good_type h (f_type K ob) ->
     (f_meth K ob' < FN_MAX_SOLVE)%N /\ good_type h (f_type K ob')) -> good h'.
Proof.
move=> G; rewrite /on_obj. case E: (h_obj K h f) => [ob|] //.
case Ek: (k ob) => [ob'| | |] //= [<-] H i ob2 /=.
have M : forall i, h_obj K h i <> None -> h_obj K (hset K h f ob') i <> None.
  by move=> j /=; case: (PeanoNat.Nat.eqb_spec j f).
case: (PeanoNat.Nat.eqb_spec i f) => [_ [<-]|_ Ei].
  have [G1 G2] := G _ _ E. have [H1 H2] := H _ _ Ek G1 G2. by split=> //; apply: good_mono H2.
have [G1 G2] := G _ _ Ei. by split=> //; apply: good_mono G2.
Qed.

Lemma step_good h c h' : good h -> step K o h c = Ok h' ->
  (forall f m, c = OSetMethod K f m -> (m < FN_MAX_SOLVE)%N) -> good h'.
Proof.
move=> G; case: c => [|f t|f al be|f m|f p|f cs|f cs|f k|f c f1 f2] /= E Hm.
- case: E => <- i ob /=. case: (PeanoNat.Nat.eqb_spec i (h_next K h)) => [_ [<-]|_ Ei] //.
  have [G1 G2] := G _ _ Ei. split=> //; apply: good_mono G2 => j /=. by case: (PeanoNat.Nat.eqb_spec j _).
- apply: (on_obj_good G E) => ob ob' [<-] M T; rewrite /set_type.
  case Et: (f_type K ob) T => [t0|] T; last by split=> //=; case: t {E Hm}.
  case: ifP => _; last by split=> //=; case: t {E Hm}.
  by rewrite Et.
- apply: (on_obj_good G E) => ob ob'. rewrite /set_scale /check; case: ifP => // _ [<-] //.
- apply: (on_obj_good G E) => ob ob'. rewrite /set_method /check; case: ifP => // _ [<-] //= _ T.
  by split=> //; apply: (Hm f m).
- by apply: (on_obj_good G E) => ob ob' [<-].
- apply: (on_obj_good G E) => ob ob' [<-] M T; rewrite /set_numerator.
  by case Et: (f_type K ob) T => [[]|] //=; rewrite Et.
- apply: (on_obj_good G E) => ob ob' [<-] M T; rewrite /set_denominator.
  by case Et: (f_type K ob) T => [[]|] //=; rewrite Et.
- apply: (on_obj_good G E) => ob ob'. rewrite /set_phi_index.
  case Et: (f_type K ob) => [[|[| | | |k']|]|] //=; try by move=> [<-]; rewrite Et.
  by rewrite /check; case: ifP => // _ [<-].
- move: E; rewrite /live. case E1: (h_obj K h f1) => [o1|] //=. case E2: (h_obj K h f2) => [o2|] //= E.
  apply: (on_obj_good G E) => ob ob' [<-] M T; rewrite /set_children.
  by case Et: (f_type K ob) T => [[]|] //=; rewrite ?Et ?E1 ?E2.
Qed.

Lemma steps_good cs : forall h h', good h -> steps K o h cs = Ok h' ->
  (forall f m, List.In (OSetMethod K f m) cs -> (m < FN_MAX_SOLVE)%N) -> good h'.
Proof.
elim: cs => [|c cs IH] h h' G /=; first by case=> <-.
case E: (step K o h c) => [h1| | |] //= Es Hm.
apply: (IH h1) => //.
- apply: (step_good G E) => f m Ec. by apply: (Hm f m); left.
- by move=> f m H; apply: (Hm f m); right.
Qed.
End Good.

Section NoUB.
Variable K : fieldType.
Variable n' : nat.
Notation n := n'.+1.
Notation mat := ('M[K]_n).
Variable slf sdlf : leaf -> K -> res K.
Variable leafmat : leaf -> nat -> option (mat -> res mat).
Variable conj : K -> K.
Variable syev : mat -> res (mat * 'rV[K]_n).
Notation ops := (fops slf sdlf).
Hypothesis S1 : forall l x, slf l x <> UB.
Hypothesis S2 : forall l meth g A, leafmat l meth = Some g -> g A <> UB.
Hypothesis S3 : forall A, syev A <> UB.

Notation kids := (fun ob => match f_type K ob with Some (TCombine _ f1 f2) => f1 <> None /\ f2 <> None | _ => True end).

Lemma eval_nub h : good h -> forall d f x, f <> None -> olive h f -> tree_all kids d h f ->
  eval K ops d h f x <> UB.
Proof.
move=> G; elim=> [|d IH] [i|] x //= _ L.
case E: (h_obj K h i) L => [ob|] // _ [Hk T].
have [_ GT] := G _ _ E.
case: (f_type K ob) Hk T GT => [[ps qs|l|c f1 f2]|] //= Hk T GT.
- apply: bind_nub => //. rewrite /eval_rational. by case: qs {T GT} => // q qs; case: ifP.
- exact: bind_nub.
- case: Hk => K1 K2; case: T => T1 T2; case: GT => L1 L2.
  apply: bind_nub => //. apply: bind_nub; first exact: IH. move=> a.
  case: c; try (by apply: bind_nub => //; apply: IH); last exact: IH.
  by apply: bind_nub; [apply: IH|move=> y; case: ifP].
Qed.

Lemma mapm_nub (f : K -> res K) xs : (forall x, f x <> UB) -> mapm f xs <> UB.
Proof. by move=> H; elim: xs => [|x xs IH] //=; apply: bind_nub => // y; apply: bind_nub. Qed.

Lemma mat_priv_nub h size rk herm : good h -> forall d f a b fresh m, f <> None -> olive h f ->
  tree_all kids d h f -> mat_priv slf sdlf leafmat conj syev d h size rk herm f a b fresh m <> UB.
Proof.
move=> G; elim=> [|d IH] [i|] a b fresh m //= _ L.
case E: (h_obj K h i) L => [ob|] // _ [Hk T].
have [Gm GT] := G _ _ E. case: ifP => // _. rewrite leqNgt Gm /=.
case Et: (f_type K ob) Hk T GT => [t|] // Hk T GT.
case: ifP => _.
  apply: bind_nub => //. rewrite /sym_mat. apply: bind_nub => // -[Q e]. apply: bind_nub => //.
  rewrite /sym_w. apply: bind_nub => //. apply: mapm_nub => x.
  case: t Et Hk T GT => [ps qs|l|c f1 f2] Et //= Hk T GT.
  + rewrite /eval_rational. by case: qs {Et} => // q qs; case: ifP.
  + case: Hk => K1 K2; case: T => T1 T2; case: GT => L1 L2.
    have H1 y : eval K ops d h f1 y <> UB by apply: eval_nub.
    have H2 y : eval K ops d h f2 y <> UB by apply: eval_nub.
    apply: bind_nub => // y.
    case: c {Et}; try (by apply: bind_nub); last exact: H2.
    by apply: bind_nub => // z; case: ifP.
have B : forall x fr mm, basic_mat leafmat (mat_priv slf sdlf leafmat conj syev d h size rk herm) (f_meth K ob) t x b fr mm <> UB.
  move=> x fr mm; rewrite /basic_mat leqNgt Gm /=.
  case: t Et Hk T GT => [ps qs|l|c f1 f2] Et //= Hk T GT.
  - apply: check_nub. rewrite /rational_mat. apply: bind_nub; last by move=> ?; case: ifP.
    case: qs {Et} => // q qs. exact: check_nub.
  - case El: (leafmat l (f_meth K ob)) => [g|] //. by apply: bind_nub => //; apply: S2 El.
  - case: Hk => K1 K2; case: T => T1 T2; case: GT => L1 L2. apply: check_nub.
    rewrite /combine_mat; case: c {Et}.
    + by apply: bind_nub; [apply: IH|move=> ?; apply: bind_nub; [apply: IH|]].
    + by apply: bind_nub; [apply: IH|move=> ?; apply: bind_nub; [apply: IH|]].
    + by apply: bind_nub; [apply: IH|move=> ?; apply: bind_nub; [apply: IH|move=> ?; apply: check_nub]].
    + by apply: bind_nub; [apply: IH|move=> ?; apply: IH].
by apply: bind_nub => //; case: ifP.
Qed.
End NoUB.
